(** * C53: the Cholesky factor of a positive semidefinite matrix squares back to it.

    LdltModel.v follows the branches of cholesky_factor and cholesky_square; Eigen's LLT and LDLT decompositions are
    arbitrary functions that keep the contracts of LdltSpec.v ([the_llt] and [the_ldlt] are such functions). True for
    zero, identity, constant and diagonal matrices and for positive definite ones; for singular stored matrices the
    factor is that of a reordered matrix, and some matrices that are not semidefinite are not rejected. *)
From mathcomp Require Import all_ssreflect all_algebra.
From Verif Require Import ShortModel ShortSpec LdltModel LdltSpec LdltProofs LdltProofs2.
Set Implicit Arguments.
Unset Strict Implicit.
Unset Printing Implicit Defensive.
Import GRing.Theory Num.Theory Order.Theory.
Local Open Scope ring_scope.

(** The contracts can be met. *)
Theorem decompositions_exist (R : rcfType) : llt_contract (@the_llt R) /\ ldlt_contract (@the_ldlt R).
Proof. by split; [exact: the_llt_ok|exact: the_ldlt_ok]. Qed.
Print Assumptions decompositions_exist.

(** 2x2 matrices used in the examples. *)
Section Objects.
Variable R : rcfType.
Definition mat2 (a b c d : R) (i j : nat) : R := if i == 0%N then (if j == 0%N then a else b) else (if j == 0%N then c else d).
Definition herm2 (al : bool) (a b c d : R) : obj R := Obj (KHerm al (mat2 a b c d)) 2 2 true false true.

Lemma herm2_sym al a b c d : symmetric (value (herm2 al a b c d)).
Proof. by rewrite /herm2 value_herm; exact: sym_symmetric. Qed.

Lemma herm2_form al a b c d v : quadratic_form (value (herm2 al a b c d)) v =
  a * v 0%N ^+ 2 + d * v 1%N ^+ 2 + (if al then c else b) * (v 0%N * v 1%N) *+ 2.
Proof.
rewrite /quadratic_form /= !big_ord_recl !big_ord0 /= !addr0 /entry /=.
have sq (x y : R) : x * y * x = y * x ^+ 2 by rewrite [x * y]mulrC -mulrA expr2.
have cr (x y z : R) : x * z * y = z * (x * y) by rewrite [x * z]mulrC mulrA.
by case: al => /=; rewrite /mat2 /= !sq !cr [v 1%N * v 0%N]mulrC mulr2n -!addrA; congr (_ + _); rewrite addrA [LHS]addrC.
Qed.

Lemma herm2_definite : definite (value (herm2 false 2%:R 1 0 2%:R)).
Proof.
split=> [|v i hi vi]; first exact: herm2_sym.
rewrite herm2_form /= mul1r.
have -> : 2%:R * v 0%N ^+ 2 + 2%:R * v 1%N ^+ 2 + (v 0%N * v 1%N) *+ 2 = v 0%N ^+ 2 + v 1%N ^+ 2 + (v 0%N + v 1%N) ^+ 2.
  by rewrite sqrrD [X in _ = _ + X]addrAC [RHS]addrA; congr (_ + _); rewrite !mulr_natl !mulr2n addrACA.
by case: i hi vi => [|[|//]] _ vi; apply: ltr_paddr; rewrite ?sqr_ge0 //;
  [apply: ltr_paddr|apply: ltr_paddl]; rewrite ?sqr_ge0 // lt_neqAle sqr_ge0 eq_sym sqrf_eq0 vi.
Qed.

Lemma herm2_ones (al : bool) c : semidefinite (value (herm2 al 1 (if al then c else 1) (if al then 1 else c) 1)) .
Proof.
split=> [|v]; first exact: herm2_sym.
rewrite herm2_form; have -> : (if al then if al then 1 else c else if al then c else 1) = 1 by case: al.
by rewrite !mul1r addrAC -sqrrD sqr_ge0.
Qed.

Lemma herm2_ones_sing (al : bool) c : ~ definite (value (herm2 al 1 (if al then c else 1) (if al then 1 else c) 1)).
Proof.
case=> _ /(_ (fun i => if i == 0%N then 1 else -1) 0%N isT (oner_neq0 _)).
rewrite herm2_form; have -> : (if al then if al then 1 else c else if al then c else 1) = 1 by case: al.
have e (x y : R) : 1 * x ^+ 2 + 1 * y ^+ 2 + 1 * (x * y) *+ 2 = (x + y) ^+ 2 by rewrite !mul1r addrAC -sqrrD.
by rewrite e /= subrr expr0n ltxx.
Qed.
End Objects.

(** ** What holds *)

(** Zero, identity, constant and diagonal matrices, whatever their static or dynamic sizes. *)
Theorem cholesky_shortcut_partial (R : rcfType) llt ldlt tl (o : obj R) :
  wf o -> (0 < orows o)%N -> constant o || diagonal o -> semidefinite (value o) ->
  factors_into tl (cholesky_factor llt ldlt tl o) (value o).
Proof. by move=> w n0 k sd; have [t [? [? ?]]] := shortcut_ok llt ldlt tl w n0 k sd; exists t. Qed.
Print Assumptions cholesky_shortcut_partial.

Example cholesky_shortcut_example (R : rcfType) llt ldlt :
  factors_into true (cholesky_factor llt ldlt true (Obj (KConst false (4%:R : R)) 3 3 true false true))
    (Mat 3 3 (fun _ _ => 4%:R)).
Proof.
apply: cholesky_shortcut_partial => //; split=> // v; rewrite /quadratic_form /=.
have -> : \sum_(i < 3) \sum_(j < 3) v i * 4%:R * v j = 4%:R * (\sum_(i < 3) v i) ^+ 2.
  by rewrite expr2 mulr_suml mulr_sumr; apply: eq_bigr => i _; rewrite !mulr_sumr; apply: eq_bigr => j _; rewrite [v i * _]mulrC mulrA.
by rewrite mulr_ge0 ?sqr_ge0 // ler0n.
Qed.

(** Positive definite matrices, in either triangle, with a factor of either shape. Missing from the property: singular
    matrices that are neither constant nor diagonal. *)
Theorem cholesky_definite_partial (R : rcfType) llt ldlt tl (o : obj R) :
  llt_contract llt -> wf o -> (0 < orows o)%N ->
  (if okind o is KHerm _ _ then true else false) || constant o || diagonal o -> definite (value o) ->
  factors_into tl (cholesky_factor llt ldlt tl o) (value o).
Proof. by move=> ok w n0 k pd; have [t [? [? ?]]] := definite_ok ldlt tl ok w n0 k pd; exists t. Qed.
Print Assumptions cholesky_definite_partial.

Example cholesky_definite_example (R : rcfType) tl :
  factors_into tl (cholesky_factor (@the_llt R) (@the_ldlt R) tl (herm2 false 2%:R 1 0 2%:R)) (value (herm2 false 2%:R 1 0 2%:R)).
Proof. by apply: cholesky_definite_partial => //; [exact: the_llt_ok|exact: herm2_definite]. Qed.

(** A singular matrix: the factor squares to the matrix with its rows and columns in the order LDLT pivoted them, so
    the property holds if, and only if, that reordering leaves the matrix unchanged. *)
Theorem cholesky_singular_partial (R : rcfType) llt ldlt tl (o : obj R) f :
  llt_contract llt -> ldlt_contract ldlt ->
  okind o = KHerm true f -> constant o || diagonal o = false ->
  semidefinite (value o) -> ~ definite (value o) -> lok (ldlt (orows o) f) ->
  factors_into tl (cholesky_factor llt ldlt tl o) (permuted (lperm (ldlt (orows o) f)) (value o)).
Proof. by move=> ok ok' k h sd nd lk; have [t [? [? ?]]] := singular_ok ok' ok tl k h sd nd lk; exists t. Qed.
Print Assumptions cholesky_singular_partial.

Lemma diag01 (R : rcfType) : semidefinite (value (herm2 true 0 0 0 (1 : R))) /\ ~ definite (value (herm2 true 0 0 0 (1 : R))).
Proof.
split; first by split=> [|v]; [exact: herm2_sym|rewrite herm2_form !mul0r mul0rn add0r addr0 mul1r sqr_ge0].
case=> _ /(_ (fun i => if i == 0%N then 1 else 0) 0%N isT (oner_neq0 _)).
by rewrite herm2_form /= !mul0r mul0rn expr0n mulr0 !addr0 ltxx.
Qed.

Example cholesky_singular_example (R : rcfType) tl :
  factors_into tl (cholesky_factor (@the_llt R) (@the_ldlt R) tl (herm2 true 0 0 0 1)) (Mat 2 2 (mat2 1 0 0 0)).
Proof.
have [sd nd] := diag01 R.
have lk : lok (the_ldlt 2 (mat2 (0 : R) 0 0 1)) by rewrite /the_ldlt /is_mat2 /= !eqxx.
have [t [h1 h2 [m [h3 [s1 s2 s3]]]]] := @cholesky_singular_partial _ _ _ tl (herm2 true 0 0 0 1) _ (@the_llt_ok R) (@the_ldlt_ok R) (erefl _) (erefl _) sd nd lk.
exists t; split=> //; exists m; split=> //; split=> // i j hi hj; rewrite s3 //.
rewrite /permuted /= /the_ldlt /is_mat2 /= !eqxx /= /entry /=.
by move: hi hj; rewrite s1 s2 /=; case: i => [|[|//]]; case: j => [|[|//]].
Qed.

(** Indefinite matrices are rejected with an exception, if LDLT succeeds on them. Missing: diagonal matrices and failures
    of LDLT, see [cholesky_indefinite_refuted] and [cholesky_failure_refuted]. *)
Theorem cholesky_indefinite_partial (R : rcfType) llt ldlt tl (o : obj R) f :
  llt_contract llt -> ldlt_contract ldlt ->
  okind o = KHerm true f -> constant o || diagonal o = false ->
  indefinite (value o) -> lok (ldlt (orows o) f) -> cholesky_factor llt ldlt tl o = Thrown.
Proof. move=> ok ok'; exact: indefinite_ok. Qed.
Print Assumptions cholesky_indefinite_partial.

Lemma herm2_indefinite (R : rcfType) : indefinite (value (herm2 true 1 0 2%:R (1 : R))).
Proof.
split; first exact: herm2_sym.
split.
  exists (fun i => if i == 0%N then 1 else -1); rewrite herm2_form /= sqrrN !expr1n !mulr1 !mul1r mulrN1 mulNrn.
  by rewrite -mulrnA -mulr2n subr_lt0 ltr_nat.
by exists (fun=> 1); rewrite herm2_form /= !expr1n !mulr1 -mulrnA -mulr2n -natrD ltr0n.
Qed.

Example cholesky_indefinite_example (R : rcfType) tl :
  cholesky_factor (@the_llt R) (@the_ldlt R) tl (herm2 true 1 0 2%:R 1) = Thrown.
Proof.
apply: (@cholesky_indefinite_partial _ _ _ _ (herm2 true 1 0 2%:R 1) _ (@the_llt_ok R) (@the_ldlt_ok R) (erefl _)) => //; first exact: herm2_indefinite.
rewrite /= /the_ldlt /is_mat2 /= !eqxx oner_eq0 /=.
by case: ifP => // /andP[/eqP h _]; have := ltr01 R; rewrite h oppr_gt0 ltr10.
Qed.

(** ** What does not hold *)

(** The factor of diag(0, 1) squares to diag(1, 0), whatever LLT and LDLT do within their contracts. *)
Theorem cholesky_singular_refuted (R : rcfType) : exists o : obj R, [/\ wf o, semidefinite (value o) &
  forall llt ldlt tl f, llt_contract llt -> ldlt_contract ldlt -> okind o = KHerm true f -> lok (ldlt 2%N f) ->
    ~ factors_into tl (cholesky_factor llt ldlt tl o) (value o)].
Proof.
have [sd nd] := diag01 R.
exists (herm2 true 0 0 0 1); split=> // llt ldlt tl f ok ok' [<-] lk [t [h1 _ [m [h2 [s1 s2 s3]]]]].
have [t' [h1' _ [m' [h2' [s1' s2' s3']]]]] := @cholesky_singular_partial _ _ _ tl (herm2 true 0 0 0 1) _ ok ok' (erefl _) (erefl _) sd nd lk.
move: h1'; rewrite h1 => -[et]; subst t'; move: h2'; rewrite h2 => -[em]; subst m'.
have := s3 0%N 0%N; rewrite s1 s2 s3' ?s1 ?s2 // => /(_ isT isT).
have [[p1 p2] l e z _] := ok' _ _ lk; set x := ldlt _ _ in p1 p2 l e z *.
rewrite /= /entry /= -/x.
case p0 : (lperm x 0%N) (p1 0%N isT) => [|[|//]] _; last by move/eqP; rewrite oner_eq0.
case q0 : (lperm x 1%N) (p1 1%N isT) => [|[|//]] _; first by have := p2 0%N 1%N isT isT; rewrite p0 q0 => /(_ erefl).
have l00 : lL x 0%N 0%N = 1 by rewrite l.
have l01 : lL x 0%N 1%N = 0 by rewrite l.
have := e 0%N 0%N isT isT; rewrite p0 /= /mat2 /= !big_ord_recl big_ord0 /= l00 l01 !mul0r !addr0 mulr1 mul1r => /esym d0.
have := e 1%N 1%N isT isT; rewrite q0 /= /mat2 /= !big_ord_recl big_ord0 /= d0 (z 0%N 1%N) // !mulr0 !mul0r !addr0.
by move/eqP; rewrite oner_eq0.
Qed.
Print Assumptions cholesky_singular_refuted.

(** A singular matrix stored in the upper triangle: LDLT is given the lower triangle, which is not part of the value.
    The matrix of ones is rejected as indefinite. *)
Theorem cholesky_upper_refuted (R : rcfType) : exists (o : obj R) (f : nat -> nat -> R),
  [/\ wf o, okind o = KHerm false f, semidefinite (value o) &
  forall llt ldlt tl, llt_contract llt -> ldlt_contract ldlt -> lok (ldlt 2%N f) -> cholesky_factor llt ldlt tl o = Thrown].
Proof.
exists (herm2 false 1 1 2%:R 1), (mat2 1 1 2%:R 1); split=> //; first exact: (@herm2_ones R false).
move=> llt ldlt tl ok ok' lk; apply: (@indefinite_gen _ _ _ ok' ok _ _ (herm2 false 1 1 2%:R 1) _ (erefl _)) => //.
  exact: (@herm2_ones_sing R false).
have := herm2_indefinite R; rewrite /herm2 value_herm => -[s [[v h] [w h']]]; split; first exact: sym_symmetric.
by split; [exists v; move: h|exists w; move: h'];
 rewrite /quadratic_form /= !big_ord_recl !big_ord0 /= /mat2 /=.
Qed.
Print Assumptions cholesky_upper_refuted.

Example cholesky_upper_example (R : rcfType) : lok (the_ldlt 2 (mat2 (1 : R) 1 2%:R 1)).
Proof.
rewrite /= /the_ldlt /is_mat2 /= !eqxx oner_eq0 /=.
by case: ifP => // /andP[/eqP h _]; have := ltr01 R; rewrite h oppr_gt0 ltr10.
Qed.

(** An indefinite diagonal matrix is not rejected: the result contains NaN. *)
Theorem cholesky_indefinite_refuted (R : rcfType) : exists o : obj R, [/\ wf o, indefinite (value o) &
  forall llt ldlt tl, cholesky_factor llt ldlt tl o = NotFinite].
Proof.
exists (Obj (KDiag (fun i => if i == 0%N then 1 else -1)) 2 2 true true true); split=> // [|llt ldlt tl].
  split; first by split=> // i j _ _; rewrite /= /entry /= eq_sym; case: eqP => // ->.
  split; [exists (fun i => if i == 0%N then 0 else 1)|exists (fun i => if i == 0%N then 1 else 0)];
    rewrite /quadratic_form /= !big_ord_recl !big_ord0 /= /entry /= ?(mul0r, mulr0, mul1r, mulr1, addr0, add0r) ?ltr01 //.
  by rewrite oppr_lt0 ltr01.
by rewrite /cholesky_factor /= /entry /= oppr_ge0 ler10 !andbF.
Qed.
Print Assumptions cholesky_indefinite_refuted.

(** So does a non-zero negative semidefinite matrix: it passes the test "neither positive nor negative". *)
Theorem cholesky_negative_refuted (R : rcfType) llt ldlt tl (o : obj R) f i j :
  llt_contract llt -> ldlt_contract ldlt ->
  okind o = KHerm true f -> constant o || diagonal o = false ->
  symmetric (value o) -> (forall v, quadratic_form (value o) v <= 0) ->
  (i < orows o)%N -> (j < orows o)%N -> entry o i j != 0 -> lok (ldlt (orows o) f) ->
  cholesky_factor llt ldlt tl o = NotFinite.
Proof. move=> ok ok'; exact: negative_ok. Qed.
Print Assumptions cholesky_negative_refuted.

Example cholesky_negative_example (R : rcfType) tl :
  cholesky_factor (@the_llt R) (@the_ldlt R) tl (herm2 true (-1) 0 0 (-1)) = NotFinite.
Proof.
apply: (@cholesky_negative_refuted _ _ _ _ (herm2 true (-1) 0 0 (-1)) _ 0%N 0%N (@the_llt_ok R) (@the_ldlt_ok R) (erefl _)) => //.
- exact: herm2_sym.
- by move=> v; rewrite herm2_form /= mul0r mul0rn addr0 !mulN1r -opprD oppr_le0 addr_ge0 ?sqr_ge0.
- by rewrite /entry /= /mat2 /= oppr_eq0 oner_eq0.
- rewrite /= /the_ldlt /is_mat2 /= !eqxx /=; by case: ifP.
Qed.

(** When LDLT fails having found no non-zero pivot, the factor returned is zero. *)
Theorem cholesky_failure_refuted (R : rcfType) : exists (o : obj R) llt ldlt,
  [/\ wf o, indefinite (value o), llt_contract llt, ldlt_contract ldlt &
    forall tl, exists t, cholesky_factor llt ldlt tl o = Val t /\ forall i j, entry t i j = 0].
Proof.
exists (herm2 true 0 1 1 0), (@the_llt R), (fun _ _ => fails R).
have ind : indefinite (value (herm2 true 0 1 1 (0 : R))).
  split; first exact: herm2_sym.
  split; [exists (fun i => if i == 0%N then 1 else -1)|exists (fun=> 1)]; rewrite herm2_form /= !mul0r !add0r !mul1r.
    by rewrite mulNrn oppr_lt0 ltr0n.
  by rewrite ltr0n.
split=> //; first exact: the_llt_ok.
move=> tl; apply: (@failure_zero _ _ (fun _ _ => fails R) (@the_llt_ok R) tl (herm2 true 0 1 1 0) _ (erefl _)) => //.
by case=> _ /(_ (fun i => if i == 0%N then 1 else 0) 0%N isT (oner_neq0 _)); rewrite herm2_form /= !mul0r !mulr0 mul0rn !addr0 ltxx.
Qed.
Print Assumptions cholesky_failure_refuted.
