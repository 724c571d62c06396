(** * C88: rank updates of Cholesky factors and of symmetric matrices.

    RankModel.v follows the branches of rank_update_triangular and rank_update_hermitian; Eigen's rank-one update, LQ,
    LLT and LDLT are arbitrary functions that keep their contracts.  True for every square matrix and every update with
    the same number of rows, except for a zero matrix with a tall lower-triangular update; wrong dimensions are not
    always reported. *)
From mathcomp Require Import all_ssreflect all_algebra.
From Verif Require Import ShortModel ShortSpec ShortProofs1 ShortProofs5 ShortProofs7 LdltModel LdltSpec LdltProofs LdltProofs2.
From Verif Require Import RankModel RankSpec RankProofs RankProofs2 RankProofs3 RankProofs4.
Set Implicit Arguments.
Unset Strict Implicit.
Unset Printing Implicit Defensive.
Import GRing.Theory Num.Theory Order.Theory.
Local Open Scope ring_scope.

(** The contract can be met. *)
Theorem rank_one_exists (R : rcfType) : rank_contract (@the_rank R) /\ lq_contract (@the_lq R).
Proof. by split; [exact: the_rank_ok|exact: the_lq_ok]. Qed.
Print Assumptions rank_one_exists.

(** ** What holds *)

(** The factor returned, lower or upper triangular like the argument, is a factor of A A^T + alpha U U^T (or of
    A^T A + alpha U U^T); otherwise the failure is reported, alpha is not positive and the result would not have been
    positive definite.  Missing from the property: a zero matrix and a lower-triangular update with fewer columns than
    rows ([rank_update_zero_refuted]). *)
Theorem rank_update_triangular_partial (R : rcfType) llt ldlt lq rk (a u : obj R) alpha :
  lq_contract lq -> rank_contract rk ->
  wf a -> wf u -> square_if_diagonal u -> square (value a) -> orows u = orows a -> (0 < orows a)%N -> triangular a ->
  (zero a -> lower u -> (orows u <= ocols u)%N) ->
  let lo := lower_factor a in
  let new := updated (gram lo (value a)) (value u) alpha in
  let r := rank_update_triangular llt ldlt lq rk a u alpha in
  factor_of lo r new \/ [/\ fails_with r, alpha <= 0 & ~ definite new].
Proof. by move=> okq okr wa wu su qa qu n0 t hz; exact: rank_update_triangular_ok. Qed.
Print Assumptions rank_update_triangular_partial.

Section Objects.
Variable R : rcfType.
Definition tri2 (lo : bool) (x y z : R) : obj R :=
  Obj (KTri lo (fun i j => if i == j then (if i == 0%N then x else z) else y)) 2 2 false true true.
Definition col (n : nat) (x : R) : obj R := Obj (KDense (fun i _ => x *+ i.+1)) n 1 false true false.
Definition zero2 : obj R := Obj (KConst true 0) 2 2 false false false.
End Objects.

(** An increase, or a decrease that leaves the matrix positive definite, always succeeds. *)
Theorem rank_update_succeeds_partial (R : rcfType) llt ldlt lq rk (a u : obj R) alpha :
  lq_contract lq -> rank_contract rk ->
  wf a -> wf u -> square_if_diagonal u -> square (value a) -> orows u = orows a -> (0 < orows a)%N -> triangular a ->
  (zero a -> lower u -> (orows u <= ocols u)%N) ->
  let lo := lower_factor a in
  let new := updated (gram lo (value a)) (value u) alpha in
  0 < alpha \/ definite new -> factor_of lo (rank_update_triangular llt ldlt lq rk a u alpha) new.
Proof.
move=> okq okr wa wu su qa qu n0 t hz lo new h.
have [//|[_ al nd]] := @rank_update_triangular_partial R llt ldlt lq rk a u alpha okq okr wa wu su qa qu n0 t hz.
by case: h => [|//]; rewrite ltNge al.
Qed.
Print Assumptions rank_update_succeeds_partial.

Example rank_update_succeeds_example (R : rcfType) llt ldlt lo :
  factor_of lo (rank_update_triangular llt ldlt (@the_lq R) (@the_rank R) (tri2 lo 1 2%:R 0) (col 2 1) 1)
    (updated (gram lo (value (tri2 lo 1 2%:R 0))) (value (col 2 1)) 1).
Proof.
have := @rank_update_succeeds_partial R llt ldlt _ _ (tri2 lo 1 2%:R 0) (col 2 1) 1 (@the_lq_ok R) (@the_rank_ok R).
have -> : lower_factor (tri2 lo 1 2%:R 0) = lo by case: lo.
by apply=> //; [case: lo|left; exact: ltr01].
Qed.

(** Undoing an update: if the original matrix was positive definite, updating by alpha and then by -alpha gives a
    factor of the original matrix. *)
Theorem rank_update_undone (R : rcfType) llt ldlt lq rk (a u : obj R) alpha m :
  lq_contract lq -> rank_contract rk ->
  wf a -> wf u -> square_if_diagonal u -> square (value a) -> orows u = orows a -> (0 < orows a)%N -> triangular a ->
  let lo := lower_factor a in
  definite (gram lo (value a)) -> ~~ zero a ->
  rank_update_triangular llt ldlt lq rk a u alpha = Val m ->
  let b := Obj (KTri lo (mat_at m)) (orows a) (orows a) false false true in
  factor_of lo (rank_update_triangular llt ldlt lq rk b u (- alpha)) (gram lo (value a)).
Proof.
move=> okq okr wa wu su qa qu n0 t lo pd nz e b.
have [|[m' [e' sq sh sg]]|[h _ _]] := @rank_update_triangular_partial R llt ldlt lq rk a u alpha okq okr wa wu su qa qu n0 t.
- by move=> z; rewrite z in nz.
- move: e'; rewrite e => -[?]; subst m'; rewrite -/lo in sh sg.
  have el : lower_factor b = lo by rewrite /b; case: (lo).
  have [d1 d2] := gram_dims lo (erefl (orows a) : mrows (value a) = _) (esym qa : mcols (value a) = _).
  have [g1 _ _] := sg; rewrite [mrows (updated _ _ _)]/= d1 in g1.
  have m1 : mrows m = orows a by move: g1; rewrite /square in sq; case: (lo) => //= <-.
  have m2 : mcols m = orows a by rewrite -sq.
  have bm : same (value b) m.
    split=> // i j /= hi hj; rewrite /b /entry /=; move: sh; rewrite /triangle_shaped.
    by case: (lo) => sh; case: leqP => // ij; rewrite sh ?m1 ?m2.
  have s : same (updated (gram lo (value b)) (value u) (- alpha)) (gram lo (value a)).
    apply: same_trans (updated_same _ _ _ (gram_same _ _ bm) (same_refl _)) _ => //.
    - by case: (lo).
    - by case: (lo).
    have gq : mrows (gram lo m) = mcols (gram lo m) by case: (lo); rewrite /= ?m1 ?m2.
    have gu : mrows (value u) = mrows (gram lo m) by rewrite g1.
    apply: same_trans (updated_same _ gu gq sg (same_refl _)) _.
    split=> // i j _ _; by rewrite !updated_at mulrN addrK.
  have wb : wf b by rewrite /b /wf /= eqxx.
  have tb : triangular b by rewrite /b; case: (lo).
  have zb : zero b -> lower u -> (orows u <= ocols u)%N by [].
  have := @rank_update_succeeds_partial R llt ldlt lq rk b u (- alpha) okq okr wb wu su erefl qu n0 tb zb.
  rewrite el => -[|m3 [e2 sq2 sh2 s2]]; first by right; exact: (definite_same (same_sym s)).
  by exists m3; split=> //; exact: same_trans s2 s.
- by case: h => h; rewrite h in e.
Qed.
Print Assumptions rank_update_undone.

Lemma tri2_definite (R : rcfType) lo : definite (gram lo (value (tri2 lo (1 : R) 0 1))).
Proof.
split.
  split; first by case: lo.
  by move=> i j _ _; exact: gram_sym.
move=> v i hi vi; have -> : quadratic_form (gram lo (value (tri2 lo (1 : R) 0 1))) v = v 0%N ^+ 2 + v 1%N ^+ 2.
  rewrite /quadratic_form; have [-> ->] := gram_dims lo (erefl : mrows (value (tri2 lo (1 : R) 0 1)) = 2%N) erefl.
  rewrite !big_ord_recl !big_ord0 /= !gram_at // [mrows _]/= !big_ord_recl !big_ord0 /= !addr0.
  by case: (lo); rewrite /entry /= ?(mulr0, mul0r, mulr1, addr0, add0r) -!expr2.
have {hi} : (i < 2)%N by move: hi; case: lo.
by case: i vi => [|[|//]] vi _; [apply: ltr_paddr|apply: ltr_paddl]; rewrite ?sqr_ge0 // lt_neqAle sqr_ge0 eq_sym sqrf_eq0 vi.
Qed.

Example rank_update_undone_example (R : rcfType) llt ldlt lo : exists m,
  rank_update_triangular llt ldlt (@the_lq R) (@the_rank R) (tri2 lo 1 0 1) (col 2 1) 1 = Val m /\
  factor_of lo (rank_update_triangular llt ldlt (@the_lq R) (@the_rank R)
    (Obj (KTri lo (mat_at m)) 2 2 false false true) (col 2 1) (- 1)) (gram lo (value (tri2 lo 1 0 1))).
Proof.
have el : lower_factor (tri2 lo (1 : R) 0 1) = lo by case: lo.
have t : triangular (tri2 lo (1 : R) 0 1) by case: (lo).
have := @rank_update_succeeds_partial R llt ldlt _ _ (tri2 lo 1 0 1) (col 2 1) 1 (@the_lq_ok R) (@the_rank_ok R).
rewrite el => -[]//; first by left; exact: ltr01.
move=> m [e _ _ _]; exists m; split=> //.
have := @rank_update_undone R llt ldlt _ _ (tri2 lo 1 0 1) (col 2 1) 1 m (@the_lq_ok R) (@the_rank_ok R).
by rewrite el; apply=> //; exact: tri2_definite.
Qed.

(** Symmetric matrices: the result is A + alpha U U^T, whatever alpha. *)
Theorem rank_update_hermitian_value (R : rcfType) (a u : obj R) alpha :
  wf a -> wf u -> square_if_diagonal a -> square_if_diagonal u -> symmetric (value a) -> orows u = orows a ->
  returns (rank_update_hermitian a u alpha) (updated (value a) (value u) alpha).
Proof. exact: hermitian_ok. Qed.
Print Assumptions rank_update_hermitian_value.

Example rank_update_hermitian_example (R : rcfType) :
  returns (rank_update_hermitian (Obj (KHerm false (fun i j => (i + 2 * j)%:R : R)) 2 2 true false true) (col 2 1) (- 1))
    (Mat 2 2 (fun i j => if (i == 0%N) && (j == 0%N) then - 1 else if (i == 1%N) && (j == 1%N) then - 1 else 0)).
Proof.
have [//|m [-> s]] := @rank_update_hermitian_value R (Obj (KHerm false (fun i j => (i + 2 * j)%:R : R)) 2 2 true false true)
  (col 2 1) (- 1) isT isT I I _ erefl.
  by rewrite value_herm; exact: sym_symmetric.
exists m; split=> //; apply: same_trans s _; split=> // i j hi hj; rewrite updated_at /= big_ord1 /entry /=.
move: hi hj => /=; case: i => [|[|//]]; case: j => [|[|//]] _ _ /=; rewrite -natrM mulrN1.
- by rewrite sub0r.
- by rewrite subrr.
- by rewrite subrr.
- by rewrite -opprB -natrB.
Qed.

(** Wrong dimensions are reported, or rejected by the compiler, when the update is a zero matrix or a dimension is
    fixed at one. Missing: see [rank_update_mismatch_refuted]. *)
Theorem rank_update_mismatch_partial (R : rcfType) llt ldlt lq rk (a u : obj R) alpha :
  zero u || one_by_one a u -> orows u <> orows a ->
  rank_update_triangular llt ldlt lq rk a u alpha = Thrown \/
  rank_update_triangular llt ldlt lq rk a u alpha = Rejected.
Proof.
move=> h ne; rewrite /rank_update_triangular; case: ifP => [_|/negbT/norP[_ nd]]; first by right.
have -> : (~~ rfix a || ~~ rfix u) && (orows a != orows u) = true.
  rewrite [orows a == _]eq_sym (introN eqP ne) andbT -negb_and; apply: contra nd => /andP[fa fu].
  by rewrite /dims_rejected fa fu (introN eqP ne).
by left; case: (zero u) h => //= ->.
Qed.
Print Assumptions rank_update_mismatch_partial.

Example rank_update_mismatch_example (R : rcfType) llt ldlt lq rk :
  rank_update_triangular llt ldlt lq rk (tri2 true 1 2%:R 3%:R : obj R) (Obj (KConst true 0) 3 1 false true false) 1 = Thrown.
Proof.
have [|//|//|] := @rank_update_mismatch_partial R llt ldlt lq rk (tri2 true 1 2%:R 3%:R) (Obj (KConst true 0) 3 1 false true false) 1.
- by rewrite /zero /= eqxx.
- by rewrite /rank_update_triangular /dims_rejected /= /zero /= eqxx.
Qed.

(** ** What does not hold *)

(** A zero 2x2 matrix updated with a column of two components: the factor returned has one row. *)
Theorem rank_update_zero_refuted (R : rcfType) llt ldlt lq rk : exists m,
  rank_update_triangular llt ldlt lq rk (zero2 R) (col 2 1) 1 = Val m /\
  ~ factor_of true (Val m) (updated (gram true (value (zero2 R))) (value (col 2 1)) 1).
Proof.
rewrite /rank_update_triangular /dims_rejected /zero2 /triangular /ttype /zero /= eqxx /=.
rewrite /vsqrt ler01 /=; eexists; split; first by [].
case=> m [[<-] _ _ [r _ _]]; move: r; rewrite /LQ_decomposition /=.
by [].
Qed.
Print Assumptions rank_update_zero_refuted.

Lemma library_mismatch (R : rcfType) llt ldlt lq rk (a u : obj R) alpha :
  triangular a -> ~~ dims_rejected a u -> ~~ zero u -> ~~ one_by_one a u -> ~~ zero a -> ~~ (diagonal a && diagonal u) ->
  orows a != orows u -> rank_update_triangular llt ldlt lq rk a u alpha = Undefined.
Proof.
by move=> t /negbTE d /negbTE zu /negbTE o /negbTE za /negbTE dg r; rewrite /rank_update_triangular t d zu o za dg r.
Qed.

Lemma zero_mismatch (R : rcfType) llt ldlt lq rk (a u : obj R) :
  ~~ dims_rejected a u -> ~~ zero u -> ~~ one_by_one a u -> zero a -> ~~ diagonal u ->
  rank_update_triangular llt ldlt lq rk a u 1 = Val (LQ_decomposition lq (scalar_product u 1 false)).
Proof.
move=> /negbTE d /negbTE zu /negbTE o za /negbTE du.
have t : ttype a = TDiag by rewrite /ttype za.
by rewrite /rank_update_triangular /triangular t d zu o za du /vsqrt ler01 sqrtr1.
Qed.

Lemma zero_mismatch_hermitian (R : rcfType) (a u : obj R) :
  ~~ dims_rejected a u -> ~~ zero u -> ~~ one_by_one a u -> zero a -> diagonal u -> ~~ identity u ->
  orows a = ocols a -> orows u = ocols u ->
  rank_update_hermitian a u 1 = Val (value (scalar_product (Obj (KDiag (fun i => entry u i i * entry u i i)) (orows u) (orows u)
    (rfix u || cfix u) (rfix u || cfix u) true) 1 false)).
Proof.
move=> /negbTE d /negbTE zu /negbTE o za du /negbTE iu qa qu.
by rewrite /rank_update_hermitian d zu o za du qa eqxx andbF /square_diag qu eqxx zu iu.
Qed.

(** Updates with another number of rows that are not reported: a zero matrix becomes as large as the update (both
    functions), and a matrix that is not zero is passed to Eigen, whose behaviour is then undefined. *)
Theorem rank_update_mismatch_refuted (R : rcfType) llt ldlt lq rk : lq_contract lq ->
  (exists m, rank_update_triangular llt ldlt lq rk (zero2 R) (Obj (KDense (fun _ _ => 1)) 3 3 false false false) 1 = Val m /\
     mrows m = 3%N) /\
  (exists m, rank_update_hermitian (zero2 R) (Obj (KDiag (fun=> 1)) 3 3 false false true) 1 = Val m /\ mrows m = 3%N) /\
  rank_update_triangular llt ldlt lq rk (tri2 true 1 1 (1 : R)) (col 3 1) 1 = Undefined.
Proof.
have z : zero (zero2 R) by rewrite /zero /= eqxx.
move=> ok; split; last split.
- eexists; split; first by apply: zero_mismatch.
  by have [|->] := LQ_ok ok (isT : wf (scalar_product (Obj (KDense (fun _ _ => 1 : R)) 3 3 false false false) 1 false)).
- by eexists; split; first by apply: zero_mismatch_hermitian.
- exact: library_mismatch.
Qed.
Print Assumptions rank_update_mismatch_refuted.
