(** * Eigen's decompositions exist. *)
From mathcomp Require Import all_ssreflect all_algebra.
From Verif Require Import MatBase ShortModel ShortSpec ShortProofs1 ShortProofs5 ShortProofs7 LdltModel LdltSpec LdltProofs.
Set Implicit Arguments.
Unset Strict Implicit.
Unset Printing Implicit Defensive.
Import GRing.Theory Num.Theory Order.Theory.
Local Open Scope ring_scope.

Section P.
Variable R : rcfType.

Definition the_llt (al : bool) (n : nat) (f : nat -> nat -> R) : option (nat -> nat -> R) :=
  let A := mx n n (symmetric_of al n f) in
  if (\det A != 0) && (cholf A *m (cholf A)^T == A) then
    Some (if al then mat_at (of_mx (cholf A)) else mat_at (transposed (of_mx (cholf A))))
  else None.

Lemma qf_qform n (m : mat R) v : mrows m = n -> mcols m = n ->
  quadratic_form m v = qform (mx n n m) (\col_i v i).
Proof.
move=> e1 e2; rewrite /quadratic_form e1 e2 /qform mxE exchange_big /=; apply: eq_bigr => j _.
by rewrite !mxE mulr_suml; apply: eq_bigr => i _; rewrite !mxE.
Qed.

Lemma sym_symmetric al n (f : nat -> nat -> R) : symmetric (symmetric_of al n f).
Proof. by split=> // i j _ _ /=; case: al; case: ltngtP => // ->. Qed.

Lemma mx_sym (m : mat R) n : symmetric m -> mrows m = n -> (mx n n m)^T = mx n n m.
Proof. by move=> [q s] e; rewrite /square in q; apply/matrixP => i j; rewrite !mxE s // -?q ?e. Qed.

Lemma the_llt_ok : llt_contract the_llt.
Proof.
move=> al n f; rewrite /the_llt; set A := mx n n (symmetric_of al n f); set C := cholf A.
case: ifP => [/andP[d0 /eqP eA]|h].
  split.
    split; first exact: sym_symmetric.
    move=> v i hi vi; rewrite (@qf_qform n) // -/A -eA -[C in C *m _]mulmx1 qform_congr /qform mulmx1.
    rewrite lt_neqAle cV_sqr_ge0 andbT eq_sym; apply/eqP => /cV_sqr_eq0 z.
    have uC : C \in unitmx by move: d0; rewrite -eA det_mulmx mulf_eq0 negb_or => /andP[c0 _]; rewrite unitmxE unitfE.
    have /matrixP/(_ (Ordinal hi) 0) : \col_i v i = 0 :> 'cV[R]_n.
      by rewrite -[LHS](mulKmx (_ : C^T \in unitmx)) ?unitmx_tr // z mulmx0.
    by rewrite !mxE /= => z0; rewrite z0 eqxx in vi.
  have eT : mx n n (if al then triangle_of al n (mat_at (of_mx C)) else transposed (triangle_of al n (mat_at (transposed (of_mx C))))) = C.
    apply/matrixP=> i j; rewrite mxE; case: (al) => /=; rewrite ?valK; case: leqP => // ij;
      by have /is_trig_mxP -> := cholf_trig A.
  case: al @A @C d0 eA eT => A C d0 eA eT; apply: (@same_mx R n n) => //; rewrite (@mx_product R n n) // !mx_transposed.
  - by rewrite eT eA.
  - by rewrite /= mx_transposed in eT; rewrite -[X in _ *m X]trmxK eT eA.
case=> sy pd; move/negP: h; apply.
have sA : A^T = A by apply: mx_sym.
have ge v : 0 <= qform A v.
  have -> : qform A v = quadratic_form (symmetric_of al n f) (fun i => if insub i is Some j then v j 0 else 0).
    rewrite (@qf_qform n) //; congr qform; apply/matrixP=> i j; by rewrite mxE valK ord1.
  have [/existsP[i hi]|/existsPn z] := boolP [exists i : 'I_n, v i 0 != 0].
    by apply/ltW/(pd _ i) => //=; rewrite valK.
  rewrite (@qf_qform n) // (_ : \col_i _ = 0); first by rewrite /qform mulmx0 mxE.
  by apply/matrixP=> i j; rewrite !mxE valK; apply/eqP/negbNE/z.
have psdA : psd A by split.
rewrite (cholf_correct psdA) eqxx andbT; apply/det0P => -[v v0 vA].
have [i vi] : exists i, v 0 i != 0.
  apply/existsP; apply: contraR v0 => /existsPn z; apply/eqP/matrixP=> a b.
  by rewrite ord1 mxE; apply/eqP/negbNE/z.
have := pd (fun k => if insub k is Some j then v 0 j else 0) i (ltn_ord i).
rewrite /= valK => /(_ vi); rewrite (@qf_qform n) // (_ : \col_i _ = v^T); last first.
  by apply/matrixP=> a b; rewrite !mxE valK ord1.
by rewrite -/A /qform trmxK vA mul0mx mxE ltxx.
Qed.

(** An LDLT that succeeds on diag(0, 1) and on -1 times the identity, with the permutations Eigen chooses. *)
Definition is_mat2 (f : nat -> nat -> R) (a b c : R) : bool := [&& f 0%N 0%N == a, f 1%N 0%N == b & f 1%N 1%N == c].

Definition fails : ldlt R := Ldlt id (fun _ _ => 0) (fun=> 0) true true false.

Definition the_ldlt (n : nat) (f : nat -> nat -> R) : ldlt R :=
  if n != 2%N then fails
  else if is_mat2 f 0 0 1 then
    Ldlt (fun i => 1 - i)%N (fun i j => if i == j then 1 else 0) (fun i => if i == 0%N then 1 else 0) true false true
  else if is_mat2 f (-1) 0 (-1) then Ldlt id (fun i j => if i == j then 1 else 0) (fun=> -1) false true true
  else if is_mat2 f 1 2%:R 1 then
    Ldlt id (fun i j => if i == j then 1 else if (i < j)%N then 0 else 2%:R) (fun i => if i == 0%N then 1 else -3%:R) false false true
  else fails.

Lemma the_ldlt_ok : ldlt_contract the_ldlt.
Proof.
move=> n f /=; rewrite /the_ldlt; case: eqP => [->|//] /=.
have l01 : (0 <= 1 :> R) /\ (1 <= 0 :> R) = false by rewrite ler01 ler10.
have m1 : (0 <= -1 :> R) = false by rewrite oppr_ge0 ler10.
have m1' : (-1 <= 0 :> R) by rewrite oppr_le0 ler01.
have e0 : (1 == 0 :> R) = false by rewrite oner_eq0.
have m3 : (0 <= -3%:R :> R) = false by rewrite oppr_ge0 lern0.
have [l1 l2] := l01.
case: ifP => [/and3P[/eqP h1 /eqP h2 /eqP h3] _|_].
  split=> //.
  - split; first by case=> [|[|i]].
    by case=> [|[|//]] [|[|//]].
  - by case=> [|[|//]] [|[|//]].
  - by case=> [|[|//]] [|[|//]] _ _; rewrite /symmetric_of /= ?h1 ?h2 ?h3 !big_ord_recl big_ord0 /= ?(mul0r, mulr0, mul1r, addr0).
  - by move=> i [|j] //=.
  - by split; rewrite /= ?lexx ?l1 ?l2.
case: ifP => [/and3P[/eqP h1 /eqP h2 /eqP h3] _|_].
  split=> //.
  - by case=> [|[|//]] [|[|//]].
  - by case=> [|[|//]] [|[|//]] _ _; rewrite /symmetric_of /= ?h1 ?h2 ?h3 !big_ord_recl big_ord0 /= ?(mul0r, mulr0, mul1r, mulr1, addr0, add0r).
  - by split; rewrite /= ?m1 ?m1'.
case: ifP => [/and3P[/eqP h1 /eqP h2 /eqP h3] _|_ //].
split=> //.
- by case=> [|[|//]] [|[|//]].
- case=> [|[|//]] [|[|//]] _ _; rewrite /symmetric_of /= ?h1 ?h2 ?h3 !big_ord_recl big_ord0 /= ?(mul0r, mulr0, mul1r, mulr1, addr0, add0r) //.
  by rewrite -natrM -[1]/(1%:R) -natrB.
- by move=> [|i] [|[|j]] //= _ _ /eqP; rewrite e0.
- by split; rewrite /= ?l1 ?l2 ?m3.
Qed.
End P.
