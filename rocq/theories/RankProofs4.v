(** * A rank-one update that keeps the contract exists. *)
From mathcomp Require Import all_ssreflect all_algebra.
From Verif Require Import MatBase ShortModel ShortSpec ShortProofs1 ShortProofs5 ShortProofs7.
From Verif Require Import LdltModel LdltSpec LdltProofs LdltProofs2 RankModel RankSpec RankProofs.
Set Implicit Arguments.
Unset Strict Implicit.
Unset Printing Implicit Defensive.
Import GRing.Theory Num.Theory Order.Theory.
Local Open Scope ring_scope.

Section P.
Variable R : rcfType.

Definition the_rank (lo : bool) (n : nat) (f : nat -> nat -> R) (v : nat -> R) (alpha : R) : option (nat -> nat -> R) :=
  let new := updated (gram lo (triangle_of lo n f)) (column_mat n v) alpha in
  let C := cholf (mx n n new) in
  if (0 < alpha) || isSome (the_llt lo n (mat_at new)) then
    Some (if lo then mat_at (of_mx C) else mat_at (transposed (of_mx C)))
  else None.

Lemma semidefinite_psd (m : mat R) n : mrows m = n -> semidefinite m -> psd (mx n n m).
Proof.
move=> e [sy ge]; have q := proj1 sy; rewrite /square in q; split; first exact: mx_sym.
move=> v; have -> : qform (mx n n m) v = quadratic_form m (fun i => if insub i is Some j then v j 0 else 0).
  rewrite (@qf_qform _ n) // -?q ?e //; congr qform; apply/matrixP=> i j; by rewrite mxE valK ord1.
exact: ge.
Qed.

Lemma the_rank_ok : rank_contract the_rank.
Proof.
move=> lo n f v alpha new; rewrite /the_rank -/new.
have [d1 d2] := gram_triangle_dims lo n f.
have dn1 : mrows new = n by [].
have dn2 : mcols new = n by rewrite /new /=; rewrite /square in d2; rewrite -d2.
have sy : symmetric new by apply: updated_sym => // i j; exact: gram_sym.
have sm : same (symmetric_of lo n (mat_at new)) new.
  split=> // i j hi hj; have [_ s] := sy; rewrite /= in hi hj; have sij := s j i; rewrite dn1 dn2 in sij.
  rewrite /symmetric_of [LHS]/(mat_at (Mat _ _ _) _ _); case: (lo); case: leqP => // _; exact: sij.
have lok := the_llt_ok lo n (mat_at new).
case: ifP => [h|/negbT/norP[h1 h2]]; last first.
  split; first by rewrite leNgt.
  move: lok h2; case: (the_llt _ _ _) => // nd _ d; apply: nd; exact: (definite_same (same_sym sm)).
have sd : semidefinite new.
  split=> // w; case/orP: h => [a0|h].
    rewrite /new form_updated //; apply: addr_ge0; first exact: form_gram.
    by apply: mulr_ge0; [exact: ltW|apply: sumr_ge0 => k _; exact: sqr_ge0].
  move: lok h; case: (the_llt _ _ _) => // g [d _] _; have [_ pd] := definite_same sm d.
  have [/existsP[i hi]|/existsPn z] := boolP [exists i : 'I_n, w i != 0].
    by apply: ltW; apply: (pd w i) => //; rewrite dn1.
  rewrite /quadratic_form big1 // => i _; rewrite big1 // => j _.
  by have := z (cast_ord dn1 i); rewrite negbK /= => /eqP ->; rewrite !mul0r.
have eA := cholf_correct (semidefinite_psd dn1 sd); set C := cholf _ in eA *.
have eT : mx n n (if lo then triangle_of lo n (mat_at (of_mx C)) else transposed (triangle_of lo n (mat_at (transposed (of_mx C))))) = C.
  apply/matrixP=> i j; rewrite mxE; case: (lo) => /=; rewrite ?valK; case: leqP => // ij;
    by have /is_trig_mxP -> := cholf_trig (mx n n new).
clear lok sm h; move: eT; rewrite /gram.
case: (lo) => eT; apply: (@same_mx R n n) => //; rewrite (@mx_product R n n) // !mx_transposed.
- by rewrite eT eA.
- by rewrite mx_transposed in eT; rewrite -[X in _ *m X]trmxK eT eA.
Qed.
End P.
