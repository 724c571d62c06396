(** * The library oracles of the shortcuts exist. *)
From mathcomp Require Import all_ssreflect all_algebra.
From Verif Require Import MatBase ShortModel ShortSpec ShortProofs1 ShortProofs5.
Set Implicit Arguments.
Unset Strict Implicit.
Unset Printing Implicit Defensive.
Import GRing.Theory Num.Theory Order.Theory.
Local Open Scope ring_scope.

Section P.
Variable R : rcfType.
Implicit Types m w : mat R.

Definition of_mx n k (A : 'M[R]_(n, k)) : mat R :=
  Mat n k (fun i j => match insub i, insub j with Some x, Some y => A x y | _, _ => 0 end).

Lemma of_mxE n k (A : 'M[R]_(n, k)) i j (hi : (i < n)%N) (hj : (j < k)%N) :
  mat_at (of_mx A) i j = A (Ordinal hi) (Ordinal hj).
Proof. by rewrite /= !insubT. Qed.

Lemma mx_of n k (A : 'M[R]_(n, k)) : mx n k (of_mx A) = A.
Proof. by apply/matrixP=> i j; rewrite !mxE /= !valK. Qed.

Lemma same_mx n k m w : mrows m = n -> mcols m = k -> mrows w = n -> mcols w = k -> mx n k m = mx n k w -> same m w.
Proof.
move=> e1 e2 e3 e4 e; split; rewrite ?e1 ?e2 ?e3 ?e4 // => i j hi hj.
by move/matrixP: e => /(_ (Ordinal hi) (Ordinal hj)); rewrite !mxE.
Qed.

Definition the_lq m : mat R := of_mx (cholf (mx (mrows m) (mcols m) m *m (mx (mrows m) (mcols m) m)^T)).

Lemma mx_transposed n k m : mx n k (transposed m) = (mx k n m)^T.
Proof. by apply/matrixP=> i j; rewrite !mxE. Qed.

Lemma the_lq_ok : lq_contract the_lq.
Proof.
move=> m; set A := mx (mrows m) (mcols m) m.
have e := cholf_correct (psd_mulT A); have lo := cholf_trig (A *m A^T).
split=> //.
  move=> i j hi hj ij; rewrite /the_lq -/A (of_mxE _ hi hj).
  by move/is_trig_mxP: lo; apply.
apply: (@same_mx (mrows m) (mrows m)) => //.
rewrite (@mx_product _ _ (mrows m)) // (@mx_product _ _ (mcols m)) // !mx_transposed mx_of -/A; exact: e.
Qed.

Definition the_solve (u e : bool) m w : res (mat R) :=
  Val (of_mx (invmx (mx (mcols m) (mcols m) m) *m mx (mcols m) (mcols w) w)).

Lemma the_solve_ok : solve_contract the_solve.
Proof.
move=> u e m w iv ew; eexists; split; first by []; [by []|by []|].
have q := proj1 iv; rewrite /square in q.
apply: (@same_mx (mcols m) (mcols w)) => //; first by rewrite ew.
rewrite (@mx_product _ _ (mcols m)) // mx_of mulmxA mulmxV ?mul1mx //.
exact: mx_unit.
Qed.
End P.
