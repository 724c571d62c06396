(** Sixteen digits of the natural logarithm of 2. *)
From Coq Require Import ZArith Reals Lra Lia.
From Flocq Require Import Core.
From Verif Require Import FserProofs1 FserProofs2 FserProofs3 FserProofs10 FlogProofs4.
Local Open Scope R_scope.

Lemma ea_fz_x x n : ea x n = x ^ S n / IZR (fz n).
Proof.
  replace (ea x n) with (x ^ S n * ea 1 n); [rewrite ea_fz; reflexivity|]. unfold ea. rewrite pow1. unfold Rdiv. ring.
Qed.
Lemma exp_tail x n : 0 <= x <= 1 -> Rabs (exp x - 1 - psum (ea x) n) <= 8 / 3 * ea x n.
Proof.
  intros H.
  pose proof (tail_bound (ea x) (fun n => x / IZR (Z.of_nat n + 2)) (fun _ => 1) 0 1 ltac:(lra) ltac:(lra) ltac:(intros; lra)) as T.
  specialize (T ltac:(intros i; pose proof (ratio x i H); rewrite Rabs_pos_eq; lra) ltac:(intros i; apply ea_step) (exp x - 1) n (ea_lim x)).
  rewrite Rmult_1_l, (Rabs_pos_eq (ea x n)) in T; [exact T|]. apply ea_pos. lra.
Qed.
Ltac series T :=
  cbn [psum] in T; rewrite !ea_fz_x in T;
  repeat match type of T with context [fz ?n] => let r := eval vm_compute in (fz n) in change (fz n) with r in T end.
Lemma ln2_digits : 6931471805599452 / 10 ^ 16 <= ln 2 <= 69314718055994539 / 10 ^ 17.
Proof.
  split.
  - rewrite <- (ln_exp (6931471805599452 / 10 ^ 16)). apply ln_le; [apply exp_pos|].
    pose proof (exp_tail (6931471805599452 / 10 ^ 16) 17 ltac:(lra)) as T. apply Rabs_le_inv in T. series T. lra.
  - rewrite <- (ln_exp (69314718055994539 / 10 ^ 17)). apply ln_le; [lra|].
    pose proof (exp_tail (69314718055994539 / 10 ^ 17) 17 ltac:(lra)) as T. apply Rabs_le_inv in T. series T. lra.
Qed.
