(** Halley's step for the logarithm, over the reals. *)
From Coq Require Import Reals Lra Psatz.
From Flocq Require Import Core.Raux.
From Coquelicot Require Import Coquelicot.
Local Open Scope R_scope.

(** [2 (r - 1) / (r + 1)] is below [ln r] for r >= 1. *)
Lemma halley_le r : 1 <= r -> 2 * (r - 1) / (r + 1) <= ln r.
Proof.
  intros H. destruct (Req_dec r 1) as [->|N]; [rewrite ln_1; lra|].
  set (f := fun t => ln t - 2 * (t - 1) / (t + 1)).
  assert (D : forall t, 1 <= t <= r -> is_derive f t (/ t - 4 / ((t + 1) * (t + 1)))).
  { intros t T. unfold f. auto_derive; [repeat split; lra|]. field. lra. }
  destruct (MVT_gen f 1 r (fun t => / t - 4 / ((t + 1) * (t + 1)))) as (c & Hc & E).
  - intros t T. rewrite Rmin_left, Rmax_right in T by lra. apply D; lra.
  - intros t T. rewrite Rmin_left, Rmax_right in T by lra.
    apply continuity_pt_filterlim. apply (ex_derive_continuous f t). exists (/ t - 4 / ((t + 1) * (t + 1))). apply D; lra.
  - rewrite Rmin_left, Rmax_right in Hc by lra. unfold f in E at 1 2. rewrite ln_1 in E.
    assert (P : 0 <= / c - 4 / ((c + 1) * (c + 1))).
    { replace (/ c - 4 / ((c + 1) * (c + 1))) with ((c - 1) * (c - 1) / (c * ((c + 1) * (c + 1)))) by (field; lra).
      apply Rmult_le_pos; [nra|]. left; apply Rinv_0_lt_compat. nra. }
    assert (0 <= (/ c - 4 / ((c + 1) * (c + 1))) * (r - 1)) by (apply Rmult_le_pos; lra). lra.
Qed.
(** And [ln r <= r - 1]. *)
Lemma ln_le_minus r : 0 < r -> ln r <= r - 1.
Proof. intros P. pose proof (exp_ineq1_le (ln r)) as H. rewrite exp_ln in H by assumption. lra. Qed.

Section Step.
Variables X E : R.
Hypothesis (PX : 0 < X) (PE : 0 < E).
Definition hg : R := 2 * (X - E) / (X + E).

Lemma ln_quot a b : 0 < a -> 0 < b -> ln (a / b) = ln a - ln b.
Proof. intros A B. unfold Rdiv. rewrite ln_mult, ln_Rinv by (try assumption; now apply Rinv_0_lt_compat). ring. Qed.

Lemma hg_up : E <= X -> 0 <= hg <= ln X - ln E /\ hg < 2.
Proof.
  intros H. unfold hg. assert (Q : 1 <= X / E) by (apply Rmult_le_reg_r with E; [assumption|]; unfold Rdiv; rewrite Rmult_assoc, Rinv_l; lra).
  pose proof (halley_le (X / E) Q) as L. rewrite ln_quot in L by assumption.
  replace (2 * (X / E - 1) / (X / E + 1)) with (2 * (X - E) / (X + E)) in L by (field; lra).
  split; [split; [apply Rmult_le_pos; [lra|left; apply Rinv_0_lt_compat; lra]|exact L]|].
  apply Rmult_lt_reg_r with (X + E); [lra|]. unfold Rdiv; rewrite Rmult_assoc, Rinv_l; lra.
Qed.
Lemma hg_small : E <= X -> hg <= 1 -> ln X - ln E <= 2 * hg.
Proof.
  intros H G. pose proof (ln_le_minus (X / E)) as L. rewrite ln_quot in L by assumption.
  assert (Q : 0 < X / E) by (apply Rdiv_lt_0_compat; assumption). specialize (L Q).
  assert (R : X / E - 1 = hg / (1 - hg / 2)) by (unfold hg; field; lra).
  assert (0 <= hg) by (now apply hg_up).
  assert (hg / (1 - hg / 2) <= 2 * hg); [|lra].
  apply Rmult_le_reg_r with (1 - hg / 2); [lra|]. unfold Rdiv at 1. rewrite Rmult_assoc, Rinv_l by lra. nra.
Qed.
End Step.

Lemma hg_sym X E : hg E X = - hg X E.
Proof. unfold hg. replace (E + X) with (X + E) by ring. unfold Rdiv. ring. Qed.
Lemma hg_down X E : 0 < X -> 0 < E -> X <= E -> ln X - ln E <= hg X E <= 0 /\ - 2 < hg X E.
Proof. intros A B H. pose proof (hg_up E X B A H) as G. rewrite hg_sym in G. lra. Qed.
Lemma hg_small_down X E : 0 < X -> 0 < E -> X <= E -> - 1 <= hg X E -> 2 * hg X E <= ln X - ln E.
Proof. intros A B H G. pose proof (hg_small E X B A H) as S. rewrite hg_sym in S. lra. Qed.

(** The logarithm of an approximation of [exp y]. *)
Lemma ln_near y E eta : 0 <= eta <= / 2 -> Rabs (E - exp y) <= eta * exp y -> 0 < E /\ Rabs (ln E - y) <= 2 * eta.
Proof.
  intros H A. pose proof (exp_pos y) as P. apply Rabs_le_inv in A.
  assert (A1 : (1 - eta) * exp y <= E) by lra. assert (A2 : E <= (1 + eta) * exp y) by lra.
  assert (Q : 0 < E) by nra. split; [exact Q|].
  assert (U : ln E <= y + eta).
  { apply Rle_trans with (ln ((1 + eta) * exp y)); [apply Rcomplements.ln_le; assumption|].
    rewrite ln_mult, ln_exp by lra. pose proof (ln_le_minus (1 + eta)). lra. }
  assert (V : y - 2 * eta <= ln E).
  { apply Rle_trans with (ln ((1 - eta) * exp y)); [|apply Rcomplements.ln_le; [nra|assumption]].
    rewrite ln_mult, ln_exp by lra. pose proof (ln_le_minus (/ (1 - eta)) ltac:(apply Rinv_0_lt_compat; lra)) as L.
    rewrite ln_Rinv in L by lra.
    assert (/ (1 - eta) <= 1 + 2 * eta); [|lra].
    apply Rmult_le_reg_r with (1 - eta); [lra|]. rewrite Rinv_l by lra. nra. }
  apply Rabs_le. lra.
Qed.

(** The range of the scaled argument. *)
Lemma ln_16 : ln 16 <= 285 / 100.
Proof.
  rewrite <- (ln_exp (285 / 100)). apply Rcomplements.ln_le; [lra|].
  assert (H : 1 + 5 / 100 <= exp (5 / 100)) by apply exp_ineq1_le.
  replace (285 / 100) with (INR 57 * (5 / 100)) by (simpl INR; lra).
  assert (E : forall n z, exp (INR n * z) = exp z ^ n).
  { clear. induction n as [|n IH]; intro z; [rewrite Rmult_0_l, exp_0; reflexivity|].
    rewrite S_INR, Rmult_plus_distr_r, Rmult_1_l, exp_plus, IH. simpl; ring. }
  rewrite E. apply Rle_trans with ((1 + 5 / 100) ^ 57); [simpl; lra|]. apply pow_incr. lra.
Qed.
Lemma ln_range X : / 16 < X < 16 -> Rabs (ln X) <= 285 / 100.
Proof.
  intros H. pose proof ln_16 as L. assert (A : ln X <= ln 16) by (apply Rcomplements.ln_le; lra).
  assert (B : ln (/ 16) <= ln X) by (apply Rcomplements.ln_le; lra). rewrite ln_Rinv in B by lra. apply Rabs_le; lra.
Qed.

(** ** One step of the loop: [Y1] is [Y + hg X E] up to [d]. *)
Section Loop.
Variables (X eta d : R).
Hypothesis (HX : / 16 < X < 16) (Hd : 0 <= d <= / 100) (Heta : 0 <= eta <= / 100).
Definition step (Y Y1 : R) : Prop :=
  exists E, Rabs (E - exp Y) <= eta * exp Y /\ Rabs (Y1 - (Y + hg X E)) <= d /\
    (E <= X -> Y <= Y1) /\ (X <= E -> Y1 <= Y).
Let L := ln X.
Let PX : 0 < X. Proof. lra. Qed.

Lemma step_up Y Y1 : step Y Y1 -> Y < Y1 -> Y1 <= L + 2 * eta + d.
Proof.
  intros (E & A & B & _ & C) H. destruct (ln_near Y E eta ltac:(lra) A) as [PE N]. fold L.
  assert (K : E <= X) by (destruct (Rle_dec E X); [assumption|specialize (C ltac:(lra)); lra]).
  destruct (hg_up X E PX PE K) as [[G1 G2] _]. apply Rabs_le_inv in N, B. unfold L in *. lra.
Qed.
Lemma step_down Y Y1 : step Y Y1 -> Y1 < Y -> L - 2 * eta - d <= Y1.
Proof.
  intros (E & A & B & C & _) H. destruct (ln_near Y E eta ltac:(lra) A) as [PE N]. fold L.
  assert (K : X <= E) by (destruct (Rle_dec X E); [assumption|specialize (C ltac:(lra)); lra]).
  destruct (hg_down X E PX PE K) as [[G1 G2] _]. apply Rabs_le_inv in N, B. unfold L in *. lra.
Qed.
Lemma step_range Y Y1 : step Y Y1 -> Rabs Y <= 3 -> Rabs Y1 <= 3.
Proof.
  intros S H. pose proof (ln_range X HX) as R. fold L in R. apply Rabs_le_inv in R, H.
  destruct (Rtotal_order Y Y1) as [T|[T|T]].
  - pose proof (step_up Y Y1 S T). apply Rabs_le; lra.
  - subst; apply Rabs_le; lra.
  - pose proof (step_down Y Y1 S T). apply Rabs_le; lra.
Qed.
Lemma step_same Y : step Y Y -> Rabs (Y - L) <= 2 * eta + 2 * d.
Proof.
  intros (E & A & B & _ & _). destruct (ln_near Y E eta ltac:(lra) A) as [PE N].
  replace (Y - (Y + hg X E)) with (- hg X E) in B by ring. rewrite Rabs_Ropp in B. apply Rabs_le_inv in B, N.
  destruct (Rle_dec E X) as [K|K].
  - destruct (hg_up X E PX PE K) as [[G1 G2] _]. pose proof (hg_small X E PX PE K ltac:(lra)). apply Rabs_le. unfold L. lra.
  - destruct (hg_down X E PX PE ltac:(lra)) as [[G1 G2] _]. pose proof (hg_small_down X E PX PE ltac:(lra) ltac:(lra)).
    apply Rabs_le. unfold L. lra.
Qed.
Lemma step_turn_down Y Y1 : step Y Y1 -> Y1 < Y -> Y <= L + 2 * eta + d -> Rabs (Y1 - L) <= 2 * eta + 2 * d.
Proof.
  intros S H T. pose proof (step_down Y Y1 S H). unfold L in *. apply Rabs_le; lra.
Qed.
Lemma step_turn_up Y Y1 : step Y Y1 -> Y < Y1 -> L - 2 * eta - d <= Y -> Rabs (Y1 - L) <= 2 * eta + 2 * d.
Proof. intros S H T. pose proof (step_up Y Y1 S H). unfold L in *. apply Rabs_le; lra. Qed.
End Loop.
