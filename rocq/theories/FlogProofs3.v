(** The loop of log: it stops, close to the logarithm. *)
From Coq Require Import ZArith Reals Lra Lia Bool.
From Flocq Require Import Core IEEE754.BinarySingleNaN.
From Verif Require Import FloatModel FloatSpec FloatProofs1 FloatProofs2 FserModel FserSpec FserProofs1 FserProofs2 FserProofs3 FserProofs4 FserProofs5 FserProofs10.
From Verif Require Import FlogModel FlogSpec FlogProofs1 FlogProofs2.
Local Open Scope R_scope.

Section Fmt.
Context {prec emax : Z} {Hp : Prec_gt_0 prec} {Hx : Prec_lt_emax prec emax}.
Notation fl := (binary_float prec emax).
Notation emin := (3 - emax - prec)%Z.
Notation bpow := (bpow radix2).
Notation v := (@B2R prec emax).
Notation u := (bpow (- prec)).
Notation eta := (@eta prec).
Notation dd := (@dd prec).
Hypothesis Sup : supported_log prec emax.
Let S1 : (24 <= prec)%Z. Proof. apply Sup. Qed.
Let S2 : (65 <= emax)%Z. Proof. apply Sup. Qed.
Let S3 : (prec + 40 <= emax)%Z. Proof. apply Sup. Qed.
Variables e x : fl.
Hypothesis (Fe : is_finite e = true) (Ce : best_constant prec (v e) (exp 1)).
Hypothesis (Fx : is_finite x = true) (HX : / 16 < v x < 16).
Notation L := (ln (v x)).
Definition N0 : nat := Z.to_nat (emax + prec).

(** One round. *)
Lemma round_ok (y : fl) : is_finite y = true -> Rabs (v y) <= 3 ->
  exists y1, is_finite y1 = true /\ step (v x) eta dd (v y) (v y1) /\ Rabs (v y1) <= 3 /\
    forall n fuel cmp, (N0 <= fuel)%nat -> log_impl n fuel e x y cmp =
      (if feq y1 y || ((cmp <? 0)%Z && flt y y1) || ((0 <? cmp)%Z && flt y1 y) then FVal y1
       else match n with
            | O => FRunning
            | S n => log_impl n fuel e x y1 (if flt y y1 then 1%Z else if flt y1 y then (-1)%Z else 0%Z)
            end).
Proof.
  intros Fy HY. pose proof Sup as [[T1 [T2 [T3 T4]]] _].
  destruct (fexp_ok T1 T2 T3 T4 e Fe (e_const e Ce) y Fy) as (E & FE & BE & R).
  { assert (65 <= IZR emax) by (apply IZR_le; lia). lra. }
  { apply Rle_trans with (bpow 2); [simpl; lra|apply bpow_le; lia]. }
  assert (BE' : Rabs (v E - exp (v y)) <= eta * exp (v y)).
  { eapply Rle_trans; [exact BE|]. apply Rmult_le_compat_r; [left; apply exp_pos|]. unfold exp_tol, FlogProofs2.eta.
    apply Rmult_le_compat_r; [apply bpow_ge_0|]. lra. }
  destruct (nexty_ok Sup x y E Fx Fy FE HX HY BE') as [Fn St].
  exists (nexty x y E). split; [exact Fn|]. split; [exact St|]. split.
  - (eapply (step_range (v x) eta dd); first [exact HX|exact (dd_ok Sup)|exact (eta_ok Sup)|exact St|exact T|exact IV|exact HY]).
  - intros n fuel cmp Hf. destruct n; cbn [log_impl]; rewrite (R fuel Hf); reflexivity.
Qed.

Definition close (y : fl) : Prop := is_finite y = true /\ Rabs (v y) <= 3 /\ Rabs (v y - L) <= 2 * eta + 2 * dd.

Lemma cmp_lt (a b : fl) : is_finite a = true -> is_finite b = true -> v a < v b -> flt a b = true /\ flt b a = false /\ feq a b = false /\ feq b a = false.
Proof.
  intros A B H. rewrite !flt_spec, !feq_spec by assumption. repeat split.
  - apply Rlt_bool_true; lra.
  - apply Rlt_bool_false; lra.
  - apply Req_bool_false; lra.
  - apply Req_bool_false; lra.
Qed.

Lemma loop_up k : forall y : fl, is_finite y = true -> Rabs (v y) <= 3 -> v y <= L + 2 * eta + dd -> 3 - v y <= INR k * bpow emin ->
  exists r, close r /\ forall n fuel, (k <= n)%nat -> (N0 <= fuel)%nat -> log_impl n fuel e x y 1 = FVal r.
Proof.
  induction k as [|k IH]; intros y Fy HY IV B; destruct (round_ok y Fy HY) as (y1 & Fy1 & St & HY1 & R).
  all: destruct (Rtotal_order (v y) (v y1)) as [T|[T|T]].
  2, 5: exists y1; split; [split; [exact Fy1|split; [exact HY1|rewrite <- T in St |- *; (eapply (step_same (v x) eta dd); first [exact HX|exact (dd_ok Sup)|exact (eta_ok Sup)|exact St|exact T|exact IV|exact HY])]]|];
    intros n fuel _ Hf; rewrite R by exact Hf; rewrite feq_spec by assumption; rewrite Req_bool_true by (symmetry; exact T); reflexivity.
  2, 4: exists y1; split; [split; [exact Fy1|split; [exact HY1|(eapply (step_turn_down (v x) eta dd); first [exact HX|exact (dd_ok Sup)|exact (eta_ok Sup)|exact St|exact T|exact IV|exact HY])]]|];
    intros n fuel _ Hf; rewrite R by exact Hf; destruct (cmp_lt y1 y Fy1 Fy T) as (C1 & C2 & C3 & C4); rewrite C1, C3; reflexivity.
  - exfalso. cbn in B. apply Rabs_le_inv in HY1. lra.
  - destruct (IH y1 Fy1 HY1) as (r & Cr & Rr).
    + (eapply (step_up (v x) eta dd); first [exact HX|exact (dd_ok Sup)|exact (eta_ok Sup)|exact St|exact T|exact IV|exact HY]).
    + pose proof (gap _ _ (v_F y) (v_F y1) T) as G. rewrite S_INR in B. lra.
    + exists r. split; [exact Cr|]. intros [|n] fuel Hn Hf; [lia|]. rewrite R by exact Hf.
      destruct (cmp_lt y y1 Fy Fy1 T) as (C1 & C2 & C3 & C4). rewrite C1, C2, C4. cbn. apply Rr; lia.
Qed.
Lemma loop_down k : forall y : fl, is_finite y = true -> Rabs (v y) <= 3 -> L - 2 * eta - dd <= v y -> 3 + v y <= INR k * bpow emin ->
  exists r, close r /\ forall n fuel, (k <= n)%nat -> (N0 <= fuel)%nat -> log_impl n fuel e x y (-1) = FVal r.
Proof.
  induction k as [|k IH]; intros y Fy HY IV B; destruct (round_ok y Fy HY) as (y1 & Fy1 & St & HY1 & R).
  all: destruct (Rtotal_order (v y) (v y1)) as [T|[T|T]].
  2, 5: exists y1; split; [split; [exact Fy1|split; [exact HY1|rewrite <- T in St |- *; (eapply (step_same (v x) eta dd); first [exact HX|exact (dd_ok Sup)|exact (eta_ok Sup)|exact St|exact T|exact IV|exact HY])]]|];
    intros n fuel _ Hf; rewrite R by exact Hf; rewrite feq_spec by assumption; rewrite Req_bool_true by (symmetry; exact T); reflexivity.
  1, 3: exists y1; split; [split; [exact Fy1|split; [exact HY1|(eapply (step_turn_up (v x) eta dd); first [exact HX|exact (dd_ok Sup)|exact (eta_ok Sup)|exact St|exact T|exact IV|exact HY])]]|];
    intros n fuel _ Hf; rewrite R by exact Hf; destruct (cmp_lt y y1 Fy Fy1 T) as (C1 & C2 & C3 & C4); rewrite C1, C4; reflexivity.
  - exfalso. cbn in B. apply Rabs_le_inv in HY1. lra.
  - destruct (IH y1 Fy1 HY1) as (r & Cr & Rr).
    + (eapply (step_down (v x) eta dd); first [exact HX|exact (dd_ok Sup)|exact (eta_ok Sup)|exact St|exact T|exact IV|exact HY]).
    + pose proof (gap _ _ (v_F y1) (v_F y) T) as G. rewrite S_INR in B. lra.
    + exists r. split; [exact Cr|]. intros [|n] fuel Hn Hf; [lia|]. rewrite R by exact Hf.
      destruct (cmp_lt y1 y Fy1 Fy T) as (C1 & C2 & C3 & C4). rewrite C1, C2, C3. cbn. apply Rr; lia.
Qed.

Theorem loop_ok : exists r K, close r /\ forall fuel, (K <= fuel)%nat -> log_impl fuel fuel e x fzero 0 = FVal r.
Proof.
  assert (F0 : is_finite (fzero : fl) = true) by reflexivity. assert (V0 : v fzero = 0) by reflexivity.
  destruct (round_ok fzero F0 ltac:(rewrite V0, Rabs_R0; lra)) as (y1 & Fy1 & St & HY1 & R).
  assert (K : exists k, 6 <= INR k * bpow emin).
  { pose proof (bpow_gt_0 radix2 emin) as P. destruct (archimed (6 / bpow emin)) as [A _].
    assert (Q : 0 < 6 / bpow emin) by (apply Rdiv_lt_0_compat; lra). exists (Z.to_nat (up (6 / bpow emin))).
    rewrite INR_IZR_INZ, Z2Nat.id by (apply le_IZR; lra). apply Rle_trans with (6 / bpow emin * bpow emin); [right; field; lra|].
    apply Rmult_le_compat_r; lra. }
  destruct K as (k & Hk). pose proof (Rabs_le_inv _ _ HY1) as B1.
  destruct (Rtotal_order (v fzero) (v y1)) as [T|[T|T]].
  - destruct (loop_up k y1 Fy1 HY1) as (r & Cr & Rr).
    + (eapply (step_up (v x) eta dd); first [exact HX|exact (dd_ok Sup)|exact (eta_ok Sup)|exact St|exact T|exact IV|exact HY]).
    + lra.
    + exists r, (S k + N0)%nat. split; [exact Cr|]. intros [|fuel] Hf; [lia|]. rewrite R by lia.
      destruct (cmp_lt fzero y1 F0 Fy1 T) as (C1 & C2 & C3 & C4). rewrite C1, C4. cbn. apply Rr; lia.
  - exists y1, N0. split.
    + split; [exact Fy1|split; [exact HY1|rewrite <- T in St |- *; (eapply (step_same (v x) eta dd); first [exact HX|exact (dd_ok Sup)|exact (eta_ok Sup)|exact St|exact T|exact IV|exact HY])]].
    + intros fuel Hf. rewrite R by exact Hf. rewrite feq_spec by assumption. rewrite Req_bool_true by (symmetry; exact T). reflexivity.
  - destruct (loop_down k y1 Fy1 HY1) as (r & Cr & Rr).
    + (eapply (step_down (v x) eta dd); first [exact HX|exact (dd_ok Sup)|exact (eta_ok Sup)|exact St|exact T|exact IV|exact HY]).
    + lra.
    + exists r, (S k + N0)%nat. split; [exact Cr|]. intros [|fuel] Hf; [lia|]. rewrite R by lia.
      destruct (cmp_lt y1 fzero Fy1 F0 T) as (C1 & C2 & C3 & C4). rewrite C1, C2, C3. cbn. apply Rr; lia.
Qed.
End Fmt.
