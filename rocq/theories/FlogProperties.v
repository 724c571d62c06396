(** * Properties of the constexpr log in IEEE 754 arithmetic. *)
From Coq Require Import ZArith Reals Lra Lia Bool.
From Flocq Require Import Core IEEE754.BinarySingleNaN.
From Verif Require Import FloatModel FloatSpec FloatProofs1 FloatProofs2 FserModel FserSpec FserProofs10 FloatProperties FserProperties.
From Verif Require Import FlogModel FlogSpec FlogProofs1 FlogProofs4 FlogProofs5.
Local Open Scope R_scope.

Section Fmt.
Context {prec emax : Z} {Hp : Prec_gt_0 prec} {Hx : Prec_lt_emax prec emax}.
Notation fl := (binary_float prec emax).

(** C111: log ends for every positive finite number, however small or large, with a small absolute error.
    Missing: relative accuracy near 1, which is false (log_relative_refuted). *)
Theorem log_accurate_partial (e ln2 x : fl) : supported_log prec emax -> is_finite e = true -> best_constant prec (B2R e) (exp 1) ->
  is_finite ln2 = true -> good_constant prec (B2R ln2) (ln 2) -> is_finite x = true -> 0 < B2R x ->
  exists y, eventually (fun fuel => flog fuel e ln2 x) (FVal y) /\ is_finite y = true /\
    Rabs (B2R y - ln (B2R x)) <= log_accuracy prec (B2R x).
Proof. intros. now apply log_spec. Qed.

(** C111: the special values; log 1 is exactly zero, and negative numbers give NaN. *)
Theorem log_special (e ln2 : fl) fuel (s : bool) : supported_log prec emax ->
  flog fuel e ln2 B754_nan = FVal B754_nan /\ flog fuel e ln2 (B754_infinity false) = FVal (B754_infinity false) /\
  flog fuel e ln2 (B754_infinity true) = FVal B754_nan /\
  flog fuel e ln2 (of_Z 1) = FVal fzero /\ flog fuel e ln2 (B754_zero s) = FVal (B754_infinity true) /\
  forall x : fl, is_finite x = true -> B2R x < 0 -> flog fuel e ln2 x = FVal B754_nan.
Proof.
  intros [[S1 [S2 [S3 S4]]] _].
  destruct (small_Z (prec := prec) (emax := emax) ltac:(lia) ltac:(lia) 1 ltac:(lia)) as [V1 F1].
  assert (I1 : feq (of_Z 1 : fl) (B754_infinity false) = false) by (destruct (of_Z 1 : fl) as [?| | |[|] ? ? ?]; try discriminate; reflexivity).
  assert (V0 : B2R (fzero : fl) = 0) by reflexivity. assert (F0 : is_finite (fzero : fl) = true) by reflexivity.
  assert (N : forall b, feq (B754_infinity b) (of_Z 1 : fl) = false) by (intros b; destruct (of_Z 1 : fl) as [?| | |[|] ? ? ?]; try discriminate; destruct b; reflexivity).
  split; [reflexivity|]. split; [reflexivity|]. split; [unfold flog; cbn [isnan]; rewrite (N true); reflexivity|]. split; [|split].
  - unfold flog. rewrite (finite_nan _ F1), I1, feq_spec, Req_bool_true by auto. reflexivity.
  - unfold flog. assert (is_finite (B754_zero s : fl) = true) by reflexivity. assert (B2R (B754_zero s : fl) = 0) by reflexivity.
    rewrite (finite_nan _ H). replace (feq (B754_zero s : fl) (B754_infinity false)) with false by (destruct s; reflexivity).
    rewrite !feq_spec by assumption. rewrite Req_bool_false by (rewrite V1, H0; lra). rewrite Req_bool_true by (rewrite V0; assumption). reflexivity.
  - intros x Fx Nx. unfold flog. rewrite (finite_nan _ Fx). replace (feq x (B754_infinity false)) with false by (destruct x as [?| | |[|] ? ? ?]; try discriminate; reflexivity).
    rewrite !feq_spec, flt_spec by assumption. rewrite V0, V1, !Req_bool_false by lra. rewrite Rlt_bool_true by lra. reflexivity.
Qed.
End Fmt.
Print Assumptions log_accurate_partial.
Print Assumptions log_special.

(** ** Double precision. *)
(** numbers::ln2_v<double>. *)
Definition ln2_d : float64 := of_me 6243314768165359 (-53).
Lemma double_supported_log : supported_log 53 1024. Proof. split; [exact double_supported | lia]. Qed.
Lemma ln2_d_ok : is_finite ln2_d = true /\ good_constant 53 (B2R ln2_d) (ln 2).
Proof.
  split; [fin |]. unfold good_constant, unit_error. value. pose proof ln2_digits. apply Rabs_le. lra.
Qed.
Lemma ln_double (x : float64) : is_finite x = true -> 0 < B2R x -> Rabs (ln (B2R x)) <= 7 / 10 * 1074.
Proof.
  intros Fx P. pose proof ln2_bounds as LB. assert (U : B2R x <= bpow radix2 1024) by (left; apply (@finite_lt 53 1024)).
  pose proof (@pos_ge_emin 53 1024 x P) as L. apply Rabs_le. split.
  - apply Rle_trans with (ln (bpow radix2 (-1074))); [rewrite ln_bpow; lra|]. apply ln_le; [apply bpow_gt_0|exact L].
  - apply Rle_trans with (ln (bpow radix2 1024)); [apply ln_le; assumption|]. rewrite ln_bpow. lra.
Qed.

(** Every positive double: the logarithm to 2^-34. *)
Theorem log_double (x : float64) : is_finite x = true -> 0 < B2R x ->
  exists y, eventually (fun fuel => flog fuel e_d ln2_d x) (FVal y) /\ is_finite y = true /\ Rabs (B2R y - ln (B2R x)) <= bpow radix2 (-34).
Proof.
  intros Fx P. destruct e_d_ok as [A C]. destruct ln2_d_ok as [A2 C2].
  destruct (log_accurate_partial e_d ln2_d x double_supported_log A C A2 C2 Fx P) as (y & R & Fy & E).
  exists y. split; [exact R |]. split; [exact Fy |]. eapply Rle_trans; [exact E |]. pose proof (ln_double x Fx P) as B.
  unfold log_accuracy, unit_error. pose proof (Rabs_pos (ln (B2R x))) as B0.
  replace (ln (B2R x) * ln (B2R x)) with (Rabs (ln (B2R x)) * Rabs (ln (B2R x))) by (rewrite <- Rabs_mult, Rabs_pos_eq; [reflexivity|nra]).
  set (t := Rabs (ln (B2R x))) in *. assert (t * t <= (7 / 10 * 1074) * (7 / 10 * 1074)) by (apply Rmult_le_compat; lra).
  apply Rle_trans with (300000 * bpow radix2 (-53)); [apply Rmult_le_compat_r; [apply bpow_ge_0|simpl IZR; lra]|simpl; lra].
Qed.
Print Assumptions log_double.
(** log 10, log of the largest and of the least positive double. *)
Example log_accurate_ex : exists y z w : float64, flog 100 e_d ln2_d (of_Z 10) = FVal y /\ Rabs (B2R y - 23025850929940457 / 10 ^ 16) <= 1 / 10 ^ 15 /\
  flog 100 e_d ln2_d (of_me (2 ^ 53 - 1) 971) = FVal z /\ Rabs (B2R z - 70978271289338397 / 10 ^ 14) <= 1 / 10 ^ 12 /\
  flog 100 e_d ln2_d (of_me 1 (-1074)) = FVal w /\ Rabs (B2R w + 74444007192138122 / 10 ^ 14) <= 1 / 10 ^ 12.
Proof.
  destruct (sfres_val (flog 100 e_d ln2_d (of_Z 10)) _ ltac:(vm_compute; reflexivity)) as (y & A & B).
  destruct (sfres_val (flog 100 e_d ln2_d (of_me (2 ^ 53 - 1) 971)) _ ltac:(vm_compute; reflexivity)) as (z & A1 & B1).
  destruct (sfres_val (flog 100 e_d ln2_d (of_me 1 (-1074))) _ ltac:(vm_compute; reflexivity)) as (w & A2 & B2).
  exists y, z, w. split; [exact A |]. split; [shown B; apply Rabs_le; lra |]. split; [exact A1 |]. split; [shown B1; apply Rabs_le; lra |].
  split; [exact A2 |]. shown B2. apply Rabs_le; lra.
Qed.
(** C111, refuted: the logarithm of 1 - 2^-52 is returned as -2^-51 or less, twice its value. *)
Theorem log_relative_refuted : exists x y : float64, B2R x = 1 - bpow radix2 (-52) /\ flog 100 e_d ln2_d x = FVal y /\
  B2R y <= - bpow radix2 (-51) /\ Rabs (B2R y - ln (B2R x)) >= 99 / 100 * Rabs (ln (B2R x)).
Proof.
  destruct (sfres_val (flog 100 e_d ln2_d (of_me (2 ^ 52 - 1) (-52))) _ ltac:(vm_compute; reflexivity)) as (y & A & B).
  exists (of_me (2 ^ 52 - 1) (-52)), y.
  assert (Ex : B2R (of_me (2 ^ 52 - 1) (-52) : float64) = 1 - bpow radix2 (-52)) by (value; lra).
  assert (Ey : B2R y <= - bpow radix2 (-51)) by (shown B; lra).
  split; [exact Ex |]. split; [exact A |]. split; [exact Ey |]. rewrite Ex.
  assert (S : bpow radix2 (-51) = 2 * bpow radix2 (-52)) by (simpl; lra). rewrite S in Ey.
  assert (T : 0 < bpow radix2 (-52) <= / 1000) by (simpl; lra). set (t := bpow radix2 (-52)) in *.
  pose proof (ln_le_minus (1 - t) ltac:(lra)) as U.
  pose proof (ln_le_minus (/ (1 - t)) ltac:(apply Rinv_0_lt_compat; lra)) as V. rewrite ln_Rinv in V by lra.
  assert (W : / (1 - t) <= 1 + 1002 / 1000 * t) by (apply Rmult_le_reg_r with (1 - t); [lra|]; rewrite Rinv_l by lra; nra).
  rewrite (Rabs_left1 (ln (1 - t))) by lra. rewrite Rabs_left1 by lra. lra.
Qed.
Print Assumptions log_relative_refuted.
