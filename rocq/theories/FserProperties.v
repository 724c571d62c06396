(** * Properties of the constexpr exp, expm1, sin and cos in IEEE 754 arithmetic. *)
From Coq Require Import ZArith Reals Lra Lia Bool.
From Flocq Require Import Core IEEE754.BinarySingleNaN.
From Verif Require Import FloatModel FloatSpec FloatProofs1 FloatProofs2 FserModel FserSpec FserProofs5 FserProofs10 FloatProperties.
Local Open Scope R_scope.

Section Fmt.
Context {prec emax : Z} {Hp : Prec_gt_0 prec} {Hx : Prec_lt_emax prec emax}.
Notation fl := (binary_float prec emax).

(** C95: exp ends for every argument that is not too large, and the result is positive and accurate.
    Missing: larger arguments, where the claim is false (exp_underflow_refuted, exp_large_refuted). *)
Theorem exp_accurate_partial (e x : fl) : supported prec emax -> is_finite e = true -> best_constant prec (B2R e) (exp 1) -> is_finite x = true ->
  Rabs (B2R x) <= 11 / 16 * IZR emax - 4 -> Rabs (B2R x) <= bpow radix2 (prec - 5) ->
  exists y, eventually (fun fuel => fexp fuel e x) (FVal y) /\ is_finite y = true /\ 0 < B2R y /\
    Rabs (B2R y - exp (B2R x)) <= exp_accuracy prec (B2R x) * exp (B2R x).
Proof. intros. now apply exp_spec. Qed.

(** C95: the special values. *)
Theorem exp_special (e : fl) fuel (s : bool) : fexp fuel e B754_nan = FVal B754_nan /\ fexp fuel e (B754_infinity false) = FVal (B754_infinity false) /\
  fexp fuel e (B754_infinity true) = FVal fzero /\ fexp fuel e (B754_zero s) = FVal (of_Z 1).
Proof. unfold fexp. destruct s; repeat split; reflexivity. Qed.

(** C96: expm1 ends for every argument that is not too large, with an error small relative to exp x + 1; for x >= 0 the error
    is small relative to exp x - 1.  Missing: relative accuracy below zero, which is false (expm1_sign_refuted). *)
Theorem expm1_accurate_partial (e x : fl) : supported prec emax -> is_finite e = true -> best_constant prec (B2R e) (exp 1) -> is_finite x = true ->
  Rabs (B2R x) <= 11 / 16 * IZR emax - 4 -> Rabs (B2R x) <= bpow radix2 (prec - 5) ->
  exists y, eventually (fun fuel => fexpm1 fuel e x) (FVal y) /\ is_finite y = true /\
    Rabs (B2R y - (exp (B2R x) - 1)) <= expm1_accuracy prec (B2R x) * (exp (B2R x) + 1) /\
    (0 <= B2R x -> Rabs (B2R y - (exp (B2R x) - 1)) <= expm1_relative prec (B2R x) * (exp (B2R x) - 1)).
Proof. intros. now apply expm1_spec. Qed.

(** C97: sin ends for every argument up to 2^(prec - 5), with a small absolute error, and a small relative error near zero.
    Missing: larger arguments, where the claim is false (sin_large_refuted, sin_overflow_refuted, sin_turns_refuted). *)
Theorem sin_accurate_partial (pi x : fl) : supported prec emax -> is_finite pi = true -> best_constant prec (B2R pi) PI -> is_finite x = true ->
  Rabs (B2R x) <= bpow radix2 (prec - 5) -> Rabs (B2R x) <= bpow radix2 62 ->
  exists y, eventually (fun fuel => fsin fuel pi x) (FVal y) /\ is_finite y = true /\ Rabs (B2R y - sin (B2R x)) <= angle_accuracy prec (B2R x) /\
    (Rabs (B2R x) <= 5 / 2 -> Rabs (B2R y - sin (B2R x)) <= angle_accuracy_near prec) /\
    (Rabs (B2R x) <= 1 -> Rabs (B2R y - sin (B2R x)) <= sin_relative prec * Rabs (B2R x)).
Proof. intros. now apply sin_spec. Qed.

(** C97: cos. *)
Theorem cos_accurate_partial (pi x : fl) : supported prec emax -> is_finite pi = true -> best_constant prec (B2R pi) PI -> is_finite x = true ->
  Rabs (B2R x) <= bpow radix2 (prec - 5) -> Rabs (B2R x) <= bpow radix2 62 ->
  exists y, eventually (fun fuel => fcos fuel pi x) (FVal y) /\ is_finite y = true /\ Rabs (B2R y - cos (B2R x)) <= angle_accuracy prec (B2R x) /\
    (Rabs (B2R x) <= 5 / 2 -> Rabs (B2R y - cos (B2R x)) <= angle_accuracy_near prec).
Proof. intros. now apply cos_spec. Qed.

(** C97: infinities and NaN give NaN. *)
Theorem sin_cos_special (pi : fl) fuel (s : bool) : fsin fuel pi B754_nan = FVal B754_nan /\ fsin fuel pi (B754_infinity s) = FVal B754_nan /\
  fcos fuel pi B754_nan = FVal B754_nan /\ fcos fuel pi (B754_infinity s) = FVal B754_nan.
Proof. repeat split; reflexivity. Qed.
End Fmt.
Print Assumptions exp_accurate_partial.
Print Assumptions exp_special.
Print Assumptions expm1_accurate_partial.
Print Assumptions sin_accurate_partial.
Print Assumptions cos_accurate_partial.
Print Assumptions sin_cos_special.

(** ** Double precision. *)
(** numbers::e_v<double> and pi_v<double>. *)
Definition e_d : float64 := of_me 6121026514868073 (-51).
Definition pi_f : float64 := of_me 7074237752028440 (-51).
Ltac shown B := rewrite (value_SF _ _ B); unfold SF2R, F2R; cbn [Fnum Fexp cond_Zopp]; simpl bpow; simpl IZR.
Lemma double_supported : supported 53 1024. Proof. unfold supported. lia. Qed.
Lemma e_d_ok : is_finite e_d = true /\ best_constant 53 (B2R e_d) (exp 1).
Proof.
  split; [fin |]. unfold best_constant, unit_error. value. pose proof e_digits. apply Rabs_le. lra.
Qed.
Lemma pi_f_ok : is_finite pi_f = true /\ best_constant 53 (B2R pi_f) PI.
Proof.
  split; [fin |]. unfold best_constant, unit_error. value. pose proof PI_digits. apply Rabs_le. lra.
Qed.

(** Every double from -700 to 700: exp to 3300 units of 2^-53. *)
Theorem exp_double (x : float64) : is_finite x = true -> Rabs (B2R x) <= 700 ->
  exists y, eventually (fun fuel => fexp fuel e_d x) (FVal y) /\ is_finite y = true /\ 0 < B2R y /\
    Rabs (B2R y - exp (B2R x)) <= 3300 * bpow radix2 (-53) * exp (B2R x).
Proof.
  intros Fx B. destruct e_d_ok as [A C]. destruct (exp_accurate_partial e_d x double_supported A C Fx) as (y & R & Fy & P & E).
  - lra.
  - eapply Rle_trans; [exact B |]. apply Rle_trans with (bpow radix2 10); [simpl; lra | apply bpow_le; lia].
  - exists y. split; [exact R |]. split; [exact Fy |]. split; [exact P |]. eapply Rle_trans; [exact E |]. apply Rmult_le_compat_r; [left; apply exp_pos |]. unfold exp_accuracy, unit_error. apply Rmult_le_compat_r; [apply bpow_ge_0 | simpl IZR; lra].
Qed.
Print Assumptions exp_double.
Example exp_double_ex : exists y : float64, fexp 100 e_d (of_Z 1) = FVal y /\ B2R y = B2R e_d.
Proof.
  destruct (sfres_val (fexp 100 e_d (of_Z 1)) _ ltac:(vm_compute; reflexivity)) as (y & A & B).
  exists y. split; [exact A |]. shown B. value. lra.
Qed.
(** Every double between -2.5 and 2.5: sin and cos to 1600 units of 2^-53; sin to 300 units relative to x from -1 to 1. *)
Theorem sin_cos_double (x : float64) : is_finite x = true -> Rabs (B2R x) <= 5 / 2 ->
  exists s c, eventually (fun fuel => fsin fuel pi_f x) (FVal s) /\ eventually (fun fuel => fcos fuel pi_f x) (FVal c) /\
    Rabs (B2R s - sin (B2R x)) <= 1600 * bpow radix2 (-53) /\ Rabs (B2R c - cos (B2R x)) <= 1600 * bpow radix2 (-53) /\
    (Rabs (B2R x) <= 1 -> Rabs (B2R s - sin (B2R x)) <= 300 * bpow radix2 (-53) * Rabs (B2R x)).
Proof.
  intros Fx B. destruct pi_f_ok as [A C]. destruct (small_range double_supported (B2R x) B) as [R1 R2].
  destruct (sin_accurate_partial pi_f x double_supported A C Fx R1 R2) as (s & Es & _ & _ & Ns & Rs). destruct (cos_accurate_partial pi_f x double_supported A C Fx R1 R2) as (c & Ec & _ & _ & Nc).
  exists s, c. split; [exact Es |]. split; [exact Ec |]. pose proof (bpow_ge_0 radix2 (-53)) as P. assert (angle_accuracy_near 53 <= 1600 * bpow radix2 (-53)) by (unfold angle_accuracy_near, unit_error; apply Rmult_le_compat_r; [exact P | simpl IZR; lra]).
  specialize (Ns B). specialize (Nc B). split; [lra |]. split; [lra |]. intros D. specialize (Rs D). eapply Rle_trans; [exact Rs |]. apply Rmult_le_compat_r; [apply Rabs_pos |]. unfold sin_relative, unit_error. apply Rmult_le_compat_r; [exact P | simpl IZR; lra].
Qed.
Print Assumptions sin_cos_double.
(** A non-trivial angle: 2^40 radians satisfies the hypotheses of sin_accurate_partial, and lies 10^11 turns away. *)
Example sin_accurate_ex : Rabs (B2R (of_Z (2 ^ 40) : float64)) <= bpow radix2 (53 - 5) /\
  exists y : float64, fsin 100 pi_f (of_Z (2 ^ 40)) = FVal y /\ -41 / 100 < B2R y < -40 / 100.
Proof.
  split; [value; rewrite Rabs_pos_eq by lra; change (bpow radix2 (53 - 5)) with 281474976710656; lra |].
  destruct (sfres_val (fsin 100 pi_f (of_Z (2 ^ 40))) _ ltac:(vm_compute; reflexivity)) as (y & A & B).
  exists y. split; [exact A |]. shown B. lra.
Qed.
Example expm1_accurate_ex : exists y : float64, fexpm1 100 e_d (of_me 1 (-40)) = FVal y /\ Rabs (B2R y - (1 / 2 ^ 40 + 1 / 2 ^ 81)) <= 1 / 2 ^ 92.
Proof.
  destruct (sfres_val (fexpm1 100 e_d (of_me 1 (-40))) _ ltac:(vm_compute; reflexivity)) as (y & A & B).
  exists y. split; [exact A |]. shown B. apply Rabs_le. lra.
Qed.

(** C95, refuted: exp(-711) is returned as zero although it exceeds the least positive double by far. *)
Theorem exp_underflow_refuted : fexp 1000 e_d (of_Z (-711)) = FVal fzero /\ bpow radix2 30 * tiny 53 1024 <= exp (-711).
Proof.
  split.
  - destruct (sfres_val (fexp 1000 e_d (of_Z (-711))) _ ltac:(vm_compute; reflexivity)) as (y & A & B). rewrite A. f_equal. apply B2SF_inj. exact B.
  - replace (-711) with (- (711)) by lra. rewrite exp_Ropp. unfold tiny. rewrite <- bpow_plus. apply Rle_trans with (bpow radix2 (- 1035)); [apply bpow_le; lia |]. change (-1035)%Z with (Z.opp 1035). rewrite bpow_opp. apply Rinv_le; [apply exp_pos |]. apply exp_bpow; [lia |]. lra.
Qed.
Print Assumptions exp_underflow_refuted.
(** C95, refuted: exp(2^31) converts to an int that cannot hold it, instead of giving infinity. *)
Theorem exp_large_refuted fuel : fexp fuel e_d (of_Z (2 ^ 31)) = FUB.
Proof.
  assert (T : truncated (of_Z (2 ^ 31) : float64) = FUB) by (vm_compute; reflexivity). unfold fexp. rewrite T.
  assert (A : isnan (of_Z (2 ^ 31) : float64) = false) by (vm_compute; reflexivity). rewrite A.
  assert (A1 : feq (of_Z (2 ^ 31) : float64) (B754_infinity false) = false) by (vm_compute; reflexivity). rewrite A1.
  assert (A2 : feq (of_Z (2 ^ 31) : float64) (B754_infinity true) = false) by (vm_compute; reflexivity). rewrite A2.
  assert (A3 : feq (of_Z (2 ^ 31) : float64) fzero = false) by (vm_compute; reflexivity). rewrite A3.
  assert (A4 : flt fzero (of_Z (2 ^ 31) : float64) && flt (of_Z (2 ^ 31) : float64) (of_Z 1) = false) by (vm_compute; reflexivity). rewrite A4. reflexivity.
Qed.
Print Assumptions exp_large_refuted.
(** C96, refuted: expm1 of the negative number -2^-60 is 2^-52, of the wrong sign and 256 times too large. *)
Theorem expm1_sign_refuted : exists y : float64, B2R (of_me (-1) (-60) : float64) = - bpow radix2 (-60) /\ fexpm1 100 e_d (of_me (-1) (-60)) = FVal y /\ B2R y = bpow radix2 (-52).
Proof.
  destruct (sfres_val (fexpm1 100 e_d (of_me (-1) (-60))) _ ltac:(vm_compute; reflexivity)) as (y & A & B).
  exists y. split; [value; lra |]. split; [exact A |]. shown B. lra.
Qed.
Print Assumptions expm1_sign_refuted.
(** C97, refuted: the cosine of an angle close to a full turn exceeds 1. *)
Theorem cos_range_refuted : exists y : float64, fcos 100 pi_f (of_me 0x1921fb53a3b816 (-50)) = FVal y /\ 1 < B2R y.
Proof.
  destruct (sfres_val (fcos 100 pi_f (of_me 0x1921fb53a3b816 (-50))) _ ltac:(vm_compute; reflexivity)) as (y & A & B).
  exists y. split; [exact A |]. shown B. lra.
Qed.
Print Assumptions cos_range_refuted.
(** C97, refuted: the sine of 10^18 is below -10^37. *)
Theorem sin_large_refuted : exists y : float64, B2R (of_Z (10 ^ 18) : float64) = 10 ^ 18 /\ fsin 1000 pi_f (of_Z (10 ^ 18)) = FVal y /\ B2R y < - 10 ^ 37.
Proof.
  destruct (sfres_val (fsin 1000 pi_f (of_Z (10 ^ 18))) _ ltac:(vm_compute; reflexivity)) as (y & A & B).
  exists y. split; [value; lra |]. split; [exact A |]. shown B. lra.
Qed.
Print Assumptions sin_large_refuted.
(** C97, refuted: the series for 7361372339385404416 runs until the counter of type int overflows. *)
Theorem sin_overflow_refuted : exists fuel, fsin fuel pi_f (of_Z 7361372339385404416) = FUB.
Proof.
  exists 30000%nat. assert (E : sfres (fsin 30000 pi_f (of_Z 7361372339385404416)) = FUB) by (vm_compute; reflexivity).
  destruct (fsin _ _ _); try discriminate. reflexivity.
Qed.
Print Assumptions sin_overflow_refuted.
(** C97, refuted: 2^63 turns pass the test for conversion to a 64-bit integer, which does not hold them. *)
Theorem sin_turns_refuted : exists fuel, fsin fuel pi_f (fmul (of_Z (2 ^ 63)) (fmul (of_Z 2) pi_f)) = FUB.
Proof.
  exists 100%nat. assert (E : sfres (fsin 100 pi_f (fmul (of_Z (2 ^ 63)) (fmul (of_Z 2) pi_f))) = FUB) by (vm_compute; reflexivity).
  destruct (fsin _ _ _); try discriminate. reflexivity.
Qed.
Print Assumptions sin_turns_refuted.
