(** * Properties of the constexpr log1p in IEEE 754 arithmetic. *)
From Coq Require Import ZArith Reals Lra Lia Bool.
From Flocq Require Import Core IEEE754.BinarySingleNaN.
From Verif Require Import FloatModel FloatSpec FloatProofs1 FloatProofs2 FserModel FserSpec FserProofs10 FloatProperties FserProperties.
From Verif Require Import FlogModel FlogSpec FlogProofs1 FlogProofs4 FlogProperties Flog1pModel Flog1pSpec Flog1pProofs Flog1pProofs2.
Local Open Scope R_scope.

Section Fmt.
Context {prec emax : Z} {Hp : Prec_gt_0 prec} {Hx : Prec_lt_emax prec emax}.
Notation fl := (binary_float prec emax).

(** C115: log1p ends, with a small absolute error.  Missing: arguments between 14 and 16, and those above a quarter of the largest
    power of two.  Those between -1/8 and 1/8 are in log1p_near_zero. *)
Theorem log1p_accurate_partial (e ln2 x : fl) : supported_log prec emax -> is_finite e = true -> best_constant prec (B2R e) (exp 1) ->
  is_finite ln2 = true -> good_constant prec (B2R ln2) (ln 2) -> is_finite x = true -> -1 < B2R x ->
  B2R x <= -1 / 8 \/ 1 / 8 <= B2R x <= 14 \/ 16 <= B2R x -> B2R x <= bpow radix2 (emax - 2) ->
  exists y, eventually (fun fuel => flog1p fuel e ln2 x) (FVal y) /\ is_finite y = true /\
    Rabs (B2R y - ln (1 + B2R x)) <= log1p_accuracy prec (B2R x).
Proof. intros. now apply log1p_spec. Qed.
(** C115: between -1/8 and 1/8 log1p ends, with an error that is small relative to x, however small x is. *)
Theorem log1p_near_zero (e ln2 x : fl) : supported_log prec emax -> is_finite x = true -> -1 / 8 < B2R x < 1 / 8 ->
  exists y, eventually (fun fuel => flog1p fuel e ln2 x) (FVal y) /\ is_finite y = true /\
    Rabs (B2R y - ln (1 + B2R x)) <= log1p_relative_accuracy prec * Rabs (B2R x).
Proof.
  intros Sup Fx R. destruct (int_v Sup (-1) ltac:(lia)) as [Vm Fm]. destruct (eighth_v Sup (-1) ltac:(lia)) as [Ve Fe]. destruct (eighth_v Sup 1 ltac:(lia)) as [Vf Ff].
  assert (V0 : B2R (fzero : fl) = 0) by reflexivity. assert (F0 : is_finite (fzero : fl) = true) by reflexivity.
  assert (I : feq x (B754_infinity false) = false) by (destruct x as [?| | |[|] ? ? ?]; try discriminate; reflexivity).
  destruct (Req_dec (B2R x) 0) as [Z|Z].
  - exists x. split; [exists 0%nat; intros fuel _|split; [exact Fx|]].
    + unfold flog1p. rewrite (finite_nan _ Fx), I, feq_spec, V0, Req_bool_true by assumption. reflexivity.
    + rewrite Z, Rplus_0_r, ln_1, Rminus_0_r, Rabs_R0. lra.
  - destruct Sup as ((S1 & S2 & S3 & S4) & S5).
    destruct (log1p_relative S1 S2 S3 S4 x Fx ltac:(apply Rabs_le; lra) Z) as (y & Fy & Ey & Ry).
    exists y. split; [exists (Z.to_nat (emax + prec)); intros fuel L|split; [exact Fy|exact Ey]].
    unfold flog1p. rewrite (finite_nan _ Fx), I, !feq_spec, !flt_spec by assumption. rewrite V0, Vm, Ve, Vf.
    rewrite !Req_bool_false, (Rlt_bool_false _ (-1)), !Rlt_bool_true by lra. cbn [andb]. now apply Ry.
Qed.
(** C115: the special values; zero keeps its sign, and numbers below -1 give NaN. *)
Theorem log1p_special (e ln2 : fl) fuel (s : bool) : supported_log prec emax ->
  flog1p fuel e ln2 B754_nan = FVal B754_nan /\ flog1p fuel e ln2 (B754_infinity false) = FVal (B754_infinity false) /\
  flog1p fuel e ln2 (B754_infinity true) = FVal B754_nan /\ flog1p fuel e ln2 (B754_zero s) = FVal (B754_zero s) /\
  flog1p fuel e ln2 (of_Z (-1)) = FVal (B754_infinity true) /\
  forall x : fl, is_finite x = true -> B2R x < -1 -> flog1p fuel e ln2 x = FVal B754_nan.
Proof.
  intros Sup. destruct (int_v Sup (-1) ltac:(lia)) as [Vm Fm].
  assert (V0 : B2R (fzero : fl) = 0) by reflexivity. assert (F0 : is_finite (fzero : fl) = true) by reflexivity.
  assert (I : forall z : fl, is_finite z = true -> feq z (B754_infinity false) = false) by (intros z Fz; destruct z as [?| | |[|] ? ? ?]; try discriminate; reflexivity).
  split; [reflexivity|]. split; [reflexivity|]. split; [|split; [|split]].
  - unfold flog1p. cbn [isnan is_nan]. replace (feq (B754_infinity true : fl) (of_Z (-1))) with false by (destruct (of_Z (-1) : fl) as [?| | |[|] ? ? ?]; try discriminate; reflexivity).
    replace (flt (B754_infinity true : fl) (of_Z (-1))) with true by (destruct (of_Z (-1) : fl) as [?| | |[|] ? ? ?]; try discriminate; reflexivity). reflexivity.
  - destruct s; reflexivity.
  - unfold flog1p. rewrite (finite_nan _ Fm), I, !feq_spec by assumption. rewrite V0, Vm, (Req_bool_false _ 0), (Req_bool_true (-1) (-1)) by lra. reflexivity.
  - intros x Fx L. unfold flog1p. rewrite (finite_nan _ Fx), I, !feq_spec, flt_spec by assumption.
    rewrite V0, Vm, !Req_bool_false, Rlt_bool_true by lra. reflexivity.
Qed.
End Fmt.
Print Assumptions log1p_accurate_partial.
Print Assumptions log1p_near_zero.
Print Assumptions log1p_special.

(** ** Double precision. *)
(** C115: for double, with the constants of the library. *)
Theorem log1p_double (x : float64) : is_finite x = true -> -1 < B2R x -> B2R x <= -1 / 8 \/ 1 / 8 <= B2R x <= 14 \/ 16 <= B2R x -> B2R x <= bpow radix2 1022 ->
  exists y, eventually (fun fuel => flog1p fuel e_d ln2_d x) (FVal y) /\ is_finite y = true /\
    Rabs (B2R y - ln (1 + B2R x)) <= log1p_accuracy 53 (B2R x).
Proof.
  intros Fx A B C. destruct e_d_ok, ln2_d_ok. apply log1p_accurate_partial; try assumption. split; [exact double_supported|lia].
Qed.
Print Assumptions log1p_double.
(** C115: the same near zero. *)
Theorem log1p_double_near_zero (x : float64) : is_finite x = true -> -1 / 8 < B2R x < 1 / 8 ->
  exists y, eventually (fun fuel => flog1p fuel e_d ln2_d x) (FVal y) /\ is_finite y = true /\
    Rabs (B2R y - ln (1 + B2R x)) <= 282 * bpow radix2 (-53) * Rabs (B2R x).
Proof.
  intros Fx R. destruct (log1p_near_zero e_d ln2_d x ltac:(split; [exact double_supported|lia]) Fx R) as (y & A & B & C). exists y. split; [exact A|]. split; [exact B|].
  unfold log1p_relative_accuracy, unit_error in C. replace (5 * 53 + 17) with 282 in C by lra. exact C.
Qed.
Print Assumptions log1p_double_near_zero.
(** log1p 1 and log1p(2^-20), the second by the series. *)
Example log1p_ex : (exists y, flog1p 100 e_d ln2_d (of_Z 1) = FVal y /\ Rabs (B2R y - 6931471805599453 / 10 ^ 16) <= 1 / 10 ^ 15) /\
  (exists y, flog1p 100 e_d ln2_d (of_me 1 (-20)) = FVal y /\ Rabs (B2R y - 9536738616591883 / 10 ^ 22) <= 1 / 10 ^ 21).
Proof.
  split.
  - destruct (sfres_val (flog1p 100 e_d ln2_d (of_Z 1)) _ ltac:(vm_compute; reflexivity)) as (y & A & B). exists y. split; [exact A|]. shown B. apply Rabs_le; lra.
  - destruct (sfres_val (flog1p 100 e_d ln2_d (of_me 1 (-20))) _ ltac:(vm_compute; reflexivity)) as (y & A & B). exists y. split; [exact A|]. shown B. apply Rabs_le; lra.
Qed.
