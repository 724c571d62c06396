(** * Properties of the constexpr pow in IEEE 754 arithmetic. *)
From Coq Require Import ZArith Reals Lra Lia Bool.
From Flocq Require Import Core IEEE754.BinarySingleNaN.
From Verif Require Import FloatModel FloatSpec FloatProofs1 FloatProofs2 FserModel FserSpec FserProofs5 FserProofs10 FloatProperties FserProperties.
From Verif Require Import FlogModel FlogSpec FlogProofs1 FlogProofs4 FlogProperties FhypProofs1 FpowModel FpowSpec FpowProofs.
Local Open Scope R_scope.

Lemma rem_pos n : (0 < n)%Z -> Z.rem n 2 = (if Z.odd n then 1 else 0)%Z.
Proof. intros H. rewrite Z.rem_mod_nonneg by lia. apply Zmod_odd. Qed.
Lemma rem_neg n : (n < 0)%Z -> Z.rem n 2 = (if Z.odd n then -1 else 0)%Z.
Proof. intros H. replace n with (- - n)%Z by lia. rewrite Z.rem_opp_l, rem_pos by lia. rewrite !Z.odd_opp. destruct (Z.odd n); reflexivity. Qed.

Section Fmt.
Context {prec emax : Z} {Hp : Prec_gt_0 prec} {Hx : Prec_lt_emax prec emax}.
Notation fl := (binary_float prec emax).

(** C113: pow with an integral exponent has a relative error of little more than one unit for each factor.
    Missing: powers whose reciprocal overflows (pow_underflow_refuted) and the least exponent (pow_least_exponent_refuted). *)
Theorem pow_int_accurate_partial (x : fl) (n : Z) : supported_log prec emax -> is_finite x = true -> (- 2 ^ 31 < n < 2 ^ 31)%Z ->
  power_in_range emax (B2R x ^ Z.abs_nat n) -> IZR (Z.abs n) * unit_error prec <= / 200 ->
  exists y, fpow_int x n = FVal y /\ is_finite y = true /\ Rabs (B2R y - powerRZ (B2R x) n) <= power_accuracy prec n * Rabs (powerRZ (B2R x) n).
Proof. intros Sup Fx. now apply pow_int_spec. Qed.

(** C113: pow of a positive number with an exponent of floating type.
    Missing: bases that are not positive (pow_negative_base_refuted, pow_zero_refuted) and large results (pow_large_refuted). *)
Theorem pow_real_accurate_partial (e ln2 x p : fl) : supported_log prec emax -> is_finite e = true -> best_constant prec (B2R e) (exp 1) ->
  is_finite ln2 = true -> good_constant prec (B2R ln2) (ln 2) -> is_finite x = true -> is_finite p = true -> 0 < B2R x ->
  Rabs (B2R p * ln (B2R x)) <= 11 / 16 * IZR emax - 5 -> Rabs (B2R p) * log_accuracy prec (B2R x) <= / 1000 ->
  exists y, eventually (fun fuel => fpow fuel e ln2 x p) (FVal y) /\ is_finite y = true /\
    Rabs (B2R y - Rpower (B2R x) (B2R p)) <= real_power_accuracy prec (B2R x) (B2R p) * Rpower (B2R x) (B2R p).
Proof. intros Sup Fe Ce F2 C2 Fx Fp. now apply pow_real_spec. Qed.

(** C113: the special values for an integral exponent. *)
Theorem pow_int_special (s : bool) (n : Z) : supported_log prec emax -> (- 2 ^ 31 < n < 2 ^ 31)%Z ->
  let zero s := B754_zero s : fl in let inf s := B754_infinity s : fl in
  (forall x : fl, fpow_int x 0 = FVal (of_Z 1)) /\ fpow_int (of_Z 1) n = FVal (of_Z 1 : fl) /\
  (n <> 0%Z -> fpow_int (B754_nan : fl) n = FVal B754_nan) /\
  ((0 < n)%Z -> fpow_int (zero s) n = FVal (zero (s && Z.odd n)) /\ fpow_int (inf s) n = FVal (inf (s && Z.odd n))) /\
  ((n < 0)%Z -> fpow_int (inf s) n = FVal (zero (s && Z.odd n)) /\ (s && Z.odd n = false -> fpow_int (zero s) n = FVal (inf false))).
Proof.
  intros Sup I. destruct (one_v Sup) as [V1 F1]. cbv zeta.
  assert (Z1 : feq (B754_zero s : fl) (of_Z 1) = false) by (rewrite feq_spec, V1 by (reflexivity || assumption); apply Req_bool_false; change (B2R (B754_zero s : fl)) with 0; lra).
  assert (I1 : feq (B754_infinity s : fl) (of_Z 1) = false) by (destruct s; destruct (of_Z 1 : fl) as [?| | |[|] ? ? ?]; try discriminate; reflexivity).
  split; [|split; [|split; [|split]]].
  - intros x. unfold fpow_int. destruct (feq x (of_Z 1)); reflexivity.
  - unfold fpow_int. rewrite feq_spec, Req_bool_true by auto. reflexivity.
  - intros N. unfold fpow_int. destruct (Z.eqb_spec n 0) as [E|E]; [contradiction|]. reflexivity.
  - intros P. unfold fpow_int. rewrite Z1, I1. destruct n as [|p|p]; try lia.
    assert (E2 : (Z.pos p =? - 2 ^ 31)%Z = false) by (apply Z.eqb_neq; lia). change (Z.pos p =? 0)%Z with false. rewrite E2.
    replace (Z.rem (- Z.pos p) 2) with (- Z.rem (Z.pos p) 2)%Z by (rewrite Z.rem_opp_l; lia). unfold pow_integral. rewrite (rem_pos _ P).
    destruct (Z.odd (Z.pos p)), s; split; reflexivity.
  - intros P. unfold fpow_int. rewrite Z1, I1. destruct n as [|p|p]; try lia.
    assert (E2 : (Z.neg p =? - 2 ^ 31)%Z = false) by (apply Z.eqb_neq; lia). change (Z.neg p =? 0)%Z with false. rewrite E2.
    replace (Z.rem (- Z.neg p) 2) with (- Z.rem (Z.neg p) 2)%Z by (rewrite Z.rem_opp_l; lia). unfold pow_integral. rewrite E2.
    replace (Z.rem (- Z.neg p) 2) with (- Z.rem (Z.neg p) 2)%Z by (rewrite Z.rem_opp_l; lia). rewrite (rem_neg _ P).
    destruct (Z.odd (Z.neg p)), s; split; try discriminate; reflexivity.
Qed.
End Fmt.
Print Assumptions pow_int_accurate_partial.
Print Assumptions pow_real_accurate_partial.
Print Assumptions pow_int_special.

(** ** Double precision. *)
(** 3^20 and 10^-5 meet the hypotheses; so does 2 to the power 1/2. *)
Example pow_int_ex : exists x : float64, is_finite x = true /\ B2R x = 10 /\ power_in_range 1024 (B2R x ^ Z.abs_nat (-5)) /\ IZR (Z.abs (-5)) * unit_error 53 <= / 200 /\
  exists y, fpow_int x (-5) = FVal y /\ Rabs (B2R y - / 100000) <= 1 / 10 ^ 20.
Proof.
  assert (V : B2R (of_Z 10 : float64) = 10) by (value; lra).
  exists (of_Z 10). split; [fin|]. split; [exact V|]. split; [|split].
  - rewrite V. change (Z.abs_nat (-5)) with 5%nat. unfold power_in_range. rewrite Rabs_pos_eq by (simpl; lra).
    split; [apply Rle_trans with (bpow radix2 0); [apply bpow_le; lia|simpl; lra]|apply Rle_trans with (bpow radix2 20); [simpl; lra|apply bpow_le; lia]].
  - unfold unit_error. simpl. lra.
  - destruct (sfres_val (fpow_int (of_Z 10 : float64) (-5)) _ ltac:(vm_compute; reflexivity)) as (y & A & B). exists y. split; [exact A|]. shown B. apply Rabs_le; lra.
Qed.
Example pow_real_ex : exists y : float64, fpow 100 e_d ln2_d (of_Z 2) (of_me 1 (-1)) = FVal y /\ Rabs (B2R y - 14142135623730951 / 10 ^ 16) <= 1 / 10 ^ 14.
Proof.
  destruct (sfres_val (fpow 100 e_d ln2_d (of_Z 2) (of_me 1 (-1))) _ ltac:(vm_compute; reflexivity)) as (y & A & B). exists y. split; [exact A|]. shown B. apply Rabs_le; lra.
Qed.
Lemma pow_real_ex_hypotheses : Rabs (/ 2 * ln 2) <= 11 / 16 * IZR 1024 - 5 /\ Rabs (/ 2) * log_accuracy 53 2 <= / 1000.
Proof.
  pose proof ln2_bounds as L. split; [apply Rabs_le; simpl IZR; lra|]. unfold log_accuracy, unit_error. rewrite !Rabs_pos_eq by lra.
  assert (ln 2 * ln 2 <= 1) by nra. apply Rle_trans with (/ 2 * (2000 * bpow radix2 (-53))); [apply Rmult_le_compat_l; [lra|]; apply Rmult_le_compat_r; [apply bpow_ge_0|simpl IZR; lra]|simpl; lra].
Qed.

(** C113, refuted: 2^-1074 is a double but pow(2, -1074) returns zero, because 2^1074 overflows. *)
Theorem pow_underflow_refuted : fpow_int (of_Z 2 : float64) (-1074) = FVal fzero /\ exists x : float64, B2R x = powerRZ 2 (-1074).
Proof.
  split.
  - destruct (sfres_val (fpow_int (of_Z 2 : float64) (-1074)) _ ltac:(vm_compute; reflexivity)) as (y & A & B). rewrite A. f_equal. apply B2SF_inj. exact B.
  - exists (of_me 1 (-1074)). erewrite value_SF by (vm_compute; reflexivity). unfold SF2R, F2R. cbn [Fnum Fexp cond_Zopp]. rewrite Rmult_1_l. apply (bpow_powerRZ radix2).
Qed.
Print Assumptions pow_underflow_refuted.
(** C113, refuted: the least int as an exponent is negated, which has no defined result. *)
Theorem pow_least_exponent_refuted : fpow_int (of_Z 2 : float64) (- 2 ^ 31) = FUB.
Proof. reflexivity. Qed.
Print Assumptions pow_least_exponent_refuted.
(** C113, refuted: pow(-0., -1) is plus infinity, against IEEE 754. *)
Theorem pow_minus_zero_refuted : fpow_int (B754_zero true : float64) (-1) = FVal (B754_infinity false).
Proof. reflexivity. Qed.
Print Assumptions pow_minus_zero_refuted.
(** C113, refuted: pow(-2., 3.) is not a number, although pow(-2., 3) is -8. *)
Theorem pow_negative_base_refuted : (forall fuel, fpow fuel e_d ln2_d (of_Z (-2)) (of_Z 3) = FVal B754_nan) /\ fpow_int (of_Z (-2) : float64) 3 = FVal (of_Z (-8)).
Proof.
  split; [intros fuel; vm_compute; reflexivity|].
  destruct (sfres_val (fpow_int (of_Z (-2) : float64) 3) _ ltac:(vm_compute; reflexivity)) as (y & A & B). rewrite A. f_equal. apply B2SF_inj. rewrite B. vm_compute. reflexivity.
Qed.
Print Assumptions pow_negative_base_refuted.
(** C113, refuted: pow(0., 0.) is 0 and pow(inf, 0.) is infinite, although pow(x, 0) is 1 for every x. *)
Theorem pow_zero_refuted : (forall fuel, fpow fuel e_d ln2_d fzero fzero = FVal fzero) /\
  (forall fuel, fpow fuel e_d ln2_d (B754_infinity false) fzero = FVal (B754_infinity false)) /\
  fpow_int (fzero : float64) 0 = FVal (of_Z 1) /\ fpow_int (B754_infinity false : float64) 0 = FVal (of_Z 1).
Proof. repeat split; try (intros fuel); vm_compute; reflexivity. Qed.
Print Assumptions pow_zero_refuted.
(** C113, refuted: a NaN to an infinite power is 1. *)
Theorem pow_nan_refuted : forall fuel s, fpow fuel e_d ln2_d B754_nan (B754_infinity s) = FVal (of_Z 1).
Proof. intros fuel s. unfold fpow. destruct s; reflexivity. Qed.
Print Assumptions pow_nan_refuted.
(** C113, refuted: pow(2., 2.^32) converts a number to an int that cannot hold it, instead of giving infinity. *)
Theorem pow_large_refuted : fpow 2000 e_d ln2_d (of_Z 2) (of_Z (2 ^ 32)) = FUB.
Proof.
  destruct (fpow 2000 e_d ln2_d (of_Z 2) (of_Z (2 ^ 32))) eqn:E; [|exfalso| reflexivity|exfalso];
  assert (S : sfres (fpow 2000 e_d ln2_d (of_Z 2) (of_Z (2 ^ 32))) = FUB) by (vm_compute; reflexivity); rewrite E in S; discriminate.
Qed.
Print Assumptions pow_large_refuted.
