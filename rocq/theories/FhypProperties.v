(** * Properties of the constexpr hyperbolic functions in IEEE 754 arithmetic. *)
From Coq Require Import ZArith Reals Lra Lia Bool.
From Flocq Require Import Core IEEE754.BinarySingleNaN.
From Verif Require Import FloatModel FloatSpec FloatProofs1 FloatProofs2 FserModel FserSpec FserProofs5 FserProofs10 FloatProperties FserProperties.
From Verif Require Import FlogModel FlogSpec FlogProofs1 FlogProofs4 FlogProperties FhypModel FhypSpec FhypProofs1 FhypProofs2 FhypProofs3 FhypProofs4.
Local Open Scope R_scope.

(** The real functions of the specification are the inverses they are meant to be. *)
Theorem tanh_artanh x : -1 < x < 1 -> tanh (artanh x) = x.
Proof.
  intros H. rewrite tanh_exp, <- exp_plus. unfold artanh. replace (ln ((1 + x) / (1 - x)) / 2 + ln ((1 + x) / (1 - x)) / 2) with (ln ((1 + x) / (1 - x))) by lra.
  rewrite exp_ln by (apply Rmult_lt_0_compat; [lra|apply Rinv_0_lt_compat; lra]). field. lra.
Qed.
Lemma root_above x : x < sqrt (x * x + 1).
Proof. apply Rle_lt_trans with (Rabs x); [apply RRle_abs|]. rewrite <- sqrt_Rsqr_abs. unfold Rsqr. apply sqrt_lt_1_alt. nra. Qed.
Theorem sinh_arsinh x : sinh (arsinh x) = x.
Proof.
  unfold sinh, arsinh. rewrite exp_Ropp. pose proof (root_above (- x)) as A. replace (- x * - x) with (x * x) in A by lra.
  rewrite exp_ln by lra. pose proof (sqrt_sqrt (x * x + 1) ltac:(nra)) as S. set (s := sqrt (x * x + 1)) in *.
  replace (/ (x + s)) with (s - x); [lra|]. apply Rmult_eq_reg_r with (x + s); [|lra]. rewrite Rinv_l by lra. lra.
Qed.
Theorem cosh_arcosh x : 1 <= x -> 0 <= arcosh x /\ cosh (arcosh x) = x.
Proof.
  intros H. pose proof (sqrt_pos (x * x - 1)) as P. pose proof (sqrt_sqrt (x * x - 1) ltac:(nra)) as S. unfold cosh, arcosh. set (s := sqrt (x * x - 1)) in *. split.
  - rewrite <- ln_1. apply ln_le; lra.
  - rewrite exp_Ropp, exp_ln by lra. replace (/ (x + s)) with (x - s); [lra|]. apply Rmult_eq_reg_r with (x + s); [|lra]. rewrite Rinv_l by lra. lra.
Qed.

Section Fmt.
Context {prec emax : Z} {Hp : Prec_gt_0 prec} {Hx : Prec_lt_emax prec emax}.
Notation fl := (binary_float prec emax).

(** C112: cosh ends for every argument that is not too large, with a small relative error.
    Missing: larger arguments, where the claim is false (cosh_symmetry_refuted). *)
Theorem cosh_accurate_partial (e x : fl) : supported_log prec emax -> is_finite e = true -> best_constant prec (B2R e) (exp 1) -> is_finite x = true ->
  Rabs (B2R x) <= 11 / 16 * IZR emax - 4 ->
  exists y, eventually (fun fuel => fcosh fuel e x) (FVal y) /\ is_finite y = true /\
    Rabs (B2R y - cosh (B2R x)) <= hyperbolic_accuracy prec (B2R x) * cosh (B2R x).
Proof. intros. now apply cosh_spec. Qed.

(** C112: sinh, with an error small relative to cosh x.
    Missing: accuracy relative to sinh x near zero (sinh_small_refuted) and larger arguments (cosh_symmetry_refuted). *)
Theorem sinh_accurate_partial (e x : fl) : supported_log prec emax -> is_finite e = true -> best_constant prec (B2R e) (exp 1) -> is_finite x = true ->
  Rabs (B2R x) <= 11 / 16 * IZR emax - 4 ->
  exists y, eventually (fun fuel => fsinh fuel e x) (FVal y) /\ is_finite y = true /\
    Rabs (B2R y - sinh (B2R x)) <= hyperbolic_accuracy prec (B2R x) * cosh (B2R x).
Proof. intros. now apply sinh_spec. Qed.

(** C112: tanh, with a small absolute error.  Missing: larger arguments, where the claim is false (tanh_large_refuted). *)
Theorem tanh_accurate_partial (e x : fl) : supported_log prec emax -> is_finite e = true -> best_constant prec (B2R e) (exp 1) -> is_finite x = true ->
  Rabs (B2R x) <= 11 / 32 * IZR emax - 4 ->
  exists y, eventually (fun fuel => ftanh fuel e x) (FVal y) /\ is_finite y = true /\ Rabs (B2R y - tanh (B2R x)) <= tanh_accuracy prec (B2R x).
Proof. intros. now apply tanh_spec. Qed.

(** C112: atanh of every number between -1 and 1, with a small absolute error.
    Missing: relative accuracy near zero, which is false (atanh_small_refuted). *)
Theorem atanh_accurate_partial (e ln2 x : fl) : supported_log prec emax -> is_finite e = true -> best_constant prec (B2R e) (exp 1) ->
  is_finite ln2 = true -> good_constant prec (B2R ln2) (ln 2) -> is_finite x = true -> Rabs (B2R x) < 1 ->
  exists y, eventually (fun fuel => fatanh fuel e ln2 x) (FVal y) /\ is_finite y = true /\ Rabs (B2R y - artanh (B2R x)) <= atanh_accuracy prec (B2R x).
Proof. intros. now apply atanh_spec. Qed.

(** C112: asinh of a number that is not negative and whose square is in range, with a small absolute error.
    Missing: negative and larger numbers, where the claim is false (asinh_negative_refuted, asinh_large_refuted). *)
Theorem asinh_accurate_partial (e ln2 x : fl) : supported_log prec emax -> is_finite e = true -> best_constant prec (B2R e) (exp 1) ->
  is_finite ln2 = true -> good_constant prec (B2R ln2) (ln 2) -> is_finite x = true -> 0 <= B2R x -> B2R x * B2R x <= bpow radix2 (emax - 3) ->
  exists y, eventually (fun fuel => fasinh fuel e ln2 x) (FVal y) /\ is_finite y = true /\ Rabs (B2R y - arsinh (B2R x)) <= inverse_accuracy prec (arsinh (B2R x)).
Proof. intros. now apply asinh_spec. Qed.

(** C112: acosh of a number above 1 whose square is in range; the error grows towards 1.  Missing: larger numbers, where the claim is false (asinh_large_refuted). *)
Theorem acosh_accurate_partial (e ln2 x : fl) : supported_log prec emax -> is_finite e = true -> best_constant prec (B2R e) (exp 1) ->
  is_finite ln2 = true -> good_constant prec (B2R ln2) (ln 2) -> is_finite x = true -> 1 < B2R x -> B2R x * B2R x <= bpow radix2 (emax - 3) ->
  exists y, eventually (fun fuel => facosh fuel e ln2 x) (FVal y) /\ is_finite y = true /\
    Rabs (B2R y - arcosh (B2R x)) <= inverse_accuracy prec (arcosh (B2R x)) + 2 * unit_error prec / sqrt (B2R x * B2R x - 1).
Proof. intros. now apply acosh_all. Qed.

(** C112: from 2 on the error is as small as that of asinh. *)
Theorem acosh_from_two (e ln2 x : fl) : supported_log prec emax -> is_finite e = true -> best_constant prec (B2R e) (exp 1) ->
  is_finite ln2 = true -> good_constant prec (B2R ln2) (ln 2) -> is_finite x = true -> 2 <= B2R x -> B2R x * B2R x <= bpow radix2 (emax - 3) ->
  exists y, eventually (fun fuel => facosh fuel e ln2 x) (FVal y) /\ is_finite y = true /\ Rabs (B2R y - arcosh (B2R x)) <= inverse_accuracy prec (arcosh (B2R x)).
Proof. intros. now apply acosh_spec. Qed.

(** C112: the special values. *)
Theorem hyperbolic_special (e ln2 : fl) fuel (s : bool) : supported_log prec emax ->
  let inf b := B754_infinity b : fl in let zero := B754_zero s : fl in
  (fsinh fuel e B754_nan = FVal B754_nan /\ fsinh fuel e zero = FVal zero /\ fsinh fuel e (inf s) = FVal (inf s)) /\
  (fcosh fuel e B754_nan = FVal B754_nan /\ fcosh fuel e (inf s) = FVal (inf false)) /\
  (ftanh fuel e B754_nan = FVal B754_nan /\ ftanh fuel e zero = FVal zero /\ ftanh fuel e (inf s) = FVal (of_Z (if s then -1 else 1))) /\
  (fasinh fuel e ln2 B754_nan = FVal B754_nan /\ fasinh fuel e ln2 zero = FVal zero /\ fasinh fuel e ln2 (inf s) = FVal (inf s)) /\
  (facosh fuel e ln2 B754_nan = FVal B754_nan /\ facosh fuel e ln2 (of_Z 1) = FVal fzero /\ facosh fuel e ln2 (inf false) = FVal (inf false)) /\
  (forall x : fl, is_finite x = true -> B2R x < 1 -> facosh fuel e ln2 x = FVal B754_nan) /\
  (fatanh fuel e ln2 B754_nan = FVal B754_nan /\ fatanh fuel e ln2 zero = FVal zero /\ fatanh fuel e ln2 (inf s) = FVal B754_nan /\
   fatanh fuel e ln2 (of_Z 1) = FVal (inf false) /\ fatanh fuel e ln2 (of_Z (-1)) = FVal (inf true)) /\
  (forall x : fl, is_finite x = true -> 1 < Rabs (B2R x) -> fatanh fuel e ln2 x = FVal B754_nan).
Proof.
  intros Sup. destruct (one_v Sup) as [V1 F1].
  assert (VM : B2R (of_Z (-1) : fl) = -1 /\ is_finite (of_Z (-1) : fl) = true) by (destruct Sup as [[? [? [? ?]]] ?]; apply small_Z; lia). destruct VM as [VM FM].
  assert (F0 : is_finite (B754_zero s : fl) = true) by reflexivity. assert (V0 : B2R (B754_zero s : fl) = 0) by reflexivity.
  assert (N1 : isnan (of_Z 1 : fl) = false) by (apply finite_nan; exact F1). assert (NM : isnan (of_Z (-1) : fl) = false) by (apply finite_nan; exact FM).
  cbv zeta. repeat match goal with |- _ /\ _ => split end; try (unfold fsinh, fcosh, ftanh, fasinh; destruct s; reflexivity); try reflexivity.
  - unfold facosh. rewrite N1, feq_spec, Req_bool_true by auto. reflexivity.
  - unfold facosh. destruct (of_Z 1 : fl) as [?| | |[|] ? ? ?]; try discriminate; reflexivity.
  - intros x Fx Lx. unfold facosh. rewrite (finite_nan x Fx), (finite_eq_inf x) by assumption. rewrite feq_spec, flt_spec, V1, Req_bool_false, Rlt_bool_true by (assumption || lra). reflexivity.
  - unfold fatanh. change (isnan (B754_zero s : fl)) with false. rewrite !flt_spec, !feq_spec, V0, V1, VM, !Rlt_bool_false, !Req_bool_false by (reflexivity || assumption || lra).
    cbn [orb]. rewrite Req_bool_true by reflexivity. reflexivity.
  - unfold fatanh. assert (O : flt (B754_infinity s : fl) (of_Z (-1)) || flt (of_Z 1) (B754_infinity s : fl) = true).
    { destruct s; [|apply orb_true_iff; right; destruct (of_Z 1 : fl) as [?| | |[|] ? ? ?]; try discriminate; reflexivity].
      apply orb_true_iff; left; destruct (of_Z (-1) : fl) as [?| | |[|] ? ? ?]; try discriminate; reflexivity. }
    rewrite O. reflexivity.
  - unfold fatanh. rewrite N1, !flt_spec, !feq_spec, V1, VM, !Rlt_bool_false by (assumption || lra). cbn [orb]. rewrite Req_bool_true by reflexivity. reflexivity.
  - unfold fatanh. rewrite NM, !flt_spec, !feq_spec, V1, VM, !Rlt_bool_false by (assumption || lra). cbn [orb]. rewrite Req_bool_false, Req_bool_true by (reflexivity || lra). reflexivity.
  - intros x Fx Lx. unfold fatanh. rewrite (finite_nan x Fx), !flt_spec, V1, VM by assumption. unfold Rabs in Lx. destruct (Rcase_abs (B2R x)).
    + rewrite Rlt_bool_true by lra. reflexivity.
    + rewrite (Rlt_bool_true 1) by lra. rewrite orb_true_r. reflexivity.
Qed.
End Fmt.
Print Assumptions cosh_accurate_partial.
Print Assumptions sinh_accurate_partial.
Print Assumptions tanh_accurate_partial.
Print Assumptions atanh_accurate_partial.
Print Assumptions asinh_accurate_partial.
Print Assumptions acosh_accurate_partial.
Print Assumptions acosh_from_two.
Print Assumptions hyperbolic_special.

(** ** Double precision. *)
(** Up to 700: cosh and sinh to 2^-40 of cosh x; tanh up to 348 to 2^-40. *)
Theorem hyperbolic_double (x : float64) : is_finite x = true -> Rabs (B2R x) <= 700 ->
  exists c s, eventually (fun fuel => fcosh fuel e_d x) (FVal c) /\ eventually (fun fuel => fsinh fuel e_d x) (FVal s) /\
    Rabs (B2R c - cosh (B2R x)) <= bpow radix2 (-40) * cosh (B2R x) /\ Rabs (B2R s - sinh (B2R x)) <= bpow radix2 (-40) * cosh (B2R x) /\
    (Rabs (B2R x) <= 348 -> exists t, eventually (fun fuel => ftanh fuel e_d x) (FVal t) /\ Rabs (B2R t - tanh (B2R x)) <= bpow radix2 (-40)).
Proof.
  intros Fx L. destruct e_d_ok as [A C]. pose proof (cosh_ge (B2R x)) as CG. pose proof (Rabs_pos (B2R x)) as P.
  assert (T : hyperbolic_accuracy 53 (B2R x) <= bpow radix2 (-40)).
  { unfold hyperbolic_accuracy, unit_error. apply Rle_trans with (5000 * bpow radix2 (-53)); [apply Rmult_le_compat_r; [apply bpow_ge_0|simpl IZR; lra]|simpl; lra]. }
  destruct (cosh_accurate_partial e_d x double_supported_log A C Fx) as (c & R & _ & E); [simpl IZR; lra|].
  destruct (sinh_accurate_partial e_d x double_supported_log A C Fx) as (s & R' & _ & E'); [simpl IZR; lra|].
  assert (T' : hyperbolic_accuracy 53 (B2R x) * cosh (B2R x) <= bpow radix2 (-40) * cosh (B2R x)) by (apply Rmult_le_compat_r; lra).
  exists c, s. split; [exact R|]. split; [exact R'|]. split; [lra|]. split; [lra|]. intros L'.
  destruct (tanh_accurate_partial e_d x double_supported_log A C Fx) as (t & Rt & _ & Et); [simpl IZR; lra|].
  exists t. split; [exact Rt|]. eapply Rle_trans; [exact Et|exact T].
Qed.
Print Assumptions hyperbolic_double.

(** sinh 1, cosh (-700), tanh 20, atanh of 1 - 2^-53, asinh 1000 and acosh 2. *)
Example hyperbolic_ex : exists a b c d f g : float64,
  (fsinh 2000 e_d (of_Z 1) = FVal a /\ Rabs (B2R a - 11752011936438014 / 10 ^ 16) <= 1 / 10 ^ 15) /\
  (fcosh 2000 e_d (of_Z (-700)) = FVal b /\ 0 < B2R b) /\
  (ftanh 2000 e_d (of_Z 20) = FVal c /\ Rabs (B2R c - 1) <= 1 / 10 ^ 15) /\
  (fatanh 2000 e_d ln2_d (of_me (2 ^ 53 - 1) (-53)) = FVal d /\ Rabs (B2R d - 18714973875118524 / 10 ^ 15) <= 1 / 10 ^ 13) /\
  (fasinh 2000 e_d ln2_d (of_Z 1000) = FVal f /\ Rabs (B2R f - 7600902709541988 / 10 ^ 15) <= 1 / 10 ^ 13) /\
  (facosh 2000 e_d ln2_d (of_Z 2) = FVal g /\ Rabs (B2R g - 13169578969248168 / 10 ^ 16) <= 1 / 10 ^ 14).
Proof.
  destruct (sfres_val (fsinh 2000 e_d (of_Z 1)) _ ltac:(vm_compute; reflexivity)) as (a & A & A').
  destruct (sfres_val (fcosh 2000 e_d (of_Z (-700))) _ ltac:(vm_compute; reflexivity)) as (b & B & B').
  destruct (sfres_val (ftanh 2000 e_d (of_Z 20)) _ ltac:(vm_compute; reflexivity)) as (c & C & C').
  destruct (sfres_val (fatanh 2000 e_d ln2_d (of_me (2 ^ 53 - 1) (-53))) _ ltac:(vm_compute; reflexivity)) as (d & D & D').
  destruct (sfres_val (fasinh 2000 e_d ln2_d (of_Z 1000)) _ ltac:(vm_compute; reflexivity)) as (f & F & F').
  destruct (sfres_val (facosh 2000 e_d ln2_d (of_Z 2)) _ ltac:(vm_compute; reflexivity)) as (g & G & G').
  exists a, b, c, d, f, g.
  split; [split; [exact A|]; shown A'; apply Rabs_le; lra|]. split; [split; [exact B|]; rewrite (value_SF _ _ B'); unfold SF2R; apply F2R_gt_0; cbn; lia|].
  split; [split; [exact C|]; shown C'; apply Rabs_le; lra|]. split; [split; [exact D|]; shown D'; apply Rabs_le; lra|].
  split; [split; [exact F|]; shown F'; apply Rabs_le; lra|]. split; [exact G|]; shown G'; apply Rabs_le; lra.
Qed.

(** C112, refuted: the hyperbolic tangent of 400 is not a number. *)
Theorem tanh_large_refuted : ftanh 2000 e_d (of_Z 400) = FVal B754_nan /\ -1 < tanh 400 < 1.
Proof.
  split.
  - destruct (sfres_val (ftanh 2000 e_d (of_Z 400)) _ ltac:(vm_compute; reflexivity)) as (y & A & B). rewrite A. f_equal. apply B2SF_inj. exact B.
  - rewrite tanh_exp. pose proof (exp_pos 400) as P. set (E := exp 400) in *. assert (Q : 0 < E * E) by nra.
    split; apply Rmult_lt_reg_r with (E * E + 1); try lra; unfold Rdiv; rewrite Rmult_assoc, Rinv_l by lra; lra.
Qed.
Print Assumptions tanh_large_refuted.
(** C112, refuted: cosh is finite at 709 but infinite at -709, and so is sinh. *)
Theorem cosh_symmetry_refuted : exists c s : float64, fcosh 2000 e_d (of_Z 709) = FVal c /\ is_finite c = true /\ fcosh 2000 e_d (of_Z (-709)) = FVal (B754_infinity false) /\
  fsinh 2000 e_d (of_Z 709) = FVal s /\ is_finite s = true /\ fsinh 2000 e_d (of_Z (-709)) = FVal (B754_infinity true).
Proof.
  destruct (sfres_val (fcosh 2000 e_d (of_Z 709)) _ ltac:(vm_compute; reflexivity)) as (c & A & B).
  destruct (sfres_val (fcosh 2000 e_d (of_Z (-709))) _ ltac:(vm_compute; reflexivity)) as (c' & A1 & B1).
  destruct (sfres_val (fsinh 2000 e_d (of_Z 709)) _ ltac:(vm_compute; reflexivity)) as (s & A2 & B2).
  destruct (sfres_val (fsinh 2000 e_d (of_Z (-709))) _ ltac:(vm_compute; reflexivity)) as (s' & A3 & B3).
  exists c, s. split; [exact A|]. split; [rewrite (finite_SF _ _ B); reflexivity|]. split; [rewrite A1; f_equal; apply B2SF_inj; exact B1|].
  split; [exact A2|]. split; [rewrite (finite_SF _ _ B2); reflexivity|]. rewrite A3. f_equal. apply B2SF_inj. exact B3.
Qed.
Print Assumptions cosh_symmetry_refuted.
(** C112, refuted: sinh and atanh of 2^-60 are returned as zero. *)
Theorem sinh_small_refuted : exists x y : float64, B2R x = bpow radix2 (-60) /\ fsinh 2000 e_d x = FVal y /\ B2R y = 0 /\ 0 < sinh (B2R x).
Proof.
  destruct (sfres_val (fsinh 2000 e_d (of_me 1 (-60))) _ ltac:(vm_compute; reflexivity)) as (y & A & B).
  exists (of_me 1 (-60)), y. assert (V : B2R (of_me 1 (-60) : float64) = bpow radix2 (-60)) by (value; lra).
  split; [exact V|]. split; [exact A|]. split; [rewrite (value_SF _ _ B); reflexivity|]. rewrite V.
  rewrite <- sinh_0. apply sinh_lt. apply bpow_gt_0.
Qed.
Print Assumptions sinh_small_refuted.
Theorem atanh_small_refuted : exists x y : float64, B2R x = bpow radix2 (-60) /\ fatanh 2000 e_d ln2_d x = FVal y /\ B2R y = 0 /\ 0 < artanh (B2R x).
Proof.
  destruct (sfres_val (fatanh 2000 e_d ln2_d (of_me 1 (-60))) _ ltac:(vm_compute; reflexivity)) as (y & A & B).
  exists (of_me 1 (-60)), y. assert (V : B2R (of_me 1 (-60) : float64) = bpow radix2 (-60)) by (value; lra).
  split; [exact V|]. split; [exact A|]. split; [rewrite (value_SF _ _ B); reflexivity|]. rewrite V.
  assert (T : 0 < bpow radix2 (-60) < / 2) by (simpl; lra). set (t := bpow radix2 (-60)) in *. unfold artanh.
  assert (0 < ln ((1 + t) / (1 - t))); [|lra]. rewrite <- ln_1. apply ln_increasing; [lra|].
  apply Rmult_lt_reg_r with (1 - t); [lra|]. unfold Rdiv. rewrite Rmult_assoc, Rinv_l by lra. lra.
Qed.
Print Assumptions atanh_small_refuted.

(** The logarithm of a number up to 2^k. *)
Lemma ln_upto (k : Z) z : (0 <= k)%Z -> 0 < z <= bpow radix2 k -> ln z <= 7 / 10 * IZR k.
Proof.
  intros K Z. apply Rle_trans with (ln (bpow radix2 k)); [apply ln_le; lra|]. rewrite ln_bpow. pose proof ln2_bounds. assert (0 <= IZR k) by (apply IZR_le; exact K). nra.
Qed.
Lemma root_le x : 0 <= x -> sqrt (x * x + 1) <= x + 1.
Proof. intros H. rewrite <- (sqrt_square (x + 1)) by lra. apply sqrt_le_1_alt. nra. Qed.
(** C112, refuted: asinh of -2^30 is minus infinity. *)
Theorem asinh_negative_refuted : exists x : float64, B2R x = - bpow radix2 30 /\ fasinh 2000 e_d ln2_d x = FVal (B754_infinity true) /\ - 23 <= arsinh (B2R x).
Proof.
  destruct (sfres_val (fasinh 2000 e_d ln2_d (of_Z (- 2 ^ 30))) _ ltac:(vm_compute; reflexivity)) as (y & A & B).
  exists (of_Z (- 2 ^ 30)). assert (V : B2R (of_Z (- 2 ^ 30) : float64) = - bpow radix2 30) by (value; lra).
  split; [exact V|]. split; [rewrite A; f_equal; apply B2SF_inj; exact B|]. rewrite V.
  assert (T : 1 <= bpow radix2 30) by (simpl; lra). assert (W : 4 * bpow radix2 30 = bpow radix2 32) by (simpl; lra). set (t := bpow radix2 30) in *.
  unfold arsinh. replace (- t * - t) with (t * t) by lra. pose proof (root_le t ltac:(lra)) as RL. pose proof (root_above t) as RA.
  pose proof (sqrt_sqrt (t * t + 1) ltac:(nra)) as S. set (s := sqrt (t * t + 1)) in *.
  replace (- t + s) with (/ (t + s)) by (apply Rmult_eq_reg_r with (t + s); [rewrite Rinv_l by lra; lra|lra]).
  rewrite ln_Rinv by lra. pose proof (ln_upto 32 (t + s) ltac:(lia) ltac:(lra)). lra.
Qed.
Print Assumptions asinh_negative_refuted.
(** C112, refuted: asinh and acosh of 2^600 are infinite. *)
Theorem asinh_large_refuted : exists x : float64, B2R x = bpow radix2 600 /\ fasinh 2000 e_d ln2_d x = FVal (B754_infinity false) /\ arsinh (B2R x) <= 422 /\
  facosh 2000 e_d ln2_d x = FVal (B754_infinity false) /\ arcosh (B2R x) <= 422.
Proof.
  destruct (sfres_val (fasinh 2000 e_d ln2_d (of_me 1 600)) _ ltac:(vm_compute; reflexivity)) as (y & A & B).
  destruct (sfres_val (facosh 2000 e_d ln2_d (of_me 1 600)) _ ltac:(vm_compute; reflexivity)) as (z & A1 & B1).
  exists (of_me 1 600).
  assert (V : B2R (of_me 1 600 : float64) = bpow radix2 600).
  { erewrite value_SF by (vm_compute; reflexivity). unfold SF2R, F2R. cbn [Fnum Fexp cond_Zopp]. change (IZR (Z.pos 4503599627370496)) with (bpow radix2 52). rewrite <- bpow_plus. reflexivity. }
  assert (T : 1 <= bpow radix2 600) by (change 1 with (bpow radix2 0); apply bpow_le; lia).
  assert (W : 4 * bpow radix2 600 = bpow radix2 602) by (change 602%Z with (2 + 600)%Z; rewrite (bpow_plus _ 2); change (bpow radix2 2) with 4; lra).
  split; [exact V|]. rewrite V. set (t := bpow radix2 600) in *.
  pose proof (root_le t ltac:(lra)) as RL. pose proof (sqrt_pos (t * t + 1)) as P1. pose proof (sqrt_pos (t * t - 1)) as P2.
  assert (sqrt (t * t - 1) <= sqrt (t * t + 1)) by (apply sqrt_le_1_alt; lra).
  split; [rewrite A; f_equal; apply B2SF_inj; exact B|]. split; [|split; [rewrite A1; f_equal; apply B2SF_inj; exact B1|]].
  - unfold arsinh. pose proof (ln_upto 602 (t + sqrt (t * t + 1)) ltac:(lia) ltac:(lra)). lra.
  - unfold arcosh. pose proof (ln_upto 602 (t + sqrt (t * t - 1)) ltac:(lia) ltac:(lra)). lra.
Qed.
Print Assumptions asinh_large_refuted.
