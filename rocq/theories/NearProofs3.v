(** A complex number is near itself. *)
From Coq Require Import ZArith Reals Lra Lia Bool.
From Flocq Require Import Core IEEE754.BinarySingleNaN.
From Verif Require Import FloatModel FloatProofs1 FloatProofs2 NearModel NearProofs.
Local Open Scope R_scope.

Section Fmt.
Context {prec emax : Z} {Hp : Prec_gt_0 prec} {Hx : Prec_lt_emax prec emax}.
Notation fl := (binary_float prec emax).
Notation emin := (3 - emax - prec)%Z.
Notation rnd := (round radix2 (FLT_exp emin prec) ZnearestE).
Notation bpow := (bpow radix2).
Notation v := (@B2R prec emax).

(** Not negative: a finite number from 0, or infinity. *)
Definition nonneg (z : fl) : Prop := z = B754_infinity false \/ (is_finite z = true /\ 0 <= v z).
Lemma overflow_inf (z : fl) s : B2SF z = binary_overflow prec emax mode_NE s -> z = B754_infinity s.
Proof. intros Ez. destruct z as [a|a| |a m ex p]; try discriminate Ez; cbn in Ez; now inversion Ez. Qed.
Lemma square_nonneg (a : fl) : is_finite a = true -> nonneg (fmul a a).
Proof.
  intros A. pose proof (Bmult_correct prec emax _ _ mode_NE a a) as H. unfold fmul.
  destruct (Rlt_bool (Rabs (round radix2 (SpecFloat.fexp prec emax) (round_mode mode_NE) (v a * v a))) (bpow emax)).
  - destruct H as (V & Fi & _). right. rewrite A in Fi. split; [exact Fi|]. rewrite V. apply (rnd_ge emin prec); [apply generic_format_0|exact (Rle_0_sqr (v a))].
  - left. apply overflow_inf. rewrite xorb_nilpotent in H. exact H.
Qed.
Lemma sign_nonneg (z : fl) : is_finite z = true -> 0 < v z -> Bsign z = false.
Proof.
  destruct z as [s|s| |s m ex p]; intros Fi P; try discriminate; cbn in P; [lra|]. destruct s; [|reflexivity]. exfalso.
  revert P. apply Rle_not_lt. apply F2R_le_0. cbn. lia.
Qed.
Lemma add_nonneg (a b : fl) : nonneg a -> nonneg b -> nonneg (fadd a b).
Proof.
  intros [->|[A Pa]] [->|[B Pb]].
  - left. reflexivity.
  - left. destruct b as [s|s| |s m ex p]; try discriminate B; reflexivity.
  - left. destruct a as [s|s| |s m ex p]; try discriminate A; reflexivity.
  - pose proof (Bplus_correct prec emax _ _ mode_NE a b A B) as H. unfold fadd.
    destruct (Rlt_bool_spec (Rabs (round radix2 (SpecFloat.fexp prec emax) (round_mode mode_NE) (v a + v b))) (bpow emax)) as [L|L].
    + destruct H as (V & Fi & _). right. split; [exact Fi|]. rewrite V. apply (rnd_ge emin prec); [apply generic_format_0|lra].
    + destruct H as (V & Sg). left. apply overflow_inf. rewrite V. f_equal.
      destruct (Rle_lt_or_eq_dec 0 (v a) Pa) as [G|G]; [now apply sign_nonneg|].
      destruct (Rle_lt_or_eq_dec 0 (v b) Pb) as [G'|G']; [rewrite Sg; now apply sign_nonneg|]. exfalso.
      rewrite <- G, <- G', Rplus_0_l, round_0, Rabs_R0 in L by apply valid_rnd_N. pose proof (bpow_gt_0 radix2 emax). lra.
Qed.
Lemma sub_self (a : fl) : is_finite a = true -> is_finite (fsub a a) = true /\ v (fsub a a) = 0.
Proof.
  intros A. destruct (fsub_ok a a A A) as [V Fi]; [rewrite Rminus_diag_eq, Rabs_R0 by reflexivity; apply bpow_ge_0|].
  split; [exact Fi|]. rewrite V, Rminus_diag_eq by reflexivity. apply round_0. apply valid_rnd_N.
Qed.
Theorem near_complex_self (x err : fl * fl) : is_finite (fst x) = true -> is_finite (snd x) = true ->
  is_finite (fst err) = true -> is_finite (snd err) = true -> near_err_c x x err = true.
Proof.
  intros A B C D. unfold near_err_c. destruct (sub_self _ A) as [F1 V1]. destruct (sub_self _ B) as [F2 V2].
  assert (Q : forall z : fl, is_finite z = true -> v z = 0 -> is_finite (fmul z z) = true /\ v (fmul z z) = 0).
  { intros z Fz Vz. destruct (fmul_ok z z Fz Fz) as [V Fi]; [rewrite Vz, Rmult_0_l, Rabs_R0; apply bpow_ge_0|].
    split; [exact Fi|]. rewrite V, Vz, Rmult_0_l. apply round_0. apply valid_rnd_N. }
  destruct (Q _ F1 V1) as [F3 V3]. destruct (Q _ F2 V2) as [F4 V4].
  destruct (fadd_ok _ _ F3 F4) as [V5 F5]; [rewrite V3, V4, Rplus_0_l, Rabs_R0; apply bpow_ge_0|].
  rewrite V3, V4, Rplus_0_l, round_0 in V5 by apply valid_rnd_N.
  destruct (add_nonneg _ _ (square_nonneg _ C) (square_nonneg _ D)) as [->|[F6 P6]].
  - apply (le_infinity _ false F5).
  - rewrite fle_spec by assumption. apply Rle_bool_true. lra.
Qed.
End Fmt.
