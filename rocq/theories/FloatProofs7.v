(** Angle from_stat_space in floating point, after the arc tangent. *)
From Coq Require Import ZArith Reals Lra Lia Psatz Bool.
From Flocq Require Import Core Relative Sterbenz IEEE754.BinarySingleNaN.
From Verif Require Import FloatModel FloatProofs1 FloatProofs2 FloatProofs3 FloatProofs4 FloatProofs5.
Local Open Scope R_scope.

Section Fmt.
Context {prec emax : Z} {Hp : Prec_gt_0 prec} {Hx : Prec_lt_emax prec emax}.
Context {lprec lemax : Z} {Hlp : Prec_gt_0 lprec} {Hlx : Prec_lt_emax lprec lemax}.
Notation fl := (binary_float prec emax).
Notation lim := (binary_float lprec lemax).
Notation emin := (3 - emax - prec)%Z.
Notation fexp := (FLT_exp emin prec).
Notation F := (generic_format radix2 fexp).
Notation rnd := (round radix2 fexp ZnearestE).
Notation bpow := (bpow radix2).
Notation v := (@B2R prec emax).
Notation w := (@B2R lprec lemax).
Notation to_R := (FloatModel.to_R (prec := prec) (emax := emax)).
Notation period := (FloatModel.period (prec := prec) (emax := emax)).
Hypothesis (Hprec : (2 <= prec)%Z) (Hemax : (65 <= emax)%Z) (Hlp' : (prec <= lprec)%Z) (Hlx' : (emax <= lemax)%Z).

Lemma abs_rnd_le x f : F f -> Rabs x <= f -> Rabs (rnd x) <= f.
Proof.
  intros G H. apply Rabs_le_inv in H. apply Rabs_le. split.
  - apply rnd_ge; [exact Hp | now apply generic_format_opp | lra].
  - apply rnd_le; [exact Hp | exact G | lra].
Qed.

(** angle * (P / pi2) with |angle| <= 4 and pi2 >= 6 is at most P. *)
Lemma scaled_ok (P pi2 angle : fl) : is_finite P = true -> 0 < v P <= bpow (emax - 1) -> F (/ 4 * v P) ->
  6 <= v pi2 -> is_finite angle = true -> Rabs (v angle) <= 4 ->
  is_finite (fmul angle (fdiv P pi2)) = true /\ v (fmul angle (fdiv P pi2)) = rnd (v angle * rnd (v P / v pi2)) /\
  Rabs (v (fmul angle (fdiv P pi2))) <= v P.
Proof.
  intros FP BP Fq H6 Fa Ba.
  assert (Q : Rabs (v P / v pi2) <= / 4 * v P).
  { assert (0 < / v pi2) by (apply Rinv_0_lt_compat; lra).
    assert (/ v pi2 <= / 6) by (apply Rinv_le; lra).
    unfold Rdiv. rewrite Rabs_pos_eq by (apply Rmult_le_pos; lra). rewrite Rmult_comm. apply Rmult_le_compat_r; lra. }
  destruct (fdiv_ok P pi2 FP ltac:(lra)) as [A B]; [eapply Rle_trans; [exact Q | lra] |].
  pose proof (abs_rnd_le _ _ Fq Q) as Q1. rewrite <- A in Q1.
  assert (Q2 : Rabs (v angle * v (fdiv P pi2)) <= v P).
  { rewrite Rabs_mult. apply Rle_trans with (4 * (/ 4 * v P)); [| lra]. apply Rmult_le_compat; try apply Rabs_pos; assumption. }
  destruct (fmul_ok angle (fdiv P pi2) Fa B) as [C D]; [lra |].
  split; [exact D |]. rewrite C, A in *. split; [reflexivity |]. apply abs_rnd_le; [apply v_F | exact Q2].
Qed.

Section Limit.
Variable M : lim.
Hypothesis (FM : is_finite M = true) (M1 : bpow (emin + prec + 2) <= w M) (M2 : w M <= bpow (emax - 4)).
Let m := rnd (w M).

Lemma M1' : bpow (emin + prec - 1) <= w M.
Proof. eapply Rle_trans; [| exact M1]. apply bpow_le. lia. Qed.

Lemma m_lo : bpow (emin + prec + 2) <= m.
Proof. apply rnd_ge; [exact Hp | apply F_bpow; [exact Hp | lia] | exact M1]. Qed.

Lemma bpS k : bpow (k + 1) = 2 * bpow k.
Proof. rewrite bpow_plus. simpl (bpow 1). lra. Qed.

Lemma F_quarter x : bpow (emin + prec + 1) <= x -> F x -> F (/ 4 * x).
Proof.
  intros H Fx0. rewrite bpS in H. pose proof (bpow_gt_0 radix2 (emin + prec)).
  replace (/ 4 * x) with (/ 2 * (/ 2 * x)) by lra.
  apply (F_half (prec := prec) (emax := emax)); [lra |]. apply (F_half (prec := prec) (emax := emax)); [lra | exact Fx0].
Qed.

Theorem ang_sym (pi2 angle : fl) : 6 <= v pi2 -> is_finite angle = true -> Rabs (v angle) <= 4 ->
  let r := ang_from_stat pi2 (Bopp M) M angle in
  is_finite r = true /\ - m <= v r < m /\
  exists k : Z, (Z.abs k <= 1)%Z /\ v r = rnd (v angle * rnd (2 * m / v pi2)) + IZR k * (2 * m).
Proof.
  intros H6 Fa Ba r. pose proof M1' as M1'. pose proof m_lo as Lm. pose proof (bpow_gt_0 radix2 (emin + prec + 2)) as P0.
  pose proof (m_bounds Hprec Hemax M M1' M2) as Bm.
  destruct (period_sym Hlx' M FM M1' M2) as [P1 P2]. fold m in P1, Bm.
  assert (B4 : bpow (emax - 1) = 8 * bpow (emax - 4)).
  { replace (emax - 1)%Z with (3 + (emax - 4))%Z by lia. rewrite bpow_plus. simpl (bpow 3). lra. }
  destruct (scaled_ok (period (Bopp M) M) pi2 angle P2) as (A & B & C); try assumption.
  { rewrite P1. lra. }
  { apply F_quarter; [| apply v_F]. rewrite P1. replace (emin + prec + 2)%Z with (emin + prec + 1 + 1)%Z in Lm, P0 by lia.
    rewrite bpS in Lm, P0. lra. }
  rewrite P1 in B, C. apply Rabs_le_inv in C.
  destruct (once_sym Hprec Hemax Hlx' M FM M1' M2 _ A ltac:(fold m; lra)) as (D & E & k & K1 & K2).
  fold m in E, K2. unfold r, ang_from_stat. split; [exact D |]. split; [exact E |]. exists k. rewrite <- B. tauto.
Qed.

Notation Z0 := (B754_zero false : lim).

Theorem once_pos (phi : fl) : is_finite phi = true -> - m <= v phi < 2 * m ->
  let r := fwrap_once Z0 M phi in
  is_finite r = true /\ 0 <= v r <= m /\ (0 <= v phi -> v r < m /\ exists k : Z, (Z.abs k <= 1)%Z /\ v r = v phi + IZR k * m) /\
  (v phi < 0 -> v r = rnd (v phi + m)).
Proof.
  intros Fphi H r. pose proof M1' as M1'. pose proof m_lo as Lm. pose proof (bpow_gt_0 radix2 (emin + prec + 2)) as P0.
  pose proof (m_bounds Hprec Hemax M M1' M2) as Bm. pose proof (m_F (prec := prec) (emax := emax) M) as Fm.
  destruct (period_pos Hlx' M FM M1' M2) as [P1 P2].
  destruct (toR_M M FM M1' M2) as [T1 T2]. fold m in P1, Bm, Fm, T1.
  assert (B4 : bpow (emax - 1) = 8 * bpow (emax - 4)).
  { replace (emax - 1)%Z with (3 + (emax - 4))%Z by lia. rewrite bpow_plus. simpl (bpow 3). lra. }
  unfold r, fwrap_once. rewrite flt_spec, fle_spec by (try assumption; reflexivity). rewrite T1.
  change (v (to_R Z0)) with 0.
  destruct (Rlt_bool_spec (v phi) 0) as [C|C].
  - destruct (fadd_ok phi (period Z0 M) Fphi P2) as [A B].
    { rewrite P1. apply Rabs_le. lra. }
    rewrite A, P1. split; [exact B |]. split; [split |].
    + apply rnd_ge; [exact Hp | apply generic_format_0 | lra].
    + apply rnd_le; [exact Hp | exact Fm | lra].
    + split; [lra | reflexivity].
  - destruct (Rle_bool_spec m (v phi)) as [D|D].
    + destruct (fsub_ok phi (period Z0 M) Fphi P2) as [A B].
      { rewrite P1. apply Rabs_le. lra. }
      rewrite P1 in A. rewrite round_generic in A; [| auto with typeclass_instances |].
      * rewrite A. split; [exact B |]. split; [lra |]. split; [| lra]. intros _. split; [lra |].
        exists (-1)%Z. split; [lia | lra].
      * apply sterbenz; [auto with typeclass_instances | apply FLT_exp_monotone | apply v_F | exact Fm | lra].
    + split; [exact Fphi |]. split; [lra |]. split; [| lra]. intros _. split; [exact D |]. exists 0%Z. split; [lia | lra].
Qed.

Theorem ang_pos (pi2 angle : fl) : 6 <= v pi2 -> is_finite angle = true -> Rabs (v angle) <= 4 ->
  let r := ang_from_stat pi2 Z0 M angle in
  is_finite r = true /\ 0 <= v r <= m /\ (0 <= v angle -> v r < m).
Proof.
  intros H6 Fa Ba r. pose proof M1' as M1'. pose proof m_lo as Lm. pose proof (bpow_gt_0 radix2 (emin + prec + 2)) as P0.
  pose proof (m_bounds Hprec Hemax M M1' M2) as Bm.
  destruct (period_pos Hlx' M FM M1' M2) as [P1 P2]. fold m in P1, Bm.
  assert (B4 : bpow (emax - 1) = 8 * bpow (emax - 4)).
  { replace (emax - 1)%Z with (3 + (emax - 4))%Z by lia. rewrite bpow_plus. simpl (bpow 3). lra. }
  destruct (scaled_ok (period Z0 M) pi2 angle P2) as (A & B & C); try assumption.
  { rewrite P1. lra. }
  { apply F_quarter; [| apply v_F]. rewrite P1. replace (emin + prec + 2)%Z with (emin + prec + 1 + 1)%Z in Lm, P0 by lia.
    rewrite bpS in Lm, P0. lra. }
  rewrite P1 in B, C. apply Rabs_le_inv in C.
  destruct (once_pos _ A ltac:(lra)) as (D & E & G & I). unfold r, ang_from_stat.
  split; [exact D |]. split; [exact E |]. intros Ha. apply G. rewrite B.
  apply rnd_ge; [exact Hp | apply generic_format_0 |]. apply Rmult_le_pos; [exact Ha |].
  apply rnd_ge; [exact Hp | apply generic_format_0 |]. unfold Rdiv. apply Rmult_le_pos; [lra |]. left. apply Rinv_0_lt_compat. lra.
Qed.
End Limit.
End Fmt.
