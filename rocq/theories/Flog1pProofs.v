(** log1p away from zero. *)
From Coq Require Import ZArith Reals Lra Lia Bool.
From Flocq Require Import Core Relative Plus_error IEEE754.BinarySingleNaN.
From Verif Require Import FloatModel FloatSpec FloatProofs1 FloatProofs2 FserModel FserSpec FserProofs1 FserProofs2.
From Verif Require Import FlogModel FlogSpec FlogProofs1 FlogProofs2 FlogProofs4 Flog1pModel Flog1pSpec NearProofs NearProofs2.
Local Open Scope R_scope.

Section Fmt.
Context {prec emax : Z} {Hp : Prec_gt_0 prec} {Hx : Prec_lt_emax prec emax}.
Notation fl := (binary_float prec emax).
Notation emin := (3 - emax - prec)%Z.
Notation F := (generic_format radix2 (FLT_exp emin prec)).
Notation rnd := (round radix2 (FLT_exp emin prec) ZnearestE).
Notation bpow := (bpow radix2).
Notation v := (@B2R prec emax).
Notation u := (bpow (- prec)).
Hypothesis Sup : supported_log prec emax.
Let S1 : (24 <= prec)%Z. Proof. apply Sup. Qed.
Let S2 : (65 <= emax)%Z. Proof. apply Sup. Qed.
Let S3 : (prec + 40 <= emax)%Z. Proof. apply Sup. Qed.
Let S4 : (emax + prec <= 20000)%Z. Proof. apply Sup. Qed.

Lemma int_v (n : Z) : (Z.abs n <= 16)%Z -> v (of_Z n) = IZR n /\ is_finite (of_Z n : fl) = true.
Proof.
  intros L. destruct (of_Z_ok (prec := prec) (emax := emax) n) as [V Fi].
  { apply (big_ok Sup). rewrite <- abs_IZR. apply IZR_le. lia. }
  split; [|exact Fi]. rewrite V. apply rnd_F. replace (IZR n) with (IZR n * bpow 0) by (simpl; lra). apply F_grid; [exact Hp|lia|].
  apply Z.le_trans with (2 ^ 4)%Z; [exact L|]. apply Z.pow_le_mono_r; lia.
Qed.
Lemma eighth_v (m : Z) : (Z.abs m <= 1)%Z -> v (of_me m (-3)) = IZR m / 8 /\ is_finite (of_me m (-3) : fl) = true.
Proof.
  intros L. assert (E : IZR m * bpow (-3) = IZR m / 8) by (simpl; lra). assert (B : Rabs (IZR m) <= 1) by (rewrite <- abs_IZR; apply IZR_le; lia).
  destruct (of_me_ok (prec := prec) (emax := emax) m (-3)) as [V Fi].
  { apply (big_ok Sup). rewrite E. unfold Rdiv. rewrite Rabs_mult, (Rabs_pos_eq (/ 8)) by lra. lra. }
  split; [|exact Fi]. rewrite V, rnd_F; [exact E|]. apply F_grid; [exact Hp|lia|]. apply Z.le_trans with (2 ^ 0)%Z; [exact L|]. apply Z.pow_le_mono_r; lia.
Qed.
(** The sum 1 + x. *)
Lemma one_plus (x : fl) : is_finite x = true -> -1 < v x -> v x <= bpow (emax - 2) ->
  is_finite (fadd x (of_Z 1)) = true /\ exists d, Rabs d <= u /\ v (fadd x (of_Z 1)) = (1 + v x) * (1 + d).
Proof.
  intros Fx L U. destruct (int_v 1 ltac:(lia)) as [V1 F1]. assert (B : 1 <= bpow (emax - 2)) by (apply Rle_trans with (bpow 0); [simpl; lra|apply bpow_le; lia]).
  assert (D : bpow (emax - 1) = 2 * bpow (emax - 2)) by (replace (emax - 1)%Z with (emax - 2 + 1)%Z by lia; rewrite bpow_plus; change (bpow 1) with 2; lra).
  destruct (fadd_ok x (of_Z 1) Fx F1) as [V Fi]; [rewrite V1; apply Rabs_le; lra|].
  split; [exact Fi|]. destruct (add_rel (prec := prec) (emax := emax) (v x) (v (of_Z 1 : fl)) (v_F _) (v_F _)) as (d & Dd & E). exists d. split; [exact Dd|].
  rewrite V, E, V1. lra.
Qed.
Lemma flog1p_log (fuel : nat) (e ln2 x : fl) : is_finite x = true -> -1 < v x -> v x <= -1 / 8 \/ 1 / 8 <= v x <= 14 \/ 16 <= v x -> v x <= bpow (emax - 2) ->
  flog1p fuel e ln2 x = flog fuel e ln2 (fadd x (of_Z 1)).
Proof.
  intros Fx L Cs U. destruct (one_plus x Fx L U) as (Fw & d & Dd & Vw). set (w := fadd x (of_Z 1)) in *.
  destruct (int_v 1 ltac:(lia)) as [V1 F1]. destruct (int_v (-1) ltac:(lia)) as [Vm Fm]. destruct (int_v 16 ltac:(lia)) as [V16 F16].
  destruct (eighth_v (-1) ltac:(lia)) as [Ve Fe]. destruct (eighth_v 1 ltac:(lia)) as [Vf Ff].
  assert (V0 : v fzero = 0) by reflexivity. assert (F0 : is_finite (fzero : fl) = true) by reflexivity.
  assert (I : forall z : fl, is_finite z = true -> feq z (B754_infinity false) = false) by (intros z Fz; destruct z as [?| | |[|] ? ? ?]; try discriminate; reflexivity).
  pose proof (u_tiny Sup) as Ut. apply Rabs_le_inv in Dd.
  assert (W : 0 < v w) by (rewrite Vw; apply Rmult_lt_0_compat; lra).
  assert (W1 : v w <> 1) by (rewrite Vw; intros E; destruct Cs as [C|[C|C]]; nra).
  unfold flog1p, flog. rewrite (finite_nan _ Fx), (finite_nan _ Fw), !I, !feq_spec, !flt_spec, !fle_spec by assumption.
  rewrite V0, V1, Vm, V16, Ve, Vf. rewrite (Req_bool_false (v x) 0), (Req_bool_false (v x) (-1)), (Rlt_bool_false (v x) (-1)) by lra.
  rewrite (Req_bool_false (v w) 1), (Req_bool_false (v w) 0), (Rlt_bool_false (v w) 0) by lra.
  replace (Rlt_bool (-1 / 8) (v x) && Rlt_bool (v x) (1 / 8)) with false.
  2:{ symmetry. apply andb_false_iff. destruct Cs as [C|[C|C]]; [left|right|right]; apply Rlt_bool_false; lra. }
  replace (Rle_bool 16 (v w)) with (Rle_bool 16 (v x)); [reflexivity|].
  destruct Cs as [C|[C|C]].
  - rewrite !Rle_bool_false; [reflexivity| |lra]. rewrite Vw. nra.
  - rewrite !Rle_bool_false; [reflexivity| |lra]. rewrite Vw. nra.
  - rewrite !Rle_bool_true; [reflexivity| |lra]. rewrite Vw. nra.
Qed.
Lemma ln_near d : Rabs d <= u -> Rabs (ln (1 + d)) <= 101 / 100 * u.
Proof.
  intros D. pose proof (u_tiny Sup) as U. apply Rabs_le_inv in D.
  assert (G : forall z, 0 < z -> ln z <= z - 1) by (intros z Pz; pose proof (exp_ineq1_le (ln z)) as E; rewrite exp_ln in E by exact Pz; lra).
  apply Rabs_le. split; [|pose proof (G (1 + d) ltac:(lra)); lra].
  pose proof (G (/ (1 + d)) ltac:(apply Rinv_0_lt_compat; lra)) as H. rewrite ln_Rinv in H by lra.
  assert (Q : / (1 + d) - 1 <= 101 / 100 * u); [|lra].
  apply Rmult_le_reg_r with (1 + d); [lra|]. rewrite Rmult_minus_distr_r, Rinv_l by lra. nra.
Qed.
Theorem log1p_spec (e ln2 x : fl) : is_finite e = true -> best_constant prec (v e) (exp 1) -> is_finite ln2 = true -> good_constant prec (v ln2) (ln 2) ->
  is_finite x = true -> -1 < v x -> v x <= -1 / 8 \/ 1 / 8 <= v x <= 14 \/ 16 <= v x -> v x <= bpow (emax - 2) ->
  exists y, eventually (fun fuel => flog1p fuel e ln2 x) (FVal y) /\ is_finite y = true /\ Rabs (v y - ln (1 + v x)) <= log1p_accuracy prec (v x).
Proof.
  intros Fe Ce F2 C2 Fx L Cs U. destruct (one_plus x Fx L U) as (Fw & d & Dd & Vw). pose proof (u_tiny Sup) as Ut.
  pose proof (ln_near d Dd) as Nd. apply Rabs_le_inv in Dd.
  assert (W : 0 < v (fadd x (of_Z 1))) by (rewrite Vw; apply Rmult_lt_0_compat; lra).
  destruct (log_spec Sup ln2 F2 C2 e Fe Ce (fadd x (of_Z 1)) Fw W) as (y & (n & R) & Fy & A).
  exists y. split; [exists n; intros fuel K; rewrite (flog1p_log fuel e ln2 x Fx L Cs U); now apply R|]. split; [exact Fy|].
  rewrite Vw in A. unfold log1p_accuracy, log_accuracy, unit_error in *. rewrite ln_mult in A by lra.
  set (l := ln (1 + v x)) in *. set (m := ln (1 + d)) in *.
  assert (Lb : Rabs l <= 20000).
  { assert (G : ln (1 + v x) <= 20000 * ln 2).
    { rewrite <- (ln_bpow 20000). apply ln_le; [lra|]. apply Rle_trans with (bpow (emax - 1)); [|apply bpow_le; lia].
      replace (emax - 1)%Z with (emax - 2 + 1)%Z by lia. rewrite bpow_plus. change (bpow 1) with 2.
      assert (1 <= bpow (emax - 2)) by (apply Rle_trans with (bpow 0); [simpl; lra|apply bpow_le; lia]). lra. }
    assert (G2 : - 20000 * ln 2 <= ln (1 + v x)).
    { rewrite <- (ln_bpow (-20000)). apply ln_le; [apply bpow_gt_0|]. apply Rle_trans with (bpow emin); [apply bpow_le; lia|].
      destruct (Rle_lt_dec (v x) 0) as [N0|N0].
      - pose proof (gap (prec := prec) (emax := emax) (-1) (v x)) as Q. assert (Fm1 : F (-1)). { replace (-1) with (IZR (-1) * bpow 0) by (simpl; lra). apply F_grid; [exact Hp|lia|]. apply Z.le_trans with (2 ^ 0)%Z; [simpl; lia|]. apply Z.pow_le_mono_r; lia. }
        specialize (Q Fm1 (v_F x) L). lra.
      - apply Rle_trans with (bpow 0); [apply bpow_le; lia|simpl; lra]. }
    pose proof ln2_bounds. fold l in G, G2. apply Rabs_le. lra. }
  assert (Tm : Rabs m <= 2 * u) by lra.
  assert (T1 : Rabs (l + m) <= Rabs l + 2 * u) by (eapply Rle_trans; [apply Rabs_triang|lra]).
  assert (T2 : (l + m) * (l + m) <= l * l + 2 * (20000 * (2 * u)) + 2 * u * (2 * u)).
  { assert (Q1 : l * m <= 20000 * (2 * u)) by (eapply Rle_trans; [apply Rle_abs|]; rewrite Rabs_mult; apply Rmult_le_compat; auto using Rabs_pos).
    assert (Q2 : m * m <= 2 * u * (2 * u)) by (eapply Rle_trans; [apply Rle_abs|]; rewrite Rabs_mult; apply Rmult_le_compat; auto using Rabs_pos).
    lra. }
  assert (T3 : 2 * u * (2 * u) <= / 1000 * (2 * u)) by (apply Rmult_le_compat_r; lra).
  assert (T4 : (16 * IZR prec + 208 + 3 * Rabs (l + m) + (l + m) * (l + m) / 2) * u <= (16 * IZR prec + 208 + 3 * Rabs l + l * l / 2 + 1) * u).
  { apply Rmult_le_compat_r; [lra|]. lra. }
  replace (v y - l) with ((v y - (l + m)) + m) by lra. eapply Rle_trans; [apply Rabs_triang|]. lra.
Qed.
End Fmt.
