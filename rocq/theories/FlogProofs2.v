(** One round of the loop of log in floating point. *)
From Coq Require Import ZArith Reals Lra Lia Bool.
From Flocq Require Import Core IEEE754.BinarySingleNaN.
From Verif Require Import FloatModel FloatSpec FloatProofs1 FloatProofs2 FserModel FserSpec FserProofs1 FserProofs2 FserProofs3 FserProofs4 FserProofs5 FserProofs10.
From Verif Require Import FlogModel FlogSpec FlogProofs1.
Local Open Scope R_scope.

Section Fmt.
Context {prec emax : Z} {Hp : Prec_gt_0 prec} {Hx : Prec_lt_emax prec emax}.
Notation fl := (binary_float prec emax).
Notation emin := (3 - emax - prec)%Z.
Notation F := (generic_format radix2 (FLT_exp emin prec)).
Notation rnd := (round radix2 (FLT_exp emin prec) ZnearestE).
Notation bpow := (bpow radix2).
Notation v := (@B2R prec emax).
Notation u := (bpow (- prec)).
Notation h := (bpow (emin - 1)).
Hypothesis Sup : supported_log prec emax.
Let S1 : (24 <= prec)%Z. Proof. apply Sup. Qed.
Let S2 : (65 <= emax)%Z. Proof. apply Sup. Qed.
Let S3 : (prec + 40 <= emax)%Z. Proof. apply Sup. Qed.

Definition eta : R := (8 * IZR prec + 85) * u.
Definition dd : R := 17 * u.

Lemma pu_small : IZR prec * u <= / 100000.
Proof.
  assert (G : forall n, IZR (24 + Z.of_nat n) * bpow (- (24 + Z.of_nat n)) <= / 100000).
  { induction n as [|n IH]; [simpl; lra|]. replace (- (24 + Z.of_nat (S n)))%Z with (- (24 + Z.of_nat n) + -1)%Z by lia.
    rewrite bpow_plus. simpl (bpow (-1)). replace (24 + Z.of_nat (S n))%Z with (24 + Z.of_nat n + 1)%Z by lia. rewrite plus_IZR.
    pose proof (bpow_gt_0 radix2 (- (24 + Z.of_nat n))) as P. assert (24 <= IZR (24 + Z.of_nat n)) by (apply IZR_le; lia). nra. }
  specialize (G (Z.to_nat (prec - 24))). replace (24 + Z.of_nat (Z.to_nat (prec - 24)))%Z with prec in G by lia. exact G.
Qed.
Lemma u_tiny : 0 < u <= / 1000000.
Proof. split; [apply bpow_gt_0|]. apply Rle_trans with (bpow (-24)); [apply bpow_le; lia|simpl; lra]. Qed.
Lemma h_le_u : h <= u. Proof. apply bpow_le. lia. Qed.
Lemma eta_ok : 0 <= eta <= / 100.
Proof.
  unfold eta. pose proof pu_small. pose proof u_tiny. assert (24 <= IZR prec) by (apply IZR_le; lia).
  split; [apply Rmult_le_pos; lra|]. rewrite Rmult_plus_distr_r. rewrite Rmult_assoc. lra.
Qed.
Lemma dd_ok : 0 <= dd <= / 100.
Proof. unfold dd. pose proof u_tiny. lra. Qed.

Definition nexty (x y E : fl) : fl := fadd y (fdiv (fmul (of_Z 2) (fsub x E)) (fadd x E)).

Lemma exp3 y : Rabs y <= 3 -> exp y <= 27.
Proof.
  intros H. apply Rabs_le_inv in H. apply Rle_trans with (exp 3); [apply exp_le_mono; lra|].
  replace 3 with (1 + 1 + 1) by ring. rewrite !exp_plus. pose proof e_digits. pose proof (exp_pos 1).
  assert (exp 1 <= 3) by lra. nra.
Qed.
Lemma big_ok z : Rabs z <= 100 -> Rabs z <= bpow (emax - 1).
Proof. intros H. apply Rle_trans with (bpow 7); [simpl; lra|apply bpow_le; lia]. Qed.
Lemma F_0 : F 0. Proof. apply generic_format_0. Qed.

Lemma nexty_ok (x y E : fl) : is_finite x = true -> is_finite y = true -> is_finite E = true ->
  / 16 < v x < 16 -> Rabs (v y) <= 3 -> Rabs (v E - exp (v y)) <= eta * exp (v y) ->
  is_finite (nexty x y E) = true /\ step (v x) eta dd (v y) (v (nexty x y E)).
Proof.
  intros Fx Fy FE HX HY HE. pose proof u_tiny as U. pose proof h_le_u as HU. pose proof (h_pos (prec := prec) (emax := emax)) as HP.
  pose proof eta_ok as ET. pose proof (exp_pos (v y)) as EP. pose proof (exp3 _ HY) as E3.
  destruct (ln_near (v y) (v E) eta ltac:(lra) HE) as [PE _].
  assert (EB : v E <= 28) by (pose proof (Rabs_le_inv _ _ HE); nra).
  set (X := v x) in *. set (Y := v y) in *. set (B := v E) in *.
  destruct (fsub_ok x E Fx FE) as [Es Fs]; [apply big_ok, Rabs_le; fold X B; lra|]. fold X B in Es.
  destruct (fadd_ok x E Fx FE) as [Et Ft]; [apply big_ok, Rabs_le; fold X B; lra|]. fold X B in Et.
  pose proof (rnd_plus (prec := prec) (emax := emax) X (- B) ltac:(apply v_F) ltac:(apply generic_format_opp, v_F)) as As.
  change (X + - B) with (X - B) in As. rewrite <- Es in As.
  pose proof (rnd_plus (prec := prec) (emax := emax) X B ltac:(apply v_F) ltac:(apply v_F)) as At. rewrite <- Et in At.
  set (s := v (fsub x E)) in *. set (t := v (fadd x E)) in *.
  assert (sb : Rabs s <= 29).
  { assert (Rabs (X - B) <= 28) by (apply Rabs_le; lra). replace s with ((s - (X - B)) + (X - B)) by ring.
    eapply Rle_trans; [apply Rabs_triang|]. pose proof (Rabs_pos (X - B)). nra. }
  destruct (small_Z (prec := prec) (emax := emax) ltac:(lia) ltac:(lia) 2 ltac:(lia)) as [V2 F2].
  destruct (fmul_ok (of_Z 2) (fsub x E) F2 Fs) as [Em Fm].
  { rewrite V2. fold s. apply big_ok. rewrite Rabs_mult, (Rabs_pos_eq 2) by lra. lra. }
  rewrite V2 in Em. fold s in Em. rewrite (rnd_F _ _ (2 * s)) in Em by (apply F_double; [exact Hp|apply v_F]).
  rewrite (Rabs_pos_eq (X + B)) in At by lra. apply Rabs_le_inv in At.
  assert (t0 : (1 - u) * (X + B) <= t <= (1 + u) * (X + B)) by lra.
  assert (tp : 0 < t) by nra.
  set (g := hg X B).
  assert (gb : Rabs g <= 2).
  { unfold g. destruct (Rle_dec B X) as [K|K]; [pose proof (hg_up X B ltac:(lra) PE K)|pose proof (hg_down X B ltac:(lra) PE ltac:(lra))]; apply Rabs_le; lra. }
  assert (q0 : Rabs (2 * s / t - g) <= 41 / 10 * u).
  { assert (W : Rabs (2 * s - g * t) <= 4 * u * (X + B)).
    { replace (2 * s - g * t) with (2 * (s - (X - B)) - g * (t - (X + B))) by (unfold g, hg; field; lra).
      unfold Rminus at 1. eapply Rle_trans; [apply Rabs_triang|]. rewrite Rabs_Ropp, !Rabs_mult, (Rabs_pos_eq 2) by lra.
      assert (Rabs (t - (X + B)) <= u * (X + B)) by (apply Rabs_le; lra).
      assert (Rabs (X - B) <= X + B) by (apply Rabs_le; lra).
      assert (Rabs (s - (X - B)) <= u * (X + B)) by (eapply Rle_trans; [exact As|]; apply Rmult_le_compat_l; lra).
      assert (Rabs g * Rabs (t - (X + B)) <= 2 * (u * (X + B))) by (apply Rmult_le_compat; try apply Rabs_pos; lra). lra. }
    replace (2 * s / t - g) with ((2 * s - g * t) / t) by (field; lra). unfold Rdiv. rewrite Rabs_mult, (Rabs_pos_eq (/ t)) by (left; apply Rinv_0_lt_compat; lra).
    apply Rmult_le_reg_r with t; [lra|]. rewrite Rmult_assoc, Rinv_l, Rmult_1_r by lra. eapply Rle_trans; [exact W|].
    rewrite (Rmult_assoc (41 / 10)). assert (u * ((1 - u) * (X + B)) <= u * t) by (apply Rmult_le_compat_l; lra).
    assert (0 < u * (X + B)) by (apply Rmult_lt_0_compat; lra). nra. }
  assert (q1 : Rabs (2 * s / t) <= 21 / 10).
  { replace (2 * s / t) with ((2 * s / t - g) + g) by ring. eapply Rle_trans; [apply Rabs_triang|]. lra. }
  destruct (fdiv_ok (fmul (of_Z 2) (fsub x E)) (fadd x E) Fm) as [Eq Fq]; [fold t; lra|rewrite Em; fold t; apply big_ok; lra|].
  rewrite Em in Eq. fold t in Eq. pose proof (ap_rnd0 (prec := prec) (emax := emax) (2 * s / t)) as Aq. unfold ap in Aq. rewrite <- Eq in Aq.
  set (q := v (fdiv _ _)) in *.
  assert (q2 : Rabs (q - 2 * s / t) <= 31 / 10 * u) by (eapply Rle_trans; [exact Aq|]; assert (u * Rabs (2 * s / t) <= u * (21 / 10)) by (apply Rmult_le_compat_l; lra); lra).
  assert (q3 : Rabs (q - g) <= 72 / 10 * u).
  { replace (q - g) with ((q - 2 * s / t) + (2 * s / t - g)) by ring. eapply Rle_trans; [apply Rabs_triang|]. lra. }
  assert (q4 : Rabs q <= 22 / 10).
  { replace q with ((q - g) + g) by ring. eapply Rle_trans; [apply Rabs_triang|]. lra. }
  assert (yq : Rabs (Y + q) <= 52 / 10) by (eapply Rle_trans; [apply Rabs_triang|]; lra).
  destruct (fadd_ok y (fdiv (fmul (of_Z 2) (fsub x E)) (fadd x E)) Fy Fq) as [En Fn]; [apply big_ok; fold q Y; lra|].
  fold q Y in En. split; [exact Fn|].
  exists B. split; [exact HE|]. unfold nexty. rewrite En. split; [|split].
  - fold g. pose proof (rnd_plus (prec := prec) (emax := emax) Y q ltac:(apply v_F) ltac:(apply v_F)) as An.
    replace (rnd (Y + q) - (Y + g)) with ((rnd (Y + q) - (Y + q)) + (q - g)) by ring. eapply Rle_trans; [apply Rabs_triang|].
    assert (u * Rabs (Y + q) <= u * (52 / 10)) by (apply Rmult_le_compat_l; lra). unfold dd. lra.
  - intros K. apply rnd_ge; [exact Hp|apply v_F|]. assert (0 <= q); [|lra].
    rewrite Eq. apply rnd_ge; [exact Hp|apply F_0|]. apply Rmult_le_pos; [|left; apply Rinv_0_lt_compat; lra].
    apply Rmult_le_pos; [lra|]. rewrite Es. apply rnd_ge; [exact Hp|apply F_0|lra].
  - intros K. apply rnd_le; [exact Hp|apply v_F|]. assert (q <= 0); [|lra].
    rewrite Eq. apply rnd_le; [exact Hp|apply F_0|]. 
    assert (s <= 0) by (rewrite Es; apply rnd_le; [exact Hp|apply F_0|lra]).
    replace (2 * s / t) with (- ((2 * - s) * / t)) by (field; lra).
    assert (0 <= 2 * - s * / t) by (apply Rmult_le_pos; [lra|left; apply Rinv_0_lt_compat; lra]). lra.
Qed.

(** Two different numbers differ by at least the least positive one. *)
Lemma gap a b : F a -> F b -> a < b -> a + bpow emin <= b.
Proof.
  intros A B H. destruct (F_cexp emin prec a A) as (i & Ea). destruct (F_cexp emin prec b B) as (j & Eb).
  pose proof (cexp_emin emin prec a) as Ca. pose proof (cexp_emin emin prec b) as Cb.
  rewrite (bpow_grid emin _ Ca), <- Rmult_assoc, <- mult_IZR in Ea. rewrite (bpow_grid emin _ Cb), <- Rmult_assoc, <- mult_IZR in Eb.
  pose proof (bpow_gt_0 radix2 emin) as P. set (m := (i * _)%Z) in Ea. set (n := (j * _)%Z) in Eb. rewrite Ea, Eb in *.
  apply Rmult_lt_reg_r in H; [|exact P]. apply lt_IZR in H. assert (IZR m + 1 <= IZR n) by (rewrite <- plus_IZR; apply IZR_le; lia).
  assert ((IZR m + 1) * bpow emin <= IZR n * bpow emin) by (apply Rmult_le_compat_r; lra). lra.
Qed.
End Fmt.
