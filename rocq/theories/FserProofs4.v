(** Powers of e by squaring, and exp of every argument that is not too large. *)
From Coq Require Import ZArith Reals Lra Lia Bool.
From Flocq Require Import Core Plus_error Relative IEEE754.BinarySingleNaN.
From Verif Require Import FloatModel FloatProofs1 FloatProofs2 FserModel FserProofs1 FserProofs2 FserProofs3.
Local Open Scope R_scope.

Section Fmt.
Context {prec emax : Z} {Hp : Prec_gt_0 prec} {Hx : Prec_lt_emax prec emax}.
Notation fl := (binary_float prec emax).
Notation emin := (3 - emax - prec)%Z.
Notation fexp := (FLT_exp emin prec).
Notation F := (generic_format radix2 fexp).
Notation rnd := (round radix2 fexp ZnearestE).
Notation bpow := (bpow radix2).
Notation v := (@B2R prec emax).
Hypothesis (Hprec : (8 <= prec)%Z) (Hemax : (65 <= emax)%Z) (Hpx : (prec + 40 <= emax)%Z) (Hbig : (emax + prec <= 20000)%Z).
Notation u := (bpow (- prec)).
Local Notation N := (Z.to_nat (emax + prec)).

(** [y] is [z] up to [k] factors between [1 / (1 + u)] and [1 + u]. *)
Definition near (k : nat) (z y : R) : Prop := 0 < z /\ z <= y * (1 + u) ^ k /\ y <= z * (1 + u) ^ k.
Lemma g1 k : 1 <= (1 + u) ^ k.
Proof. apply pow_R1_Rle. pose proof (bpow_gt_0 radix2 (- prec)). lra. Qed.
Lemma near_pos k z y : near k z y -> 0 < y.
Proof. intros (A & B & _). pose proof (g1 k). apply Rnot_le_lt. intros C. assert (y * (1 + u) ^ k <= 0 * (1 + u) ^ k) by (apply Rmult_le_compat_r; lra). lra. Qed.
Lemma near_mul k l z y z' y' : near k z y -> near l z' y' -> near (k + l) (z * z') (y * y').
Proof.
  intros A B. pose proof (near_pos _ _ _ A). pose proof (near_pos _ _ _ B). destruct A as (A1 & A2 & A3), B as (B1 & B2 & B3). split; [now apply Rmult_lt_0_compat |]. rewrite pow_add. split.
  - replace (y * y' * ((1 + u) ^ k * (1 + u) ^ l)) with ((y * (1 + u) ^ k) * (y' * (1 + u) ^ l)) by ring. apply Rmult_le_compat; lra.
  - replace (z * z' * ((1 + u) ^ k * (1 + u) ^ l)) with ((z * (1 + u) ^ k) * (z' * (1 + u) ^ l)) by ring. apply Rmult_le_compat; lra.
Qed.
Lemma near_inv k z y : near k z y -> near k (/ z) (/ y).
Proof.
  intros A. pose proof (near_pos _ _ _ A) as P. destruct A as (A1 & A2 & A3). pose proof (g1 k) as G. split; [now apply Rinv_0_lt_compat |]. set (g := (1 + u) ^ k) in *. split.
  - apply Rmult_le_reg_r with z; [auto |]. apply Rmult_le_reg_r with y; [auto |]. replace (/ z * z * y) with y by (field; lra). replace (/ y * g * z * y) with (z * g) by (field; lra). exact A3.
  - apply Rmult_le_reg_r with z; [auto |]. apply Rmult_le_reg_r with y; [auto |]. replace (/ y * z * y) with z by (field; lra). replace (/ z * g * z * y) with (y * g) by (field; lra). exact A2.
Qed.
Lemma rnd_near1 y : bpow (emin + prec - 1) <= y -> y <= rnd y * (1 + u) /\ rnd y <= y * (1 + u).
Proof.
  intros L. pose proof (bpow_gt_0 radix2 (- prec)) as up. assert (py : 0 < y) by (pose proof (bpow_gt_0 radix2 (emin + prec - 1)); lra).
  rewrite round_FLT_FLX by (rewrite Rabs_pos_eq by lra; exact L).
  destruct (relative_error_N_FLX'_ex radix2 prec Hp (fun x => negb (Z.even x)) y) as (eps & E1 & E). rewrite E.
  assert (U : u_ro radix2 prec = u) by (unfold u_ro; rewrite half_u; reflexivity). rewrite U in E1. apply Rabs_le_inv in E1.
  assert (U1 : u / (1 + u) <= u) by (apply Rmult_le_reg_r with (1 + u); [lra |]; unfold Rdiv; rewrite Rmult_assoc, Rinv_l by lra; nra).
  assert (U2 : (1 - u / (1 + u)) * (1 + u) = 1) by (field; lra).
  split.
  - assert (y * ((1 - u / (1 + u)) * (1 + u)) <= y * ((1 + eps) * (1 + u))) by (apply Rmult_le_compat_l; [lra |]; apply Rmult_le_compat_r; lra). rewrite U2 in H. lra.
  - apply Rmult_le_compat_l; lra.
Qed.
Lemma near_rnd k z y : bpow (emin + prec - 1) <= y -> near k z y -> near (S k) z (rnd y).
Proof.
  intros L (A1 & A2 & A3). destruct (rnd_near1 y L) as [B1 B2]. pose proof (g1 k) as G. pose proof (bpow_gt_0 radix2 (- prec)) as up. split; [exact A1 |]. cbn [pow]. split.
  - apply Rle_trans with (y * (1 + u) ^ k); [exact A2 |]. rewrite <- Rmult_assoc. apply Rmult_le_compat_r; lra.
  - apply Rle_trans with (y * (1 + u)); [exact B2 |]. replace (z * ((1 + u) * (1 + u) ^ k)) with (z * (1 + u) ^ k * (1 + u)) by ring. apply Rmult_le_compat_r; lra.
Qed.
Lemma near_weak k l z y : (k <= l)%nat -> near k z y -> near l z y.
Proof.
  intros L A. pose proof (near_pos _ _ _ A). destruct A as (A1 & A2 & A3). assert ((1 + u) ^ k <= (1 + u) ^ l) by (apply Rle_pow; [pose proof (bpow_gt_0 radix2 (- prec)); lra | exact L]). split; [exact A1 |]. split.
  - eapply Rle_trans; [exact A2 |]. apply Rmult_le_compat_l; lra.
  - eapply Rle_trans; [exact A3 |]. apply Rmult_le_compat_l; lra.
Qed.
Lemma normal1 : bpow (emin + prec - 1) <= 1.
Proof. change 1 with (bpow 0). apply bpow_le. lia. Qed.
Lemma F1 : F 1.
Proof. change 1 with (bpow 0). apply F_bpow; [exact Hp | lia]. Qed.
Lemma one_ok : v (of_Z 1) = 1 /\ is_finite (of_Z 1 : fl) = true.
Proof. destruct (of_Z_ok (prec := prec) (emax := emax) 1) as [V1 f1]; [apply Z_big; lia |]. split; [| exact f1]. rewrite V1. apply rnd_F; exact F1. Qed.

(** ** integral_exp *)
Variable e : fl.
Hypothesis (Fe : is_finite e = true) (Ne : near 1 (exp 1) (v e)) (Ge : 1 <= v e).
Lemma exp_Z_plus a b : exp (IZR (a + b)) = exp (IZR a) * exp (IZR b).
Proof. rewrite plus_IZR. apply exp_plus. Qed.
Lemma exp_pos' z : 0 < exp z. Proof. apply exp_pos. Qed.

Lemma integral_exp_ok (n : nat) : (1 <= n)%nat -> exp (INR n) * (1 + u) ^ (2 * n) <= bpow (emax - 1) ->
  exists y, is_finite y = true /\ near (2 * n - 1) (exp (INR n)) (v y) /\ 1 <= v y /\ forall fuel, (n <= fuel)%nat -> integral_exp fuel e (Z.of_nat n) = FVal y.
Proof.
  pose proof (bpow_gt_0 radix2 (- prec)) as up.
  assert (Down : forall m k : nat, (m <= k)%nat -> exp (INR k) * (1 + u) ^ (2 * k) <= bpow (emax - 1) -> exp (INR m) * (1 + u) ^ (2 * m) <= bpow (emax - 1)).
  { intros m k L H. eapply Rle_trans; [| exact H]. apply Rmult_le_compat; [left; apply exp_pos | pose proof (g1 (2 * m)); lra | | apply Rle_pow; [lra | lia]].
    destruct (le_lt_eq_dec m k L) as [Lt|Eq]; [left; apply exp_increasing, lt_INR, Lt | subst; lra]. }
  induction n as [n IH] using lt_wf_ind. intros Ln Hov. destruct (Nat.eq_dec n 1) as [->|N1].
  - exists e. split; [exact Fe |]. split; [exact Ne |]. split; [exact Ge |]. intros [|fuel] L; [lia |]. reflexivity.
  - destruct (Nat.Even_or_Odd n) as [[q Eq]|[q Eq]].
    + destruct (IH q ltac:(lia) ltac:(lia) ltac:(apply (Down q n); [lia | exact Hov])) as (y & Fy & Ny & Gy & Ry).
      assert (E2 : exp (INR n) = exp (INR q) * exp (INR q)) by (rewrite <- exp_plus; f_equal; subst n; rewrite mult_INR; cbn [INR]; ring).
      pose proof (near_mul _ _ _ _ _ _ Ny Ny) as NN. rewrite <- E2 in NN. replace (2 * q - 1 + (2 * q - 1))%nat with (2 * n - 2)%nat in NN by lia.
      assert (G2 : 1 <= v y * v y) by (replace 1 with (1 * 1) by ring; apply Rmult_le_compat; lra).
      destruct (fmul_ok y y Fy Fy) as [Vm Fm].
      { rewrite Rabs_pos_eq by lra. eapply Rle_trans; [| exact Hov]. eapply Rle_trans; [apply NN |]. apply Rmult_le_compat_l; [left; apply exp_pos | apply Rle_pow; [lra | lia]]. }
      exists (fmul y y). split; [exact Fm |]. rewrite Vm. split; [| split].
      * replace (2 * n - 1)%nat with (S (2 * n - 2)) by lia. apply near_rnd; [pose proof normal1; lra | exact NN].
      * apply rnd_ge; [exact Hp | exact F1 | exact G2].
      * intros [|fuel] L; [lia |]. cbn [integral_exp]. replace (Z.of_nat n =? 0)%Z with false by (symmetry; apply Z.eqb_neq; lia). replace (Z.of_nat n =? 1)%Z with false by (symmetry; apply Z.eqb_neq; lia).
        replace (Z.of_nat n <? 0)%Z with false by (symmetry; apply Z.ltb_ge; lia). replace (Z.rem (Z.of_nat n) 2) with 0%Z by (replace (Z.of_nat n) with (Z.of_nat q * 2)%Z by lia; symmetry; apply Z.rem_mul; lia).
        cbn [Z.eqb]. replace (Z.quot (Z.of_nat n) 2) with (Z.of_nat q) by (replace (Z.of_nat n) with (Z.of_nat q * 2)%Z by lia; symmetry; apply Z.quot_mul; lia).
        rewrite Ry by lia. reflexivity.
    + destruct (IH (n - 1)%nat ltac:(lia) ltac:(lia) ltac:(apply (Down (n - 1)%nat n); [lia | exact Hov])) as (y & Fy & Ny & Gy & Ry).
      assert (E2 : exp (INR n) = exp 1 * exp (INR (n - 1))) by (rewrite <- exp_plus; f_equal; replace n with (S (n - 1)) at 1 by lia; rewrite S_INR; ring).
      pose proof (near_mul _ _ _ _ _ _ Ne Ny) as NN. rewrite <- E2 in NN. replace (1 + (2 * (n - 1) - 1))%nat with (2 * n - 2)%nat in NN by lia.
      assert (G2 : 1 <= v e * v y) by (replace 1 with (1 * 1) by ring; apply Rmult_le_compat; lra).
      destruct (fmul_ok e y Fe Fy) as [Vm Fm].
      { rewrite Rabs_pos_eq by lra. eapply Rle_trans; [| exact Hov]. eapply Rle_trans; [apply NN |]. apply Rmult_le_compat_l; [left; apply exp_pos | apply Rle_pow; [lra | lia]]. }
      exists (fmul e y). split; [exact Fm |]. rewrite Vm. split; [| split].
      * replace (2 * n - 1)%nat with (S (2 * n - 2)) by lia. apply near_rnd; [pose proof normal1; lra | exact NN].
      * apply rnd_ge; [exact Hp | exact F1 | exact G2].
      * intros [|fuel] L; [lia |]. cbn [integral_exp]. replace (Z.of_nat n =? 0)%Z with false by (symmetry; apply Z.eqb_neq; lia). replace (Z.of_nat n =? 1)%Z with false by (symmetry; apply Z.eqb_neq; lia).
        replace (Z.of_nat n <? 0)%Z with false by (symmetry; apply Z.ltb_ge; lia).
        replace (Z.rem (Z.of_nat n) 2) with 1%Z by (rewrite Z.rem_mod_nonneg by lia; replace (Z.of_nat n) with (1 + Z.of_nat q * 2)%Z by lia; rewrite Z.mod_add by lia; reflexivity).
        cbn [Z.eqb]. change (1 =? 1)%Z with true. cbn iota. replace (Z.of_nat n - 1)%Z with (Z.of_nat (n - 1)) by lia. rewrite Ry by lia. reflexivity.
Qed.
(** For every integer. *)
Lemma integral_exp_Z (n : Z) : (Z.abs n <= int_max)%Z -> exp (IZR (Z.abs n)) * (1 + u) ^ (2 * Z.abs_nat n) <= bpow (emax - 2) ->
  exists y, is_finite y = true /\ near (2 * Z.abs_nat n) (exp (IZR n)) (v y) /\ v y <= bpow (emax - 2) /\ forall fuel, (Z.abs_nat n < fuel)%nat -> integral_exp fuel e n = FVal y.
Proof.
  intros Hn Hov. pose proof (bpow_gt_0 radix2 (- prec)) as up. destruct (Z_lt_le_dec n 0) as [C|C]; [| destruct (Z.eq_dec n 0) as [->|C0]].
  - destruct (integral_exp_ok (Z.abs_nat n)) as (y & Fy & Ny & Gy & Ry); [lia | rewrite INR_IZR_INZ, Zabs2Nat.id_abs; eapply Rle_trans; [exact Hov | apply bpow_le; lia] |].
    pose proof (near_inv _ _ _ Ny) as NI. rewrite INR_IZR_INZ, Zabs2Nat.id_abs, Z.abs_neq, opp_IZR, exp_Ropp, Rinv_inv in NI by lia.
    destruct one_ok as [V1 f1].
    assert (Yb : v y <= bpow (emax - 2)).
    { destruct Ny as (_ & _ & Ny). eapply Rle_trans; [exact Ny |]. rewrite INR_IZR_INZ, Zabs2Nat.id_abs. eapply Rle_trans; [| exact Hov]. apply Rmult_le_compat_l; [left; apply exp_pos | apply Rle_pow; [lra | lia]]. }
    assert (I1 : / v y <= 1) by (rewrite <- Rinv_1; apply Rinv_le; lra). assert (I0 : 0 < / v y) by (apply Rinv_0_lt_compat; lra).
    destruct (fdiv_ok (of_Z 1) y f1) as [Vd Fd]; [lra | |].
    { rewrite V1. unfold Rdiv. rewrite Rmult_1_l, Rabs_pos_eq by lra. apply Rle_trans with (bpow 0); [simpl; lra | apply bpow_le; lia]. }
    assert (E : 1 / v y = / v y) by (unfold Rdiv; ring). rewrite V1, E in Vd.
    exists (fdiv (of_Z 1) y). split; [exact Fd |]. rewrite Vd. split; [| split].
    + replace (2 * Z.abs_nat n)%nat with (S (2 * Z.abs_nat n - 1)) by lia. apply near_rnd; [| exact NI].
      apply Rle_trans with (/ bpow (emax - 2)); [rewrite <- bpow_opp; apply bpow_le; lia | apply Rinv_le; lra].
    + apply Rle_trans with 1; [apply rnd_le; [exact Hp | exact F1 | exact I1] |]. change 1 with (bpow 0). apply bpow_le. lia.
    + intros [|fuel] L; [lia |]. cbn [integral_exp]. replace (n =? 0)%Z with false by (symmetry; apply Z.eqb_neq; lia). replace (n =? 1)%Z with false by (symmetry; apply Z.eqb_neq; lia).
      replace (n <? 0)%Z with true by (symmetry; apply Z.ltb_lt; lia). replace (- n <=? int_max)%Z with true by (symmetry; apply Z.leb_le; lia).
      replace (- n)%Z with (Z.of_nat (Z.abs_nat n)) by lia. rewrite Ry by lia. reflexivity.
  - destruct one_ok as [V1 f1]. exists (of_Z 1). split; [exact f1 |]. rewrite V1, exp_0. split; [| split].
    + cbn. unfold near. cbn. lra.
    + change 1 with (bpow 0). apply bpow_le. lia.
    + intros [|fuel] _; reflexivity.
  - destruct (integral_exp_ok (Z.abs_nat n)) as (y & Fy & Ny & Gy & Ry); [lia | rewrite INR_IZR_INZ, Zabs2Nat.id_abs; eapply Rle_trans; [exact Hov | apply bpow_le; lia] |].
    exists y. split; [exact Fy |]. rewrite INR_IZR_INZ, Zabs2Nat.id_abs, Z.abs_eq in Ny by lia. split; [| split].
    + apply (near_weak (2 * Z.abs_nat n - 1)); [lia | exact Ny].
    + destruct Ny as (_ & _ & Ny). eapply Rle_trans; [exact Ny |]. rewrite Z.abs_eq in Hov by lia. eapply Rle_trans; [| exact Hov]. apply Rmult_le_compat_l; [left; apply exp_pos | apply Rle_pow; [lra | lia]].
    + intros fuel L. replace n with (Z.of_nat (Z.abs_nat n)) by lia. apply Ry. lia.
Qed.
End Fmt.
