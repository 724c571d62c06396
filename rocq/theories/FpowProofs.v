(** pow in floating point. *)
From Coq Require Import ZArith Reals Lra Lia Bool.
From Flocq Require Import Core Relative IEEE754.BinarySingleNaN.
From Verif Require Import FloatModel FloatSpec FloatProofs1 FloatProofs2 FloatProofs4 FserModel FserSpec FserProofs1 FserProofs2 FserProofs3 FserProofs5 FserProofs10.
From Verif Require Import FlogModel FlogSpec FlogProofs1 FlogProofs2 FlogProofs4 FhypProofs1 FhypProofs3 FpowModel FpowSpec.
Local Open Scope R_scope.

(** ** Products of factors 1 + u. *)
Definition rel (u : R) (c : nat) (z y : R) : Prop := Rabs (y - z) <= ((1 + u) ^ c - 1) * Rabs z.
Lemma pow_ge1 u c : 0 <= u -> 1 <= (1 + u) ^ c.
Proof. intros H. induction c as [|c IH]; simpl; [lra|nra]. Qed.
Lemma rel_abs u c z y : rel u c z y -> Rabs y <= (1 + u) ^ c * Rabs z.
Proof. unfold rel. intros H. replace y with (y - z + z) by lra. eapply Rle_trans; [apply Rabs_triang|]. lra. Qed.
Lemma rel_mul u a b z y z' y' : 0 <= u -> rel u a z y -> rel u b z' y' -> rel u (a + b) (z * z') (y * y').
Proof.
  intros U A B. pose proof (rel_abs _ _ _ _ A) as C. unfold rel in *. rewrite Rabs_mult, pow_add.
  replace (y * y' - z * z') with (y * (y' - z') + (y - z) * z') by lra. eapply Rle_trans; [apply Rabs_triang|]. rewrite !Rabs_mult.
  pose proof (pow_ge1 u a U). pose proof (pow_ge1 u b U). set (s := (1 + u) ^ a) in *. set (t := (1 + u) ^ b) in *.
  assert (Rabs y * Rabs (y' - z') <= s * Rabs z * ((t - 1) * Rabs z')) by (apply Rmult_le_compat; try apply Rabs_pos; assumption).
  assert (Rabs (y - z) * Rabs z' <= (s - 1) * Rabs z * Rabs z') by (apply Rmult_le_compat_r; [apply Rabs_pos|exact A]). lra.
Qed.
Lemma rel_trans u a b z y w : 0 <= u -> rel u a z y -> rel u b y w -> rel u (a + b) z w.
Proof.
  intros U A B. pose proof (rel_abs _ _ _ _ A) as C. unfold rel in *. rewrite pow_add.
  replace (w - z) with ((w - y) + (y - z)) by lra. eapply Rle_trans; [apply Rabs_triang|].
  pose proof (pow_ge1 u a U). pose proof (pow_ge1 u b U). set (s := (1 + u) ^ a) in *. set (t := (1 + u) ^ b) in *.
  assert ((t - 1) * Rabs y <= (t - 1) * (s * Rabs z)) by (apply Rmult_le_compat_l; lra). lra.
Qed.
Lemma pow_linear u c : 0 < u -> INR c * u <= / 100 -> (1 + u) ^ c <= 1 + 102 / 100 * (INR c * u).
Proof.
  intros U. induction c as [|c IH]; intros H; [simpl; lra|]. rewrite S_INR in H |- *. pose proof (pos_INR c) as P.
  assert (0 <= INR c * u) by nra. specialize (IH ltac:(lra)). simpl pow.
  apply Rle_trans with ((1 + u) * (1 + 102 / 100 * (INR c * u))); [apply Rmult_le_compat_l; lra|].
  assert (u * (INR c * u) <= u * / 100) by (apply Rmult_le_compat_l; lra). lra.
Qed.
(** The exponential of a small number. *)
Lemma exp_small d : Rabs d <= / 100 -> Rabs (exp d - 1) <= 102 / 100 * Rabs d.
Proof.
  intros H. pose proof (exp_ineq1_le d) as A. pose proof (exp_ineq1_le (- d)) as B. rewrite exp_Ropp in B. pose proof (exp_pos d) as P.
  assert (C : exp d * (1 - d) <= 1) by (apply Rle_trans with (exp d * / exp d); [apply Rmult_le_compat_l; lra|rewrite Rinv_r by lra; lra]).
  apply Rabs_le_inv in H. set (E := exp d) in *. pose proof (RRle_abs d). pose proof (RRle_abs (- d)) as N. rewrite Rabs_Ropp in N. apply Rabs_le. split; [lra|].
  assert (E <= 102 / 100) by nra. destruct (Rle_lt_dec 0 d); [|nra]. assert (E * d <= 102 / 100 * d) by (apply Rmult_le_compat_r; lra). lra.
Qed.

Section Fmt.
Context {prec emax : Z} {Hp : Prec_gt_0 prec} {Hx : Prec_lt_emax prec emax}.
Notation fl := (binary_float prec emax).
Notation emin := (3 - emax - prec)%Z.
Notation F := (generic_format radix2 (FLT_exp emin prec)).
Notation rnd := (round radix2 (FLT_exp emin prec) ZnearestE).
Notation bpow := (bpow radix2).
Notation v := (@B2R prec emax).
Notation u := (bpow (- prec)).
Notation h := (bpow (emin - 1)).
Hypothesis Sup : supported_log prec emax.
Let S1 : (24 <= prec)%Z. Proof. apply Sup. Qed.
Let S2 : (65 <= emax)%Z. Proof. apply Sup. Qed.
Let S3 : (prec + 40 <= emax)%Z. Proof. apply Sup. Qed.
Let S4 : (emax + prec <= 20000)%Z. Proof. apply Sup. Qed.

Lemma rel_rnd z : bpow (2 - emax) <= Rabs z -> rel u 1 z (rnd z).
Proof.
  intros N. unfold rel. rewrite pow_1. replace (1 + u - 1) with u by lra.
  eapply Rle_trans; [apply (relative_error_N_FLT radix2 emin prec Hp); replace (emin + prec - 1)%Z with (2 - emax)%Z by lia; exact N|].
  apply Rmult_le_compat_r; [apply Rabs_pos|]. replace (- prec + 1)%Z with (1 + - prec)%Z by lia. rewrite bpow_plus. change (bpow 1) with 2. lra.
Qed.

Variable x : fl.
Hypothesis (Fx : is_finite x = true).
Definition range (q : nat) : Prop := power_in_range emax (v x ^ q).
Lemma range_sub q' q : (q' <= q)%nat -> range q -> range q'.
Proof.
  unfold range, power_in_range. intros L [A B]. rewrite <- !RPow_abs in *. pose proof (Rabs_pos (v x)) as P.
  destruct (Rle_lt_dec 1 (Rabs (v x))) as [G|G].
  - assert (1 <= Rabs (v x) ^ q') by (apply pow_R1_Rle; exact G). assert (Rabs (v x) ^ q' <= Rabs (v x) ^ q) by (apply Rle_pow; assumption).
    assert (bpow (3 - emax) <= 1) by (change 1 with (bpow 0); apply bpow_le; lia). lra.
  - assert (M : forall n k, Rabs (v x) ^ (n + k) <= Rabs (v x) ^ n).
    { intros n k. rewrite pow_add. assert (Rabs (v x) ^ k <= 1) by (rewrite <- (pow1 k); apply pow_incr; lra).
      assert (0 <= Rabs (v x) ^ n) by (apply pow_le; exact P). nra. }
    pose proof (M q' (q - q')%nat) as M1. replace (q' + (q - q'))%nat with q in M1 by lia. pose proof (M 0%nat q') as M2. simpl in M2.
    assert (1 <= bpow (emax - 3)) by (change 1 with (bpow 0); apply bpow_le; lia). lra.
Qed.
(** One multiplication. *)
Lemma mul_rel (a b : fl) (i j ci cj : nat) : range (i + j) -> is_finite a = true -> is_finite b = true -> rel u ci (v x ^ i) (v a) -> rel u cj (v x ^ j) (v b) ->
  INR (ci + cj) * u <= / 100 -> is_finite (fmul a b) = true /\ rel u (ci + cj + 1) (v x ^ (i + j)) (v (fmul a b)).
Proof.
  intros Rg Fa Fb A B Sm. pose proof (u_tiny Sup) as U. pose proof (rel_mul u ci cj _ _ _ _ ltac:(lra) A B) as M. rewrite <- pow_add in M.
  pose proof (pow_linear u (ci + cj) ltac:(lra) Sm) as L. pose proof (pos_INR (ci + cj)) as PI. pose proof M as M'. unfold rel in M'.
  unfold range, power_in_range in Rg. set (z := v x ^ (i + j)) in *. set (y := v a * v b) in *.
  assert (D : Rabs (y - z) <= 2 / 100 * Rabs z) by (eapply Rle_trans; [exact M'|]; apply Rmult_le_compat_r; [apply Rabs_pos|lra]).
  assert (T1 : Rabs y <= Rabs z + Rabs (y - z)) by (replace y with (z + (y - z)) at 1 by lra; apply Rabs_triang).
  assert (T2 : Rabs z <= Rabs y + Rabs (y - z)) by (replace z with (y + - (y - z)) at 1 by lra; rewrite <- (Rabs_Ropp (y - z)); apply Rabs_triang).
  assert (D2 : forall k, bpow (k + 1) = 2 * bpow k) by (intros k; rewrite bpow_plus; change (bpow 1) with 2; lra).
  pose proof (D2 (emax - 3)%Z) as E1. pose proof (D2 (2 - emax)%Z) as E2. replace (2 - emax + 1)%Z with (3 - emax)%Z in E2 by lia.
  destruct (fmul_ok a b Fa Fb) as [Em Fm].
  { fold y. apply Rle_trans with (bpow (emax - 3 + 1)); [lra|apply bpow_le; lia]. }
  split; [exact Fm|]. rewrite Em. fold y. apply rel_trans with y; [lra|exact M|]. apply rel_rnd. lra.
Qed.
Lemma pow_pos_ok p : range (Pos.to_nat p) -> INR (Pos.to_nat p) * u <= / 100 ->
  is_finite (pow_pos x p) = true /\ rel u (Pos.to_nat p - 1) (v x ^ Pos.to_nat p) (v (pow_pos x p)).
Proof.
  pose proof (u_tiny Sup) as U. destruct (one_v Sup) as [V1 F1].
  assert (Mono : forall i j, (i <= j)%nat -> INR j * u <= / 100 -> INR i * u <= / 100).
  { intros i j L H. apply le_INR in L. assert (INR i * u <= INR j * u) by (apply Rmult_le_compat_r; lra). lra. }
  assert (X1 : rel u 0 (v x ^ 1) (v x)) by (unfold rel; rewrite pow_1, pow_O, Rminus_diag_eq, Rabs_R0 by reflexivity; lra).
  induction p as [p IH|p IH|]; intros Rg Sm.
  - cbn [pow_pos]. rewrite Pos2Nat.inj_xI in *. pose proof (Pos2Nat.is_pos p) as PP. set (k := Pos.to_nat p) in *. set (t := S (2 * k)) in *.
    assert (L1 : (k <= t)%nat) by (unfold t; lia). assert (L2 : (k + k <= t)%nat) by (unfold t; lia). assert (L3 : (1 + (k + k) <= t)%nat) by (unfold t; lia).
    assert (L4 : (k - 1 + (k - 1) <= t)%nat) by (unfold t; lia). assert (L5 : (0 + (k - 1 + (k - 1) + 1) <= t)%nat) by (unfold t; lia).
    destruct (IH (range_sub _ _ L1 Rg) (Mono _ _ L1 Sm)) as [Fi Ri].
    destruct (mul_rel _ _ _ _ _ _ (range_sub _ _ L2 Rg) Fi Fi Ri Ri (Mono _ _ L4 Sm)) as [Fj Rj].
    destruct (mul_rel x _ 1 (k + k) 0 _ (range_sub _ _ L3 Rg) Fx Fj X1 Rj (Mono _ _ L5 Sm)) as [Fk Rk].
    split; [exact Fk|]. replace (t - 1)%nat with (0 + (k - 1 + (k - 1) + 1) + 1)%nat by (unfold t; lia).
    replace t with (1 + (k + k))%nat by (unfold t; lia). exact Rk.
  - cbn [pow_pos]. rewrite Pos2Nat.inj_xO in *. pose proof (Pos2Nat.is_pos p) as PP. set (k := Pos.to_nat p) in *. set (t := (2 * k)%nat) in *.
    assert (L1 : (k <= t)%nat) by (unfold t; lia). assert (L2 : (k + k <= t)%nat) by (unfold t; lia). assert (L4 : (k - 1 + (k - 1) <= t)%nat) by (unfold t; lia).
    destruct (IH (range_sub _ _ L1 Rg) (Mono _ _ L1 Sm)) as [Fi Ri].
    destruct (mul_rel _ _ _ _ _ _ (range_sub _ _ L2 Rg) Fi Fi Ri Ri (Mono _ _ L4 Sm)) as [Fj Rj].
    split; [exact Fj|]. replace (t - 1)%nat with (k - 1 + (k - 1) + 1)%nat by (unfold t; lia). replace t with (k + k)%nat by (unfold t; lia). exact Rj.
  - change (Pos.to_nat 1) with 1%nat in *. change (1 - 1)%nat with 0%nat. unfold range, power_in_range in Rg. rewrite pow_1 in Rg.
    destruct (fmul_ok x (of_Z 1) Fx F1) as [Em Fm]; [rewrite V1, Rmult_1_r; apply Rle_trans with (bpow (emax - 3)); [lra|apply bpow_le; lia]|].
    split; [exact Fm|]. cbn [pow_pos]. rewrite Em, V1, Rmult_1_r, rnd_F by apply v_F. exact X1.
Qed.

Lemma not_one n : v x <> 1 -> fpow_int x n = (if (n =? 0)%Z then FVal (of_Z 1) else if (n =? - 2 ^ 31)%Z then FUB else pow_integral x n).
Proof.
  intros N. destruct (one_v Sup) as [V1 F1]. unfold fpow_int. rewrite feq_spec, V1, Req_bool_false, (finite_nan x Fx), !(finite_eq_inf x) by assumption.
  destruct (Z.eqb_spec n 0) as [E|E]; [reflexivity|]. cbn [orb]. destruct (Z.eqb_spec n (- 2 ^ 31)) as [M|M]; [subst n; reflexivity|].
  destruct (Z.rem n 2 =? 1)%Z; [reflexivity|]. destruct (Z.rem (- n) 2 =? 1)%Z; reflexivity.
Qed.

Theorem pow_int_spec (n : Z) : (- 2 ^ 31 < n < 2 ^ 31)%Z -> power_in_range emax (v x ^ Z.abs_nat n) -> IZR (Z.abs n) * u <= / 200 ->
  exists y, fpow_int x n = FVal y /\ is_finite y = true /\ Rabs (v y - powerRZ (v x) n) <= power_accuracy prec n * Rabs (powerRZ (v x) n).
Proof.
  intros I Rg Sm. pose proof (u_tiny Sup) as U. destruct (one_v Sup) as [V1 F1]. unfold power_accuracy, unit_error.
  assert (AN : 0 <= IZR (Z.abs n)) by (apply IZR_le; lia).
  assert (Acc : 0 <= (11 / 10 * IZR (Z.abs n) + 2) * u) by (apply Rmult_le_pos; lra).
  assert (Ex : forall z, z = powerRZ (v x) n -> Rabs (z - powerRZ (v x) n) <= (11 / 10 * IZR (Z.abs n) + 2) * u * Rabs (powerRZ (v x) n)).
  { intros z ->. rewrite Rminus_diag_eq, Rabs_R0 by reflexivity. apply Rmult_le_pos; [exact Acc|apply Rabs_pos]. }
  destruct (Req_dec (v x) 1) as [O|O].
  { exists (of_Z 1). split; [unfold fpow_int; rewrite feq_spec, V1, Req_bool_true by assumption; reflexivity|]. split; [exact F1|]. apply Ex. rewrite V1, O.
    destruct n as [|p|p]; simpl; rewrite ?pow1, ?Rinv_1; reflexivity. }
  rewrite (not_one n O). destruct n as [|p|p].
  - exists (of_Z 1). split; [reflexivity|]. split; [exact F1|]. apply Ex. rewrite V1. reflexivity.
  - change (Z.abs_nat (Z.pos p)) with (Pos.to_nat p) in Rg. change (Z.abs (Z.pos p)) with (Z.pos p) in *. replace (IZR (Z.pos p)) with (INR (Pos.to_nat p)) in * by (rewrite INR_IZR_INZ, positive_nat_Z; reflexivity).
    destruct (pow_pos_ok p Rg ltac:(lra)) as [Fy Ry]. exists (pow_pos x p). split; [|split; [exact Fy|]].
    + cbn [Z.eqb pow_integral]. rewrite feq_spec by (reflexivity || assumption). rewrite Req_bool_false; [reflexivity|]. change (v fzero) with 0. intros Z. rewrite Z in Rg. unfold power_in_range in Rg.
      rewrite pow_i in Rg by apply Pos2Nat.is_pos. rewrite Rabs_R0 in Rg. pose proof (bpow_gt_0 radix2 (3 - emax)). lra.
    + simpl powerRZ. unfold rel in Ry. eapply Rle_trans; [exact Ry|]. apply Rmult_le_compat_r; [apply Rabs_pos|].
      assert (INR (Pos.to_nat p - 1) <= INR (Pos.to_nat p)) by (apply le_INR; lia).
      assert (INR (Pos.to_nat p - 1) * u <= INR (Pos.to_nat p) * u) by (apply Rmult_le_compat_r; lra).
      pose proof (pow_linear u (Pos.to_nat p - 1) ltac:(lra) ltac:(lra)). pose proof (pos_INR (Pos.to_nat p)). assert (0 <= INR (Pos.to_nat p) * u) by (apply Rmult_le_pos; lra). lra.
  - change (Z.abs_nat (Z.neg p)) with (Pos.to_nat p) in Rg. change (Z.abs (Z.neg p)) with (Z.pos p) in *. replace (IZR (Z.pos p)) with (INR (Pos.to_nat p)) in * by (rewrite INR_IZR_INZ, positive_nat_Z; reflexivity).
    destruct (pow_pos_ok p Rg ltac:(lra)) as [Fy Ry].
    assert (NZ : v x <> 0).
    { intros Z. rewrite Z in Rg. unfold power_in_range in Rg. rewrite pow_i in Rg by apply Pos2Nat.is_pos. rewrite Rabs_R0 in Rg. pose proof (bpow_gt_0 radix2 (3 - emax)). lra. }
    assert (IN : INR (Pos.to_nat p - 1) <= INR (Pos.to_nat p)) by (apply le_INR; lia).
    assert (IU : INR (Pos.to_nat p - 1) * u <= INR (Pos.to_nat p) * u) by (apply Rmult_le_compat_r; lra).
    pose proof (pow_linear u (Pos.to_nat p - 1) ltac:(lra) ltac:(lra)) as PL. pose proof (pos_INR (Pos.to_nat p)) as P0.
    assert (MU : 0 <= INR (Pos.to_nat p) * u) by (apply Rmult_le_pos; lra).
    assert (D : Rabs (v (pow_pos x p) - v x ^ Pos.to_nat p) <= 102 / 100 * (INR (Pos.to_nat p) * u) * Rabs (v x ^ Pos.to_nat p)).
    { unfold rel in Ry. eapply Rle_trans; [exact Ry|]. apply Rmult_le_compat_r; [apply Rabs_pos|lra]. }
    simpl powerRZ. set (z := v x ^ Pos.to_nat p) in *. set (b := v (pow_pos x p)) in *. set (m := INR (Pos.to_nat p)) in *.
    unfold power_in_range in Rg. pose proof (bpow_gt_0 radix2 (3 - emax)) as B0.
    assert (Z0 : z <> 0) by (intros E; rewrite E, Rabs_R0 in Rg; lra).
    assert (Small : 102 / 100 * (m * u) <= / 100) by lra.
    assert (Bz : 99 / 100 * Rabs z <= Rabs b).
    { assert (T2 : Rabs z <= Rabs b + Rabs (b - z)) by (replace z with (b + - (b - z)) at 1 by lra; rewrite <- (Rabs_Ropp (b - z)); apply Rabs_triang).
      assert (102 / 100 * (m * u) * Rabs z <= / 100 * Rabs z) by (apply Rmult_le_compat_r; [apply Rabs_pos|lra]). lra. }
    assert (b0 : b <> 0) by (intros E; rewrite E, Rabs_R0 in Bz; lra).
    assert (Iz : Rabs (/ b - / z) <= 104 / 100 * (m * u) * Rabs (/ z) * (102 / 100)).
    { replace (/ b - / z) with ((z - b) * (/ b * / z)) by (field; split; assumption). rewrite Rabs_mult, <- Rabs_Ropp. replace (- (z - b)) with (b - z) by lra.
      rewrite Rabs_mult, !Rabs_inv. assert (0 < Rabs z) by (apply Rabs_pos_lt; exact Z0). assert (0 < Rabs b) by (apply Rabs_pos_lt; exact b0).
      assert (IB : / Rabs b <= 102 / 100 * / Rabs z).
      { apply Rmult_le_reg_r with (Rabs b); [assumption|]. rewrite Rinv_l by lra. apply Rle_trans with (102 / 100 * / Rabs z * (99 / 100 * Rabs z)); [|apply Rmult_le_compat_l; [|exact Bz]].
        - replace (102 / 100 * / Rabs z * (99 / 100 * Rabs z)) with (102 / 100 * (99 / 100)) by (field; lra). lra.
        - apply Rmult_le_pos; [lra|]. left. apply Rinv_0_lt_compat. assumption. }
      assert (0 < / Rabs z) by (apply Rinv_0_lt_compat; assumption). assert (0 < / Rabs b) by (apply Rinv_0_lt_compat; assumption).
      apply Rle_trans with (102 / 100 * (m * u) * Rabs z * (102 / 100 * / Rabs z * / Rabs z)).
      - apply Rmult_le_compat; [apply Rabs_pos|apply Rmult_le_pos; lra|exact D|apply Rmult_le_compat_r; lra].
      - replace (102 / 100 * (m * u) * Rabs z * (102 / 100 * / Rabs z * / Rabs z)) with (102 / 100 * (102 / 100) * (m * u * / Rabs z)) by (field; lra).
        assert (0 <= m * u * / Rabs z) by (apply Rmult_le_pos; lra). lra. }
    assert (Riz : bpow (3 - emax) <= Rabs (/ z) <= bpow (emax - 3)).
    { rewrite Rabs_inv. replace (3 - emax)%Z with (- (emax - 3))%Z in * by lia. rewrite bpow_opp in *. pose proof (bpow_gt_0 radix2 (emax - 3)).
      split; [apply Rinv_le; lra|]. rewrite <- (Rinv_inv (bpow (emax - 3))). apply Rinv_le; [apply Rinv_0_lt_compat; assumption|apply Rg]. }
    set (w := / z) in *. assert (Mw : m * u * Rabs w <= / 200 * Rabs w) by (apply Rmult_le_compat_r; [apply Rabs_pos|lra]).
    assert (T1 : Rabs (/ b) <= Rabs w + Rabs (/ b - w)) by (replace (/ b) with (w + (/ b - w)) at 1 by lra; apply Rabs_triang).
    assert (T2 : Rabs w <= Rabs (/ b) + Rabs (/ b - w)) by (replace w with (/ b + - (/ b - w)) at 1 by lra; rewrite <- (Rabs_Ropp (/ b - w)); apply Rabs_triang).
    assert (D2 : forall k, bpow (k + 1) = 2 * bpow k) by (intros k; rewrite bpow_plus; change (bpow 1) with 2; lra).
    pose proof (D2 (emax - 3)%Z) as E1. pose proof (D2 (2 - emax)%Z) as E2. replace (2 - emax + 1)%Z with (3 - emax)%Z in E2 by lia.
    destruct (fdiv_ok (of_Z 1) (pow_pos x p) F1) as [Ed Fd]; [exact b0| |].
    { fold b. rewrite V1. unfold Rdiv. rewrite Rmult_1_l. apply Rle_trans with (bpow (emax - 3 + 1)); [lra|apply bpow_le; lia]. }
    exists (fdiv (of_Z 1) (pow_pos x p)). split; [|split; [exact Fd|]].
    + assert (M : (Z.neg p =? - 2 ^ 31)%Z = false) by (apply Z.eqb_neq; lia). rewrite M. change (Z.neg p =? 0)%Z with false. unfold pow_integral. rewrite M.
      rewrite feq_spec by (reflexivity || assumption). rewrite Req_bool_false; [reflexivity|exact NZ].
    + rewrite Ed, V1. unfold Rdiv. rewrite Rmult_1_l. fold b.
      pose proof (rel_rnd (/ b) ltac:(lra)) as RR. unfold rel in RR. rewrite pow_1 in RR. replace (1 + u - 1) with u in RR by lra.
      replace (rnd (/ b) - w) with ((rnd (/ b) - / b) + (/ b - w)) by lra. eapply Rle_trans; [apply Rabs_triang|].
      assert (u * Rabs (/ b) <= u * (2 * Rabs w)) by (apply Rmult_le_compat_l; lra). assert (0 <= m * u * Rabs w) by (apply Rmult_le_pos; [exact MU|apply Rabs_pos]). lra.
Qed.

(** ** Exponents of floating type. *)
Variables e ln2 : fl.
Hypothesis (Fe : is_finite e = true) (Ce : best_constant prec (v e) (exp 1)).
Hypothesis (F2 : is_finite ln2 = true) (C2 : good_constant prec (v ln2) (ln 2)).

Theorem pow_real_spec (p : fl) : is_finite p = true -> 0 < v x -> Rabs (v p * ln (v x)) <= 11 / 16 * IZR emax - 5 -> Rabs (v p) * log_accuracy prec (v x) <= / 1000 ->
  exists y, eventually (fun fuel => fpow fuel e ln2 x p) (FVal y) /\ is_finite y = true /\
    Rabs (v y - Rpower (v x) (v p)) <= real_power_accuracy prec (v x) (v p) * Rpower (v x) (v p).
Proof.
  intros Fp Px B Sm. pose proof (u_tiny Sup) as U. destruct (one_v Sup) as [V1 F1]. assert (P24 : 24 <= IZR prec) by (apply IZR_le; lia).
  assert (F0 : is_finite (fzero : fl) = true) by reflexivity. assert (V0 : v fzero = 0) by reflexivity.
  assert (LA : 0 <= log_accuracy prec (v x)).
  { unfold log_accuracy, unit_error. pose proof (Rabs_pos (ln (v x))). pose proof (Rle_0_sqr (ln (v x))) as Q. unfold Rsqr in Q. apply Rmult_le_pos; lra. }
  assert (RA : 0 <= real_power_accuracy prec (v x) (v p)).
  { unfold real_power_accuracy, unit_error. pose proof (Rabs_pos (v p * ln (v x))). pose proof (Rabs_pos (v p)). apply Rplus_le_le_0_compat; [apply Rmult_le_pos; lra|].
    apply Rmult_le_pos; [lra|exact LA]. }
  assert (Ex : forall z, z = Rpower (v x) (v p) -> Rabs (z - Rpower (v x) (v p)) <= real_power_accuracy prec (v x) (v p) * Rpower (v x) (v p)).
  { intros z ->. rewrite Rminus_diag_eq, Rabs_R0 by reflexivity. apply Rmult_le_pos; [exact RA|left; apply exp_pos]. }
  assert (Red : forall fuel, fpow fuel e ln2 x p = if Req_bool (v x) 1 then FVal (of_Z 1) else if Req_bool (v p) 1 then FVal x else
    fbind (flog fuel e ln2 x) (fun l => fexp fuel e (fmul l p))).
  { intros fuel. unfold fpow. rewrite (finite_inf x Fx), !(finite_eq_inf p), !feq_spec, flt_spec, V1, V0, (Rlt_bool_true 0) by assumption. reflexivity. }
  destruct (Req_dec (v x) 1) as [O|O].
  { exists (of_Z 1). split; [exists 0%nat; intros fuel _; rewrite Red, Req_bool_true by exact O; reflexivity|]. split; [exact F1|]. apply Ex.
    rewrite O, V1. unfold Rpower. rewrite ln_1, Rmult_0_r, exp_0. reflexivity. }
  destruct (Req_dec (v p) 1) as [O'|O'].
  { exists x. split; [exists 0%nat; intros fuel _; rewrite Red, Req_bool_false, Req_bool_true by assumption; reflexivity|]. split; [exact Fx|]. apply Ex.
    rewrite O', Rpower_1 by exact Px. reflexivity. }
  destruct (log_spec Sup ln2 F2 C2 e Fe Ce x Fx Px) as (l & [N Rl] & Fl & El). set (z := v p * ln (v x)) in *.
  assert (IE : 65 <= IZR emax <= 20000) by (split; apply IZR_le; lia).
  assert (u24 : u <= / 16000000) by (apply Rle_trans with (bpow (-24)); [apply bpow_le; lia|simpl; lra]).
  assert (zu : Rabs z * u <= 13750 * / 16000000) by (apply Rmult_le_compat; [apply Rabs_pos|lra|lra|exact u24]).
  set (a := Rabs (v p) * log_accuracy prec (v x)) in *.
  assert (D1 : Rabs (v l * v p - z) <= a).
  { unfold z, a. replace (v l * v p - v p * ln (v x)) with (v p * (v l - ln (v x))) by lra. rewrite Rabs_mult. apply Rmult_le_compat_l; [apply Rabs_pos|exact El]. }
  assert (T1 : Rabs (v l * v p) <= Rabs z + / 1000).
  { replace (v l * v p) with (z + (v l * v p - z)) by lra. eapply Rle_trans; [apply Rabs_triang|]. lra. }
  assert (Bm : Rabs (v l * v p) <= bpow (emax - 1)) by (apply Rle_trans with (bpow 20); [simpl; lra|apply bpow_le; lia]).
  destruct (fmul_ok l p Fl Fp Bm) as [Em Fm]. pose proof (ap_rnd0 (prec := prec) (emax := emax) (v l * v p)) as A. unfold ap in A. rewrite <- Em in A.
  pose proof (h_le Sup) as HL. set (w := fmul l p) in *.
  assert (D2 : Rabs (v w - z) <= a + (Rabs z + / 1000) * u + u / 1000).
  { replace (v w - z) with ((v w - v l * v p) + (v l * v p - z)) by lra. eapply Rle_trans; [apply Rabs_triang|].
    assert (u * Rabs (v l * v p) <= u * (Rabs z + / 1000)) by (apply Rmult_le_compat_l; lra). lra. }
  set (d := v w - z) in *. assert (Bd : Rabs d <= / 400) by lra.
  assert (Bw : Rabs (v w) <= Rabs z + / 400) by (replace (v w) with (z + d) by (unfold d; lra); eapply Rle_trans; [apply Rabs_triang|]; lra).
  destruct (exp_run Sup e Fe Ce w Fm ltac:(lra)) as (y & [M Ry] & Fy & Py & Ey).
  exists y. split; [|split; [exact Fy|]].
  - exists (Nat.max N M). intros fuel Hf. rewrite Red, !Req_bool_false by assumption. rewrite (Rl fuel) by lia. cbn [fbind]. apply Ry. lia.
  - unfold Rpower. fold z. unfold tol in Ey.
    replace (v w) with (z + d) in Ey at 1 3 by (unfold d; lra). rewrite exp_plus in Ey. pose proof (exp_small d ltac:(lra)) as XS. apply Rabs_le_inv in XS.
    pose proof (exp_pos z) as PZ. assert (TW : exp_accuracy prec (v w) <= (8 * IZR prec + 4 * Rabs z + 74) * u).
    { unfold exp_accuracy, unit_error. apply Rmult_le_compat_r; lra. }
    assert (TP : 0 <= exp_accuracy prec (v w)) by (unfold exp_accuracy, unit_error; pose proof (Rabs_pos (v w)); apply Rmult_le_pos; lra).
    replace (v y - exp z) with ((v y - exp z * exp d) + exp z * (exp d - 1)) by lra. eapply Rle_trans; [apply Rabs_triang|].
    rewrite Rabs_mult, (Rabs_pos_eq (exp z)) by lra.
    assert (E2 : exp z * Rabs (exp d - 1) <= exp z * (102 / 100 * (a + (Rabs z + / 1000) * u + u / 1000))).
    { apply Rmult_le_compat_l; [lra|]. eapply Rle_trans; [apply exp_small; lra|]. lra. }
    assert (E3 : exp_accuracy prec (v w) * (exp z * exp d) <= (8 * IZR prec + 4 * Rabs z + 74) * u * (exp z * (101 / 100))).
    { pose proof (exp_pos d). apply Rmult_le_compat; [exact TP|apply Rmult_le_pos; lra|exact TW|apply Rmult_le_compat_l; lra]. }
    assert (Fin : (8 * IZR prec + 4 * Rabs z + 74) * u * (101 / 100) + 102 / 100 * (a + (Rabs z + / 1000) * u + u / 1000) <= real_power_accuracy prec (v x) (v p)).
    { unfold real_power_accuracy, unit_error. fold z. replace (11 / 10 * Rabs (v p) * log_accuracy prec (v x)) with (11 / 10 * a) by (unfold a; lra).
      assert (0 <= a) by (apply Rmult_le_pos; [apply Rabs_pos|exact LA]). assert (0 <= Rabs z * u) by (apply Rmult_le_pos; [apply Rabs_pos|lra]).
      assert (24 * u <= IZR prec * u) by (apply Rmult_le_compat_r; lra). lra. }
    apply Rle_trans with (((8 * IZR prec + 4 * Rabs z + 74) * u * (101 / 100) + 102 / 100 * (a + (Rabs z + / 1000) * u + u / 1000)) * exp z); [lra|].
    apply Rmult_le_compat_r; lra.
Qed.
End Fmt.
