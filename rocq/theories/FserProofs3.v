(** The series of exp and expm1 on [0, 1]: it ends, and how far the result is from the exact value. *)
From Coq Require Import ZArith Reals Lra Lia Bool.
From Flocq Require Import Core Plus_error Relative IEEE754.BinarySingleNaN.
From Verif Require Import FloatModel FloatProofs1 FloatProofs2 FserModel FserProofs1 FserProofs2.
Local Open Scope R_scope.

(** ** The exact series *)
Definition ea (x : R) (n : nat) : R := x ^ S n / INR (fact (S n)).
Lemma ea_step x n : ea x (S n) = ea x n * (x / IZR (Z.of_nat n + 2)).
Proof.
  unfold ea. change (fact (S (S n))) with (S (S n) * fact (S n))%nat. rewrite mult_INR. replace (IZR (Z.of_nat n + 2)) with (INR (S (S n))) by (rewrite INR_IZR_INZ; f_equal; lia).
  cbn [pow]. field. split; [apply not_0_INR; lia | apply INR_fact_neq_0].
Qed.
Lemma ea_lim x : Un_cv (psum (ea x)) (exp x - 1).
Proof.
  pose proof (proj2_sig (exist_exp x)) as E. fold (exp x) in E. unfold exp_in, infinite_sum in E. cbn beta in E.
  assert (S : forall n, sum_f_R0 (fun i => / INR (fact i) * x ^ i) n = 1 + psum (ea x) n).
  { induction n as [|n IH]; [cbn; lra |]. rewrite tech5, IH. cbn [psum]. unfold ea, Rdiv. ring. }
  intros eps P. destruct (E eps P) as (N & HN). exists N. intros n Ln. specialize (HN n Ln). rewrite S in HN. unfold R_dist in *.
  change (proj1_sig (exist_exp x)) with (exp x) in HN. now replace (psum (ea x) n - (exp x - 1)) with (1 + psum (ea x) n - exp x) by ring.
Qed.
Lemma ea_pos x n : 0 <= x -> 0 <= ea x n.
Proof. intros H. unfold ea. apply Rmult_le_pos; [now apply pow_le | left; apply Rinv_0_lt_compat, INR_fact_lt_0]. Qed.
Lemma ratio x n : 0 <= x <= 1 -> 0 <= x / IZR (Z.of_nat n + 2) <= / 2.
Proof.
  intros H. assert (P : 2 <= IZR (Z.of_nat n + 2)) by (apply IZR_le; lia). split; [apply Rmult_le_pos; [lra | left; apply Rinv_0_lt_compat; lra] |].
  apply Rle_trans with (1 / IZR (Z.of_nat n + 2)); [apply Rmult_le_compat_r; [left; apply Rinv_0_lt_compat; lra | lra] |].
  unfold Rdiv. rewrite Rmult_1_l. apply Rinv_le; lra.
Qed.
Lemma ea_le x n : 0 <= x <= 1 -> ea x n <= x * (/ 2) ^ n.
Proof.
  intros H. induction n as [|n IH]; [unfold ea; cbn; lra |]. rewrite ea_step. cbn [pow]. pose proof (ratio x n H). pose proof (ea_pos x n ltac:(lra)).
  apply Rle_trans with (ea x n * / 2); [apply Rmult_le_compat_l; lra |]. lra.
Qed.
Lemma ea_sum x n : 0 <= x <= 1 -> 0 <= psum (ea x) n <= 2 * x * (1 - (/ 2) ^ n).
Proof.
  intros H. induction n as [|n IH]; [cbn; lra |]. cbn [psum pow]. pose proof (ea_le x n H). pose proof (ea_pos x n ltac:(lra)). lra.
Qed.
Lemma ea_sum2 x n : 0 <= x <= 1 -> 0 <= psum (ea x) n <= 2 * x.
Proof. intros H. pose proof (ea_sum x n H). assert (0 <= (/ 2) ^ n) by (apply pow_le; lra). assert (0 <= 2 * x * (/ 2) ^ n) by (apply Rmult_le_pos; lra). lra. Qed.

Section Fmt.
Context {prec emax : Z} {Hp : Prec_gt_0 prec} {Hx : Prec_lt_emax prec emax}.
Notation fl := (binary_float prec emax).
Notation emin := (3 - emax - prec)%Z.
Notation fexp := (FLT_exp emin prec).
Notation F := (generic_format radix2 fexp).
Notation rnd := (round radix2 fexp ZnearestE).
Notation bpow := (bpow radix2).
Notation v := (@B2R prec emax).
Hypothesis (Hprec : (8 <= prec)%Z) (Hemax : (65 <= emax)%Z) (Hpx : (prec + 40 <= emax)%Z) (Hbig : (emax + prec <= 20000)%Z).
Notation u := (bpow (- prec)).
Notation h := (bpow (emin - 1)).
Local Notation N := (Z.to_nat (emax + prec)).

(** ** Steps *)
Lemma Z_big (m : Z) : (Z.abs m <= 2 ^ 31)%Z -> Rabs (IZR m) <= bpow (emax - 1).
Proof.
  intros L. rewrite <- abs_IZR. apply Rle_trans with (bpow 31); [change (bpow 31) with (IZR (2 ^ 31)); now apply IZR_le | apply bpow_le; lia].
Qed.
Lemma mul_step (p x : fl) b c : is_finite p = true -> is_finite x = true -> Rabs (v p) <= bpow b -> Rabs (v x) <= bpow c -> (b + c <= emax - 1)%Z ->
  is_finite (fmul p x) = true /\ v (fmul p x) = rnd (v p * v x) /\ forall k, (emin <= k)%Z -> (b + c <= k)%Z -> Rabs (v (fmul p x)) <= bpow k.
Proof.
  intros Fp Fx Bp Bx L. assert (B : Rabs (v p * v x) <= bpow (b + c)) by (rewrite bpow_plus; now apply abs_mult_le).
  destruct (fmul_ok p x Fp Fx) as [V Ff]; [eapply Rle_trans; [exact B | now apply bpow_le] |]. split; [exact Ff |]. split; [exact V |].
  intros k K1 K2. rewrite V. apply rnd_abs; [exact K1 |]. eapply Rle_trans; [exact B | now apply bpow_le].
Qed.
Lemma div_step (p : fl) (m g b : Z) : is_finite p = true -> Rabs (v p) <= bpow b -> (0 <= g)%Z -> (2 ^ g <= Z.abs m <= 2 ^ 31)%Z -> (b <= emax - 1)%Z ->
  let q := fdiv p (of_Z m) in is_finite q = true /\ v q = rnd (v p / rnd (IZR m)) /\
    (forall k, (emin <= k)%Z -> (b - g <= k)%Z -> Rabs (v q) <= bpow k) /\ ((b - g < emin - 1)%Z -> v q = 0).
Proof.
  intros Fp Bp G [Lm Um] Lb. cbv zeta. destruct (of_Z_ok m (Z_big m Um)) as [Vm _].
  assert (M : bpow g <= Rabs (rnd (IZR m))).
  { assert (GF : F (bpow g)) by (apply F_bpow; [exact Hp | lia]). assert (E : bpow g = IZR (2 ^ g)) by (symmetry; now apply IZR_pow2). destruct (Z.abs_eq_or_opp m) as [A|A]; rewrite A in Lm.
    - rewrite Rabs_pos_eq; [apply rnd_ge; auto; rewrite E; now apply IZR_le |]. apply Rle_trans with (bpow g); [apply bpow_ge_0 |]. apply rnd_ge; auto. rewrite E. now apply IZR_le.
    - replace m with (- - m)%Z by lia. rewrite opp_IZR, rnd_opp, Rabs_Ropp. apply Rle_trans with (rnd (IZR (- m))); [| apply Rle_abs]. apply rnd_ge; auto. rewrite E. now apply IZR_le. }
  assert (Mp : 0 < Rabs (rnd (IZR m))) by (pose proof (bpow_gt_0 radix2 g); lra).
  assert (Mn : rnd (IZR m) <> 0) by (intros E; rewrite E, Rabs_R0 in Mp; lra).
  assert (B : Rabs (v p / rnd (IZR m)) <= bpow (b - g)).
  { unfold Rdiv, Zminus. rewrite Rabs_mult, Rabs_inv, bpow_plus, bpow_opp. apply Rmult_le_compat; [apply Rabs_pos | left; now apply Rinv_0_lt_compat | exact Bp |].
    apply Rinv_le; [apply bpow_gt_0 | exact M]. }
  destruct (fdiv_ok p (of_Z m) Fp) as [V Ff]; [now rewrite Vm | rewrite Vm; eapply Rle_trans; [exact B | apply bpow_le; lia] |].
  rewrite Vm in V. split; [exact Ff |]. split; [exact V |]. split.
  - intros k K1 K2. rewrite V. apply rnd_abs; [exact K1 |]. eapply Rle_trans; [exact B | now apply bpow_le].
  - intros K. rewrite V. apply rnd_zero. eapply Rle_lt_trans; [exact B |]. now apply bpow_lt.
Qed.

Lemma usq : u * u <= / 256 * u.
Proof. apply Rmult_le_compat_r; [apply bpow_ge_0 |]. apply Rle_trans with (bpow (-8)); [apply bpow_le; lia | simpl; lra]. Qed.
Lemma u256 : 0 < u <= / 256.
Proof. split; [apply bpow_gt_0 |]. apply Rle_trans with (bpow (-8)); [apply bpow_le; lia | simpl; lra]. Qed.
Lemma prec_u : IZR prec * u <= / 32.
Proof.
  assert (G : forall n, IZR (8 + Z.of_nat n) * bpow (- (8 + Z.of_nat n)) <= / 32).
  { induction n as [|n IH]; [simpl; lra |]. replace (- (8 + Z.of_nat (S n)))%Z with (- (8 + Z.of_nat n) + -1)%Z by lia. rewrite bpow_plus. simpl (bpow (-1)).
    pose proof (bpow_gt_0 radix2 (- (8 + Z.of_nat n))). replace (8 + Z.of_nat (S n))%Z with (8 + Z.of_nat n + 1)%Z by lia. rewrite plus_IZR. set (z := IZR (8 + Z.of_nat n)) in *.
    assert (8 <= z) by (apply IZR_le; lia). set (q := bpow (- (8 + Z.of_nat n))) in *. assert (1 * q <= z * q) by (apply Rmult_le_compat_r; lra). lra. }
  specialize (G (Z.to_nat (prec - 8))). now replace (8 + Z.of_nat (Z.to_nat (prec - 8)))%Z with prec in G by lia.
Qed.
Lemma prec_INR : INR (2 * Z.to_nat prec) = 2 * IZR prec.
Proof. rewrite mult_INR, INR_IZR_INZ, INR_IZR_INZ, Z2Nat.id by lia. simpl (IZR (Z.of_nat 2)). reflexivity. Qed.
Lemma N_h : 0 < h /\ INR (S N) * h <= bpow (-23) * (u * u).
Proof.
  split; [apply bpow_gt_0 |]. apply Rle_trans with (bpow 15 * h).
  - apply Rmult_le_compat_r; [apply bpow_ge_0 |]. change (bpow 15) with (IZR 32768). rewrite INR_IZR_INZ. apply IZR_le. lia.
  - rewrite <- !bpow_plus. apply bpow_le. lia.
Qed.
Lemma ap_two (n : Z) t x : (2 <= n)%Z -> ap (4 * u) (2 * h) (t * (x / IZR n)) (rnd (rnd (t * x) / rnd (IZR n))).
Proof.
  intros Hn. pose proof u256 as U. pose proof usq as U2. pose proof (h_pos (prec := prec) (emax := emax)) as Hh.
  pose proof (ap_rnd (prec := prec) (emax := emax) 0 0 (t * x) (t * x) ltac:(lra) ltac:(lra) (ap_refl _)) as A1.
  apply (ap_weak _ _ u h) in A1; [| lra | lra].
  pose proof (ap_div (prec := prec) (emax := emax) ltac:(lia) ltac:(lia) n u h (t * x) _ ltac:(lra) ltac:(lra) ltac:(lia) A1) as A2.
  assert (h / IZR n <= h / 2).
  { apply Rmult_le_compat_l; [lra |]. assert (2 <= IZR n) by now apply IZR_le. apply Rinv_le; lra. }
  apply (ap_weak _ _ (21 / 10 * u) (2 / 3 * h)) in A2; [| lra | lra].
  pose proof (ap_rnd (prec := prec) (emax := emax) (21 / 10 * u) (2 / 3 * h) _ _ ltac:(lra) ltac:(lra) A2) as A3.
  replace (t * (x / IZR n)) with (t * x / IZR n) by (unfold Rdiv; ring).
  apply (ap_weak _ _ (4 * u) (2 * h)) in A3; [exact A3 | lra |].
  assert (u * h <= / 256 * h) by (apply Rmult_le_compat_r; lra). lra.
Qed.

(** ** The terms *)
Section Exp.
Variable x : fl.
Hypothesis (Fx : is_finite x = true) (Rx : 0 <= v x <= 1).
Fixpoint et (n : nat) : fl := match n with O => x | S n' => fdiv (fmul (et n') x) (of_Z (1 + Z.of_nat n' + 1)) end.
Lemma x1 : Rabs (v x) <= bpow 0.
Proof. rewrite Rabs_pos_eq by lra. simpl. lra. Qed.
Lemma et_step n b : (n < N)%nat -> (emin <= b <= 0)%Z -> is_finite (et n) = true -> Rabs (v (et n)) <= bpow b ->
  is_finite (et (S n)) = true /\ v (et (S n)) = rnd (rnd (v (et n) * v x) / rnd (IZR (Z.of_nat n + 2))) /\ Rabs (v (et (S n))) <= bpow b /\
  ((2 <= n)%nat -> (emin < b)%Z -> Rabs (v (et (S n))) <= bpow (b - 1)) /\ ((2 <= n)%nat -> b = emin -> v (et (S n)) = 0).
Proof.
  intros Ln Hb Fn Bn. destruct (mul_step (et n) x b 0 Fn Fx Bn x1 ltac:(lia)) as (Fm & Vm & Bm). specialize (Bm b ltac:(lia) ltac:(lia)).
  cbn [et]. set (p := fmul (et n) x) in *. replace (1 + Z.of_nat n + 1)%Z with (Z.of_nat n + 2)%Z by lia.
  assert (U : (Z.of_nat n + 2 <= 2 ^ 31)%Z) by (change (2 ^ 31)%Z with 2147483648%Z; lia).
  destruct (div_step p (Z.of_nat n + 2) 0 b Fm Bm ltac:(lia) ltac:(split; [change (2 ^ 0)%Z with 1%Z; lia | lia]) ltac:(lia)) as (Fq & Vq & Bq & _).
  split; [exact Fq |]. split; [rewrite Vq, Vm; reflexivity |]. split; [apply Bq; lia |].
  split; intros L2 Eb.
  - destruct (div_step p (Z.of_nat n + 2) 2 b Fm Bm ltac:(lia) ltac:(split; [change (2 ^ 2)%Z with 4%Z; lia | lia]) ltac:(lia)) as (_ & _ & B2 & _). apply B2; lia.
  - destruct (div_step p (Z.of_nat n + 2) 2 b Fm Bm ltac:(lia) ltac:(split; [change (2 ^ 2)%Z with 4%Z; lia | lia]) ltac:(lia)) as (_ & _ & _ & Z2). apply Z2; lia.
Qed.
Lemma et_bound n : (n <= N)%nat -> is_finite (et n) = true /\ Rabs (v (et n)) <= bpow (Z.max emin (Z.min 0 (2 - Z.of_nat n))).
Proof.
  induction n as [|n IH]; intros Ln.
  - cbn [et]. split; [exact Fx |]. rewrite Z.min_l, Z.max_r by lia. exact x1.
  - destruct (IH ltac:(lia)) as [Fn Bn]. destruct (et_step n (Z.max emin (Z.min 0 (2 - Z.of_nat n))) ltac:(lia) ltac:(lia) Fn Bn) as (FS & _ & B1 & B2 & _). split; [exact FS |].
    destruct (le_lt_dec 2 n) as [L2|L2]; [| eapply Rle_trans; [exact B1 |]; apply bpow_le; lia].
    destruct (Z_le_gt_dec (Z.max emin (Z.min 0 (2 - Z.of_nat n))) emin) as [C|C].
    + eapply Rle_trans; [exact B1 |]. apply bpow_le. lia.
    + eapply Rle_trans; [apply B2; lia |]. apply bpow_le. lia.
Qed.
Lemma et_end : v (et N) = 0.
Proof.
  destruct N as [|n] eqn:E; [lia |]. destruct (et_bound n ltac:(lia)) as [Fn Bn].
  destruct (et_step n (Z.max emin (Z.min 0 (2 - Z.of_nat n))) ltac:(lia) ltac:(lia) Fn Bn) as (_ & _ & _ & _ & Z0). apply Z0; lia.
Qed.
Lemma et_small n : (n <= N)%nat -> is_finite (et n) = true /\ Rabs (v (et n)) <= bpow 0.
Proof. intros Ln. destruct (et_bound n Ln) as [A B]. split; [exact A |]. eapply Rle_trans; [exact B |]. apply bpow_le. lia. Qed.
Lemma et_ap n : (n < N)%nat -> ap (4 * u) (2 * h) (v (et n) * (v x / IZR (Z.of_nat n + 2))) (v (et (S n))).
Proof.
  intros Ln. destruct (et_bound n ltac:(lia)) as [Fn Bn]. destruct (et_step n (Z.max emin (Z.min 0 (2 - Z.of_nat n))) ltac:(lia) ltac:(lia) Fn Bn) as (_ & -> & _). apply ap_two. lia.
Qed.

Lemma hr i : (1 + 4 * u) * Rabs (v x / IZR (Z.of_nat i + 2)) * 1 <= 5 / 8 * 1.
Proof.
  pose proof u256. pose proof (ratio (v x) i Rx). rewrite Rabs_pos_eq by lra. set (r := v x / IZR (Z.of_nat i + 2)) in *. assert (4 * u * r <= 4 * / 256 * / 2) by (apply Rmult_le_compat; lra). lra.
Qed.
Lemma a0 : Rabs (ea (v x) 0) = v x.
Proof. unfold ea. cbn. rewrite Rabs_pos_eq by lra. lra. Qed.
Lemma et_ap0 : ap (4 * u) (2 * h) (ea (v x) 0) (v (et 0)).
Proof.
  pose proof (bpow_gt_0 radix2 (emin - 1)). pose proof u256. apply (ap_weak 0 0); [lra | lra |]. replace (ea (v x) 0) with (v (et 0)) by (unfold ea; cbn; lra). apply ap_refl.
Qed.
Definition exp_error : R := 2 * IZR prec * (15 / 4 * u) + 64 * u.
Theorem exp_series_sums M : (M <= N)%nat -> still et (of_Z 1) M -> is_finite (sums et (of_Z 1) M) = true /\ Rabs (v (sums et (of_Z 1) M) - exp (v x)) <= exp_error.
Proof.
  intros LM St. pose proof u256 as U. pose proof usq as U2. pose proof prec_u as PU. destruct N_h as [Hh Nh]. simpl (bpow (-23)) in Nh.
  destruct (of_Z_ok 1) as [V1 F1]; [apply Z_big; lia |]. assert (E1 : v (of_Z 1) = 1) by (rewrite V1; apply rnd_F, (F_bpow _ _ 0); lia).
  assert (HB : h <= / 1024 * u) by (rewrite S_INR in Nh; pose proof (pos_INR N); assert (0 <= INR N * h) by (apply Rmult_le_pos; lra); lra).
  assert (tot : 8 * (4 * u * (1 * Rabs (ea (v x) 0))) + INR (2 * Z.to_nat prec) * (u * (5 / 4 * 3)) + 16 / 3 * u * (1 * Rabs (ea (v x) 0)) + 2 * INR (S N) * (8 / 3 * (1 * (2 * h)))
     <= 2 * IZR prec * (15 / 4 * u) + 75 / 2 * u).
  { rewrite a0, prec_INR. assert (u * (v x) <= u * 1) by (apply Rmult_le_compat_l; lra). lra. }
  destruct (series_error (prec := prec) (emax := emax) ltac:(lia) et (of_Z 1) 0 N (ea (v x)) (fun n => v x / IZR (Z.of_nat n + 2)) (fun _ => 1) (4 * u) (2 * h) 1 3 (exp (v x) - 1)) with (M := M) as [FM EM]; try lia; try lra; try assumption.
  - rewrite E1, Rabs_pos_eq by lra. simpl. lra.
  - apply et_small.
  - apply et_end.
  - intros i. lra.
  - intros i. apply hr.
  - intros i. apply ea_step.
  - apply et_ap.
  - apply et_ap0.
  - intros n. rewrite E1. pose proof (ea_sum2 (v x) n Rx). rewrite Rabs_pos_eq; lra.
  - apply ea_lim.
  - split; [exact FM |]. rewrite E1 in EM. replace (1 + (exp (v x) - 1)) with (exp (v x)) in EM by ring. eapply Rle_trans; [exact EM |]. unfold exp_error.
    eapply Rle_trans; [apply Rplus_le_compat_r, tot |]. rewrite a0. assert (u * (v x) <= u * 1) by (apply Rmult_le_compat_l; lra). lra.
Qed.
Theorem exp_series_partial : exists y, is_finite y = true /\ Rabs (v y - exp (v x)) <= exp_error /\
  forall fuel, (N <= fuel)%nat -> exp_series fuel 1 x (of_Z 1) x = FVal y.
Proof.
  destruct (exp_loop 1 x (of_Z 1) et (fun n => eq_refl) N 0) as (M & LM & SM & R).
  - destruct (of_Z_ok 1) as [V1 F1]; [apply Z_big; lia |]. assert (E1 : v (of_Z 1) = 1) by (rewrite V1; apply rnd_F, (F_bpow _ _ 0); lia).
    apply (still_end et (of_Z 1) 0 N); try lia; auto.
    + rewrite E1, Rabs_pos_eq by lra. simpl. lra.
    + apply et_small.
    + apply et_end.
  - unfold int_max. change (2 ^ 31)%Z with 2147483648%Z. lia.
  - destruct (exp_series_sums M ltac:(lia) SM) as [FM EM]. exists (sums et (of_Z 1) M). split; [exact FM |]. split; [exact EM |]. intros fuel L. exact (R fuel L).
Qed.

Definition expm1_error : R := 2 * IZR prec * (5 / 2 * u) + 61 * u.
Theorem expm1_series_sums M : u / 4 <= v x -> (M <= N)%nat -> still et fzero M -> is_finite (sums et fzero M) = true /\ Rabs (v (sums et fzero M) - (exp (v x) - 1)) <= expm1_error * v x.
Proof.
  intros Lx LM St. pose proof u256 as U. pose proof usq as U2. pose proof prec_u as PU. destruct N_h as [Hh Nh]. simpl (bpow (-23)) in Nh.
  assert (UX : u * u <= 4 * (u * v x)) by (pose proof (Rmult_le_compat_l u (u / 4) (v x) ltac:(lra) Lx); lra).
  assert (HB : h <= / 1024 * (u * v x)) by (rewrite S_INR in Nh; pose proof (pos_INR N); assert (0 <= INR N * h) by (apply Rmult_le_pos; lra); lra).
  assert (PUX : IZR prec * u * v x <= / 32 * v x) by (apply Rmult_le_compat_r; lra).
  assert (UX2 : u * v x <= / 256 * v x) by (apply Rmult_le_compat_r; lra).
  assert (tot : 8 * (4 * u * (1 * Rabs (ea (v x) 0))) + INR (2 * Z.to_nat prec) * (u * (5 / 4 * (2 * v x))) + 16 / 3 * u * (1 * Rabs (ea (v x) 0)) + 2 * INR (S N) * (8 / 3 * (1 * (2 * h)))
     <= 2 * IZR prec * (5 / 2 * u) * v x + 75 / 2 * (u * v x)).
  { rewrite a0, prec_INR. lra. }
  destruct (series_error (prec := prec) (emax := emax) ltac:(lia) et fzero 0 N (ea (v x)) (fun n => v x / IZR (Z.of_nat n + 2)) (fun _ => 1) (4 * u) (2 * h) 1 (2 * v x) (exp (v x) - 1)) with (M := M) as [FM EM]; try lia; try lra; try assumption; try reflexivity.
  - change (v fzero) with 0. rewrite Rabs_R0. simpl. lra.
  - apply et_small.
  - apply et_end.
  - intros i. lra.
  - intros i. apply hr.
  - intros i. apply ea_step.
  - apply et_ap.
  - apply et_ap0.
  - intros n. change (v fzero) with 0. pose proof (ea_sum2 (v x) n Rx). rewrite Rplus_0_l, Rabs_pos_eq; lra.
  - apply ea_lim.
  - split; [exact FM |]. change (v fzero) with 0 in EM. rewrite Rplus_0_l in EM. eapply Rle_trans; [exact EM |]. unfold expm1_error.
    eapply Rle_trans; [apply Rplus_le_compat_r, tot |]. rewrite a0. lra.
Qed.

(** A tiny addend is lost. *)
Lemma absorb (y t : R) (k : Z) : F y -> 0 < y -> bpow (k - 1) <= y -> (emin + 1 <= k - prec)%Z -> Rabs t <= bpow (k - prec - 3) -> rnd (y + t) = y.
Proof.
  intros Fy Py Ly Hk Lt. pose proof (bpow_gt_0 radix2 (k - prec - 3)) as P3. apply Rabs_le_inv in Lt.
  assert (U1 : bpow (k - prec) <= ulp radix2 fexp y).
  { rewrite ulp_neq_0 by lra. apply bpow_le. unfold cexp, FLT_exp. assert (k - 1 < mag radix2 y)%Z by (apply mag_gt_bpow; rewrite Rabs_pos_eq; lra). lia. }
  assert (E3 : bpow (k - prec) = 8 * bpow (k - prec - 3)) by (replace (k - prec)%Z with (k - prec - 3 + 3)%Z at 1 by lia; rewrite bpow_plus; simpl (bpow 3); lra).
  apply Rle_antisym.
  - apply round_N_le_midp; [apply FLT_exp_valid; exact Hp | exact Fy |]. rewrite succ_eq_pos by lra. lra.
  - assert (P1 : pred radix2 fexp y <= y - 4 * bpow (k - prec - 3)).
    { assert (E4 : bpow (k - prec - 1) = 4 * bpow (k - prec - 3)) by (replace (k - prec - 1)%Z with (k - prec - 3 + 2)%Z by lia; rewrite bpow_plus; simpl (bpow 2); lra).
      rewrite <- E4. rewrite pred_eq_pos by lra. unfold pred_pos. destruct (Req_bool_spec y (bpow (mag radix2 y - 1))) as [E|E].
      - assert (bpow (k - prec - 1) <= bpow (fexp (mag radix2 y - 1))); [| lra]. apply bpow_le. unfold FLT_exp. assert (k - 1 < mag radix2 y)%Z by (apply mag_gt_bpow; rewrite Rabs_pos_eq; lra). lia.
      - assert (bpow (k - prec - 1) <= bpow (k - prec)) by (apply bpow_le; lia). lra. }
    apply round_N_ge_midp; [apply FLT_exp_valid; exact Hp | exact Fy |]. lra.
Qed.
Lemma exp_tail : Rabs (v x - (exp (v x) - 1)) <= v x * v x.
Proof.
  pose proof (ea_lim (v x)) as L. pose proof (tail_bound (ea (v x)) (fun n => v x / IZR (Z.of_nat n + 2)) (fun _ => 1) 0 1) as T.
  (* psum 1 = x; bound the rest by twice the second term *)
  assert (B : forall n, Rabs (v x - psum (ea (v x)) (S n)) <= v x * v x).
  { assert (G : forall n, 0 <= psum (ea (v x)) (S n) - v x <= v x * v x * (1 - (/ 2) ^ n)).
    { induction n as [|n IH]; [unfold ea; cbn; lra |]. change (psum (ea (v x)) (S (S n))) with (psum (ea (v x)) (S n) + ea (v x) (S n)). cbn [pow].
      assert (ea (v x) (S n) <= v x * v x * (/ 2) ^ (S n)).
      { clear IH. induction n as [|n IH]; [unfold ea; cbn; lra |]. rewrite ea_step. pose proof (ratio (v x) (S n) Rx). pose proof (ea_pos (v x) (S n) ltac:(lra)).
        apply Rle_trans with (ea (v x) (S n) * / 2); [apply Rmult_le_compat_l; lra |]. cbn [pow] in *. lra. }
      pose proof (ea_pos (v x) (S n) ltac:(lra)). cbn [pow] in *. lra. }
    intros n. specialize (G n). assert (0 <= (/ 2) ^ n) by (apply pow_le; lra). assert (0 <= v x * v x * (/ 2) ^ n) by (apply Rmult_le_pos; [apply Rmult_le_pos; lra | auto]). apply Rabs_le. lra. }
  apply Rnot_lt_le. intros C. destruct (L (Rabs (v x - (exp (v x) - 1)) - v x * v x)) as (K & HK); [lra |]. specialize (HK (S K) ltac:(lia)). unfold R_dist in HK.
  specialize (B K). assert (D : Rabs (v x - (exp (v x) - 1)) <= Rabs (v x - psum (ea (v x)) (S K)) + Rabs (psum (ea (v x)) (S K) - (exp (v x) - 1))).
  { replace (v x - (exp (v x) - 1)) with ((v x - psum (ea (v x)) (S K)) + (psum (ea (v x)) (S K) - (exp (v x) - 1))) by ring. apply Rabs_triang. }
  lra.
Qed.
Lemma expm1_small : 0 < v x < u / 4 -> exists y, is_finite y = true /\ v y = v x /\ forall fuel, (1 <= fuel)%nat -> exp_series fuel 1 x fzero x = FVal y.
Proof.
  intros [Px Sx]. exists (fadd fzero x).
  assert (B0 : Rabs (v fzero + v x) <= bpow (emax - 1)) by (change (v fzero) with 0; rewrite Rplus_0_l, Rabs_pos_eq by lra; apply Rle_trans with (bpow 0); [simpl; lra | apply bpow_le; lia]).
  destruct (fadd_ok fzero x eq_refl Fx B0) as [V Ff]. change (v fzero) with 0 in V. rewrite Rplus_0_l, rnd_F in V by apply v_F. split; [exact Ff |]. split; [exact V |].
  assert (HN : (4 < N)%nat) by lia.
  set (k := mag radix2 (v x) : Z).
  assert (K1 : bpow (k - 1) <= v x < bpow k) by (unfold k; destruct (mag radix2 (v x)) as (k' & K'); cbn; pose proof (K' ltac:(lra)) as K3; rewrite Rabs_pos_eq in K3 by lra; exact K3).
  assert (K2 : (k <= - prec - 2)%Z).
  { assert (k - 1 < - prec - 2)%Z; [| lia]. apply (lt_bpow radix2). apply Rle_lt_trans with (v x); [apply K1 |]. replace (- prec - 2)%Z with (- prec + -2)%Z by lia. rewrite bpow_plus. simpl (bpow (-2)). lra. }
  assert (T1 : is_finite (et 1) = true /\ v (et 1) = rnd (rnd (v x * v x) / rnd (IZR 2))).
  { destruct (et_bound 0 ltac:(lia)) as [F0' B0']. destruct (et_step 0 0 ltac:(lia) ltac:(lia) F0' (x1 )) as (A & B & _). split; [exact A | exact B]. }
  destruct T1 as [FT VT].
  assert (S1 : rnd (v x + v (et 1)) = v x).
  { destruct (Z_lt_le_dec (2 * k) emin) as [C|C].
    - assert (Z0 : rnd (v x * v x) = 0).
      { apply rnd_zero. rewrite Rabs_pos_eq by (apply Rmult_le_pos; lra). apply Rlt_le_trans with (bpow (2 * k)); [| apply bpow_le; lia]. replace (2 * k)%Z with (k + k)%Z by lia. rewrite bpow_plus. apply Rmult_le_0_lt_compat; lra. }
      rewrite VT, Z0. unfold Rdiv. rewrite Rmult_0_l, round_0, Rplus_0_r by auto with typeclass_instances. apply rnd_F, v_F.
    - apply (absorb (v x) (v (et 1)) k); [apply v_F | exact Px | apply K1 | lia |].
      destruct (mul_step x x k k Fx Fx ltac:(rewrite Rabs_pos_eq; lra) ltac:(rewrite Rabs_pos_eq; lra) ltac:(lia)) as (Fm & Vm & Bm).
      specialize (Bm (2 * k)%Z ltac:(lia) ltac:(lia)).
      destruct (div_step (fmul x x) 2 1 (2 * k) Fm Bm ltac:(lia) ltac:(split; lia) ltac:(lia)) as (_ & _ & B & _).
      change (et 1) with (fdiv (fmul x x) (of_Z 2)). apply B; lia. }
  assert (BS : Rabs (v (fadd fzero x) + v (et 1)) <= bpow (emax - 1)).
  { rewrite V. destruct (et_small 1 ltac:(lia)) as [_ B1]. eapply Rle_trans; [apply Rabs_triang |]. rewrite (Rabs_pos_eq (v x)) by lra. change (bpow 0) with 1 in B1. apply Rle_trans with (bpow 1); [change (bpow 1) with 2; lra | apply bpow_le; lia]. }
  destruct (fadd_ok (fadd fzero x) (et 1) Ff FT BS) as [V2 F2]. rewrite V, S1 in V2.
  assert (Q1 : feq fzero (fadd fzero x) = false) by (rewrite feq_spec by auto; apply Req_bool_false; change (v fzero) with 0; rewrite V; lra).
  assert (Q2 : feq (fadd fzero x) (fadd (fadd fzero x) (et 1)) = true) by (rewrite feq_spec by auto; apply Req_bool_true; congruence).
  intros [|fuel] L; [lia |]. cbn [exp_series]. rewrite Q1. change (1 + 1 <=? int_max)%Z with true. cbn iota. change (fdiv (fmul x x) (of_Z (1 + 1))) with (et 1).
  destruct fuel; cbn [exp_series]; now rewrite Q2.
Qed.
Theorem expm1_series_partial : 0 < v x -> exists y, is_finite y = true /\ Rabs (v y - (exp (v x) - 1)) <= expm1_error * v x /\
  forall fuel, (N <= fuel)%nat -> exp_series fuel 1 x fzero x = FVal y.
Proof.
  intros Px. destruct (Rlt_le_dec (v x) (u / 4)) as [C|C].
  - destruct (expm1_small (conj Px C)) as (y & Fy & Vy & R). exists y. split; [exact Fy |]. split; [| intros fuel L; apply R; lia]. rewrite Vy. eapply Rle_trans; [apply exp_tail |].
    apply Rmult_le_compat_r; [lra |]. unfold expm1_error. pose proof u256. assert (8 <= IZR prec) by (apply IZR_le; lia). assert (8 * u <= IZR prec * u) by (apply Rmult_le_compat_r; lra). lra.
  - destruct (exp_loop 1 x fzero et (fun n => eq_refl) N 0) as (M & LM & SM & R).
    + apply (still_end et fzero 0 N); try lia; auto.
      * change (v fzero) with 0. rewrite Rabs_R0. simpl. lra.
      * apply et_small.
      * apply et_end.
    + unfold int_max. change (2 ^ 31)%Z with 2147483648%Z. lia.
    + destruct (expm1_series_sums M C ltac:(lia) SM) as [FM EM]. exists (sums et fzero M). split; [exact FM |]. split; [exact EM |]. intros fuel L. exact (R fuel L).
Qed.
End Exp.
End Fmt.
