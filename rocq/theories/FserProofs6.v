(** The series of sin and cos for arguments up to 13/2: it ends, and how far the result is from the exact value. *)
From Coq Require Import ZArith Reals Lra Lia Bool.
From Flocq Require Import Core Plus_error Relative IEEE754.BinarySingleNaN.
From Verif Require Import FloatModel FloatProofs1 FloatProofs2 FserModel FserProofs1 FserProofs2 FserProofs3.
Local Open Scope R_scope.

(** ** The exact series *)
Definition ca (x : R) (n : nat) : R := (-1) ^ S n * x ^ (2 * S n) / INR (fact (2 * S n)).
Definition sa (x : R) (n : nat) : R := (-1) ^ S n * x ^ (2 * S n + 1) / INR (fact (2 * S n + 1)).
Definition mm (i : Z) (n : nat) : Z := ((i + 2 * Z.of_nat n) * (i + 2 * Z.of_nat n + 1))%Z.
Lemma mm_pos i n : (1 <= i)%Z -> (0 < mm i n)%Z. Proof. unfold mm. intros. nia. Qed.
Lemma ca_step x n : ca x (S n) = ca x n * - (x * x / IZR (mm 3 n)).
Proof.
  unfold ca, mm. replace (2 * S (S n))%nat with (S (S (2 * S n))) by lia. change (fact (S (S (2 * S n)))) with (S (S (2 * S n)) * (S (2 * S n) * fact (2 * S n)))%nat.
  rewrite !mult_INR. replace (IZR ((3 + 2 * Z.of_nat n) * (3 + 2 * Z.of_nat n + 1))) with (INR (S (2 * S n)) * INR (S (S (2 * S n)))) by (rewrite <- mult_INR, INR_IZR_INZ; f_equal; nia).
  cbn [pow]. field. repeat split; try (apply INR_fact_neq_0); apply not_0_INR; lia.
Qed.
Lemma sa_step x n : sa x (S n) = sa x n * - (x * x / IZR (mm 4 n)).
Proof.
  unfold sa, mm. replace (2 * S (S n) + 1)%nat with (S (S (2 * S n + 1))) by lia. change (fact (S (S (2 * S n + 1)))) with (S (S (2 * S n + 1)) * (S (2 * S n + 1) * fact (2 * S n + 1)))%nat.
  rewrite !mult_INR. replace (IZR ((4 + 2 * Z.of_nat n) * (4 + 2 * Z.of_nat n + 1))) with (INR (S (2 * S n + 1)) * INR (S (S (2 * S n + 1)))) by (rewrite <- mult_INR, INR_IZR_INZ; f_equal; nia).
  cbn [pow]. field. repeat split; try (apply INR_fact_neq_0); apply not_0_INR; lia.
Qed.
Lemma ca_lim x : Un_cv (psum (ca x)) (cos x - 1).
Proof.
  unfold cos. destruct (exist_cos (Rsqr x)) as (l & E). unfold cos_in, infinite_sum in E. cbn beta in E.
  assert (S : forall n, sum_f_R0 (fun i => cos_n i * (Rsqr x) ^ i) n = 1 + psum (ca x) n).
  { induction n as [|n IH]; [unfold cos_n; cbn; lra |]. rewrite tech5, IH. cbn [psum]. unfold ca, cos_n. rewrite <- Rsqr_pow2 || idtac. rewrite pow_mult. replace (x ^ 2) with (Rsqr x) by (unfold Rsqr; ring). unfold Rdiv. ring. }
  intros eps P. destruct (E eps P) as (N & HN). exists N. intros n Ln. specialize (HN n Ln). rewrite S in HN. unfold R_dist in *. now replace (psum (ca x) n - (l - 1)) with (1 + psum (ca x) n - l) by ring.
Qed.
Lemma sa_lim x : Un_cv (psum (sa x)) (sin x - x).
Proof.
  unfold sin. destruct (exist_sin (Rsqr x)) as (l & E). unfold sin_in, infinite_sum in E. cbn beta in E.
  assert (S : forall n, x * sum_f_R0 (fun i => sin_n i * (Rsqr x) ^ i) n = x + psum (sa x) n).
  { induction n as [|n IH]; [unfold sin_n; cbn; lra |]. rewrite tech5, Rmult_plus_distr_l, IH. cbn [psum]. unfold sa, sin_n. rewrite pow_add, pow_mult, pow_1. replace (x ^ 2) with (Rsqr x) by (unfold Rsqr; ring). unfold Rdiv. ring. }
  intros eps P. destruct (Req_dec x 0) as [->|X0].
  - exists 0%nat. intros n _. unfold R_dist. replace (0 * l - 0) with 0 by ring. rewrite Rminus_0_r.
    assert (Z : forall n, psum (sa 0) n = 0) by (induction n0 as [|k IH]; [reflexivity |]; cbn [psum]; rewrite IH; unfold sa; rewrite pow_i by lia; unfold Rdiv; ring). rewrite Z, Rabs_R0. exact P.
  - assert (0 < Rabs x) by (now apply Rabs_pos_lt). destruct (E (eps / Rabs x)) as (N & HN); [now apply Rdiv_lt_0_compat |]. exists N. intros n Ln. specialize (HN n Ln). unfold R_dist in *.
    replace (psum (sa x) n - (x * l - x)) with (x * (sum_f_R0 (fun i => sin_n i * (Rsqr x) ^ i) n - l)) by (rewrite Rmult_minus_distr_l, S; ring).
    rewrite Rabs_mult. apply Rmult_lt_reg_r with (/ Rabs x); [now apply Rinv_0_lt_compat |]. replace (Rabs x * Rabs (sum_f_R0 (fun i => sin_n i * (Rsqr x) ^ i) n - l) * / Rabs x) with (Rabs (sum_f_R0 (fun i => sin_n i * (Rsqr x) ^ i) n - l)) by (field; lra). exact HN.
Qed.

Section Fmt.
Context {prec emax : Z} {Hp : Prec_gt_0 prec} {Hx : Prec_lt_emax prec emax}.
Notation fl := (binary_float prec emax).
Notation emin := (3 - emax - prec)%Z.
Notation fexp := (FLT_exp emin prec).
Notation F := (generic_format radix2 fexp).
Notation rnd := (round radix2 fexp ZnearestE).
Notation bpow := (bpow radix2).
Notation v := (@B2R prec emax).
Hypothesis (Hprec : (8 <= prec)%Z) (Hemax : (65 <= emax)%Z) (Hpx : (prec + 40 <= emax)%Z) (Hbig : (emax + prec <= 20000)%Z).
Notation u := (bpow (- prec)).
Notation h := (bpow (emin - 1)).
Local Notation N := (Z.to_nat (emax + prec + 33)).

Lemma N_h6 : 0 < h /\ INR (S N) * h <= bpow (-23) * (u * u).
Proof.
  split; [apply bpow_gt_0 |]. apply Rle_trans with (bpow 15 * h).
  - apply Rmult_le_compat_r; [apply bpow_ge_0 |]. change (bpow 15) with (IZR 32768). rewrite INR_IZR_INZ. apply IZR_le. lia.
  - rewrite <- !bpow_plus. apply bpow_le. lia.
Qed.
Lemma ap_opp d e z y : ap d e z y -> ap d e (- z) (- y).
Proof. unfold ap. intros H. replace (- y - - z) with (- (y - z)) by ring. now rewrite !Rabs_Ropp. Qed.
Lemma ap_three (n : Z) t x : (6 <= n)%Z -> Rabs x <= 13 / 2 -> ap (5 * u) (8 * h) (t * - (x * x / IZR n)) (rnd (rnd (rnd (t * x) * x) / rnd (IZR (- n)))).
Proof.
  intros Hn Bx. pose proof (u256 (prec := prec) ltac:(lia)) as U. pose proof (usq (prec := prec) ltac:(lia)) as U2. pose proof (h_pos (prec := prec) (emax := emax)) as Hh. pose proof (Rabs_pos x).
  assert (U2h : u * h <= / 256 * h) by (apply Rmult_le_compat_r; lra).
  pose proof (ap_rnd (prec := prec) (emax := emax) 0 0 (t * x) (t * x) ltac:(lra) ltac:(lra) (ap_refl _)) as A1.
  apply (ap_weak _ _ u h) in A1; [| lra | lra]. apply (ap_mul x) in A1.
  assert (h * Rabs x <= h * (13 / 2)) by (apply Rmult_le_compat_l; lra).
  apply (ap_weak _ _ u (13 / 2 * h)) in A1; [| lra | lra].
  pose proof (ap_rnd (prec := prec) (emax := emax) u (13 / 2 * h) _ _ ltac:(lra) ltac:(lra) A1) as A2.
  apply (ap_weak _ _ (21 / 10 * u) (76 / 10 * h)) in A2; [| lra | lra].
  pose proof (ap_div (prec := prec) (emax := emax) ltac:(lia) ltac:(lia) n (21 / 10 * u) (76 / 10 * h) _ _ ltac:(lra) ltac:(lra) ltac:(lia) A2) as A3.
  assert (76 / 10 * h / IZR n <= 76 / 10 * h / 6).
  { apply Rmult_le_compat_l; [lra |]. assert (6 <= IZR n) by now apply IZR_le. apply Rinv_le; lra. }
  apply (ap_weak _ _ (32 / 10 * u) (2 * h)) in A3; [| lra | lra].
  pose proof (ap_rnd (prec := prec) (emax := emax) (32 / 10 * u) (2 * h) _ _ ltac:(lra) ltac:(lra) A3) as A4.
  apply (ap_weak _ _ (5 * u) (8 * h)) in A4; [| lra | lra]. apply ap_opp in A4.
  rewrite opp_IZR, rnd_opp. replace (rnd (rnd (t * x) * x) / - rnd (IZR n)) with (- (rnd (rnd (t * x) * x) / rnd (IZR n))) by (assert (0 < rnd (IZR n)) by (pose proof (rnd_Z (prec := prec) (emax := emax) ltac:(lia) ltac:(lia) n ltac:(lia)); lra); field; lra).
  rewrite rnd_opp. replace (t * - (x * x / IZR n)) with (- (t * x * x / IZR n)) by (unfold Rdiv; ring). exact A4.
Qed.

(** ** The terms *)
Section Terms.
Variables (i : Z) (x T0 : fl).
Hypothesis (Hi : (3 <= i <= 4)%Z) (Fx : is_finite x = true) (Bx : Rabs (v x) <= 13 / 2) (F0 : is_finite T0 = true) (B0 : Rabs (v T0) <= bpow 7).
Fixpoint st (n : nat) : fl := match n with O => T0 | S n' => fdiv (fmul (fmul (st n') x) x) (of_Z (- mm i n')) end.
Lemma x3 : Rabs (v x) <= bpow 3. Proof. simpl. lra. Qed.
Lemma st_step n b : (n < N)%nat -> (emin <= b <= 28)%Z -> is_finite (st n) = true -> Rabs (v (st n)) <= bpow b ->
  is_finite (st (S n)) = true /\ v (st (S n)) = rnd (rnd (rnd (v (st n) * v x) * v x) / rnd (IZR (- mm i n))) /\ Rabs (v (st (S n))) <= bpow (b + 3) /\
  ((7 <= n)%nat -> (emin < b)%Z -> Rabs (v (st (S n))) <= bpow (b - 1)) /\ ((7 <= n)%nat -> b = emin -> v (st (S n)) = 0).
Proof.
  intros Ln Hb Fn Bn. destruct (mul_step (prec := prec) (emax := emax) (st n) x b 3 Fn Fx Bn x3 ltac:(lia)) as (Fm & Vm & Bm). specialize (Bm (b + 3)%Z ltac:(lia) ltac:(lia)).
  destruct (mul_step (prec := prec) (emax := emax) (fmul (st n) x) x (b + 3) 3 Fm Fx Bm x3 ltac:(lia)) as (Fm2 & Vm2 & Bm2). specialize (Bm2 (b + 6)%Z ltac:(lia) ltac:(lia)).
  cbn [st]. set (p := fmul (fmul (st n) x) x) in *.
  assert (U : (12 <= mm i n <= 2 ^ 31)%Z) by (unfold mm; change (2 ^ 31)%Z with 2147483648%Z; nia).
  destruct (div_step (prec := prec) (emax := emax) ltac:(lia) ltac:(lia) p (- mm i n) 3 (b + 6) Fm2 Bm2 ltac:(lia) ltac:(split; [change (2 ^ 3)%Z with 8%Z; lia | lia]) ltac:(lia)) as (Fq & Vq & Bq & _).
  split; [exact Fq |]. split; [rewrite Vq, Vm2, Vm; reflexivity |]. split; [apply Bq; lia |].
  assert (U7 : (7 <= n)%nat -> (256 <= mm i n)%Z) by (intros; unfold mm; nia).
  split; intros L2 Eb; specialize (U7 L2).
  - destruct (div_step (prec := prec) (emax := emax) ltac:(lia) ltac:(lia) p (- mm i n) 8 (b + 6) Fm2 Bm2 ltac:(lia) ltac:(split; [change (2 ^ 8)%Z with 256%Z; lia | lia]) ltac:(lia)) as (_ & _ & B2 & _). apply B2; lia.
  - destruct (div_step (prec := prec) (emax := emax) ltac:(lia) ltac:(lia) p (- mm i n) 8 (b + 6) Fm2 Bm2 ltac:(lia) ltac:(split; [change (2 ^ 8)%Z with 256%Z; lia | lia]) ltac:(lia)) as (_ & _ & _ & Z2). apply Z2; lia.
Qed.
Definition bb (n : nat) : Z := Z.max emin (Z.min (7 + 3 * Z.of_nat n) (35 - Z.of_nat n)).
Lemma st_bound n : (n <= N)%nat -> is_finite (st n) = true /\ Rabs (v (st n)) <= bpow (bb n).
Proof.
  induction n as [|n IH]; intros Ln.
  - cbn [st]. split; [exact F0 |]. eapply Rle_trans; [exact B0 |]. apply bpow_le. unfold bb. lia.
  - destruct (IH ltac:(lia)) as [Fn Bn]. destruct (st_step n (bb n) ltac:(lia) ltac:(unfold bb; lia) Fn Bn) as (FS & _ & B1 & B2 & B3). split; [exact FS |].
    destruct (le_lt_dec 7 n) as [L2|L2]; [| eapply Rle_trans; [exact B1 |]; apply bpow_le; unfold bb; lia].
    destruct (Z_le_gt_dec (bb n) emin) as [C|C].
    + rewrite B3 by (unfold bb in *; lia). rewrite Rabs_R0. apply bpow_ge_0.
    + eapply Rle_trans; [apply B2; lia |]. apply bpow_le. unfold bb in *. lia.
Qed.
Lemma st_end : v (st N) = 0.
Proof.
  destruct N as [|n] eqn:E; [lia |]. destruct (st_bound n ltac:(lia)) as [Fn Bn].
  destruct (st_step n (bb n) ltac:(lia) ltac:(unfold bb; lia) Fn Bn) as (_ & _ & _ & _ & Z0). apply Z0; unfold bb; lia.
Qed.
Lemma st_small n : (n <= N)%nat -> is_finite (st n) = true /\ Rabs (v (st n)) <= bpow 28.
Proof. intros Ln. destruct (st_bound n Ln) as [A B]. split; [exact A |]. eapply Rle_trans; [exact B |]. apply bpow_le. unfold bb. lia. Qed.
Lemma st_ap n : (n < N)%nat -> ap (5 * u) (8 * h) (v (st n) * - (v x * v x / IZR (mm i n))) (v (st (S n))).
Proof.
  intros Ln. destruct (st_bound n ltac:(lia)) as [Fn Bn]. destruct (st_step n (bb n) ltac:(lia) ltac:(unfold bb; lia) Fn Bn) as (_ & -> & _). apply ap_three; [unfold mm; nia | exact Bx].
Qed.

(** What the loop returns, given the exact series and its size. *)
Variables (s0 : fl) (a w : nat -> R) (P Q A L : R).
Hypothesis (Fs : is_finite s0 = true) (Bs : Rabs (v s0) <= bpow 28) (HP : 1 <= P) (HA : P * Rabs (a 0%nat) <= A).
Hypothesis (Hw : forall n, 1 <= w n <= P) (Hr : forall n, (1 + 5 / 256) * (v x * v x / IZR (mm i n)) * w (S n) <= 5 / 8 * w n).
Hypothesis (Ha : forall n, a (S n) = a n * - (v x * v x / IZR (mm i n))) (Ha0 : ap (5 * u) (8 * h) (a 0%nat) (v T0)).
Hypothesis (HQ : Rabs (v s0) + 8 / 3 * A <= Q) (HL : Un_cv (psum a) L).
Hypothesis (tot : 46 * (u * A) + 2 * IZR prec * (u * (5 / 4 * Q)) + P * (/ 256 * (u * u)) <= Q / 4).
Lemma x2 n : 0 <= v x * v x / IZR (mm i n).
Proof. apply Rmult_le_pos; [apply Rle_0_sqr |]. left. apply Rinv_0_lt_compat. apply IZR_lt, mm_pos. lia. Qed.
Theorem sin_cos_error : exists y, is_finite y = true /\
  Rabs (v y - (v s0 + L)) <= 46 * (u * A) + 2 * IZR prec * (u * (5 / 4 * Q)) + P * (/ 256 * (u * u)) + 8 / 3 * (P * (u * (5 / 4 * Q) + 15 / 2 * (u * A) + P * (/ 256 * (u * u)))) /\
  forall fuel, (N <= fuel)%nat -> sin_cos_series fuel i x s0 T0 = FVal y.
Proof.
  pose proof (u256 (prec := prec) ltac:(lia)) as U. pose proof (usq (prec := prec) ltac:(lia)) as U2. destruct N_h6 as [Hh Nh]. simpl (bpow (-23)) in Nh.
  pose proof (Rabs_pos (v s0)) as s0p. pose proof (Rabs_pos (a 0%nat)) as a0p. assert (Ap : 0 <= P * Rabs (a 0%nat)) by (apply Rmult_le_pos; lra).
  assert (Q0 : 0 <= Q) by lra.
  assert (HB : P * h <= P * (/ 1048576 * (u * u))) by (apply Rmult_le_compat_l; [lra |]; rewrite S_INR in Nh; pose proof (pos_INR N); assert (0 <= INR N * h) by (apply Rmult_le_pos; lra); assert (0 <= u * u) by (apply Rmult_le_pos; lra); lra).
  assert (HNB : P * (INR (S N) * h) <= P * (/ 8388608 * (u * u))) by (apply Rmult_le_compat_l; lra).
  assert (Hr' : forall n, (1 + 5 * u) * Rabs (- (v x * v x / IZR (mm i n))) * w (S n) <= 5 / 8 * w n).
  { intros n. rewrite Rabs_Ropp, Rabs_pos_eq by apply x2. eapply Rle_trans; [| apply Hr]. apply Rmult_le_compat_r; [pose proof (Hw (S n)); lra |]. apply Rmult_le_compat_r; [apply x2 | lra]. }
  assert (uA : u * (P * Rabs (a 0%nat)) <= u * A) by (apply Rmult_le_compat_l; lra).
  assert (uAp : 0 <= u * (P * Rabs (a 0%nat))) by (apply Rmult_le_pos; lra).
  assert (Pu : 0 <= P * (u * u)) by (apply Rmult_le_pos; [lra | apply Rmult_le_pos; lra]).
  assert (tt : 8 * (5 * u * (P * Rabs (a 0%nat))) + INR (2 * Z.to_nat prec) * (u * (5 / 4 * Q)) + 16 / 3 * u * (P * Rabs (a 0%nat)) + 2 * INR (S N) * (8 / 3 * (P * (8 * h)))
    <= 46 * (u * A) + 2 * IZR prec * (u * (5 / 4 * Q)) + P * (/ 256 * (u * u))) by (rewrite prec_INR by lia; lra).
  assert (St : still st s0 N) by (apply (still_end (prec := prec) (emax := emax) st s0 28 N); auto; try lia; [apply st_small | apply st_end]).
  destruct (sin_cos_loop i x s0 st ltac:(lia) (fun n => eq_refl) N 0 St ltac:(lia)) as (M & LM & SM & R).
  destruct (series_error (prec := prec) (emax := emax) ltac:(lia) st s0 28 N a (fun n => - (v x * v x / IZR (mm i n))) w (5 * u) (8 * h) P Q L) with (M := M) as [FM EM]; auto; try lia; try lra.
  - apply st_small.
  - apply st_end.
  - apply st_ap.
  - intros n. pose proof (psum_tail a (fun n => - (v x * v x / IZR (mm i n))) w (5 * u) P) as PT.
    specialize (PT ltac:(lra) Hw Hr' Ha 0%nat n). cbn [psum] in PT. rewrite Rminus_0_r in PT. change (0 + n)%nat with n in PT. eapply Rle_trans; [apply Rabs_triang |].
    assert (0 <= (5 / 8) ^ n) by (apply pow_le; lra). assert (0 <= (5 / 8) ^ n * (P * Rabs (a 0%nat))) by (apply Rmult_le_pos; lra). lra.
  - exists (sums st s0 M). split; [exact FM |]. split.
    + eapply Rle_trans; [exact EM |]. apply Rplus_le_compat; [exact tt |]. apply Rmult_le_compat_l; [lra |]. apply Rmult_le_compat_l; lra.
    + intros fuel Lf. specialize (R fuel Lf). cbn [sums] in R. change (Z.of_nat 0) with 0%Z in R. rewrite Z.mul_0_r, Z.add_0_r in R. exact R.
Qed.
End Terms.
End Fmt.
