(** The series of log1p between -1/8 and 1/8: it ends, and how far the result is from the exact value. *)
From Coq Require Import ZArith Reals Lra Lia Bool.
From Coquelicot Require Import Coquelicot.
From Flocq Require Import Core Plus_error Relative IEEE754.BinarySingleNaN.
From Verif Require Import MathModel MathProofs MathProofs2.
From Verif Require Import FloatModel FloatProofs1 FloatProofs2 FserModel FserProofs1 FserProofs2 FserProofs3 FlogModel FlogProofs1 Flog1pModel.
Local Open Scope R_scope.

(** ** The exact series *)
Definition la (x : R) (n : nat) : R := (-1) ^ S n / INR (S (S n)) * x ^ S (S n).
Lemma la_step x n : la x (S n) = la x n * (- x * IZR (Z.of_nat n + 2) / IZR (Z.of_nat n + 3)).
Proof.
  unfold la. replace (Z.of_nat n + 2)%Z with (Z.of_nat (S (S n))) by lia. replace (Z.of_nat n + 3)%Z with (Z.of_nat (S (S (S n)))) by lia. rewrite <- !INR_IZR_INZ.
  pose proof (not_0_INR (S (S n)) ltac:(lia)). pose proof (not_0_INR (S (S (S n))) ltac:(lia)).
  rewrite <- (tech_pow_Rmult x (S (S n))), <- (tech_pow_Rmult (-1) (S n)). field. split; assumption.
Qed.
Lemma la_psum x n : x + psum (la x) n = sum_n (fun i => lc i * x ^ i) (S n).
Proof.
  induction n as [|n IH].
  - rewrite sum_Rn, sum_O. cbn [psum]. unfold lc. simpl. field.
  - rewrite sum_Rn, <- IH. cbn [psum]. unfold la, lc. ring.
Qed.
Lemma la_lim x : Rabs x < 1 -> Un_cv (psum (la x)) (ln (1 + x) - x).
Proof.
  intros H. apply is_lim_seq_Reals. apply is_lim_seq_ext with (u := fun n => sum_n (fun i => lc i * x ^ i) (S n) - x).
  - intros n. rewrite <- la_psum. ring.
  - apply (is_lim_seq_minus' (fun n => sum_n (fun i => lc i * x ^ i) (S n)) (fun _ => x)); [|apply is_lim_seq_const].
    apply is_lim_seq_incr_1 with (u := fun k => sum_n (fun i => lc i * x ^ i) k). rewrite <- (ln_pseries x H).
    assert (C : ex_pseries lc x) by (apply CV_radius_inside, inside with (M := 1); [apply lc_bounds|exact H]).
    apply PSeries_correct, is_pseries_R in C. exact C.
Qed.
Lemma la_le x n : Rabs x <= / 8 -> Rabs (la x n) <= Rabs x * (/ 2) ^ S n.
Proof.
  intros H. unfold la. pose proof (lc_bounds (S (S n))) as B. cbn [lc] in B.
  rewrite Rabs_mult. pose proof (Rabs_pos x). rewrite <- (tech_pow_Rmult x (S n)), Rabs_mult, <- RPow_abs.
  assert (P : Rabs x ^ S n <= (/ 2) ^ S n) by (apply pow_incr; lra). pose proof (pow_le (Rabs x) (S n) ltac:(lra)) as P0.
  pose proof (Rabs_pos ((-1) ^ S n / INR (S (S n)))) as C0.
  apply Rle_trans with (1 * (Rabs x * (/ 2) ^ S n)); [|lra]. apply Rmult_le_compat; [exact C0|now apply Rmult_le_pos|exact B|]. now apply Rmult_le_compat_l.
Qed.
Lemma la_sum x n : Rabs x <= / 8 -> Rabs (psum (la x) n) <= Rabs x * (1 - (/ 2) ^ n).
Proof.
  intros H. induction n as [|n IH].
  - cbn [psum pow]. rewrite Rabs_R0. lra.
  - cbn [psum]. pose proof (Rabs_triang (psum (la x) n) (la x n)). pose proof (la_le x n H) as L. cbn [pow] in *. lra.
Qed.
Lemma la_sum2 x n : Rabs x <= / 8 -> Rabs (x + psum (la x) n) <= 2 * Rabs x.
Proof.
  intros H. pose proof (la_sum x n H). pose proof (Rabs_triang x (psum (la x) n)). pose proof (pow_le (/ 2) n ltac:(lra)). pose proof (Rabs_pos x).
  assert (0 <= Rabs x * (/ 2) ^ n) by now apply Rmult_le_pos. lra.
Qed.
Lemma la_0 x : Rabs x <= / 8 -> Rabs (la x 0) <= Rabs x / 16.
Proof.
  intros H. unfold la. replace ((-1) ^ 1 / INR 2 * x ^ 2) with (- (/ 2) * (x * x)) by (simpl; field). rewrite Rabs_mult, Rabs_Ropp, (Rabs_pos_eq (/ 2)), Rabs_mult by lra.
  pose proof (Rabs_pos x). assert (Rabs x * Rabs x <= Rabs x * / 8) by (apply Rmult_le_compat_l; lra). lra.
Qed.

Section Fmt.
Context {prec emax : Z} {Hp : Prec_gt_0 prec} {Hx : Prec_lt_emax prec emax}.
Notation fl := (binary_float prec emax).
Notation emin := (3 - emax - prec)%Z.
Notation rnd := (round radix2 (FLT_exp emin prec) ZnearestE).
Notation bpow := (bpow radix2).
Notation v := (@B2R prec emax).
Hypothesis (Hprec : (8 <= prec)%Z) (Hemax : (65 <= emax)%Z) (Hpx : (prec + 40 <= emax)%Z) (Hbig : (emax + prec <= 20000)%Z).
Notation u := (bpow (- prec)).
Notation h := (bpow (emin - 1)).
Local Notation N := (Z.to_nat (emax + prec)).
Let U : 0 < u <= / 256. Proof. exact (u256 Hprec). Qed.
Let U2 : u * u <= / 256 * u. Proof. exact (usq Hprec). Qed.
Let Hh : 0 < h. Proof. apply bpow_gt_0. Qed.

(** One term from the last. *)
Lemma ap_back z t : ap (4 * u) (2 * h) z t -> ap (5 * u) (3 * h) t z.
Proof.
  unfold ap. intros H. rewrite Rabs_minus_sym. assert (Rabs z <= Rabs t + Rabs (t - z)).
  { replace z with (t + - (t - z)) at 1 by ring. eapply Rle_trans; [apply Rabs_triang|]. rewrite Rabs_Ropp. lra. }
  pose proof (Rabs_pos z). pose proof (Rabs_pos t).
  assert (4 * u * Rabs z <= 4 * / 256 * Rabs z) by (apply Rmult_le_compat_r; lra).
  assert (Z1 : Rabs z <= 64 / 63 * (Rabs t + 2 * h)) by lra.
  assert (u * Rabs z <= u * (64 / 63 * (Rabs t + 2 * h))) by (apply Rmult_le_compat_l; lra).
  assert (u * h <= / 256 * h) by (apply Rmult_le_compat_r; lra). assert (0 <= u * Rabs t) by (apply Rmult_le_pos; lra). lra.
Qed.
Lemma term_ap (T T' x t t' : R) (n : Z) : (2 <= n)%Z -> Rabs x <= / 8 -> ap u h (T * (- x)) T' ->
  ap (4 * u) (2 * h) (T * (x / IZR n)) t -> ap (4 * u) (2 * h) (T' * (x / IZR (n + 1))) t' ->
  ap (11 * u) (4 * h) (t * (- x * IZR n / IZR (n + 1))) t'.
Proof.
  intros Hn X A B C. assert (n2 : 2 <= IZR n) by now apply IZR_le. rewrite plus_IZR in *. set (m := IZR n) in *.
  set (r := - x * m / (m + 1)). pose proof (Rabs_pos x) as X0.
  assert (I0 : 0 < / (m + 1)) by (apply Rinv_0_lt_compat; lra).
  assert (I1 : / (m + 1) <= 1) by (rewrite <- Rinv_1; apply Rinv_le; lra).
  assert (R1 : Rabs r <= / 8).
  { unfold r, Rdiv. rewrite !Rabs_mult, Rabs_Ropp, (Rabs_pos_eq m), (Rabs_pos_eq (/ (m + 1))) by lra.
    rewrite Rmult_assoc. replace (m * / (m + 1)) with (1 - / (m + 1)) by (field; lra).
    assert (Rabs x * (1 - / (m + 1)) <= Rabs x * 1) by (apply Rmult_le_compat_l; lra). lra. }
  assert (Q1 : Rabs (x / (m + 1)) <= / 8).
  { unfold Rdiv. rewrite Rabs_mult, (Rabs_pos_eq (/ (m + 1))) by lra. assert (Rabs x * / (m + 1) <= Rabs x * 1) by (apply Rmult_le_compat_l; lra). lra. }
  pose proof (ap_mul r _ _ _ _ (ap_back _ _ B)) as P1.
  pose proof (ap_mul (x / (m + 1)) _ _ _ _ A) as P2.
  replace (T * - x * (x / (m + 1))) with (T * (x / m) * r) in P2 by (unfold r; field; lra).
  assert (H1 : 3 * h * Rabs r <= 3 * h * / 8) by (apply Rmult_le_compat_l; lra).
  assert (H2 : h * Rabs (x / (m + 1)) <= h * / 8) by (apply Rmult_le_compat_l; lra).
  apply (ap_weak _ _ (5 * u) (3 / 8 * h)) in P1; [|lra|lra]. apply (ap_weak _ _ u (h / 8)) in P2; [|lra|lra].
  assert (u0 : 0 <= u) by lra. pose proof (ap_trans _ _ _ _ _ _ _ u0 P1 P2) as P3.
  assert (UH : u * h <= / 256 * h) by (apply Rmult_le_compat_r; lra).
  apply (ap_weak _ _ (61 / 10 * u) h) in P3; [|lra|lra].
  assert (u4 : 0 <= 4 * u) by lra. pose proof (ap_trans _ _ _ _ _ _ _ u4 P3 C) as P4. eapply ap_weak; [| |exact P4]; lra.
Qed.

(** ** The terms *)
Section Log.
Variable x : fl.
Hypothesis (Fx : is_finite x = true) (Rx : Rabs (v x) <= / 8).
Fixpoint lT (n : nat) : fl := match n with O => Bopp x | S n' => fmul (lT n') (Bopp x) end.
Definition lt_ (n : nat) : fl := fdiv (fmul x (lT n)) (of_Z (2 + Z.of_nat n)).
Lemma x8 : Rabs (v x) <= bpow (-3). Proof. simpl. lra. Qed.
Lemma lT_bound n : is_finite (lT n) = true /\ Rabs (v (lT n)) <= bpow (Z.max emin (-3 - Z.of_nat n)).
Proof.
  induction n as [|n [Fn Bn]].
  - cbn [lT]. rewrite is_finite_Bopp, B2R_Bopp, Rabs_Ropp. split; [exact Fx|]. rewrite Z.max_r by lia. exact x8.
  - cbn [lT]. destruct (mul_step (prec := prec) (emax := emax) (lT n) (Bopp x) _ (-3) Fn ltac:(now rewrite is_finite_Bopp) Bn ltac:(rewrite B2R_Bopp, Rabs_Ropp; exact x8) ltac:(lia)) as (Fm & _ & Bm).
    split; [exact Fm|]. apply Bm; lia.
Qed.
Lemma lT_ap n : ap u h (v (lT n) * - v x) (v (lT (S n))).
Proof.
  destruct (lT_bound n) as [Fn Bn]. cbn [lT].
  destruct (mul_step (prec := prec) (emax := emax) (lT n) (Bopp x) _ (-3) Fn ltac:(now rewrite is_finite_Bopp) Bn ltac:(rewrite B2R_Bopp, Rabs_Ropp; exact x8) ltac:(lia)) as (_ & Vm & _).
  rewrite Vm, B2R_Bopp. apply ap_rnd0.
Qed.
Lemma xT n : is_finite (fmul x (lT n)) = true /\ v (fmul x (lT n)) = rnd (v x * v (lT n)) /\ Rabs (v (fmul x (lT n))) <= bpow 0.
Proof.
  destruct (lT_bound n) as [Fn Bn]. destruct (mul_step (prec := prec) (emax := emax) x (lT n) (-3) _ Fx Fn x8 Bn ltac:(lia)) as (Fm & Vm & Bm).
  split; [exact Fm|]. split; [exact Vm|]. apply Bm; lia.
Qed.
Lemma lt_ok n : (n <= N)%nat -> is_finite (lt_ n) = true /\ Rabs (v (lt_ n)) <= bpow 0 /\ v (lt_ n) = rnd (rnd (v (lT n) * v x) / rnd (IZR (Z.of_nat n + 2))).
Proof.
  intros Ln. destruct (xT n) as (Fm & Vm & Bm). unfold lt_.
  destruct (div_step (prec := prec) (emax := emax) ltac:(lia) ltac:(lia) (fmul x (lT n)) (2 + Z.of_nat n) 0 0 Fm Bm ltac:(lia)) as (Fq & Vq & Bq & _).
  { split; [change (2 ^ 0)%Z with 1%Z; lia|]. change (2 ^ 31)%Z with 2147483648%Z. lia. }
  { lia. }
  split; [exact Fq|]. split; [apply Bq; lia|]. rewrite Vq, Vm, (Rmult_comm (v x)). now replace (2 + Z.of_nat n)%Z with (Z.of_nat n + 2)%Z by lia.
Qed.
Lemma lt_ap0 n : (n <= N)%nat -> ap (4 * u) (2 * h) (v (lT n) * (v x / IZR (Z.of_nat n + 2))) (v (lt_ n)).
Proof. intros Ln. destruct (lt_ok n Ln) as (_ & _ & ->). apply ap_two; lia. Qed.
Lemma lt_ap n : (n < N)%nat -> ap (11 * u) (4 * h) (v (lt_ n) * (- v x * IZR (Z.of_nat n + 2) / IZR (Z.of_nat n + 3))) (v (lt_ (S n))).
Proof.
  intros Ln. replace (Z.of_nat n + 3)%Z with (Z.of_nat n + 2 + 1)%Z by lia. apply (term_ap (v (lT n)) (v (lT (S n)))); [lia|exact Rx|apply lT_ap|apply lt_ap0; lia|].
  replace (Z.of_nat n + 2 + 1)%Z with (Z.of_nat (S n) + 2)%Z by lia. apply lt_ap0. lia.
Qed.
Lemma lt_start : ap (11 * u) (4 * h) (la (v x) 0) (v (lt_ 0)).
Proof.
  replace (la (v x) 0) with (v (lT 0) * (v x / IZR (Z.of_nat 0 + 2))).
  - eapply ap_weak; [| |apply lt_ap0; lia]; lra.
  - cbn [lT]. rewrite B2R_Bopp. unfold la. simpl. field.
Qed.
Lemma lt_end : v (lt_ N) = 0.
Proof.
  destruct (lt_ok N ltac:(lia)) as (_ & _ & ->). destruct (lT_bound N) as [_ B]. rewrite Z.max_l in B by lia.
  replace (rnd (v (lT N) * v x)) with 0; [unfold Rdiv; rewrite Rmult_0_l; apply round_0; typeclasses eauto|]. symmetry. apply rnd_zero.
  apply Rle_lt_trans with (bpow emin * bpow (-3)); [rewrite Rabs_mult; apply Rmult_le_compat; [apply Rabs_pos|apply Rabs_pos|exact B|exact x8]|].
  rewrite <- bpow_plus. apply bpow_lt. lia.
Qed.
Lemma lt_ratio i : (1 + 11 * u) * Rabs (- v x * IZR (Z.of_nat i + 2) / IZR (Z.of_nat i + 3)) * 1 <= 5 / 8 * 1.
Proof.
  replace (Z.of_nat i + 3)%Z with (Z.of_nat i + 2 + 1)%Z by lia. assert (2 <= IZR (Z.of_nat i + 2)) by (apply IZR_le; lia). rewrite (plus_IZR (Z.of_nat i + 2)). set (m := IZR (Z.of_nat i + 2)) in *.
  assert (I0 : 0 < / (m + 1)) by (apply Rinv_0_lt_compat; lra).
  assert (R1 : Rabs (- v x * m / (m + 1)) <= / 8).
  { unfold Rdiv. rewrite !Rabs_mult, Rabs_Ropp, (Rabs_pos_eq m), (Rabs_pos_eq (/ (m + 1))) by lra.
    rewrite Rmult_assoc. replace (m * / (m + 1)) with (1 - / (m + 1)) by (field; lra). pose proof (Rabs_pos (v x)).
    assert (Rabs (v x) * (1 - / (m + 1)) <= Rabs (v x) * 1) by (apply Rmult_le_compat_l; lra). lra. }
  set (r := Rabs (- v x * m / (m + 1))) in *. assert (0 <= r) by apply Rabs_pos. assert (u * r <= / 256 * r) by (apply Rmult_le_compat_r; lra). lra.
Qed.
Lemma log1p_loop_end : forall k n, still lt_ x (n + k) -> exists M, (n <= M <= n + k)%nat /\ still lt_ x M /\
    forall fuel, (k <= fuel)%nat -> log1p_impl fuel (2 + Z.of_nat n) x (sums lt_ x n) (lT n) = FVal (sums lt_ x M).
Proof.
  induction k as [|k IH]; intros n St.
  - exists n. rewrite Nat.add_0_r in St. split; [lia |]. split; [exact St |]. intros fuel _. unfold still in St. cbn [sums] in St. change (lt_ n) with (fdiv (fmul x (lT n)) (of_Z (2 + Z.of_nat n))) in St.
    destruct fuel; cbn [log1p_impl]; now rewrite St.
  - destruct (feq (sums lt_ x n) (sums lt_ x (S n))) eqn:E.
    + exists n. split; [lia |]. split; [exact E |]. intros fuel _. cbn [sums] in E. change (lt_ n) with (fdiv (fmul x (lT n)) (of_Z (2 + Z.of_nat n))) in E. destruct fuel; cbn [log1p_impl]; now rewrite E.
    + destruct (IH (S n)) as (M & LM & SM & R); [now replace (S n + k)%nat with (n + S k)%nat by lia |]. exists M. split; [lia |]. split; [exact SM |].
      intros [|fuel] L; [lia |]. cbn [log1p_impl]. cbn [sums] in E. change (lt_ n) with (fdiv (fmul x (lT n)) (of_Z (2 + Z.of_nat n))) in E. rewrite E.
      rewrite <- (R fuel ltac:(lia)). cbn [sums lT]. change (lt_ n) with (fdiv (fmul x (lT n)) (of_Z (2 + Z.of_nat n))). now replace (2 + Z.of_nat (S n))%Z with (2 + Z.of_nat n + 1)%Z by lia.
Qed.
Theorem log1p_series_sums M m : u / 4 <= m -> Rabs (v x) <= m -> (M <= N)%nat -> still lt_ x M ->
  is_finite (sums lt_ x M) = true /\ Rabs (v (sums lt_ x M) - ln (1 + v x)) <= (5 * IZR prec + 17) * u * m.
Proof.
  intros Lm Xm LM St. pose proof (prec_u Hprec) as PU. destruct (N_h (prec := prec) (emax := emax) ltac:(lia) ltac:(lia)) as [_ Nh]. simpl (bpow (-23)) in Nh.
  pose proof (Rabs_pos (v x)) as X0. assert (m0 : 0 < m) by lra. pose proof (la_0 (v x) Rx) as A0. pose proof (Rabs_pos (la (v x) 0)) as A1.
  assert (UX : u * u <= 4 * (u * m)) by (pose proof (Rmult_le_compat_l u (u / 4) m ltac:(lra) Lm); lra).
  assert (HB : h <= / 1024 * (u * m)) by (rewrite S_INR in Nh; pose proof (pos_INR N); assert (0 <= INR N * h) by (apply Rmult_le_pos; lra); lra).
  assert (PUX : IZR prec * u * m <= / 32 * m) by (apply Rmult_le_compat_r; lra).
  assert (UX2 : u * m <= / 256 * m) by (apply Rmult_le_compat_r; lra).
  assert (UA : u * Rabs (la (v x) 0) <= u * (m / 16)) by (apply Rmult_le_compat_l; lra).
  assert (tot : 8 * (11 * u * (1 * Rabs (la (v x) 0))) + INR (2 * Z.to_nat prec) * (u * (5 / 4 * (2 * m))) + 16 / 3 * u * (1 * Rabs (la (v x) 0)) + 2 * INR (S N) * (8 / 3 * (1 * (4 * h)))
     <= 5 * IZR prec * u * m + 13 / 2 * (u * m)).
  { rewrite (prec_INR Hprec). lra. }
  destruct (series_error (prec := prec) (emax := emax) ltac:(lia) lt_ x 0 N (la (v x)) (fun n => - v x * IZR (Z.of_nat n + 2) / IZR (Z.of_nat n + 3)) (fun _ => 1) (11 * u) (4 * h) 1 (2 * m) (ln (1 + v x) - v x)) with (M := M) as [FM EM]; try lia; try lra; try assumption.
  - simpl. lra.
  - intros n Ln. destruct (lt_ok n Ln) as (A & B & _). now split.
  - apply lt_end.
  - intros i. lra.
  - intros i. apply lt_ratio.
  - intros i. apply la_step.
  - apply lt_ap.
  - apply lt_start.
  - intros n. pose proof (la_sum2 (v x) n Rx). lra.
  - apply la_lim. lra.
  - split; [exact FM |]. replace (v x + (ln (1 + v x) - v x)) with (ln (1 + v x)) in EM by ring. eapply Rle_trans; [exact EM |].
    eapply Rle_trans; [apply Rplus_le_compat_r, tot |]. lra.
Qed.
Theorem log1p_series m : u / 4 <= m -> Rabs (v x) <= m -> exists y, is_finite y = true /\ Rabs (v y - ln (1 + v x)) <= (5 * IZR prec + 17) * u * m /\
  forall fuel, (N <= fuel)%nat -> log1p_impl fuel 2 x x (Bopp x) = FVal y.
Proof.
  intros Lm Xm. destruct (log1p_loop_end N 0) as (M & LM & SM & R).
  - apply (still_end lt_ x 0 N); try lia; auto.
    + simpl. lra.
    + intros n Ln. destruct (lt_ok n ltac:(lia)) as (A & B & _). now split.
    + apply lt_end.
  - destruct (log1p_series_sums M m Lm Xm ltac:(lia) SM) as [FM EM]. exists (sums lt_ x M). split; [exact FM |]. split; [exact EM |]. intros fuel L. exact (R fuel L).
Qed.
(** Tiny arguments come back unchanged. *)
Lemma log1p_tiny : v x <> 0 -> Rabs (v x) < u / 4 -> forall fuel, log1p_impl fuel 2 x x (Bopp x) = FVal x.
Proof.
  intros Nx Sx. set (k := mag radix2 (v x) : Z).
  assert (K1 : bpow (k - 1) <= Rabs (v x) < bpow k) by (unfold k; destruct (mag radix2 (v x)) as (k' & K'); cbn; exact (K' Nx)).
  assert (K2 : (k <= - prec - 2)%Z).
  { assert (k - 1 < - prec - 2)%Z; [| lia]. apply (lt_bpow radix2). apply Rle_lt_trans with (Rabs (v x)); [apply K1 |]. replace (- prec - 2)%Z with (- prec + -2)%Z by lia. rewrite bpow_plus. simpl (bpow (-2)). lra. }
  destruct (lt_ok 0 ltac:(lia)) as (FT & BT & VT). cbn [lT] in VT. rewrite B2R_Bopp in VT.
  assert (Xk : Rabs (v x) <= bpow k) by lra.
  assert (S1 : rnd (v x + v (lt_ 0)) = v x).
  { destruct (Z_lt_le_dec (2 * k) emin) as [C|C].
    - assert (Z0 : rnd (- v x * v x) = 0).
      { apply rnd_zero. rewrite Rabs_mult, Rabs_Ropp. apply Rlt_le_trans with (bpow (2 * k)); [| apply bpow_le; lia]. replace (2 * k)%Z with (k + k)%Z by lia. rewrite bpow_plus.
        pose proof (Rabs_pos (v x)). apply Rmult_le_0_lt_compat; lra. }
      rewrite VT, Z0. unfold Rdiv. rewrite Rmult_0_l, round_0, Rplus_0_r by auto with typeclass_instances. apply rnd_F, v_F.
    - assert (Bt : Rabs (v (lt_ 0)) <= bpow (k - prec - 3)).
      { destruct (mul_step (prec := prec) (emax := emax) x (Bopp x) k k Fx ltac:(now rewrite is_finite_Bopp) Xk ltac:(rewrite B2R_Bopp, Rabs_Ropp; exact Xk) ltac:(lia)) as (Fm & _ & Bm).
        specialize (Bm (2 * k)%Z ltac:(lia) ltac:(lia)).
        destruct (div_step (prec := prec) (emax := emax) ltac:(lia) ltac:(lia) (fmul x (Bopp x)) 2 1 (2 * k) Fm Bm ltac:(lia) ltac:(split; lia) ltac:(lia)) as (_ & _ & B & _).
        change (lt_ 0) with (fdiv (fmul x (Bopp x)) (of_Z 2)). apply B; lia. }
      destruct (Rle_lt_dec 0 (v x)) as [P|P].
      + apply (absorb (prec := prec) (emax := emax) (v x) (v (lt_ 0)) k); [apply v_F | lra | rewrite Rabs_pos_eq in K1 by lra; apply K1 | lia | exact Bt].
      + replace (v x + v (lt_ 0)) with (- (- v x + - v (lt_ 0))) by ring. rewrite rnd_opp.
        rewrite (absorb (prec := prec) (emax := emax) (- v x) (- v (lt_ 0)) k); [ring | apply generic_format_opp, v_F | lra | rewrite Rabs_left in K1 by lra; apply K1 | lia | now rewrite Rabs_Ropp]. }
  destruct (fadd_ok x (lt_ 0) Fx FT) as [V2 F2].
  { eapply Rle_trans; [apply Rabs_triang |]. change (bpow 0) with 1 in BT. apply Rle_trans with (bpow 1); [change (bpow 1) with 2; lra | apply bpow_le; lia]. }
  assert (Q2 : feq x (fadd x (lt_ 0)) = true) by (rewrite feq_spec by auto; apply Req_bool_true; congruence).
  change (lt_ 0) with (fdiv (fmul x (Bopp x)) (of_Z 2)) in Q2. intros [|fuel]; cbn [log1p_impl]; now rewrite Q2.
Qed.
Lemma ln1_close y : Rabs y <= / 8 -> Rabs (y - ln (1 + y)) <= 2 * Rabs y * Rabs y.
Proof.
  intros H. apply Rabs_le_inv in H. pose proof (ln_le_minus (1 + y) ltac:(lra)) as A.
  assert (I0 : 0 < / (1 + y)) by (apply Rinv_0_lt_compat; lra). pose proof (ln_le_minus (/ (1 + y)) I0) as B. rewrite ln_Rinv in B by lra.
  assert (I2 : / (1 + y) <= 2) by (replace 2 with (/ / 2) by field; apply Rinv_le; lra).
  assert (E : y + (/ (1 + y) - 1) = y * y * / (1 + y)) by (field; lra).
  assert (0 <= y * y) by apply Rle_0_sqr. assert (y * y * / (1 + y) <= y * y * 2) by (apply Rmult_le_compat_l; lra).
  rewrite Rmult_assoc, <- Rabs_mult, (Rabs_pos_eq (y * y)) by lra. apply Rabs_le. lra.
Qed.
Theorem log1p_relative : v x <> 0 -> exists y, is_finite y = true /\ Rabs (v y - ln (1 + v x)) <= (5 * IZR prec + 17) * u * Rabs (v x) /\
  forall fuel, (N <= fuel)%nat -> log1p_impl fuel 2 x x (Bopp x) = FVal y.
Proof.
  intros Nx. destruct (Rlt_le_dec (Rabs (v x)) (u / 4)) as [C|C].
  - exists x. split; [exact Fx|]. split; [|intros fuel _; now apply log1p_tiny]. eapply Rle_trans; [apply ln1_close, Rx|].
    apply Rmult_le_compat_r; [apply Rabs_pos|]. assert (8 <= IZR prec) by (apply IZR_le; lia). assert (8 * u <= IZR prec * u) by (apply Rmult_le_compat_r; lra). lra.
  - apply log1p_series; lra.
Qed.
End Log.
End Fmt.
