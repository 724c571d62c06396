(** Rounded operations with relative and absolute errors; terms that shrink to zero; the loops as sequences. *)
From Coq Require Import ZArith Reals Lra Lia Bool.
From Flocq Require Import Core Plus_error Relative IEEE754.BinarySingleNaN.
From Verif Require Import FloatModel FloatProofs1 FloatProofs2 FserModel FserProofs1.
Local Open Scope R_scope.

(** [y] is [z] up to a relative error [d] and an absolute error [h]. *)
Definition ap (d h z y : R) : Prop := Rabs (y - z) <= d * Rabs z + h.

Lemma ap_refl z : ap 0 0 z z.
Proof. unfold ap. rewrite Rminus_diag_eq, Rabs_R0 by reflexivity. lra. Qed.
Lemma ap_weak d h d' h' z y : d <= d' -> h <= h' -> ap d h z y -> ap d' h' z y.
Proof. unfold ap. intros A B C. pose proof (Rabs_pos z). assert (d * Rabs z <= d' * Rabs z) by (apply Rmult_le_compat_r; auto). lra. Qed.
Lemma ap_mul c d h z y : ap d h z y -> ap d (h * Rabs c) (z * c) (y * c).
Proof. unfold ap. intros H. replace (y * c - z * c) with ((y - z) * c) by ring. rewrite !Rabs_mult. pose proof (Rabs_pos c). nra. Qed.
Lemma ap_size d h z y : ap d h z y -> Rabs y <= (1 + d) * Rabs z + h.
Proof. unfold ap. intros H. replace y with (z + (y - z)) by ring. eapply Rle_trans; [apply Rabs_triang |]. lra. Qed.
Lemma ap_trans d h d' h' z y x : 0 <= d' -> ap d h z y -> ap d' h' y x -> ap (d + d' + d * d') ((1 + d') * h + h') z x.
Proof.
  intros D A B. pose proof (ap_size _ _ _ _ A) as S. unfold ap in *. replace (x - z) with ((x - y) + (y - z)) by ring. eapply Rle_trans; [apply Rabs_triang |].
  assert (d' * Rabs y <= d' * ((1 + d) * Rabs z + h)) by (apply Rmult_le_compat_l; auto). lra.
Qed.

Section Fmt.
Context {prec emax : Z} {Hp : Prec_gt_0 prec} {Hx : Prec_lt_emax prec emax}.
Notation fl := (binary_float prec emax).
Notation emin := (3 - emax - prec)%Z.
Notation fexp := (FLT_exp emin prec).
Notation F := (generic_format radix2 fexp).
Notation rnd := (round radix2 fexp ZnearestE).
Notation bpow := (bpow radix2).
Notation v := (@B2R prec emax).
Hypothesis (Hprec : (6 <= prec)%Z) (Hemax : (65 <= emax)%Z) (Hpx : (prec + 4 <= emax)%Z).
Notation u := (bpow (- prec)).
Notation h := (bpow (emin - 1)).

Lemma u_pos : 0 < u. Proof. apply bpow_gt_0. Qed.
Lemma u_small : u <= / 64.
Proof. apply Rle_trans with (bpow (-6)); [apply bpow_le; lia | simpl; lra]. Qed.
Lemma h_pos : 0 < h. Proof. apply bpow_gt_0. Qed.
Lemma half_u : / 2 * bpow (- prec + 1) = u.
Proof. rewrite bpow_plus. simpl (bpow 1). lra. Qed.

Lemma ap_rnd0 z : ap u h z (rnd z).
Proof.
  destruct (error_N_FLT radix2 emin prec Hp (fun x => negb (Z.even x)) z) as (eps & eta & E1 & E2 & _ & E).
  unfold ap. rewrite E. replace (z * (1 + eps) + eta - z) with (eps * z + eta) by ring. eapply Rle_trans; [apply Rabs_triang |]. rewrite Rabs_mult.
  assert (Rabs eps <= u).
  { eapply Rle_trans; [exact E1 |]. unfold u_ro. rewrite <- half_u at 1. lra. }
  assert (Rabs eta <= h) by (eapply Rle_trans; [exact E2 |]; replace (emin - 1)%Z with (emin + -1)%Z by lia; rewrite (bpow_plus radix2 emin (-1)); simpl (bpow (-1)); lra).
  pose proof (Rabs_pos z). assert (Rabs eps * Rabs z <= u * Rabs z) by (apply Rmult_le_compat_r; auto). lra.
Qed.
Lemma ap_rnd d e z y : 0 <= d -> 0 <= e -> ap d e z y -> ap (d + u + d * u) ((1 + u) * e + h) z (rnd y).
Proof. intros D E A. apply (ap_trans d e u h z y); [left; apply u_pos | exact A | apply ap_rnd0]. Qed.
Lemma rnd_plus x y : F x -> F y -> Rabs (rnd (x + y) - (x + y)) <= u * Rabs (x + y).
Proof.
  intros A B. destruct (FLT_plus_error_N_ex radix2 emin prec (fun x => negb (Z.even x)) x y A B) as (eps & E1 & E). rewrite E.
  replace ((x + y) * (1 + eps) - (x + y)) with (eps * (x + y)) by ring. rewrite Rabs_mult. apply Rmult_le_compat_r; [apply Rabs_pos |].
  eapply Rle_trans; [exact E1 |]. unfold u_ro. rewrite half_u. pose proof u_pos. apply Rmult_le_reg_r with (1 + u); [lra |]. unfold Rdiv. rewrite Rmult_assoc, Rinv_l by lra. nra.
Qed.
Lemma rnd_near z f : F f -> Rabs (rnd z - z) <= Rabs (f - z).
Proof. intros G. apply (round_N_pt radix2 fexp (fun x => negb (Z.even x)) z). exact G. Qed.
Lemma rnd_plus_small x y : F x -> F y -> Rabs (rnd (x + y) - (x + y)) <= Rabs y.
Proof. intros A B. eapply Rle_trans; [apply (rnd_near (x + y) x A) |]. replace (x - (x + y)) with (- y) by ring. rewrite Rabs_Ropp. lra. Qed.
Lemma rnd_abs x k : (emin <= k)%Z -> Rabs x <= bpow k -> Rabs (rnd x) <= bpow k.
Proof.
  intros K H. assert (G : F (bpow k)) by (apply F_bpow; [exact Hp | exact K]). apply Rabs_le_inv in H. apply Rabs_le. split.
  - apply rnd_ge; [exact Hp | now apply generic_format_opp | lra].
  - apply rnd_le; [exact Hp | exact G | lra].
Qed.
Lemma rnd_zero x : Rabs x < h -> rnd x = 0.
Proof.
  intros H. pose proof (F_rnd emin prec x) as G. pose proof (rnd_near x 0 (generic_format_0 _ _)) as N.
  destruct (Req_dec (rnd x) 0) as [E|E]; [exact E | exfalso].
  destruct (F_cexp emin prec _ G) as (k & Ek).
  assert (L : bpow emin <= Rabs (rnd x)).
  { rewrite Ek, Rabs_mult, (Rabs_pos_eq (bpow _)) by apply bpow_ge_0. rewrite <- abs_IZR.
    assert (1 <= IZR (Z.abs k)) by (apply IZR_le; assert (k <> 0%Z) by (intros ->; apply E; rewrite Ek; ring); lia).
    apply Rle_trans with (1 * bpow emin); [lra |]. apply Rmult_le_compat; [lra | apply bpow_ge_0 | auto | apply bpow_le, cexp_emin]. }
  assert (bpow emin = 2 * h) by (replace emin with (emin - 1 + 1)%Z at 1 by lia; rewrite bpow_plus; simpl (bpow 1); lra).
  assert (Rabs (rnd x) <= Rabs (rnd x - x) + Rabs x) by (replace (rnd x) with ((rnd x - x) + x) at 1 by ring; apply Rabs_triang).
  rewrite Rminus_0_l, Rabs_Ropp in N. lra.
Qed.
Lemma rnd_Z (n : Z) : (0 < n)%Z -> (1 - u) * IZR n <= rnd (IZR n) <= (1 + u) * IZR n /\ 1 <= rnd (IZR n).
Proof.
  intros P. assert (1 <= IZR n) by (apply IZR_le; lia).
  assert (G : 1 <= rnd (IZR n)) by (apply rnd_ge; [exact Hp | | auto]; change 1 with (bpow 0); apply F_bpow; [exact Hp | lia]). split; [| exact G].
  assert (N : Rabs (rnd (IZR n) - IZR n) <= u * Rabs (IZR n)).
  { destruct (relative_error_N_FLT_ex radix2 emin prec Hp (fun x => negb (Z.even x)) (IZR n)) as (eps & E1 & E).
    - rewrite Rabs_pos_eq by lra. apply Rle_trans with (bpow 0); [apply bpow_le; lia | simpl; lra].
    - rewrite E. replace (IZR n * (1 + eps) - IZR n) with (eps * IZR n) by ring. rewrite Rabs_mult. apply Rmult_le_compat_r; [apply Rabs_pos |]. rewrite <- half_u. exact E1. }
  rewrite (Rabs_pos_eq (IZR n)) in N by lra. apply Rabs_le_inv in N. lra.
Qed.
Lemma ap_div (n : Z) d e z y : 0 <= d -> 0 <= e -> (0 < n)%Z -> ap d e z y -> ap (d + 64 / 63 * u * (1 + d)) (64 / 63 * (e / IZR n)) (z / IZR n) (y / rnd (IZR n)).
Proof.
  intros D E P A. destruct (rnd_Z n P) as [[L U] G]. assert (Q : 1 <= IZR n) by (apply IZR_le; lia). pose proof u_pos. pose proof u_small.
  set (M := rnd (IZR n)) in *. set (m := IZR n) in *.
  assert (B : ap (64 / 63 * u) 0 (y / m) (y / M)).
  { unfold ap. replace (y / M - y / m) with ((y / m) * ((m - M) / M)) by (field; lra). rewrite Rabs_mult, Rplus_0_r, (Rmult_comm (64 / 63 * u)). apply Rmult_le_compat_l; [apply Rabs_pos |].
    unfold Rdiv at 1. rewrite Rabs_mult, (Rabs_pos_eq (/ M)) by (left; apply Rinv_0_lt_compat; lra).
    apply Rmult_le_reg_r with M; [lra |]. rewrite Rmult_assoc, Rinv_l, Rmult_1_r by lra. apply Rle_trans with (u * m); [apply Rabs_le; lra |].
    assert (u * m <= / 64 * m) by (apply Rmult_le_compat_r; lra). assert (u * (63 / 64 * m) <= u * M) by (apply Rmult_le_compat_l; lra). lra. }
  assert (C : ap d (e / m) (z / m) (y / m)).
  { unfold Rdiv. replace (e * / m) with (e * Rabs (/ m)) by (rewrite Rabs_pos_eq; [reflexivity | left; apply Rinv_0_lt_compat; lra]). now apply ap_mul. }
  assert (0 <= e / m) by (apply Rmult_le_pos; [auto | left; apply Rinv_0_lt_compat; lra]).
  eapply ap_weak; [| | exact (ap_trans d (e / m) (64 / 63 * u) 0 (z / m) (y / m) (y / M) ltac:(lra) C B)]; [lra |].
  assert (u * (e / m) <= / 64 * (e / m)) by (apply Rmult_le_compat_r; auto). lra.
Qed.

(** ** Sequences of terms and sums *)
Fixpoint sums (t : nat -> fl) (s0 : fl) (n : nat) : fl := match n with O => s0 | S n' => fadd (sums t s0 n') (t n') end.
Definition still (t : nat -> fl) (s0 : fl) (n : nat) : Prop := feq (sums t s0 n) (sums t s0 (S n)) = true.

Lemma exp_loop i x s0 (t : nat -> fl) : (forall n, t (S n) = fdiv (fmul (t n) x) (of_Z (i + Z.of_nat n + 1))) ->
  forall k n, still t s0 (n + k) -> (i + Z.of_nat (n + k) <= int_max)%Z -> exists M, (n <= M <= n + k)%nat /\ still t s0 M /\
    forall fuel, (k <= fuel)%nat -> exp_series fuel (i + Z.of_nat n) x (sums t s0 n) (t n) = FVal (sums t s0 M).
Proof.
  intros T. induction k as [|k IH]; intros n St B.
  - exists n. rewrite Nat.add_0_r in St. split; [lia |]. split; [exact St |]. intros fuel _. unfold still in St. cbn [sums] in St. destruct fuel; cbn [exp_series]; now rewrite St.
  - destruct (feq (sums t s0 n) (sums t s0 (S n))) eqn:E.
    + exists n. split; [lia |]. split; [exact E |]. intros fuel _. cbn [sums] in E. destruct fuel; cbn [exp_series]; now rewrite E.
    + destruct (IH (S n)) as (M & LM & SM & R); [now replace (S n + k)%nat with (n + S k)%nat by lia | lia |]. exists M. split; [lia |]. split; [exact SM |].
      intros [|fuel] L; [lia |]. cbn [exp_series]. cbn [sums] in E. rewrite E. replace (i + Z.of_nat n + 1 <=? int_max)%Z with true by (symmetry; apply Z.leb_le; lia).
      rewrite <- (R fuel ltac:(lia)). cbn [sums]. rewrite T. now replace (i + Z.of_nat (S n))%Z with (i + Z.of_nat n + 1)%Z by lia.
Qed.
Lemma sin_cos_loop i x s0 (t : nat -> fl) : (0 <= i)%Z ->
  (forall n, t (S n) = fdiv (fmul (fmul (t n) x) x) (of_Z (- ((i + 2 * Z.of_nat n) * (i + 2 * Z.of_nat n + 1))))) ->
  forall k n, still t s0 (n + k) -> (i + 2 * Z.of_nat (n + k) <= 46340)%Z -> exists M, (n <= M <= n + k)%nat /\ still t s0 M /\
    forall fuel, (k <= fuel)%nat -> sin_cos_series fuel (i + 2 * Z.of_nat n) x (sums t s0 n) (t n) = FVal (sums t s0 M).
Proof.
  intros I T. induction k as [|k IH]; intros n St B.
  - exists n. rewrite Nat.add_0_r in St. split; [lia |]. split; [exact St |]. intros fuel _. unfold still in St. cbn [sums] in St. destruct fuel; cbn [sin_cos_series]; now rewrite St.
  - destruct (feq (sums t s0 n) (sums t s0 (S n))) eqn:E.
    + exists n. split; [lia |]. split; [exact E |]. intros fuel _. cbn [sums] in E. destruct fuel; cbn [sin_cos_series]; now rewrite E.
    + destruct (IH (S n)) as (M & LM & SM & R); [now replace (S n + k)%nat with (n + S k)%nat by lia | lia |]. exists M. split; [lia |]. split; [exact SM |].
      intros [|fuel] L; [lia |]. cbn [sin_cos_series]. cbn [sums] in E. rewrite E.
      replace ((i + 2 * Z.of_nat n) * (i + 2 * Z.of_nat n + 1) <=? 2 ^ 31)%Z with true by (symmetry; apply Z.leb_le; change (2 ^ 31)%Z with 2147483648%Z; nia).
      rewrite <- (R fuel ltac:(lia)). cbn [sums]. rewrite T. now replace (i + 2 * Z.of_nat (S n))%Z with (i + 2 * Z.of_nat n + 2)%Z by lia.
Qed.

(** Sums of finite terms that are not too large. *)
Lemma sums_ok (t : nat -> fl) s0 (b : Z) : (0 <= b <= emax - 22)%Z -> is_finite s0 = true -> Rabs (v s0) <= bpow b ->
  forall N, (Z.of_nat N <= 2 ^ 16)%Z -> (forall n, (n < N)%nat -> is_finite (t n) = true /\ Rabs (v (t n)) <= bpow b) ->
  forall n, (n <= N)%nat -> is_finite (sums t s0 n) = true /\ Rabs (v (sums t s0 n)) <= (2 * INR n + 1) * bpow b /\
    ((n < N)%nat -> v (sums t s0 (S n)) = rnd (v (sums t s0 n) + v (t n))).
Proof.
  intros Hb F0 B0 N HN Ht.
  assert (pb : 0 < bpow b) by apply bpow_gt_0.
  assert (Big : forall n, (n <= N)%nat -> (2 * INR n + 2) * bpow b <= bpow (emax - 1)).
  { intros n Ln. apply Rle_trans with (bpow 18 * bpow b).
    - apply Rmult_le_compat_r; [lra |]. assert (INR n <= IZR (2 ^ 16)) by (rewrite INR_IZR_INZ; apply IZR_le; lia). simpl (bpow 18). simpl (2 ^ 16)%Z in *. lra.
    - rewrite <- bpow_plus. apply bpow_le. lia. }
  assert (Step : forall n, (n < N)%nat -> is_finite (sums t s0 n) = true -> Rabs (v (sums t s0 n)) <= (2 * INR n + 1) * bpow b ->
    v (sums t s0 (S n)) = rnd (v (sums t s0 n) + v (t n)) /\ is_finite (sums t s0 (S n)) = true).
  { intros n Ln Fn Bn. destruct (Ht n Ln) as [Ft Bt]. cbn [sums]. apply fadd_ok; auto. eapply Rle_trans; [apply Rabs_triang |].
    pose proof (Big n ltac:(lia)). lra. }
  assert (All : forall n, (n <= N)%nat -> is_finite (sums t s0 n) = true /\ Rabs (v (sums t s0 n)) <= (2 * INR n + 1) * bpow b).
  { induction n as [|n IH]; intros Ln.
    - cbn [sums INR]. split; [exact F0 | lra].
    - destruct (IH ltac:(lia)) as [Fn Bn]. destruct (Step n ltac:(lia) Fn Bn) as [V Fs]. split; [exact Fs |]. rewrite V, S_INR. destruct (Ht n ltac:(lia)) as [Ft Bt].
      pose proof (rnd_plus_small (v (sums t s0 n)) (v (t n)) (v_F _) (v_F _)).
      replace (rnd (v (sums t s0 n) + v (t n))) with ((rnd (v (sums t s0 n) + v (t n)) - (v (sums t s0 n) + v (t n))) + (v (sums t s0 n) + v (t n))) by ring.
      eapply Rle_trans; [apply Rabs_triang |]. pose proof (Rabs_triang (v (sums t s0 n)) (v (t n))). lra. }
  intros n Ln. destruct (All n Ln) as [Fn Bn]. split; [exact Fn |]. split; [exact Bn |]. intros L. now apply Step.
Qed.

(** What the loops return, once the terms are known to follow a convergent series. *)
Section Main.
Variables (t : nat -> fl) (s0 : fl) (b : Z) (N : nat) (a r w : nat -> R) (d e P Q L : R).
Hypothesis (Hb : (0 <= b <= emax - 22)%Z) (HN : (Z.of_nat N < 2 ^ 16)%Z) (F0 : is_finite s0 = true) (B0 : Rabs (v s0) <= bpow b).
Hypothesis (Tb : forall n, (n <= N)%nat -> is_finite (t n) = true /\ Rabs (v (t n)) <= bpow b) (Tz : v (t N) = 0).
Hypothesis (Hd : 0 <= d <= 1) (He : 0 <= e) (HP : 1 <= P) (HQ : 0 <= Q).
Hypothesis Hw : forall i, 1 <= w i <= P.
Hypothesis Hr : forall i, (1 + d) * Rabs (r i) * w (S i) <= 5 / 8 * w i.
Hypothesis Ha : forall i, a (S i) = a i * r i.
Hypothesis Ht : forall i, (i < N)%nat -> ap d e (v (t i) * r i) (v (t (S i))).
Hypothesis Ht0 : ap d e (a 0%nat) (v (t 0%nat)).
Hypothesis HS : forall n, Rabs (v s0 + psum a n) <= Q.
Hypothesis HL : Un_cv (psum a) L.
Let A := P * Rabs (a 0%nat).
Let B := 8 / 3 * (P * e).
Let total := 8 * (d * A) + INR (2 * Z.to_nat prec) * (u * (5 / 4 * Q)) + 16 / 3 * u * A + 2 * INR (S N) * B.
Hypothesis small : total <= Q / 4.

Let tr n := if (n <=? N)%nat then v (t n) else 0.
Let sr n := if (n <=? N)%nat then v (sums t s0 n) else v (sums t s0 N).

Lemma still_end : still t s0 N.
Proof.
  destruct (sums_ok t s0 b Hb F0 B0 (S N) ltac:(lia) (fun n L => Tb n ltac:(lia)) N ltac:(lia)) as (FN & _ & V). specialize (V ltac:(lia)). rewrite Tz, Rplus_0_r, rnd_F in V by apply v_F.
  destruct (sums_ok t s0 b Hb F0 B0 (S N) ltac:(lia) (fun n L => Tb n ltac:(lia)) (S N) ltac:(lia)) as (FS & _ & _).
  unfold still. rewrite feq_spec by auto. apply Req_bool_true. now symmetry.
Qed.
Lemma pow58 : (5 / 8) ^ (2 * Z.to_nat prec) <= u.
Proof.
  assert (G : forall n, (5 / 8) ^ (2 * n) <= bpow (- Z.of_nat n)).
  { intros n. rewrite pow_mult. replace ((5 / 8) ^ 2) with (25 / 64) by (cbn; lra). induction n as [|k IH]; [simpl; lra |].
    replace (- Z.of_nat (S k))%Z with (- Z.of_nat k + -1)%Z by lia. rewrite bpow_plus. simpl (bpow (-1)). cbn [pow]. pose proof (bpow_gt_0 radix2 (- Z.of_nat k)). lra. }
  specialize (G (Z.to_nat prec)). rewrite Z2Nat.id in G by lia. exact G.
Qed.
Theorem series_error M : (M <= N)%nat -> still t s0 M ->
  is_finite (sums t s0 M) = true /\ Rabs (v (sums t s0 M) - (v s0 + L)) <= total + 8 / 3 * (P * (u * (5 / 4 * Q) + (3 / 2 * (d * A) + B))).
Proof.
  intros LM St.
  assert (OK : forall n, (n <= S N)%nat -> is_finite (sums t s0 n) = true /\ ((n < S N)%nat -> v (sums t s0 (S n)) = rnd (v (sums t s0 n) + v (t n)))).
  { intros n Ln. destruct (sums_ok t s0 b Hb F0 B0 (S N) ltac:(lia) (fun n L => Tb n ltac:(lia)) n Ln) as (X & _ & Y). auto. }
  destruct (OK M ltac:(lia)) as [FM VM]. split; [exact FM |].
  pose proof u_pos as up. pose proof (Rabs_pos (a 0%nat)) as ap0.
  assert (HA : 0 <= A) by (apply Rmult_le_pos; lra).
  assert (HB : 0 <= B) by (unfold B; pose proof (Rmult_le_pos P e ltac:(lra) He); lra).
  assert (Htr : forall i, Rabs (tr (S i) - tr i * r i) <= d * Rabs (tr i * r i) + e).
  { intros i. unfold tr. destruct (Nat.leb_spec i N) as [Li|Li].
    - destruct (Nat.leb_spec (S i) N) as [Lj|Lj]; [apply Ht; lia |]. assert (i = N) by lia. subst i. rewrite Tz, Rmult_0_l, Rminus_0_r, Rabs_R0. lra.
    - destruct (Nat.leb_spec (S i) N); [lia |]. rewrite Rmult_0_l, Rminus_0_r, Rabs_R0. lra. }
  assert (Ht0' : Rabs (tr 0%nat - a 0%nat) <= d * Rabs (a 0%nat) + e) by exact Ht0.
  assert (E1 : forall n, Rabs (tr n - a n) <= (INR n + 1) * (5 / 8) ^ n * (d * A) + B) by (intros n; apply (term_error a tr r w d e P); auto; lra).
  assert (E2 : forall n, Rabs (tr n) <= (5 / 8) ^ n * (2 * A) + B).
  { intros n. eapply Rle_trans; [apply (term_size a tr r w d e P); auto; lra |]. fold A. fold B. apply Rplus_le_compat_r. apply Rmult_le_compat_l; [apply pow_le; lra |]. apply Rmult_le_compat_r; lra. }
  assert (Hsr : forall n, sr (S n) = rnd (sr n + tr n) /\ F (sr n) /\ F (tr n)).
  { intros n. unfold sr, tr. split; [| split].
    - destruct (Nat.leb_spec n N) as [Ln|Ln].
      + destruct (OK n ltac:(lia)) as [_ V]. rewrite <- V by lia. destruct (Nat.leb_spec (S n) N); [reflexivity |]. assert (n = N) by lia. subst n. rewrite V, Tz, Rplus_0_r, rnd_F by (lia || apply v_F). reflexivity.
      + destruct (Nat.leb_spec (S n) N); [lia |]. now rewrite Rplus_0_r, rnd_F by apply v_F.
    - destruct (n <=? N)%nat; apply v_F.
    - destruct (n <=? N)%nat; [apply v_F | apply generic_format_0]. }
  assert (E3 : forall n, Rabs (sr (S n) - (sr n + tr n)) <= u * Rabs (sr n + tr n)) by (intros n; destruct (Hsr n) as (-> & X & Y); now apply rnd_plus).
  assert (E4 : forall n, Rabs (sr (S n) - (sr n + tr n)) <= Rabs (tr n)) by (intros n; destruct (Hsr n) as (-> & X & Y); now apply rnd_plus_small).
  assert (p58 := pow58). assert (p0 : 0 <= (5 / 8) ^ (2 * Z.to_nat prec)) by (apply pow_le; lra).
  assert (T58 : 16 / 3 * (5 / 8) ^ (2 * Z.to_nat prec) * A <= 16 / 3 * u * A) by (apply Rmult_le_compat_r; lra).
  assert (Le : Rabs (sr M - (v s0 + L)) <= 8 * (d * A) + INR (2 * Z.to_nat prec) * (u * (5 / 4 * Q)) + 16 / 3 * (5 / 8) ^ (2 * Z.to_nat prec) * A + 2 * INR (S N) * B + 8 / 3 * (P * (u * (5 / 4 * Q) + (3 / 2 * (d * A) + B)))).
  { apply (stop_error a tr sr (v s0) A B u Q d); auto; try lra.
    - unfold total in small. lra.
    - lia.
    - unfold still in St. destruct (OK (S M) ltac:(lia)) as [FS _]. rewrite feq_spec in St by auto. destruct (Req_bool_spec (v (sums t s0 M)) (v (sums t s0 (S M)))) as [Eq|]; [| discriminate]. unfold sr.
      destruct (Nat.leb_spec M N) as [|]; [| lia]. destruct (Nat.leb_spec (S M) N) as [|]; [now symmetry |]. now replace N with M by lia.
    - apply (tail_bound a r w d P); auto; lra. }
  unfold sr in Le. destruct (Nat.leb_spec M N) as [|]; [| lia]. unfold total. lra.
Qed.
End Main.
End Fmt.
