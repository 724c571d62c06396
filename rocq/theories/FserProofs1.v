(** Rounding errors of series summed in floating point, over the real numbers. *)
From Coq Require Import Reals Lra Lia Arith.
Local Open Scope R_scope.

Lemma abs_mult_le a b c e : Rabs a <= c -> Rabs b <= e -> Rabs (a * b) <= c * e.
Proof. intros A B. rewrite Rabs_mult. apply Rmult_le_compat; auto using Rabs_pos. Qed.

(** ** Terms made from one another by a multiplication with an error *)
Section Terms.
Variables (a t r w : nat -> R) (d h P : R).
Hypothesis (Hd : 0 <= d) (Hh : 0 <= h) (HP : 1 <= P).
Hypothesis Hw : forall i, 1 <= w i <= P.
Hypothesis Hr : forall i, (1 + d) * Rabs (r i) * w (S i) <= 5 / 8 * w i.
Hypothesis Ha : forall i, a (S i) = a i * r i.
Hypothesis Ht : forall i, Rabs (t (S i) - t i * r i) <= d * Rabs (t i * r i) + h.
Hypothesis H0 : Rabs (t 0%nat - a 0%nat) <= d * Rabs (a 0%nat) + h.

Fixpoint under (n : nat) : R := match n with O => h | S n' => (1 + d) * Rabs (r n') * under n' + h end.
Lemma under_pos n : 0 <= under n.
Proof. induction n; cbn; auto. pose proof (Rabs_pos (r n)). assert (0 <= (1 + d) * Rabs (r n)) by (apply Rmult_le_pos; lra). nra. Qed.
Lemma under_w n : under n * w n <= 8 / 3 * (P * h).
Proof.
  induction n as [|n IH]; cbn [under].
  - specialize (Hw 0%nat). assert (0 <= h * (P - w 0%nat)) by (apply Rmult_le_pos; lra). assert (0 <= P * h) by (apply Rmult_le_pos; lra). lra.
  - pose proof (under_pos n). specialize (Hr n). pose proof (Hw (S n)).
    assert (under n * ((1 + d) * Rabs (r n) * w (S n)) <= under n * (5 / 8 * w n)) by (apply Rmult_le_compat_l; auto).
    assert (0 <= h * (P - w (S n))) by (apply Rmult_le_pos; lra). lra.
Qed.
Lemma under_le n : under n <= 8 / 3 * (P * h).
Proof. pose proof (under_w n). pose proof (under_pos n). pose proof (Hw n). assert (0 <= under n * (w n - 1)) by (apply Rmult_le_pos; lra). lra. Qed.

Lemma grow_w n : (1 + d) ^ n * Rabs (a n) * w n <= (5 / 8) ^ n * (P * Rabs (a 0%nat)).
Proof.
  induction n as [|n IH].
  - cbn [pow]. pose proof (Rabs_pos (a 0%nat)). pose proof (Hw 0%nat). assert (0 <= Rabs (a 0%nat) * (P - w 0%nat)) by (apply Rmult_le_pos; lra). lra.
  - rewrite Ha, Rabs_mult. cbn [pow].
    assert (0 <= (1 + d) ^ n * Rabs (a n)) by (apply Rmult_le_pos; [apply pow_le; lra | apply Rabs_pos]).
    assert (Q : (1 + d) ^ n * Rabs (a n) * ((1 + d) * Rabs (r n) * w (S n)) <= (1 + d) ^ n * Rabs (a n) * (5 / 8 * w n)) by (apply Rmult_le_compat_l; auto).
    lra.
Qed.
Lemma grow n : (1 + d) ^ n * Rabs (a n) <= (5 / 8) ^ n * (P * Rabs (a 0%nat)).
Proof.
  pose proof (grow_w n) as G. pose proof (Hw n). assert (0 <= (1 + d) ^ n * Rabs (a n)) by (apply Rmult_le_pos; [apply pow_le; lra | apply Rabs_pos]).
  assert (0 <= (1 + d) ^ n * Rabs (a n) * (w n - 1)) by (apply Rmult_le_pos; lra). lra.
Qed.
Lemma a_le n : Rabs (a n) <= (5 / 8) ^ n * (P * Rabs (a 0%nat)).
Proof.
  pose proof (grow n). assert (1 <= (1 + d) ^ n) by (apply pow_R1_Rle; lra). pose proof (Rabs_pos (a n)).
  assert (0 <= ((1 + d) ^ n - 1) * Rabs (a n)) by (apply Rmult_le_pos; lra). lra.
Qed.
Lemma t_err n : Rabs (t n - a n) <= ((1 + d) ^ S n - 1) * Rabs (a n) + under n.
Proof.
  induction n as [|n IH]; [cbn [pow under]; lra |].
  replace (t (S n) - a (S n)) with ((t (S n) - t n * r n) + r n * (t n - a n)) by (rewrite Ha; ring).
  eapply Rle_trans; [apply Rabs_triang |]. pose proof (Ht n) as T.
  assert (B : Rabs (t n * r n) <= Rabs (a (S n)) + Rabs (r n) * Rabs (t n - a n)).
  { replace (t n * r n) with (a (S n) + r n * (t n - a n)) by (rewrite Ha; ring). eapply Rle_trans; [apply Rabs_triang |]. rewrite (Rabs_mult (r n)). lra. }
  rewrite (Rabs_mult (r n) (t n - a n)).
  assert (C : d * Rabs (t n * r n) <= d * (Rabs (a (S n)) + Rabs (r n) * Rabs (t n - a n))) by (apply Rmult_le_compat_l; auto).
  assert (D : Rabs (r n) * Rabs (t n - a n) <= Rabs (r n) * (((1 + d) ^ S n - 1) * Rabs (a n) + under n)) by (apply Rmult_le_compat_l; auto using Rabs_pos).
  assert (E : Rabs (a (S n)) = Rabs (r n) * Rabs (a n)) by (rewrite Ha, Rabs_mult; ring).
  cbn [under]. change ((1 + d) ^ S (S n)) with ((1 + d) * (1 + d) ^ S n). rewrite E in *.
  set (p := (1 + d) ^ S n) in *. set (rr := Rabs (r n)) in *. set (aa := Rabs (a n)) in *. set (ee := Rabs (t n - a n)) in *. set (uu := under n) in *.
  assert (d * (rr * ee) <= d * (rr * ((p - 1) * aa + uu))) by (apply Rmult_le_compat_l; auto). lra.
Qed.
Lemma pow_excess n : (1 + d) ^ S n - 1 <= (INR n + 1) * d * (1 + d) ^ n.
Proof.
  induction n as [|n IH]; [cbn; lra |]. rewrite S_INR. change ((1 + d) ^ S (S n)) with ((1 + d) * (1 + d) ^ S n).
  assert (1 <= (1 + d) ^ S n) by (apply pow_R1_Rle; lra). change ((1 + d) ^ S n) with ((1 + d) * (1 + d) ^ n) in *. set (p := (1 + d) ^ n) in *.
  assert ((1 + d) * ((1 + d) * p - 1) <= (1 + d) * ((INR n + 1) * d * p)) by (apply Rmult_le_compat_l; lra).
  assert (0 <= d * ((1 + d) * p - 1)) by (apply Rmult_le_pos; lra). lra.
Qed.
Theorem term_error n : Rabs (t n - a n) <= (INR n + 1) * (5 / 8) ^ n * (d * (P * Rabs (a 0%nat))) + 8 / 3 * (P * h).
Proof.
  pose proof (t_err n) as T. pose proof (under_le n). pose proof (pow_excess n) as X. pose proof (grow n) as G. pose proof (Rabs_pos (a n)) as A. pose proof (pos_INR n).
  assert (((1 + d) ^ S n - 1) * Rabs (a n) <= (INR n + 1) * d * (1 + d) ^ n * Rabs (a n)) by (apply Rmult_le_compat_r; auto).
  assert ((INR n + 1) * d * ((1 + d) ^ n * Rabs (a n)) <= (INR n + 1) * d * ((5 / 8) ^ n * (P * Rabs (a 0%nat)))) by (apply Rmult_le_compat_l; [apply Rmult_le_pos; lra | auto]).
  lra.
Qed.
Theorem term_size n : Rabs (t n) <= (5 / 8) ^ n * ((1 + d) * (P * Rabs (a 0%nat))) + 8 / 3 * (P * h).
Proof.
  pose proof (t_err n) as T. pose proof (under_le n). pose proof (grow n) as G.
  assert (Rabs (t n) <= Rabs (a n) + Rabs (t n - a n)) by (replace (t n) with (a n + (t n - a n)) at 1 by ring; apply Rabs_triang).
  change ((1 + d) ^ S n) with ((1 + d) * (1 + d) ^ n) in T.
  assert ((1 + d) * ((1 + d) ^ n * Rabs (a n)) <= (1 + d) * ((5 / 8) ^ n * (P * Rabs (a 0%nat)))) by (apply Rmult_le_compat_l; lra). lra.
Qed.

Fixpoint psum (n : nat) : R := match n with O => 0 | S n' => psum n' + a n' end.
Lemma w_decay N k : Rabs (a (N + k)%nat) * w (N + k)%nat <= (5 / 8) ^ k * (Rabs (a N) * w N).
Proof.
  induction k as [|k IH]; [rewrite Nat.add_0_r; cbn; lra |]. rewrite Nat.add_succ_r, Ha, Rabs_mult. cbn [pow]. specialize (Hr (N + k)%nat).
  pose proof (Rabs_pos (a (N + k)%nat)). pose proof (Rabs_pos (r (N + k)%nat)). pose proof (Hw (S (N + k))).
  assert (0 <= d * (Rabs (r (N + k)%nat) * w (S (N + k)))) by (apply Rmult_le_pos; [auto | apply Rmult_le_pos; lra]).
  assert (Rabs (a (N + k)%nat) * (Rabs (r (N + k)%nat) * w (S (N + k))) <= Rabs (a (N + k)%nat) * (5 / 8 * w (N + k)%nat)) by (apply Rmult_le_compat_l; [auto | lra]).
  lra.
Qed.
Lemma psum_tail N k : Rabs (psum (N + k) - psum N) <= 8 / 3 * (1 - (5 / 8) ^ k) * (P * Rabs (a N)).
Proof.
  induction k as [|k IH]; [rewrite Nat.add_0_r; cbn; rewrite Rminus_diag_eq, Rabs_R0 by ring; lra |].
  rewrite Nat.add_succ_r. cbn [psum pow]. replace (psum (N + k) + a (N + k)%nat - psum N) with ((psum (N + k) - psum N) + a (N + k)%nat) by ring.
  eapply Rle_trans; [apply Rabs_triang |]. pose proof (w_decay N k) as D. pose proof (Hw (N + k)). pose proof (Hw N). pose proof (Rabs_pos (a (N + k)%nat)). pose proof (Rabs_pos (a N)).
  assert (0 <= Rabs (a (N + k)%nat) * (w (N + k)%nat - 1)) by (apply Rmult_le_pos; lra).
  assert (0 <= (5 / 8) ^ k) by (apply pow_le; lra).
  assert ((5 / 8) ^ k * (Rabs (a N) * w N) <= (5 / 8) ^ k * (Rabs (a N) * P)) by (apply Rmult_le_compat_l; [auto | apply Rmult_le_compat_l; lra]).
  lra.
Qed.
Theorem tail_bound L N : Un_cv psum L -> Rabs (L - psum N) <= 8 / 3 * (P * Rabs (a N)).
Proof.
  intros C. apply Rnot_lt_le. intros B. set (e := Rabs (L - psum N) - 8 / 3 * (P * Rabs (a N))). destruct (C e) as (M & HM); [unfold e; lra |].
  specialize (HM (N + M)%nat ltac:(lia)). unfold R_dist in HM. pose proof (psum_tail N M) as T.
  assert (0 <= (5 / 8) ^ M) by (apply pow_le; lra). pose proof (Rabs_pos (a N)).
  assert (0 <= (5 / 8) ^ M * (P * Rabs (a N))) by (apply Rmult_le_pos; [auto | apply Rmult_le_pos; lra]).
  assert (Rabs (L - psum N) <= Rabs (psum (N + M) - L) + Rabs (psum (N + M) - psum N)).
  { replace (L - psum N) with (- (psum (N + M)%nat - L) + (psum (N + M)%nat - psum N)) by ring. eapply Rle_trans; [apply Rabs_triang |]. rewrite Rabs_Ropp. lra. }
  unfold e in HM. lra.
Qed.
End Terms.

(** ** Sums *)
Lemma geom_sum n : forall K, exists G : nat -> R, (forall i, G (S i) = G i + (if (i <? K)%nat then 0 else (5 / 8) ^ i)) /\ G 0%nat = 0 /\ G n <= 8 / 3 * (5 / 8) ^ K.
Proof.
  intros K. set (G := fix G i := match i with O => 0 | S i' => G i' + (if (i' <? K)%nat then 0 else (5 / 8) ^ i') end). exists G. split; [reflexivity |]. split; [reflexivity |].
  assert (A : forall n, G n <= 8 / 3 * ((5 / 8) ^ K - (5 / 8) ^ (Nat.max n K))).
  { clear n. induction n as [|n IH]; [cbn [G Nat.max]; lra |]. cbn [G]. destruct (n <? K)%nat eqn:E.
    - apply Nat.ltb_lt in E. rewrite Nat.max_r in IH by lia. rewrite Nat.max_r by lia. lra.
    - apply Nat.ltb_ge in E. rewrite Nat.max_l in IH by lia. rewrite Nat.max_l by lia. cbn [pow]. lra. }
  specialize (A n). assert (0 <= (5 / 8) ^ (Nat.max n K)) by (apply pow_le; lra). lra.
Qed.

Section Sum.
Variables (a t s : nat -> R) (S0 A B u Q : R) (c : R).
(* |t n - a n| <= (n+1) q^n (c A) + B ; |t n| <= q^n (2 A) + B *)
Hypothesis (HA : 0 <= A) (HB : 0 <= B) (Hu : 0 <= u) (HQ : 0 <= Q) (Hc : 0 <= c).
Hypothesis E1 : forall n, Rabs (t n - a n) <= (INR n + 1) * (5 / 8) ^ n * (c * A) + B.
Hypothesis E2 : forall n, Rabs (t n) <= (5 / 8) ^ n * (2 * A) + B.
Hypothesis E3 : forall n, Rabs (s (S n) - (s n + t n)) <= u * Rabs (s n + t n).
Hypothesis E4 : forall n, Rabs (s (S n) - (s n + t n)) <= Rabs (t n).
Hypothesis E5 : s 0%nat = S0.
Hypothesis E6 : forall n, Rabs (S0 + psum a n) <= Q.
Variables (K N : nat).
Let total := 8 * (c * A) + INR K * (u * (5 / 4 * Q)) + 16 / 3 * (5 / 8) ^ K * A + 2 * INR N * B.
Hypothesis small : total <= Q / 4.

(** The bound after n rounds. *)
Fixpoint gain (n : nat) : R :=
  match n with O => 0 | S n' => gain n' + ((INR n' + 1) * (5 / 8) ^ n' * (c * A) + B) + (if (n' <? K)%nat then u * (5 / 4 * Q) else (5 / 8) ^ n' * (2 * A) + B) end.
Lemma arith n : exists G : R, gain n = G /\ G <= (64 / 9 - (5 / 8) ^ n * (8 / 3 * INR n + 64 / 9)) * (c * A) + INR (Nat.min n K) * (u * (5 / 4 * Q)) +
  16 / 3 * ((5 / 8) ^ K - (5 / 8) ^ (Nat.max n K)) * A + 2 * INR n * B.
Proof.
  eexists. split; [reflexivity |]. induction n as [|n IH]; [cbn [gain pow INR Nat.min Nat.max]; lra |]. cbn [gain].
  rewrite S_INR. destruct (n <? K)%nat eqn:E.
  - apply Nat.ltb_lt in E. rewrite Nat.min_l, Nat.max_r in * by lia. rewrite S_INR. cbn [pow]. lra.
  - apply Nat.ltb_ge in E. rewrite Nat.min_r, Nat.max_l in * by lia. cbn [pow]. lra.
Qed.
Lemma gain_le n : (n <= N)%nat -> gain n <= total.
Proof.
  intros L. destruct (arith n) as (G & -> & HG). eapply Rle_trans; [exact HG |]. unfold total.
  assert (0 <= (5 / 8) ^ n) by (apply pow_le; lra). assert (0 <= (5 / 8) ^ (Nat.max n K)) by (apply pow_le; lra). pose proof (pos_INR n).
  assert (0 <= c * A) by (apply Rmult_le_pos; auto). assert (0 <= u * (5 / 4 * Q)) by (apply Rmult_le_pos; lra).
  assert (INR (Nat.min n K) <= INR K) by (apply le_INR; lia). assert (INR n <= INR N) by (apply le_INR; lia).
  assert (0 <= (5 / 8) ^ n * (8 / 3 * INR n + 64 / 9) * (c * A)) by (apply Rmult_le_pos; [apply Rmult_le_pos; lra | auto]).
  assert (INR (Nat.min n K) * (u * (5 / 4 * Q)) <= INR K * (u * (5 / 4 * Q))) by (apply Rmult_le_compat_r; auto).
  assert (0 <= (5 / 8) ^ (Nat.max n K) * A) by (apply Rmult_le_pos; auto). assert (INR n * B <= INR N * B) by (apply Rmult_le_compat_r; auto). lra.
Qed.
Lemma gain_step n : gain n + ((INR n + 1) * (5 / 8) ^ n * (c * A) + B) <= gain (S n).
Proof.
  cbn [gain]. assert (0 <= u * (5 / 4 * Q)) by (apply Rmult_le_pos; lra). assert (0 <= (5 / 8) ^ n) by (apply pow_le; lra).
  assert (0 <= (5 / 8) ^ n * (2 * A)) by (apply Rmult_le_pos; lra). destruct (n <? K)%nat; lra.
Qed.
Theorem sum_error n : (n <= N)%nat -> Rabs (s n - (S0 + psum a n)) <= gain n.
Proof.
  induction n as [|n IH]; intros L; [rewrite E5; cbn; rewrite Rminus_diag_eq, Rabs_R0 by ring; lra |]. specialize (IH ltac:(lia)).
  assert (I : Rabs (s n + t n - (S0 + psum a (S n))) <= gain n + ((INR n + 1) * (5 / 8) ^ n * (c * A) + B)).
  { cbn [psum]. replace (s n + t n - (S0 + (psum a n + a n))) with ((s n - (S0 + psum a n)) + (t n - a n)) by ring. eapply Rle_trans; [apply Rabs_triang |]. specialize (E1 n). lra. }
  assert (J : Rabs (s n + t n) <= 5 / 4 * Q).
  { replace (s n + t n) with ((S0 + psum a (S n)) + (s n + t n - (S0 + psum a (S n)))) by ring. eapply Rle_trans; [apply Rabs_triang |].
    specialize (E6 (S n)). pose proof (gain_step n). pose proof (gain_le (S n) L). lra. }
  replace (s (S n) - (S0 + psum a (S n))) with ((s (S n) - (s n + t n)) + (s n + t n - (S0 + psum a (S n)))) by ring. eapply Rle_trans; [apply Rabs_triang |]. cbn [gain].
  destruct (n <? K)%nat.
  - specialize (E3 n). assert (u * Rabs (s n + t n) <= u * (5 / 4 * Q)) by (apply Rmult_le_compat_l; auto). lra.
  - specialize (E4 n). specialize (E2 n). lra.
Qed.

(** The loop stops in round M: the last sum did not change. *)
Theorem stop_error P L M : (M < N)%nat -> 1 <= P -> s (S M) = s M -> Rabs (L - psum a M) <= 8 / 3 * (P * Rabs (a M)) ->
  Rabs (s M - (S0 + L)) <= total + 8 / 3 * (P * (u * (5 / 4 * Q) + (3 / 2 * (c * A) + B))).
Proof.
  intros LM HP St T. pose proof (sum_error M ltac:(lia)) as G. pose proof (gain_le M ltac:(lia)) as GL.
  assert (J : Rabs (s M + t M) <= 5 / 4 * Q).
  { replace (s M + t M) with ((S0 + psum a (S M)) + ((s M - (S0 + psum a M)) + (t M - a M))) by (cbn [psum]; ring). eapply Rle_trans; [apply Rabs_triang |].
    pose proof (Rabs_triang (s M - (S0 + psum a M)) (t M - a M)).
    specialize (E6 (S M)). specialize (E1 M). pose proof (gain_step M). pose proof (gain_le (S M) ltac:(lia)). lra. }
  assert (X : Rabs (t M) <= u * (5 / 4 * Q)).
  { specialize (E3 M). rewrite St in E3. replace (s M - (s M + t M)) with (- t M) in E3 by ring. rewrite Rabs_Ropp in E3.
    assert (u * Rabs (s M + t M) <= u * (5 / 4 * Q)) by (apply Rmult_le_compat_l; auto). lra. }
  assert (Y : (INR M + 1) * (5 / 8) ^ M <= 3 / 2).
  { clear. assert (W : forall k, (INR k + 1) * (5 / 8) ^ k <= 5 / 4).
    { intros k. induction k as [|k IH]; [cbn; lra |]. rewrite S_INR. cbn [pow]. pose proof (pos_INR k). assert (0 <= (5 / 8) ^ k) by (apply pow_le; lra).
      destruct k as [|k]; [cbn; lra |]. rewrite S_INR in *. pose proof (pos_INR k).
      assert (5 / 8 * (INR k + 1 + 1 + 1) <= INR k + 1 + 1 - 1 / 8 + 0 \/ INR k + 1 <= 2) as [Q'|Q'] by lra.
      - set (q := (5 / 8) ^ S k) in *. nra.
      - destruct k as [|[|k]]; [cbn; lra | cbn; lra |]. rewrite !S_INR in Q'. pose proof (pos_INR k). lra. }
    specialize (W M). lra. }
  assert (Z : Rabs (a M) <= u * (5 / 4 * Q) + (3 / 2 * (c * A) + B)).
  { replace (a M) with (t M - (t M - a M)) by ring. eapply Rle_trans; [apply Rabs_triang |]. rewrite Rabs_Ropp. specialize (E1 M).
    assert ((INR M + 1) * (5 / 8) ^ M * (c * A) <= 3 / 2 * (c * A)) by (apply Rmult_le_compat_r; [apply Rmult_le_pos; auto | auto]). lra. }
  replace (s M - (S0 + L)) with ((s M - (S0 + psum a M)) - (L - psum a M)) by ring. eapply Rle_trans; [apply Rabs_triang |]. rewrite Rabs_Ropp.
  assert (P * Rabs (a M) <= P * (u * (5 / 4 * Q) + (3 / 2 * (c * A) + B))) by (apply Rmult_le_compat_l; lra). lra.
Qed.
End Sum.
