(** * Proofs: the iterations of the mathematical functions. *)
From Coq Require Import Reals ZArith List Lra Lia Psatz.
From Flocq Require Import Raux.
From Coquelicot Require Import Coquelicot.
From Verif Require Import MathModel.
Local Open Scope R_scope.

Lemma lim_eq (u : nat -> R) (l : R) : is_lim_seq u l -> lim u = l.
Proof. intro H. unfold lim. now rewrite (is_lim_seq_unique u l H). Qed.

(** A sequence within a null sequence of l. *)
Lemma lim_abs (u b : nat -> R) (l : R) : (forall k, Rabs (l - u k) <= b k) -> is_lim_seq b 0 -> is_lim_seq u l.
Proof.
intros H Hb. apply is_lim_seq_spec. intros eps.
apply is_lim_seq_spec in Hb. destruct (Hb eps) as [N HN]. exists N. intros n Hn.
rewrite Rabs_minus_sym. specialize (H n). specialize (HN n Hn).
rewrite Rminus_0_r in HN. pose proof (Rle_abs (b n)). lra.
Qed.

(** ** Newton's iteration. *)
Section Newton.
Variable a : R.
Hypothesis apos : 0 < a.

Lemma newton_pos k : 0 < newton a k.
Proof.
induction k as [|k IH]; cbn [newton]; [lra|].
assert (0 < a / newton a k) by (apply Rdiv_lt_0_compat; auto). lra.
Qed.

Lemma newton_err k : newton a (S k) - sqrt a = (newton a k - sqrt a) * (newton a k - sqrt a) / (2 * newton a k).
Proof.
pose proof (newton_pos k) as Hp. cbn [newton].
pose proof (sqrt_sqrt a ltac:(lra)) as Hs. set (p := newton a k) in *. set (s := sqrt a) in *.
replace (a / p) with (s * s / p) by (now rewrite Hs). field. lra.
Qed.

Lemma newton_ge k : sqrt a <= newton a (S k).
Proof.
pose proof (newton_err k) as E. pose proof (newton_pos k) as Hp.
assert (0 <= newton a (S k) - sqrt a); [|lra].
rewrite E. apply Rmult_le_pos; [exact (Rle_0_sqr _)|]. apply Rlt_le, Rinv_0_lt_compat. lra.
Qed.

Lemma newton_half k : newton a (S (S k)) - sqrt a <= / 2 * (newton a (S k) - sqrt a).
Proof.
rewrite newton_err. pose proof (newton_pos (S k)) as Hp. pose proof (newton_ge k) as G.
pose proof (sqrt_lt_R0 a apos) as Hs. set (p := newton a (S k)) in *.
replace ((p - sqrt a) * (p - sqrt a) / (2 * p)) with (/ 2 * ((p - sqrt a) * ((p - sqrt a) / p))) by (field; lra).
apply Rmult_le_compat_l; [lra|].
rewrite <- (Rmult_1_r (p - sqrt a)) at 3. apply Rmult_le_compat_l; [lra|].
apply (Rmult_le_reg_r p); [lra|]. unfold Rdiv. rewrite Rmult_assoc, Rinv_l; lra.
Qed.

Lemma newton_le k : newton a (S (S k)) <= newton a (S k).
Proof. pose proof (newton_half k). pose proof (newton_ge k). lra. Qed.

Lemma newton_bound k : newton a (S k) - sqrt a <= (/ 2) ^ k * (newton a 1 - sqrt a).
Proof.
induction k as [|k IH]; [rewrite pow_O; lra|].
pose proof (newton_half k). rewrite <- tech_pow_Rmult. lra.
Qed.

Lemma newton_cv : is_lim_seq (newton a) (sqrt a).
Proof.
apply is_lim_seq_incr_1.
apply lim_abs with (b := fun k => (newton a 1 - sqrt a) * (/ 2) ^ k).
- intro k. pose proof (newton_ge k). rewrite Rabs_left1 by lra. pose proof (newton_bound k). lra.
- replace (Finite 0) with (Rbar_mult (newton a 1 - sqrt a) 0) by (simpl; f_equal; ring).
  apply is_lim_seq_scal_l, is_lim_seq_geom. rewrite Rabs_pos_eq; lra.
Qed.

Lemma newton_fix p : 0 < p -> / 2 * (p + a / p) = p -> p = sqrt a.
Proof.
intros Hp E. symmetry. apply sqrt_lem_1; [lra|lra|].
assert (p + a / p = 2 * p) by lra. assert (E2 : a / p = p) by lra.
apply (f_equal (fun z => z * p)) in E2. unfold Rdiv in E2. rewrite Rmult_assoc, Rinv_l, Rmult_1_r in E2; lra.
Qed.
End Newton.

Lemma sqrt_pos_val a : 0 < a -> sqrt_ a = Val (sqrt a).
Proof.
intro H. unfold sqrt_. destruct (Req_EM_T a 0); [lra|]. destruct (Rlt_dec a 0); [lra|].
f_equal. apply lim_eq, newton_cv, H.
Qed.
Lemma sqrt_val a : 0 <= a -> sqrt_ a = Val (sqrt a).
Proof.
intros [H|<-]; [now apply sqrt_pos_val|].
unfold sqrt_. destruct (Req_EM_T 0 0); [|lra]. now rewrite sqrt_0.
Qed.
Lemma sqrt_neg a : a < 0 -> sqrt_ a = NaN.
Proof. intro H. unfold sqrt_. destruct (Req_EM_T a 0); [lra|]. destruct (Rlt_dec a 0); [easy|lra]. Qed.

(** ** The exponential series. *)
Lemma exp_loop_shift k : forall i x s c t, exp_loop k i x (s + c) t = exp_loop k i x s t + c.
Proof.
induction k as [|k IH]; intros; cbn [exp_loop]; [easy|].
replace (s + c + t) with (s + t + c) by ring. apply IH.
Qed.

Lemma exp_loop_sum k : forall i x, 
  exp_loop k (Z.of_nat (S i)) x (sum_f_R0 (fun j => / INR (fact j) * x ^ j) i) (/ INR (fact (S i)) * x ^ S i)
  = sum_f_R0 (fun j => / INR (fact j) * x ^ j) (i + k).
Proof.
induction k as [|k IH]; intros i x; cbn [exp_loop].
- now rewrite Nat.add_0_r.
- replace (i + S k)%nat with (S i + k)%nat by lia. rewrite <- IH.
  replace (Z.of_nat (S i) + 1)%Z with (Z.of_nat (S (S i))) by lia.
  rewrite <- INR_IZR_INZ. f_equal.
  rewrite (fact_simpl (S i)), mult_INR.
  pose proof (INR_fact_neq_0 (S i)). pose proof (not_0_INR (S (S i)) ltac:(lia)).
  simpl pow. field. split; assumption.
Qed.

Lemma E1_lim x : is_lim_seq (sum_f_R0 (fun j => / INR (fact j) * x ^ j)) (exp x).
Proof. apply is_lim_seq_Reals. exact (E1_cvg x). Qed.

Lemma exp_loop_cv x s0 : is_lim_seq (fun k => exp_loop k 1 x s0 x) (s0 + (exp x - 1)).
Proof.
apply is_lim_seq_ext with (u := fun k => sum_f_R0 (fun j => / INR (fact j) * x ^ j) k + (s0 - 1)).
- intro k. pose proof (exp_loop_sum k 0 x) as E. change (Z.of_nat 1) with 1%Z in E.
  replace (/ INR (fact 1) * x ^ 1) with x in E by (simpl; field).
  replace (sum_f_R0 (fun j => / INR (fact j) * x ^ j) 0) with 1 in E by (simpl; field).
  change (0 + k)%nat with k in E. rewrite <- E, <- exp_loop_shift. f_equal. ring.
- replace (Finite (s0 + (exp x - 1))) with (Rbar_plus (exp x) (s0 - 1)) by (simpl; f_equal; ring).
  apply is_lim_seq_plus'; [apply E1_lim|apply is_lim_seq_const].
Qed.

Lemma exp_impl_val x s0 : exp_impl 1 x s0 x = s0 + (exp x - 1).
Proof. apply lim_eq, exp_loop_cv. Qed.

(** ** Sine and cosine. *)
Lemma sin_cos_loop_shift k : forall i x s c t, sin_cos_loop k i x (s + c) t = sin_cos_loop k i x s t + c.
Proof.
induction k as [|k IH]; intros; cbn [sin_cos_loop]; [easy|].
replace (s + c + t) with (s + t + c) by ring. apply IH.
Qed.

Definition cosc (j : nat) : R := (-1) ^ j / INR (fact (2 * j)).
Definition sinc (j : nat) : R := (-1) ^ j / INR (fact (2 * j + 1)).

Lemma cosc_S j : cosc (S j) * IZR (- Z.of_nat (2 * j + 1) * (Z.of_nat (2 * j + 1) + 1)) = cosc j.
Proof.
unfold cosc. replace (2 * S j)%nat with (S (S (2 * j))) by lia.
rewrite !fact_simpl, !mult_INR.
replace (IZR (- Z.of_nat (2 * j + 1) * (Z.of_nat (2 * j + 1) + 1))) with (- (INR (S (2 * j)) * INR (S (S (2 * j))))).
- pose proof (INR_fact_neq_0 (2 * j)). pose proof (not_0_INR (S (2 * j)) ltac:(lia)).
  pose proof (not_0_INR (S (S (2 * j))) ltac:(lia)). rewrite <- tech_pow_Rmult. field. repeat split; assumption.
- rewrite !INR_IZR_INZ, <- mult_IZR, <- opp_IZR. f_equal. lia.
Qed.
Lemma sinc_S j : sinc (S j) * IZR (- Z.of_nat (2 * j + 2) * (Z.of_nat (2 * j + 2) + 1)) = sinc j.
Proof.
unfold sinc. replace (2 * S j + 1)%nat with (S (S (2 * j + 1))) by lia.
rewrite !fact_simpl, !mult_INR.
replace (IZR (- Z.of_nat (2 * j + 2) * (Z.of_nat (2 * j + 2) + 1))) with (- (INR (S (2 * j + 1)) * INR (S (S (2 * j + 1))))).
- pose proof (INR_fact_neq_0 (2 * j + 1)). pose proof (not_0_INR (S (2 * j + 1)) ltac:(lia)).
  pose proof (not_0_INR (S (S (2 * j + 1))) ltac:(lia)). rewrite <- tech_pow_Rmult. field. repeat split; assumption.
- rewrite !INR_IZR_INZ, <- mult_IZR, <- opp_IZR. f_equal. lia.
Qed.

Lemma IZR_ii n : (0 < n)%nat -> IZR (- Z.of_nat n * (Z.of_nat n + 1)) <> 0.
Proof. intro H. apply not_0_IZR. nia. Qed.

Lemma cos_loop_sum k : forall j x,
  sin_cos_loop k (Z.of_nat (2 * j + 3)) x (sum_f_R0 (fun i => cosc i * x ^ (2 * i)) j) (cosc (S j) * x ^ (2 * S j))
  = sum_f_R0 (fun i => cosc i * x ^ (2 * i)) (j + k).
Proof.
induction k as [|k IH]; intros j x; cbn [sin_cos_loop].
- now rewrite Nat.add_0_r.
- replace (j + S k)%nat with (S j + k)%nat by lia. rewrite <- IH.
  replace (Z.of_nat (2 * j + 3) + 2)%Z with (Z.of_nat (2 * S j + 3)) by lia. f_equal.
  rewrite <- (cosc_S (S j)). replace (2 * S j + 1)%nat with (2 * j + 3)%nat by lia.
  replace (2 * S (S j))%nat with (S (S (2 * S j))) by lia. simpl pow. field. apply IZR_ii. lia.
Qed.
Lemma sin_loop_sum k : forall j x,
  sin_cos_loop k (Z.of_nat (2 * j + 4)) x (sum_f_R0 (fun i => sinc i * x ^ (2 * i + 1)) j) (sinc (S j) * x ^ (2 * S j + 1))
  = sum_f_R0 (fun i => sinc i * x ^ (2 * i + 1)) (j + k).
Proof.
induction k as [|k IH]; intros j x; cbn [sin_cos_loop].
- now rewrite Nat.add_0_r.
- replace (j + S k)%nat with (S j + k)%nat by lia. rewrite <- IH.
  replace (Z.of_nat (2 * j + 4) + 2)%Z with (Z.of_nat (2 * S j + 4)) by lia. f_equal.
  rewrite <- (sinc_S (S j)). replace (2 * S j + 2)%nat with (2 * j + 4)%nat by lia.
  replace (2 * S (S j) + 1)%nat with (S (S (2 * S j + 1))) by lia. simpl pow. field. apply IZR_ii. lia.
Qed.

Lemma cos_loop_cv x s0 : is_lim_seq (fun k => sin_cos_loop k 3 x s0 (- (1 / 2) * x * x)) (s0 + (cos x - 1)).
Proof.
apply is_lim_seq_ext with (u := fun k => sum_f_R0 (fun i => cosc i * x ^ (2 * i)) k + (s0 - 1)).
- intro k. pose proof (cos_loop_sum k 0 x) as E. change (Z.of_nat (2 * 0 + 3)) with 3%Z in E.
  replace (cosc 1 * x ^ (2 * 1)) with (- (1 / 2) * x * x) in E by (unfold cosc; simpl; field).
  replace (sum_f_R0 (fun i => cosc i * x ^ (2 * i)) 0) with 1 in E by (unfold cosc; simpl; field).
  change (0 + k)%nat with k in E. rewrite <- E, <- sin_cos_loop_shift. f_equal. ring.
- replace (Finite (s0 + (cos x - 1))) with (Rbar_plus (cos x) (s0 - 1)) by (simpl; f_equal; ring).
  apply is_lim_seq_plus'; [apply is_lim_seq_Reals; exact (A1_cvg x)|apply is_lim_seq_const].
Qed.
Lemma sin_loop_cv x : is_lim_seq (fun k => sin_cos_loop k 4 x x (x * x * x / -6)) (sin x).
Proof.
apply is_lim_seq_ext with (u := fun k => sum_f_R0 (fun i => sinc i * x ^ (2 * i + 1)) k).
- intro k. pose proof (sin_loop_sum k 0 x) as E. change (Z.of_nat (2 * 0 + 4)) with 4%Z in E.
  replace (sinc 1 * x ^ (2 * 1 + 1)) with (x * x * x / -6) in E by (unfold sinc; simpl; field).
  replace (sum_f_R0 (fun i => sinc i * x ^ (2 * i + 1)) 0) with x in E by (unfold sinc; simpl; field).
  symmetry. exact E.
- apply is_lim_seq_Reals. exact (B1_cvg x).
Qed.
Lemma cos_impl_val x s0 : sin_cos_impl 3 x s0 (- (1 / 2) * x * x) = s0 + (cos x - 1).
Proof. apply lim_eq, cos_loop_cv. Qed.
Lemma sin_impl_val x : sin_cos_impl 4 x x (x * x * x / -6) = sin x.
Proof. apply lim_eq, sin_loop_cv. Qed.
