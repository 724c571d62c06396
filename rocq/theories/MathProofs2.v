(** * Proofs: the series of asin and log1p. *)
From Coq Require Import Reals ZArith List Lra Lia Psatz.
From Flocq Require Import Raux.
From Coquelicot Require Import Coquelicot.
From Verif Require Import MathModel MathProofs.
Local Open Scope R_scope.

Lemma derive0_const (f : R -> R) (r x : R) : 0 < r -> Rabs x < r ->
  (forall t, Rabs t < r -> is_derive f t 0) -> f x = f 0.
Proof.
intros Hr Hx H.
assert (B : forall t, Rmin 0 x <= t <= Rmax 0 x -> Rabs t < r).
{ intros t Ht. apply Rabs_def2 in Hx. apply Rabs_def1; revert Ht; unfold Rmin, Rmax; destruct (Rle_dec 0 x); lra. }
destruct (MVT_gen f 0 x (fun _ => 0)) as (c & _ & E).
- intros t Ht. apply H, B. lra.
- intros t Ht. apply continuity_pt_filterlim.
  apply (ex_derive_continuous f). exists 0. apply H, B, Ht.
- lra.
Qed.

Lemma radius_ge_1 (a : nat -> R) (M : R) : (forall n, Rabs (a n) <= M) -> Rbar_le 1 (CV_radius a).
Proof.
intro H. destruct (CV_radius_bounded a) as [U _]. apply U. exists M. intro n.
rewrite pow1, Rmult_1_r. apply H.
Qed.
Lemma inside (a : nat -> R) (M x : R) : (forall n, Rabs (a n) <= M) -> Rabs x < 1 -> Rbar_lt (Rabs x) (CV_radius a).
Proof. intros H Hx. eapply Rbar_lt_le_trans; [|apply (radius_ge_1 a M H)]. exact Hx. Qed.

(** ** The binomial series of 1 / sqrt (1 - y). *)
Fixpoint bc (n : nat) : R := match n with O => 1 | S n' => bc n' * (INR (2 * n' + 1) / INR (2 * n' + 2)) end.
Definition ac (n : nat) : R := bc n / INR (2 * n + 1).

Lemma bc_S n : INR (S n) * bc (S n) = (INR n + / 2) * bc n.
Proof.
cbn [bc]. rewrite S_INR, !plus_INR, !mult_INR. simpl (INR 2). simpl (INR 1).
pose proof (pos_INR n). field. lra.
Qed.

Lemma bc_bounds n : 0 < bc n <= 1.
Proof.
induction n as [|n IH]; [simpl; lra|]. cbn [bc].
rewrite !plus_INR, !mult_INR. simpl (INR 2). simpl (INR 1). pose proof (pos_INR n) as P.
assert (Q : 0 < ((1 + 1) * INR n + 1) / ((1 + 1) * INR n + (1 + 1)) <= 1).
{ split; [apply Rdiv_lt_0_compat; lra|].
  apply (Rmult_le_reg_r ((1 + 1) * INR n + (1 + 1))); [lra|]. unfold Rdiv. rewrite Rmult_assoc, Rinv_l; lra. }
nra.
Qed.

Lemma ac_bounds n : 0 < ac n <= 1.
Proof.
unfold ac. pose proof (bc_bounds n) as B.
assert (P : 1 <= INR (2 * n + 1)) by (change 1 with (INR 1); apply le_INR; lia).
split; [apply Rdiv_lt_0_compat; lra|].
apply (Rmult_le_reg_r (INR (2 * n + 1))); [lra|]. unfold Rdiv. rewrite Rmult_assoc, Rinv_l; lra.
Qed.

Lemma bc_in y : Rabs y < 1 -> Rbar_lt (Rabs y) (CV_radius bc).
Proof. apply inside with (M := 1). intro n. pose proof (bc_bounds n). rewrite Rabs_pos_eq; lra. Qed.
Lemma ac_in y : Rabs y < 1 -> Rbar_lt (Rabs y) (CV_radius ac).
Proof. apply inside with (M := 1). intro n. pose proof (ac_bounds n). rewrite Rabs_pos_eq; lra. Qed.

(** (1 - y) B' = B / 2. *)
Lemma bc_ode y : Rabs y < 1 -> (1 - y) * PSeries (PS_derive bc) y = / 2 * PSeries bc y.
Proof.
intro H. pose proof (bc_in y H) as C.
assert (E : forall n, PS_derive bc n = PS_plus (PS_scal (/ 2) bc) (PS_incr_1 (PS_derive bc)) n).
{ intro n. unfold PS_derive, PS_plus, PS_scal. rewrite bc_S. destruct n as [|n].
  - simpl. unfold plus, scal, zero; simpl. unfold mult; simpl. ring.
  - cbn [PS_incr_1]. set (b := bc (S n)). clearbody b. set (k := INR (S n)). clearbody k.
    change ((k + / 2) * b = / 2 * b + k * b). ring. }
assert (C2 : Rbar_lt (Rabs y) (CV_radius (PS_derive bc))) by (rewrite CV_radius_derive; exact C).
assert (F : PSeries (PS_derive bc) y = / 2 * PSeries bc y + y * PSeries (PS_derive bc) y).
{ rewrite (PSeries_ext _ _ y E) at 1. rewrite PSeries_plus, PSeries_scal, PSeries_incr_1; [easy| |].
  - apply CV_radius_inside. rewrite CV_radius_scal; [exact C|lra].
  - apply CV_radius_inside. rewrite CV_radius_incr_1. exact C2. }
lra.
Qed.

Lemma is_derive_val (f : R -> R) x a b : is_derive f x a -> a = b -> is_derive f x b.
Proof. now intros H <-. Qed.

Lemma PSeries_at0 a : PSeries a 0 = a O.
Proof. apply PSeries_0. Qed.

Lemma binomial y : Rabs y < 1 -> PSeries bc y = / sqrt (1 - y).
Proof.
intro H.
assert (K : PSeries bc y * sqrt (1 - y) = 1).
{ transitivity ((fun t => PSeries bc t * sqrt (1 - t)) 0).
  - apply derive0_const with (r := 1) (f := fun t => PSeries bc t * sqrt (1 - t)); [lra|exact H|].
    intros t Ht. apply Rabs_def2 in Ht as Ht2. assert (P : 0 < 1 - t) by lra. pose proof (sqrt_lt_R0 _ P) as Q.
    eapply is_derive_val.
    + apply (is_derive_mult (PSeries bc) (fun t => sqrt (1 - t)) t).
      * apply is_derive_PSeries, bc_in, Ht.
      * apply is_derive_sqrt with (df := -1); [|exact P]. auto_derive; [easy|ring].
      * intros. apply Rmult_comm.
    + unfold plus, mult; simpl.
      pose proof (bc_ode t Ht) as O. pose proof (sqrt_sqrt (1 - t) ltac:(lra)) as S.
      set (d := PSeries (PS_derive bc) t) in *. set (b := PSeries bc t) in *. set (s := sqrt (1 - t)) in *.
      assert (d * (s * s) = / 2 * b) by (rewrite S; lra).
      apply (Rmult_eq_reg_r s); [|lra]. rewrite Rmult_0_l. field_simplify; [|lra]. nra.
  - rewrite PSeries_at0. simpl. rewrite Rminus_0_r, sqrt_1. ring. }
apply Rabs_def2 in H. pose proof (sqrt_lt_R0 (1 - y) ltac:(lra)).
apply (Rmult_eq_reg_r (sqrt (1 - y))); [|lra]. rewrite K, Rinv_l; lra.
Qed.

Lemma ac_derive y : Rabs y < 1 -> PSeries ac y + 2 * y * PSeries (PS_derive ac) y = PSeries bc y.
Proof.
intro H. pose proof (ac_in y H) as C.
assert (E : forall n, bc n = PS_plus ac (PS_incr_1 (PS_scal 2 (PS_derive ac))) n).
{ intro n. unfold PS_plus. destruct n as [|n].
  - unfold PS_incr_1, ac. simpl. unfold plus, zero; simpl. field.
  - unfold ac. cbn [PS_incr_1]. change (bc (S n) = bc (S n) / INR (2 * S n + 1) + 2 * (INR (S n) * (bc (S n) / INR (2 * S n + 1)))).
    set (b := bc (S n)). clearbody b.
    rewrite !plus_INR, !mult_INR. simpl (INR 2). simpl (INR 1). pose proof (pos_INR (S n)).
    field. lra. }
rewrite (PSeries_ext _ _ y E), PSeries_plus, PSeries_incr_1, PSeries_scal; [ring| |].
- apply CV_radius_inside, C.
- apply CV_radius_inside. rewrite CV_radius_incr_1, CV_radius_scal, CV_radius_derive; [exact C|lra].
Qed.

Lemma sq_lt1 x : Rabs x < 1 -> Rabs (x * x) < 1.
Proof. intro H. rewrite Rabs_mult. pose proof (Rabs_pos x). nra. Qed.

Lemma is_derive_asin x : -1 < x < 1 -> is_derive asin x (/ sqrt (1 - x * x)).
Proof.
intro H. apply is_derive_Reals. pose proof (derive_pt_asin x H) as E.
apply derive_pt_eq_1 in E. replace (/ sqrt (1 - x * x)) with (1 / sqrt (1 - x²)) by (unfold Rsqr, Rdiv; ring). exact E.
Qed.

Lemma asin_pseries x : Rabs x < 1 -> x * PSeries ac (x * x) = asin x.
Proof.
intro H.
assert (K : x * PSeries ac (x * x) - asin x = 0).
{ transitivity ((fun t => t * PSeries ac (t * t) - asin t) 0).
  - apply derive0_const with (r := 1) (f := fun t => t * PSeries ac (t * t) - asin t); [lra|exact H|].
    intros t Ht. pose proof (sq_lt1 t Ht) as H2. apply Rabs_def2 in Ht as Ht2.
    eapply is_derive_val.
    + apply (is_derive_minus (fun t => t * PSeries ac (t * t)) asin).
      * apply (is_derive_mult (fun t => t) (fun t => PSeries ac (t * t))).
        -- apply (is_derive_id t).
        -- apply (is_derive_comp (PSeries ac) (fun t => t * t)).
           ++ apply is_derive_PSeries, ac_in, H2.
           ++ apply is_derive_val with (a := 2 * t); [auto_derive; [easy|ring]|reflexivity].
        -- intros. apply Rmult_comm.
      * apply is_derive_asin; lra.
    + unfold minus, plus, mult, scal, opp, one; simpl. unfold mult; simpl.
      pose proof (ac_derive _ H2) as D. rewrite (binomial _ H2) in D. rewrite <- D. ring.
  - cbv beta. rewrite asin_0. ring. }
lra.
Qed.

Lemma sum_Rn (u : nat -> R) n : sum_n u (S n) = sum_n u n + u (S n).
Proof. exact (sum_Sn u n). Qed.

Lemma asin_loop_sum k : forall j x,
  asin_loop k (Z.of_nat (2 * j + 3)) x (sum_n (fun i => ac i * x ^ (2 * i + 1)) j) (bc (S j) * x ^ (2 * S j + 1))
  = sum_n (fun i => ac i * x ^ (2 * i + 1)) (j + k).
Proof.
induction k as [|k IH]; intros j x; cbn [asin_loop].
- now rewrite Nat.add_0_r.
- replace (j + S k)%nat with (S j + k)%nat by lia. rewrite <- IH.
  replace (Z.of_nat (2 * j + 3) + 2)%Z with (Z.of_nat (2 * S j + 3)) by lia. f_equal.
  + rewrite (sum_Rn (fun i => ac i * x ^ (2 * i + 1)) j). f_equal. unfold ac.
    rewrite <- INR_IZR_INZ. replace (2 * S j + 1)%nat with (2 * j + 3)%nat by lia.
    pose proof (not_0_INR (2 * j + 3) ltac:(lia)). field. assumption.
  + cbn [bc]. replace (Z.of_nat (2 * j + 3) + 1)%Z with (Z.of_nat (2 * S j + 2)) by lia.
    rewrite <- !INR_IZR_INZ. replace (2 * j + 3)%nat with (2 * S j + 1)%nat by lia.
    replace (2 * S (S j) + 1)%nat with (S (S (2 * S j + 1))) by lia.
    rewrite <- !tech_pow_Rmult.
    unfold Rdiv. ring.
Qed.

Lemma asin_loop_cv x : Rabs x < 1 -> is_lim_seq (fun k => asin_loop k 3 x x (1 / 2 * x * x * x)) (asin x).
Proof.
intro H.
apply is_lim_seq_ext with (u := fun k => sum_n (fun i => ac i * x ^ (2 * i + 1)) k).
- intro k. pose proof (asin_loop_sum k 0 x) as E. change (Z.of_nat (2 * 0 + 3)) with 3%Z in E.
  replace (bc 1 * x ^ (2 * 1 + 1)) with (1 / 2 * x * x * x) in E by (simpl; field).
  rewrite sum_O in E. replace (ac 0 * x ^ (2 * 0 + 1)) with x in E by (unfold ac; simpl; field).
  symmetry. exact E.
- pose proof (sq_lt1 x H) as H2.
  pose proof (PSeries_correct ac (x * x) (CV_radius_inside _ _ (ac_in _ H2))) as P.
  apply is_pseries_R in P. apply (is_series_scal_l x) in P.
  rewrite <- (asin_pseries x H).
  refine (is_series_ext (fun n => x * (ac n * (x * x) ^ n)) _ _ _ P). intro n.
  transitivity (ac n * x ^ (2 * n + 1)); [|reflexivity].
  rewrite pow_add, pow_mult. replace (x ^ 2) with (x * x) by ring. change (x * (ac n * (x * x) ^ n) = ac n * ((x * x) ^ n * x ^ 1)). ring.
Qed.

Lemma asin_series_val x : Rabs x < 1 -> asin_series 3 x x (1 / 2 * x * x * x) = asin x.
Proof. intro H. apply lim_eq, asin_loop_cv, H. Qed.

(** ** log (1 + x). *)
Definition lc (n : nat) : R := match n with O => 0 | S n' => (-1) ^ n' / INR (S n') end.
Lemma lc_bounds n : Rabs (lc n) <= 1.
Proof.
destruct n as [|n]; cbn [lc]; [rewrite Rabs_R0; lra|].
unfold Rdiv. rewrite Rabs_mult, pow_1_abs, Rmult_1_l. 
assert (P : 1 <= INR (S n)) by (change 1 with (INR 1); apply le_INR; lia).
rewrite Rabs_pos_eq; [|apply Rlt_le, Rinv_0_lt_compat; lra].
rewrite <- Rinv_1. apply Rinv_le_contravar; lra.
Qed.

Lemma lc_derive x : Rabs x < 1 -> PSeries (PS_derive lc) x = / (1 + x).
Proof.
intro H. replace (1 + x) with (1 - (- x)) by ring.
apply is_series_unique. apply is_series_ext with (a := fun n => (- x) ^ n).
- intro n. unfold PS_derive, lc. replace (- x) with ((-1) * x) by ring. rewrite Rpow_mult_distr.
  pose proof (not_0_INR (S n) ltac:(lia)) as N.
  change ((-1) ^ n * x ^ n = INR (S n) * ((-1) ^ n / INR (S n)) * x ^ n). field. exact N.
- apply is_series_geom. now rewrite Rabs_Ropp.
Qed.

Lemma ln_pseries x : Rabs x < 1 -> PSeries lc x = ln (1 + x).
Proof.
intro H.
assert (K : PSeries lc x - ln (1 + x) = 0).
{ transitivity ((fun t => PSeries lc t - ln (1 + t)) 0).
  - apply derive0_const with (r := 1) (f := fun t => PSeries lc t - ln (1 + t)); [lra|exact H|].
    intros t Ht. apply Rabs_def2 in Ht as Ht2.
    eapply is_derive_val.
    + apply (is_derive_minus (PSeries lc) (fun t => ln (1 + t))).
      * apply is_derive_PSeries, inside with (M := 1); [apply lc_bounds|exact Ht].
      * apply is_derive_val with (a := / (1 + t)); [auto_derive; [lra|field; lra]|reflexivity].
    + rewrite lc_derive by exact Ht. unfold minus, plus, opp; simpl. ring.
  - cbv beta. rewrite PSeries_at0, Rplus_0_r, ln_1. simpl. ring. }
lra.
Qed.

Lemma log1p_loop_sum k : forall j x,
  log1p_loop k (Z.of_nat (j + 2)) x (sum_n (fun i => lc i * x ^ i) (S j)) ((-1) ^ (S j) * x ^ (S j))
  = sum_n (fun i => lc i * x ^ i) (S j + k).
Proof.
induction k as [|k IH]; intros j x; cbn [log1p_loop].
- now rewrite Nat.add_0_r.
- replace (S j + S k)%nat with (S (S j) + k)%nat by lia. rewrite <- IH.
  replace (Z.of_nat (j + 2) + 1)%Z with (Z.of_nat (S j + 2)) by lia. f_equal.
  + rewrite (sum_Rn (fun i => lc i * x ^ i) (S j)). f_equal. unfold lc.
    rewrite <- INR_IZR_INZ. replace (j + 2)%nat with (S (S j)) by lia.
    pose proof (not_0_INR (S (S j)) ltac:(lia)). rewrite <- (tech_pow_Rmult x (S j)). field. assumption.
  + rewrite <- (tech_pow_Rmult x (S j)), <- (tech_pow_Rmult (-1) (S j)). ring.
Qed.

Lemma log1p_loop_cv x : Rabs x < 1 -> is_lim_seq (fun k => log1p_loop k 2 x x (- x)) (ln (1 + x)).
Proof.
intro H. apply is_lim_seq_ext with (u := fun k => sum_n (fun i => lc i * x ^ i) (S k)).
- intro k. pose proof (log1p_loop_sum k 0 x) as E. change (Z.of_nat (0 + 2)) with 2%Z in E.
  replace ((-1) ^ 1 * x ^ 1) with (- x) in E by (simpl; ring).
  rewrite sum_Rn, sum_O in E.
  replace (lc 0 * x ^ 0 + lc 1 * x ^ 1) with x in E by (unfold lc; simpl; field).
  symmetry. exact E.
- apply is_lim_seq_incr_1 with (u := fun k => sum_n (fun i => lc i * x ^ i) k).
  rewrite <- (ln_pseries x H).
  assert (C : ex_pseries lc x) by (apply CV_radius_inside, inside with (M := 1); [apply lc_bounds|exact H]).
  apply PSeries_correct, is_pseries_R in C. exact C.
Qed.
Lemma log1p_impl_val x : Rabs x < 1 -> log1p_impl 2 x x (- x) = ln (1 + x).
Proof. intro H. apply lim_eq, log1p_loop_cv, H. Qed.
