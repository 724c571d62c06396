From Coq Require Import Reals List ZArith Lra Lia Bool.
From Verif Require Import PatModel PatSpec.
Import ListNotations.
Local Open Scope R_scope.

(** ** Truncation and fmod *)

Lemma Int_part_spec x : IZR (Int_part x) <= x < IZR (Int_part x) + 1.
Proof. destruct (base_Int_part x) as [H1 H2]. lra. Qed.

Lemma Int_part_nonneg x : 0 <= x -> (0 <= Int_part x)%Z.
Proof.
  intros Hx. destruct (Int_part_spec x) as [H1 H2].
  apply Z.lt_succ_r. apply lt_IZR. rewrite succ_IZR. simpl. lra.
Qed.

Lemma trunc_pos x : 0 <= x -> IZR (trunc x) <= x < IZR (trunc x) + 1.
Proof. intros Hx. unfold trunc. destruct (Rlt_dec x 0); [lra|]. apply Int_part_spec. Qed.

Lemma Int_part_0 : Int_part 0 = 0%Z.
Proof.
  pose proof (Int_part_spec 0) as [H1 H2].
  assert (Int_part 0 <= 0)%Z by (apply le_IZR; exact H1).
  pose proof (Int_part_nonneg 0 ltac:(lra)). lia.
Qed.

Lemma trunc_neg x : x <= 0 -> IZR (trunc x) - 1 < x <= IZR (trunc x).
Proof.
  intros Hx. unfold trunc. destruct (Rlt_dec x 0).
  - rewrite opp_IZR. pose proof (Int_part_spec (- x)). lra.
  - replace x with 0 by lra. rewrite Int_part_0. lra.
Qed.

(** What a returning [fmod] gives. *)
Record fmod_ok (x : sr) (y : R) (m : sr) : Prop := {
  fm_k : exists k : Z, sv m = sv x - IZR k * y;
  fm_lt : Rabs (sv m) < y;
  fm_pos : 0 <= sv x -> 0 <= sv m;
  fm_neg : sv x <= 0 -> sv m <= 0;
  fm_sz : sv x <> 0 -> sz m = false;
  fm_zero : sv x = 0 -> m = x }.

Lemma fmod_spec x y m : 0 < y -> fmod x y = Ret m -> fmod_ok x y m.
Proof.
  intros Hy. unfold fmod.
  destruct (Req_EM_T y 0) as [|_]; [lra|].
  destruct (Req_EM_T (sv x) 0) as [E|E].
  - intros [= <-]. split; try tauto; try lra.
    + exists 0%Z. lra.
    + rewrite E, Rabs_R0. exact Hy.
  - set (q := sv x / y).
    destruct (Rlt_dec q (- intmax_bound)); [discriminate|].
    destruct (Rlt_dec intmax_bound q); [discriminate|].
    destruct (Req_EM_T q intmax_bound); [discriminate|].
    intros [= <-]. unfold pos; cbn [sv sz].
    assert (Hx : sv x = q * y) by (unfold q; field; lra).
    rewrite Hx. replace (q * y - IZR (trunc q) * y) with ((q - IZR (trunc q)) * y) by ring.
    assert (Hq : 0 <= sv x -> 0 <= q).
    { intros H. unfold q, Rdiv. apply Rmult_le_pos; [exact H|]. left. apply Rinv_0_lt_compat, Hy. }
    assert (Hq' : sv x <= 0 -> q <= 0).
    { intros H. unfold q, Rdiv. replace (sv x * / y) with (- (- sv x * / y)) by ring.
      apply Ropp_le_cancel. rewrite Ropp_involutive, Ropp_0.
      apply Rmult_le_pos; [lra|]. left. apply Rinv_0_lt_compat, Hy. }
    split; cbn [sv sz]; try lra; try reflexivity.
    + exists (trunc q). rewrite Hx. ring.
    + destruct (Rle_dec 0 (sv x)) as [P|P].
      * pose proof (trunc_pos q (Hq P)). rewrite Rabs_pos_eq; [|apply Rmult_le_pos; lra].
        rewrite <- (Rmult_1_l y) at 2. apply Rmult_lt_compat_r; lra.
      * pose proof (trunc_neg q (Hq' ltac:(lra))). rewrite Rabs_mult, (Rabs_pos_eq y) by lra.
        rewrite <- (Rmult_1_l y) at 2. apply Rmult_lt_compat_r; [lra|].
        apply Rabs_def1; lra.
    + intros P. pose proof (trunc_pos q (Hq P)). apply Rmult_le_pos; lra.
    + intros P. pose proof (trunc_neg q (Hq' P)).
      replace ((q - IZR (trunc q)) * y) with (- ((IZR (trunc q) - q) * y)) by ring.
      apply Ropp_le_cancel. rewrite Ropp_involutive, Ropp_0. apply Rmult_le_pos; lra.
Qed.

Lemma intmax_big : 4 < intmax_bound.
Proof. unfold intmax_bound. apply IZR_lt. reflexivity. Qed.

(** [fmod] returns whenever the quotient is moderate. *)
Lemma fmod_returns x y :
  0 < y -> - intmax_bound <= sv x / y < intmax_bound -> exists m, fmod x y = Ret m.
Proof.
  intros Hy Hq. unfold fmod.
  destruct (Req_EM_T y 0); [lra|]. destruct (Req_EM_T (sv x) 0); [eauto|].
  destruct (Rlt_dec _ _); [lra|]. destruct (Rlt_dec _ _); [lra|]. destruct (Req_EM_T _ _); [lra|]. eauto.
Qed.

Lemma fmod_small x y : 0 < y -> Rabs (sv x) < y ->
  exists m, fmod x y = Ret m /\ sv m = sv x /\ (sv x <> 0 -> sz m = false) /\ (sv x = 0 -> m = x).
Proof.
  intros Hy Hx. apply Rabs_def2 in Hx.
  assert (Hq : -1 < sv x / y < 1).
  { split; apply Rmult_lt_reg_r with y; unfold Rdiv; try lra;
    rewrite Rmult_assoc, Rinv_l; lra. }
  destruct (fmod_returns x y Hy) as [m Hm]; [pose proof intmax_big; lra|].
  exists m. pose proof (fmod_spec _ _ _ Hy Hm) as K. split; [exact Hm|].
  split; [|split; [apply (fm_sz _ _ _ K)|apply (fm_zero _ _ _ K)]].
  destruct (fm_k _ _ _ K) as [k Hk].
  pose proof (fm_lt _ _ _ K) as Hl. apply Rabs_def2 in Hl.
  pose proof (fm_pos _ _ _ K). pose proof (fm_neg _ _ _ K).
  assert (k = 0)%Z; [|subst; lra].
  assert (IZR k * y < y /\ - y < IZR k * y) as [A B].
  { destruct (Rle_dec 0 (sv x)); [specialize (H r)|specialize (H0 ltac:(lra))]; lra. }
  assert (IZR k < 1) by (apply Rmult_lt_reg_r with y; lra).
  assert (-1 < IZR k) by (apply Rmult_lt_reg_r with y; lra).
  apply lt_IZR in H1. assert (-1 < k)%Z by (apply lt_IZR; exact H2). lia.
Qed.

(** ** Trigonometric periodicity over Z *)

Lemma cos_2kpi_nat x (n : nat) : cos (x + 2 * INR n * PI) = cos x.
Proof. apply cos_period. Qed.

Lemma cos_periodZ x (k : Z) : cos (x + 2 * IZR k * PI) = cos x.
Proof.
  destruct (Z_le_dec 0 k) as [H|H].
  - rewrite <- (Z2Nat.id k H), <- INR_IZR_INZ. apply cos_period.
  - rewrite <- (cos_period (x + 2 * IZR k * PI) (Z.to_nat (- k))).
    f_equal. rewrite INR_IZR_INZ, Z2Nat.id by lia. rewrite opp_IZR. ring.
Qed.

Lemma sin_periodZ x (k : Z) : sin (x + 2 * IZR k * PI) = sin x.
Proof.
  destruct (Z_le_dec 0 k) as [H|H].
  - rewrite <- (Z2Nat.id k H), <- INR_IZR_INZ. apply sin_period.
  - rewrite <- (sin_period (x + 2 * IZR k * PI) (Z.to_nat (- k))).
    f_equal. rewrite INR_IZR_INZ, Z2Nat.id by lia. rewrite opp_IZR. ring.
Qed.

(** Same sine and cosine: equal up to whole turns. *)
Lemma same_direction a b : cos a = cos b -> sin a = sin b -> exists k : Z, a = b + 2 * IZR k * PI.
Proof.
  intros Hc Hs.
  assert (S : sin (a - b) = 0) by (rewrite sin_minus, Hc, Hs; ring).
  assert (C : cos (a - b) = 1).
  { rewrite cos_minus, Hc, Hs. pose proof (sin2_cos2 b). unfold Rsqr in *. lra. }
  apply sin_eq_0_0 in S. destruct S as [k Hk].
  destruct (Z.Even_or_Odd k) as [[j Hj]|[j Hj]]; subst k.
  - exists j. rewrite mult_IZR in Hk. lra.
  - exfalso. rewrite plus_IZR, mult_IZR in Hk.
    replace (a - b) with (PI + 2 * IZR j * PI) in C by lra.
    rewrite cos_periodZ, cos_PI in C. lra.
Qed.

(** At most one representative in a half-open interval of one period. *)
Lemma unique_rep mn P a b (k : Z) :
  0 < P -> mn <= a < mn + P -> mn <= b < mn + P -> a = b + IZR k * P -> a = b.
Proof.
  intros HP Ha Hb E.
  assert (k = 0)%Z; [|subst; lra].
  assert (IZR k < 1) by (apply Rmult_lt_reg_r with P; lra).
  assert (-1 < IZR k) by (apply Rmult_lt_reg_r with P; lra).
  apply lt_IZR in H. assert (-1 < k)%Z by (apply lt_IZR; exact H0). lia.
Qed.

(** ** Angle *)

Section AngleLemmas.
Variables mn mx : R.
Hypothesis Hmn : mn <= 0.
Hypothesis Hmx : 0 < mx.
Let P := mx - mn.

Lemma P_pos : 0 < P. Proof. unfold P; lra. Qed.

Lemma ang_scale_shift a (k : Z) :
  ang_scale mn mx (a + IZR k * P) = ang_scale mn mx a + 2 * IZR k * PI.
Proof. pose proof P_pos as HP. unfold ang_scale. fold P. field. lra. Qed.

Lemma ang_scale_half a : ang_scale mn mx (a + P * (1 / 2)) = ang_scale mn mx a + PI.
Proof. pose proof P_pos as HP. unfold ang_scale. fold P. field. lra. Qed.

Lemma ang_scale_inj_turn a b (k : Z) :
  ang_scale mn mx a = ang_scale mn mx b + 2 * IZR k * PI -> a = b + IZR k * P.
Proof.
  pose proof P_pos as HP. pose proof PI_RGT_0 as Hpi. unfold ang_scale. fold P. intros E.
  apply Rmult_eq_reg_r with (2 * PI / P).
  - rewrite E. field. lra.
  - unfold Rdiv. apply Rmult_integral_contrapositive. split; [lra|]. apply Rinv_neq_0_compat. lra.
Qed.

Lemma wrap_phi_mod_spec phi w : wrap_phi_mod mn mx phi = Ret w ->
  mn <= w < mx /\ exists k : Z, w = phi + IZR k * P.
Proof.
  assert (G : bind (fmod (pos (phi - mn)) (mx - mn))
                (fun m => if Rlt_dec (sv m) 0 then Ret (mn + sv m + (mx - mn)) else Ret (mn + sv m)) = Ret w ->
              mn <= w < mx /\ exists k : Z, w = phi + IZR k * P).
  { fold P. destruct (fmod (pos (phi - mn)) P) as [m| | |] eqn:E; cbn [bind]; try discriminate.
    pose proof (fmod_spec _ _ _ P_pos E) as K.
    destruct (fm_k _ _ _ K) as [k Hk]. cbn [pos sv] in Hk.
    pose proof (fm_lt _ _ _ K) as Hl. apply Rabs_def2 in Hl.
    destruct (Rlt_dec (sv m) 0); intros [= <-].
    - split; [unfold P in *; lra|]. exists (1 - k)%Z. rewrite minus_IZR. lra.
    - split; [unfold P in *; lra|]. exists (- k)%Z. rewrite opp_IZR. lra. }
  unfold wrap_phi_mod.
  destruct (Rle_dec mn phi); [destruct (Rlt_dec phi mx)|]; try exact G.
  intros [= <-]. split; [lra|]. exists 0%Z. lra.
Qed.

Lemma wrap_phi_mod_id w : mn <= w < mx -> wrap_phi_mod mn mx w = Ret w.
Proof.
  intros [A B]. unfold wrap_phi_mod.
  destruct (Rle_dec mn w); [|lra]. destruct (Rlt_dec w mx); [reflexivity|lra].
Qed.

(** When it returns, throws, or is undefined. *)
Lemma wrap_phi_mod_cases phi :
  let q := (phi - mn) / P in
  (mn <= phi < mx -> wrap_phi_mod mn mx phi = Ret phi) /\
  (~ (mn <= phi < mx) ->
     ((- intmax_bound <= q < intmax_bound) <-> exists w, wrap_phi_mod mn mx phi = Ret w) /\
     ((q < - intmax_bound \/ intmax_bound < q) <-> wrap_phi_mod mn mx phi = Throws) /\
     (q = intmax_bound <-> wrap_phi_mod mn mx phi = Undef)).
Proof.
  intros q. split; [apply wrap_phi_mod_id|].
  intros N. pose proof P_pos as HP. pose proof intmax_big as HB.
  assert (E : wrap_phi_mod mn mx phi = bind (fmod (pos (phi - mn)) P)
      (fun m => if Rlt_dec (sv m) 0 then Ret (mn + sv m + P) else Ret (mn + sv m))).
  { unfold wrap_phi_mod. destruct (Rle_dec mn phi); [destruct (Rlt_dec phi mx)|]; try reflexivity. lra. }
  rewrite E.
  assert (Z : sv (pos (phi - mn)) <> 0) by (cbn [pos sv]; lra).
  unfold fmod. destruct (Req_EM_T P 0) as [|_]; [lra|].
  destruct (Req_EM_T _ 0) as [|_]; [contradiction|]. cbn [pos sv] in *. fold q.
  destruct (Rlt_dec q (- intmax_bound)) as [L|L]; cbn [bind].
  { split; [|split]; split; try lra; try discriminate; try (intros [w W]; discriminate); auto. }
  destruct (Rlt_dec intmax_bound q) as [G|G]; cbn [bind].
  { split; [|split]; split; try lra; try discriminate; try (intros [w W]; discriminate); auto. }
  destruct (Req_EM_T q intmax_bound) as [U|U]; cbn [bind].
  { split; [|split]; split; try lra; try discriminate; try (intros [w W]; discriminate); auto. }
  split; [|split].
  - split; [|lra]. intros _. destruct (Rlt_dec _ _); eauto.
  - split; [lra|]. destruct (Rlt_dec _ _); discriminate.
  - split; [lra|]. destruct (Rlt_dec _ _); discriminate.
Qed.

Lemma wrap_phi_range x : mn - P <= x < mx + P ->
  mn <= wrap_phi mn mx x < mx /\ exists k : Z, wrap_phi mn mx x = x + IZR k * P.
Proof.
  pose proof P_pos as HP. unfold wrap_phi; fold P. intros H.
  destruct (Rlt_dec x mn).
  - split; [unfold P in *; lra|]. exists 1%Z; lra.
  - destruct (Rle_dec mx x).
    + split; [unfold P in *; lra|]. exists (-1)%Z; lra.
    + split; [lra|]. exists 0%Z; lra.
Qed.

End AngleLemmas.

(** ** atan2 *)

Lemma signbit_neg x : sv x < 0 -> signbit x = true.
Proof. intros H. unfold signbit. destruct (Rlt_dec _ _); [reflexivity|contradiction]. Qed.
Lemma signbit_pos x : 0 < sv x -> signbit x = false.
Proof. intros H. unfold signbit. destruct (Rlt_dec _ _); [lra|]. destruct (Req_EM_T _ _); [lra|reflexivity]. Qed.
Lemma signbit_zero x : sv x = 0 -> signbit x = sz x.
Proof. intros H. unfold signbit. destruct (Rlt_dec _ _); [lra|]. destruct (Req_EM_T _ _); [reflexivity|contradiction]. Qed.
Lemma signbit_posR x : 0 <= x -> signbit (pos x) = false.
Proof. intros H. unfold signbit, pos; cbn. destruct (Rlt_dec _ _); [lra|]. destruct (Req_EM_T _ _); reflexivity. Qed.

Lemma atan2_range y x : - PI <= atan2 y x <= PI.
Proof.
  pose proof PI_RGT_0 as HP. unfold atan2, copysign. rewrite (Rabs_pos_eq PI) by lra.
  pose proof (atan_bound (sv y / sv x)) as HA.
  destruct (Rlt_dec 0 (sv x)); [lra|].
  destruct (Rlt_dec (sv x) 0).
  - destruct (Rlt_dec 0 (sv y)).
    + assert (sv y / sv x < 0).
      { unfold Rdiv. apply Ropp_lt_cancel. rewrite Ropp_0, Ropp_mult_distr_r. apply Rmult_lt_0_compat; [lra|].
        rewrite <- Rinv_opp. apply Rinv_0_lt_compat. lra. }
      assert (atan (sv y / sv x) < atan 0) by (apply atan_increasing; lra). rewrite atan_0 in *. lra.
    + destruct (Rlt_dec (sv y) 0).
      * assert (0 < sv y / sv x).
        { unfold Rdiv. rewrite <- Rmult_opp_opp. apply Rmult_lt_0_compat; [lra|].
          rewrite <- Rinv_opp. apply Rinv_0_lt_compat. lra. }
        assert (atan 0 < atan (sv y / sv x)) by (apply atan_increasing; lra). rewrite atan_0 in *. lra.
      * destruct (signbit y); lra.
  - destruct (Rlt_dec 0 (sv y)); [lra|]. destruct (Rlt_dec (sv y) 0); [lra|].
    destruct (signbit x); [destruct (signbit y)|]; lra.
Qed.

Lemma sqrt_scaled x y : x <> 0 -> sqrt (x * x + y * y) = Rabs x * sqrt (1 + (y / x)²).
Proof.
  intros Hx. rewrite <- (sqrt_Rsqr_abs x), <- sqrt_mult.
  - f_equal. unfold Rsqr. field. exact Hx.
  - apply Rle_0_sqr.
  - pose proof (Rle_0_sqr (y / x)). lra.
Qed.

(** The defining property of atan2, for every choice of the signs of zeros. *)
Lemma atan2_polar y x :
  sv x = sqrt (sv x * sv x + sv y * sv y) * cos (atan2 y x) /\
  sv y = sqrt (sv x * sv x + sv y * sv y) * sin (atan2 y x).
Proof.
  pose proof PI_RGT_0 as HP.
  unfold atan2, copysign. rewrite (Rabs_pos_eq PI) by lra.
  assert (SQ : 0 < sqrt (1 + (sv y / sv x)²)).
  { apply sqrt_lt_R0. pose proof (Rle_0_sqr (sv y / sv x)). lra. }
  destruct (Rlt_dec 0 (sv x)) as [X|X].
  { rewrite sqrt_scaled, (Rabs_pos_eq (sv x)) by lra.
    rewrite cos_atan, sin_atan. split; field; repeat split; lra. }
  destruct (Rlt_dec (sv x) 0) as [X'|X'].
  { destruct (Rlt_dec 0 (sv y)) as [Y|Y].
    { rewrite sqrt_scaled, (Rabs_left (sv x)) by lra.
      rewrite neg_cos, neg_sin, cos_atan, sin_atan. split; field; repeat split; lra. }
    destruct (Rlt_dec (sv y) 0) as [Y'|Y'].
    { rewrite sqrt_scaled, (Rabs_left (sv x)) by lra.
      replace (atan (sv y / sv x) - PI) with (atan (sv y / sv x) + PI + 2 * IZR (-1) * PI) by (simpl; lra).
      rewrite cos_periodZ, sin_periodZ, neg_cos, neg_sin, cos_atan, sin_atan. split; field; repeat split; lra. }
    replace (sv y) with 0 by lra. replace (sv x * sv x + 0 * 0) with ((sv x)²) by (unfold Rsqr; ring).
    rewrite sqrt_Rsqr_abs, Rabs_left by lra.
    destruct (signbit y); [rewrite cos_neg, sin_neg|]; rewrite cos_PI, sin_PI; lra. }
  replace (sv x) with 0 by lra. replace (0 * 0 + sv y * sv y) with ((sv y)²) by (unfold Rsqr; ring).
  rewrite sqrt_Rsqr_abs.
  destruct (Rlt_dec 0 (sv y)) as [Y|Y].
  { rewrite Rabs_pos_eq, cos_PI2, sin_PI2 by lra. lra. }
  destruct (Rlt_dec (sv y) 0) as [Y'|Y'].
  { rewrite Rabs_left by lra. replace (- PI / 2) with (- (PI / 2)) by lra.
    rewrite cos_neg, sin_neg, cos_PI2, sin_PI2. lra. }
  replace (sv y) with 0 by lra. rewrite Rabs_R0. lra.
Qed.

(** -pi is returned only for a zero [y] with the sign bit set and [x] negative (or a negative zero). *)
Lemma atan2_lt_PI y x : (sv y <> 0 \/ 0 < sv x \/ signbit y = true \/ (sv x = 0 /\ signbit x = false)) ->
  atan2 y x < PI.
Proof.
  pose proof PI_RGT_0 as HP. intros H. unfold atan2, copysign. rewrite (Rabs_pos_eq PI) by lra.
  pose proof (atan_bound (sv y / sv x)) as HA.
  destruct (Rlt_dec 0 (sv x)); [lra|].
  destruct (Rlt_dec (sv x) 0).
  - destruct (Rlt_dec 0 (sv y)).
    + assert (sv y / sv x < 0).
      { unfold Rdiv. apply Ropp_lt_cancel. rewrite Ropp_0, Ropp_mult_distr_r. apply Rmult_lt_0_compat; [lra|].
        rewrite <- Rinv_opp. apply Rinv_0_lt_compat. lra. }
      assert (atan (sv y / sv x) < atan 0) by (apply atan_increasing; lra). rewrite atan_0 in *. lra.
    + destruct (Rlt_dec (sv y) 0); [lra|].
      destruct H as [H|[H|[H|[H _]]]]; try lra. rewrite H. lra.
  - destruct (Rlt_dec 0 (sv y)); [lra|]. destruct (Rlt_dec (sv y) 0); [lra|].
    destruct H as [H|[H|[H|[H H']]]]; try lra; [rewrite H|rewrite H']; [destruct (signbit x)|]; lra.
Qed.
