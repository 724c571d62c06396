From Coq Require Import Reals List ZArith Lra Lia Bool.
From Verif Require Import PatModel PatSpec PatProofs.
Import ListNotations.
Local Open Scope R_scope.

(** ** Angle: from_stat_space *)

Section AngleFrom.
Variables mn mx : R.
Hypothesis Hmn : mn <= 0.
Hypothesis Hmx : 0 < mx.
Let P := mx - mn.

Lemma ang_scale_inv t : ang_scale mn mx (t * ((mx - mn) / (2 * PI))) = t.
Proof. pose proof PI_RGT_0. unfold ang_scale. field. lra. Qed.

Lemma ang_from_spec fast x y :
  unscaled fast mn mx = false ->
  mn <= ang_from fast mn mx x y < mx /\
  exists k : Z, ang_scale mn mx (ang_from fast mn mx x y) = atan2 y x + 2 * IZR k * PI.
Proof.
  intros HU. unfold ang_from. rewrite HU.
  pose proof PI_RGT_0 as HP. pose proof (atan2_range y x) as HA.
  set (t := atan2 y x) in *.
  assert (HS : 0 < (mx - mn) / (2 * PI)).
  { unfold Rdiv. apply Rmult_lt_0_compat; [lra|]. apply Rinv_0_lt_compat. lra. }
  assert (B : - ((mx - mn) / 2) <= t * ((mx - mn) / (2 * PI)) <= (mx - mn) / 2).
  { replace ((mx - mn) / 2) with (PI * ((mx - mn) / (2 * PI))) by (field; lra).
    split; [rewrite Ropp_mult_distr_l|]; apply Rmult_le_compat_r; lra. }
  destruct (wrap_phi_range mn mx Hmn Hmx (t * ((mx - mn) / (2 * PI)))) as [R [k K]]; [lra|].
  split; [exact R|]. exists k. rewrite K, ang_scale_shift, ang_scale_inv by assumption. reflexivity.
Qed.

Lemma unscaled_true fast : unscaled fast mn mx = true -> fast = true /\ mn = - PI /\ mx = PI.
Proof.
  unfold unscaled. destruct fast; [|discriminate].
  destruct (Req_EM_T mn (- PI)); [|discriminate]. destruct (Req_EM_T mx PI); [|discriminate]. auto.
Qed.

(** In both branches the direction is right. *)
Lemma ang_from_dir fast x y :
  cos (ang_scale mn mx (ang_from fast mn mx x y)) = cos (atan2 y x) /\
  sin (ang_scale mn mx (ang_from fast mn mx x y)) = sin (atan2 y x).
Proof.
  destruct (unscaled fast mn mx) eqn:U.
  - destruct (unscaled_true _ U) as [_ [E1 E2]].
    unfold ang_from. rewrite U.
    replace (ang_scale mn mx (atan2 y x)) with (atan2 y x); [split; reflexivity|].
    pose proof PI_RGT_0. unfold ang_scale. rewrite E1, E2. field. lra.
  - destruct (ang_from_spec fast x y U) as [_ [k K]]. rewrite K, cos_periodZ, sin_periodZ. split; reflexivity.
Qed.

(** Unit direction: atan2 has that sine and cosine; likewise any positive multiple. *)
Lemma atan2_dir k c s x y : 0 < k -> c * c + s * s = 1 -> sv x = k * c -> sv y = k * s ->
  cos (atan2 y x) = c /\ sin (atan2 y x) = s.
Proof.
  intros Hk H1 Ex Ey. destruct (atan2_polar y x) as [Hx Hy].
  assert (S : sqrt (sv x * sv x + sv y * sv y) = k).
  { rewrite Ex, Ey. replace (k * c * (k * c) + k * s * (k * s)) with (k * k * (c * c + s * s)) by ring.
    rewrite H1, Rmult_1_r. apply sqrt_square. lra. }
  rewrite S in Hx, Hy. rewrite Ex in Hx. rewrite Ey in Hy.
  apply Rmult_eq_reg_l in Hx; [|lra]. apply Rmult_eq_reg_l in Hy; [|lra]. split; congruence.
Qed.

Lemma ang_from_to fast k c s x y : 0 < k -> c * c + s * s = 1 -> sv x = k * c -> sv y = k * s ->
  cos (ang_scale mn mx (ang_from fast mn mx x y)) = c /\
  sin (ang_scale mn mx (ang_from fast mn mx x y)) = s.
Proof.
  intros. destruct (ang_from_dir fast x y) as [-> ->]. eapply atan2_dir; eassumption.
Qed.

Lemma cs1 t : cos t * cos t + sin t * sin t = 1.
Proof. pose proof (sin2_cos2 t). unfold Rsqr in *. lra. Qed.

(** The unique representative. *)
Lemma ang_unique a b : mn <= a < mx -> mn <= b < mx ->
  cos (ang_scale mn mx a) = cos (ang_scale mn mx b) ->
  sin (ang_scale mn mx a) = sin (ang_scale mn mx b) -> a = b.
Proof.
  intros Ha Hb Hc Hs. destruct (same_direction _ _ Hc Hs) as [k Hk].
  apply ang_scale_inj_turn in Hk; try assumption.
  apply (unique_rep mn (mx - mn) a b k); lra.
Qed.

End AngleFrom.

(** ** Inclination *)

Section InclLemmas.
Variable down : R.
Hypothesis Hd : 0 < down.

Lemma incl_scale_range i : 0 <= i <= down -> 0 <= incl_scale down i <= PI.
Proof.
  pose proof PI_RGT_0 as HP. intros H. unfold incl_scale.
  assert (0 < PI / down) by (unfold Rdiv; apply Rmult_lt_0_compat; [lra|]; apply Rinv_0_lt_compat; lra).
  split.
  - apply Rmult_le_pos; lra.
  - replace PI with (down * (PI / down)) at 2 by (field; lra). apply Rmult_le_compat_r; lra.
Qed.

Lemma incl_scale_shift i (k : Z) :
  incl_scale down (i + IZR k * (down * 2)) = incl_scale down i + 2 * IZR k * PI.
Proof. unfold incl_scale. field. lra. Qed.

Lemma incl_scale_opp i : incl_scale down (- i) = - incl_scale down i.
Proof. unfold incl_scale. ring. Qed.

Lemma incl_wrap_spec i w : incl_wrap down i = Ret w ->
  0 <= w <= down /\ exists k : Z, w = i + IZR k * (down * 2) \/ w = - i + IZR k * (down * 2).
Proof.
  assert (G : bind (fmod (pos (Rabs i)) (down * 2)) (fun am =>
             if Rlt_dec down (sv am) then Ret (down * 2 - sv am) else Ret (sv am)) = Ret w ->
    0 <= w <= down /\ exists k : Z, w = i + IZR k * (down * 2) \/ w = - i + IZR k * (down * 2)).
  { destruct (fmod (pos (Rabs i)) (down * 2)) as [m| | |] eqn:E; cbn [bind]; try discriminate.
    assert (HD : 0 < down * 2) by lra.
    pose proof (fmod_spec _ _ _ HD E) as K.
    destruct (fm_k _ _ _ K) as [k Hk]. cbn [pos sv] in Hk.
    pose proof (fm_lt _ _ _ K) as Hl. apply Rabs_def2 in Hl.
    pose proof (fm_pos _ _ _ K) as Hp. cbn [pos sv] in Hp. specialize (Hp (Rabs_pos i)).
    destruct (Rlt_dec down (sv m)); intros [= <-].
    - split; [lra|]. exists (k + 1)%Z. rewrite plus_IZR. unfold Rabs in Hk. destruct (Rcase_abs i); lra.
    - split; [lra|]. exists (- k)%Z. rewrite opp_IZR. unfold Rabs in Hk. destruct (Rcase_abs i); lra. }
  unfold incl_wrap. destruct (Rle_dec 0 i); [destruct (Rle_dec i down)|]; try exact G.
  intros [= <-]. split; [lra|]. exists 0%Z. lra.
Qed.

Lemma incl_wrap_id w : 0 <= w <= down -> incl_wrap down w = Ret w.
Proof.
  intros [A B]. unfold incl_wrap.
  destruct (Rle_dec 0 w); [|lra]. destruct (Rle_dec w down); [reflexivity|lra].
Qed.

Lemma incl_wrap_stat i w : incl_wrap down i = Ret w ->
  cos (incl_scale down w) = cos (incl_scale down i) /\
  Rabs (sin (incl_scale down w)) = Rabs (sin (incl_scale down i)).
Proof.
  intros H. destruct (incl_wrap_spec _ _ H) as [_ [k [E|E]]]; rewrite E, incl_scale_shift, cos_periodZ, sin_periodZ.
  - split; reflexivity.
  - rewrite incl_scale_opp, cos_neg, sin_neg, Rabs_Ropp. split; reflexivity.
Qed.

Lemma atan2_upper y x : 0 <= y -> 0 <= atan2 (pos y) x <= PI.
Proof.
  intros Hy. pose proof PI_RGT_0 as HP. split; [|apply atan2_range].
  unfold atan2, copysign, pos; cbn [sv]. rewrite (Rabs_pos_eq PI) by lra.
  destruct (Rlt_dec 0 (sv x)) as [X|X].
  { destruct Hy as [Hy|<-].
    - left. rewrite <- atan_0. apply atan_increasing. unfold Rdiv. apply Rmult_lt_0_compat; [lra|].
      apply Rinv_0_lt_compat; lra.
    - unfold Rdiv. rewrite Rmult_0_l, atan_0. lra. }
  pose proof (atan_bound (y / sv x)).
  change {| sv := y; sz := false |} with (pos y). rewrite signbit_posR by exact Hy.
  destruct (Rlt_dec (sv x) 0).
  - destruct (Rlt_dec 0 y); [lra|]. destruct (Rlt_dec y 0); lra.
  - destruct (Rlt_dec 0 y); [lra|]. destruct (Rlt_dec y 0); [lra|]. destruct (signbit x); lra.
Qed.

Lemma incl_from_range z w : 0 <= incl_from down z w <= down.
Proof.
  unfold incl_from. pose proof PI_RGT_0 as HP.
  pose proof (atan2_upper (Rabs (sv w)) z (Rabs_pos _)) as H.
  assert (0 < down / PI) by (unfold Rdiv; apply Rmult_lt_0_compat; [lra|]; apply Rinv_0_lt_compat; lra).
  split.
  - apply Rmult_le_pos; lra.
  - replace down with (PI * (down / PI)) at 2 by (field; lra). apply Rmult_le_compat_r; lra.
Qed.

Lemma incl_from_scale z w : incl_scale down (incl_from down z w) = atan2 (pos (Rabs (sv w))) z.
Proof. pose proof PI_RGT_0. unfold incl_scale, incl_from. field. lra. Qed.

Lemma incl_unique a b : 0 <= a <= down -> 0 <= b <= down ->
  cos (incl_scale down a) = cos (incl_scale down b) -> a = b.
Proof.
  intros Ha Hb E.
  pose proof (incl_scale_range a Ha) as A. pose proof (incl_scale_range b Hb) as B.
  assert (S : incl_scale down a = incl_scale down b).
  { rewrite <- (acos_cos _ A), <- (acos_cos _ B), E. reflexivity. }
  unfold incl_scale in S. apply Rmult_eq_reg_r in S; [exact S|].
  pose proof PI_RGT_0. unfold Rdiv. apply Rmult_integral_contrapositive. split; [lra|].
  apply Rinv_neq_0_compat; lra.
Qed.

Lemma incl_from_to k c s z w : 0 < k -> 0 <= s -> c * c + s * s = 1 -> sv z = k * c -> sv w = k * s ->
  cos (incl_scale down (incl_from down z w)) = c /\
  Rabs (sin (incl_scale down (incl_from down z w))) = s.
Proof.
  intros Hk Hs H1 Ez Ew. rewrite incl_from_scale.
  assert (Rabs (sv w) = k * s) as EA by (rewrite Ew; apply Rabs_pos_eq, Rmult_le_pos; lra).
  destruct (atan2_dir k c s z (pos (Rabs (sv w)))) as [-> ->]; try assumption.
  split; [reflexivity|]. apply Rabs_pos_eq, Hs.
Qed.

End InclLemmas.

(** ** Spherical *)

Section SpherLemmas.
Variables mn mx down : R.
Hypothesis Hmn : mn <= 0.
Hypothesis Hmx : 0 < mx.
Hypothesis Hd : 0 < down.

Lemma spher_wrap_phi_spec fl a w : spher_wrap_phi mn mx fl a = Ret w ->
  mn <= w < mx /\
  cos (ang_scale mn mx w) = (if fl then -1 else 1) * cos (ang_scale mn mx a) /\
  sin (ang_scale mn mx w) = (if fl then -1 else 1) * sin (ang_scale mn mx a).
Proof.
  unfold spher_wrap_phi.
  set (a' := if fl then a + (mx - mn) * (1 / 2) else a).
  destruct (fmod (pos (a' - mn)) (mx - mn)) as [m| | |] eqn:E; cbn [bind]; try discriminate.
  intros [= <-].
  assert (HP : 0 < mx - mn) by lra.
  pose proof (fmod_spec _ _ _ HP E) as K. destruct (fm_k _ _ _ K) as [k Hk]. cbn [pos sv] in Hk.
  pose proof (fm_lt _ _ _ K) as Hl. apply Rabs_def2 in Hl.
  assert (B : exists j : Z, (if Rlt_dec (sv m) 0 then sv m + (mx - mn) else sv m) + mn = a' + IZR j * (mx - mn)).
  { destruct (Rlt_dec (sv m) 0).
    - exists (1 - k)%Z. rewrite minus_IZR. lra.
    - exists (- k)%Z. rewrite opp_IZR. lra. }
  split. { destruct (Rlt_dec (sv m) 0); lra. }
  destruct B as [j Hj]. rewrite Hj, ang_scale_shift, cos_periodZ, sin_periodZ by assumption.
  unfold a'. destruct fl; [|lra].
  rewrite ang_scale_half, neg_cos, neg_sin by assumption. lra.
Qed.

Lemma spher_wrap_phi_id w : mn <= w < mx -> spher_wrap_phi mn mx false w = Ret w.
Proof.
  intros H. unfold spher_wrap_phi.
  destruct (fmod_small (pos (w - mn)) (mx - mn)) as [m [E [V _]]]; [lra|cbn [pos sv]; apply Rabs_def1; lra|].
  rewrite E; cbn [bind]. cbn [pos sv] in V. rewrite V. destruct (Rlt_dec _ _); f_equal; lra.
Qed.

Lemma flip_d_abs d : (if signbit d then -1 else 1) * sv d = Rabs (sv d).
Proof.
  unfold signbit, Rabs. destruct (Rcase_abs (sv d)); destruct (Rlt_dec (sv d) 0); try lra.
  destruct (Req_EM_T (sv d) 0) as [E|E]; [rewrite E; lra|lra].
Qed.

(** Everything about a returning spherical wrap. *)
Lemma spher_wrap_spec d i a r i' a' : spher_wrap mn mx down d i a = Ret (r, i', a') ->
  r = Rabs (sv d) /\ 0 <= i' <= down /\ mn <= a' < mx /\
  (let s := if signbit d then -1 else 1 in
   sin (incl_scale down i') * cos (ang_scale mn mx a') = s * (sin (incl_scale down (sv i)) * cos (ang_scale mn mx (sv a))) /\
   sin (incl_scale down i') * sin (ang_scale mn mx a') = s * (sin (incl_scale down (sv i)) * sin (ang_scale mn mx (sv a))) /\
   cos (incl_scale down i') = s * cos (incl_scale down (sv i))).
Proof.
  unfold spher_wrap.
  destruct (fmod i (down * 2)) as [im| | |] eqn:E; cbn [bind]; try discriminate.
  assert (HD : 0 < down * 2) by lra.
  pose proof (fmod_spec _ _ _ HD E) as K. destruct (fm_k _ _ _ K) as [k Hk].
  pose proof (fm_lt _ _ _ K) as Hl.
  set (iabs := Rabs (sv im)) in *.
  set (high := if Rlt_dec down iabs then true else false).
  set (fl := xorb (xorb (signbit im) high) (signbit d)).
  destruct (spher_wrap_phi mn mx fl (sv a)) as [w| | |] eqn:EA; cbn [bind]; try discriminate.
  intros [= <- <- <-].
  destruct (spher_wrap_phi_spec _ _ _ EA) as [RA [CA SA]].
  assert (Hi0 : 0 <= iabs) by apply Rabs_pos.
  split; [reflexivity|]. split; [|split; [exact RA|]].
  { unfold spher_wrap_theta. destruct (Rlt_dec down iabs); destruct (signbit d); lra. }
  rewrite CA, SA.
  (* the inclination: sine and cosine of the original in terms of iabs *)
  assert (C0 : cos (incl_scale down (sv i)) = cos (incl_scale down iabs)).
  { replace (sv i) with (sv im + IZR k * (down * 2)) by lra.
    rewrite incl_scale_shift, cos_periodZ by assumption.
    unfold iabs, Rabs. destruct (Rcase_abs (sv im)); [|reflexivity].
    rewrite incl_scale_opp, cos_neg by assumption. reflexivity. }
  assert (S0 : sin (incl_scale down (sv i)) = (if signbit im then -1 else 1) * sin (incl_scale down iabs)).
  { replace (sv i) with (sv im + IZR k * (down * 2)) by lra.
    rewrite incl_scale_shift, sin_periodZ by assumption.
    unfold iabs, Rabs. destruct (Rcase_abs (sv im)) as [N|N].
    - rewrite incl_scale_opp, sin_neg, signbit_neg by assumption. lra.
    - destruct (Req_dec (sv im) 0) as [Z|Z].
      + rewrite Z. unfold incl_scale. rewrite Rmult_0_l, sin_0. lra.
      + rewrite signbit_pos by lra. lra. }
  rewrite C0, S0.
  (* the wrapped inclination *)
  assert (R2 : incl_scale down (down * 2 - iabs) = - incl_scale down iabs + 2 * IZR 1 * PI).
  { unfold incl_scale. field. lra. }
  assert (R1 : incl_scale down (down - iabs) = PI - incl_scale down iabs).
  { unfold incl_scale. field. lra. }
  assert (R3 : incl_scale down (iabs - down) = incl_scale down iabs + PI + 2 * IZR (-1) * PI).
  { unfold incl_scale. field. lra. }
  unfold spher_wrap_theta, fl, high.
  destruct (Rlt_dec down iabs); destruct (signbit d).
  - rewrite R3, sin_periodZ, cos_periodZ, neg_sin, neg_cos. destruct (signbit im); cbn [xorb]; repeat split; ring.
  - rewrite R2, sin_periodZ, cos_periodZ, sin_neg, cos_neg. destruct (signbit im); cbn [xorb]; repeat split; ring.
  - rewrite R1. replace (cos (PI - incl_scale down iabs)) with (- cos (incl_scale down iabs)).
    2: { rewrite cos_minus, cos_PI, sin_PI. ring. }
    rewrite sin_PI_x. destruct (signbit im); cbn [xorb]; repeat split; ring.
  - destruct (signbit im); cbn [xorb]; repeat split; ring.
Qed.

Lemma spher_wrap_id r i a : 0 <= r -> 0 <= i <= down -> mn <= a < mx ->
  spher_wrap mn mx down (pos r) (pos i) (pos a) = Ret (r, i, a).
Proof.
  intros Hr Hi Ha. unfold spher_wrap.
  destruct (fmod_small (pos i) (down * 2)) as [m [E [V [Z1 Z2]]]];
    [lra|cbn [pos sv]; apply Rabs_def1; lra|].
  rewrite E; cbn [bind]. cbn [pos sv] in V.
  rewrite V, (Rabs_pos_eq i) by lra.
  assert (S : signbit m = false).
  { destruct (Req_dec i 0) as [Z|Z].
    - rewrite (Z2 Z). apply signbit_posR; lra.
    - apply signbit_pos. lra. }
  rewrite S, signbit_posR by exact Hr.
  destruct (Rlt_dec down i); [lra|]. cbn [xorb].
  cbn [pos sv]. rewrite spher_wrap_phi_id by exact Ha. cbn [bind].
  unfold spher_wrap_theta. destruct (Rlt_dec down i); [lra|]. rewrite Rabs_pos_eq by exact Hr. reflexivity.
Qed.

Lemma acos_scaled_range c : 0 <= down / PI * acos c <= down.
Proof.
  pose proof PI_RGT_0 as HP. pose proof (acos_bound c) as H.
  assert (0 < down / PI) by (unfold Rdiv; apply Rmult_lt_0_compat; [lra|]; apply Rinv_0_lt_compat; lra).
  split; [apply Rmult_le_pos; lra|].
  replace down with (down / PI * PI) at 2 by (field; lra). apply Rmult_le_compat_l; lra.
Qed.

Lemma spher_from_range d x y z r i a : spher_from mn mx down d x y z = (r, i, a) ->
  r = sv d /\ 0 <= i <= down /\ mn <= a < mx.
Proof.
  unfold spher_from. intros [= <- <- <-]. pose proof PI_RGT_0 as HP.
  split; [reflexivity|]. split.
  - destruct (Req_EM_T _ 0) as [E|E]; [rewrite E; lra|apply acos_scaled_range].
  - set (t := if Req_EM_T (hypot2 (sv x) (sv y)) 0 then _ else _).
    assert (T : 0 <= t <= PI).
    { unfold t. destruct (Req_EM_T _ 0) as [E|E]; [rewrite E; lra|]. apply acos_bound. }
    unfold copysign.
    assert (HS : 0 < (mx - mn) / (2 * PI)).
    { unfold Rdiv. apply Rmult_lt_0_compat; [lra|]. apply Rinv_0_lt_compat. lra. }
    rewrite Rabs_pos_eq by lra.
    assert (B : 0 <= (mx - mn) / (2 * PI) * t <= (mx - mn) / 2).
    { split; [apply Rmult_le_pos; lra|].
      replace ((mx - mn) / 2) with ((mx - mn) / (2 * PI) * PI) by (field; lra). apply Rmult_le_compat_l; lra. }
    apply wrap_phi_range; try assumption.
    destruct (signbit y); [rewrite <- Ropp_mult_distr_l|]; lra.
Qed.

Lemma ratio_bound x y h : h = sqrt (x * x + y * y) -> h <> 0 -> -1 <= x / h <= 1.
Proof.
  intros E N.
  assert (Hh : 0 < h). { destruct (sqrt_pos (x * x + y * y)) as [H|H]; rewrite <- E in H; [exact H|congruence]. }
  assert (Q : h * h = x * x + y * y).
  { rewrite E. apply sqrt_sqrt. pose proof (Rle_0_sqr x). pose proof (Rle_0_sqr y). unfold Rsqr in *. lra. }
  assert (A : - h <= x <= h).
  { pose proof (Rle_0_sqr y) as Y. unfold Rsqr in Y.
    split; [apply Ropp_le_cancel; rewrite Ropp_involutive|];
    apply Rsqr_incr_0_var; unfold Rsqr; lra. }
  split; apply Rmult_le_reg_r with h; try exact Hh; unfold Rdiv; rewrite Rmult_assoc, Rinv_l; lra.
Qed.

Lemma sin_acos_ratio x y h : h = sqrt (x * x + y * y) -> h <> 0 ->
  sin (acos (x / h)) = Rabs y / h.
Proof.
  intros E N.
  pose proof (ratio_bound x y h E N) as B.
  assert (Hh : 0 < h). { destruct (sqrt_pos (x * x + y * y)) as [H|H]; rewrite <- E in H; [exact H|congruence]. }
  assert (Q : h * h = x * x + y * y).
  { rewrite E. apply sqrt_sqrt. pose proof (Rle_0_sqr x). pose proof (Rle_0_sqr y). unfold Rsqr in *. lra. }
  rewrite sin_acos by exact B.
  replace (1 - (x / h)²) with ((y / h)²).
  - rewrite sqrt_Rsqr_abs. unfold Rdiv. rewrite Rabs_mult, (Rabs_pos_eq (/ h)); [reflexivity|].
    left. apply Rinv_0_lt_compat, Hh.
  - unfold Rsqr. field_simplify; [|lra|lra]. f_equal. lra.
Qed.

(** Re-encoding the result gives the direction, for any non-zero stat vector. *)
Lemma spher_from_to kk cx cy cz d x y z r i a :
  0 < kk -> cx * cx + cy * cy + cz * cz = 1 ->
  sv x = kk * cx -> sv y = kk * cy -> sv z = kk * cz ->
  spher_from mn mx down d x y z = (r, i, a) ->
  sin (incl_scale down i) * cos (ang_scale mn mx a) = cx /\
  sin (incl_scale down i) * sin (ang_scale mn mx a) = cy /\
  cos (incl_scale down i) = cz.
Proof.
  intros Hk H1 Ex Ey Ez. unfold spher_from. intros [= <- <- <-]. pose proof PI_RGT_0 as HP.
  set (hxy := hypot2 (sv x) (sv y)).
  assert (Qxy : hxy * hxy = sv x * sv x + sv y * sv y).
  { unfold hxy, hypot2. apply sqrt_sqrt. pose proof (Rle_0_sqr (sv x)). pose proof (Rle_0_sqr (sv y)). unfold Rsqr in *. lra. }
  assert (Hxy0 : 0 <= hxy) by apply sqrt_pos.
  assert (Hh : sqrt (hxy * hxy + sv z * sv z) = kk).
  { rewrite Qxy, Ex, Ey, Ez.
    replace (kk * cx * (kk * cx) + kk * cy * (kk * cy) + kk * cz * (kk * cz)) with (kk * kk * (cx * cx + cy * cy + cz * cz)) by ring.
    rewrite H1, Rmult_1_r. apply sqrt_square. lra. }
  rewrite Hh. destruct (Req_EM_T kk 0) as [|_]; [lra|].
  assert (IS : forall t, incl_scale down (down / PI * t) = t) by (intros t; unfold incl_scale; field; lra).
  rewrite IS.
  assert (E' : kk = sqrt (sv z * sv z + hxy * hxy)) by (rewrite <- Hh at 1; f_equal; ring).
  assert (CZ : cos (acos (sv z / kk)) = cz).
  { rewrite cos_acos by (apply (ratio_bound (sv z) hxy kk E'); lra). rewrite Ez. field. lra. }
  rewrite CZ.
  rewrite (sin_acos_ratio (sv z) hxy kk E' ltac:(lra)), (Rabs_pos_eq hxy) by exact Hxy0.
  (* azimuth *)
  set (t := if Req_EM_T hxy 0 then hxy else acos (sv x / hxy)).
  assert (T : 0 <= t <= PI).
  { unfold t. destruct (Req_EM_T hxy 0) as [E|E]; [rewrite E; lra|]. apply acos_bound. }
  set (sg := if signbit y then -1 else 1).
  assert (CS : copysign ((mx - mn) / (2 * PI)) y * t = (sg * t) * ((mx - mn) / (2 * PI))).
  { unfold copysign, sg.
    assert (HS : 0 < (mx - mn) / (2 * PI)).
    { unfold Rdiv. apply Rmult_lt_0_compat; [lra|]. apply Rinv_0_lt_compat. lra. }
    rewrite Rabs_pos_eq by lra. destruct (signbit y); ring. }
  rewrite CS.
  assert (B : - ((mx - mn) / 2) <= (sg * t) * ((mx - mn) / (2 * PI)) <= (mx - mn) / 2).
  { assert (HS : 0 < (mx - mn) / (2 * PI)).
    { unfold Rdiv. apply Rmult_lt_0_compat; [lra|]. apply Rinv_0_lt_compat. lra. }
    replace ((mx - mn) / 2) with (PI * ((mx - mn) / (2 * PI))) by (field; lra).
    assert (- PI <= sg * t <= PI) by (unfold sg; destruct (signbit y); lra).
    split; [rewrite Ropp_mult_distr_l|]; apply Rmult_le_compat_r; lra. }
  destruct (wrap_phi_range mn mx Hmn Hmx ((sg * t) * ((mx - mn) / (2 * PI)))) as [_ [k K]]; [lra|].
  rewrite K, ang_scale_shift, ang_scale_inv, cos_periodZ, sin_periodZ by assumption.
  assert (G : hxy * cos (sg * t) = sv x /\ hxy * sin (sg * t) = sv y).
  { unfold t. destruct (Req_EM_T hxy 0) as [Z|Z].
    - rewrite Z, !Rmult_0_l.
      assert (sv x * sv x + sv y * sv y = 0) by (rewrite <- Qxy, Z; ring).
      pose proof (Rle_0_sqr (sv x)). pose proof (Rle_0_sqr (sv y)). unfold Rsqr in *.
      split; symmetry; apply Rsqr_0_uniq; unfold Rsqr; lra.
    - assert (Eh : hxy = sqrt (sv x * sv x + sv y * sv y)) by reflexivity.
      assert (C : cos (sg * acos (sv x / hxy)) = sv x / hxy).
      { transitivity (cos (acos (sv x / hxy))).
        - unfold sg. destruct (signbit y); [|f_equal; ring].
          replace (-1 * acos (sv x / hxy)) with (- acos (sv x / hxy)) by ring. apply cos_neg.
        - apply cos_acos, (ratio_bound _ (sv y)); assumption. }
      assert (S : sin (sg * acos (sv x / hxy)) = sv y / hxy).
      { pose proof (sin_acos_ratio (sv x) (sv y) hxy Eh Z) as SA. unfold sg.
        destruct (Rlt_dec (sv y) 0) as [Ny|Ny].
        - rewrite signbit_neg by exact Ny. replace (-1 * acos (sv x / hxy)) with (- acos (sv x / hxy)) by ring.
          rewrite sin_neg, SA, Rabs_left by exact Ny. field. exact Z.
        - destruct (Req_dec (sv y) 0) as [Zy|Zy].
          + rewrite Zy in SA |- *. rewrite Rabs_R0 in SA.
            unfold Rdiv in SA |- *. rewrite Rmult_0_l in SA |- *.
            destruct (signbit y).
            * replace (-1 * acos (sv x * / hxy)) with (- acos (sv x * / hxy)) by ring. rewrite sin_neg, SA. ring.
            * rewrite Rmult_1_l. exact SA.
          + rewrite signbit_pos by lra. rewrite Rmult_1_l, SA, Rabs_pos_eq by lra. reflexivity. }
      rewrite C, S. split; field; exact Z. }
  destruct G as [G1 G2].
  split; [|split; [|reflexivity]].
  - replace (hxy / kk * cos (sg * t)) with ((hxy * cos (sg * t)) / kk) by (field; lra).
    rewrite G1, Ex. field. lra.
  - replace (hxy / kk * sin (sg * t)) with ((hxy * sin (sg * t)) / kk) by (field; lra).
    rewrite G2, Ey. field. lra.
Qed.

(** Uniqueness of the spherical coordinate away from the poles. *)
Lemma spher_unique i a i' a' :
  0 <= i <= down -> 0 <= i' <= down -> mn <= a < mx -> mn <= a' < mx ->
  sin (incl_scale down i) * cos (ang_scale mn mx a) = sin (incl_scale down i') * cos (ang_scale mn mx a') ->
  sin (incl_scale down i) * sin (ang_scale mn mx a) = sin (incl_scale down i') * sin (ang_scale mn mx a') ->
  cos (incl_scale down i) = cos (incl_scale down i') ->
  i = i' /\ (a = a' \/ i = 0 \/ i = down).
Proof.
  intros Hi Hi' Ha Ha' X Y Z. pose proof PI_RGT_0 as HP.
  assert (E : i = i') by (apply (incl_unique down Hd); assumption). subst i'. split; [reflexivity|].
  destruct (Req_dec (sin (incl_scale down i)) 0) as [S|S].
  - right. pose proof (incl_scale_range down Hd i Hi) as R.
    destruct (Req_dec (incl_scale down i) 0) as [A|A].
    + left. unfold incl_scale in A. apply Rmult_integral in A. destruct A as [A|A]; [exact A|].
      exfalso. unfold Rdiv in A. apply Rmult_integral in A. destruct A as [A|A]; [lra|].
      apply (Rinv_neq_0_compat down); lra.
    + destruct (Req_dec (incl_scale down i) PI) as [B|B].
      * right. unfold incl_scale in B. apply Rmult_eq_reg_r with (PI / down).
        -- rewrite B. field. lra.
        -- unfold Rdiv. apply Rmult_integral_contrapositive. split; [lra|]. apply Rinv_neq_0_compat; lra.
      * exfalso. assert (0 < sin (incl_scale down i)) by (apply sin_gt_0; lra). lra.
  - left. apply (ang_unique mn mx Hmn Hmx); try assumption; apply Rmult_eq_reg_l with (sin (incl_scale down i)); assumption.
Qed.

End SpherLemmas.
