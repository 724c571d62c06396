(** Means with angular coordinates: ranges through histories (C92), transformed sample points (C93), measurement updates (C94). *)
From Coq Require Import Reals List ZArith Lra Lia.
From Verif Require Import PatModel PatSpec MeanModel MeanSpec MeanProofs MeanProofs2.
Import ListNotations.
Local Open Scope R_scope.

(** ** C92 *)

(** Wrapping always returns, and what it returns lies in the primary range and is the same point. *)
Theorem wrapping_returns : forall fast ds z c, Forall valid ds -> (fast = true -> Forall limits_not_pi ds) -> length c = get_dimension ds ->
  exists u s, wrap_column fast ds z c = Ret u /\ each in_range1 ds u /\ to_stat ds (tag (z 0%nat) c) = Ret s /\ to_stat ds (map pos u) = Ret s.
Proof. exact (fun fast ds z c V F L => wrap_column_ok fast ds V F z c L). Qed.
Print Assumptions wrapping_returns.

(** After any history of constructions, assignments and arithmetic, every mean is in the primary range of its pattern. *)
Theorem means_stay_in_range_partial : forall fast ds n ops e x m, Forall valid ds -> (fast = true -> Forall limits_not_pi ds) ->
  Forall (directed ds) ops -> run fast ds n (fun _ => None) ops = Ret e -> e x = Some m -> Forall (each in_range1 ds) m /\ length m = n.
Proof.
  intros fast ds n ops e x m V F D H E. assert (G : good ds n e) by (refine (run_good fast ds n V F ops (fun _ => None) e _ D H); intros y m'; discriminate).
  exact (G x m E).
Qed.
Print Assumptions means_stay_in_range_partial.

(** Missing: with trigonometric shortcuts and the limits -pi, pi, a mean holds pi, which is not in [-pi, pi). *)
Theorem means_stay_in_range_refuted :
  exists e, run true [Ang (- PI) PI] 1 (fun _ => None) [FromMatrix 0 [[PI]] no] = Ret e /\ e 0%nat = Some [[PI]] /\ ~ in_range1 (Ang (- PI) PI) [PI].
Proof.
  destruct pi_kept as (e & H & E). exists e. refine (conj H (conj E _)). intros (a & Ea & Ha). injection Ea as <-. lra.
Qed.
Print Assumptions means_stay_in_range_refuted.

(** Numbers and angles, whole multiples: wrapping after every operation is the same as wrapping once at the end. *)
Theorem when_wrapped_partial : forall fast ds ks n ops e x m z, Forall valid ds -> (fast = true -> Forall limits_not_pi ds) -> kinds ds = Some ks ->
  Forall whole ops -> run fast ds n (fun _ => None) ops = Ret e -> e x = Some m ->
  exists p, plain_run ops x = Some p /\ wrap_angles fast ds z p = Ret m.
Proof. intros fast ds ks n ops e x m z V F K. exact (run_flat fast ds ks n V F K ops e x m z). Qed.
Print Assumptions when_wrapped_partial.

(** Missing: halves of angles (360 degrees halved gives 0 and not 180), *)
Theorem when_wrapped_halves_refuted :
  exists e, run true [Ang (-180) 180] 1 (fun _ => None) [FromMatrix 0 [[360]] no; Times 0 (/ 2) no] = Ret e /\
    e 0%nat = Some [[0]] /\ plain_run [FromMatrix 0 [[360]] no; Times 0 (/ 2) no] 0%nat = Some [[360 * / 2]] /\
    wrap_angles true [Ang (-180) 180] no [[360 * / 2]] = Ret [[-180]].
Proof. exact halves. Qed.
Print Assumptions when_wrapped_halves_refuted.

(** and distances (-1 + 1 is 2). *)
Theorem when_wrapped_distances_refuted :
  exists e, run true [Dist] 1 (fun _ => None) [FromMatrix 0 [[-1]] no; PlusMatrix 0 [[1]] no] = Ret e /\
    e 0%nat = Some [[2]] /\ plain_run [FromMatrix 0 [[-1]] no; PlusMatrix 0 [[1]] no] 0%nat = Some [[-1 + 1]] /\
    wrap_angles true [Dist] no [[-1 + 1]] = Ret [[0]].
Proof. exact distances. Qed.
Print Assumptions when_wrapped_distances_refuted.

(** A heading of 170 degrees turned by 20 is -170; the hypotheses of the theorems above hold for this history. *)
Example turned : exists e, run true [Ang (-180) 180] 1 (fun _ => None) [FromMatrix 0 [[170]] no; PlusMatrix 0 [[20]] no] = Ret e /\ e 0%nat = Some [[-170]] /\
  Forall whole [FromMatrix 0 [[170]] no; PlusMatrix 0 [[20]] no] /\ Forall (directed [Ang (-180) 180]) [FromMatrix 0 [[170]] no; PlusMatrix 0 [[20]] no] /\
  Forall valid [Ang (-180) 180] /\ Forall limits_not_pi [Ang (-180) 180] /\ kinds [Ang (-180) 180] = Some [Some (-180, 180)].
Proof.
  exists (MeanModel.update (MeanModel.update (fun _ => None) 0 [[170]]) 0 [[-170]]). split; [| split; [reflexivity | repeat split]].
  - cbn [run step].
    change (with_matrix 1 (get_dimension [Ang (-180) 180]) [[170]] (store true [Ang (-180) 180] (fun _ => None) 0 no [[170]]))
      with (store true [Ang (-180) 180] (fun _ => None) 0 no [[170]]).
    rewrite (store_row _ 0 no 170 170); [| lra | exists 0%Z; lra]. cbn [bind with_mean MeanModel.update Nat.eqb plus map2].
    change (with_matrix 1 (get_dimension [Ang (-180) 180]) [[20]] (store true [Ang (-180) 180] (MeanModel.update (fun _ => None) 0 [[170]]) 0 no [[170 + 20]]))
      with (store true [Ang (-180) 180] (MeanModel.update (fun _ => None) 0 [[170]]) 0 no [[170 + 20]]).
    rewrite (store_row _ 0 no (170 + 20) (-170)); [reflexivity | lra | exists (-1)%Z; lra].
  - repeat (constructor; [exact I |]). constructor.
  - repeat (constructor; [exact I |]). constructor.
  - constructor; [split; lra | constructor].
  - constructor; [exact pi_small | constructor].
Qed.

(** ** C93 *)

(** The mean of transformed sample points points in the direction of the weighted sum of the directions, and the variance is
    that of the values brought to the primary range. *)
Theorem sample_mean_direction : forall fast mn mx z wm wc values, mn <= 0 -> 0 < mx -> (fast = true -> ~ (mn = - PI /\ mx = PI)) ->
  let X := resultant cos mn mx wm values in let Y := resultant sin mn mx wm values in 0 < X * X + Y * Y ->
  exists m ys cov r, sample_transform fast [Ang mn mx] z wm wc (row values) = Ret ([m], cov) /\ mn <= m < mx /\ 0 < r /\
    r * cos (turn mn mx m) = X /\ r * sin (turn mn mx m) = Y /\
    Forall2 (fun v y => mn <= y < mx /\ exists t : Z, y = v + IZR t * (mx - mn)) values ys /\ cov 0%nat 0%nat = sum_squares wc ys m.
Proof. exact (fun fast mn mx z wm wc values H0 H1 F => sample_direction fast mn mx H0 H1 F z wm wc values). Qed.
Print Assumptions sample_mean_direction.

(** Rotating the values rotates the mean. *)
Theorem sample_mean_rotates : forall fast mn mx z z' wm wc values c m cov m' cov', mn <= 0 -> 0 < mx -> (fast = true -> ~ (mn = - PI /\ mx = PI)) ->
  let X := resultant cos mn mx wm values in let Y := resultant sin mn mx wm values in 0 < X * X + Y * Y ->
  sample_transform fast [Ang mn mx] z wm wc (row values) = Ret ([m], cov) ->
  sample_transform fast [Ang mn mx] z' wm wc (row (map (fun v => v + c) values)) = Ret ([m'], cov') ->
  exists t : Z, m' = m + c + IZR t * (mx - mn).
Proof. exact (fun fast mn mx z z' wm wc values c m cov m' cov' H0 H1 F => sample_rotates fast mn mx H0 H1 F z z' wm wc values c m cov m' cov'). Qed.
Print Assumptions sample_mean_rotates.

(** Values whose weighted sines balance about a centre have that centre as their mean. *)
Theorem sample_mean_balanced : forall fast mn mx z wm wc centre devs, mn <= 0 -> 0 < mx -> (fast = true -> ~ (mn = - PI /\ mx = PI)) ->
  resultant sin mn mx wm devs = 0 -> 0 < resultant cos mn mx wm devs ->
  exists m cov (t : Z), sample_transform fast [Ang mn mx] z wm wc (row (map (fun v => v + centre) devs)) = Ret ([m], cov) /\
    mn <= m < mx /\ m = centre + IZR t * (mx - mn).
Proof. exact (fun fast mn mx z wm wc centre devs H0 H1 F => sample_balanced fast mn mx H0 H1 F z wm wc centre devs). Qed.
Print Assumptions sample_mean_balanced.

(** Whole turns of the values change neither the mean nor the covariance, in any pattern of numbers and angles. *)
Theorem sample_turns_do_not_matter : forall fast ds ks z wm wc values values', Forall valid ds -> (fast = true -> Forall limits_not_pi ds) ->
  kinds ds = Some ks -> Forall2 (same_column ks) values values' ->
  sample_transform fast ds z wm wc values = sample_transform fast ds z wm wc values'.
Proof. exact sample_turns. Qed.
Print Assumptions sample_turns_do_not_matter.

(** A rotation that takes no value and not the mean across the limits keeps the variance. *)
Theorem sample_covariance_rotates_partial : forall fast mn mx z z' wm wc values c m cov m' cov', mn <= 0 -> 0 < mx ->
  (fast = true -> ~ (mn = - PI /\ mx = PI)) ->
  let X := resultant cos mn mx wm values in let Y := resultant sin mn mx wm values in 0 < X * X + Y * Y ->
  Forall (fun v => mn <= v < mx /\ mn <= v + c < mx) values -> mn <= m + c < mx ->
  sample_transform fast [Ang mn mx] z wm wc (row values) = Ret ([m], cov) ->
  sample_transform fast [Ang mn mx] z' wm wc (row (map (fun v => v + c) values)) = Ret ([m'], cov') ->
  m' = m + c /\ cov 0%nat 0%nat = sum_squares wc values m /\ cov' 0%nat 0%nat = cov 0%nat 0%nat.
Proof. exact (fun fast mn mx z z' wm wc values c m cov m' cov' H0 H1 F => sample_covariance fast mn mx H0 H1 F z z' wm wc values c m cov m' cov'). Qed.
Print Assumptions sample_covariance_rotates_partial.

(** Missing: any other rotation.  The values -1 and 1 degrees have the variance 1; the values 179 and 181 have the variance
    64441, because the differences from the mean are not wrapped. *)
Theorem sample_covariance_rotates_refuted :
  (exists cov, sample_transform true [Ang (-180) 180] no [/ 2; / 2] [/ 2; / 2] (row [-1; 1]) = Ret ([0], cov) /\ cov 0%nat 0%nat = 1) /\
  (exists cov, sample_transform true [Ang (-180) 180] no [/ 2; / 2] [/ 2; / 2] (row [179; 181]) = Ret ([-180], cov) /\ cov 0%nat 0%nat = 64441).
Proof. exact (conj near_zero near_cut). Qed.
Print Assumptions sample_covariance_rotates_refuted.

(** The hypotheses hold for -1 and 1 degrees, rotated by 90. *)
Example rotated : let X := resultant cos (-180) 180 [/ 2; / 2] [-1; 1] in let Y := resultant sin (-180) 180 [/ 2; / 2] [-1; 1] in
  0 < X * X + Y * Y /\ Y = 0 /\ 0 < X /\ Forall (fun v => -180 <= v < 180 /\ -180 <= v + 90 < 180) [-1; 1] /\ -180 <= 0 + 90 < 180 /\
  Forall2 (same_column [Some (-180, 180)]) (row [-1; 1]) (row [359; 1]) /\ ~ (-180 = - PI /\ 180 = PI).
Proof.
  destruct cut_values as [C S]. pose proof cut_cos as P. cbv zeta. rewrite C, S. split; [nra |]. split; [reflexivity |]. split; [exact P |].
  split; [repeat constructor; lra |]. split; [lra |]. split; [| exact pi_small].
  repeat constructor; [exists 1%Z; lra | exists 0%Z; lra].
Qed.

(** ** C94 *)

(** The updated state is in range. *)
Theorem updated_mean_in_range : forall fast dx dy z gain x y m u, Forall valid dx -> (fast = true -> Forall limits_not_pi dx) ->
  length x = get_dimension dx -> (forall v, length (gain v) = get_dimension dx) ->
  update_mean fast dx dy z gain x y m = Ret u -> each in_range1 dx u.
Proof. exact update_range. Qed.
Print Assumptions updated_mean_in_range.

(** Whole turns of the measurement do not matter. *)
Theorem measurement_turns_do_not_matter : forall fast dx dy ks z gain x y m m', Forall valid dy -> (fast = true -> Forall limits_not_pi dy) ->
  kinds dy = Some ks -> same_column ks m m' -> update_mean fast dx dy z gain x y m = update_mean fast dx dy z gain x y m'.
Proof. exact update_turns. Qed.
Print Assumptions measurement_turns_do_not_matter.

(** Rotating the state, the prediction and the measurement rotates the result, if the measurement stays inside the limits. *)
Theorem update_rotates_partial : forall fast mn mx z z' k x y m c u u', mn <= 0 -> 0 < mx -> (fast = true -> ~ (mn = - PI /\ mx = PI)) ->
  mn <= m < mx -> mn <= m + c < mx ->
  update_mean fast [Ang mn mx] [Ang mn mx] z (map (fun v => k * v)) [x] [y] [m] = Ret [u] ->
  update_mean fast [Ang mn mx] [Ang mn mx] z' (map (fun v => k * v)) [x + c] [y + c] [m + c] = Ret [u'] ->
  (exists t : Z, u = x + k * (m - y) + IZR t * (mx - mn)) /\ exists t : Z, u' = u + c + IZR t * (mx - mn).
Proof. exact (fun fast mn mx z z' k x y m c u u' H0 H1 F => update_rotates fast mn mx H0 H1 F z z' k x y m c u u'). Qed.
Print Assumptions update_rotates_partial.

(** Missing: a measurement that crosses the limits.  A state of -1 degree measured as 1 with the gain 1/2 becomes 0; rotated
    by 180, a state of 179 measured as 181 becomes 0 as well, and not 180. *)
Theorem update_rotates_refuted :
  update_mean true [Ang (-180) 180] [Ang (-180) 180] no half [-1] [-1] [1] = Ret [0] /\
  update_mean true [Ang (-180) 180] [Ang (-180) 180] no half [-1 + 180] [-1 + 180] [1 + 180] = Ret [0] /\
  ~ exists t : Z, 0 = 0 + 180 + IZR t * (180 - -180).
Proof.
  split; [exact update_near_zero |]. split.
  - replace (-1 + 180) with 179 by ring. replace (1 + 180) with 181 by ring. exact update_near_cut.
  - intros (t & H). assert (E : IZR (2 * t) = IZR (-1)) by (rewrite mult_IZR; lra). apply eq_IZR in E. lia.
Qed.
Print Assumptions update_rotates_refuted.

(** The hypotheses hold for a measurement of 1 degree, rotated by 90 and turned once. *)
Example measured : (-180 <= 1 < 180 /\ -180 <= 1 + 90 < 180) /\ same_column [Some (-180, 180)] [1] [361] /\
  update_mean true [Ang (-180) 180] [Ang (-180) 180] no half [-1 + 90] [-1 + 90] [1 + 90] = Ret [90].
Proof.
  split; [lra |]. split; [repeat constructor; exists 1%Z; lra |].
  unfold update_mean. rewrite (deg _ (1 + 90) (1 + 90)); [| lra | exists 0%Z; lra]. cbn [bind map2 map half].
  rewrite (deg _ _ 90); [reflexivity | lra | exists 0%Z; lra].
Qed.
