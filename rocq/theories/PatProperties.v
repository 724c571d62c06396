(** * Properties C01-C13 and C68 of the pattern functions.

    [ds] is any descriptor collection, [v] any data vector of scalars (value and sign of zero);
    [map pos w] is the vector [w] used again as an input. *)
From Coq Require Import Reals List ZArith Lra Lia Bool.
From Verif Require Import PatModel PatSpec PatProofs4 PatExamples.
Import ListNotations.
Local Open Scope R_scope.

(** C01 *)
Theorem wrap_in_range : forall ds v w,
  Forall valid ds -> wrap ds v = Ret w -> length w = length v /\ each in_range1 ds w.
Proof. exact wrap_in_range_pf. Qed.
Print Assumptions wrap_in_range.

Example wrap_in_range_example : Forall valid ex_ds /\ wrap ex_ds ex_v = Ret ex_w.
Proof. exact (conj ex_valid ex_wrap). Qed.

(** C02 *)
Theorem wrap_idempotent : forall ds v w,
  Forall valid ds -> wrap ds v = Ret w -> wrap ds (map pos w) = Ret w.
Proof. exact wrap_idempotent_pf. Qed.
Print Assumptions wrap_idempotent.

Theorem wrap_fixes_range : forall ds w,
  Forall valid ds -> each in_range1 ds w -> wrap ds (map pos w) = Ret w.
Proof. exact wrap_fix_pf. Qed.
Print Assumptions wrap_fixes_range.

Example wrap_idempotent_example : wrap ex_ds (map pos ex_w) = Ret ex_w.
Proof. exact (wrap_idempotent _ _ _ ex_valid ex_wrap). Qed.

(** C03 *)
Theorem wrap_preserves_point : forall ds v w,
  Forall valid ds -> wrap ds v = Ret w ->
  exists s, to_stat ds v = Ret s /\ to_stat ds (map pos w) = Ret s.
Proof. exact wrap_same_point_pf. Qed.
Print Assumptions wrap_preserves_point.

Example wrap_preserves_point_example : exists s, to_stat ex_ds ex_v = Ret s /\ to_stat ex_ds (map pos ex_w) = Ret s.
Proof. exact (wrap_preserves_point _ _ _ ex_valid ex_wrap). Qed.

(** C68: to_stat_space encodes the position the coordinates denote, and always yields a manifold point. *)
Theorem to_stat_encodes_position : forall ds v s,
  Forall valid ds -> to_stat ds v = Ret s -> each2 encodes1 ds (map sv v) s.
Proof. exact to_stat_encodes_pf. Qed.
Print Assumptions to_stat_encodes_position.

Theorem to_stat_on_manifold : forall ds v s, to_stat ds v = Ret s -> each on_manifold1 ds s.
Proof. exact to_stat_manifold_pf. Qed.
Print Assumptions to_stat_on_manifold.

Theorem to_stat_total : forall ds v, length v = get_dimension ds -> exists s, to_stat ds v = Ret s.
Proof. exact to_stat_defined_pf. Qed.
Print Assumptions to_stat_total.

Example to_stat_total_example : exists s, to_stat ex_ds ex_v = Ret s.
Proof. exact (to_stat_total ex_ds ex_v eq_refl). Qed.

(** C04.  [fast] selects the unscaled branch, which only limits -pi, pi can enter. *)
Theorem from_to_is_wrap : forall fast ds v w s s',
  Forall valid ds -> (fast = true -> Forall limits_not_pi ds) ->
  wrap ds v = Ret w -> to_stat ds v = Ret s -> map sv s' = s ->
  exists w', from_stat fast ds s' = Ret w' /\ same_coords ds w' w.
Proof. exact from_to_pf. Qed.
Print Assumptions from_to_is_wrap.

Example from_to_is_wrap_example : exists s, to_stat ex_ds ex_v = Ret s /\
  exists w', from_stat false ex_ds (map pos s) = Ret w' /\ same_coords ex_ds w' ex_w.
Proof.
  destruct (to_stat_total ex_ds ex_v eq_refl) as [s Hs]. exists s. split; [exact Hs|].
  apply (from_to_is_wrap false ex_ds ex_v ex_w s); auto using ex_valid, ex_wrap.
  - discriminate.
  - rewrite map_map. apply map_id.
Qed.

(** C05 *)
Theorem to_from_normalises : forall fast ds s t,
  Forall valid ds -> each2 normalised1 ds (map sv s) t ->
  exists v, from_stat fast ds s = Ret v /\ to_stat ds (map pos v) = Ret t.
Proof. exact to_from_pf. Qed.
Print Assumptions to_from_normalises.

Theorem to_from_identity_on_manifold : forall fast ds s,
  Forall valid ds -> each on_manifold1 ds (map sv s) ->
  exists v, from_stat fast ds s = Ret v /\ to_stat ds (map pos v) = Ret (map sv s).
Proof. exact to_from_manifold_pf. Qed.
Print Assumptions to_from_identity_on_manifold.

Example to_from_normalises_example : forall fast,
  exists v, from_stat fast ex_ds ex_s = Ret v /\ to_stat ex_ds (map pos v) = Ret ex_t.
Proof. exact (fun fast => to_from_normalises fast _ _ _ ex_valid ex_normalised). Qed.

(** C06 *)
Theorem wrap_is_canonical : forall ds v v' w w',
  Forall valid ds -> wrap ds v = Ret w -> wrap ds v' = Ret w' ->
  (to_stat ds v = to_stat ds v' <-> same_coords ds w w').
Proof. exact canonical_pf. Qed.
Print Assumptions wrap_is_canonical.

Example wrap_is_canonical_example : same_coords ex_ds ex_w ex_w.
Proof. exact (proj1 (wrap_is_canonical _ _ _ _ _ ex_valid ex_wrap ex_wrap) eq_refl). Qed.

(** C07 *)
Theorem collections_componentwise : forall fast ds v w,
  (wrap ds v = Ret w <-> each2 (fun d v w => wrap [d] v = Ret w) ds v w) /\
  (to_stat ds v = Ret w <-> each2 (fun d v w => to_stat [d] v = Ret w) ds v w) /\
  (from_stat fast ds v = Ret w <-> each2 (fun d v w => from_stat fast [d] v = Ret w) ds v w).
Proof. exact componentwise_pf. Qed.
Print Assumptions collections_componentwise.

Theorem concatenated_patterns : forall fast ds1 ds2 v1 v2 u1 u2,
  length v1 = get_dimension ds1 -> length v2 = get_dimension ds2 ->
  length u1 = get_stat_dimension ds1 -> length u2 = get_stat_dimension ds2 ->
  let cat2 (a b : res (list R)) := bind a (fun x => bind b (fun y => Ret (x ++ y))) in
  wrap (ds1 ++ ds2) (v1 ++ v2) = cat2 (wrap ds1 v1) (wrap ds2 v2) /\
  to_stat (ds1 ++ ds2) (v1 ++ v2) = cat2 (to_stat ds1 v1) (to_stat ds2 v2) /\
  from_stat fast (ds1 ++ ds2) (u1 ++ u2) = cat2 (from_stat fast ds1 u1) (from_stat fast ds2 u2).
Proof. exact concat_pf. Qed.
Print Assumptions concatenated_patterns.

Example concatenated_patterns_example :
  wrap (ex_ds ++ [Dim 1]) (ex_v ++ [pos 9]) = Ret (ex_w ++ [9]).
Proof.
  destruct (concatenated_patterns false ex_ds [Dim 1] ex_v [pos 9] ex_s [pos 9] eq_refl eq_refl eq_refl eq_refl) as [H _].
  rewrite H, ex_wrap. reflexivity.
Qed.

(** The dynamic-range overload of from_stat_space calls the wrong function when compiled with
    __cpp_lib_containers_ranges. *)
Theorem from_stat_dynamic_cxx23_refuted : exists ds s v,
  Forall valid ds /\ from_stat false ds s = Ret v /\ from_stat_dynamic_cxx23 ds s <> Ret v.
Proof. exact cxx23_refuted_pf. Qed.
Print Assumptions from_stat_dynamic_cxx23_refuted.

(** C08 *)
Theorem euclidean_transparent : forall fast ds v,
  get_is_euclidean ds = true -> length v = get_dimension ds ->
  get_stat_dimension ds = get_dimension ds /\
  to_stat ds v = Ret (values v) /\ from_stat fast ds v = Ret (values v) /\ wrap ds v = Ret (values v).
Proof. exact euclid_transparent_pf. Qed.
Print Assumptions euclidean_transparent.

Example euclidean_transparent_example :
  get_is_euclidean [Dim 2; AnyD (Dim 1)] = true /\
  wrap [Dim 2; AnyD (Dim 1)] [pos 1; pos (-2); pos 3] = Ret [1; -2; 3].
Proof. exact (conj eq_refl (proj2 (proj2 (proj2 (euclidean_transparent false [Dim 2; AnyD (Dim 1)] [pos 1; pos (-2); pos 3] eq_refl eq_refl))))). Qed.

(** C09 *)
Theorem wrap_angle_outcomes : forall mn mx a, mn <= 0 -> 0 < mx ->
  let q := turns mn mx (sv a) in
  (mn <= sv a < mx -> wrap [Ang mn mx] [a] = Ret [sv a]) /\
  (~ (mn <= sv a < mx) ->
     ((exists w, wrap [Ang mn mx] [a] = Ret w) <-> - int64_bound <= q < int64_bound) /\
     (wrap [Ang mn mx] [a] = Throws <-> (q < - int64_bound \/ int64_bound < q)) /\
     (wrap [Ang mn mx] [a] = Undef <-> q = int64_bound)).
Proof. exact angle_outcomes_pf. Qed.
Print Assumptions wrap_angle_outcomes.

Theorem wrap_inclination_outcomes : forall down i, 0 < down ->
  let q := Rabs (sv i) / (down * 2) in
  (0 <= sv i <= down -> wrap [Incl down] [i] = Ret [sv i]) /\
  (~ (0 <= sv i <= down) ->
     ((exists w, wrap [Incl down] [i] = Ret w) <-> q < int64_bound) /\
     (wrap [Incl down] [i] = Throws <-> int64_bound < q) /\
     (wrap [Incl down] [i] = Undef <-> q = int64_bound)).
Proof. exact inclination_outcomes_pf. Qed.
Print Assumptions wrap_inclination_outcomes.

Theorem wrap_polar_outcomes : forall df mn mx r a, mn <= 0 -> 0 < mx ->
  let b := if signbit r then sv a + (mx - mn) * (1 / 2) else sv a in
  let q := turns mn mx b in
  let out := wrap [Polar df mn mx] (pol df r a) in
  (mn <= b < mx -> out = Ret (pol df (Rabs (sv r)) b)) /\
  (~ (mn <= b < mx) ->
     ((exists w, out = Ret w) <-> - int64_bound <= q < int64_bound) /\
     (out = Throws <-> (q < - int64_bound \/ int64_bound < q)) /\
     (out = Undef <-> q = int64_bound)).
Proof. exact polar_outcomes_pf. Qed.
Print Assumptions wrap_polar_outcomes.

Theorem wrap_spherical_returns : forall o mn mx down r i a, mn <= 0 -> 0 < mx -> 0 < down ->
  Rabs (sv i / (down * 2)) < int64_bound -> Rabs (turns mn mx (sv a)) + 1 < int64_bound ->
  exists w, wrap [Spher o mn mx down] (sph o r i a) = Ret w.
Proof. exact spherical_returns_pf. Qed.
Print Assumptions wrap_spherical_returns.

Example wrap_angle_outcomes_example :
  wrap [Ang 0 360] [pos (1000 * int64_bound)] = Throws /\ wrap [Ang 0 360] [pos (360 * int64_bound)] = Undef.
Proof.
  assert (B : 0 < int64_bound) by (unfold int64_bound; apply IZR_lt; reflexivity).
  assert (B' : 1 <= int64_bound) by (unfold int64_bound; apply IZR_le; discriminate).
  destruct (wrap_angle_outcomes 0 360 (pos (1000 * int64_bound)) ltac:(lra) ltac:(lra)) as [_ H1].
  destruct (wrap_angle_outcomes 0 360 (pos (360 * int64_bound)) ltac:(lra) ltac:(lra)) as [_ H2].
  cbn [pos sv] in *. split.
  - apply H1; [lra|]. right. unfold turns. lra.
  - apply H2; [lra|]. unfold turns. field.
Qed.

(** C10 *)
Theorem angle_from_stat_upper_limit_refuted :
  from_stat true [Ang (- PI) PI] [SR (-1) false; SR 0 false] = Ret [PI].
Proof. exact angle_from_pi_pf. Qed.
Print Assumptions angle_from_stat_upper_limit_refuted.

Theorem angle_from_stat_range_partial : forall fast mn mx x y,
  mn <= 0 -> 0 < mx -> fast = false \/ ~ (mn = - PI /\ mx = PI) ->
  exists a, from_stat fast [Ang mn mx] [x; y] = Ret [a] /\ mn <= a < mx.
Proof.
  exact (fun fast mn mx x y H1 H2 H =>
    match H with
    | or_introl E => eq_ind_r (fun f => exists a, from_stat f [Ang mn mx] [x; y] = Ret [a] /\ mn <= a < mx)
                       (angle_from_range_pf mn mx x y H1 H2) E
    | or_intror N => angle_from_range_limits_pf fast mn mx x y H1 H2 N
    end).
Qed.
Print Assumptions angle_from_stat_range_partial.

(** In every case, including the unscaled branch: the closed interval, and the upper limit only for a
    direction (x <= 0, y = +0). *)
Theorem angle_from_stat_closed_range_partial : forall fast mn mx x y, mn <= 0 -> 0 < mx ->
  exists a, from_stat fast [Ang mn mx] [x; y] = Ret [a] /\ mn <= a <= mx /\
    (a = mx -> sv x <= 0 /\ sv y = 0 /\ signbit y = false).
Proof. exact angle_from_closed_pf. Qed.
Print Assumptions angle_from_stat_closed_range_partial.

Theorem from_stat_in_range : forall fast ds s v,
  Forall valid ds -> (fast = true -> Forall limits_not_pi ds) ->
  (exists t, each2 normalised1 ds (map sv s) t) ->
  from_stat fast ds s = Ret v -> each in_range1 ds v.
Proof. exact (fun fast ds s v V F N => from_range_pf fast ds s v V F (or_intror N)). Qed.
Print Assumptions from_stat_in_range.

Example from_stat_in_range_example : exists v, from_stat false ex_ds ex_s = Ret v /\ each in_range1 ex_ds v.
Proof.
  destruct (to_from_normalises false _ _ _ ex_valid ex_normalised) as [v [H _]]. exists v. split; [exact H|].
  apply (from_stat_in_range false ex_ds ex_s v ex_valid); [discriminate|exact (ex_intro _ ex_t ex_normalised)|exact H].
Qed.

(** C11: any stat vector, including zero directions and the poles. *)
Theorem spherical_from_stat_canonical : forall fast o mn mx down d x y z,
  mn <= 0 -> 0 < mx -> 0 < down ->
  exists i a, from_stat fast [Spher o mn mx down] [d; x; y; z] = Ret (sph o (sv d) i a) /\
    0 <= i <= down /\ mn <= a < mx.
Proof. exact spherical_from_range_pf. Qed.
Print Assumptions spherical_from_stat_canonical.

(** C12 *)
Theorem any_transparent : forall fast ds v,
  get_dimension (map strip ds) = get_dimension ds /\
  get_stat_dimension (map strip ds) = get_stat_dimension ds /\
  get_is_euclidean (map strip ds) = get_is_euclidean ds /\
  to_stat (map strip ds) v = to_stat ds v /\
  from_stat fast (map strip ds) v = from_stat fast ds v /\
  wrap (map strip ds) v = wrap ds v.
Proof. exact any_transparent_pf. Qed.
Print Assumptions any_transparent.

Example any_transparent_example :
  wrap [AnyD (AnyD Dist); Dim 1] [pos (-2); pos 1] = wrap [Dist; Dim 1] [pos (-2); pos 1].
Proof. exact (eq_sym (proj2 (proj2 (proj2 (proj2 (proj2 (any_transparent false [AnyD (AnyD Dist); Dim 1] [pos (-2); pos 1]))))))). Qed.

(** C13 *)
Theorem dimensions_additive : forall a b,
  get_dimension (a ++ b) = (get_dimension a + get_dimension b)%nat /\
  get_stat_dimension (a ++ b) = (get_stat_dimension a + get_stat_dimension b)%nat /\
  get_is_euclidean (a ++ b) = (get_is_euclidean a && get_is_euclidean b)%bool.
Proof. exact dims_additive_pf. Qed.
Print Assumptions dimensions_additive.

Theorem conversion_lengths : forall fast ds v w,
  (to_stat ds v = Ret w -> length v = get_dimension ds /\ length w = get_stat_dimension ds) /\
  (from_stat fast ds v = Ret w -> length v = get_stat_dimension ds /\ length w = get_dimension ds) /\
  (wrap ds v = Ret w -> length v = get_dimension ds /\ length w = get_dimension ds).
Proof. exact conversion_lengths_pf. Qed.
Print Assumptions conversion_lengths.

Theorem from_stat_total : forall fast ds s, length s = get_stat_dimension ds -> exists v, from_stat fast ds s = Ret v.
Proof. exact from_stat_defined_pf. Qed.
Print Assumptions from_stat_total.

Example conversion_lengths_example : length ex_v = get_dimension ex_ds /\ length ex_w = get_dimension ex_ds.
Proof. exact (proj2 (proj2 (conversion_lengths false ex_ds ex_v ex_w)) ex_wrap). Qed.
