(** * Properties of the comparison of patterns *)
From Coq Require Import List ZArith Bool Lia.
From Verif Require Import CollSpec PatCmpModel PatCmpSpec PatCmpProofs.
Import ListNotations.
Local Open Scope nat_scope.

Definition here (d : desc) : held := mk_held false true d.
Definition any (d : desc) : held := mk_held true false d.

(** ** C14: equivalence *)

(** Two patterns are equivalent exactly when they are the same sequence of
    plain axes and coordinates.  Partial: [regular] leaves out the cases refuted
    below, and coordinates are identified with their hash codes (see C16). *)
Theorem pattern_equivalence_partial a b : well_typed a -> well_typed b -> regular a b ->
  (compare_three_way a b = Some Eq <-> same (expand a) (expand b)).
Proof.
  intros wa wb h. pose proof (compare_ok a b wa wb h) as p. rewrite same_prefix.
  destruct (compare_three_way a b) as [[]|]; cbn in p; split; intros q; try discriminate; tauto.
Qed.
Print Assumptions pattern_equivalence_partial.

(** Every pattern but an unbounded one is equivalent to itself. *)
Theorem pattern_equivalence_reflexive p : (forall x, p <> PInf x) -> compare_three_way p p = Some Eq.
Proof. exact (compare_refl p). Qed.
Print Assumptions pattern_equivalence_reflexive.

Theorem pattern_equivalence_symmetric a b :
  compare_three_way a b = Some Eq -> compare_three_way b a = Some Eq.
Proof. intros h. now rewrite compare_flip, h. Qed.
Print Assumptions pattern_equivalence_symmetric.

Theorem pattern_equivalence_transitive_partial a b c :
  well_typed a -> well_typed b -> well_typed c -> plain a -> plain b -> plain c ->
  compare_three_way a b = Some Eq -> compare_three_way b c = Some Eq -> compare_three_way a c = Some Eq.
Proof.
  intros wa wb wc pa pb pc h k.
  apply pattern_equivalence_partial in h; auto using plain_regular.
  apply pattern_equivalence_partial in k; auto using plain_regular.
  apply pattern_equivalence_partial; auto using plain_regular.
  apply same_prefix in h, k. apply same_prefix. destruct h, k. split; eapply prefix_trans; eauto.
Qed.
Print Assumptions pattern_equivalence_transitive_partial.

Example pattern_equivalence_case :
  let a := PFix [here (Dim 2); here (Angle (-180) 180); here (Dim 2); here (Dim 3)] in
  let b := PDyn false [any (Dim 1); any (Dim 1); any (Angle (-180) 180); any (Dim 5)] in
  let c := PFix [here (Dim 2); here (Angle (-180) 180); here (Dim 1); here (Dim 4); here (Dim 0)] in
  well_typed a /\ well_typed b /\ regular a b /\ compare_three_way a b = Some Eq /\
  well_typed c /\ plain a /\ plain c /\ compare_three_way a c = Some Eq /\
  compare_three_way a (PFix [here (Dim 2); here (Angle (-180) 180)]) = Some Gt.
Proof.
  cbn [well_typed regular plain constant_size items]. unfold open_kinds, no_void.
  repeat split; try (vm_compute; reflexivity); try discriminate; intros; try discriminate;
    try (repeat constructor; intros; reflexivity); try (right; discriminate).
Qed.

(** It is not transitive: a Euclidean descriptor in an [Any] in a collection of
    constant size is compared by its hash code, but consolidated in a
    collection whose size is known at run time. *)
Theorem pattern_transitivity_refuted :
  let a := PFix [here (Dim 2)] in
  let b := PDyn false [any (Dim 2)] in
  let c := PFix [any (Dim 2)] in
  well_typed a /\ well_typed b /\ well_typed c /\
  compare_three_way a b = Some Eq /\ compare_three_way b c = Some Eq /\ compare_three_way a c = None.
Proof.
  cbn [well_typed]. repeat split; try (vm_compute; reflexivity). repeat constructor.
Qed.
Print Assumptions pattern_transitivity_refuted.

(** Dimensions in an [Any] are not consolidated in collections of constant
    size. *)
Theorem pattern_any_consolidation_refuted :
  let a := PFix [any (Dim 2); any (Dim 3)] in
  let b := PFix [any (Dim 5)] in
  same (expand a) (expand b) /\ compare_three_way a b = None.
Proof.
  split; [|vm_compute; reflexivity]. intros i. cbn. tauto.
Qed.
Print Assumptions pattern_any_consolidation_refuted.

(** An empty collection and one of a descriptor of dimension zero are the same
    sequence, but not equivalent. *)
Theorem pattern_empty_refuted :
  let a := PDyn false [] in
  let b := PDyn false [any (Dim 0)] in
  well_typed a /\ well_typed b /\ same (expand a) (expand b) /\ compare_three_way a b = Some Lt.
Proof.
  cbn [well_typed]. repeat split; try (vm_compute; reflexivity); repeat constructor; cbn; trivial.
Qed.
Print Assumptions pattern_empty_refuted.

(** An unbounded collection of descriptors held in [Any], or of dimensions known
    at run time, is not equivalent to itself. *)
Theorem pattern_unbounded_reflexive_refuted :
  forall x, in_any x = true \/ constant x = false -> compare_three_way (PInf x) (PInf x) = None.
Proof.
  intros x h. cbn [compare_three_way]. unfold compare_unbounded, constant_zero.
  assert (e : negb (in_any x) && constant x = false) by (destruct h as [-> | ->]; [reflexivity|apply andb_false_r]).
  rewrite e. reflexivity.
Qed.
Print Assumptions pattern_unbounded_reflexive_refuted.

Example pattern_unbounded_reflexive_case :
  compare_three_way (PInf (any (Angle (-180) 180))) (PInf (any (Angle (-180) 180))) = None /\
  compare_three_way (PInf (here (Angle (-180) 180))) (PInf (here (Angle (-180) 180))) = Some Eq.
Proof. split; vm_compute; reflexivity. Qed.

(** ** C15: the order *)

Theorem pattern_order_partial a b : well_typed a -> well_typed b -> regular a b ->
  (compare_three_way a b = Some Lt <-> prefix (expand a) (expand b) /\ ~ prefix (expand b) (expand a)) /\
  (compare_three_way a b = Some Gt <-> prefix (expand b) (expand a) /\ ~ prefix (expand a) (expand b)) /\
  (compare_three_way a b = None <-> ~ prefix (expand a) (expand b) /\ ~ prefix (expand b) (expand a)).
Proof.
  intros wa wb h. pose proof (compare_ok a b wa wb h) as p.
  destruct (compare_three_way a b) as [[]|]; cbn in p;
    (split; [|split]); (split; intros q; [try discriminate q; tauto|try tauto]).
Qed.
Print Assumptions pattern_order_partial.

(** Swapping the arguments reverses the answer, for all patterns. *)
Theorem pattern_order_swap a b : compare_three_way b a = option_map CompOpp (compare_three_way a b).
Proof. exact (compare_flip a b). Qed.
Print Assumptions pattern_order_swap.

Theorem pattern_order_transitive_partial a b c :
  well_typed a -> well_typed b -> well_typed c -> regular a b -> regular b c -> regular a c ->
  compare_three_way a b = Some Lt -> compare_three_way b c = Some Lt -> compare_three_way a c = Some Lt.
Proof.
  intros wa wb wc r1 r2 r3 h k.
  apply pattern_order_partial in h; trivial. apply pattern_order_partial in k; trivial.
  apply pattern_order_partial; trivial. destruct h as [h1 h2], k as [k1 k2]. split.
  - eapply prefix_trans; eauto.
  - intros q. apply h2. eapply prefix_trans; eauto.
Qed.
Print Assumptions pattern_order_transitive_partial.

Example pattern_order_case :
  let a := PFix [here (Dim 2)] in
  let b := PDyn false [any (Dim 1); any (Dim 1); any Distance] in
  let c := PFix [here (Dim 2); here Distance; here (Dim 1); here (Polar (-180) 180 0)] in
  well_typed a /\ well_typed b /\ well_typed c /\ regular a b /\ regular b c /\ regular a c /\
  compare_three_way a b = Some Lt /\ compare_three_way b c = Some Lt /\
  compare_three_way (PInf (here Distance)) (PFix [here Distance; here Distance]) = Some Gt /\
  regular (PInf (here Distance)) (PFix [here Distance; here Distance]) /\
  compare_three_way b (PFix [here (Dim 3)]) = None.
Proof.
  cbn [well_typed regular plain constant_size items]. unfold open_kinds, no_void.
  repeat split; try (vm_compute; reflexivity); try discriminate; intros; try discriminate;
    try (repeat constructor; intros; reflexivity); try (right; discriminate).
Qed.

(** A descriptor of dimension zero is not before an angle, although the
    collection of it is. *)
Theorem pattern_order_descriptor_refuted :
  compare_three_way (PDesc (here (Dim 0))) (PDesc (here Distance)) = None /\
  compare_three_way (PFix [here (Dim 0)]) (PFix [here Distance]) = Some Lt /\
  prefix (expand (PDesc (here (Dim 0)))) (expand (PDesc (here Distance))).
Proof. split; [vm_compute; reflexivity|]. split; [vm_compute; reflexivity|]. apply prefix_nil. Qed.
Print Assumptions pattern_order_descriptor_refuted.

(** An unbounded collection of axes is less than five dimensions: only
    [size + 1] of its elements are looked at. *)
Theorem pattern_order_unbounded_refuted :
  compare_three_way (PInf (here (Dim 1))) (PFix [here (Dim 5)]) = Some Lt /\
  prefix (expand (PFix [here (Dim 5)])) (expand (PInf (here (Dim 1)))) /\
  ~ prefix (expand (PInf (here (Dim 1)))) (expand (PFix [here (Dim 5)])).
Proof.
  split; [vm_compute; reflexivity|]. split.
  - intros i hi. split; [exact I|]. cbn -[Nat.modulo]. rewrite Nat.mod_1_r.
    change (i < 5) in hi. do 5 (destruct i as [|i]; [reflexivity|]). lia.
  - intros h. destruct (h 5 I) as [h5 _]. change (5 < 5) in h5. lia.
Qed.
Print Assumptions pattern_order_unbounded_refuted.

(** Two unbounded collections of axes are the same sequence, but unordered. *)
Theorem pattern_order_two_unbounded_refuted :
  compare_three_way (PInf (here (Dim 1))) (PInf (here (Dim 2))) = None /\
  same (expand (PInf (here (Dim 1)))) (expand (PInf (here (Dim 2)))).
Proof.
  split; [vm_compute; reflexivity|]. intros i. split; [tauto|]. intros _. cbn -[Nat.modulo].
  rewrite Nat.mod_1_r. pose proof (Nat.mod_upper_bound i 2 ltac:(lia)).
  destruct (i mod 2) as [|[|k]]; trivial. lia.
Qed.
Print Assumptions pattern_order_two_unbounded_refuted.

(** ** C16: distinct descriptors *)

(** Different angles compare equivalent: the hash code is the truncated square
    of a quotient of the limits. *)
Theorem distinct_descriptors_refuted :
  compare_three_way (PDesc (here (Angle 0 360))) (PDesc (here (Angle 0 359))) = Some Eq /\
  compare_three_way (PDesc (here (Angle (-180) 180))) (PDesc (here (Angle (-181) 181))) = Some Eq /\
  compare_three_way (PFix [here (Polar 0 360 0); here (Dim 2)]) (PFix [here (Polar 0 359 0); here (Dim 2)]) = Some Eq /\
  compare_three_way (PDesc (here (Spherical 0 360 90 1 2))) (PDesc (here (Spherical 0 359 90 1 2))) = Some Eq.
Proof. repeat split; vm_compute; reflexivity. Qed.
Print Assumptions distinct_descriptors_refuted.

(** A descriptor of another kind is equivalent to as many dimensions as its
    hash code says. *)
Theorem dimension_hash_refuted x n : euclidean x = false -> Z.of_nat n = code x ->
  compare_three_way (PDesc (here (Dim n))) (PDesc x) = Some Eq.
Proof.
  intros e h. cbn [compare_three_way]. unfold compare_desc. rewrite e, andb_false_r.
  unfold code at 1. cbn [the_desc here hash]. now rewrite h, Z.eqb_refl.
Qed.
Print Assumptions dimension_hash_refuted.

Example dimension_hash_case : exists n, Z.of_nat n = code (here Distance).
Proof. exists (Z.to_nat (code (here Distance))). apply Z2Nat.id. vm_compute. discriminate. Qed.

(** What holds: dimensions are told apart, and so are inclinations whose limits
    are integers up to 4096, and a distance from these. *)
Theorem distinct_dimensions x y m n : the_desc x = Dim m -> the_desc y = Dim n ->
  (compare_three_way (PDesc x) (PDesc y) = Some Eq <-> m = n).
Proof.
  intros hx hy. cbn [compare_three_way]. unfold compare_desc, euclidean, dim. rewrite hx, hy. cbn.
  unfold nat_order. destruct (Nat.compare_spec m n); split; intros; try discriminate; try lia; trivial.
Qed.
Print Assumptions distinct_dimensions.

Theorem distinct_inclinations_partial x y a b :
  the_desc x = Inclination a -> the_desc y = Inclination b -> (0 <= a <= 4096)%Z -> (0 <= b <= 4096)%Z ->
  (compare_three_way (PDesc x) (PDesc y) = Some Eq <-> a = b).
Proof.
  intros hx hy ha hb. cbn [compare_three_way]. unfold compare_desc, euclidean, dim, code. rewrite hx, hy.
  cbn [is_euclidean andb hash]. rewrite !incl_value by lia.
  destruct (Z.eqb_spec (0x8CE6267E341642F7 + 256 * a * a) (0x8CE6267E341642F7 + 256 * b * b)) as [e|e];
    split; intros h; try discriminate; trivial.
  - nia.
  - subst. congruence.
Qed.
Print Assumptions distinct_inclinations_partial.

Theorem distance_not_inclination_partial x y b :
  the_desc x = Distance -> the_desc y = Inclination b -> (0 <= b <= 4096)%Z ->
  compare_three_way (PDesc x) (PDesc y) = None.
Proof.
  intros hx hy hb. cbn [compare_three_way]. unfold compare_desc, euclidean, dim, code. rewrite hx, hy.
  cbn [is_euclidean andb hash]. rewrite incl_value by lia.
  destruct (Z.eqb_spec distance_hash (0x8CE6267E341642F7 + 256 * b * b)) as [e|e]; trivial.
  exfalso. unfold distance_hash in e. nia.
Qed.
Print Assumptions distance_not_inclination_partial.

Example distinct_inclinations_case :
  compare_three_way (PDesc (here (Inclination 90))) (PDesc (any (Inclination 100))) = None /\
  compare_three_way (PDesc (here (Inclination 90))) (PDesc (any (Inclination 90))) = Some Eq /\
  compare_three_way (PDesc (here Distance)) (PDesc (any (Inclination 90))) = None.
Proof. repeat split; vm_compute; reflexivity. Qed.

(** ** C17: collections of patterns *)

(** The collections compare as they should place by place, in all versions. *)
Theorem pattern_collections_spec comp dyn a b :
  compare_pattern_collections comp dyn a b = true <->
  forall i, i < Nat.max (length a) (length b) -> comp (compare_three_way (place a i) (place b i)) = true.
Proof. exact (collections_place comp dyn a b). Qed.
Print Assumptions pattern_collections_spec.

(** Appending one-dimensional patterns to either side changes nothing, for a
    comparison that accepts equivalent patterns. *)
Theorem trailing_one_dimensional comp dyn dyn' a b k l : comp (Some Eq) = true ->
  compare_pattern_collections comp dyn (a ++ repeat (PDesc (here (Dim 1))) k) (b ++ repeat (PDesc (here (Dim 1))) l) =
  compare_pattern_collections comp dyn' a b.
Proof.
  intros hc. apply eq_true_iff_eq. rewrite !collections_place_all by exact hc.
  split; intros h i; specialize (h i); rewrite ?(place_pad a k), ?(place_pad b l) in *; exact h.
Qed.
Print Assumptions trailing_one_dimensional.

(** Not for the comparisons that reject them. *)
Theorem trailing_one_dimensional_refuted :
  let a := [PDesc (here (Dim 2))] in
  let b := [PDesc (here (Dim 3))] in
  compare_pattern_collections is_lt true a b = true /\
  compare_pattern_collections is_lt true (a ++ [PDesc (here (Dim 1))]) b = false /\
  compare_pattern_collections is_neq true a b = true /\
  compare_pattern_collections is_neq true (a ++ [PDesc (here (Dim 1))]) b = false.
Proof. repeat split; vm_compute; reflexivity. Qed.
Print Assumptions trailing_one_dimensional_refuted.

(** Equivalence of collections inherits from the equivalence of their elements. *)
Theorem collections_equivalence_reflexive dyn a : Forall (fun p => forall x, p <> PInf x) a ->
  compare_pattern_collections is_eq dyn a a = true.
Proof.
  intros h. apply pattern_collections_spec. intros i hi. rewrite Nat.max_id in hi.
  rewrite place_nth, compare_refl; [reflexivity|].
  rewrite Forall_forall in h. apply h. now apply nth_In.
Qed.
Print Assumptions collections_equivalence_reflexive.

Theorem collections_equivalence_symmetric dyn a b :
  compare_pattern_collections is_eq dyn a b = compare_pattern_collections is_eq dyn b a.
Proof.
  apply eq_true_iff_eq. rewrite !collections_place_all by reflexivity. unfold compare.
  split; intros h i; specialize (h i); rewrite compare_flip;
    destruct (compare_three_way _ _) as [[]|]; cbn in *; congruence.
Qed.
Print Assumptions collections_equivalence_symmetric.

Theorem collections_equivalence_transitive_partial dyn a b c :
  (forall p q r, In p (PDesc (here (Dim 1)) :: a) -> In q (PDesc (here (Dim 1)) :: b) -> In r (PDesc (here (Dim 1)) :: c) ->
     well_typed p /\ well_typed q /\ well_typed r /\ regular p q /\ regular q r /\ regular p r) ->
  compare_pattern_collections is_eq dyn a b = true -> compare_pattern_collections is_eq dyn b c = true ->
  compare_pattern_collections is_eq dyn a c = true.
Proof.
  intros H. rewrite !collections_place_all by reflexivity. unfold compare. intros h k i.
  assert (P : forall l, In (place l i) (PDesc (here (Dim 1)) :: l)).
  { intros l. unfold place. destruct (Nat.ltb_spec i (length l)); [right; now apply nth_In|left; reflexivity]. }
  destruct (H _ _ _ (P a) (P b) (P c)) as (w1 & w2 & w3 & r1 & r2 & r3).
  specialize (h i). specialize (k i).
  assert (E : forall o, is_eq o = true -> o = Some Eq) by (intros [[]|]; cbn; congruence).
  apply E in h, k. apply pattern_equivalence_partial in h, k; trivial.
  assert (e : compare_three_way (place a i) (place c i) = Some Eq); [|now rewrite e].
  apply pattern_equivalence_partial; trivial. apply same_prefix in h, k. apply same_prefix.
  destruct h, k. split; eapply prefix_trans; eauto.
Qed.
Print Assumptions collections_equivalence_transitive_partial.

Example collections_case :
  let a := [PDesc (here (Dim 2)); PFix [here (Dim 1); here Distance]] in
  let b := [PFix [here (Dim 1); here (Dim 1)]; PFix [here (Dim 1); here Distance]; PFix [here (Dim 1)]] in
  compare_pattern_collections is_eq true a b = true /\ compare_pattern_collections is_eq false b a = true /\
  compare_pattern_collections is_lteq false a (b ++ [PFix [here (Dim 2)]]) = true /\
  compare_pattern_collections is_eq false a (b ++ [PFix [here (Dim 2)]]) = false /\
  (forall p q r, In p (PDesc (here (Dim 1)) :: a) -> In q (PDesc (here (Dim 1)) :: b) -> In r (PDesc (here (Dim 1)) :: a) ->
     well_typed p /\ well_typed q /\ well_typed r /\ regular p q /\ regular q r /\ regular p r).
Proof.
  do 4 (split; [vm_compute; reflexivity|]).
  assert (D : forall p q, In p [PDesc (here (Dim 1)); PDesc (here (Dim 2)); PFix [here (Dim 1); here Distance];
      PFix [here (Dim 1); here (Dim 1)]; PFix [here (Dim 1)]] ->
    In q [PDesc (here (Dim 1)); PDesc (here (Dim 2)); PFix [here (Dim 1); here Distance];
      PFix [here (Dim 1); here (Dim 1)]; PFix [here (Dim 1)]] -> well_typed p /\ regular p q).
  { intros p q hp hq. cbn in hp, hq.
    repeat (destruct hp as [<-|hp]); try contradiction;
    repeat (destruct hq as [<-|hq]); try contradiction; split; cbn [well_typed regular]; trivial;
      try (left; reflexivity);
      unfold open_kinds, no_void; cbn [items]; repeat split; intros; try discriminate;
      repeat constructor; intros; trivial; discriminate. }
  intros p q r hp hq hr. cbn in hp, hq, hr.
  repeat split; try (apply (D p q)); try (apply (D q r)); try (apply (D p r)); try (apply (D r r)); cbn; tauto.
Qed.
