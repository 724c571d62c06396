(** * Properties of comparisons by the compiler *)
From Coq Require Import List ZArith Bool Lia.
From Verif Require Import PatCmpModel PatCmpSpec PatCmpProofs PatStaticModel PatStaticSpec PatStaticProofs.
Import ListNotations.
Local Open Scope nat_scope.

Notation pi_angle := (Angle (-180) 180) (only parsing).
(** Equations of closed terms only: [vm_compute] under a quantifier over
    descriptors would expand the hash codes. *)
Ltac compute_eq := match goal with |- _ = _ => vm_compute; reflexivity end.

Definition kheld (d : desc) : held := mk_held false true d.
Definition dheld (n : nat) : held := mk_held false false (Dim n).
Definition aheld (d : desc) : held := mk_held true false d.

(** ** C99: what the compiler promises holds at run time *)

(** A comparison that is guaranteed for two types holds for all patterns of
    these types.  Partial: [tame] leaves out the cases refuted below. *)
Theorem guaranteed_comparison_partial comp t u : standard comp -> tame t u ->
  compares_with comp false t u = true -> holds_for_all comp t u.
Proof. exact (all_sound comp t u). Qed.
Print Assumptions guaranteed_comparison_partial.

(** A comparison other than [is_lt] and [is_gt] that is not permitted for two
    types holds for no patterns of these types. *)
Theorem permitted_comparison_partial comp t u : not_strict comp -> tame t u ->
  compares_with comp true t u = false -> holds_for_none comp t u.
Proof. exact (none_sound comp t u). Qed.
Print Assumptions permitted_comparison_partial.

(** [is_lt] and [is_gt] too, if a collection has a run-time size. *)
Theorem permitted_strict_comparison_partial comp t u : standard comp -> tame t u ->
  (match t, u with SVec _, _ | _, SVec _ => True | _, _ => False end) ->
  compares_with comp true t u = false -> holds_for_none comp t u.
Proof. exact (strict_sound comp t u). Qed.
Print Assumptions permitted_strict_comparison_partial.

(** For tuples of descriptors that are all constants, the compiler's answer is
    the run-time answer, for every predicate and either question. *)
Theorem constant_comparison comp perm t u : fits (map Known t) -> fits (map Known u) ->
  compares_with comp perm (STup (map Known t)) (STup (map Known u)) =
  comp (compare_three_way (PFix (map (mk_held false true) t)) (PFix (map (mk_held false true) u))).
Proof.
  assert (K : forall l, forallb known (map Known l) = true) by (induction l; trivial).
  assert (O : forall l, Forall2 of_elt (map Known l) (map (mk_held false true) l)).
  { induction l; constructor; trivial. reflexivity. }
  intros ft fu. exact (tup_known comp perm _ _ _ _ ft fu (K t) (K u) (O t) (O u)).
Qed.
Print Assumptions constant_comparison.

Ltac tame_tac := unfold tame, fits, nonzero; cbn [elts constant_dims fold_right repeat length apart descriptors_ok elt_euclidean is_euclidean dimension];
  repeat split; try reflexivity; try discriminate; try (intros; discriminate);
  try (let k := fresh in intro k; cbn in k; repeat match goal with h : _ \/ _ |- _ => destruct h as [h|h] end; (discriminate || contradiction));
  auto.

Example guaranteed_comparison_case :
  let t := STup [Known (Dim 2); Known pi_angle; DynDim; AnyDesc] in
  let u := STup [Known (Dim 1); Known (Dim 1); Known pi_angle; AnyDesc; Known Distance] in
  let v := STup [Known (Dim 3); Known pi_angle] in
  standard is_lt /\ tame (STup [Known (Dim 2)]) u /\ compares_with is_lt false (STup [Known (Dim 2)]) u = true /\
  not_strict is_eq /\ tame t v /\ compares_with is_eq true t v = false /\
  compares_with is_eq true t t = true /\ compares_with is_eq false t t = false /\
  tame t t /\ of_type t (PFix [kheld (Dim 2); kheld pi_angle; dheld 7; aheld Distance]) /\
  tame (STup [Known (Dim 2); Known pi_angle]) (SVec (Known pi_angle)) /\
  compares_with is_lt true (STup [Known (Dim 2); Known pi_angle]) (SVec (Known pi_angle)) = false /\
  compares_with is_lt true (STup [Known pi_angle; Known pi_angle]) (SVec (Known pi_angle)) = true /\
  compares_with is_neq false (SVec (Known (Dim 2))) (STup [Known (Dim 3); Known (Dim 4)]) = true /\
  tame (SVec (Known (Dim 2))) (STup [Known (Dim 3); Known (Dim 4)]) /\
  tame (SDesc AnyDesc) (SDesc (Known (Dim 2))) /\
  compares_with is_eq true (SDesc AnyDesc) (SDesc (Known (Dim 2))) = true /\
  compares_with is_eq false (SDesc AnyDesc) (SDesc (Known (Dim 2))) = false /\
  fits (map Known [Dim 2; pi_angle]).
Proof.
  cbv zeta. repeat match goal with |- _ /\ _ => split end; try compute_eq; try (cbn; tauto);
    try tame_tac.
  repeat constructor; eexists; reflexivity.
Qed.

(** The banks of the second pattern wrap round: two plain axes are guaranteed
    to be equivalent to three or more. *)
Theorem guaranteed_equivalence_refuted :
  let t := STup [Known (Dim 1); Known (Dim 1)] in
  let u := STup [Known (Dim 3); DynDim] in
  compares_with is_eq false t u = true /\
  forall n, of_type t (PFix [kheld (Dim 1); kheld (Dim 1)]) /\ of_type u (PFix [kheld (Dim 3); dheld n]) /\
  compare_three_way (PFix [kheld (Dim 1); kheld (Dim 1)]) (PFix [kheld (Dim 3); dheld n]) = Some Lt.
Proof.
  cbv zeta. split; [vm_compute; reflexivity|]. intros n. split; [repeat constructor|]. split.
  - repeat constructor. cbn. now exists n.
  - cbn. reflexivity.
Qed.
Print Assumptions guaranteed_equivalence_refuted.

(** The other way round the sizes are not compared so: the concept is not
    symmetric. *)
Theorem compile_time_symmetry_refuted :
  let t := STup [Known (Dim 1); Known (Dim 1)] in
  let u := STup [Known (Dim 3); DynDim] in
  compares_with is_eq false t u = true /\ compares_with is_eq false u t = false.
Proof. split; vm_compute; reflexivity. Qed.
Print Assumptions compile_time_symmetry_refuted.

(** "Less" is not permitted by the compiler, but happens: behind a number of
    dimensions known at run time, and behind two descriptors held in [Any]. *)
Theorem permitted_less_refuted :
  let t := STup [DynDim; Known pi_angle] in
  let u := STup [Known (Dim 3); Known pi_angle; Known pi_angle] in
  let v := STup [AnyDesc; Known pi_angle] in
  let w := STup [AnyDesc; Known pi_angle; Known pi_angle] in
  tame t u /\ compares_with is_lt true t u = false /\
  (exists a b, of_type t a /\ of_type u b /\ is_lt (compare_three_way a b) = true) /\
  tame v w /\ compares_with is_lt true v w = false /\
  (exists a b, of_type v a /\ of_type w b /\ is_lt (compare_three_way a b) = true) /\
  tame u t /\ compares_with is_gt true u t = false /\
  (exists a b, of_type u a /\ of_type t b /\ is_gt (compare_three_way a b) = true).
Proof.
  cbv zeta. repeat match goal with |- _ /\ _ => split end; try compute_eq; try tame_tac.
  - exists (PFix [dheld 3; kheld pi_angle]), (PFix [kheld (Dim 3); kheld pi_angle; kheld pi_angle]).
    split; [|split; [|vm_compute; reflexivity]]; repeat constructor. now exists 3.
  - exists (PFix [aheld Distance; kheld pi_angle]), (PFix [aheld Distance; kheld pi_angle; kheld pi_angle]).
    split; [|split; [|vm_compute; reflexivity]]; repeat constructor; now exists Distance.
  - exists (PFix [kheld (Dim 3); kheld pi_angle; kheld pi_angle]), (PFix [dheld 3; kheld pi_angle]).
    split; [|split; [|vm_compute; reflexivity]]; repeat constructor. now exists 3.
Qed.
Print Assumptions permitted_less_refuted.

(** Two descriptors: one of dimension zero is guaranteed to be less than an
    angle, and a descriptor in an [Any] to be greater than it; at run time they
    are unordered, or equivalent. *)
Theorem guaranteed_descriptor_refuted :
  compares_with is_lt false (SDesc (Known (Dim 0))) (SDesc (Known pi_angle)) = true /\
  compare_three_way (PDesc (kheld (Dim 0))) (PDesc (kheld pi_angle)) = None /\
  compares_with is_gt false (SDesc AnyDesc) (SDesc (Known (Dim 0))) = true /\
  compare_three_way (PDesc (aheld (Dim 0))) (PDesc (kheld (Dim 0))) = Some Eq /\
  compares_with is_eq true (SDesc AnyDesc) (SDesc (Known (Dim 0))) = false.
Proof. repeat split; vm_compute; reflexivity. Qed.
Print Assumptions guaranteed_descriptor_refuted.

(** Dimension zero next to collections of run-time size. *)
Theorem guaranteed_zero_refuted :
  (* guaranteed greater, but equivalent when no dimension is left *)
  compares_with is_gt false (STup [DynDim]) (SVec (Known (Dim 0))) = true /\
  compare_three_way (PFix [dheld 0]) (PDyn true []) = Some Eq /\
  (* guaranteed different, but equivalent *)
  compares_with is_neq false (STup [Known pi_angle; Known (Dim 0)]) (SVec (Known pi_angle)) = true /\
  compare_three_way (PFix [kheld pi_angle; kheld (Dim 0)]) (PDyn false [kheld pi_angle]) = Some Eq /\
  (* guaranteed less or equivalent, but greater *)
  compares_with is_lteq false (STup [Known (Dim 0)]) (SVec (Known pi_angle)) = true /\
  compare_three_way (PFix [kheld (Dim 0)]) (PDyn false []) = Some Gt.
Proof. repeat split; vm_compute; reflexivity. Qed.
Print Assumptions guaranteed_zero_refuted.

(** ** Sizes *)

(** For sizes the compiler's promises hold for every predicate. *)
Theorem size_comparison comp t u m n : of_size t m -> of_size u n ->
  (size_compares_with comp false t u = true -> comp (order_sizes m n) = true) /\
  (size_compares_with comp true t u = false -> comp (order_sizes m n) = false).
Proof. exact (sizes_sound comp t u m n). Qed.
Print Assumptions size_comparison.

Example size_comparison_case :
  size_compares_with is_lteq false (Fixed 0) Dynamic = true /\ size_compares_with is_lt false (Fixed 0) Dynamic = false /\
  size_compares_with is_gt true (Fixed 0) Dynamic = false /\ size_compares_with is_lt false Dynamic Unbounded = true /\
  of_size Dynamic (Some 3) /\ of_size Unbounded None.
Proof. repeat split; try compute_eq. now exists 3. Qed.

(** ** C100: collections of patterns with the compile-time shortcuts *)

(** compare_pattern_collections compares place by place, missing places being
    one plain axis.  Partial: [comparable_sizes] and [tame] leave out the cases
    refuted below and above; [is_lt] and [is_gt] are left out. *)
Theorem compare_collections_partial comp ta tb a b : not_strict comp ->
  (forall i, i < Nat.max (length a) (length b) -> tame (type_at ta i) (type_at tb i)) ->
  of_collection ta a -> of_collection tb b -> comparable_sizes ta tb a b ->
  (compare_collections comp ta tb a b = true <->
   forall i, i < Nat.max (length a) (length b) -> comp (compare_three_way (place a i) (place b i)) = true).
Proof. exact (collections_sound comp ta tb a b). Qed.
Print Assumptions compare_collections_partial.

Example compare_collections_case :
  let ta := CTup [STup [DynDim; Known pi_angle]; SDesc (Known (Dim 1)); SDesc DynDim] in
  let tb := CTup [STup [Known (Dim 3); Known pi_angle]] in
  let a n k := [PFix [dheld n; kheld pi_angle]; PDesc (kheld (Dim 1)); PDesc (dheld k)] in
  let b := [PFix [kheld (Dim 3); kheld pi_angle]] in
  (forall i, tame (type_at ta i) (type_at tb i)) /\
  (forall n k, of_collection ta (a n k)) /\ of_collection tb b /\
  compare_collections is_eq ta tb (a 3 1) b = true /\ compare_collections is_eq ta tb (a 2 1) b = false /\
  compare_collections is_eq ta tb (a 3 2) b = false /\
  let tc := CVec (SDesc (Known (Dim 2))) in
  let td := CTup [SDesc (Known (Dim 2)); SDesc DynDim] in
  (forall i, i < 2 -> tame (type_at tc i) (type_at td i)) /\
  comparable_sizes tc td [PDesc (kheld (Dim 2)); PDesc (kheld (Dim 2))] [PDesc (kheld (Dim 2)); PDesc (dheld 2)].
Proof.
  cbv zeta. repeat match goal with |- _ /\ _ => split end; try compute_eq.
  - intros [|[|[|[|i]]]]; cbn [type_at nth]; tame_tac.
  - intros n k. repeat constructor; eexists; reflexivity.
  - repeat constructor.
  - intros [|[|i]] hi; [| |lia]; cbn [type_at nth]; tame_tac.
  - reflexivity.
Qed.

(** A tuple against a collection of run-time size: the number of elements is
    ignored when the compiler is sure about every element. *)
Theorem compare_collections_refuted :
  let ta := CTup [SDesc (Known (Dim 3))] in
  let tb := CVec (SDesc (Known (Dim 3))) in
  let three := PDesc (kheld (Dim 3)) in
  (* no element on the right: three axes against one, yet "equivalent" *)
  compare_collections is_eq ta tb [three] [] = true /\
  is_eq (compare_three_way (place [three] 0) (place [] 0)) = false /\
  (* two collections of different sizes, yet "equivalent" *)
  compare_collections is_eq tb tb [three] [three; three] = true /\
  is_eq (compare_three_way (place [three] 1) (place [three; three] 1)) = false /\
  (* a trailing axis is not recognised *)
  compare_collections is_eq (CTup [SDesc (Known (Dim 3)); SDesc (Known (Dim 1))]) tb
    [three; PDesc (kheld (Dim 1))] [three] = false /\
  (forall i, i < 2 -> is_eq (compare_three_way (place [three; PDesc (kheld (Dim 1))] i) (place [three] i)) = true) /\
  (* nothing to compare, yet different *)
  compare_collections is_eq tb (CVec (SDesc (Known (Dim 2)))) [] [] = false.
Proof.
  cbv zeta. repeat match goal with |- _ /\ _ => split end; try compute_eq.
  intros [|[|i]] hi; [vm_compute; reflexivity|vm_compute; reflexivity|lia].
Qed.
Print Assumptions compare_collections_refuted.
