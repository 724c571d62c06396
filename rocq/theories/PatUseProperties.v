(** * Functions on collections of patterns, and uniform patterns: theorems
    (C101, C102, C103) *)
From Coq Require Import List ZArith Bool Lia.
From Verif Require Import PatCmpModel PatCmpSpec PatStaticModel PatStaticSpec PatUseModel PatUseSpec PatUseProofs PatUseProofs2.
Import ListNotations.
Local Open Scope nat_scope.

Definition known (d : desc) : held := mk_held false true d.
Definition sized (n : nat) : held := mk_held false false (Dim n).
Definition any (d : desc) : held := mk_held true false d.
Definition circle : desc := Angle (-180) 180.
Definition plane : desc := Polar (-180) 180 0.

(** Equations of closed terms only: [vm_compute] under a quantifier over
    descriptors would expand the hash codes. *)
Ltac compute_eq := match goal with |- _ = _ => vm_compute; reflexivity end.

(** ** C101.  Stripping the tail; the largest and the smallest pattern *)

(** The tail of patterns equivalent to one axis is removed, and nothing else. *)
Theorem strip_1D_tail_correct u p :
  of_ucol u p -> col_fits u -> no_code_one u ->
  stripped p (strip_1D_tail u p) /\ (forall l, stripped p l -> l = strip_1D_tail u p).
Proof.
  intros h f n. pose proof (strip_ok u p h f n) as k. split; trivial. intros l hl. exact (stripped_unique p l _ hl k).
Qed.
Print Assumptions strip_1D_tail_correct.

Example strip_1D_tail_example :
  let u := UTup [SDesc (Known (Dim 3)); SVec DynDim; SDesc DynDim; STup [Known (Dim 0); Known (Dim 1)]] in
  let p a n := [PDesc (known (Dim 3)); PDyn true (map sized a); PDesc (sized n); PFix [known (Dim 0); known (Dim 1)]] in
  (forall a n, of_ucol u (p a n)) /\ col_fits u /\ no_code_one u /\
  length (strip_1D_tail u (p [1] 1)) = 1 /\ length (strip_1D_tail u (p [1; 0; 1] 1)) = 2 /\
  length (strip_1D_tail u (p [1] 4)) = 3 /\
  (forall p, of_ucol (UVec (SDesc AnyDesc)) p -> stripped p (strip_1D_tail (UVec (SDesc AnyDesc)) p)).
Proof.
  cbv zeta. repeat match goal with |- _ /\ _ => split end; try compute_eq.
  - intros a n. repeat constructor.
    + cbn. induction a; constructor; trivial. now exists a.
    + cbn. now exists n.
  - repeat constructor.
  - intros d [e|[e|[e|[e|[]]]]]; try discriminate. injection e as <-. discriminate.
  - intros p h. apply strip_ok; trivial; [repeat constructor|]. intros d [e|[]]. discriminate.
Qed.

(** The result is the index of the first largest, or of the first smallest,
    pattern. *)
Theorem largest_pattern_correct u p : p <> [] -> first_largest p (largest_pattern u p).
Proof. apply largest_ok. Qed.
Print Assumptions largest_pattern_correct.

Theorem smallest_pattern_correct u p :
  p <> [] -> Forall (fun x => (Z.of_nat (extent x) < 2 ^ 64 - 1)%Z) p -> first_smallest p (smallest_pattern u p).
Proof. apply smallest_ok. Qed.
Print Assumptions smallest_pattern_correct.

Example largest_smallest_example :
  let p := [PDesc (known (Dim 2)); PFix [known plane; known circle]; PDesc (sized 3); PDyn false [any (Dim 1); any circle]] in
  let u := UTup [SDesc (Known (Dim 2)); STup [Known plane; Known circle]; SDesc DynDim; SVec AnyDesc] in
  of_ucol u p /\ p <> [] /\ Forall (fun x => (Z.of_nat (extent x) < 2 ^ 64 - 1)%Z) p /\
  largest_pattern u p = 1 /\ smallest_pattern u p = 0 /\
  (forall n, first_largest [PDesc (sized n); PDesc (sized (S n)); PDesc (sized (S n))] 1).
Proof.
  cbv zeta. repeat match goal with |- _ /\ _ => split end; try compute_eq; try discriminate.
  - repeat constructor; eexists; reflexivity.
  - repeat constructor.
  - intro n. split; [cbn; lia|]. split.
    + intros [|[|[|j]]] hj; cbn in *; lia.
    + intros [|j] hj; cbn in *; lia.
Qed.

(** ** C102.  The dimensions of the elements of a collection *)

(** The common dimension is found if and only if there is one. *)
Theorem common_dimension_partial N u p d :
  of_ucol u p -> col_fits u -> 0 < places N p ->
  get_common_dimension N u p = Some d <-> (forall i, i < places N p -> extent_at p i = d).
Proof. apply common_dimension_ok. Qed.
Print Assumptions common_dimension_partial.

(** The comparison holds if and only if it holds at each place. *)
Theorem compare_with_dimension_partial comp N u p d :
  of_ucol u p -> col_fits u -> 0 < places N p ->
  compare_with_dimension comp N u p d = true <->
  (forall i, i < places N p -> comp (Some (Nat.compare (extent_at p i) d)) = true).
Proof. apply compare_dimension_ok. Qed.
Print Assumptions compare_with_dimension_partial.

Example common_dimension_example :
  let u := UTup [SDesc (Known (Dim 2)); SDesc (Known plane); SDesc DynDim] in
  let p n := [PDesc (known (Dim 2)); PDesc (known plane); PDesc (sized n)] in
  (forall n, of_ucol u (p n)) /\ col_fits u /\ 0 < places None (p 2) /\
  (forall n, get_common_dimension None u (p n) = Some 2 <-> n = 2) /\
  (forall n, get_common_dimension (Some 2) u (p n) = Some 2) /\
  (forall n, compare_with_dimension cmp_lteq (Some 4) u (p n) 2 = true <-> n <= 2).
Proof.
  cbv zeta. assert (U : forall n, of_ucol (UTup [SDesc (Known (Dim 2)); SDesc (Known plane); SDesc DynDim])
     [PDesc (known (Dim 2)); PDesc (known plane); PDesc (sized n)]).
  { intro n. repeat constructor. now exists n. }
  assert (F : col_fits (UTup [SDesc (Known (Dim 2)); SDesc (Known plane); SDesc DynDim])) by (repeat constructor).
  split; [exact U|]. split; [exact F|]. split; [cbn; lia|]. split; [|split].
  - intro n. rewrite common_dimension_ok; [|apply U|exact F|cbn; lia]. split.
    + intro h. specialize (h 2 ltac:(cbn; lia)). cbn in h. lia.
    + intros -> [|[|[|i]]] hi; cbn in *; trivial; lia.
  - intro n. apply common_dimension_ok; [apply U|exact F|cbn; lia|]. intros [|[|i]] hi; cbn in *; trivial; lia.
  - intro n. rewrite compare_dimension_ok; [|apply U|exact F|cbn; lia]. split.
    + intro h. specialize (h 2 ltac:(cbn; lia)). cbn [extent_at nth_error extent items map the_desc dimension sized list_sum fold_right] in h.
      rewrite Nat.add_0_r in h. destruct (Nat.compare_spec n 2); [lia|lia|discriminate].
    + intros hn [|[|[|[|i]]]] hi; cbn [extent_at nth_error extent items map the_desc dimension known sized list_sum fold_right places plane] in *; [reflexivity|reflexivity| |reflexivity|lia].
      rewrite Nat.add_0_r. destruct (Nat.compare_spec n 2); [reflexivity|reflexivity|lia].
Qed.

(** What the compiler is sure of holds, and what it excludes does not. *)
Theorem dimension_concepts_partial comp N u p d :
  of_ucol u p -> col_fits u -> within N u p ->
  (patterns_compare_with_dimension comp N false u d = true ->
     forall i, i < places N p -> comp (Some (Nat.compare (extent_at p i) d)) = true) /\
  (patterns_compare_with_dimension comp N true u d = false -> 0 < places N p ->
     exists i, i < places N p /\ comp (Some (Nat.compare (extent_at p i) d)) = false) /\
  (patterns_have_same_dimension N false u = true ->
     forall i j, i < places N p -> j < places N p -> extent_at p i = extent_at p j) /\
  (patterns_have_same_dimension N true u = false ->
     exists i j, i < places N p /\ j < places N p /\ extent_at p i <> extent_at p j).
Proof.
  intros h f w. split; [|split; [|split]].
  - exact (concept_compare_all comp N u p d h f w).
  - intros e n0. exact (concept_compare_none comp N u p d h f w n0 e).
  - exact (concept_same_all N u p h f w).
  - exact (concept_same_none N u p h f).
Qed.
Print Assumptions dimension_concepts_partial.

Example dimension_concepts_example :
  let u := UTup [SDesc (Known (Dim 2)); SDesc (Known plane)] in
  let v := UTup [SDesc (Known (Dim 2)); SDesc DynDim; SDesc (Known circle)] in
  let p := [PDesc (known (Dim 2)); PDesc (known plane)] in
  let q := [PDesc (known (Dim 2)); PDesc (sized 2); PDesc (known circle)] in
  of_ucol u p /\ col_fits u /\ within None u p /\ of_ucol v q /\ col_fits v /\ within None v q /\
  patterns_compare_with_dimension cmp_eq None false u 2 = true /\
  patterns_compare_with_dimension cmp_eq None true v 2 = false /\ 0 < places None q /\
  patterns_compare_with_dimension cmp_eq (Some 2) true v 2 = true /\
  patterns_have_same_dimension None false u = true /\ patterns_have_same_dimension None true v = false.
Proof.
  cbv zeta. repeat match goal with |- _ /\ _ => split end; try compute_eq; try (repeat constructor).
  now exists 2.
Qed.

(** With no place to look at, the answers differ with the kind of collection;
    and the compiler forgets that beyond the end there is one dimension. *)
Theorem dimension_refuted :
  let two := SDesc (Known (Dim 2)) in
  get_common_dimension None (UArr two 0) [] = Some 2 /\
  get_common_dimension None (UVec two) [] = Some 1 /\
  get_common_dimension None (UTup []) [] = Some 1 /\
  compare_with_dimension cmp_eq None (UArr two 0) [] 3 = false /\
  compare_with_dimension cmp_eq None (UVec two) [] 3 = true /\
  (* a vector of one two-dimensional pattern, three places looked at *)
  of_ucol (UVec two) [PDesc (known (Dim 2))] /\
  patterns_compare_with_dimension cmp_eq (Some 3) false (UVec two) 2 = true /\
  compare_with_dimension cmp_eq (Some 3) (UVec two) [PDesc (known (Dim 2))] 2 = false /\
  patterns_have_same_dimension (Some 3) false (UVec two) = true /\
  get_common_dimension (Some 3) (UVec two) [PDesc (known (Dim 2))] = None.
Proof.
  cbv zeta. repeat match goal with |- _ /\ _ => split end; try compute_eq. repeat constructor.
Qed.
Print Assumptions dimension_refuted.

(** ** C103.  Uniform patterns *)

(** A one-dimensional component that is found is a component. *)
Theorem uniform_component_found_partial t p c :
  of_type t p -> no_clash (descs p) -> get_uniform_component t p = Some c -> dimension c = 1 -> uniform_by c p.
Proof. apply get_uniform_sound. Qed.
Print Assumptions uniform_component_found_partial.

(** If none is found, there is none. *)
Theorem uniform_component_none_partial t p :
  of_type t p -> no_zero p -> items p <> [] -> telling t p -> get_uniform_component t p = None -> ~ uniform p.
Proof. apply get_uniform_complete. Qed.
Print Assumptions uniform_component_none_partial.

Ltac clash_tac :=
  let x := fresh in let y := fresh in
  intros x y; cbn [descs map items the_desc known any sized In];
  intros hx hy; repeat match goal with h : _ \/ _ |- _ => destruct h | h : False |- _ => destruct h end;
  subst; trivial; vm_compute; discriminate.

Example uniform_component_example :
  let t := SVec AnyDesc in
  let p := PDyn false [any circle; any circle; any circle] in
  let q := PDyn false [any circle; any Distance] in
  let s := PFix [known circle; any circle] in
  of_type t p /\ no_clash (descs p) /\ get_uniform_component t p = Some circle /\ dimension circle = 1 /\
  of_type t q /\ no_zero q /\ items q <> [] /\ telling t q /\ get_uniform_component t q = None /\
  of_type (STup [Known circle; AnyDesc]) s /\ telling (STup [Known circle; AnyDesc]) s /\
  get_uniform_component (STup [Known circle; AnyDesc]) s = Some circle /\
  get_uniform_component (STup [Known (Dim 3); DynDim]) (PFix [known (Dim 3); sized 2]) = Some (Dim 1).
Proof.
  cbv zeta. repeat match goal with |- _ /\ _ => split end; try compute_eq; try discriminate; try exact I.
  - repeat constructor; eexists; reflexivity.
  - clash_tac.
  - repeat constructor; eexists; reflexivity.
  - repeat constructor; discriminate.
  - repeat constructor. now exists circle.
  - right. now constructor.
Qed.

(** A descriptor is recognised as the component of a pattern if and only if it
    is. *)
Theorem is_uniform_component_partial e x t b :
  of_elt e x -> of_type t b -> no_zero b -> items b <> [] -> no_clash (Dim 1 :: the_desc x :: descs b) ->
  is_component_of e x t b = true <-> uniform_by (the_desc x) b.
Proof. apply component_ok. Qed.
Print Assumptions is_uniform_component_partial.

Example is_uniform_component_example :
  let t := STup [Known circle; AnyDesc] in
  let b := PFix [known circle; any circle] in
  let b' := PFix [known circle; any Distance] in
  let x := any circle in
  of_elt AnyDesc x /\ of_type t b /\ of_type t b' /\ no_zero b /\ no_zero b' /\ items b <> [] /\
  no_clash (Dim 1 :: the_desc x :: descs b) /\ no_clash (Dim 1 :: the_desc x :: descs b') /\
  is_component_of AnyDesc x t b = true /\ is_component_of AnyDesc x t b' = false /\
  is_component_of DynDim (sized 1) (SVec AnyDesc) (PDyn false [any (Dim 3); any (Dim 1)]) = true.
Proof.
  cbv zeta. repeat match goal with |- _ /\ _ => split end; try compute_eq; try discriminate; try clash_tac.
  - now exists circle.
  - repeat constructor. now exists circle.
  - repeat constructor. now exists Distance.
  - repeat constructor; discriminate.
  - repeat constructor; discriminate.
Qed.

(** What the compiler is sure of. *)
Theorem uniform_concept_partial t p :
  of_type t p ->
  (uniform_pattern false t = true -> uniform p) /\
  (uniform_pattern true t = false -> no_zero p -> items p <> [] -> ~ uniform p).
Proof.
  intro h. split; [exact (uniform_guaranteed t p h)|]. intros e nz ne. exact (uniform_permitted t p h nz ne e).
Qed.
Print Assumptions uniform_concept_partial.

Example uniform_concept_example :
  let t := STup [Known circle; Known circle] in
  let s := STup [Known circle; AnyDesc; Known Distance] in
  of_type t (PFix [known circle; known circle]) /\ uniform_pattern false t = true /\
  (forall d, of_type s (PFix [known circle; any d; known Distance])) /\ uniform_pattern true s = false /\
  no_zero (PFix [known circle; any plane; known Distance]) /\
  uniform_pattern false (STup [Known circle; AnyDesc]) = false /\ uniform_pattern true (STup [Known circle; AnyDesc]) = true.
Proof.
  cbv zeta. repeat match goal with |- _ /\ _ => split end; try compute_eq.
  - repeat constructor.
  - intro d. repeat constructor. now exists d.
  - repeat constructor; discriminate.
Qed.

(** Without the hypotheses the claims are false. *)
Theorem uniform_refuted :
  (* a component of two dimensions *)
  get_uniform_component (SVec AnyDesc) (PDyn false [any plane; any plane]) = Some plane /\
  (~ uniform (PDyn false [any plane; any plane])) /\
  (* uniform, but no component is found: plain axes in a tuple of Any, a single
     Any, and an Any without dimensions *)
  (get_uniform_component (STup [AnyDesc; AnyDesc]) (PFix [any (Dim 2); any (Dim 3)]) = None /\
   uniform (PFix [any (Dim 2); any (Dim 3)])) /\
  (get_uniform_component (SDesc AnyDesc) (PDesc (any circle)) = None /\ uniform (PDesc (any circle))) /\
  (get_uniform_component (SVec AnyDesc) (PDyn false [any (Dim 0); any circle]) = None /\
   uniform (PDyn false [any (Dim 0); any circle])) /\
  (* an angle and a descriptor without dimensions: the function finds the
     component, the test denies it, and the concept contradicts itself *)
  (let t := STup [Known circle; Known (Dim 0)] in let p := PFix [known circle; known (Dim 0)] in
   get_uniform_component t p = Some circle /\ uniform_by circle p /\
   is_component_of (Known circle) (known circle) t p = false /\
   uniform_pattern false t = true /\ uniform_pattern true t = false) /\
  (* nothing in the pattern, yet not a component *)
  (is_component_of (Known Distance) (known Distance) (SVec (Known circle)) (PDyn false []) = false /\
   uniform_by Distance (PDyn false [])).
Proof.
  repeat match goal with |- _ /\ _ => split end; cbv zeta; repeat match goal with |- _ /\ _ => split end; try compute_eq.
  - intros [c [h f]]. inversion f as [|? ? g _]; subst. cbn in g. destruct g as [g|[g|[g _]]]; try discriminate.
    rewrite <- g in h. discriminate.
  - exists (Dim 1). split; trivial. constructor; [right; right; now split|]. constructor; [right; right; now split|constructor].
  - exists circle. split; trivial. constructor; [right; now left|constructor].
  - exists circle. split; trivial. constructor; [now left|]. constructor; [right; now left|constructor].
  - split; trivial. constructor; [right; now left|]. constructor; [now left|constructor].
  - split; trivial. constructor.
Qed.
Print Assumptions uniform_refuted.
