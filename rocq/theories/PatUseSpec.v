(** * What the functions on collections of patterns should mean *)
From Coq Require Import List ZArith Bool Lia.
From Verif Require Import PatCmpModel PatCmpSpec PatStaticModel PatStaticSpec PatUseModel.
Import ListNotations.

(** The collections of a type. *)
Definition of_ucol (u : ucol) (p : list pattern) : Prop :=
  match u with
  | UTup ts => Forall2 of_type ts p
  | UArr t n => length p = n /\ Forall (of_type t) p
  | UVec t => Forall (of_type t) p
  end.

Definition one_axis : pattern := PDesc (mk_held false true (Dim 1)).

(** [l] is [p] without its tail of patterns equivalent to one axis. *)
Definition stripped (p l : list pattern) : Prop :=
  exists r, p = l ++ r /\ Forall (fun x => compare_three_way x one_axis = Some Eq) r /\
    (l = [] \/ compare_three_way (last l one_axis) one_axis <> Some Eq).

(** The number of dimensions of a pattern. *)
Definition extent (p : pattern) : nat := list_sum (map (fun x => dimension (the_desc x)) (items p)).

(** The first of the largest, and of the smallest, patterns. *)
Definition first_largest (p : list pattern) (i : nat) : Prop :=
  i < length p /\
  (forall j, j < length p -> extent (nth j p one_axis) <= extent (nth i p one_axis)) /\
  (forall j, j < i -> extent (nth j p one_axis) < extent (nth i p one_axis)).
Definition first_smallest (p : list pattern) (i : nat) : Prop :=
  i < length p /\
  (forall j, j < length p -> extent (nth i p one_axis) <= extent (nth j p one_axis)) /\
  (forall j, j < i -> extent (nth i p one_axis) < extent (nth j p one_axis)).

(** The number of dimensions at a place; beyond the end there is one. *)
Definition extent_at (p : list pattern) (i : nat) : nat :=
  match nth_error p i with Some x => extent x | None => 1 end.

(** How many places are looked at: the first [N], or all. *)
Definition places (N : option nat) (p : list pattern) : nat :=
  match N with Some n => n | None => length p end.

(** The element types of a collection. *)
Definition elt_types (u : ucol) : list spat :=
  match u with UTup ts => ts | UArr t _ | UVec t => [t] end.

(** The constant dimensions of every element type are less than the largest
    size. *)
Definition col_fits (u : ucol) : Prop := Forall (fun t => fits (elts t)) (elt_types u).

(** No coordinate has the hash code 1, which is that of one axis (see C16). *)
Definition no_code_one (u : ucol) : Prop :=
  forall d, In (SDesc (Known d)) (elt_types u) -> is_euclidean d = false -> hash d <> 1%Z.

(** The places looked at are within a collection of run-time size. *)
Definition within (N : option nat) (u : ucol) (p : list pattern) : Prop :=
  match u, N with UVec _, Some n => n <= length p | _, _ => True end.

(** ** Uniform patterns

    Each descriptor of [p] is the one-dimensional descriptor [c], or has no
    dimension, or is a number of plain axes if [c] is one. *)
Definition uniform_by (c : desc) (p : pattern) : Prop :=
  dimension c = 1 /\
  Forall (fun x => dimension (the_desc x) = 0 \/ the_desc x = c \/
                   (is_euclidean (the_desc x) = true /\ is_euclidean c = true)) (items p).

Definition uniform (p : pattern) : Prop := exists c, uniform_by c p.

(** The hash codes of the descriptors tell them apart. *)
Definition no_clash (l : list desc) : Prop := forall x y, In x l -> In y l -> hash x = hash y -> x = y.

Definition descs (p : pattern) : list desc := map the_desc (items p).

(** No descriptor is without dimensions. *)
Definition no_zero (p : pattern) : Prop := Forall (fun x => dimension (the_desc x) <> 0) (items p).

(** The type tells what the values are: not an [Any] alone, and not a tuple that
    holds plain axes in an [Any] only by chance. *)
Definition telling (t : spat) (p : pattern) : Prop :=
  match t with
  | SDesc e => e <> AnyDesc
  | STup l => forallb elt_euclidean l = true \/ Exists (fun x => is_euclidean (the_desc x) = false) (items p)
  | SVec _ => True
  end.
