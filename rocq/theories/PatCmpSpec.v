(** * What comparing patterns should mean

    A pattern stands for a sequence of places: each Euclidean dimension is one
    plain axis, and each coordinate of another kind is one entry with the
    identity of its descriptor.  Comparing two patterns is comparing these
    sequences by the prefix order.  An unbounded collection is an infinite
    sequence. *)
From Coq Require Import List ZArith Bool Lia.
From Verif Require Import CollSpec PatCmpModel.
Import ListNotations.

Inductive token := Axis | Code (h : Z).

Definition tokens1 (d : desc) : list token :=
  match d with
  | Dim n => repeat Axis n
  | d => [Code (hash d)]
  end.

Definition tokens (l : list held) : list token := concat (map (fun x => tokens1 (the_desc x)) l).

Definition finite_seq (l : list token) : sequence token := mk_seq (Some (length l)) (fun i => nth i l Axis).

(** One descriptor repeated for ever. *)
Definition cycle (l : list token) : sequence token :=
  match l with
  | [] => finite_seq []
  | _ => mk_seq None (fun i => nth (i mod length l) l Axis)
  end.

Definition expand (p : pattern) : sequence token :=
  match p with
  | PInf x => cycle (tokens1 (the_desc x))
  | _ => finite_seq (tokens (items p))
  end.

Definition prefix (s t : sequence token) : Prop :=
  forall i, has s i -> has t i /\ CollSpec.item s i = CollSpec.item t i.

(** The answer that the prefix order gives. *)
Definition prefix_answer (r : ordering) (s t : sequence token) : Prop :=
  match r with
  | Some Eq => prefix s t /\ prefix t s
  | Some Lt => prefix s t /\ ~ prefix t s
  | Some Gt => ~ prefix s t /\ prefix t s
  | None => ~ prefix s t /\ ~ prefix t s
  end.

(** ** The patterns for which the claim is proved

    No Euclidean descriptor hides in an [Any] inside a collection of constant
    size (or next to one). *)
Definition open_kinds (l : list held) : Prop :=
  Forall (fun x => is_euclidean (the_desc x) = true -> in_any x = false) l.

Definition constant_size (p : pattern) : bool :=
  match p with PFix _ | PDesc _ => true | _ => false end.

(** A collection without elements meets only collections that are empty or
    have at least one dimension. *)
Definition no_void (a b : list held) : Prop :=
  (a = [] -> b = [] \/ tokens b <> []) /\ (b = [] -> a = [] \/ tokens a <> []).

Definition regular (a b : pattern) : Prop :=
  match a, b with
  | PDesc x, PDesc y =>
      is_euclidean (the_desc x) = is_euclidean (the_desc y) \/
      (dimension (the_desc x) > 0 /\ dimension (the_desc y) > 0 /\ hash (the_desc x) <> hash (the_desc y))
  | PInf x, PInf y =>
      is_euclidean (the_desc x) = false /\ is_euclidean (the_desc y) = false /\
      in_any x = false /\ in_any y = false /\ constant x = true /\ constant y = true
  | PInf x, p | p, PInf x =>
      is_euclidean (the_desc x) = false /\ (constant_size p = true -> open_kinds (items p))
  | a, b =>
      (constant_size a = true -> constant_size b = true -> open_kinds (items a) /\ open_kinds (items b)) /\
      no_void (items a) (items b)
  end.

(** A class of patterns any two of which are regular: sized collections of
    descriptors that are not in an [Any], with at least one dimension unless
    they have no element at all. *)
Definition plain (p : pattern) : Prop :=
  match p with
  | PFix l | PDyn _ l => open_kinds l /\ (l = [] \/ tokens l <> [])
  | _ => False
  end.

(** Two sequences with the same places. *)
Definition same (s t : sequence token) : Prop :=
  forall i, (has s i <-> has t i) /\ (has s i -> CollSpec.item s i = CollSpec.item t i).

(** [comp] tells equivalent patterns apart from the others. *)
Definition is_eq (o : ordering) : bool := match o with Some Eq => true | _ => false end.
Definition is_lt (o : ordering) : bool := match o with Some Lt => true | _ => false end.
Definition is_lteq (o : ordering) : bool := match o with Some Eq | Some Lt => true | _ => false end.
Definition is_neq (o : ordering) : bool := negb (is_eq o).

(** Collections of patterns compare place by place; a place beyond the end of
    a collection is one plain axis. *)
Definition place (l : list pattern) (i : nat) : pattern :=
  if Nat.ltb i (length l) then nth i l one_dim else PDesc (mk_held false true (Dim 1)).
