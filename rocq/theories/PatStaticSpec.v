(** * What a comparison by the compiler should promise

    The type of a pattern stands for all the patterns of that type.  A
    comparison that the compiler calls guaranteed holds for all of them, and one
    that it does not permit holds for none. *)
From Coq Require Import List ZArith Bool Lia.
From Verif Require Import PatCmpModel PatCmpSpec PatStaticModel.
Import ListNotations.

(** The patterns of a type. *)
Definition of_elt (e : elt) (x : held) : Prop :=
  match e with
  | Known d => x = mk_held false true d
  | DynDim => exists n, x = mk_held false false (Dim n)
  | AnyDesc => exists d, x = mk_held true false d
  end.

Definition of_type (t : spat) (p : pattern) : Prop :=
  match t, p with
  | SDesc e, PDesc x => of_elt e x
  | STup l, PFix xs => Forall2 of_elt l xs
  | SVec e, PDyn b xs => b = elt_euclidean e /\ Forall (of_elt e) xs
  | _, _ => False
  end.

(** The six comparisons of the standard library. *)
Definition is_gt (o : ordering) : bool := match o with Some Gt => true | _ => false end.
Definition is_gteq (o : ordering) : bool := match o with Some Eq | Some Gt => true | _ => false end.

Definition standard (comp : ordering -> bool) : Prop :=
  In comp [is_eq; is_neq; is_lt; is_lteq; is_gt; is_gteq].

(** Those that are not strict. *)
Definition not_strict (comp : ordering -> bool) : Prop := In comp [is_eq; is_neq; is_lteq; is_gteq].

Definition holds_for_all (comp : ordering -> bool) (t u : spat) : Prop :=
  forall a b, of_type t a -> of_type u b -> comp (compare_three_way a b) = true.

Definition holds_for_none (comp : ordering -> bool) (t u : spat) : Prop :=
  forall a b, of_type t a -> of_type u b -> comp (compare_three_way a b) = false.

(** ** Conditions

    The constant dimensions of a tuple add up to less than the largest size. *)
Definition constant_dims (l : list elt) : Z :=
  fold_right (fun e s => match e with Known d => Z.of_nat (dimension d) + s | _ => s end)%Z 0%Z l.
Definition fits (l : list elt) : Prop := (constant_dims l < 2 ^ 64 - 1)%Z.

(** No [Dimensions] known at run time stands next to another [Dimensions]. *)
Fixpoint apart (l : list elt) : Prop :=
  match l with
  | x :: ((y :: _) as r) =>
      (elt_euclidean x = true -> elt_euclidean y = true -> x <> DynDim /\ y <> DynDim) /\ apart r
  | _ => True
  end.

Definition nonzero (l : list elt) : Prop := ~ In (Known (Dim 0)) l.

Definition elts (t : spat) : list elt := match t with SDesc e | SVec e => [e] | STup l => l end.

(** Two descriptors: not one of constant dimension zero and one that may be a
    coordinate, and no number of dimensions that may be the hash code of a
    coordinate (see C16). *)
Definition descriptors_ok (x y : elt) : Prop :=
  match x, y with
  | Known a, Known b =>
      is_euclidean a = is_euclidean b \/ (dimension a > 0 /\ dimension b > 0 /\ hash a <> hash b)
  | Known a, DynDim | DynDim, Known a => is_euclidean a = true
  | Known a, AnyDesc | AnyDesc, Known a => a <> Dim 0
  | _, _ => True
  end.

(** The pairs of types for which the claim is proved: tuples; a collection of
    run-time size when no descriptor has the constant dimension zero; two
    descriptors as above. *)
Definition tame (t u : spat) : Prop :=
  fits (elts t) /\ fits (elts u) /\ apart (elts u) /\
  match t, u with
  | STup _, STup _ | SDesc _, STup _ | STup _, SDesc _ => True
  | SDesc x, SDesc y => descriptors_ok x y
  | SVec _, SVec _ => nonzero (elts t) /\ nonzero (elts u)
  | SVec x, _ => nonzero (elts t) /\ nonzero (elts u) /\ fits (repeat x (length (elts u)))
  | _, SVec y => nonzero (elts t) /\ nonzero (elts u) /\ fits (repeat y (length (elts t)))
  end.

(** ** Collections of patterns *)
Definition of_collection (t : scol) (l : list pattern) : Prop :=
  match t with
  | CTup ts => Forall2 of_type ts l
  | CVec t => Forall (of_type t) l
  end.

(** ** Sizes: the sizes of a type; [None] is unbounded. *)
Definition of_size (s : ssize) (n : option nat) : Prop :=
  match s with
  | Fixed m => n = Some m
  | Dynamic => exists m, n = Some m
  | Unbounded => n = None
  end.

Definition order_sizes (a b : option nat) : ordering :=
  match a, b with
  | None, None => Some Eq
  | None, Some _ => Some Gt
  | Some _, None => Some Lt
  | Some m, Some n => Some (Nat.compare m n)
  end.

(** The type at a place of a collection; beyond the end of a tuple it is one
    plain axis. *)
Definition type_at (t : scol) (i : nat) : spat :=
  match t with
  | CTup l => nth i l (SDesc (Known (Dim 1)))
  | CVec p => p
  end.

(** Two tuples; or collections with the same number of elements, not both
    without elements and of run-time size. *)
Definition comparable_sizes (ta tb : scol) (a b : list pattern) : Prop :=
  match ta, tb with
  | CTup _, CTup _ => True
  | CVec _, CVec _ => length a = length b /\ a <> []
  | _, _ => length a = length b
  end.
