(** * What component-wise and chip-wise operations should compute. *)
From mathcomp Require Import all_ssreflect.
From Verif Require Import TileModel TileSpec NaryModel.
Set Implicit Arguments.
Unset Strict Implicit.
Unset Printing Implicit Defensive.

(** A list of all the indices within these dimensions, each exactly once. *)
Definition each_once (ds : seq nat) (order : seq (seq nat)) : Prop :=
  uniq order /\ forall ix, (ix \in order) = in_range ds ix.

Section Spec.
Variables T U S : Type.

(** The component of an argument at an index of the result: size-one dimensions are repeated, and so are indices the
    argument does not have. *)
Definition broadcast (a : src T) (ix : seq nat) : T :=
  sat a [seq if sdim a i == 1 then 0 else nth 0 ix i | i <- iota 0 (size (sdims a))].

(** The argument can be repeated to fill these dimensions. *)
Definition broadcastable (ds : seq nat) (a : src T) : Prop :=
  size (sdims a) <= size ds /\ forall i, i < size ds -> sdim a i = 1 \/ sdim a i = nth 0 ds i.

(** The constant, if known, is the value of every component. *)
Definition proper_src (a : src T) : Prop := forall c, sconst a = Some c -> forall ix, sat a ix = c.

(** The operation's results do not depend on its state. *)
Definition pure (op : oper T U S) (f : seq T -> seq nat -> U) : Prop := forall s xs j, (call op s xs j).1 = f xs j.

(** The calls in this order: their results and the last state. *)
Fixpoint replay (f : S -> seq nat -> U * S) (s : S) (order : seq (seq nat)) : seq U * S :=
  if order is j :: r then let p := f s j in let q := replay f p.2 r in (p.1 :: q.1, q.2) else ([::], s).

(** One call of the operation, at [j]. *)
Definition calls (op : oper T U S) (args : seq (src T)) (s : S) (j : seq nat) : U * S :=
  call op s [seq broadcast a j | a <- args] (if takes_indices op then j else [::]).

(** The operation wants the indices, or an argument is not a known constant, or there is none. *)
Definition varies (op : oper T U S) (args : seq (src T)) : bool :=
  takes_indices op || ~~ all (fun a => isSome (sconst a)) args || (size args == 0).

(** All dimensions are one, by their types. *)
Definition single (statics : seq bool) (ds : seq nat) : bool := all (fun p => p.1 && (p.2 == 1)) (zip statics ds).

(** The dimensions of the arguments along one index: fixed or not, and how many. *)
Definition dims_along (args : seq (src T)) (i : nat) : seq (bool * nat) := [seq (fixed_at a i, sdim a i) | a <- args].

(** Dimensions along one index that can be matched: all [D] or one. *)
Definition matching (D : nat) (dims : seq (bool * nat)) : Prop :=
  0 < D /\ (forall p, p \in dims -> p.2 = 1 \/ p.2 = D) /\ (exists2 p, p \in dims & p.2 = D).

(** The last argument, from which the others are matched, is not a fixed size-one dimension unless all are one. *)
Definition last_not_one (D : nat) (dims : seq (bool * nat)) : Prop :=
  D = 1 \/ last (false, 1) dims <> (true, 1).

End Spec.

(** Position in a list that runs through the places along the first of [ixs] slowest. *)
Definition major_order (ds ixs ix : seq nat) : nat := foldl (fun acc i => acc * nth 1 ds i + nth 0 ix i) 0 ixs.

(** The dimensions of a chip. *)
Definition chipped (ixs ds : seq nat) : seq nat := [seq if i \in ixs then 1 else nth 1 ds i | i <- iota 0 (size ds)].

(** The chip of [a] at [v] along [ixs]. *)
Definition chip_of (A : Type) (a : arr A) (ixs v : seq nat) : arr A :=
  Arr [seq if i \in ixs then 1 else dim a i | i <- iota 0 (rank a)]
      (fun jx => comp a [seq if i \in ixs then nth 0 v (index i ixs) else nth 0 jx i | i <- iota 0 (rank a)]).

(** The places along [ixs] of an index, and the same index within the chip. *)
Definition along (ixs ix : seq nat) : seq nat := [seq nth 0 ix i | i <- ixs].
Definition within (ixs ix : seq nat) : seq nat := [seq if i \in ixs then 0 else nth 0 ix i | i <- iota 0 (size ix)].
