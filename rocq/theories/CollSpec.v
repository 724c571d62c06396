(** * What collections and their comparisons should do

    Specification vocabulary for CollProperties.v: which list a view
    expression stands for, what it means that an object offers the elements of
    a list by every form of access, and the lexicographic order.  Nothing here
    refers to how the library computes anything. *)
From Coq Require Import List ZArith Lia.
From Verif Require Import CollModel.
Import ListNotations.

(** ** The list that an expression denotes *)
Fixpoint denote {A} (e : expr A) : list A :=
  match e with
  | ETuple l | EArray l | EVector l => l
  | EAll e => denote e
  | EConcat es => concat (map denote es)
  | ESlice e o _ (Some (n, _)) => firstn n (skipn o (denote e))
  | ESlice e o _ None => skipn o (denote e)
  | EReplicate e k _ => concat (repeat (denote e) k)
  | EGenerate f n _ => map f (seq 0 n)
  | ERepeat a n _ => repeat a n
  | EReverse e => rev (denote e)
  end.

(** ** An object offers exactly the elements of a list *)

(** ... by its size and by [get<i>] *)
Definition offers_get {A} (v : view A) (l : list A) : Prop :=
  vsize v = length l /\
  (forall i, i < length l -> get_fixed v i = nth_error l i).

(** ... by an index known only at run time, by iterators and by walking the
    range. *)
Definition offers_range {A} (v : view A) (l : list A) : Prop :=
  (forall i, i < length l -> get_dyn v i = nth_error l i) /\
  (vend v = vbegin v + Z.of_nat (length l))%Z /\
  (forall fuel, length l < fuel -> walk v fuel (vbegin v) = Some l) /\
  (** an iterator [k] steps from the beginning reads element [k], *)
  (forall k, k < length l -> vderef v (vbegin v + Z.of_nat k)%Z = nth_error l k) /\
  (** [it[n]] is [*(it + n)], for positive and negative [n], *)
  (forall k n, (k <= length l)%nat -> (0 <= Z.of_nat k + n < Z.of_nat (length l))%Z ->
     vsub v (vbegin v + Z.of_nat k)%Z n = nth_error l (Z.to_nat (Z.of_nat k + n))) /\
  (** and going back never leaves the collection by an exception. *)
  (forall k n, (k <= length l)%nat -> (0 <= Z.of_nat k - n <= Z.of_nat (length l))%Z ->
     vminus v (vbegin v + Z.of_nat k)%Z n = Some (vbegin v + Z.of_nat k - n)%Z).

Definition offers {A} (v : view A) (l : list A) : Prop :=
  offers_get v l /\ (viter v = true -> offers_range v l).

(** The list of patterns with entries [a] and [b] exchanged, where entries
    beyond the end are [d]. *)
Definition swapped {A} (d : A) (l : list A) (a b : nat) : list A :=
  map (fun i => nth (if i =? a then b else if i =? b then a else i) l d)%nat
      (seq 0 (Nat.max (length l) (b + 1))).

(** ** Flattening: the leaves from left to right *)
Fixpoint leaves {A} (t : ttree A) : list A :=
  match t with
  | TLeaf a => [a]
  | TNode l => concat (map leaves l)
  end.

(** ** Lexicographic order of two sequences, either of which may be infinite *)

Record sequence A := mk_seq { bound : option nat; item : nat -> A }.
Arguments mk_seq {A}. Arguments bound {A}. Arguments item {A}.

(** The sequence has an element at place [i] / ends exactly at place [i]. *)
Definition has {A} (s : sequence A) (i : nat) : Prop :=
  match bound s with Some n => i < n | None => True end.
Definition ends {A} (s : sequence A) (i : nat) : Prop := bound s = Some i.

(** [k] places agree and then the answer is decided. *)
Definition lex_result {A} (cmp : A -> A -> option comparison) (s t : sequence A)
    (c : option comparison) : Prop :=
  exists k,
    (forall j, j < k -> has s j /\ has t j /\ cmp (item s j) (item t j) = Some Eq) /\
    ((ends s k /\ ends t k /\ c = Some Eq) \/
     (ends s k /\ has t k /\ c = Some Lt) \/
     (has s k /\ ends t k /\ c = Some Gt) \/
     (has s k /\ has t k /\ c = cmp (item s k) (item t k) /\ c <> Some Eq)).

(** The sequence that one side of a comparison holds. *)
Definition seq_of {A} (s : side A) : sequence A :=
  mk_seq (match skind s with KFixed n | KDyn n => Some n | KUnbounded => None end) (selem s).

(** A three-way comparison of elements that is an order. *)
Record order_cmp {A} (cmp : A -> A -> option comparison) : Prop := {
  cmp_refl : forall x, cmp x x = Some Eq;
  cmp_eq : forall x y, cmp x y = Some Eq -> x = y;
  cmp_flip : forall x y, cmp y x = option_map CompOpp (cmp x y);
  cmp_trans : forall x y z, cmp x y = Some Lt -> cmp y z = Some Lt -> cmp x z = Some Lt }.
