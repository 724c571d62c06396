(** * What slices, tiles and concatenations should contain. *)
From mathcomp Require Import all_ssreflect.
From Verif Require Import TileModel.
Set Implicit Arguments.
Unset Strict Implicit.
Unset Printing Implicit Defensive.

Section Spec.
Variable A : Type.
Implicit Types (a b : arr A) (bs : seq (arr A)).

(** Every index is smaller than the dimension. *)
Definition in_range (ds ix : seq nat) : bool := all2 ltn ix ds.

(** Index by index: [shift x y] is x + y. *)
Definition shift (x y : seq nat) : seq nat := [seq p.1 + p.2 | p <- zip x y].

Definition same a b : Prop := dims a = dims b /\ forall ix, in_range (dims a) ix -> comp a ix = comp b ix.

Definition returns (r : res (arr A)) b : Prop := exists2 a, r = Val a & same a b.

(** A block of these sizes fits at [begin]. *)
Definition fits (begin sizes ds : seq nat) : bool := all2 leq (shift begin sizes) ds.

(** The block of sizes [exts] at [offs]. *)
Definition slice_of a (offs exts : seq nat) : arr A := Arr exts (fun ix => comp a (shift offs ix)).

(** [x] falls in which of consecutive intervals of these lengths, and where inside it. *)
Fixpoint locate (sizes : seq nat) (x : nat) : nat * nat :=
  if sizes is s :: ss then
    if x < s then (0, x) else let r := locate ss (x - s) in (r.1.+1, r.2)
  else (0, x).

Definition none : arr A := Arr [::] (fun=> None).

(** The blocks one after the other along index [i]. *)
Definition joined (i : nat) bs : arr A :=
  Arr (set_nth 0 (dims (head none bs)) i (sumn [seq dim b i | b <- bs]))
      (fun ix => let l := locate [seq dim b i | b <- bs] (nth 0 ix i) in comp (nth none bs l.1) (set_nth 0 ix i l.2)).

(** Rows of blocks: the heights may differ from row to row and the widths from block to block. *)
Definition grid (h w : nat) (rows : seq (seq (arr A))) : arr A :=
  Arr [:: h; w] (fun ix =>
    let l := locate [seq dim (head none r) 0 | r <- rows] (nth 0 ix 0) in
    let row := nth [::] rows l.1 in
    let m := locate [seq dim b 1 | b <- row] (nth 0 ix 1) in
    comp (nth none row m.1) [:: l.2; m.2]).

(** Every block has as many rows as the first of its row, every row is [w] wide, the rows are [h] high together, and no
    block is empty. *)
Definition regular (h w : nat) (rows : seq (seq (arr A))) : Prop :=
  [/\ forall r, r \in [seq [seq dims b | b <- r'] | r' <- rows] ->
        r != [::] /\ (forall d, d \in r -> [/\ size d = 2, nth 0 d 0 = nth 0 (head [::] r) 0, 0 < nth 0 d 0 & 0 < nth 0 d 1]) /\
        sumn [seq nth 0 d 1 | d <- r] = w &
      sumn [seq dim (head none r) 0 | r <- rows] = h].

(** The blocks along the diagonal of a matrix, zeros elsewhere. *)
Definition block_diagonal (zero : A) bs : arr A :=
  Arr [:: sumn [seq dim b 0 | b <- bs]; sumn [seq dim b 1 | b <- bs]] (fun ix =>
    let l := locate [seq dim b 0 | b <- bs] (nth 0 ix 0) in
    let m := locate [seq dim b 1 | b <- bs] (nth 0 ix 1) in
    if l.1 == m.1 then comp (nth none bs l.1) [:: l.2; m.2] else Some zero).

(** Non-empty objects with the same dimensions except along index [i]. *)
Definition joinable (i : nat) bs : Prop :=
  forall p, p < size bs -> size (dims (nth none bs p)) = size (dims (head none bs)) /\
    forall q, q < size (dims (head none bs)) ->
      0 < dim (nth none bs p) q /\ (q != i -> dim (nth none bs p) q = dim (head none bs) q).

(** Compile-time constants that count as near each other are equal. *)
Definition exact_constants (zero : A) (near : A -> A -> bool) (args : seq (obj A)) : Prop :=
  forall o o' c c', List.In o args -> List.In o' args -> const_of zero o = Some c -> const_of zero o' = Some c' ->
    near c c' -> c = c'.

(** A matrix with at least one row and one column. *)
Definition matrix b : bool := [&& size (dims b) == 2, 0 < dim b 0 & 0 < dim b 1].

(** A matrix object; triangular and Hermitian adapters are square. *)
Definition proper (o : obj A) : bool :=
  matrix (ostored o) && match okind o with Tri _ | Herm _ => dim (ostored o) 0 == dim (ostored o) 1 | _ => true end.

(** Hermitian adapters that all store the same triangle, or scalars that are their own conjugates. *)
Definition one_triangle (conj : A -> A) (args : seq (obj A)) : Prop :=
  (forall x, conj x = x) \/
  exists lo, forall o lo', List.In o args -> okind o = Herm lo' -> lo' = lo.

(** Where the block number [p] begins if blocks of these sizes follow one another along the first [k] indices at once. *)
Definition offsets (k : nat) (sizes : seq (seq nat)) (p : nat) : seq nat :=
  [seq sumn [seq nth 0 s i | s <- take p sizes] | i <- iota 0 k].

(** All of these objects, one by one. *)
Definition all_same (out bs : seq (arr A)) : Prop :=
  size out = size bs /\ forall p, p < size bs -> same (nth none out p) (nth none bs p).

End Spec.
Arguments none {A}.
