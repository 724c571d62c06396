(** Specification of what a view of a matrix (or tensor) means, independently of layouts,
    offsets, partitions and accessors.

    An index tuple is a function [i : nat -> nat]: [i k] is the index along rank [k].  Along
    ranks an object does not have, its size is 1 and the index 0, so objects of any rank can
    be compared. *)
From Coq Require Import List Arith Bool.
From Verif Require Import StlModel.
Import ListNotations.

Definition indices (i : nat -> nat) (n : nat) : list nat := map i (seq 0 n).

Definition sum_over (n : nat) (f : nat -> nat) : nat := list_sum (map f (seq 0 n)).

(** Column-major, row-major and strided position of an index tuple. *)
Definition col_major (e : list nat) (i : nat -> nat) : nat :=
  sum_over (length e) (fun k => i k * prod (firstn k e)).
Definition row_major (e : list nat) (i : nat -> nat) : nat :=
  sum_over (length e) (fun k => i k * prod (skipn (S k) e)).
Definition strided_at (s : list nat) (i : nat -> nat) : nat :=
  sum_over (length s) (fun k => i k * nth k s 0).

Definition swap (a b : nat) (k : nat) : nat :=
  if k =? a then b else if k =? b then a else k.

Section Spec.
Variable V : Type.
Variable zero : V.
Variables conj re : V -> V.

(** The size of a view along each rank. *)
Fixpoint shape (v : view V) (k : nat) : nat :=
  match v with
  | VLeft e _ | VRight e _ | VStride e _ _ | VConstant _ e => dim_at e k
  | VToDiagonal _ p => dim_at p k
  | VDiagonalOf v => match k with 0 => Nat.min (shape v 0) (shape v 1) | S k' => shape v (S (S k')) end
  | VTriangular _ v | VHermitian _ v | VConjugate v => shape v k
  | VTranspose a b v => shape v (swap a b k)
  end.

Definition in_shape (v : view V) (i : nat -> nat) : Prop := forall k, i k < shape v k.

(** The element of a view at an index tuple. *)
Fixpoint elem (v : view V) (i : nat -> nat) : V :=
  match v with
  | VLeft e d => nth (col_major (dims e) i) d zero
  | VRight e d => nth (row_major (dims e) i) d zero
  | VStride _ s d => nth (strided_at s i) d zero
  | VConstant c _ => c
  | VToDiagonal v _ => if i 0 =? i 1 then elem v (fun k => i (S k)) else zero
  | VDiagonalOf v => elem v (fun k => match k with 0 => i 0 | S k' => i k' end)
  | VTriangular Lower v => if i 1 <=? i 0 then elem v i else zero
  | VTriangular Upper v => if i 0 <=? i 1 then elem v i else zero
  | VTriangular Diagonal v => if i 0 =? i 1 then elem v i else zero
  | VHermitian t v =>
      if i 0 =? i 1 then re (elem v i)
      else if (match t with Upper => i 0 <? i 1 | _ => i 1 <? i 0 end) then elem v i
      else conj (elem v (fun k => i (swap 0 1 k)))
  | VTranspose a b v => elem v (fun k => i (swap a b k))
  | VConjugate v => conj (elem v i)
  end.

(** What the constructors of the adapters demand: storage large enough for the dense
    layouts, matching patterns, a square argument of a hermitian adapter; and index packs
    that are not longer than the nested rank, without which the mapping does not compile. *)
Fixpoint buildable (v : view V) : Prop :=
  match v with
  | VLeft e d | VRight e d => prod (dims e) <= length d
  | VStride e s d => length s = length e /\ stride_span (dims e) s <= length d
  | VConstant _ _ => True
  | VToDiagonal v p =>
      buildable v /\
      (forall k, shape v k = match k with 0 => Nat.min (dim_at p 0) (dim_at p 1)
                                        | S k' => dim_at p (S (S k')) end) /\
      length (to_extents p) <= S (rank (map_of v))
  | VDiagonalOf v =>
      buildable v /\
      (let r := length (to_extents (pat_diagonal_of (m_ext (map_of v)))) in
       r = 0 \/ S r <= rank (map_of v))
  | VTriangular _ v => buildable v
  | VHermitian t v => buildable v /\ t <> Diagonal /\ shape v 0 = shape v 1
  | VTranspose a b v =>
      buildable v /\ a < b /\
      (b = 1 -> rank (map_of v) = 2 -> length (to_extents (pat_transpose a b (m_ext (map_of v)))) = 2)
  | VConjugate v => buildable v
  end.

(** A view all of whose offsets fit its claimed span: no diagonal matrix that needs a slot
    for its zeros and has none, no triangle on the long side of a rectangle. *)
Fixpoint fits (v : view V) : Prop :=
  match v with
  | VLeft _ _ | VRight _ _ | VStride _ _ _ | VConstant _ _ => True
  | VToDiagonal v p =>
      fits v /\ (2 <= m_span (map_of v) \/ (dim_at p 0 <= 1 /\ dim_at p 1 <= 1))
  | VTriangular t v =>
      fits v /\
      (rank (map_of v) <= 1 \/
       match t with
       | Lower => shape v 1 <= shape v 0
       | Upper => shape v 0 <= shape v 1
       | Diagonal => True
       end)
  | VHermitian _ v | VDiagonalOf v | VTranspose _ _ v | VConjugate v => fits v
  end.

(** A view whose partitions are built on views that fit their spans. *)
Fixpoint readable (v : view V) : Prop :=
  match v with
  | VLeft _ _ | VRight _ _ | VStride _ _ _ | VConstant _ _ => True
  | VToDiagonal v _ | VTriangular _ v | VHermitian _ v => fits v /\ readable v
  | VDiagonalOf v | VTranspose _ _ v | VConjugate v => readable v
  end.

End Spec.

Arguments shape {V}. Arguments in_shape {V}. Arguments elem {V}.
Arguments buildable {V}. Arguments fits {V}. Arguments readable {V}.

(** The three claims a layout mapping makes about itself. *)
Definition in_extents (m : mapping) (i : nat -> nat) : Prop := forall k, i k < extent m k.

Definition injective_map (m : mapping) : Prop :=
  forall i j, in_extents m i -> in_extents m j ->
    m_call m (indices i (rank m)) = m_call m (indices j (rank m)) -> forall k, i k = j k.

Definition onto_span (m : mapping) : Prop :=
  forall o, o < m_span m -> exists i, in_extents m i /\ m_call m (indices i (rank m)) = o.

Definition strided_map (m : mapping) : Prop :=
  exists s : nat -> nat,
    (forall r, r < rank m -> m_stride m r = Some (s r)) /\
    forall i, in_extents m i ->
      m_call m (indices i (rank m)) = sum_over (rank m) (fun k => i k * s k).

(** The precondition of stdex::layout_stride: positive strides, and an order of the ranks in
    which each stride is at least the previous stride times the previous extent. *)
Definition stride_precondition (e s : list nat) : Prop :=
  length s = length e /\
  exists order, (forall k, In k order <-> k < length e) /\ NoDup order /\
    (forall k, k < length e -> 0 < nth k s 0) /\
    forall pre a b post, order = pre ++ a :: b :: post ->
      nth a s 0 * nth a e 0 <= nth b s 0.

(** Where the claims of a mapping can be relied on (what is excluded is refuted in
    StlProperties.v). *)
Section Claims.
Variable V : Type.

Fixpoint unique_side (v : view V) : Prop :=
  match v with
  | VLeft _ _ | VRight _ _ | VConstant _ _ => True
  | VStride e s _ => stride_precondition (dims e) s
  | VToDiagonal v p => unique_side v /\ length (to_extents p) <= 2
  | VDiagonalOf v | VTriangular _ v | VHermitian _ v | VTranspose _ _ v | VConjugate v => unique_side v
  end.

Fixpoint exhaustive_side (v : view V) : Prop :=
  match v with
  | VLeft _ _ | VRight _ _ | VConstant _ _ => True
  | VStride e s _ => stride_precondition (dims e) s
  | VToDiagonal w p =>
      exhaustive_side w /\
      (m_span (map_of w) <= 1 \/ exists i, in_shape v i /\ i 0 <> i 1)
  | VDiagonalOf v | VTranspose _ _ v | VConjugate v => exhaustive_side v
  | VTriangular _ v | VHermitian _ v => m_span (map_of v) = 0
  end.

Fixpoint strided_side (v : view V) : Prop :=
  match v with
  | VLeft _ _ | VRight _ _ | VConstant _ _ | VStride _ _ _ | VToDiagonal _ _ => True
  | VDiagonalOf w => strided_side w /\ rank (map_of v) <= 1
  | VTranspose _ b v => strided_side v /\ b < rank (map_of v)
  | VConjugate v => strided_side v
  | VTriangular _ _ | VHermitian _ _ => False
  end.
End Claims.
Arguments unique_side {V}. Arguments exhaustive_side {V}. Arguments strided_side {V}.

(** A packed layout stores each unordered pair of row and column once, in consecutive
    slots. *)
Definition packs_triangle (call : nat -> nat -> nat) (span e0 e1 : nat) : Prop :=
  (forall i j, call i j = call j i) /\
  (forall i j, i < e0 -> j < e1 -> call i j < span) /\
  (forall i j i' j', i <= j -> i < e0 -> j < e1 -> i' <= j' -> i' < e0 -> j' < e1 ->
     call i j = call i' j' -> i = i' /\ j = j') /\
  (forall o, o < span -> exists i j, i <= j /\ i < e0 /\ j < e1 /\ call i j = o).
