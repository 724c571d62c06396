(** Model of the mdspan layouts, accessors and view adapters of the library
    (OpenKalman/linear-algebra/interfaces/stl and OpenKalman/linear-algebra/adapters),
    together with the three standard layouts they are nested on.

    Simplifications that hold throughout this file:
    - offsets and extents are unbounded natural numbers, where the code has std::size_t;
    - patterns are Euclidean, so a pattern is its dimension and whether that dimension is
      known at compile time;
    - an index pack or index array is a list of naturals.

    The static companions is_always_unique, is_always_exhaustive, is_always_strided are in StlStatic.v. *)
From Coq Require Import List Arith Bool Lia.
Import ListNotations.

(** ** Extents and pattern collections *)

(** One Euclidean pattern / one extent: its size and whether it is fixed at compile time
    (patterns/descriptors/Dimensions.hpp, stdex::extents). *)
Record ext := Ext { dim : nat; fixed : bool }.

(** patterns/functions/get_pattern.hpp l.36-47: beyond the end of a collection the pattern
    is Dimensions<1>. *)
Definition get_pattern (p : list ext) (k : nat) : ext := nth k p (Ext 1 true).

(** The size along rank k, 1 beyond the rank. *)
Definition dim_at (p : list ext) (k : nat) : nat := dim (get_pattern p k).

(** patterns/functions/to_extents.hpp l.29-42, l.133-136: trailing extents that are 1 at
    compile time are dropped (derive_rank), the rest is kept (derive_extents). *)
Fixpoint to_extents (p : list ext) : list ext :=
  match p with
  | [] => []
  | e :: q =>
      match to_extents q with
      | [] => if fixed e && (dim e =? 1) then [] else [e]
      | r => e :: r
      end
  end.

(** patterns/views/to_diagonal.hpp l.46-53: duplicate the first pattern. *)
Definition pat_to_diagonal (p : list ext) : list ext :=
  match p with [] => [] | e :: _ => e :: p end.

(** patterns/views/diagonal_of.hpp l.62-98: the shorter of the first two patterns, then the
    rest.  Simplification: the result counts as fixed exactly when both are fixed. *)
Definition pat_diagonal_of (p : list ext) : list ext :=
  let shorter e0 e1 :=
    Ext (if dim e0 <=? dim e1 then dim e0 else dim e1) (fixed e0 && fixed e1) in
  match p with
  | [] => []
  | [e0] => [shorter e0 (Ext 1 true)]
  | e0 :: e1 :: q => shorter e0 e1 :: q
  end.

Definition swap_index (a b k : nat) : nat := if k =? a then b else if k =? b then a else k.

(** patterns/views/transpose.hpp l.72-80 (element), l.247-252 (size). *)
Definition pat_transpose (a b : nat) (p : list ext) : list ext :=
  map (fun k => get_pattern p (swap_index a b k)) (seq 0 (max (length p) (b + 1))).

(** ** Layout mappings *)

(** The members of an mdspan layout mapping.  [m_stride] is [None] where the code would
    read beyond the rank or asserts. *)
Record mapping := Mapping
  { m_ext : list ext;
    m_call : list nat -> nat;
    m_span : nat;
    m_unique : bool;
    m_exhaustive : bool;
    m_strided : bool;
    m_stride : nat -> option nat }.

Definition rank (m : mapping) : nat := length (m_ext m).
Definition extent (m : mapping) (k : nat) : nat := dim_at (m_ext m) k.

Definition dims (e : list ext) : list nat := map dim e.
Definition prod (l : list nat) : nat := fold_right mult 1 l.

(** layout_left.hpp (mdspan reference implementation): __compute_offset is
    i0 + E(0) * (i1 + E(1) * (...)). *)
Fixpoint left_call (e idx : list nat) : nat :=
  match e, idx with
  | n :: e', i :: idx' => left_call e' idx' * n + i
  | _, _ => 0
  end.

(** layout_left.hpp: required_span_size is the product, stride(r) the product of the
    extents before r; is_unique, is_exhaustive, is_strided are true. *)
Definition layout_left (e : list ext) : mapping :=
  Mapping e (left_call (dims e)) (prod (dims e)) true true true
    (fun r => if r <? length e then Some (prod (firstn r (dims e))) else None).

(** layout_right.hpp l.48-66: the offset is accumulated from the left. *)
Fixpoint right_call_from (offset : nat) (e idx : list nat) : nat :=
  match e, idx with
  | n :: e', i :: idx' => right_call_from (offset * n + i) e' idx'
  | _, _ => offset
  end.

Definition right_call (e idx : list nat) : nat :=
  match e, idx with
  | _ :: e', i :: idx' => right_call_from i e' idx'
  | _, _ => 0
  end.

(** layout_right.hpp: stride(r) is the product of the extents after r. *)
Definition layout_right (e : list ext) : mapping :=
  Mapping e (right_call (dims e)) (prod (dims e)) true true true
    (fun r => if r <? length e then Some (prod (skipn (S r) (dims e))) else None).

Fixpoint dot (s idx : list nat) : nat :=
  match s, idx with
  | a :: s', i :: idx' => i * a + dot s' idx'
  | _, _ => 0
  end.

(** layout_stride.hpp, required_span_size: 0 if any extent is 0, otherwise
    1 + sum (extent(r) - 1) * stride(r). *)
Definition stride_span (e s : list nat) : nat :=
  if existsb (fun n => n =? 0) e then 0
  else 1 + dot s (map pred e).

(** layout_stride.hpp: operator() is the sum of index * stride; is_unique and is_strided are
    true; is_exhaustive compares required_span_size with the product of the extents. *)
Definition layout_stride (e : list ext) (s : list nat) : mapping :=
  Mapping e (dot s) (stride_span (dims e) s) true
    (stride_span (dims e) s =? prod (dims e)) true
    (fun r => if r <? length e then nth_error s r else None).

(** layout_constant.hpp l.46-75. *)
Definition layout_constant (e : list ext) : mapping :=
  Mapping e (fun _ => 0) (if existsb (fun n => n =? 0) (dims e) then 0 else 1)
    false false false (fun _ => Some 0).

(** access_with_padded_indices (layout_to_diagonal.hpp l.46-54, layout_diagonal_of.hpp
    l.45-53): the index pack is padded with zeros up to the nested rank.  A longer pack does
    not compile; here it is passed on. *)
Definition pad (r : nat) (idx : list nat) : list nat := idx ++ repeat 0 (r - length idx).
Definition padded (m : mapping) (idx : list nat) : nat := m_call m (pad (rank m) idx).

(** layout_to_diagonal.hpp l.64-155. *)
Definition layout_to_diagonal (m : mapping) (e : list ext) : mapping :=
  Mapping e
    (fun idx =>
       match idx with
       | [] => padded m []                                          (* l.74 *)
       | [i0] => if i0 =? 0 then padded m [] else m_span m          (* l.88-89 *)
       | i0 :: i1 :: is =>
           if i0 =? i1 then padded m (i1 :: is) else m_span m       (* l.108-109 *)
       end)
    (if m_span m <=? 1 then m_span m else m_span m + 1)             (* l.115-116 *)
    (m_unique m &&                                                  (* l.137-141 *)
       match e with
       | [] => true
       | [e0] => dim e0 <=? 2
       | e0 :: e1 :: _ =>
           (dim e0 <=? 2) && (dim e1 <=? 2) && ((dim e0 <=? 1) || (dim e1 <=? 1))
       end)
    (m_exhaustive m)                                                (* l.145 *)
    false                                                           (* l.148 *)
    (fun _ => None).                                                (* l.151-155: assert(false) *)

(** layout_diagonal_of.hpp l.63-130. *)
Definition layout_diagonal_of (m : mapping) (e : list ext) : mapping :=
  Mapping e
    (fun idx =>
       match idx with
       | [] => padded m []                                          (* l.73 *)
       | i0 :: is => padded m (i0 :: i0 :: is)                      (* l.90 *)
       end)
    (m_span m)                                                      (* l.94 *)
    (m_unique m)                                                    (* l.111 *)
    (m_exhaustive m &&                                              (* l.116-119 *)
       match m_ext m with
       | [] => true
       | [e0] => dim e0 =? 1
       | e0 :: e1 :: _ => (dim e0 =? 1) && (dim e1 =? 1)
       end)
    (m_strided m)                                                   (* l.123 *)
    (fun r =>                                                       (* l.128-129 *)
       match r with
       | 0 => match m_stride m 0, m_stride m 1 with
              | Some a, Some b => Some (a + b)
              | _, _ => None
              end
       | S r' => m_stride m r'
       end).

Inductive tri := Lower | Upper | Diagonal.

(** layout_triangle_partition.hpp l.66-188.  is_exhaustive (l.170-174) calls a member
    extent() that mappings do not have; the extents are read here as intended. *)
Definition layout_triangle_partition (t : tri) (m : mapping) : mapping :=
  let S := m_span m in
  Mapping (m_ext m)
    (fun idx =>
       match idx with
       | [] => m_call m []                                                       (* l.76 *)
       | [i0] =>                                                                 (* l.91-95 *)
           if i0 =? 0 then m_call m [i0]
           else match t with Lower => m_call m [i0] + S | _ => m_call m [i0] + 2 * S end
       | i0 :: i1 :: is =>
           if i0 =? i1 then m_call m (i0 :: i0 :: is)                            (* l.115 *)
           else match t with
                | Lower =>                                                       (* l.118-119 *)
                    if i1 <? i0 then m_call m (i0 :: i1 :: is) + S
                    else m_call m (i1 :: i0 :: is) + 2 * S
                | Upper =>                                                       (* l.123-124 *)
                    if i0 <? i1 then m_call m (i0 :: i1 :: is) + S
                    else m_call m (i1 :: i0 :: is) + 2 * S
                | Diagonal => m_call m (i0 :: i1 :: is) + 2 * S                  (* l.128 *)
                end
       end)
    (3 * S)                                                                      (* l.136 *)
    (m_unique m)                                                                 (* l.165 *)
    (m_exhaustive m && (extent m 0 <=? 1) && (extent m 1 <=? 1))                 (* l.172-173 *)
    (m_strided m)                                                                (* l.180 *)
    (m_stride m).                                                                (* l.187 *)

(** transpose_mdspan_policies.hpp l.43-58 (access_with_indices_adjusted), l.76-80: the index
    pack is padded with zeros up to the nested rank, then component k of the nested index is
    the swapped component of the pack, when the pack is long enough. *)
Definition transposed_indices (a b r : nat) (idx : list nat) : list nat :=
  let ix := pad r idx in
  let n := length ix in
  map (fun k => nth (if (k =? a) && (b <? n) then b
                     else if (k =? b) && (a <? n) then a else k) ix 0) (seq 0 r).

(** transpose_mdspan_policies.hpp l.61-115. *)
Definition layout_transpose (a b : nat) (m : mapping) (e : list ext) : mapping :=
  Mapping e
    (fun idx => m_call m (transposed_indices a b (rank m) idx))
    (m_span m) (m_unique m) (m_exhaustive m) (m_strided m)
    (fun r => m_stride m (swap_index a b r)).

(** stdex::linalg::layout_transpose (transposed.hpp of the P1673 reference implementation):
    rank two only. *)
Definition std_layout_transpose (m : mapping) : mapping :=
  Mapping [get_pattern (m_ext m) 1; get_pattern (m_ext m) 0]
    (fun idx => match idx with [i; j] => m_call m [j; i] | _ => 0 end)
    (m_span m) (m_unique m) (m_exhaustive m) (m_strided m)
    (fun r => m_stride m (if r =? 0 then 1 else 0)).

(** patterns::compare_pattern_collections on extents (compare_pattern_collections.hpp):
    element by element, the shorter collection continued with dimension 1. *)
Definition same_extents (p q : list ext) : bool :=
  forallb (fun k => dim_at p k =? dim_at q k) (seq 0 (max (length p) (length q))).

(** operator== of layout_to_diagonal::mapping (l.159-162), layout_diagonal_of::mapping
    (l.134-137) and layout_triangle_partition::mapping (l.193-196): two mappings of the same
    class are equal when their extents are; the nested mappings are not compared. *)
Definition mapping_equal (m m' : mapping) : bool := same_extents (m_ext m) (m_ext m').

(** ** Accessors, data handles, views *)

Section Elements.
Variable V : Type.
Variable zero : V.
(** complex conjugate and real part; both the identity when the scalar type is real. *)
Variables conj re : V -> V.

Inductive accessor :=
| ADefault                       (* stdex::default_accessor *)
| AConstant                      (* constant_accessor.hpp *)
| AToDiagonal (a : accessor)     (* to_diagonal_accessor.hpp *)
| ATriangular (a : accessor)     (* triangular_accessor.hpp *)
| AHermitian (a : accessor)      (* hermitian_accessor.hpp *)
| AConjugated (a : accessor).    (* stdex::linalg::conjugated_accessor *)

(** data_handle_type: a pointer into a buffer, a constant, or a nested handle with the
    partition offset (to_diagonal_accessor.hpp l.40 and the same line in the other two). *)
Inductive handle :=
| HPointer (buffer : list V) (position : nat)
| HConstant (c : V)
| HPartition (h : handle) (partition_offset : nat).

(** access(p, i); [None] is a read outside the buffer. *)
Fixpoint access (a : accessor) (p : handle) (i : nat) : option V :=
  match a, p with
  | ADefault, HPointer b k => nth_error b (k + i)
  | AConstant, HConstant c => Some c                                    (* constant_accessor.hpp l.46 *)
  | AToDiagonal a', HPartition h po =>                                  (* to_diagonal_accessor.hpp l.79-84 *)
      if i <? po then access a' h i else Some zero
  | ATriangular a', HPartition h po =>                                  (* triangular_accessor.hpp l.79-86 *)
      if i <? po then access a' h i
      else let i := i - po in
           if i <? po then access a' h i else Some zero
  | AHermitian a', HPartition h po =>                                   (* hermitian_accessor.hpp l.79-89 *)
      if i <? po then option_map re (access a' h i)
      else let i := i - po in
           if i <? po then access a' h i
           else option_map conj (access a' h (i - po))
  | AConjugated a', h => option_map conj (access a' h i)
  | _, _ => None
  end.

(** offset(p, i); [None] where std::size_t subtraction would wrap around
    (to_diagonal_accessor.hpp l.86-92, triangular_accessor.hpp l.88-94,
    hermitian_accessor.hpp l.91-97, constant_accessor.hpp l.49). *)
Fixpoint offset (a : accessor) (p : handle) (i : nat) : option handle :=
  match a, p with
  | ADefault, HPointer b k => Some (HPointer b (k + i))
  | AConstant, HConstant c => Some (HConstant c)
  | AToDiagonal _, HPartition h po
  | ATriangular _, HPartition h po
  | AHermitian _, HPartition h po =>
      if i =? 0 then Some p
      else if i <=? po then Some (HPartition h (po - i)) else None
  | AConjugated a', h => offset a' h i
  | _, _ => None
  end.

Record mdspan := Mdspan { md_map : mapping; md_handle : handle; md_acc : accessor }.

(** The objects built by the library's adapters on top of dense storage. *)
Inductive view :=
| VLeft (e : list ext) (data : list V)
| VRight (e : list ext) (data : list V)
| VStride (e : list ext) (s : list nat) (data : list V)
| VConstant (c : V) (e : list ext)          (* make_constant.hpp l.39-46 *)
| VToDiagonal (v : view) (p : list ext)     (* to_diagonal_adapter.hpp *)
| VDiagonalOf (v : view)                    (* diagonal_of_adapter.hpp *)
| VTriangular (t : tri) (v : view)          (* triangular_adapter.hpp *)
| VHermitian (t : tri) (v : view)           (* hermitian_adapter.hpp *)
| VTranspose (a b : nat) (v : view)         (* transpose_adapter.hpp *)
| VConjugate (v : view).                    (* conjugate_adapter.hpp *)

(** get_mdspan of each adapter: to_diagonal_adapter.hpp l.128-150, diagonal_of_adapter.hpp
    l.87-104, triangular_adapter.hpp l.89-112, hermitian_adapter.hpp (the same with
    hermitian_accessor), transpose_adapter.hpp l.107-137, conjugate_adapter.hpp l.96-106,
    make_constant.hpp l.39-46. *)
Fixpoint get_mdspan (v : view) : mdspan :=
  match v with
  | VLeft e d => Mdspan (layout_left e) (HPointer d 0) ADefault
  | VRight e d => Mdspan (layout_right e) (HPointer d 0) ADefault
  | VStride e s d => Mdspan (layout_stride e s) (HPointer d 0) ADefault
  | VConstant c e => Mdspan (layout_constant (to_extents e)) (HConstant c) AConstant
  | VToDiagonal v p =>
      let n := get_mdspan v in
      Mdspan (layout_to_diagonal (md_map n) (to_extents p))
        (HPartition (md_handle n) (m_span (md_map n))) (AToDiagonal (md_acc n))
  | VDiagonalOf v =>
      let n := get_mdspan v in
      Mdspan (layout_diagonal_of (md_map n) (to_extents (pat_diagonal_of (m_ext (md_map n)))))
        (md_handle n) (md_acc n)
  | VTriangular t v =>
      let n := get_mdspan v in
      Mdspan (layout_triangle_partition t (md_map n))
        (HPartition (md_handle n) (m_span (md_map n))) (ATriangular (md_acc n))
  | VHermitian t v =>
      let n := get_mdspan v in
      Mdspan (layout_triangle_partition t (md_map n))
        (HPartition (md_handle n) (m_span (md_map n))) (AHermitian (md_acc n))
  | VTranspose a b v =>
      let n := get_mdspan v in
      Mdspan
        (if (b =? 1) && (rank (md_map n) =? 2) then std_layout_transpose (md_map n)
         else layout_transpose a b (md_map n) (to_extents (pat_transpose a b (m_ext (md_map n)))))
        (md_handle n) (md_acc n)
  | VConjugate v =>
      let n := get_mdspan v in
      Mdspan (md_map n) (md_handle n) (AConjugated (md_acc n))
  end.

Definition map_of (v : view) : mapping := md_map (get_mdspan v).

(** access(arg, indices) (linear-algebra/traits/access.hpp l.58-67): indices beyond the rank
    of the mdspan are ignored (make_index_array, l.38-43). *)
Definition read (v : view) (idx : list nat) : option V :=
  let m := get_mdspan v in
  access (md_acc m) (md_handle m) (m_call (md_map m) (firstn (rank (md_map m)) idx)).

End Elements.

Arguments HPointer {V}. Arguments HConstant {V}. Arguments HPartition {V}.
Arguments VLeft {V}. Arguments VRight {V}. Arguments VStride {V}. Arguments VConstant {V}.
Arguments VToDiagonal {V}. Arguments VDiagonalOf {V}. Arguments VTriangular {V}.
Arguments VHermitian {V}. Arguments VTranspose {V}. Arguments VConjugate {V}.
Arguments Mdspan {V}. Arguments md_map {V}. Arguments md_handle {V}. Arguments md_acc {V}.
Arguments get_mdspan {V}. Arguments map_of {V}. Arguments access {V}. Arguments offset {V}.
Arguments read {V}.

(** ** Packed triangles *)

(** layout_packed_triangle (packed_triangle_mdspan_policies.hpp l.50-53): lower with
    column-major or upper with row-major storage is the "large" variant. *)
Inductive storage := ColumnMajor | RowMajor.
Definition packed_large (t : tri) (s : storage) : bool :=
  match t, s with
  | Lower, ColumnMajor | Upper, RowMajor => true
  | _, _ => false
  end.

(** l.117-125, rank two: operator()(i0, i1) with i0 <= i1 after the swap of l.117.  The
    rank-one overload (l.91-99) names an undeclared i1 and does not compile. *)
Definition packed_sorted (large : bool) (e0 e1 i0 i1 : nat) : nat :=
  if large then i1 + e1 * i0 - i0 * (i0 + 1) / 2                      (* l.118 *)
  else if e0 <? i1 then (3 + i0) * i0 / 2 + e0 * (i1 - e0) + i0       (* l.122 *)
  else i0 + i1 * (i1 + 1) / 2.                                        (* l.123 *)

Definition packed_call (large : bool) (e0 e1 i0 i1 : nat) : nat :=
  if i1 <? i0 then packed_sorted large e0 e1 i1 i0 else packed_sorted large e0 e1 i0 i1.

(** l.128-134 (min_dim and max_dim, l.55-67, are non-const members called from a const one;
    read here as intended). *)
Definition packed_span (large : bool) (e0 e1 : nat) : nat :=
  let mn := Nat.min e0 e1 in
  let mx := Nat.max e0 e1 in
  if large then mn * (mn + 1) / 2 + mn * (mx - mn) else mn * (mn + 1) / 2.

(** l.151-163. *)
Definition packed_unique (e0 e1 : nat) : bool := (e0 <? 2) || (e1 <? 2).
