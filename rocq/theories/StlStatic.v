(** Model of the static claims of layout mappings, is_always_unique, is_always_exhaustive and is_always_strided, which the
    compiler reads off the type of a view alone.

    A type is represented by a view: extents that are not fixed, strides and stored values are those of one object of the type
    and the functions below do not look at them.  [None]: the function does not compile. *)
From Coq Require Import List Arith Bool.
From Verif Require Import StlModel.
Import ListNotations.

(** static_extent(k) == 1 and static_extent(k) <= 1; an extent not known at compile time is dynamic_extent, the largest
    std::size_t. *)
Definition static_1 (e : ext) : bool := fixed e && (dim e =? 1).
Definition static_le1 (e : ext) : bool := fixed e && (dim e <=? 1).

(** The tests by rank of layout_to_diagonal.hpp l.123-125 and layout_diagonal_of.hpp l.102-104. *)
Definition ones (e : list ext) : bool :=
  match e with [] => true | [e0] => static_1 e0 | e0 :: e1 :: _ => static_1 e0 && static_1 e1 end.

Section Static.
Context {V : Type}.

(** layout_left.hpp l.171, layout_right.hpp l.174, layout_stride.hpp l.388 (mdspan reference implementation);
    layout_constant.hpp l.65; layout_to_diagonal.hpp l.119-126; layout_diagonal_of.hpp l.96;
    layout_triangle_partition.hpp l.140-144; transpose_mdspan_policies.hpp l.92 and transposed.hpp l.128-130. *)
Fixpoint always_unique (v : view V) : bool :=
  match v with
  | VLeft _ _ | VRight _ _ | VStride _ _ _ => true
  | VConstant _ _ => false
  | VToDiagonal v p => always_unique v && ones (to_extents p)
  | VDiagonalOf v | VTriangular _ v | VHermitian _ v | VTranspose _ _ v | VConjugate v => always_unique v
  end.

(** layout_left.hpp l.172, layout_right.hpp l.175, layout_stride.hpp l.389-391; layout_constant.hpp l.66;
    layout_to_diagonal.hpp l.129; layout_diagonal_of.hpp l.98-105; layout_triangle_partition.hpp l.147-152 (for a rank below
    two, static_extent(1) is out of range unless the first two tests fail); transpose_mdspan_policies.hpp l.95 and
    transposed.hpp l.131-133 call is_always_contiguous, which no mapping has. *)
Fixpoint always_exhaustive (v : view V) : option bool :=
  match v with
  | VLeft _ _ | VRight _ _ => Some true
  | VStride _ _ _ | VConstant _ _ => Some false
  | VToDiagonal v _ | VConjugate v => always_exhaustive v
  | VDiagonalOf v => option_map (fun x => x && ones (m_ext (map_of v))) (always_exhaustive v)
  | VTriangular _ v | VHermitian _ v =>
      match always_exhaustive v with
      | None => None
      | Some false => Some false
      | Some true =>
          match m_ext (map_of v) with
          | e0 :: e1 :: _ => Some (static_le1 e0 && static_le1 e1)
          | [e0] => if static_le1 e0 then None else Some false
          | [] => None
          end
      end
  | VTranspose _ _ _ => None
  end.

(** layout_left.hpp l.173, layout_right.hpp l.176, layout_stride.hpp l.392; layout_constant.hpp l.67;
    layout_to_diagonal.hpp l.132; layout_diagonal_of.hpp l.108; layout_triangle_partition.hpp l.155-159;
    transpose_mdspan_policies.hpp l.98 and transposed.hpp l.134-136. *)
Fixpoint always_strided (v : view V) : bool :=
  match v with
  | VLeft _ _ | VRight _ _ | VStride _ _ _ => true
  | VConstant _ _ | VToDiagonal _ _ => false
  | VDiagonalOf v | VTriangular _ v | VHermitian _ v | VTranspose _ _ v | VConjugate v => always_strided v
  end.
End Static.
