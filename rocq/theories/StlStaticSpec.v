(** Views of the same type: built in the same way, from arrays whose compile-time extents are the same.  Extents that are not
    fixed, strides and stored values may differ. *)
From Coq Require Import List.
From Verif Require Import StlModel StlSpec.
Import ListNotations.

Definition same_static (e f : ext) : Prop := fixed e = fixed f /\ (fixed e = true -> dim e = dim f).

Fixpoint same_type {V} (v w : view V) : Prop :=
  match v, w with
  | VLeft e _, VLeft f _ | VRight e _, VRight f _ | VStride e _ _, VStride f _ _ | VConstant _ e, VConstant _ f => Forall2 same_static e f
  | VToDiagonal v p, VToDiagonal w q => same_type v w /\ Forall2 same_static p q
  | VDiagonalOf v, VDiagonalOf w | VConjugate v, VConjugate w => same_type v w
  | VTriangular s v, VTriangular t w | VHermitian s v, VHermitian t w => s = t /\ same_type v w
  | VTranspose a b v, VTranspose c d w => a = c /\ b = d /\ same_type v w
  | _, _ => False
  end.

(** Strides meet the precondition of stdex::layout_stride. *)
Fixpoint strides_ok {V} (v : view V) : Prop :=
  match v with
  | VLeft _ _ | VRight _ _ | VConstant _ _ => True
  | VStride e s _ => stride_precondition (dims e) s
  | VToDiagonal v _ | VDiagonalOf v | VTriangular _ v | VHermitian _ v | VTranspose _ _ v | VConjugate v => strides_ok v
  end.
