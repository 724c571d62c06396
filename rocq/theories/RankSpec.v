(** * What a rank update should do, and what Eigen's rank-one update promises. *)
From mathcomp Require Import all_ssreflect all_algebra.
From Verif Require Import ShortModel ShortSpec LdltModel LdltSpec.
Set Implicit Arguments.
Unset Strict Implicit.
Unset Printing Implicit Defensive.
Import GRing.Theory Num.Theory Order.Theory.
Local Open Scope ring_scope.

Section Spec.
Variable R : rcfType.
Implicit Types m u : mat R.

(** The matrix a triangular factor stands for: L L^T, or R^T R. *)
Definition gram (lo : bool) m : mat R := if lo then product m (transposed m) else product (transposed m) m.

(** m + alpha u u^T. *)
Definition updated m u (alpha : R) : mat R := sum_of m [:: scaled (product u (transposed u)) alpha].

Definition column_mat (n : nat) (v : nat -> R) : mat R := Mat n 1 (fun i _ => v i).

(** Eigen's rank-one update of the Cholesky factor stored in a triangle. *)
Definition rank_contract (rk : bool -> nat -> (nat -> nat -> R) -> (nat -> R) -> R -> option (nat -> nat -> R)) : Prop :=
  forall lo n f v alpha,
  let new := updated (gram lo (triangle_of lo n f)) (column_mat n v) alpha in
  match rk lo n f v alpha with
  | Some g => same (gram lo (triangle_of lo n g)) new
  | None => alpha <= 0 /\ ~ definite new
  end.

Definition triangle_shaped (lo : bool) m : Prop := if lo then lower_triangular m else upper_triangular m.

(** A square factor of [new], of the shape asked for, was returned. *)
Definition factor_of (lo : bool) (r : res (mat R)) (new : mat R) : Prop :=
  exists m, [/\ r = Val m, square m, triangle_shaped lo m & same (gram lo m) new].

(** The failures that are reported: an exception, or a square root of a negative number. *)
Definition fails_with (r : res (mat R)) : Prop := r = Thrown \/ r = NotFinite.

(** The triangle in which the factor of a matrix of this type is returned. *)
Definition lower_factor (o : obj R) : bool := if ttype o is TUpper then false else true.

End Spec.
