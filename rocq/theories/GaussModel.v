(** * Model: covariance arithmetic and Gaussian distributions.

    Files: /repo/OpenKalman/linear-algebra/adapters/details/covariance-arithmetic.hpp,
    /repo/OpenKalman/linear-algebra/adapters/details/covariance-overloads.hpp,
    /repo/OpenKalman/distributions/GaussianDistribution.hpp.

    A covariance operand is a value here: its nested matrix, current (nested_object() synchronises first,
    Covariance.hpp l.1091-1099; CovModel.v treats the synchronisation).  Scalars are real and exact; all
    coefficients are Euclidean (no wrapping of means); triangular storage is lower; the compile-time shortcuts
    for zero, identity and diagonal arguments are left out (they return the same values).  [None] is an
    exception or a division by zero. *)
From mathcomp Require Import all_ssreflect all_algebra.
From Verif Require Import MatBase LibModel.
Set Implicit Arguments.
Unset Strict Implicit.
Unset Printing Implicit Defensive.
Import GRing.Theory Num.Theory Order.Theory.
Local Open Scope ring_scope.

Section Gauss.
Variable R : rcfType.
Variable L : lib R.

(** A Covariance with a self-adjoint nested matrix, or ("cholesky_form") with a lower-triangular one. *)
Inductive cval n := Dense of 'M[R]_n | Chol of 'M[R]_n.

(** get_self_adjoint_nested_matrix(): CovarianceImpl.hpp, get_nested_matrix_impl<false>. *)
Definition self_adj n (c : cval n) : 'M[R]_n :=
  match c with Dense P => P | Chol T => T *m T^T end.

(** square_root(): Covariance.hpp l.526-585: the nested triangle, or cholesky_factor of the nested matrix. *)
Definition sqrt_of n (c : cval n) : 'M[R]_n :=
  match c with Dense P => lchol L P | Chol T => T end.

(** Construction of a self-adjoint matrix from a square matrix: only the lower triangle is significant
    (Covariance.hpp l.130-167; to_covariance_nestable.hpp, to_hermitian). *)
Definition sa_lower n (M : 'M[R]_n) : 'M[R]_n := \matrix_(i, j) if (j <= i)%N then M i j else M j i.

(** operator+: covariance-arithmetic.hpp l.55-111. *)
Definition c_add n (a b : cval n) : cval n :=
  match a, b with
  | Chol T1, Chol T2 => Chol (llq L (row_mx T1 T2))
  | _, _ => Dense (self_adj a + self_adj b)
  end.

(** operator-: l.126-175. *)
Definition c_sub n (a b : cval n) : option (cval n) :=
  match a, b with
  | Chol T1, Chol T2 => match lrank L T1 T2 (-1) with Some T' => Some (Chol T') | None => None end
  | _, _ => Some (Dense (self_adj a - self_adj b))
  end.

(** Covariance * scalar: l.317-366, and scalar * covariance, l.378-381 (which swaps the arguments). *)
Definition c_mul n (a : cval n) (s : R) : option (cval n) :=
  match a with
  | Dense P => Some (Dense (s *: P))
  | Chol T =>
      if 0 < s then Some (Chol (Num.sqrt s *: T))
      else if s < 0 then match lrank L 0 T s with Some T' => Some (Chol T') | None => None end
      else Some (Chol 0)
  end.

(** Covariance / scalar: l.393-442. *)
Definition c_div n (a : cval n) (s : R) : option (cval n) :=
  match a with
  | Dense P => if s == 0 then None else Some (Dense (s^-1 *: P))
  | Chol T =>
      if 0 < s then Some (Chol ((Num.sqrt s)^-1 *: T))
      else if s < 0 then match lrank L 0 T (s^-1) with Some T' => Some (Chol T') | None => None end
      else None
  end.

(** scale(covariance, scalar): l.518-532; inverse_scale: l.543-557. *)
Definition c_scale n (a : cval n) (s : R) : cval n :=
  match a with Dense P => Dense ((s * s) *: P) | Chol T => Chol (s *: T) end.

Definition c_inv_scale n (a : cval n) (s : R) : option (cval n) :=
  if s == 0 then None else
  Some (match a with Dense P => Dense ((s * s)^-1 *: P) | Chol T => Chol (s^-1 *: T) end).

(** scale(covariance, matrix): l.578-616. *)
Definition c_scale_mx n m (c : cval n) (A : 'M[R]_(m, n)) : cval m :=
  match c with
  | Dense P => Dense (sa_lower (A *m (P *m A^T)))
  | Chol T => Chol (llq L (A *m T))
  end.

(** concatenate(covariance, covariance): covariance-overloads.hpp l.220-241, two operands of the same form (the
    type of the result is that of the first operand; other combinations do not compile or are not modelled). *)
Definition c_concat n m (a : cval n) (b : cval m) : option (cval (n + m)) :=
  match a, b with
  | Dense P, Dense Q => Some (Dense (block_mx P 0 0 Q))
  | Chol T1, Chol T2 => Some (Chol (block_mx T1 0 0 T2))
  | _, _ => None
  end.

(** split_diagonal(covariance) into two blocks: covariance-overloads.hpp l.244-330 (blocks of the nested matrix; a
    one-dimensional block of a Cholesky-form covariance is squared first, which represents the same value). *)
Definition c_split n m (c : cval (n + m)) : cval n * cval m :=
  match c with
  | Dense P => (Dense (ulsubmx P), Dense (drsubmx P))
  | Chol T => (Chol (ulsubmx T), Chol (drsubmx T))
  end.

(** ** Products of square-root covariances with scalars.

    A result is a Covariance or a SquareRootCovariance; here the operand is always the latter, stored as its
    triangle ([SqTri]) or as the self-adjoint square ([SqSelf]). *)
Inductive sqval n := SqTri of 'M[R]_n | SqSelf of 'M[R]_n.
Inductive anycov n := IsCov of cval n | IsSqrt of sqval n.

(** The matrix that reading the elements of the object gives (CovarianceImpl.hpp: a Covariance reads as its self-adjoint
    matrix, a SquareRootCovariance as its triangular matrix). *)
Definition reads_as n (x : anycov n) : 'M[R]_n :=
  match x with
  | IsCov c => self_adj c
  | IsSqrt (SqTri T) => T
  | IsSqrt (SqSelf P) => lchol L P
  end.

(** operator*(covariance, scalar) with a triangular_covariance argument: covariance-arithmetic.hpp l.326-331 and l.355-359:
    both branches build the result with make_covariance.  (As written, the first branch uses a non-constant template
    argument and does not compile; it is modelled as if that argument were constexpr.) *)
Definition sq_mul n (x : sqval n) (s : R) : anycov n :=
  match x with
  | SqTri T => IsCov (Chol (s *: T))
  | SqSelf P => IsCov (Dense ((s * s) *: P))
  end.

(** operator/(covariance, scalar) likewise: l.399-404 and l.430-434. *)
Definition sq_div n (x : sqval n) (s : R) : option (anycov n) :=
  if s == 0 then None else
  Some (match x with
        | SqTri T => IsCov (Chol (s^-1 *: T))
        | SqSelf P => IsCov (Dense ((s * s)^-1 *: P))
        end).

(** scale(square-root covariance, scalar): l.518-532, which builds the result with the argument's own type. *)
Definition sq_scale n (x : sqval n) (s : R) : anycov n :=
  match x with
  | SqTri T => IsSqrt (SqTri (s *: T))
  | SqSelf P => IsSqrt (SqSelf ((s * s) *: P))
  end.

(** ** Gaussian distributions. *)

Record gd n := GD { gmean : 'cV[R]_n; gcov : cval n }.

(** operator+, operator-, matrix * distribution, distribution * scalar (and scalar * distribution), distribution / scalar:
    GaussianDistribution.hpp l.963-1056. *)
Definition g_add n (a b : gd n) : gd n := GD (gmean a + gmean b) (c_add (gcov a) (gcov b)).

Definition g_sub n (a b : gd n) : option (gd n) :=
  match c_sub (gcov a) (gcov b) with Some c => Some (GD (gmean a - gmean b) c) | None => None end.

Definition g_mulmx n m (A : 'M[R]_(m, n)) (d : gd n) : gd m := GD (A *m gmean d) (c_scale_mx (gcov d) A).

Definition g_mul n (d : gd n) (s : R) : gd n := GD (s *: gmean d) (c_scale (gcov d) s).

Definition g_div n (d : gd n) (s : R) : option (gd n) :=
  match c_inv_scale (gcov d) s with Some c => Some (GD (s^-1 *: gmean d) c) | None => None end.

(** concatenate(distribution, distribution): l.881-894; split: l.919-934. *)
Definition g_concat n m (a : gd n) (b : gd m) : option (gd (n + m)) :=
  match c_concat (gcov a) (gcov b) with
  | Some c => Some (GD (col_mx (gmean a) (gmean b)) c)
  | None => None
  end.

Definition g_split n m (d : gd (n + m)) : gd n * gd m :=
  let c := c_split (gcov d) in
  (GD (usubmx (gmean d)) c.1, GD (dsubmx (gmean d)) c.2).

End Gauss.
