(** * What cholesky_factor should do, and what Eigen's decompositions promise. *)
From mathcomp Require Import all_ssreflect all_algebra.
From Verif Require Import ShortModel ShortSpec LdltModel.
Set Implicit Arguments.
Unset Strict Implicit.
Unset Printing Implicit Defensive.
Import GRing.Theory Num.Theory Order.Theory.
Local Open Scope ring_scope.

Section Spec.
Variable R : rcfType.
Implicit Types m : mat R.

Definition quadratic_form m (v : nat -> R) : R :=
  \sum_(i < mrows m) \sum_(j < mcols m) v i * mat_at m i j * v j.

Definition semidefinite m : Prop := symmetric m /\ forall v, 0 <= quadratic_form m v.
Definition definite m : Prop :=
  symmetric m /\ forall v i, (i < mrows m)%N -> v i != 0 -> 0 < quadratic_form m v.
Definition indefinite m : Prop :=
  symmetric m /\ (exists v, quadratic_form m v < 0) /\ (exists v, 0 < quadratic_form m v).

(** The symmetric matrix a triangle stands for. *)
Definition symmetric_of (lower : bool) (n : nat) (f : nat -> nat -> R) : mat R :=
  Mat n n (fun i j => if lower then (if (j <= i)%N then f i j else f j i) else (if (i <= j)%N then f i j else f j i)).

Definition triangle_of (lower : bool) (n : nat) (f : nat -> nat -> R) : mat R :=
  Mat n n (fun i j => if lower then (if (j <= i)%N then f i j else 0) else (if (i <= j)%N then f i j else 0)).

(** Eigen's LLT succeeds exactly on positive definite matrices and returns their factor. *)
Definition llt_contract (llt : bool -> nat -> (nat -> nat -> R) -> option (nat -> nat -> R)) : Prop :=
  forall al n f,
  match llt al n f with
  | Some g => definite (symmetric_of al n f) /\
      same (if al then product (triangle_of al n g) (transposed (triangle_of al n g))
            else product (transposed (triangle_of al n g)) (triangle_of al n g)) (symmetric_of al n f)
  | None => ~ definite (symmetric_of al n f)
  end.

(** Eigen's LDLT, when it reports success: P A P^T = L D L^T with L unit lower triangular and the zeros of D at the
    bottom right; isPositive and isNegative report the signs of D. *)
Definition ldlt_contract (ldlt : nat -> (nat -> nat -> R) -> ldlt R) : Prop :=
  forall n f, let x := ldlt n f in let a := symmetric_of true n f in lok x ->
  [/\ (forall i, (i < n)%N -> (lperm x i < n)%N) /\ (forall i j, (i < n)%N -> (j < n)%N -> lperm x i = lperm x j -> i = j),
      (forall i j, (i < n)%N -> (j < n)%N -> lL x i j = if i == j then 1 else if (i < j)%N then 0 else lL x i j),
      (forall i j, (i < n)%N -> (j < n)%N -> mat_at a (lperm x i) (lperm x j) = \sum_(k < n) lL x i k * lD x k * lL x j k),
      (forall i j, (i < j)%N -> (j < n)%N -> lD x i = 0 -> lD x j = 0) &
      lpos x = all (fun i => 0 <= lD x i) (iota 0 n) /\ lneg x = all (fun i => lD x i <= 0) (iota 0 n)].

(** Rows and columns in another order. *)
Definition permuted (p : nat -> nat) m : mat R := Mat (mrows m) (mcols m) (fun i j => mat_at m (p i) (p j)).

(** A lower (upper) triangular matrix was asked for. *)
Definition shaped (tl : bool) (t : obj R) : Prop :=
  if tl then lower_triangular (value t) else upper_triangular (value t).

(** The factor exists, has the shape asked for and squares back to [m]. *)
Definition factors_into (tl : bool) (r : res (obj R)) m : Prop :=
  exists t, [/\ r = Val t, shaped tl t & returns (cholesky_square t) m].

End Spec.
