(** * Specification: sample moments. *)
From mathcomp Require Import all_ssreflect all_algebra.
Set Implicit Arguments.
Unset Strict Implicit.
Unset Printing Implicit Defensive.
Import GRing.Theory Num.Theory.
Local Open Scope ring_scope.

Section Spec.
Variable R : rcfType.

(** The average of a quantity over a sample. *)
Definition average T k (s : seq T) (f : T -> 'cV[R]_k) : 'cV[R]_k := (size s)%:R^-1 *: \sum_(d <- s) f d.

(** The unbiased sample covariance of two quantities. *)
Definition sample_cov T k l (s : seq T) (f : T -> 'cV[R]_k) (g : T -> 'cV[R]_l) : 'M[R]_(k, l) :=
  ((size s)%:R - 1)^-1 *: \sum_(d <- s) (f d - average s f) *m (g d - average s g)^T.

End Spec.
