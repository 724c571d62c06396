(** * Specification: the Gaussian density. *)
From Coq Require Import Reals.
From mathcomp Require Import all_ssreflect all_algebra.
From Verif Require Import RealField MatBase.
Set Implicit Arguments.
Unset Strict Implicit.
Unset Printing Implicit Defensive.
Import GRing.Theory.
Local Open Scope ring_scope.
Delimit Scope R_scope with coqR.

(** The density at [z] of the Gaussian distribution with mean [mu] and covariance [P]. *)
Definition gauss_density n (mu : 'cV[R_rcfType]_n) (P : 'M[R_rcfType]_n) (z : 'cV[R_rcfType]_n) : R :=
  (exp (- (1 / 2) * qform (invmx P) (z - mu)%R) / sqrt ((2 * PI) ^ n * \det P))%coqR.

(** The sum of a list of reals. *)
Fixpoint total (s : seq R) : R := match s with [::] => IZR 0 | a :: s' => Rplus a (total s') end.
