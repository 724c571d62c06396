(** * Model: log-likelihood, entropy and random draws of a Gaussian distribution.

    File: /repo/OpenKalman/distributions/GaussianDistribution.hpp.  Scalars are the real numbers, coefficients are
    Euclidean; [None] is a result that is not a finite number (the logarithm of a determinant that is not positive). *)
From Coq Require Import Reals.
From mathcomp Require Import all_ssreflect all_algebra.
From Verif Require Import RealField MatBase LibModel GaussModel KalmanModel.
Set Implicit Arguments.
Unset Strict Implicit.
Unset Printing Implicit Defensive.
Import GRing.Theory.
Local Open Scope ring_scope.
Delimit Scope R_scope with coqR.

Notation RR := R_rcfType.

(** determinant(sigma): CovarianceImpl::determinant, linear-algebra/adapters/details/CovarianceImpl.hpp l.296-340, for a
    nested matrix that is current: the determinant of a self-adjoint nested matrix, or the square of that of a
    triangular one; linear-algebra/functions/determinant.hpp l.70-74: of a triangular matrix, the product of the
    diagonal. *)
Definition c_det n (c : cval RR n) : R :=
  match c with
  | Dense P => \det P
  | Chol T => let d := \prod_i T i i in Rmult d d
  end.

Section LogLik.
Variable S : solver RR.

(** The sum of trace(transpose(z - mu) * solve(sigma, z - mu)) over the observations: a right fold, l.351. *)
Fixpoint square_sum n (x : gd RR n) (zs : seq 'cV[RR]_n) : R :=
  match zs with
  | [::] => 0
  | [:: z] => \tr ((z - gmean x)^T *m S (self_adj (gcov x)) (z - gmean x))
  | z :: zs' => Rplus (\tr ((z - gmean x)^T *m S (self_adj (gcov x)) (z - gmean x))) (square_sum x zs')
  end.

(** log_likelihood, l.348-354. *)
Definition log_likelihood n (x : gd RR n) (zs : seq 'cV[RR]_n) : option R :=
  let d := c_det (gcov x) in
  if Rlt_dec (IZR 0) d then
    Some (- (1 / 2) * (INR (size zs) * (INR n * ln (2 * PI) + ln d) + square_sum x zs))%coqR
  else None.
End LogLik.

(** log2. *)
Definition log2 (x : R) : R := (ln x / ln 2)%coqR.

(** entropy, l.358-362. *)
Definition entropy n (x : gd RR n) : option R :=
  let d := c_det (gcov x) in
  if Rlt_dec (IZR 0) d then Some (1 / 2 * (INR n * (1 + log2 PI + log2 (exp 1)) + log2 d))%coqR else None.

(** operator()(), l.325-333, where [norm] is the vector of standard normal numbers: triangles are lower. *)
Definition draw (L : lib RR) n (x : gd RR n) (norm : 'cV[RR]_n) : 'cV[RR]_n :=
  gmean x + sqrt_of L (gcov x) *m norm.
