(** * Specification: accuracy of the constexpr log1p. *)
From Coq Require Import ZArith Reals.
From Verif Require Import FserSpec FlogSpec.
Local Open Scope R_scope.

(** The absolute error allowed for log1p: that of log, and three units for the rounding of 1 + x. *)
Definition log1p_accuracy (prec : Z) (x : R) : R := log_accuracy prec (1 + x) + 3 * unit_error prec.
(** Between -1/8 and 1/8 the error is relative to x. *)
Definition log1p_relative_accuracy (prec : Z) : R := (5 * IZR prec + 17) * unit_error prec.
