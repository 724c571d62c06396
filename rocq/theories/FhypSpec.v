(** * Specification: accuracy of the constexpr hyperbolic functions. *)
From Coq Require Import ZArith Reals.
From Flocq Require Import Core.
From Verif Require Import FserSpec FlogSpec.
Local Open Scope R_scope.

(** The inverse of the hyperbolic tangent. *)
Definition artanh (x : R) : R := ln ((1 + x) / (1 - x)) / 2.
(** The inverse of the hyperbolic sine. *)
Definition arsinh (x : R) : R := ln (x + sqrt (x * x + 1)).

(** The inverse of the hyperbolic cosine. *)
Definition arcosh (x : R) : R := ln (x + sqrt (x * x - 1)).

Section Acc.
Variable prec : Z.
(** The error allowed for sinh and cosh, relative to cosh x. *)
Definition hyperbolic_accuracy (x : R) : R := (9 * IZR prec + 5 * Rabs x + 90) * unit_error prec.
(** The absolute error allowed for tanh. *)
Definition tanh_accuracy (x : R) : R := (9 * IZR prec + 5 * Rabs x + 90) * unit_error prec.
(** The absolute error allowed for atanh. *)
Definition atanh_accuracy (x : R) : R := (8 * IZR prec + 4 * Rabs (artanh x) + artanh x * artanh x + 120) * unit_error prec.
(** The absolute error allowed for asinh of a number that is not negative, and for acosh of a number from 2, where [l] is the
    value wanted. *)
Definition inverse_accuracy (l : R) : R := (16 * IZR prec + 4 * Rabs l + l * l / 2 + 240) * unit_error prec.
End Acc.
