(** * Specification: accuracy of the constexpr pow. *)
From Coq Require Import ZArith Reals.
From Flocq Require Import Core.
From Verif Require Import FserSpec FlogSpec.
Local Open Scope R_scope.

(** A power and its reciprocal are well within the range of the format. *)
Definition power_in_range (emax : Z) (z : R) : Prop := bpow radix2 (3 - emax) <= Rabs z <= bpow radix2 (emax - 3).
(** The relative error allowed for an integral exponent. *)
Definition power_accuracy (prec n : Z) : R := (11 / 10 * IZR (Z.abs n) + 2) * unit_error prec.
(** The relative error allowed for x to the power p. *)
Definition real_power_accuracy (prec : Z) (x p : R) : R :=
  (9 * IZR prec + 6 * Rabs (p * ln x) + 90) * unit_error prec + 11 / 10 * Rabs p * log_accuracy prec x.
