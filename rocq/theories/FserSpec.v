(** * Specification: accuracy of the constexpr exp, expm1, sin and cos. *)
From Coq Require Import ZArith Reals.
From Flocq Require Import Core.
Local Open Scope R_scope.

(** Formats covered: float (24, 128), double (53, 1024), x87 long double (64, 16384) and binary128 (113, 16384) among others. *)
Definition supported (prec emax : Z) : Prop := (8 <= prec /\ 65 <= emax /\ prec + 40 <= emax /\ emax + prec <= 20000)%Z.

Section Acc.
Variable prec : Z.
(** Half the gap above 1. *)
Definition unit_error : R := bpow radix2 (- prec).
(** A constant between 2 and 4 within half a unit in the last place. *)
Definition best_constant (c x : R) : Prop := Rabs (c - x) <= 2 * unit_error.
(** The relative error allowed for exp. *)
Definition exp_accuracy (x : R) : R := (8 * IZR prec + 4 * Rabs x + 73) * unit_error.
(** For expm1, relative to exp x + 1; for x >= 0, relative to exp x - 1. *)
Definition expm1_accuracy (x : R) : R := (11 * IZR prec + 7 * Rabs x + 155) * unit_error.
Definition expm1_relative (x : R) : R := (25 * IZR prec + 16 * Rabs x + 350) * unit_error.
(** The absolute errors allowed for sin and cos; for sin near zero, relative to x. *)
Definition angle_accuracy (x : R) : R := (2400 * IZR prec + 194000 + 4 * Rabs x) * unit_error.
Definition angle_accuracy_near : R := (25 * IZR prec + 241) * unit_error.
Definition sin_relative : R := (5 * IZR prec + 18) * unit_error.
End Acc.
