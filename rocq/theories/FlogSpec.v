(** * Specification: accuracy of the constexpr log. *)
From Coq Require Import ZArith Reals.
From Flocq Require Import Core.
From Verif Require Import FserSpec.
Local Open Scope R_scope.

(** Formats covered: float (24, 128), double (53, 1024), x87 long double (64, 16384) and binary128 (113, 16384) among others. *)
Definition supported_log (prec emax : Z) : Prop := supported prec emax /\ (24 <= prec)%Z.
(** A constant between 1/2 and 1 within one unit in the last place. *)
Definition good_constant (prec : Z) (c x : R) : Prop := Rabs (c - x) <= unit_error prec.
(** The absolute error allowed for log. *)
Definition log_accuracy (prec : Z) (x : R) : R :=
  (16 * IZR prec + 208 + 3 * Rabs (ln x) + ln x * ln x / 2) * unit_error prec.
