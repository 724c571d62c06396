(** * Specification: comparison up to a tolerance. *)
From Coq Require Import ZArith Reals.
From Flocq Require Import Core.
Local Open Scope R_scope.

(** The numbers differ by no more than [t]. *)
Definition within (t x y : R) : Prop := Rabs (x - y) <= t.
(** The distance from 1 to the next number with [prec] binary digits. *)
Definition machine_epsilon (prec : Z) : R := bpow radix2 (1 - prec).
(** The values of the type unsigned int. *)
Definition unsigned_value (n : Z) : Prop := (0 <= n < 2 ^ 32)%Z.
(** The values of the type int. *)
Definition int_value (n : Z) : Prop := (- 2 ^ 31 <= n < 2 ^ 31)%Z.
(** The square of the absolute value of a complex number, given by its parts. *)
Definition square_modulus (re im : R) : R := re * re + im * im.
