(** * Specification: what the floating-point theorems say, over the real numbers. *)
From Coq Require Import ZArith Reals.
From Flocq Require Import Core.Zaux Core.Raux Core.FLX Core.FLT Core.Generic_fmt Core.Round_NE IEEE754.BinarySingleNaN.
Local Open Scope R_scope.

(** The half-open range from [lo] to [hi]. *)
Definition half_open (lo hi x : R) : Prop := lo <= x < hi.

(** [x] is [y] plus a whole number of turns, at most [n] of them, up to an error [eps]. *)
Definition same_angle (turn : R) (n : Z) (eps x y : R) : Prop :=
  exists k : Z, (Z.abs k <= n)%Z /\ Rabs (x - (y + IZR k * turn)) <= eps.

Section Format.
Variables prec emax : Z.
(** The nearest number of the format, without a bound on the exponent. *)
Definition nearest (x : R) : R := round radix2 (FLT_exp (3 - emax - prec) prec) ZnearestE x.
(** The gap between consecutive numbers of the format at [x]. *)
Definition gap (x : R) : R := Ulp.ulp radix2 (FLT_exp (3 - emax - prec) prec) x.
(** The smallest positive number, and the smallest normal one. *)
Definition tiny : R := bpow radix2 (3 - emax - prec).
Definition normal : R := bpow radix2 (2 - emax).
End Format.

(** [r] is the number itself, or one of the two floating-point numbers on either side of it with nothing in between. *)
Definition next_to {prec emax} (y : R) (r : binary_float prec emax) : Prop :=
  (B2R r <= y /\ forall x : binary_float prec emax, is_finite x = true -> B2R x <= y -> B2R x <= B2R r) \/
  (y <= B2R r /\ forall x : binary_float prec emax, is_finite x = true -> y <= B2R x -> B2R r <= B2R x).
(** A loop cut off after [fuel] rounds has the outcome [r] for every large enough bound. *)
Definition eventually {A} (run : nat -> A) (r : A) : Prop := exists n, forall fuel, (n <= fuel)%nat -> run fuel = r.

(** What the library's arc cosine must do: a finite value for each argument from -1 to 1. *)
Definition acos_finite {prec emax} (acos : binary_float prec emax -> binary_float prec emax) : Prop :=
  forall t, is_finite t = true -> -1 <= B2R t <= 1 -> is_finite (acos t) = true /\ 0 <= B2R (acos t) <= 4.
(** And not a number for arguments above 1. *)
Definition acos_nan_above_1 {prec emax} (acos : binary_float prec emax -> binary_float prec emax) : Prop :=
  forall t, is_finite t = true -> 1 < B2R t -> acos t = B754_nan.
