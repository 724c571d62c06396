(** * Model: pow in IEEE 754 binary arithmetic.

    File: /repo/OpenKalman/values/math/pow.hpp.  Operations and outcomes as in FloatModel.v; exp and log are the library's own
    ([fexp], [flog]).  Real base and returned type alike; the integral exponent is an int of 32 bits, the other exponent is of
    the type of the base. *)
From Coq Require Import ZArith Bool.
From Flocq Require Import Core.Zaux Core.FLX IEEE754.BinarySingleNaN.
From Verif Require Import FloatModel FserModel FlogModel.
Local Open Scope Z_scope.

Section Format.
Context {prec emax : Z} {Hp : Prec_gt_0 prec} {Hx : Prec_lt_emax prec emax}.
Notation fl := (binary_float prec emax).
Notation inf := (B754_infinity false).
Notation minf := (B754_infinity true).

(** ** l.42-73: pow_integral for a base other than zero and a positive exponent (l.52-58, l.66-72; l.44-47 ends the recursion). *)
Fixpoint pow_pos (arg : fl) (p : positive) : fl :=
  match p with
  | xH => fmul arg (of_Z 1)
  | xO q => fmul (pow_pos arg q) (pow_pos arg q)
  | xI q => fmul arg (fmul (pow_pos arg q) (pow_pos arg q))
  end.
(** l.42-73.  l.48-51 negate the exponent, which has no negation if it is the least int; l.59-65 are reached with zero only. *)
Definition pow_integral (arg : fl) (n : Z) : fres fl :=
  match n with
  | Z0 => FVal (of_Z 1)
  | Zpos p => if feq arg fzero then FVal (if Z.rem n 2 =? 1 then arg else fzero) else FVal (pow_pos arg p)
  | Zneg p =>
      if n =? - 2 ^ 31 then FUB
      else if feq arg fzero then FVal (if Z.rem (- n) 2 =? 1 then fcopysign inf arg else inf)
      else FVal (fdiv (of_Z 1) (pow_pos arg p))
  end.

(** ** l.120-141. *)
Definition fpow_int (arg : fl) (n : Z) : fres fl :=
  if feq arg (of_Z 1) then FVal (of_Z 1)
  else if n =? 0 then FVal (of_Z 1)
  else if isnan arg then FVal B754_nan
  else if Z.rem n 2 =? 1 then
    if feq arg minf then FVal minf else if feq arg inf then FVal inf else pow_integral arg n
  else if n =? - 2 ^ 31 then FUB
  else if Z.rem (- n) 2 =? 1 then
    if feq arg minf then FVal (B754_zero true) else if feq arg inf then FVal fzero else pow_integral arg n
  else if feq arg minf || feq arg inf then FVal (if 0 <? n then inf else fzero)
  else pow_integral arg n.

(** ** l.166-198. *)
Definition fpow (fuel : nat) (e ln2 arg ex : fl) : fres fl :=
  if feq arg (of_Z 1) then FVal (of_Z 1)
  else if isinf arg then FVal (if flt ex fzero then fzero else inf)
  else if feq ex minf then
    FVal (if flt (of_Z (-1)) arg && flt arg (of_Z 1) then inf else if flt arg (of_Z (-1)) || flt (of_Z 1) arg then fzero else of_Z 1)
  else if feq ex inf then
    FVal (if flt (of_Z (-1)) arg && flt arg (of_Z 1) then fzero else if flt arg (of_Z (-1)) || flt (of_Z 1) arg then inf else of_Z 1)
  else if flt fzero arg then
    if feq ex (of_Z 1) then FVal arg
    else fbind (flog fuel e ln2 arg) (fun l => fexp fuel e (fmul l ex))
  else if feq arg fzero then FVal (if flt ex fzero then inf else fzero)
  else FVal B754_nan.

End Format.
