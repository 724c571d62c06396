(** * Model: log1p in IEEE 754 binary arithmetic.

    File: /repo/OpenKalman/values/math/log1p.hpp.  Operations, outcomes and constants as in FlogModel.v.  Real arguments of the
    returned type. *)
From Coq Require Import ZArith Bool.
From Flocq Require Import Core.Zaux Core.FLX IEEE754.BinarySingleNaN.
From Verif Require Import FloatModel FserModel FlogModel.
Local Open Scope Z_scope.

Section Format.
Context {prec emax : Z} {Hp : Prec_gt_0 prec} {Hx : Prec_lt_emax prec emax}.
Notation fl := (binary_float prec emax).

(** ** log1p.hpp l.40-47: Taylor's series; the recursion is a loop of at most [fuel] rounds.  Overflow of the counter [n] is not
    modelled. *)
Fixpoint log1p_impl (fuel : nat) (n : Z) (x sum term : fl) : fres fl :=
  let next_sum := fadd sum (fdiv (fmul x term) (of_Z n)) in
  if feq sum next_sum then FVal sum
  else match fuel with
       | O => FRunning
       | S fuel => log1p_impl fuel (n + 1) x next_sum (fmul term (Bopp x))
       end.

(** ** log1p.hpp l.86-97. *)
Definition flog1p (fuel : nat) (e ln2 arg : fl) : fres fl :=
  if isnan arg then FVal B754_nan
  else if feq arg (B754_infinity false) then FVal arg
  else if feq arg fzero then FVal arg
  else if feq arg (of_Z (-1)) then FVal (B754_infinity true)
  else if flt arg (of_Z (-1)) then FVal B754_nan
  else if flt (of_me (-1) (-3)) arg && flt arg (of_me 1 (-3)) then log1p_impl fuel 2 arg arg (Bopp arg)
  else
    fbind (if fle (of_Z 16) arg then log_scaling_gt fuel ln2 (fadd arg (of_Z 1)) fzero
           else log_scaling_lt fuel ln2 (fadd arg (of_Z 1)) fzero) (fun sc =>
    fbind (log_impl fuel fuel e (fst sc) fzero 0) (fun l => FVal (fadd l (snd sc)))).

End Format.
