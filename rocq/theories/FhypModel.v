(** * Model: the hyperbolic functions and their inverses in IEEE 754 binary arithmetic.

    Directory: /repo/OpenKalman/values/math.  Operations and outcomes as in FloatModel.v; exp, log and sqrt are the library's
    own ([fexp], [flog], [fsqrt]).  [e] and [ln2] are the constants e_v<T> and ln2_v<T>.  Real arguments of the returned type. *)
From Coq Require Import ZArith Bool.
From Flocq Require Import Core.Zaux Core.FLX IEEE754.BinarySingleNaN.
From Verif Require Import FloatModel FserModel FlogModel.
Local Open Scope Z_scope.

Section Format.
Context {prec emax : Z} {Hp : Prec_gt_0 prec} {Hx : Prec_lt_emax prec emax}.
Notation fl := (binary_float prec emax).

(** ** sinh.hpp l.79-83. *)
Definition fsinh (fuel : nat) (e arg : fl) : fres fl :=
  if isnan arg then FVal B754_nan
  else if feq arg fzero then FVal arg
  else if isinf arg then FVal (fcopysign (B754_infinity false) arg)
  else fbind (fexp fuel e arg) (fun ex => FVal (fmul (fsub ex (fdiv (of_Z 1) ex)) half)).

(** ** cosh.hpp l.75-78. *)
Definition fcosh (fuel : nat) (e arg : fl) : fres fl :=
  if isnan arg then FVal B754_nan
  else if isinf arg then FVal (B754_infinity false)
  else fbind (fexp fuel e arg) (fun ex => FVal (fmul (fadd ex (fdiv (of_Z 1) ex)) half)).

(** ** tanh.hpp l.74-84. *)
Definition ftanh (fuel : nat) (e arg : fl) : fres fl :=
  if isnan arg then FVal B754_nan
  else if feq arg (B754_infinity false) then FVal (of_Z 1)
  else if feq arg (B754_infinity true) then FVal (of_Z (-1))
  else if feq arg fzero then FVal arg
  else fbind (fexp fuel e arg) (fun ex =>
    let ex2 := fmul ex ex in FVal (fdiv (fsub ex2 (of_Z 1)) (fadd ex2 (of_Z 1)))).

(** ** asinh.hpp l.69-76. *)
Definition fasinh (fuel : nat) (e ln2 arg : fl) : fres fl :=
  if isnan arg then FVal B754_nan
  else if feq arg fzero then FVal arg
  else if feq arg (B754_infinity false) then FVal (B754_infinity false)
  else if feq arg (B754_infinity true) then FVal (B754_infinity true)
  else fbind (fsqrt fuel (fadd (fmul arg arg) (of_Z 1))) (fun s => flog fuel e ln2 (fadd arg s)).

(** ** acosh.hpp l.72-78. *)
Definition facosh (fuel : nat) (e ln2 arg : fl) : fres fl :=
  if isnan arg then FVal B754_nan
  else if feq arg (of_Z 1) then FVal fzero
  else if feq arg (B754_infinity false) then FVal arg
  else if flt arg (of_Z 1) then FVal B754_nan
  else fbind (fsqrt fuel (fsub (fmul arg arg) (of_Z 1))) (fun s => flog fuel e ln2 (fadd arg s)).

(** ** atanh.hpp l.68-77. *)
Definition fatanh (fuel : nat) (e ln2 arg : fl) : fres fl :=
  if isnan arg then FVal B754_nan
  else if flt arg (of_Z (-1)) || flt (of_Z 1) arg then FVal B754_nan
  else if feq arg (of_Z 1) then FVal (B754_infinity false)
  else if feq arg (of_Z (-1)) then FVal (B754_infinity true)
  else if feq arg fzero then FVal arg
  else fbind (flog fuel e ln2 (fdiv (fadd (of_Z 1) arg) (fsub (of_Z 1) arg))) (fun l => FVal (fmul half l)).

End Format.
