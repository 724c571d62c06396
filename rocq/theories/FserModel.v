(** * Model: the series of exp, expm1, sin and cos in IEEE 754 binary arithmetic.

    Directory: /repo/OpenKalman/values/math.  The operations are those of FloatModel.v: each rounds to nearest, ties to even.
    [int] has 32 bits and [std::intmax_t] 64; signed overflow and a conversion to an integer type that cannot hold the value
    are undefined behaviour ([FUB]).  Recursive calls are cut off after [fuel] rounds ([FRunning]).
    [e] and [pi] are the constants e_v<T> and pi_v<T>.  Arguments are of the returned type. *)
From Coq Require Import ZArith Bool List.
From Flocq Require Import Core.Zaux Core.FLX IEEE754.BinarySingleNaN.
From Verif Require Import FloatModel.
Local Open Scope Z_scope.

Definition int_max : Z := 2 ^ 31 - 1.

Section Format.
Context {prec emax : Z} {Hp : Prec_gt_0 prec} {Hx : Prec_lt_emax prec emax}.
Notation fl := (binary_float prec emax).

(** ** internal/exp_utils.hpp l.23-29: exp_impl. *)
Fixpoint exp_series (fuel : nat) (i : Z) (x sum term : fl) : fres fl :=
  let new_sum := fadd sum term in
  if feq sum new_sum then FVal sum
  else match fuel with
       | O => FRunning
       | S f => if i + 1 <=? int_max then exp_series f (i + 1) x new_sum (fdiv (fmul term x) (of_Z (i + 1))) else FUB
       end.

(** ** l.32-41: integral_exp for [int]; [fuel] bounds the depth of the recursion. *)
Fixpoint integral_exp (fuel : nat) (e : fl) (x : Z) : fres fl :=
  if x =? 0 then FVal (of_Z 1)
  else if x =? 1 then FVal e
  else match fuel with
       | O => FRunning
       | S f =>
           if x <? 0 then (if - x <=? int_max then fbind (integral_exp f e (- x)) (fun y => FVal (fdiv (of_Z 1) y)) else FUB)
           else if Z.rem x 2 =? 1 then fbind (integral_exp f e (x - 1)) (fun y => FVal (fmul e y))
           else fbind (integral_exp f e (Z.quot x 2)) (fun y => FVal (fmul y y))
       end.

(** static_cast<int>(arg) - (arg < 0 ? 1 : 0). *)
Definition truncated (arg : fl) : fres Z :=
  let n := Btrunc arg in
  if is_finite arg && (- 2 ^ 31 <=? n) && (n <=? int_max) then
    let m := n - (if flt arg fzero then 1 else 0) in
    if - 2 ^ 31 <=? m then FVal m else FUB
  else FUB.

(** ** exp.hpp l.78-95. *)
Definition fexp (fuel : nat) (e arg : fl) : fres fl :=
  if isnan arg then FVal B754_nan
  else if feq arg (B754_infinity false) then FVal (B754_infinity false)
  else if feq arg (B754_infinity true) then FVal fzero
  else if feq arg fzero then FVal (of_Z 1)
  else if flt fzero arg && flt arg (of_Z 1) then exp_series fuel 1 arg (of_Z 1) arg
  else
    fbind (truncated arg) (fun n =>
    let frac := fsub arg (of_Z n) in
    fbind (integral_exp fuel e n) (fun a => fbind (exp_series fuel 1 frac (of_Z 1) frac) (fun b => FVal (fmul a b)))).

(** ** expm1.hpp l.74-99. *)
Definition fexpm1 (fuel : nat) (e arg : fl) : fres fl :=
  if isnan arg then FVal B754_nan
  else if feq arg (B754_infinity false) then FVal (B754_infinity false)
  else if feq arg (B754_infinity true) then FVal (of_Z (-1))
  else if fle fzero arg && flt arg (of_Z 1) then
    if feq arg fzero then FVal arg else exp_series fuel 1 arg fzero arg
  else
    fbind (truncated arg) (fun n =>
    let frac := fsub arg (of_Z n) in
    fbind (integral_exp fuel e n) (fun a => fbind (exp_series fuel 1 frac fzero frac) (fun er =>
    let et := fsub a (of_Z 1) in FVal (fadd (fadd (fmul et er) et) er)))).

(** ** internal/periodic_utils.hpp l.25-32: sin_cos_impl. *)
Fixpoint sin_cos_series (fuel : nat) (i : Z) (x sum term : fl) : fres fl :=
  let new_sum := fadd sum term in
  if feq sum new_sum then FVal sum
  else match fuel with
       | O => FRunning
       | S f =>
           if i * (i + 1) <=? 2 ^ 31 then
             sin_cos_series f (i + 2) x new_sum (fdiv (fmul (fmul term x) x) (of_Z (- (i * (i + 1)))))
           else FUB
       end.

(** ** l.53, 59: the loops that double corr. *)
Fixpoint correction (fuel : nat) (pi2 theta corr : fl) : fres fl :=
  match fuel with
  | O => FRunning
  | S f =>
      if flt fzero theta then
        (if flt (of_Z (2 ^ 63 - 1)) (fdiv (fsub theta corr) pi2) then correction f pi2 theta (fmul corr (of_Z 2)) else FVal corr)
      else
        (if flt (fdiv (fadd theta corr) pi2) (of_Z (- 2 ^ 63)) then correction f pi2 theta (fmul corr (of_Z 2)) else FVal corr)
  end.
(** ** l.36-62: scale_periodic_function. *)
Fixpoint scale_periodic (fuel : nat) (pi theta : fl) : fres fl :=
  let pi2 := fmul pi (of_Z 2) in
  let q := fdiv theta pi2 in
  if flt (Bopp pi2) theta && flt theta pi2 then FVal theta
  else if fle (of_Z (- 2 ^ 63)) q && fle q (of_Z (2 ^ 63 - 1)) then
    let n := Btrunc q in
    if (- 2 ^ 63 <=? n) && (n <=? 2 ^ 63 - 1) && is_finite q then FVal (fsub theta (fmul (of_Z n) pi2)) else FUB
  else match fuel with
       | O => FRunning
       | S f => fbind (correction f pi2 theta pi2) (fun corr =>
                  scale_periodic f pi (if flt fzero theta then fsub theta corr else fadd theta corr))
       end.

(** ** sin.hpp l.70-72, cos.hpp l.70-72. *)
Definition sin_series (fuel : nat) (theta : fl) : fres fl :=
  sin_cos_series fuel 4 theta theta (fdiv (fmul (fmul theta theta) theta) (of_Z (-6))).
Definition cos_series (fuel : nat) (theta : fl) : fres fl :=
  sin_cos_series fuel 3 theta (of_Z 1) (fmul (fmul (of_me (-1) (-1)) theta) theta).
Definition fsin (fuel : nat) (pi arg : fl) : fres fl :=
  if isinf arg || isnan arg then FVal B754_nan else fbind (scale_periodic fuel pi arg) (sin_series fuel).
Definition fcos (fuel : nat) (pi arg : fl) : fres fl :=
  if isinf arg || isnan arg then FVal B754_nan else fbind (scale_periodic fuel pi arg) (cos_series fuel).
End Format.
