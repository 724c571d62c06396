(** * Model: log in IEEE 754 binary arithmetic.

    Directory: /repo/OpenKalman/values/math.  Operations and outcomes as in FserModel.v, whose [fexp] is the library's own
    exp.  [e] and [ln2] are the constants e_v<T> and ln2_v<T>.  [fuel] bounds the rounds of every loop.  Real arguments of
    the returned type. *)
From Coq Require Import ZArith Bool List.
From Flocq Require Import Core.Zaux Core.FLX IEEE754.BinarySingleNaN.
From Verif Require Import FloatModel FserModel.
Local Open Scope Z_scope.

Section Format.
Context {prec emax : Z} {Hp : Prec_gt_0 prec} {Hx : Prec_lt_emax prec emax}.
Notation fl := (binary_float prec emax).

(** ** internal/log_utils.hpp l.26-41: log_impl for real numbers; the recursion is a loop of at most [n] rounds after the
    first. *)
Fixpoint log_impl (n fuel : nat) (e x y0 : fl) (cmp : Z) : fres fl :=
  fbind (fexp fuel e y0) (fun expy0 =>
  let y1 := fadd y0 (fdiv (fmul (of_Z 2) (fsub x expy0)) (fadd x expy0)) in
  if feq y1 y0 || ((cmp <? 0) && flt y0 y1) || ((0 <? cmp) && flt y1 y0) then FVal y1
  else match n with
       | O => FRunning
       | S n => log_impl n fuel e x y1 (if flt y0 y1 then 1 else if flt y1 y0 then -1 else 0)
       end).

(** ** l.44-51. *)
Fixpoint log_scaling_gt (n : nat) (ln2 x corr : fl) : fres (fl * fl) :=
  if flt x (of_me 1 4) then FVal (x, corr)
  else match n with
       | O => FRunning
       | S n =>
           if flt x (of_me 1 16) then log_scaling_gt n ln2 (fmul x (of_me 1 (-4))) (fadd corr (fmul (of_Z 4) ln2))
           else if flt x (of_me 1 64) then log_scaling_gt n ln2 (fmul x (of_me 1 (-16))) (fadd corr (fmul (of_Z 16) ln2))
           else log_scaling_gt n ln2 (fmul x (of_me 1 (-64))) (fadd corr (fmul (of_Z 64) ln2))
       end.
(** ** l.54-61. *)
Fixpoint log_scaling_lt (n : nat) (ln2 x corr : fl) : fres (fl * fl) :=
  if flt (of_me 1 (-4)) x then FVal (x, corr)
  else match n with
       | O => FRunning
       | S n =>
           if flt (of_me 1 (-16)) x then log_scaling_lt n ln2 (fmul x (of_me 1 4)) (fsub corr (fmul (of_Z 4) ln2))
           else if flt (of_me 1 (-64)) x then log_scaling_lt n ln2 (fmul x (of_me 1 16)) (fsub corr (fmul (of_Z 16) ln2))
           else log_scaling_lt n ln2 (fmul x (of_me 1 64)) (fsub corr (fmul (of_Z 64) ln2))
       end.

(** ** log.hpp l.75-84. *)
Definition flog (fuel : nat) (e ln2 arg : fl) : fres fl :=
  if isnan arg then FVal B754_nan
  else if feq arg (B754_infinity false) then FVal (B754_infinity false)
  else if feq arg (of_Z 1) then FVal fzero
  else if feq arg fzero then FVal (B754_infinity true)
  else if flt arg fzero then FVal B754_nan
  else
    fbind (if fle (of_Z 16) arg then log_scaling_gt fuel ln2 arg fzero else log_scaling_lt fuel ln2 arg fzero) (fun sc =>
    fbind (log_impl fuel fuel e (fst sc) fzero 0) (fun l => FVal (fadd l (snd sc)))).

End Format.
