(** * Model: the library's own mathematical functions, real arguments.

    Directory: /repo/OpenKalman/values/math.  These are the bodies the library runs when the standard function cannot be
    called (constant evaluation).  Simplifications: arithmetic is exact on the real numbers; the constants pi, e, ln 2,
    sqrt 2 are exact; a loop that runs until two successive values agree returns the limit of those values; the sign of a
    zero is kept only for atan2.  Integers have their C++ ranges.  The fixed (compile-time) and integral-argument
    overloads are not modelled, except integral exponents. *)
From Coq Require Import Reals ZArith List.
From Flocq Require Import Raux.
From Coquelicot Require Import Coquelicot.
Local Open Scope R_scope.

(** What a call does: a number, not-a-number, an infinity, undefined behaviour or an exception. *)
Inductive out := Val (x : R) | NaN | Infinite (neg : bool) | UB | Thrown.

Definition bind (o : out) (k : R -> out) : out := match o with Val x => k x | _ => o end.

(** The value of a loop whose successive values are [u]. *)
Definition lim (u : nat -> R) : R := real (Lim_seq u).

(** ** Integers. *)
Definition int_min : Z := - 2 ^ 31.
Definition int_max : Z := 2 ^ 31 - 1.
Definition intmax_min : Z := - 2 ^ 63.
Definition intmax_max : Z := 2 ^ 63 - 1.
(** static_cast<T>(numeric_limits<intmax_t>::lowest()) and ::max() for T = double: the latter is rounded to 2^63. *)
Definition low : R := IZR (- 2 ^ 63).
Definition high : R := IZR (2 ^ 63).

(** static_cast<intmax_t>(q), [conv.fpint]: truncation, undefined outside the range. *)
Definition to_intmax (q : R) (k : Z -> out) : out :=
  let n := Ztrunc q in
  if (Z.leb intmax_min n && Z.leb n intmax_max)%bool then k n else UB.
Definition to_int (q : R) (k : Z -> out) : out :=
  let n := Ztrunc q in
  if (Z.leb int_min n && Z.leb n int_max)%bool then k n else UB.

(** ** fmod.hpp l.58-64. *)
Definition fmod (x y : R) : out :=
  if Req_EM_T y 0 then NaN
  else if Req_EM_T x 0 then Val x
  else
    let iquot := x / y in
    if Rlt_dec iquot low then Thrown
    else if Rlt_dec high iquot then Thrown
    else to_intmax iquot (fun n => Val (x - IZR n * y)).

(** ** sqrt.hpp l.90-103. *)
(** The values of `next`, l.94-101. *)
Fixpoint newton (a : R) (k : nat) : R :=
  match k with
  | O => / 2 * a
  | S k' => let previous := newton a k' in / 2 * (previous + a / previous)
  end.
(** The loop with its test: `next` and `previous` after at most [fuel] rounds. *)
Fixpoint newton_run (a : R) (fuel : nat) (next previous : R) : option R :=
  if Req_EM_T next previous then Some next
  else match fuel with
       | O => None
       | S f => newton_run a f (/ 2 * (next + a / next)) next
       end.
Definition sqrt_ (arg : R) : out :=
  if Req_EM_T arg 0 then Val arg
  else if Rlt_dec arg 0 then NaN
  else Val (lim (newton arg)).

(** signbit.hpp l.56, abs.hpp l.52. *)
Definition abs_ (a : R) : R := if Rlt_dec a 0 then - a else a.

(** ** hypot.hpp l.46-84. *)
Definition hypot (args : list R) : out :=
  match args with
  | nil => UB
  | x :: nil => Val (abs_ x)
  | x :: rest =>
      let m := fold_left Rmax (map abs_ rest) (abs_ x) in
      if Req_EM_T m 0 then Val m
      else bind (sqrt_ (fold_left Rplus (map (fun a => (a / m) * (a / m)) rest) ((x / m) * (x / m))))
             (fun s => Val (m * s))
  end.

(** ** pow.hpp l.41-74: pow_integral.  [lowest] is the least value of the exponent's type, whose negation overflows;
    [None] is a computation that needs more than [fuel] nested calls. *)
Fixpoint pow_integral (lowest : Z) (fuel : nat) (arg : R) (n : Z) : option out :=
  match fuel with
  | O => None
  | S f =>
      if Z.eqb n 0 then Some (Val 1)
      else if (negb (if Req_EM_T arg 0 then true else false) && Z.ltb n 0)%bool then
        if Z.eqb n lowest then Some UB
        else option_map (fun o => bind o (fun p => Val (1 / p))) (pow_integral lowest f arg (- n))
      else if Z.eqb (Z.rem n 2) 1 then
        if Req_EM_T arg 0 then Some (Val arg)
        else option_map (fun o => bind o (fun p => Val (arg * p))) (pow_integral lowest f arg (n - 1))
      else if Z.eqb n lowest then Some UB
      else if Z.eqb (Z.rem (- n) 2) 1 then
        if Req_EM_T arg 0 then Some (Infinite false)
        else option_map (fun o => bind o (fun p => Val (p / arg))) (pow_integral lowest f arg (n + 1))
      else
        if Req_EM_T arg 0 then Some (if Z.ltb 0 n then Val 0 else Infinite false)
        else
          match pow_integral lowest f arg (Z.quot n 2), pow_integral lowest f arg (Z.quot n 2) with
          | Some a, Some b => Some (bind a (fun p => bind b (fun q => Val (p * q))))
          | _, _ => None
          end
  end.

(** pow with an integral exponent and a finite real base, l.103-141: the tests for an infinite base still evaluate
    -exponent. *)
Definition pow_int (lowest : Z) (fuel : nat) (arg : R) (n : Z) : option out :=
  if Req_EM_T arg 1 then Some (Val 1)
  else if Z.eqb n 0 then Some (Val 1)
  else if (negb (Z.eqb (Z.rem n 2) 1) && Z.eqb n lowest)%bool then Some UB
  else pow_integral lowest fuel arg n.

(** ** internal/exp_utils.hpp. *)
(** exp_impl, l.22-28: `sum` after [k] recursive calls. *)
Fixpoint exp_loop (k : nat) (i : Z) (x sum term : R) : R :=
  match k with
  | O => sum
  | S k' => exp_loop k' (i + 1) x (sum + term) (term * x / IZR (i + 1))
  end.
Definition exp_impl (i : Z) (x sum term : R) : R := lim (fun k => exp_loop k i x sum term).

(** integral_exp, l.32-40, for an integral type with least value [lowest]. *)
Fixpoint integral_exp (lowest : Z) (fuel : nat) (x : Z) : option out :=
  match fuel with
  | O => None
  | S f =>
      if Z.eqb x 0 then Some (Val 1)
      else if Z.eqb x 1 then Some (Val (exp 1))
      else if Z.ltb x 0 then
        if Z.eqb x lowest then Some UB
        else option_map (fun o => bind o (fun p => Val (1 / p))) (integral_exp lowest f (- x))
      else if Z.eqb (Z.rem x 2) 1 then
        option_map (fun o => bind o (fun p => Val (exp 1 * p))) (integral_exp lowest f (x - 1))
      else option_map (fun o => bind o (fun p => Val (p * p))) (integral_exp lowest f (Z.quot x 2))
  end.

(** Enough nested calls for any int. *)
Definition int_fuel : nat := 70.
Definition exp_int (x : Z) : out := match integral_exp int_min int_fuel x with Some o => o | None => UB end.

(** int arg_trunc = static_cast<int>(arg) - (arg < 0 ? 1 : 0): exp.hpp l.91. *)
Definition arg_trunc (arg : R) (k : Z -> out) : out :=
  to_int arg (fun n =>
    let t := (n - (if Rlt_dec arg 0 then 1 else 0))%Z in
    if Z.leb int_min t then k t else UB).

(** exp.hpp l.76-95, a finite real argument. *)
Definition exp_ (arg : R) : out :=
  if Req_EM_T arg 0 then Val 1
  else if (if Rlt_dec 0 arg then if Rlt_dec arg 1 then true else false else false) then Val (exp_impl 1 arg 1 arg)
  else arg_trunc arg (fun t =>
    let frac := arg - IZR t in
    bind (exp_int t) (fun e => Val (e * exp_impl 1 frac 1 frac))).

(** expm1.hpp l.80-100. *)
Definition expm1_ (arg : R) : out :=
  if (if Rle_dec 0 arg then if Rlt_dec arg 1 then true else false else false) then
    if Req_EM_T arg 0 then Val arg else Val (exp_impl 1 arg 0 arg)
  else arg_trunc arg (fun t =>
    let frac := arg - IZR t in
    bind (exp_int t) (fun e => let et := e - 1 in let er := exp_impl 1 frac 0 frac in Val (et * er + et + er))).

(** ** internal/periodic_utils.hpp. *)
(** sin_cos_impl, l.25-32. *)
Fixpoint sin_cos_loop (k : nat) (i : Z) (x sum term : R) : R :=
  match k with
  | O => sum
  | S k' => sin_cos_loop k' (i + 2) x (sum + term) (term * x * x / IZR (- i * (i + 1)))
  end.
Definition sin_cos_impl (i : Z) (x sum term : R) : R := lim (fun k => sin_cos_loop k i x sum term).

(** The loops of l.52-53 and l.58-59 with at most [fuel] rounds. *)
Fixpoint double_while (fuel : nat) (again : R -> bool) (corr : R) : option R :=
  if again corr then match fuel with O => None | S f => double_while f again (corr * 2) end else Some corr.
Definition gtb (a b : R) : bool := if Rlt_dec b a then true else false.
Definition geb (a b : R) : bool := if Rle_dec b a then true else false.

(** scale_periodic_function, l.36-61. *)
Fixpoint scale_periodic (fuel : nat) (theta : R) : option out :=
  match fuel with
  | O => None
  | S f =>
      let pi2 := PI * 2 in
      if (gtb theta (- pi2) && gtb pi2 theta)%bool then Some (Val theta)
      else if (geb (theta / pi2) low && geb high (theta / pi2))%bool then
        Some (to_intmax (theta / pi2) (fun n => Val (theta - IZR n * pi2)))
      else if gtb theta 0 then
        match double_while fuel (fun corr => gtb ((theta - corr) / pi2) high) pi2 with
        | Some corr => scale_periodic f (theta - corr)
        | None => None
        end
      else
        match double_while fuel (fun corr => gtb low ((theta + corr) / pi2)) pi2 with
        | Some corr => scale_periodic f (theta + corr)
        | None => None
        end
  end.

(** sin.hpp l.70-72, cos.hpp l.70-72, a finite argument. *)
Definition sin_ (fuel : nat) (arg : R) : option out :=
  option_map (fun o => bind o (fun theta => Val (sin_cos_impl 4 theta theta (theta * theta * theta / -6))))
    (scale_periodic fuel arg).
Definition cos_ (fuel : nat) (arg : R) : option out :=
  option_map (fun o => bind o (fun theta => Val (sin_cos_impl 3 theta 1 (- (1 / 2) * theta * theta))))
    (scale_periodic fuel arg).

(** a / b for doubles that are numbers, with exact quotients. *)
Definition quot (a b : R) : out :=
  if Req_EM_T b 0 then if Req_EM_T a 0 then NaN else Infinite (if Rlt_dec a 0 then true else false) else Val (a / b).

(** tan.hpp l.68-71. *)
Definition tan_ (fuel : nat) (arg : R) : option out :=
  if Req_EM_T arg 0 then Some (Val arg)
  else match sin_ fuel arg, cos_ fuel arg with
       | Some s, Some c => Some (bind s (fun a => bind c (fun b => quot a b)))
       | _, _ => None
       end.

(** ** sinh.hpp l.79-83, cosh.hpp l.75-78, tanh.hpp l.74-84. *)
Definition sinh_ (arg : R) : out :=
  if Req_EM_T arg 0 then Val arg else bind (exp_ arg) (fun ex => Val ((ex - 1 / ex) * (1 / 2))).
Definition cosh_ (arg : R) : out := bind (exp_ arg) (fun ex => Val ((ex + 1 / ex) * (1 / 2))).
Definition tanh_ (arg : R) : out :=
  if Req_EM_T arg 0 then Val arg
  else bind (exp_ arg) (fun ex => let ex2 := ex * ex in Val ((ex2 - 1) / (ex2 + 1))).

(** ** internal/asin_utils.hpp. *)
(** asin_series, l.23-29. *)
Fixpoint asin_loop (k : nat) (n : Z) (x sum term : R) : R :=
  match k with
  | O => sum
  | S k' => asin_loop k' (n + 2) x (sum + term / IZR n) (term * x * x * IZR n / IZR (n + 1))
  end.
Definition asin_series (n : Z) (x sum term : R) : R := lim (fun k => asin_loop k n x sum term).

(** asin_impl, l.32-44. *)
Fixpoint asin_impl (fuel : nat) (x : R) : option out :=
  match fuel with
  | O => None
  | S f =>
      let half := 1 / 2 in
      let pi2 := PI * half in
      let invsq2 := sqrt 2 * half in
      if (geb x (- invsq2) && geb invsq2 x)%bool then Some (Val (asin_series 3 x x (half * x * x * x)))
      else if (gtb x invsq2 && gtb 1 x)%bool then
        match sqrt_ (1 - x * x) with
        | Val s => option_map (fun o => bind o (fun a => Val (pi2 - a))) (asin_impl f s)
        | o => Some o
        end
      else if (gtb x (-1) && gtb (- invsq2) x)%bool then
        match sqrt_ (1 - x * x) with
        | Val s => option_map (fun o => bind o (fun a => Val (- pi2 + a))) (asin_impl f s)
        | o => Some o
        end
      else if Req_EM_T x 1 then Some (Val pi2)
      else if Req_EM_T x (-1) then Some (Val (- pi2))
      else Some NaN
  end.
(** Two nested calls are enough. *)
Definition run (o : option out) : out := match o with Some r => r | None => UB end.

(** asin.hpp l.66-67. *)
Definition asin_ (arg : R) : out := run (asin_impl 2 arg).
(** acos.hpp l.63-66. *)
Definition acos_ (arg : R) : out := if Req_EM_T arg 1 then Val 0 else bind (asin_ arg) (fun s => Val (PI / 2 - s)).

(** ** internal/math_utils.hpp. *)
(** atan_impl, l.27-31. *)
Definition atan_impl (x : R) : out := bind (sqrt_ (1 + x * x)) (fun s => asin_ (x / s)).
(** atan.hpp l.66-67. *)
Definition atan_ (arg : R) : out := if Req_EM_T arg 0 then Val arg else atan_impl arg.

(** A floating-point argument that is a number or an infinity: [neg] is the sign bit. *)
Inductive num := Fin (x : R) (neg : bool) | Inf (neg : bool).
Definition signbit (a : num) : bool :=
  match a with
  | Fin x neg => if Rlt_dec x 0 then true else if Rlt_dec 0 x then false else neg
  | Inf neg => neg
  end.
(** A result that keeps the sign of a zero. *)
Inductive out2 := Signed (x : R) (neg : bool) | Other (o : out).
(** copysign(mag, sgn) for mag >= 0. *)
Definition copysign (mag : R) (sgn : num) : out2 := if signbit sgn then Signed (- mag) true else Signed mag false.
Definition plain (o : out) : out2 := match o with Val x => Signed x (if Rlt_dec x 0 then true else false) | _ => Other o end.

(** atan_impl of y / x for x > 0: the sign of a zero y passes through the division, the square root and the series. *)
Definition atan_quot (y : num) (b a : R) : out2 := if Req_EM_T b 0 then copysign 0 y else plain (atan_impl (b / a)).

(** atan2_impl, l.34-80. *)
Definition atan2_impl (y x : num) : out2 :=
  match y, x with
  | Inf false, Inf false => plain (Val (PI / 4))
  | Inf false, Inf true => plain (Val (3 * PI / 4))
  | Inf false, _ => plain (Val (PI / 2))
  | Inf true, Inf false => plain (Val (- PI / 4))
  | Inf true, Inf true => plain (Val (- 3 * PI / 4))
  | Inf true, _ => plain (Val (- PI / 2))
  | _, Inf false => copysign 0 y
  | _, Inf true => copysign PI y
  | Fin b _, Fin a _ =>
      if gtb a 0 then atan_quot y b a
      else if gtb 0 a then
        if gtb b 0 then plain (bind (atan_impl (b / a)) (fun t => Val (t + PI)))
        else if gtb 0 b then plain (bind (atan_impl (b / a)) (fun t => Val (t - PI)))
        else copysign PI y
      else
        if gtb b 0 then plain (Val (PI / 2))
        else if gtb 0 b then plain (Val (- PI / 2))
        else if signbit x then copysign PI y else copysign 0 y
  end.

(** ** internal/log_utils.hpp. *)
Definition fin (o : out) : R := match o with Val x => x | _ => 0 end.
(** log_impl for real arguments, l.24-43: the values of y0 in successive calls (Halley's method). *)
Fixpoint halley (x : R) (k : nat) : R :=
  match k with
  | O => 0
  | S k' => let y0 := halley x k' in let expy0 := fin (exp_ y0) in y0 + 2 * (x - expy0) / (x + expy0)
  end.
Definition log_impl (x : R) : R := lim (halley x).

(** log_scaling_gt, l.46-53, and log_scaling_lt, l.56-63. *)
Fixpoint log_scaling_gt (fuel : nat) (x corr : R) : option (R * R) :=
  match fuel with
  | O => None
  | S f =>
      if gtb (2 ^ 4) x then Some (x, corr)
      else if gtb (2 ^ 16) x then log_scaling_gt f (x * / 2 ^ 4) (corr + 4 * ln 2)
      else if gtb (2 ^ 64) x then log_scaling_gt f (x * / 2 ^ 16) (corr + 16 * ln 2)
      else log_scaling_gt f (x * / 2 ^ 64) (corr + 64 * ln 2)
  end.
Fixpoint log_scaling_lt (fuel : nat) (x corr : R) : option (R * R) :=
  match fuel with
  | O => None
  | S f =>
      if gtb x (/ 2 ^ 4) then Some (x, corr)
      else if gtb x (/ 2 ^ 16) then log_scaling_lt f (x * 2 ^ 4) (corr - 4 * ln 2)
      else if gtb x (/ 2 ^ 64) then log_scaling_lt f (x * 2 ^ 16) (corr - 16 * ln 2)
      else log_scaling_lt f (x * 2 ^ 64) (corr - 64 * ln 2)
  end.

(** log.hpp l.80-85. *)
Definition log_ (fuel : nat) (arg : R) : option out :=
  if Req_EM_T arg 1 then Some (Val 0)
  else if Req_EM_T arg 0 then Some (Infinite true)
  else if Rlt_dec arg 0 then Some NaN
  else option_map (fun p => Val (log_impl (fst p) + snd p))
         (if geb arg 16 then log_scaling_gt fuel arg 0 else log_scaling_lt fuel arg 0).

(** log1p_impl, log1p.hpp l.41-47. *)
Fixpoint log1p_loop (k : nat) (n : Z) (x sum term : R) : R :=
  match k with
  | O => sum
  | S k' => log1p_loop k' (n + 1) x (sum + x * term / IZR n) (term * - x)
  end.
Definition log1p_impl (n : Z) (x sum term : R) : R := lim (fun k => log1p_loop k n x sum term).

(** log1p, log1p.hpp l.89-96. *)
Definition log1p_ (fuel : nat) (arg : R) : option out :=
  if Req_EM_T arg 0 then Some (Val arg)
  else if Req_EM_T arg (-1) then Some (Infinite true)
  else if Rlt_dec arg (-1) then Some NaN
  else if (gtb arg (- / 8) && gtb (/ 8) arg)%bool then Some (Val (log1p_impl 2 arg arg (- arg)))
  else option_map (fun p => Val (log_impl (fst p) + snd p))
         (if geb arg 16 then log_scaling_gt fuel (arg + 1) 0 else log_scaling_lt fuel (arg + 1) 0).

(** asinh.hpp l.70, l.76; acosh.hpp l.73-78; atanh.hpp l.70-77. *)
Definition asinh_ (fuel : nat) (arg : R) : option out :=
  if Req_EM_T arg 0 then Some (Val arg)
  else match sqrt_ (arg * arg + 1) with Val s => log_ fuel (arg + s) | o => Some o end.
Definition acosh_ (fuel : nat) (arg : R) : option out :=
  if Req_EM_T arg 1 then Some (Val 0)
  else if Rlt_dec arg 1 then Some NaN
  else match sqrt_ (arg * arg - 1) with Val s => log_ fuel (arg + s) | o => Some o end.
Definition atanh_ (fuel : nat) (arg : R) : option out :=
  if (gtb (-1) arg || gtb arg 1)%bool then Some NaN
  else if Req_EM_T arg 1 then Some (Infinite false)
  else if Req_EM_T arg (-1) then Some (Infinite true)
  else if Req_EM_T arg 0 then Some (Val arg)
  else option_map (fun o => bind o (fun l => Val (1 / 2 * l))) (log_ fuel ((1 + arg) / (1 - arg))).

(** pow with a floating-point exponent, finite arguments, pow.hpp l.166 and l.188-198. *)
Definition pow_ (fuel : nat) (arg exponent : R) : option out :=
  if Req_EM_T arg 1 then Some (Val 1)
  else if gtb arg 0 then
    if Req_EM_T exponent 1 then Some (Val arg)
    else option_map (fun o => bind o (fun l => exp_ (l * exponent))) (log_ fuel arg)
  else if Req_EM_T arg 0 then
    Some (if Rlt_dec exponent 0 then Infinite false else Val 0)
  else Some NaN.
