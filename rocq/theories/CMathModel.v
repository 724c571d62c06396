(** * Model: the library's own mathematical functions, complex arguments.

    Directory: /repo/OpenKalman/values/math, the branches for complex arguments (run in constant evaluation).
    Simplifications: as in MathModel.v, and a complex result with a component that is not a finite number is the single
    outcome [COther]; signbit of a zero is false (signbit.hpp l.52-56), except for the argument of sqrt. *)
From Coq Require Import Reals ZArith List.
From Flocq Require Import Raux.
From Coquelicot Require Import Coquelicot.
From Verif Require Import MathModel.
Local Open Scope R_scope.

Inductive cout := CVal (z : C) | COther (o : out).

(** Sequencing: a real step that may need more [fuel], or not give a number. *)
Definition rd (o : out) (k : R -> option cout) : option cout := match o with Val x => k x | _ => Some (COther o) end.
Definition rdf (o : option out) (k : R -> option cout) : option cout := match o with Some o' => rd o' k | None => None end.
Definition cd (o : option cout) (k : C -> option cout) : option cout :=
  match o with Some (CVal z) => k z | _ => o end.
Definition num_of (o : out2) : out := match o with Signed x _ => Val x | Other o' => o' end.
Definition pos (x : R) : num := Fin x false.
Definition ret (re im : R) : option cout := Some (CVal (re, im)).

(** sqrt.hpp l.80-86: the principal square root. *)
Definition csqrt (re : R) (im : num) : option cout :=
  let i := match im with Fin x _ => x | Inf _ => 0 end in
  rd (sqrt_ (re * re + i * i)) (fun nx =>
  rd (sqrt_ (1 / 2 * (nx + re))) (fun sqp =>
  rd (sqrt_ (1 / 2 * (nx - re))) (fun sqm =>
  rd (num_of (copysign sqm im)) (fun q => ret sqp q)))).

(** exp.hpp l.65-75. *)
Definition cexp (fuel : nat) (z : C) : option cout :=
  rd (exp_ (fst z)) (fun ea =>
  rdf (scale_periodic fuel (snd z)) (fun theta =>
    let sinb := sin_cos_impl 4 theta theta (theta * theta * theta / -6) in
    let cosb := sin_cos_impl 3 theta 1 (- (1 / 2) * theta * theta) in
    ret (ea * cosb) (ea * sinb))).

(** expm1.hpp l.56-67. *)
Definition cexpm1 (fuel : nat) (z : C) : option cout :=
  rd (expm1_ (fst z)) (fun ea =>
  rdf (scale_periodic fuel (snd z)) (fun theta =>
    let sinb := sin_cos_impl 4 theta theta (theta * theta * theta / -6) in
    let cosbm1 := sin_cos_impl 3 theta 0 (- (1 / 2) * theta * theta) in
    ret (ea * (cosbm1 + 1) + cosbm1) (ea * sinb + sinb))).

(** log.hpp l.62-71. *)
Definition clog (fuel : nat) (z : C) : option cout :=
  let '(re, im) := z in
  rdf (log_ fuel (re * re + im * im)) (fun l =>
  rd (num_of (atan2_impl (pos im) (pos re))) (fun t => ret (1 / 2 * l) t)).

(** log1p.hpp l.68-79. *)
Definition clog1p (fuel : nat) (z : C) : option cout :=
  let '(re, im) := z in
  rdf (log1p_ fuel (re * re + 2 * re + im * im)) (fun l =>
  rd (num_of (atan2_impl (pos im) (pos (re + 1)))) (fun t => ret (1 / 2 * l) t)).

(** sinh.hpp l.64-76, cosh.hpp l.59-72. *)
Definition csinh (fuel : nat) (z : C) : option cout :=
  cd (cexp fuel z) (fun ex =>
    let '(exr, exi) := ex in
    if Req_EM_T exi 0 then ret ((exr - 1 / exr) * (1 / 2)) 0
    else let denom1 := 1 / (exr * exr + exi * exi) in
         ret (1 / 2 * exr * (1 - denom1)) (1 / 2 * exi * (1 + denom1))).
Definition ccosh (fuel : nat) (z : C) : option cout :=
  cd (cexp fuel z) (fun ex =>
    let '(exr, exi) := ex in
    if Req_EM_T exi 0 then ret ((exr + 1 / exr) * (1 / 2)) 0
    else let denom1 := 1 / (exr * exr + exi * exi) in
         ret (1 / 2 * exr * (1 + denom1)) (1 / 2 * exi * (1 - denom1))).

(** tanh.hpp l.58-71; a quotient by zero is not a number. *)
Definition ctanh (fuel : nat) (z : C) : option cout :=
  if (if Req_EM_T (fst z) 0 then if Req_EM_T (snd z) 0 then true else false else false) then ret 0 0
  else
  cd (cexp fuel z) (fun ex =>
    let '(er, ei) := ex in
    let d := er * er - ei * ei in
    let b := 2 * er * ei in
    let d2b2 := d * d + b * b in
    let denom := d2b2 + 2 * d + 1 in
    rd (quot (d2b2 - 1) denom) (fun p => rd (quot (2 * b) denom) (fun q => ret p q))).

(** sin.hpp l.57-67, cos.hpp l.56-67. *)
Definition csin (fuel : nat) (z : C) : option cout :=
  let '(re, im) := z in
  rdf (scale_periodic fuel re) (fun theta =>
    let sinre := sin_cos_impl 4 theta theta (theta * theta * theta / -6) in
    let cosre := sin_cos_impl 3 theta 1 (- (1 / 2) * theta * theta) in
    rd (cosh_ im) (fun ch => rd (sinh_ im) (fun sh => ret (sinre * ch) (cosre * sh)))).
Definition ccos (fuel : nat) (z : C) : option cout :=
  let '(re, im) := z in
  rdf (scale_periodic fuel re) (fun theta =>
    let sinre := sin_cos_impl 4 theta theta (theta * theta * theta / -6) in
    let cosre := sin_cos_impl 3 theta 1 (- (1 / 2) * theta * theta) in
    rd (cosh_ im) (fun ch => rd (sinh_ im) (fun sh => ret (cosre * ch) (- sinre * sh)))).

(** tan.hpp l.55-65. *)
Definition ctan (fuel : nat) (z : C) : option cout :=
  cd (csin fuel z) (fun sx => cd (ccos fuel z) (fun cx =>
    let '(sr, si) := sx in let '(cr, ci) := cx in
    let denom := cr * cr + ci * ci in
    rd (quot (sr * cr + si * ci) denom) (fun p => rd (quot (si * cr - sr * ci) denom) (fun q => ret p q)))).

(** asin.hpp l.57-64, acos.hpp l.55-60. *)
Definition casin (fuel : nat) (z : C) : option cout :=
  let '(xr, xi) := z in
  cd (csqrt (1 - xr * xr + xi * xi) (pos (- 2 * xr * xi))) (fun sqt =>
  cd (clog fuel (fst sqt + xi, snd sqt - xr)) (fun lg => ret (- snd lg) (fst lg))).
Definition cacos (fuel : nat) (z : C) : option cout := cd (casin fuel z) (fun s => ret (PI / 2 - fst s) (- snd s)).

(** asinh.hpp l.57-66. *)
Definition casinh (fuel : nat) (z : C) : option cout :=
  let '(re, im) := z in
  cd (csqrt (re * re - im * im + 1) (pos (2 * re * im))) (fun sqt => clog fuel (re + fst sqt, im + snd sqt)).

(** acosh.hpp l.57-69. *)
Definition cacosh (fuel : nat) (z : C) : option cout :=
  let '(xr, xi) := z in
  cd (csqrt (xr + 1) (pos xi)) (fun sqtp => cd (csqrt (xr - 1) (pos xi)) (fun sqtm =>
    let '(a, b) := sqtp in let '(c, d) := sqtm in
    clog fuel (xr + a * c - b * d, xi + a * d + b * c))).

(** atanh.hpp l.56-65. *)
Definition catanh (fuel : nat) (z : C) : option cout :=
  let '(xr, xi) := z in
  let denom := 1 - 2 * xr + xr * xr + xi * xi in
  rd (quot (1 - xr * xr - xi * xi) denom) (fun p => rd (quot (2 * xi) denom) (fun q =>
  cd (clog fuel (p, q)) (fun lg => ret (1 / 2 * fst lg) (1 / 2 * snd lg)))).

(** internal/atan_utils.hpp l.29-53 (atan_impl_general) and atan.hpp l.56-61. *)
Definition catan (fuel : nat) (z : C) : option cout :=
  let '(xr, xi) := z in
  let ar := - xi in let ai := xr in
  rdf (log1p_ fuel (ar * ar + 2 * ar + ai * ai)) (fun la =>
  rd (num_of (atan2_impl (pos ai) (pos (ar + 1)))) (fun lai =>
  let br := xi in let bi := - xr in
  rdf (log1p_ fuel (br * br + 2 * br + bi * bi)) (fun lb =>
  rd (num_of (atan2_impl (pos bi) (pos (br + 1)))) (fun lbi =>
  ret (1 / 2 * (lai - lbi)) (1 / 2 * (1 / 2 * lb - 1 / 2 * la)))))).

(** atan2.hpp l.56-87. *)
Definition catan2 (fuel : nat) (y x : C) : option cout :=
  let '(yr, yi) := y in let '(xr, xi) := x in
  if (if Req_EM_T xr 0 then if Req_EM_T xi 0 then true else false else false) then
    if gtb yr 0 then ret (1 / 2 * PI) 0 else if gtb 0 yr then ret (- (1 / 2 * PI)) 0 else ret 0 0
  else if (if Req_EM_T yr 0 then if Req_EM_T yi 0 then true else false else false) then
    if gtb 0 xr then ret PI 0 else ret 0 0
  else
    let denom := xr * xr + xi * xi in
    cd (catan fuel ((yr * xr + yi * xi) / denom, (yi * xr - yr * xi) / denom)) (fun raw =>
      let '(raw_r, raw_i) := raw in
      if gtb raw_r PI then ret (raw_r - PI) raw_i
      else if gtb (- PI) raw_r then ret (raw_r + PI) raw_i
      else ret raw_r raw_i).

(** hypot.hpp l.60-70, two or more arguments of which one is complex. *)
Definition chypot (args : list C) : option cout :=
  let m := fold_left Rmax (map abs_ (map fst args ++ map snd args)) 0 in
  if Req_EM_T m 0 then ret 0 0
  else
    let r := fold_left Rplus (map (fun a => fst a / m * (fst a / m) - snd a / m * (snd a / m)) args) 0 in
    let i := fold_left Rplus (map (fun a => 2 * (fst a / m) * (snd a / m)) args) 0 in
    cd (csqrt r (pos i)) (fun s => ret (m * fst s) (m * snd s)).

(** pow.hpp l.144-163, a complex base and a complex floating-point exponent (a real exponent has d = 0). *)
Definition cpow (fuel : nat) (z e : C) : option cout :=
  cd (clog fuel z) (fun lg =>
    let '(a, b) := lg in let '(c, d) := e in
    cexp fuel (a * c - b * d, a * d + b * c)).

(** pow.hpp l.41-74, pow_integral with a complex base. *)
Fixpoint cpow_integral (lowest : Z) (fuel : nat) (z : C) (n : Z) : option cout :=
  match fuel with
  | O => None
  | S f =>
      let zero := if Req_EM_T (fst z) 0 then if Req_EM_T (snd z) 0 then true else false else false in
      if Z.eqb n 0 then ret 1 0
      else if (negb zero && Z.ltb n 0)%bool then
        if Z.eqb n lowest then Some (COther UB)
        else cd (cpow_integral lowest f z (- n)) (fun p => Some (CVal (RtoC 1 / p)%C))
      else if Z.eqb (Z.rem n 2) 1 then
        if zero then Some (CVal z) else cd (cpow_integral lowest f z (n - 1)) (fun p => Some (CVal (z * p)%C))
      else if Z.eqb n lowest then Some (COther UB)
      else if Z.eqb (Z.rem (- n) 2) 1 then
        if zero then Some (COther (Infinite false)) else cd (cpow_integral lowest f z (n + 1)) (fun p => Some (CVal (p / z)%C))
      else
        if zero then (if Z.ltb 0 n then ret 0 0 else Some (COther (Infinite false)))
        else cd (cpow_integral lowest f z (Z.quot n 2)) (fun p => cd (cpow_integral lowest f z (Z.quot n 2)) (fun q => Some (CVal (p * q)%C)))
  end.
