(** * Model: wrapping angles and spherical coordinates in IEEE 754 binary arithmetic.

    Directories: /repo/OpenKalman/values/math, /repo/OpenKalman/patterns/descriptors.  Every operation rounds to nearest,
    ties to even, in the format of the scalar type ([prec] bits, exponents below [emax]); infinities, not-a-number and
    signed zeros are those of IEEE 754 (Flocq's [binary_float]).  The limits Min, Max and Down of a descriptor are fixed
    values in a second format (long double for the predefined descriptors).
    The test constexpr_callable.hpp l.38-62 needs a call of a non-constexpr operator() to be a constant expression, so it
    is false and the library's own bodies run; these are the bodies modelled here.
    Simplifications: no contraction of a*b+c into one fused operation, no excess precision. *)
From Coq Require Import ZArith Bool List.
From Flocq Require Import Core.Zaux Core.FLX IEEE754.BinarySingleNaN.
Local Open Scope Z_scope.

(** What a call does: a value, an exception, undefined behaviour, or a loop that has not ended after the given rounds. *)
Inductive fres (A : Type) := FVal (x : A) | FThrown | FUB | FRunning.
Arguments FVal {A}. Arguments FThrown {A}. Arguments FUB {A}. Arguments FRunning {A}.

Definition fbind {A B} (o : fres A) (k : A -> fres B) : fres B :=
  match o with FVal x => k x | FThrown => FThrown | FUB => FUB | FRunning => FRunning end.

(** static_cast between floating-point types. *)
Definition cast {p e} (p' e' : Z) {Hp : Prec_gt_0 p'} {Hx : Prec_lt_emax p' e'} (x : binary_float p e) : binary_float p' e' :=
  match x with
  | B754_zero s => B754_zero s
  | B754_infinity s => B754_infinity s
  | B754_nan => B754_nan
  | B754_finite s m ex _ => binary_normalize p' e' Hp Hx mode_NE (cond_Zopp s (Zpos m)) ex s
  end.

Section Format.
Context {prec emax : Z} {Hp : Prec_gt_0 prec} {Hx : Prec_lt_emax prec emax}.
Notation fl := (binary_float prec emax).

Definition fadd (x y : fl) : fl := Bplus mode_NE x y.
Definition fsub (x y : fl) : fl := Bminus mode_NE x y.
Definition fmul (x y : fl) : fl := Bmult mode_NE x y.
Definition fdiv (x y : fl) : fl := Bdiv mode_NE x y.
Definition flt (x y : fl) : bool := Bltb x y.
Definition fle (x y : fl) : bool := Bleb x y.
Definition feq (x y : fl) : bool := Beqb x y.
Definition fzero : fl := B754_zero false.
(** Conversion of an integer to the scalar type. *)
Definition of_Z (n : Z) : fl := binary_normalize prec emax Hp Hx mode_NE n 0 false.
(** m * 2^e in the scalar type. *)
Definition of_me (m e : Z) : fl := binary_normalize prec emax Hp Hx mode_NE m e false.
Definition isnan (x : fl) : bool := is_nan x.
Definition isinf (x : fl) : bool := match x with B754_infinity _ => true | _ => false end.

(** ** fmod.hpp l.58-64. *)
Definition ffmod (x y : fl) : fres fl :=
  if isnan x || isnan y || isinf x || feq y fzero then FVal B754_nan
  else if feq x fzero || isinf y then FVal x
  else
    let iquot := fdiv x y in
    if flt iquot (of_Z (- 2 ^ 63)) || flt (of_Z (2 ^ 63 - 1)) iquot then FThrown
    else
      let n := Btrunc iquot in
      if (- 2 ^ 63 <=? n) && (n <=? 2 ^ 63 - 1) && is_finite iquot
      then FVal (fsub x (fmul (of_Z n) y))
      else FUB.

(** ** sqrt.hpp l.90-103. *)
Definition half : fl := of_me 1 (-1).
(** The loop, l.97-101, with its test, for at most [fuel] rounds. *)
Fixpoint sqrt_loop (fuel : nat) (a next previous : fl) : fres fl :=
  if feq next previous then FVal next
  else match fuel with
       | O => FRunning
       | S f => sqrt_loop f a (fmul half (fadd next (fdiv a next))) next
       end.
Definition fsqrt (fuel : nat) (a : fl) : fres fl :=
  if isnan a || feq a fzero then FVal a
  else if flt a fzero then FVal B754_nan
  else if feq a (B754_infinity false) then FVal (B754_infinity false)
  else sqrt_loop fuel a (fmul half a) fzero.

(** ** signbit.hpp l.55: [arg < 0]; copysign.hpp l.62-64. *)
Definition fsignbit (x : fl) : bool := flt x fzero.
Definition fcopysign (mag sgn : fl) : fl :=
  if isnan mag then B754_nan
  else if feq mag fzero then (if fsignbit sgn then B754_zero true else fzero)
  else if Bool.eqb (fsignbit mag) (fsignbit sgn) then mag else Bopp mag.

(** ** hypot.hpp l.79-83, two arguments. *)
Definition fabs (x : fl) : fl := if fsignbit x then Bopp x else x.
(** std::max({a, b}). *)
Definition fmax (x y : fl) : fl := if flt x y then y else x.
Definition fhypot (fuel : nat) (x y : fl) : fres fl :=
  if isinf x || isinf y then FVal (B754_infinity false)
  else if isnan x || isnan y then FVal B754_nan
  else
    let m := fmax (fabs x) (fabs y) in
    if feq m fzero then FVal m
    else
      let qx := fdiv x m in
      let qy := fdiv y m in
      fbind (fsqrt fuel (fadd (fmul qx qx) (fmul qy qy))) (fun s => FVal (fmul m s)).

(** ** Limits of a descriptor, in the format of Min and Max. *)
Section Limits.
Context {lprec lemax : Z} {Hlp : Prec_gt_0 lprec} {Hlx : Prec_lt_emax lprec lemax}.
Notation lim := (binary_float lprec lemax).

(** [R{min}], [R{max}]. *)
Definition to_R (l : lim) : fl := cast prec emax l.
(** [constexpr R period = max - min]. *)
Definition period (mn mx : lim) : fl := cast prec emax (Bminus mode_NE mx mn).
(** [phi_real < max]: the scalar is converted to the format of the limit. *)
Definition below (phi : fl) (mx : lim) : bool := Bltb (cast lprec lemax phi) mx.

(** ** Angle.hpp l.228-239, Polar.hpp l.213-225: [wrap_phi_mod]. *)
Definition fwrap (mn mx : lim) (phi : fl) : fres fl :=
  if fle (to_R mn) phi && below phi mx then FVal phi
  else
    fbind (ffmod (fsub phi (to_R mn)) (period mn mx)) (fun m =>
      if flt m fzero then FVal (fadd (fadd (to_R mn) m) (period mn mx))
      else FVal (fadd (to_R mn) m)).

(** ** Angle.hpp l.188-198, Polar.hpp l.160-170, Spherical.hpp l.223-233: [wrap_phi]. *)
Definition fwrap_once (mn mx : lim) (phi : fl) : fl :=
  if flt phi (to_R mn) then fadd phi (period mn mx)
  else if fle (to_R mx) phi then fsub phi (period mn mx)
  else phi.

(** ** Angle.hpp l.206-224, the scaled branch, after the call of atan2.  [pi2]: fixed_2pi<R>. *)
Definition ang_from_stat (pi2 : fl) (mn mx : lim) (angle : fl) : fl :=
  fwrap_once mn mx (fmul angle (fdiv (period mn mx) pi2)).

(** ** Spherical.hpp l.201-288: [from_stat_space]; returns (d, theta, phi).
    [acos]: the function values::acos in this format; [pi], [pi2]: pi_v<R> and fixed_2pi<R>. *)
Definition calc_theta (acos : fl -> fl) (pi down h z : fl) : fl :=
  fmul (fdiv down pi) (if feq h fzero then h else acos (fdiv z h)).
Definition calc_phi (acos : fl -> fl) (hypot_xy x signed_scale : fl) : fl :=
  fmul signed_scale (if feq hypot_xy fzero then hypot_xy else acos (fdiv x hypot_xy)).
Definition spher_from_stat (acos : fl -> fl) (pi pi2 : fl) (fuel : nat) (mn mx down : lim) (d x y z : fl)
  : fres (fl * fl * fl) :=
  let scale := fdiv (period mn mx) pi2 in
  let signed_scale := fcopysign scale y in
  fbind (fhypot fuel x y) (fun hypot_xy =>
  let x2y2 := fmul hypot_xy hypot_xy in
  let z2 := fmul z z in
  fbind (fsqrt fuel (fadd x2y2 z2)) (fun h =>
  let theta := calc_theta acos pi (to_R down) h z in
  let phi := calc_phi acos hypot_xy x signed_scale in
  FVal (d, theta, fwrap_once mn mx phi))).

End Limits.
End Format.

(** ** The formats and the predefined limits. *)
#[global] Instance Hp24 : Prec_gt_0 24. Proof. reflexivity. Qed.
#[global] Instance Hx128 : Prec_lt_emax 24 128. Proof. reflexivity. Qed.
#[global] Instance Hp53 : Prec_gt_0 53. Proof. reflexivity. Qed.
#[global] Instance Hx1024 : Prec_lt_emax 53 1024. Proof. reflexivity. Qed.
#[global] Instance Hp64 : Prec_gt_0 64. Proof. reflexivity. Qed.
#[global] Instance Hx16384 : Prec_lt_emax 64 16384. Proof. reflexivity. Qed.
(** float, double, and the long double of x86. *)
Notation float32 := (binary_float 24 128).
Notation float64 := (binary_float 53 1024).
Notation float80 := (binary_float 64 16384).

Definition ld (n : Z) : float80 := of_Z n.
(** numbers::pi_v<long double> and pi_v<double>. *)
Definition pi_ld : float80 := of_me 14488038916154245685 (-62).
Definition two_pi_ld : float80 := of_me 14488038916154245685 (-61).
Definition pi_d : float64 := of_me 884279719003555 (-48).
Definition two_pi_d : float64 := of_me 884279719003555 (-47).
