(** * Specification of the complex functions: everything by the exponential. *)
From Coq Require Import Reals List.
From Coquelicot Require Import Coquelicot.
Local Open Scope C_scope.

(** e^(a+bi) = e^a (cos b + i sin b). *)
Definition Cexp (z : C) : C := ((exp (fst z) * cos (snd z))%R, (exp (fst z) * sin (snd z))%R).
Definition Csinh (z : C) : C := (Cexp z - Cexp (- z)) / 2.
Definition Ccosh (z : C) : C := (Cexp z + Cexp (- z)) / 2.
Definition Csin (z : C) : C := (Cexp (Ci * z) - Cexp (- (Ci * z))) / (2 * Ci).
Definition Ccos (z : C) : C := (Cexp (Ci * z) + Cexp (- (Ci * z))) / 2.

(** The sum of the squares. *)
Definition Csum_sq (l : list C) : C := fold_right (fun a s => a * a + s) 0 l.
