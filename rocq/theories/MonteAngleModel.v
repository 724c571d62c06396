(** * Model: the Monte Carlo transform with an angle as output.

    /repo/OpenKalman/transforms/MonteCarloTransform.hpp with the Angle descriptor of PatModel.v as the output's
    coefficients.  The functions of that file return outcomes; here the exceptional ones (which an angle in
    [-2 pi, 2 pi] never gives) stand for 0. *)
From Coq Require Import Reals List.
From mathcomp Require Import all_ssreflect all_algebra.
From Verif Require Import RealField PatModel MonteModel.
Set Implicit Arguments.
Unset Strict Implicit.
Unset Printing Implicit Defensive.
Import GRing.Theory.
Local Open Scope ring_scope.

Definition only (r : res (list R)) : R := match r with Ret [:: a] => a | _ => 0%R end.
Definition both (r : res (list R)) : R * R := match r with Ret [:: a; b] => (a, b) | _ => (0%R, 0%R) end.

(** angle::Radians, with limits [-pi, pi) (patterns/descriptors/Angle.hpp l.111-239); the difference of two means is
    wrapped (linear-algebra/adapters/Mean.hpp l.275-284). *)
Definition angle_space (fast : bool) : space R_rcfType 1 2 :=
  let d := Ang (Ropp PI) PI in
  Space
    (fun y => \col_(i < 2) let '(a, b) := both (to_stat1 d [:: pos (y 0 0)]) in if i == 0 then a else b)
    (fun v => \col_(i < 1) only (from_stat1 fast d [:: pos (v 0 0); pos (v 1 0)]))
    (fun a b => \col_(i < 1) only (wrap1 d [:: pos (a 0 0 - b 0 0)])).
