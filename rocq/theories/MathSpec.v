(** * Specification of the mathematical functions. *)
From Coq Require Import Reals ZArith List.
Local Open Scope R_scope.

(** r is the remainder of x by y with quotient n truncated towards zero. *)
Definition c_remainder (x y r : R) (n : Z) : Prop :=
  x = IZR n * y + r /\ Rabs r < Rabs y /\ 0 <= r * x /\ (IZR n * y = 0 \/ 0 < (IZR n * y) * x).

(** The sum of the squares. *)
Definition sum_sq (l : list R) : R := fold_right (fun a s => a * a + s) 0 l.

(** t is an angle of the point (x, y). *)
Definition angle_of (x y t : R) : Prop := exists r, 0 < r /\ x = r * cos t /\ y = r * sin t.

(** Equal angles up to whole turns. *)
Definition same_angle (s t : R) : Prop := sin s = sin t /\ cos s = cos t.
