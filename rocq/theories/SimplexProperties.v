(** * C44: spherical simplex sample points. *)
From Coq Require Import NArith Lia.
From Verif Require Import SimplexModel.
Local Open Scope N_scope.

(** Refuted.  In every dimension, the coefficient of the first coordinate (j = 0) of every sample point i divides by zero: the
    points cannot be computed. *)
Theorem simplex_points_refuted (dim i : N) : 1 <= dim -> simplex_coeff 0 i dim = None.
Proof.
  intros H. unfold simplex_coeff, simplex_den.
  change (N.sqrt ((0 + 1) * (0 + 2) * (0 + 2))) with 2.
  rewrite N.div_small by lia. reflexivity.
Qed.
Print Assumptions simplex_points_refuted.

(** The same coordinate is the only one in dimension one, and the first in dimension three. *)
Example simplex_points_dim : simplex_coeff 0 1 1 = None /\ simplex_coeff 0 4 3 = None.
Proof. split; apply simplex_points_refuted; lia. Qed.
