(** * Model: spherical simplex points, /repo/OpenKalman/transforms/sample-points/SphericalSimplex.hpp.

    sigma_point_coeff, l.104-117, with the default parameters, l.28-38: W0 = 1/(dim+2), unscaled_W = (1 - W0)/(dim + 1)
    = 1/(dim+2), so that [denom] is the integer quotient of 1 by the integer part of sqrt(j+1) (j+2) / (dim+2) (in exact
    arithmetic).  std::size_t arithmetic is modulo 2^64.  The outer [None] is a division by zero (in a constant expression,
    so the program is ill-formed). *)
From Coq Require Import NArith.
Local Open Scope N_scope.

Definition simplex_den (j dim : N) : N := (N.sqrt ((j + 1) * (j + 2) * (j + 2)) / (dim + 2)).
Definition size_t (n : N) : N := (n mod 2 ^ 64).
Definition simplex_coeff (j i dim : N) : option N :=
  let t := simplex_den j dim in
  if (t =? 0) then None else
  let denom := (1 / t) in
  if (i =? 0) then Some 0
  else if (i <? j + 2) then Some (size_t (2 ^ 64 - denom))
  else if (i =? j + 2) then Some (size_t ((j + 1) * denom))
  else Some 0.
