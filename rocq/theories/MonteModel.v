(** * Model: the Monte Carlo transform.

    File: /repo/OpenKalman/transforms/MonteCarloTransform.hpp.  Scalars are real and exact; a division by zero (which
    gives NaN in the program) is [None].  The input's coefficients are Euclidean; the output's are given by how they are
    mapped to and from the space in which they are averaged, and by their difference. *)
From Coq Require Import Permutation.
From mathcomp Require Import all_ssreflect all_algebra.
Set Implicit Arguments.
Unset Strict Implicit.
Unset Printing Implicit Defensive.
Import GRing.Theory Num.Theory Order.Theory.
Local Open Scope ring_scope.

Section Monte.
Variable R : rcfType.

(** to_stat_space, from_stat_space and the subtraction of two outputs (which wraps). *)
Record space n k := Space {
  to_stat : 'cV[R]_n -> 'cV[R]_k;
  from_stat : 'cV[R]_k -> 'cV[R]_n;
  difference : 'cV[R]_n -> 'cV[R]_n -> 'cV[R]_n
}.

(** All output coefficients Euclidean. *)
Definition euclidean_space n : space n n := Space id id (fun a b => a - b).

Section Sums.
Variables (m n k : nat) (sp : space n k).

(** MonteCarloSum1, l.77-84 (MonteCarloSum0, l.68-74, leaves out [xy]). *)
Record mc_sum := McSum { count : nat; sx : 'cV[R]_m; sy : 'cV[R]_k; syy : 'M[R]_n; sxy : 'M[R]_(m, n) }.

(** zero(), l.91-102. *)
Definition mc_zero : mc_sum := McSum 0 0 0 0 0.

(** one(...), l.105-115, where [x] was drawn from the input distribution and [y] is the transformed draw. *)
Definition mc_one (x : 'cV[R]_m) (y : 'cV[R]_n) : mc_sum := McSum 1 x (to_stat sp y) 0 0.

(** MonteCarloBinaryOp, l.118-161. *)
Definition mc_op (a b : mc_sum) : option mc_sum :=
  if count b == 1%N then
    let c := (count a + 1)%N in
    let s : R := c%:R in
    let x := s^-1 *: ((count a)%:R *: sx a + sx b) in
    let y := s^-1 *: ((count a)%:R *: sy a + sy b) in
    let delta := difference sp (from_stat sp (sy b)) (from_stat sp (sy a)) in
    let adj := s^-1 *: ((count a)%:R *: delta^T) in
    Some (McSum c x y (syy a + delta *m adj) (sxy a + (sx b - sx a) *m adj))
  else
    let c := (count a + count b)%N in
    if c == 0%N then None else
    let s : R := c%:R in
    let x := s^-1 *: ((count a)%:R *: sx a + (count b)%:R *: sx b) in
    let y := s^-1 *: ((count a)%:R *: sy a + (count b)%:R *: sy b) in
    let delta := difference sp (from_stat sp (sy b)) (from_stat sp (sy a)) in
    let adj := s^-1 *: ((count b)%:R *: ((count a)%:R *: delta^T)) in
    Some (McSum c x y (syy a + syy b + delta *m adj) (sxy a + sxy b + (sx b - sx a) *m adj)).

(** std::reduce(std::execution::par_unseq, first, last, init, op), l.245 and l.279: the standard lets the elements and
    [init] be grouped and rearranged in any way.  A schedule is a binary tree over them. *)
Inductive schedule := Elem of mc_sum | Group of schedule & schedule.

Fixpoint elems (t : schedule) : seq mc_sum :=
  match t with Elem a => [:: a] | Group l r => elems l ++ elems r end.

Fixpoint run (t : schedule) : option mc_sum :=
  match t with
  | Elem a => Some a
  | Group l r => match run l, run r with Some a, Some b => mc_op a b | _, _ => None end
  end.

(** [t] is a schedule for the transform of the given draws. *)
Definition reduces (draws : seq ('cV[R]_m * 'cV[R]_n)) (t : schedule) : Prop :=
  Permutation (elems t) (mc_zero :: [seq mc_one d.1 d.2 | d <- draws]).

(** transform_with_cross_covariance, l.272-287, and operator(), l.238-249, which leaves out the last component: the
    mean, the covariance and the cross-covariance, where [size] is the number of draws. *)
Definition mc_transform (size : nat) (t : schedule) : option ('cV[R]_n * 'M[R]_n * 'M[R]_(m, n)) :=
  match run t with
  | Some r =>
      let d : R := size%:R - 1 in
      if d == 0 then None
      else Some (from_stat sp (sy r), d^-1 *: syy r, d^-1 *: sxy r)
  | None => None
  end.

End Sums.
End Monte.
