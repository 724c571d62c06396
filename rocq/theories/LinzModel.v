(** * Model: finite-difference linearisation and the linearised transform.

    Files (under /repo/OpenKalman): transformations/FiniteDifferenceLinearization.hpp,
    transforms/LinearizedTransform.hpp, transforms/details/LinearTransformBase.hpp.
    Scalars are real and exact, coefficients are Euclidean, triangles are lower (as in GaussModel.v).  [None] stands for
    a result with components that are not numbers (a division by zero). *)
From mathcomp Require Import all_ssreflect all_algebra.
From Verif Require Import MatBase LibModel GaussModel KalmanModel.
Set Implicit Arguments.
Unset Strict Implicit.
Unset Printing Implicit Defensive.
Import GRing.Theory Num.Theory Order.Theory.
Local Open Scope ring_scope.

Section Linz.
Variable R : rcfType.

(** ** Finite differences.

    [f] is the transformation as a function of the argument being perturbed, [h] that argument's deltas and [col] the
    argument, which the program changes in place: it is threaded through every step. *)
Section FD.
Variables (d m : nat) (f : 'cV[R]_d -> 'cV[R]_m) (h : 'cV[R]_d).

(** col[i] = a. *)
Definition set_at (col : 'cV[R]_d) (i : 'I_d) (a : R) : 'cV[R]_d := \col_j if j == i then a else col j 0.

(** The body of the lambda in jac_term, l.93-102: one column of the Jacobian, and the argument afterwards. *)
Definition jac_column (col : 'cV[R]_d) (i : 'I_d) : 'cV[R]_m * 'cV[R]_d :=
  let hi := h i 0 in
  let x := col i 0 in
  let col := set_at col i (x + hi) in
  let fp := f col in
  let col := set_at col i (x - hi) in
  let fm := f col in
  let col := set_at col i x in
  ((2%:R * hi)^-1 *: (fp - fm), col).

(** Evaluation of a function with such an effect at the given indices, in the given order. *)
Definition visit (T : eqType) A (step : 'cV[R]_d -> T -> A * 'cV[R]_d) (a0 : A) (order : seq T) (col : 'cV[R]_d) :
    (T -> A) * 'cV[R]_d :=
  foldl (fun s i => let r := step s.2 i in (fun j => if j == i then r.1 else s.1 j, r.2)) (fun _ => a0, col) order.

(** No delta is zero. *)
Definition deltas_ok : bool := [forall i, h i 0 != 0].

(** jac_term, l.85-105: apply_columnwise evaluates the columns as function arguments, so in any order. *)
Definition jac_term (order : seq 'I_d) (col : 'cV[R]_d) : option ('M[R]_(m, d) * 'cV[R]_d) :=
  if deltas_ok then
    let v := visit jac_column 0 order col in
    Some (\matrix_(k, i) v.1 i k 0, v.2)
  else None.

(** h_j<term, i, j>, l.120-160. *)
Definition hess_entry (col : 'cV[R]_d) (ij : 'I_d * 'I_d) : 'cV[R]_m * 'cV[R]_d :=
  let '(i, j) := ij in
  let hi := h i 0 in
  let xi := col i 0 in
  if i == j then
    let f0 := f col in
    let col := set_at col i (xi + hi) in
    let fp := f col in
    let col := set_at col i (xi - hi) in
    let fm := f col in
    let col := set_at col i xi in
    ((hi * hi)^-1 *: ((fp - f0) - (f0 - fm)), col)
  else
    let hj := h j 0 in
    let xj := col j 0 in
    let col := set_at col i (xi + hi) in
    let col := set_at col j (xj + hj) in
    let fpp := f col in
    let col := set_at col j (xj - hj) in
    let fpm := f col in
    let col := set_at col i (xi - hi) in
    let fmm := f col in
    let col := set_at col j (xj + hj) in
    let fmp := f col in
    let col := set_at col i xi in
    let col := set_at col j xj in
    ((4%:R * hi * hj)^-1 *: ((fpp - fpm) - (fmp - fmm)), col).

(** h_term, h_k and h_i, l.163-194: one matrix for each component of the output. *)
Definition hess_term (order : seq ('I_d * 'I_d)) (col : 'cV[R]_d) : option (('I_m -> 'M[R]_d) * 'cV[R]_d) :=
  if deltas_ok then
    let v := visit hess_entry 0 order col in
    Some (fun k => \matrix_(i, j) v.1 (i, j) k 0, v.2)
  else None.

End FD.

(** The orders in which the program visits the indices: apply_columnwise and the array initialisers of h_k and h_i. *)
Definition columns d : seq 'I_d := enum 'I_d.
Definition entries d : seq ('I_d * 'I_d) := [seq (i, j) | i <- enum 'I_d, j <- enum 'I_d].

(** ** Linearised functions: a value, Jacobians and Hessians for the input and for each perturbation. *)
Record linearized n q m := Linearized {
  zval : 'cV[R]_n -> seq 'cV[R]_q -> 'cV[R]_m;
  zjac : 'cV[R]_n -> seq 'cV[R]_q -> option ('M[R]_(m, n) * seq 'M[R]_(m, q));
  zhess : 'cV[R]_n -> seq 'cV[R]_q -> option (('I_m -> 'M[R]_n) * seq ('I_m -> 'M[R]_q))
}.

(** All results, or none. *)
Fixpoint all_some T (s : seq (option T)) : option (seq T) :=
  match s with
  | [::] => Some [::]
  | Some a :: s' => match all_some s' with Some l => Some (a :: l) | None => None end
  | None :: _ => None
  end.

(** FiniteDifferenceLinearization::jacobian and ::hessian, l.246-300, with jacobian_impl, l.109-118, and hessian_impl,
    l.197-204.  The arguments are restored after each term (as LinzProperties.v proves), so each starts from the
    original ones.  [hx] and [hws] are the deltas; there may be more of them than perturbations. *)
Definition fd_linearization n q m (g : 'cV[R]_n -> seq 'cV[R]_q -> 'cV[R]_m) (hx : 'cV[R]_n) (hws : seq 'cV[R]_q) :
    linearized n q m :=
  Linearized g
    (fun x ws =>
       match jac_term (fun x' => g x' ws) hx (columns n) x,
             all_some [seq jac_term (fun w => g x (set_nth 0 ws k w)) (nth 0 hws k) (columns q) (nth 0 ws k) | k <- iota 0 (size ws)]
       with Some j0, Some js => Some (j0.1, map fst js) | _, _ => None end)
    (fun x ws =>
       match hess_term (fun x' => g x' ws) hx (entries n) x,
             all_some [seq hess_term (fun w => g x (set_nth 0 ws k w)) (nth 0 hws k) (entries q) (nth 0 ws k) | k <- iota 0 (size ws)]
       with Some h0, Some hs => Some (h0.1, map fst hs) | _, _ => None end).

(** ** The transform. *)
Variable L : lib R.

(** LinearTransformBase::sum_noise_terms<false>, LinearTransformBase.hpp l.53-93, for noise of any dimension (in
    KalmanModel.v it has the dimension of the output). *)
Definition lz_cov n q m (J0 : 'M[R]_(m, n)) (js : seq 'M[R]_(m, q)) (P0 : cval R n) (Qs : seq (cval R q)) : cval R m :=
  let z := zip js Qs in
  match P0 with
  | Chol _ => Chol (llq L (projT2 (hcat (mk_blk (J0 *m sqrt_of L P0)) [seq mk_blk (p.1 *m sqrt_of L p.2) | p <- z])))
  | Dense _ =>
      Dense (sa_lower (foldl +%R (J0 *m self_adj P0 *m J0^T) [seq p.1 *m (self_adj p.2 *m p.1^T) | p <- z]))
  end.

(** The cross-covariance of sum_noise_terms<true>, l.59-67 and l.79-84. *)
Definition lz_cross n m (J0 : 'M[R]_(m, n)) (P0 : cval R n) : 'M[R]_(n, m) :=
  match P0 with
  | Chol _ => sqrt_of L P0 *m (J0 *m sqrt_of L P0)^T
  | Dense _ => self_adj P0 *m J0^T
  end.

(** second_order_term, LinearizedTransform.hpp l.88-108, with construct_mean, l.60-64, construct_cov_row, l.67-71, and
    construct_cov, l.74-79. *)
Definition second_order_term d m (H : 'I_m -> 'M[R]_d) (c : cval R d) : gd R m :=
  let P := self_adj c in
  GD (\col_k (2%:R^-1 * \tr (P *m H k)))
     (Dense (sa_lower (\matrix_(i, j) (2%:R^-1 * \tr (P *m H i *m P *m H j))))).

(** add_correction, l.160-176, and zip_tuples, l.111-127: a right fold of operator+. *)
Fixpoint noise_correction q m (hs : seq ('I_m -> 'M[R]_q)) (ns : seq (gd R q)) : option (gd R m) :=
  match hs, ns with
  | H :: hs', w :: ns' =>
      let t := second_order_term H (gcov w) in
      Some (match noise_correction hs' ns' with Some r => g_add L t r | None => t end)
  | _, _ => None
  end.
Definition correction n q m (H0 : 'I_m -> 'M[R]_n) (hs : seq ('I_m -> 'M[R]_q)) (x : gd R n) (ns : seq (gd R q)) : gd R m :=
  let t := second_order_term H0 (gcov x) in
  match noise_correction hs ns with Some r => g_add L t r | None => t end.

(** LinearTransformBase::transform, LinearTransformBase.hpp l.109-143, with LinearizedTransform<order>: the correction is
    added for order 2 (needs_additive_correction, LinearizedTransform.hpp l.34-39).  The result and the
    cross-covariance. *)
Definition lz_transform n q m (order : nat) (g : linearized n q m) (x : gd R n) (ns : seq (gd R q)) :
    option (gd R m * 'M[R]_(n, m)) :=
  let ws := map (@gmean R q) ns in
  match zjac g (gmean x) ws with
  | Some (J0, js) =>
      let out := GD (zval g (gmean x) ws) (lz_cov J0 js (gcov x) (map (@gcov R q) ns)) in
      let cross := lz_cross J0 (gcov x) in
      if (2 <= order)%N then
        match zhess g (gmean x) ws with
        | Some (H0, hs) => Some (g_add L out (correction H0 hs x ns), cross)
        | None => None
        end
      else Some (out, cross)
  | None => None
  end.

End Linz.
