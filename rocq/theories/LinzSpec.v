(** * Specification: second-order expansions and moments of random vectors. *)
From mathcomp Require Import all_ssreflect all_algebra.
From Verif Require Import MatBase.
Set Implicit Arguments.
Unset Strict Implicit.
Unset Printing Implicit Defensive.
Import GRing.Theory Num.Theory Order.Theory.
Local Open Scope ring_scope.

Section Spec.
Variable R : rcfType.

(** The vector of values of quadratic forms. *)
Definition qforms d m (H : 'I_m -> 'M[R]_d) (v : 'cV[R]_d) : 'cV[R]_m := \col_k qform (H k) v.

(** A bilinear form. *)
Definition bil a b (C : 'M[R]_(a, b)) (u : 'cV[R]_a) (v : 'cV[R]_b) : R := (u^T *m C *m v) 0 0.

(** [f] is a polynomial of degree at most two, with Jacobian J and Hessians H (symmetric) at x. *)
Definition quadratic_at d m (f : 'cV[R]_d -> 'cV[R]_m) (x : 'cV[R]_d) (J : 'M[R]_(m, d)) (H : 'I_m -> 'M[R]_d) : Prop :=
  (forall k, (H k)^T = H k) /\
  forall v, f (x + v) = f x + J *m v + 2%:R^-1 *: qforms H v.

Definition even_fun d m (E : 'cV[R]_d -> 'cV[R]_m) : Prop := forall v, E (- v) = E v.
Definition odd_fun d m (O : 'cV[R]_d -> 'cV[R]_m) : Prop := forall v, O (- v) = - O v.

(** The arguments [ws], each moved by its own vector. *)
Definition shifted q (ws : seq 'cV[R]_q) (us : nat -> 'cV[R]_q) : seq 'cV[R]_q :=
  mkseq (fun k => nth 0 ws k + us k) (size ws).

(** [g] is a polynomial of degree at most two in all its arguments together, with Jacobians J0, J and Hessians H0, H; the
    interaction of the input with the k-th perturbation is given by the bilinear forms C _ k, that of the k-th with the
    l-th perturbation by D _ k l. *)
Definition quadratic_jointly n q m (g : 'cV[R]_n -> seq 'cV[R]_q -> 'cV[R]_m) (x : 'cV[R]_n) (ws : seq 'cV[R]_q)
    (J0 : 'M[R]_(m, n)) (J : nat -> 'M[R]_(m, q)) (H0 : 'I_m -> 'M[R]_n) (H : nat -> 'I_m -> 'M[R]_q)
    (C : 'I_m -> nat -> 'M[R]_(n, q)) (D : 'I_m -> nat -> nat -> 'M[R]_q) : Prop :=
  [/\ forall c, (H0 c)^T = H0 c,
      forall k c, (H k c)^T = H k c &
      forall v us, g (x + v) (shifted ws us) =
        g x ws + (J0 *m v + \sum_(k < size ws) J k *m us k)
        + 2%:R^-1 *: (qforms H0 v + \sum_(k < size ws) qforms (H k) (us k))
        + \col_c (\sum_(k < size ws) bil (C c k) v (us k)
                  + \sum_(k < size ws) \sum_(l < size ws | k != l) bil (D c k l) (us k) (us l))].

(** Without interactions between the arguments. *)
Definition quadratic_separately n q m (g : 'cV[R]_n -> seq 'cV[R]_q -> 'cV[R]_m) x ws J0 J H0 H : Prop :=
  @quadratic_jointly n q m g x ws J0 J H0 H (fun _ _ => 0) (fun _ _ _ => 0).

(** ** Finite probability spaces. *)
Section Prob.
Variables (W : finType) (p : W -> R).

(** Expectation of a vector (or matrix). *)
Definition expect a b (X : W -> 'M[R]_(a, b)) : 'M[R]_(a, b) := \sum_w p w *: X w.
(** Expectation of a number. *)
Definition expect1 (X : W -> R) : R := \sum_w p w * X w.
(** Cross-covariance of two vectors. *)
Definition covar a b (X : W -> 'cV[R]_a) (Y : W -> 'cV[R]_b) : 'M[R]_(a, b) :=
  expect (fun w => (X w - expect X) *m (Y w - expect Y)^T).

Definition probability : Prop := \sum_w p w = 1.

(** Mean [mu] and covariance [P]. *)
Definition has_moments d (X : W -> 'cV[R]_d) (mu : 'cV[R]_d) (P : 'M[R]_d) : Prop :=
  expect X = mu /\ covar X X = P.

(** Third and fourth central moments as those of a Gaussian distribution. *)
Definition gaussian_moments d (X : W -> 'cV[R]_d) (mu : 'cV[R]_d) (P : 'M[R]_d) : Prop :=
  let u w i := X w i 0 - mu i 0 in
  (forall i j k, expect1 (fun w => u w i * u w j * u w k) = 0) /\
  (forall i j k l, expect1 (fun w => u w i * u w j * u w k * u w l) =
     P i j * P k l + P i k * P j l + P i l * P j k).

(** Independence. *)
Definition independent a b (X : W -> 'cV[R]_a) (Y : W -> 'cV[R]_b) : Prop :=
  forall (phi : 'cV[R]_a -> R) (psi : 'cV[R]_b -> R),
    expect1 (fun w => phi (X w) * psi (Y w)) = expect1 (fun w => phi (X w)) * expect1 (fun w => psi (Y w)).

(** Uncorrelated vectors. *)
Definition uncorrelated a b (X : W -> 'cV[R]_a) (Y : W -> 'cV[R]_b) : Prop := covar X Y = 0.

End Prob.
End Spec.
