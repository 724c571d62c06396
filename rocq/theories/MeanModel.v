(** Model of means with angular coordinates: linear-algebra/adapters/Mean.hpp, the operators of
    adapters/details/typed-matrix-arithmetic.hpp on means, the mean and the covariance of transformed sample points
    (transforms/SamplePointsTransform.hpp) and the updated mean of filters/KalmanFilter.hpp.

    Components are real numbers; the signs of zeros, which PatModel.v reads, are given from outside.  The calls
    wrap_angles<Coefficients>(x) of Mean.hpp name a function template that takes no pattern (functions/wrap_angles.hpp): modelled
    is wrap_angles of x with the pattern attached.  Likewise "difference_type" (typed-matrix-arithmetic.hpp l.56) is not
    defined in the repository: modelled is the matrix of the differences.  patterns::set_wrapped_component (l.597) is not
    defined either, so writing single components is left out. *)
From Coq Require Import Reals List Arith Bool.
From Verif Require Import PatModel.
Import ListNotations.
Local Open Scope R_scope.

Fixpoint map2 {A B C} (f : A -> B -> C) (a : list A) (b : list B) : list C :=
  match a, b with x :: a', y :: b' => f x y :: map2 f a' b' | _, _ => [] end.

(** Components with the signs of zeros. *)
Definition tag (z : nat -> bool) (c : list R) : list sr := map2 (fun i x => SR x (z i)) (seq 0 (length c)) c.

(** functions/wrap_angles.hpp l.28-44 on one column (StatModel.v has the adapters): from_stat_space(to_stat_space(c)). *)
Definition wrap_column (fast : bool) (ds : list desc) (z : nat -> nat -> bool) (c : list R) : res (list R) :=
  if get_is_euclidean ds then Ret c
  else bind (to_stat ds (tag (z 0%nat) c)) (fun s => from_stat fast ds (tag (z 1%nat) s)).

Fixpoint each_column {A} (f : nat -> A -> res (list R)) (j : nat) (m : list A) : res (list (list R)) :=
  match m with [] => Ret [] | c :: m' => bind (f j c) (fun x => bind (each_column f (S j) m') (fun y => Ret (x :: y))) end.

(** A matrix is a list of columns. *)
Definition matrix : Type := list (list R).
Definition signs : Type := nat -> nat -> nat -> bool.
Definition wrap_angles (fast : bool) (ds : list desc) (z : signs) (m : matrix) : res matrix :=
  each_column (fun j => wrap_column fast ds (z j)) 0 m.

Definition plus : matrix -> matrix -> matrix := map2 (map2 Rplus).
Definition minus : matrix -> matrix -> matrix := map2 (map2 Rminus).
Definition scale (s : R) (m : matrix) : matrix := map (map (fun x => x * s)) m.

(** The operations on variables that are means with the row pattern [ds] and [n] columns. *)
Inductive operation : Type :=
| FromMatrix (x : nat) (m : matrix) (z : signs)   (* Mean.hpp l.100-135 (constructors), 172-210 (assignments), make_mean l.415-465 *)
| FromMean (x y : nat)                            (* l.63-73, 138-153 *)
| FromStat (x : nat) (m : matrix) (z : signs)     (* l.77-90, 156-172: a Euclidean-transformed mean *)
| PlusMean (x y : nat) (z : signs)                (* l.214-221 *)
| PlusMatrix (x : nat) (m : matrix) (z : signs)   (* l.235-243; l.255-265: the columns of m are the draws *)
| MinusMean (x y : nat) (z : signs)               (* l.268-276 *)
| MinusMatrix (x : nat) (m : matrix) (z : signs)  (* l.290-298, 309-319 *)
| Times (x : nat) (s : R) (z : signs)             (* l.328-335 *)
| Divide (x : nat) (s : R) (z : signs)            (* l.344-351 *)
| Sum (x y y' : nat) (z : signs)                  (* x = y + y', typed-matrix-arithmetic.hpp l.23-38 *)
| Scaled (x : nat) (s : R) (y : nat) (z : signs). (* x = y * s, s * y, y / (1/s), l.69-125 *)

Definition state : Type := nat -> option matrix.
Definition update (e : state) (x : nat) (m : matrix) : state := fun y => if Nat.eqb y x then Some m else e y.

(** A matrix with other dimensions does not compile. *)
Definition fits (d n : nat) (m : matrix) : bool := Nat.eqb (length m) n && forallb (fun c => Nat.eqb (length c) d) m.

Section Means.
Variables (fast : bool) (ds : list desc) (n : nat).

(** wrap and store; the unwrapped branch for Euclidean patterns is in [wrap_column]. *)
Definition store (e : state) (x : nat) (z : signs) (m : matrix) : res state :=
  bind (wrap_angles fast ds z m) (fun m' => Ret (update e x m')).
Definition with_mean (e : state) (x : nat) (k : matrix -> res state) : res state :=
  match e x with Some m => k m | None => Undef end.
Definition with_matrix (d : nat) (m : matrix) (k : res state) : res state := if fits d n m then k else Undef.

Definition step (e : state) (op : operation) : res state :=
  let d := get_dimension ds in
  match op with
  | FromMatrix x m z => with_matrix d m (store e x z m)
  | FromMean x y => with_mean e y (fun m => Ret (update e x m))
  | FromStat x m z =>
      with_matrix (get_stat_dimension ds) m
        (bind (each_column (fun j c => from_stat fast ds (tag (z j 1%nat) c)) 0 m) (fun m' => Ret (update e x m')))
  | PlusMean x y z => with_mean e x (fun a => with_mean e y (fun b => store e x z (plus a b)))
  | PlusMatrix x m z => with_mean e x (fun a => with_matrix d m (store e x z (plus a m)))
  | MinusMean x y z => with_mean e x (fun a => with_mean e y (fun b => store e x z (minus a b)))
  | MinusMatrix x m z => with_mean e x (fun a => with_matrix d m (store e x z (minus a m)))
  | Times x s z => with_mean e x (fun a => store e x z (scale s a))
  | Divide x s z => with_mean e x (fun a => if Req_EM_T s 0 then Nan else store e x z (scale (/ s) a))
  | Sum x y y' z => with_mean e y (fun a => with_mean e y' (fun b => store e x z (plus a b)))
  | Scaled x s y z => with_mean e y (fun a => store e x z (scale s a))
  end.

Fixpoint run (e : state) (ops : list operation) : res state :=
  match ops with [] => Ret e | op :: ops' => bind (step e op) (fun e' => run e' ops') end.
End Means.

(** ** Transformed sample points *)

(** ScaledSigmaPointsBase.hpp l.117-126 (likewise CubaturePoints.hpp): y_means * weights. *)
Fixpoint weighted (d : nat) (w : list R) (m : matrix) : list R :=
  match w, m with
  | a :: w', c :: m' => map2 Rplus (map (fun x => a * x) c) (weighted d w' m')
  | _, _ => repeat 0 d
  end.

(** SamplePointsTransform.hpp l.129: from_stat_space(weighted_means(to_stat_space(y_means))). *)
Definition sample_mean (fast : bool) (ds : list desc) (z : signs) (w : list R) (ys : matrix) : res (list R) :=
  bind (each_column (fun j c => to_stat ds (tag (z j 2%nat) c)) 0 ys)
    (fun ss => from_stat fast ds (tag (z 0%nat 3%nat) (weighted (get_stat_dimension ds) w ss))).

(** l.132-133: the differences are not wrapped. *)
Definition deviations (ys : matrix) (y : list R) : matrix := map (fun c => map2 Rminus c y) ys.

(** ScaledSigmaPointsBase.hpp l.141-: the weighted squares of the deviations, in exact arithmetic (SigmaModel.v has the
    decompositions). *)
Fixpoint covariance (w : list R) (m : matrix) (a b : nat) : R :=
  match w, m with
  | k :: w', c :: m' => k * (nth a c 0 * nth b c 0) + covariance w' m' a b
  | _, _ => 0
  end.

(** l.127-160: [values] are the columns g(point + mean, ...). *)
Definition sample_transform (fast : bool) (ds : list desc) (z : signs) (wm wc : list R) (values : matrix) :
  res (list R * (nat -> nat -> R)) :=
  bind (wrap_angles fast ds z values) (fun ys =>
  bind (sample_mean fast ds z wm ys) (fun y => Ret (y, covariance wc (deviations ys y)))).

(** ** The updated mean of a Kalman filter *)

(** KalmanFilter.hpp l.53-58, 67, 74: x + K (Mean {z} - y), made a mean.  [gain] is applied to the difference. *)
Definition update_mean (fast : bool) (dx dy : list desc) (z : signs) (gain : list R -> list R) (x y m : list R) : res (list R) :=
  bind (wrap_column fast dy (z 0%nat) m) (fun m' => wrap_column fast dx (z 1%nat) (map2 Rplus x (gain (map2 Rminus m' y)))).
