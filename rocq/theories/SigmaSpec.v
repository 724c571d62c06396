(** * Specification for sample-point transforms.

    Independent of the algorithms: joint moments of independent inputs, weighted sample moments. *)
From mathcomp Require Import all_ssreflect all_algebra.
From Verif Require Import MatBase GaussModel KalmanModel KalmanSpec SigmaModel.
Set Implicit Arguments.
Unset Strict Implicit.
Unset Printing Implicit Defensive.
Import GRing.Theory Num.Theory Order.Theory.
Local Open Scope ring_scope.

Section Spec.
Variable R : rcfType.

(** The joint covariance of independent inputs: block diagonal. *)
Fixpoint jcov (ds : seq (anyd R)) : 'M[R]_(dimsum ds) :=
  match ds with [::] => 0 | d :: ds' => block_mx (self_adj (gcov (projT2 d))) 0 0 (jcov ds') end.

Definition rootable_d (d : anyd R) : Prop := rootable (gcov (projT2 d)).

(** Weighted sample moments: one sample per column. *)
Definition wmean m count (w : 'I_count -> R) (Y : 'M[R]_(m, count)) : 'cV[R]_m := \sum_j w j *: col j Y.
Definition wcov n m count (w : 'I_count -> R) (X : 'M[R]_(n, count)) (Y : 'M[R]_(m, count)) : 'M[R]_(n, m) :=
  \sum_j w j *: (col j X *m (col j Y)^T).

(** The scaled unscented weights of the literature (Wan and van der Merwe 2000): lambda = alpha^2 (n + kappa) - n. *)
Section Weights.
Variables (alpha beta kappa : R) (dim : nat).
Definition ut_lambda : R := alpha ^+ 2 * (dim%:R + kappa) - dim%:R.
Definition ut_wm (j : 'I_(1 + dim * 2)) : R :=
  if val j == 0%N then ut_lambda / (dim%:R + ut_lambda) else (2%:R * (dim%:R + ut_lambda))^-1.
Definition ut_wc (j : 'I_(1 + dim * 2)) : R :=
  if val j == 0%N then ut_lambda / (dim%:R + ut_lambda) + (1 - alpha ^+ 2 + beta) else (2%:R * (dim%:R + ut_lambda))^-1.
End Weights.

(** Deviations of the columns of Y from a point. *)
Definition dev_from m count (Y : 'M[R]_(m, count)) (y : 'cV[R]_m) : 'M[R]_(m, count) := Y - y *m const_mx 1.

(** The columns of Y are the images of the points mean + column of X. *)
Definition images n q m count (g : 'cV[R]_n -> 'cV[R]_q -> 'cV[R]_m) (x : 'cV[R]_n) (w : 'cV[R]_q) (X : 'M[R]_(n + q, count))
    (Y : 'M[R]_(m, count)) : Prop :=
  forall j, col j Y = g (x + col j (usubmx X)) (w + col j (dsubmx X)).

(** Moments of the output y = A x + B w + b, where w are all the noise terms of [ds] stacked. *)
Definition affine_image n m (x : moments R n) ds (A : 'M[R]_(m, n)) (B : 'M[R]_(m, dimsum ds)) (b : 'cV[R]_m) : moments R m :=
  Mom (A *m mu x + B *m jmean ds + b) (A *m Sg x *m A^T + B *m jcov ds *m B^T).

(** Noise terms that all have the dimension of the output, as arguments of a linear transformation. *)
Fixpoint unstack m (ns : seq (gd R m)) : 'cV[R]_(dimsum (map (@mkd R m) ns)) -> seq 'cV[R]_m :=
  match ns return 'cV[R]_(dimsum (map (@mkd R m) ns)) -> seq 'cV[R]_m with
  | [::] => fun _ => [::]
  | d :: ns' => fun w => usubmx w :: @unstack m ns' (dsubmx w)
  end.

(** The composition of a chain of functions. *)
Fixpoint gcomp n ds k (c : gchain n ds k) : 'cV[R]_n -> 'cV[R]_(dimsum ds) -> 'cV[R]_k :=
  match c with
  | GLast _ _ _ g => g
  | GCons _ _ _ _ _ g c' => fun v w => gcomp c' (g v (grp1 w)) (grp2 w)
  end.

(** Affine steps of a filter, and the textbook filter for them. *)
Inductive aop n :=
| AProcess (ds : seq (anyd R)) (A : 'M[R]_n) (B : 'M[R]_(n, dimsum ds)) (b : 'cV[R]_n)
| AMeasure m (z : 'cV[R]_m) (ds : seq (anyd R)) (H : 'M[R]_(m, n)) (D : 'M[R]_(m, dimsum ds)) (b : 'cV[R]_m).
Definition as_step n (o : aop n) : sfop R n :=
  match o with
  | AProcess ds A B b => SPredict (fun v (w : 'cV_(dimsum ds)) => A *m v + B *m w + b)
  | AMeasure _ z ds H D b => SUpdate z (fun v (w : 'cV_(dimsum ds)) => H *m v + D *m w + b)
  end.
Definition affine_step n (x : moments R n) (o : aop n) : moments R n :=
  match o with
  | AProcess ds A B b => affine_image x A B b
  | AMeasure _ z ds H D b => condition x (affine_image x H D b) (Sg x *m H^T) z
  end.
Definition affine_filter n (x : moments R n) (os : seq (aop n)) : moments R n := foldl (@affine_step n) x os.
Definition a_noise n (o : aop n) : Prop :=
  match o with AProcess ds _ _ _ | AMeasure _ _ ds _ _ _ => each rootable_d ds end.
Definition a_posed n (x : moments R n) (o : aop n) : Prop :=
  match o with AProcess _ _ _ _ => True | AMeasure _ z ds H D b => Sg (affine_image x H D b) \in unitmx end.
Fixpoint a_along n (p : moments R n -> aop n -> Prop) (x : moments R n) (os : seq (aop n)) : Prop :=
  match os with [::] => True | o :: os' => p x o /\ a_along p (affine_step x o) os' end.

End Spec.
