(** * Specification: moments of linear-Gaussian models and the textbook Kalman filter.

    Independent of the model: a distribution is just a mean vector and a covariance matrix. *)
From mathcomp Require Import all_ssreflect all_algebra.
From Verif Require Import MatBase GaussModel KalmanModel.
Set Implicit Arguments.
Unset Strict Implicit.
Unset Printing Implicit Defensive.
Import GRing.Theory Num.Theory Order.Theory.
Local Open Scope ring_scope.

Section Spec.
Variable R : rcfType.

Record moments n := Mom { mu : 'cV[R]_n; Sg : 'M[R]_n }.

(** The moments a distribution object represents. *)
Definition mom n (d : gd R n) : moments n := Mom (gmean d) (self_adj (gcov d)).

(** A stored covariance is proper: a self-adjoint matrix is positive semidefinite, a factor is lower triangular. *)
Definition proper n (c : cval R n) : Prop :=
  match c with Dense P => psd P | Chol T => is_trig_mx T end.

(** It also has a factor the back end can find without the semidefinite fallback. *)
Definition rootable n (c : cval R n) : Prop :=
  match c with Dense P => posdef P \/ P = 0 | Chol T => is_trig_mx T end.

Definition is_chol n (c : cval R n) : bool := if c is Chol _ then true else false.

(** y = A x + sum_i B_i w_i, independent w_i; a missing B_i is the identity. *)
Definition lin_image n m (A : 'M[R]_(m, n)) (Bs : seq 'M[R]_m) (x : moments n) (ws : seq (moments m)) : moments m :=
  let B i := nth 1%:M Bs i in
  let w i := nth (Mom 0 0) ws i in
  Mom (A *m mu x + \sum_(i < size ws) B i *m mu (w i))
      (A *m Sg x *m A^T + \sum_(i < size ws) B i *m Sg (w i) *m (B i)^T).

(** Conditioning x on the observation z of y, where P_xy is the cross-covariance. *)
Definition condition n m (x : moments n) (y : moments m) (Pxy : 'M[R]_(n, m)) (z : 'cV[R]_m) : moments n :=
  Mom (mu x + Pxy *m invmx (Sg y) *m (z - mu y)) (Sg x - Pxy *m invmx (Sg y) *m Pxy^T).

(** Error covariance of the affine estimator mu_x + G (z - mu_y). *)
Definition error_cov n m (Pxx : 'M[R]_n) (Pxy : 'M[R]_(n, m)) (Pyy : 'M[R]_m) (G : 'M[R]_(n, m)) : 'M[R]_n :=
  Pxx - G *m Pxy^T - Pxy *m G^T + G *m Pyy *m G^T.

(** The same for the measurement z = H x + v with noise covariance N: the covariance of (1 - G H)(x - mu) - G v. *)
Definition joseph_cov n m (P : 'M[R]_n) (H : 'M[R]_(m, n)) (N : 'M[R]_m) (G : 'M[R]_(n, m)) : 'M[R]_n :=
  (1%:M - G *m H) *m P *m (1%:M - G *m H)^T + G *m N *m G^T.

(** The predicted measurement. *)
Definition predicted n (x : moments n) (u : measurement R n) : moments (mdim u) :=
  lin_image (mH u) (mD u) x (map (@mom _) (mns u)).

(** The textbook filter. *)
Definition spec_step n (x : moments n) (o : fop R n) : moments n :=
  match o with
  | FPredict (PLinear A Bs ns) => lin_image A Bs x (map (@mom _) ns)
  | FPredict (PIdentity ns) => lin_image 1%:M [::] x (map (@mom _) ns)
  | FPredict (PRls lambda ns) => lin_image 1%:M [::] (Mom (mu x) (lambda^-1 *: Sg x)) (map (@mom _) ns)
  | FUpdate u => condition x (predicted x u) (Sg x *m (mH u)^T) (mz u)
  end.
Definition spec_filter n (x : moments n) (os : seq (fop R n)) : moments n := foldl (@spec_step n) x os.

(** Every element of a list satisfies [p]. *)
Fixpoint each T (p : T -> Prop) (s : seq T) : Prop := match s with [::] => True | a :: s' => p a /\ each p s' end.

(** The noise terms of a step satisfy [p]. *)
Definition step_noise (p : forall m, cval R m -> Prop) n (o : fop R n) : Prop :=
  match o with
  | FPredict (PLinear _ _ ns) | FPredict (PIdentity ns) | FPredict (PRls _ ns) => each (fun d => p n (gcov d)) ns
  | FUpdate u => each (fun d => p (mdim u) (gcov d)) (mns u)
  end.

(** A history is well posed from x: forgetting factors are positive, innovation covariances are invertible. *)
Definition well_posed_step n (x : moments n) (o : fop R n) : Prop :=
  match o with
  | FPredict (PRls lambda _) => 0 < lambda
  | FPredict _ => True
  | FUpdate u => Sg (predicted x u) \in unitmx
  end.

Fixpoint holds_along (p : forall n, moments n -> fop R n -> Prop) n (x : moments n) (os : seq (fop R n)) : Prop :=
  match os with [::] => True | o :: os' => p n x o /\ holds_along p (spec_step x o) os' end.

(** The posterior of every update is positive definite. *)
Definition definite_step n (x : moments n) (o : fop R n) : Prop :=
  if o is FUpdate _ then posdef (Sg (spec_step x o)) else True.

(** ** Consecutive transforms: the composition of the affine maps. *)
Fixpoint chain_image n k (c : chain R n k) : moments n -> moments k :=
  match c with
  | ChOne _ _ A Bs ns => fun x => lin_image A Bs x (map (@mom _) ns)
  | ChCons _ _ _ A Bs ns c' => fun x => chain_image c' (lin_image A Bs x (map (@mom _) ns))
  end.
(** The product of the matrices. *)
Fixpoint chain_mx n k (c : chain R n k) : 'M[R]_(k, n) :=
  match c with
  | ChOne _ _ A _ _ => A
  | ChCons _ _ _ A _ _ c' => chain_mx c' *m A
  end.
Fixpoint chain_noise (p : forall m, cval R m -> Prop) n k (c : chain R n k) : Prop :=
  match c with
  | ChOne _ _ _ _ ns => each (fun d => p _ (gcov d)) ns
  | ChCons _ _ _ _ _ ns c' => each (fun d => p _ (gcov d)) ns /\ chain_noise p c'
  end.
(** No noise at all. *)
Fixpoint quiet n k (c : chain R n k) : Prop :=
  match c with ChOne _ _ _ _ ns => ns = [::] | ChCons _ _ _ _ _ ns c' => ns = [::] /\ quiet c' end.

(** ** Information form. *)

(** Mean and covariance of the total noise of a measurement z = H x + sum_i D_i w_i. *)
Definition noise_of n (u : measurement R n) : moments (mdim u) :=
  let D i := nth 1%:M (mD u) i in
  let w i := nth (Mom 0 0) (map (@mom _) (mns u)) i in
  Mom (\sum_(i < size (mns u)) D i *m mu (w i)) (\sum_(i < size (mns u)) D i *m Sg (w i) *m (D i)^T).

(** Information matrix and information vector of a measurement. *)
Definition info n (u : measurement R n) : 'M[R]_n := (mH u)^T *m invmx (Sg (noise_of u)) *m mH u.
Definition info_vec n (u : measurement R n) : 'cV[R]_n := (mH u)^T *m invmx (Sg (noise_of u)) *m (mz u - mu (noise_of u)).

(** Two measurements made at once: stacked, with independent noises. *)
Definition stacked n (u v : measurement R n) : measurement R n :=
  Meas (col_mx (mz u) (mz v)) (col_mx (mH u) (mH v)) [::]
       [:: GD (col_mx (mu (noise_of u)) (mu (noise_of v)))
              (Dense (block_mx (Sg (noise_of u)) 0 0 (Sg (noise_of v))))].

(** ** Least squares. *)

(** Exponentially forgetting least squares: the cost of a parameter value x after the samples [ms] (H, R and z, oldest
    first), with forgetting factor lambda. *)
Record sample n := Sample { sdim : nat; sH : 'M[R]_(sdim, n); sR : 'M[R]_sdim; sz : 'cV[R]_sdim }.
Definition sample0 n : sample n := Sample (0 : 'M_(0, n)) 0 0.
Definition sample_of n (u : measurement R n) : sample n :=
  Sample (mH u) (Sg (noise_of u)) (mz u - mu (noise_of u)).
Definition sq_err n (s : sample n) (x : 'cV[R]_n) : R := qform (invmx (sR s)) (sz s - sH s *m x).
Definition ls_cost n (lambda : R) (x0 : moments n) (ms : seq (sample n)) (x : 'cV[R]_n) : R :=
  let N := size ms in
  lambda ^+ N * qform (invmx (Sg x0)) (x - mu x0)
  + \sum_(i < N) lambda ^+ (N - i.+1) * sq_err (nth (sample0 n) ms i) x.

End Spec.
