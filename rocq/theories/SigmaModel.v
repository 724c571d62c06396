(** * Model: sample-point (sigma-point) transforms.

    Files (under /repo/OpenKalman/transforms): sample-points/Unscented.hpp, sample-points/CubaturePoints.hpp,
    sample-points/SphericalSimplex.hpp, details/ScaledSigmaPointsBase.hpp, SamplePointsTransform.hpp.
    Simplifications as in GaussModel.v.  The independent inputs of a transform (the state, then the noise terms) may have
    any dimensions; they are kept in one stacked vector, and a tuple of sample-point matrices is the stack of these
    matrices.  (SamplePointsTransform.hpp calls oin::tuple_slice, which no longer exists in the repository; it is
    read as the elements [begin, end) of a tuple, and construct_ps, l.71-86, as grouping the points by transformation.) *)
From mathcomp Require Import all_ssreflect all_algebra.
From Verif Require Import MatBase LibModel GaussModel KalmanModel.
Set Implicit Arguments.
Unset Strict Implicit.
Unset Printing Implicit Defensive.
Import GRing.Theory Num.Theory Order.Theory.
Local Open Scope ring_scope.

Section Sigma.
Variable R : rcfType.
Variable L : lib R.

(** A distribution of any dimension, and the total dimension of a tuple of them (count_dim: SamplePointsTransform.hpp
    l.52-66; "dim" in sample_points: Unscented.hpp l.217, CubaturePoints.hpp l.124). *)
Definition anyd := {k : nat & gd R k}.
Definition mkd k (d : gd R k) : anyd := existT _ k d.
Fixpoint dimsum (ds : seq anyd) : nat := match ds with [::] => 0 | d :: ds' => (projT1 d + dimsum ds')%N end.
Fixpoint jmean (ds : seq anyd) : 'cV[R]_(dimsum ds) :=
  match ds with [::] => 0 | d :: ds' => col_mx (gmean (projT2 d)) (jmean ds') end.

(** The columns | 0 ... | delta | -delta | 0 ... | with delta at position [pos]: Unscented.hpp l.153-196, CubaturePoints.hpp
    l.62-103 (the branches differ only in which of the zero blocks are empty). *)
Definition entry k (delta : 'M[R]_k) (i : 'I_k) (c : nat) : R := if insub c is Some c' then delta i c' else 0.
Definition frame k (count pos : nat) (delta : 'M[R]_k) : 'M[R]_(k, count) :=
  \matrix_(i, j)
    if (j < pos)%N then 0
    else if (j < pos + k)%N then entry delta i (j - pos)
    else if (j < pos + k + k)%N then - entry delta i (j - (pos + k))
    else 0.

(** delta = square_root(scale * covariance_of(d)): Unscented.hpp l.150-151, CubaturePoints.hpp l.59-60. *)
Definition delta k (c : cval R k) (scale : R) : option 'M[R]_k :=
  match c_mul L c scale with Some c' => Some (sqrt_of L c') | None => None end.

(** sigma_points_impl / sample_points_impl: Unscented.hpp l.136-197, CubaturePoints.hpp l.49-104. *)
Fixpoint points (scale : R) (count pos : nat) (ds : seq anyd) : option 'M[R]_(dimsum ds, count) :=
  match ds return option 'M[R]_(dimsum ds, count) with
  | [::] => Some 0
  | d :: ds' =>
      match delta (gcov (projT2 d)) scale, points scale count (pos + projT1 d + projT1 d) ds' with
      | Some D, Some X => Some (col_mx (frame count pos D) X)
      | _, _ => None
      end
  end.

(** A family of sample points. *)
Record spset := SP {
  sp_count : nat -> nat;
  sp_points : forall dim (ds : seq anyd), option 'M[R]_(dimsum ds, sp_count dim);
  sp_mean : forall dim m, 'M[R]_(m, sp_count dim) -> 'cV[R]_m;
  (** covariance<dim, InputDist, true>(x_deviations, y_deviations); the Boolean is cholesky_form<InputDist> *)
  sp_cov : forall dim n m, bool -> 'M[R]_(n, sp_count dim) -> 'M[R]_(m, sp_count dim) -> option (cval R m * 'M[R]_(n, m))
}.

(** ** Unscented points. *)

(** Parameters: Unscented.hpp l.29-53. *)
Record uparams := UP { ualpha : R; ubeta : R; ukappa : nat -> R }.

Section Unscented.
Variable p : uparams.
Variable dim : nat.
(** Unscented.hpp l.107-123. *)
Definition unscaled_W0 : R := ukappa p dim / (dim%:R + ukappa p dim).
Definition unscaled_W : R := 2%:R^-1 / (dim%:R + ukappa p dim).
(** ScaledSigmaPointsBase.hpp l.52-83. *)
Definition W : R := unscaled_W / (ualpha p * ualpha p).
Definition W_m0 : R := (unscaled_W0 - 1) / (ualpha p * ualpha p) + 1.
Definition W_c0 : R := W_m0 + 1 - ualpha p * ualpha p + ubeta p.
Definition u_scale : R := ualpha p * ualpha p * (ukappa p dim + dim%:R).
End Unscented.

(** Number of points, dim * 2 + 1: Unscented.hpp l.84-85. *)
Definition u_count (dim : nat) : nat := (1 + dim * 2)%N.

(** cat_weights, mean_weights, covariance_weights: ScaledSigmaPointsBase.hpp l.90-112. *)
Definition weights count (w0 w : R) : 'cV[R]_count := \col_j (if val j == 0%N then w0 else w).
Definition mean_weights p dim : 'cV[R]_(u_count dim) := weights _ (W_m0 p dim) (W p dim).
Definition cov_weights p dim : 'cV[R]_(u_count dim) := weights _ (W_c0 p dim) (W p dim).

(** to_diagonal(weights). *)
Definition dg count (w : 'cV[R]_count) : 'M[R]_count := diag_mx w^T.

(** weighted_means: l.116-130. *)
Definition u_mean p dim m (Y : 'M[R]_(m, u_count dim)) : 'cV[R]_m := Y *m mean_weights p dim.

(** covariance: l.143-217.  [None]: the square root of a negative weight (NaN), or an exception in rank_update. *)
Definition u_cov p dim n m (ch : bool) (X : 'M[R]_(n, u_count dim)) (Y : 'M[R]_(m, u_count dim)) :
    option (cval R m * 'M[R]_(n, m)) :=
  let w := cov_weights p dim in
  if ch then
    if W p dim < 0 then None else
    if W_c0 p dim < 0 then
      let tail := rsubmx (Y : 'M[R]_(m, 1 + dim * 2)) in
      let head := lsubmx (Y : 'M[R]_(m, 1 + dim * 2)) in
      let sqrt_tail := map_mx Num.sqrt (dsubmx (w : 'cV[R]_(1 + dim * 2))) in
      match lrank L (llq L (tail *m dg sqrt_tail)) head (W_c0 p dim) with
      | Some T => Some (Chol T, X *m dg w *m Y^T)
      | None => None
      end
    else Some (Chol (llq L (Y *m dg (map_mx Num.sqrt w))), X *m dg w *m Y^T)
  else
    let w_yT := dg w *m Y^T in
    Some (Dense (sa_lower (Y *m w_yT)), X *m w_yT).

(** Unscented<Parameters>: sample_points, l.208-219. *)
Definition unscented p : spset :=
  @SP u_count (fun dim ds => points (u_scale p dim) (u_count dim) 1 ds) (u_mean p) (u_cov p).

(** ** Cubature points. *)
Definition c_count (dim : nat) : nat := (dim * 2)%N.

(** weighted_means: CubaturePoints.hpp l.136-149 (average_reduce<1>: linear-algebra/functions/average_reduce.hpp l.33-35). *)
Definition c_mean dim m (Y : 'M[R]_(m, c_count dim)) : 'cV[R]_m :=
  (c_count dim)%:R^-1 *: \col_i \sum_j Y i j.

(** covariance: CubaturePoints.hpp l.163-209. *)
Definition c_cov dim n m (ch : bool) (X : 'M[R]_(n, c_count dim)) (Y : 'M[R]_(m, c_count dim)) :
    option (cval R m * 'M[R]_(n, m)) :=
  let iw : R := (c_count dim)%:R^-1 in
  if ch then Some (Chol (llq L (Num.sqrt iw *: Y)), (iw *: X) *m Y^T)
  else let w_yT := iw *: Y^T in Some (Dense (sa_lower (Y *m w_yT)), X *m w_yT).

Definition cubature : spset :=
  @SP c_count (fun dim ds => points dim%:R (c_count dim) 0 ds) c_mean c_cov.

(** ** The transform. *)
Variable sp : spset.

Definition form n (c : cval R n) : bool := if c is Chol _ then true else false.

(** y_means_impl: SamplePointsTransform.hpp l.89-96, and the deviations, l.141-143. *)
Definition y_means count n q m (g : 'cV[R]_n -> 'cV[R]_q -> 'cV[R]_m) (P : 'M[R]_(n, count)) (Q : 'M[R]_(q, count))
    (mx : 'cV[R]_n) (mq : 'cV[R]_q) : 'M[R]_(m, count) :=
  \matrix_(i, j) g (col j P + mx) (col j Q + mq) i 0.
Definition deviations count m (Y : 'M[R]_(m, count)) (y : 'cV[R]_m) : 'M[R]_(m, count) := \matrix_(i, j) (Y i j - y i 0).

(** transform with a single transformation g and noise terms ds: l.126-168, l.181-214, l.237-257, l.279-299.  The result of
    operator() is the first component. *)
Definition sp_transform n m (x : gd R n) (ds : seq anyd) (g : 'cV[R]_n -> 'cV[R]_(dimsum ds) -> 'cV[R]_m) :
    option (gd R m * 'M[R]_(n, m)) :=
  let dim := (n + dimsum ds)%N in
  match sp_points sp dim (mkd x :: ds) with
  | None => None
  | Some X =>
      let P := usubmx X in
      let Y := y_means g P (dsubmx X) (gmean x) (jmean ds) in
      let y := sp_mean Y in
      match sp_cov (form (gcov x)) P (deviations Y y) with
      | Some (c, cross) => Some (GD y c, cross)
      | None => None
      end
  end.

(** ** Consecutive transformations: l.116-168 with several elements of Gs.

    Each transformation has its own group of noise terms; all sample points are made at once, and the transformed points of
    one transformation are the points of the next (with its mean). *)
Fixpoint grp1 count (ds ds' : seq anyd) : 'M[R]_(dimsum (ds ++ ds'), count) -> 'M[R]_(dimsum ds, count) :=
  match ds return 'M[R]_(dimsum (ds ++ ds'), count) -> 'M[R]_(dimsum ds, count) with
  | [::] => fun _ => 0
  | d :: ds0 => fun X => col_mx (usubmx X) (@grp1 count ds0 ds' (dsubmx X))
  end.
Fixpoint grp2 count (ds ds' : seq anyd) : 'M[R]_(dimsum (ds ++ ds'), count) -> 'M[R]_(dimsum ds', count) :=
  match ds return 'M[R]_(dimsum (ds ++ ds'), count) -> 'M[R]_(dimsum ds', count) with
  | [::] => fun X => X
  | d :: ds0 => fun X => @grp2 count ds0 ds' (dsubmx X)
  end.

Inductive gchain : nat -> seq anyd -> nat -> Type :=
| GLast n k ds (g : 'cV[R]_n -> 'cV[R]_(dimsum ds) -> 'cV[R]_k) : gchain n ds k
| GCons n m k ds ds' (g : 'cV[R]_n -> 'cV[R]_(dimsum ds) -> 'cV[R]_m) (c : gchain m ds' k) : gchain n (ds ++ ds') k.

Fixpoint last_n n ds k (c : gchain n ds k) : nat :=
  match c with GLast n _ _ _ => n | GCons _ _ _ _ _ _ c' => last_n c' end.

(** transform_impl: l.126-168; the Boolean is the form of the first input. *)
Fixpoint sp_run dim (ch : bool) n ds k (c : gchain n ds k) :
    'M[R]_(n, sp_count sp dim) -> 'M[R]_(dimsum ds, sp_count sp dim) -> 'cV[R]_n -> option (gd R k * 'M[R]_(last_n c, k)) :=
  match c with
  | GLast n k ds g => fun P Q mx =>
      let Y := y_means g P Q mx (jmean ds) in
      let y := sp_mean Y in
      match sp_cov ch P (deviations Y y) with
      | Some (c, cross) => Some (GD y c, cross)
      | None => None
      end
  | GCons n m k ds ds' g c' => fun P Q mx =>
      let Y := y_means g P (grp1 Q) mx (jmean ds) in
      let y := sp_mean Y in
      let yp := deviations Y y in
      match sp_cov ch P yp with
      | Some _ => sp_run ch c' yp (grp2 Q) y
      | None => None
      end
  end.

Definition sp_chain n ds k (x : gd R n) (c : gchain n ds k) : option (gd R k * 'M[R]_(last_n c, k)) :=
  let dim := (n + dimsum ds)%N in
  match sp_points sp dim (mkd x :: ds) with
  | None => None
  | Some X => sp_run (form (gcov x)) c (usubmx X) (dsubmx X) (gmean x)
  end.

(** ** The filter with sample-point transforms: KalmanFilter.hpp l.88-102, l.154-158, for any process and measurement functions. *)
Variable S : solver R.
Inductive sfop n :=
| SPredict ds (f : 'cV[R]_n -> 'cV[R]_(dimsum ds) -> 'cV[R]_n)
| SUpdate m (z : 'cV[R]_m) ds (h : 'cV[R]_n -> 'cV[R]_(dimsum ds) -> 'cV[R]_m).
Definition sp_fstep n (x : gd R n) (o : sfop n) : option (gd R n) :=
  match o with
  | SPredict _ f => match sp_transform x f with Some (y, _) => Some y | None => None end
  | SUpdate _ z _ h => match sp_transform x h with Some (y, Pxy) => update_step L S x y Pxy z | None => None end
  end.
Fixpoint sp_filter n (x : gd R n) (os : seq (sfop n)) : option (gd R n) :=
  match os with
  | [::] => Some x
  | o :: os' => match sp_fstep x o with Some x' => sp_filter x' os' | None => None end
  end.

End Sigma.

