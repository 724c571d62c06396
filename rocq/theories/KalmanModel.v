(** * Model: linear statistical transforms and the Kalman filter.

    Files (under /repo/OpenKalman): transforms/LinearTransform.hpp, transforms/details/LinearTransformBase.hpp,
    transforms/details/TransformBase.hpp, transforms/IdentityTransform.hpp,
    transforms/RecursiveLeastSquaresTransform.hpp, transformations/LinearTransformation.hpp,
    transformations/IdentityTransformation.hpp, filters/KalmanFilter.hpp.
    Simplifications as in GaussModel.v (real exact scalars, Euclidean coefficients, lower triangles). *)
From mathcomp Require Import all_ssreflect all_algebra.
From Verif Require Import MatBase LibModel GaussModel.
Set Implicit Arguments.
Unset Strict Implicit.
Unset Printing Implicit Defensive.
Import GRing.Theory Num.Theory Order.Theory.
Local Open Scope ring_scope.

(** solve(A, B): linear-algebra/functions/solve.hpp, eigen-library-interface.hpp l.1347-1427: an oracle.  Contract: when A
    is invertible, the result solves A X = B. *)
Definition solver (R : rcfType) := forall n m, 'M[R]_n -> 'M[R]_(n, m) -> 'M[R]_(n, m).
Definition solver_ok (R : rcfType) (S : solver R) : Prop :=
  forall n m (A : 'M[R]_n) (B : 'M[R]_(n, m)), A \in unitmx -> A *m S n m A B = B.

Section Kalman.
Variable R : rcfType.
Variable L : lib R.
Variable S : solver R.

(** ** Linear transformations. *)

(** LinearTransformation{A, B_1, ..., B_p}::jacobian for k perturbations: LinearTransformation.hpp l.191-206: the first k
    perturbation matrices, padded with identity matrices if there are fewer than k. *)
Definition pert_jacobians m (Bs : seq 'M[R]_m) (k : nat) : seq 'M[R]_m :=
  if (size Bs < k)%N then Bs ++ nseq (k - size Bs) 1%:M else take k Bs.

(** LinearTransformation::operator(): LinearTransformation.hpp l.129-133, l.175-181: the sum of the Jacobians times the inputs
    (a right fold over "+"). *)
Definition lin_apply n m (A : 'M[R]_(m, n)) (Bs : seq 'M[R]_m) (x : 'cV[R]_n) (ws : seq 'cV[R]_m) : 'cV[R]_m :=
  let js := pert_jacobians Bs (size ws) in
  A *m x + \sum_(p <- zip js ws) p.1 *m p.2.

(** A linearised function: its value and its Jacobians (for the input, and for each perturbation) at given arguments. *)
Record linfun n m := LinFun {
  lvalue : 'cV[R]_n -> seq 'cV[R]_m -> 'cV[R]_m;
  ljac0 : 'M[R]_(m, n);
  ljacs : nat -> seq 'M[R]_m
}.

Definition linear_transformation n m (A : 'M[R]_(m, n)) (Bs : seq 'M[R]_m) : linfun n m :=
  LinFun (lin_apply A Bs) A (pert_jacobians Bs).

(** IdentityTransformation: IdentityTransformation.hpp l.53-71: the value is the sum of all arguments; the Jacobian of
    each perturbation is a zero matrix. *)
Definition identity_transformation n : linfun n n :=
  LinFun (fun x ws => foldl +%R x ws) 1%:M (fun k => nseq k 0).

(** concatenate_horizontal of any number of blocks. *)
Definition blk m := {k : nat & 'M[R]_(m, k)}.
Definition mk_blk m k (A : 'M[R]_(m, k)) : blk m := existT _ k A.
Fixpoint hcat m (b : blk m) (bs : seq (blk m)) : blk m :=
  match bs with
  | [::] => b
  | b' :: bs' => let c := hcat b' bs' in mk_blk (row_mx (projT2 b) (projT2 c))
  end.

(** LinearTransformBase::sum_noise_terms<return_cross = true>: LinearTransformBase.hpp l.53-93.  The form of the first
    distribution selects the branch.  [js] are the Jacobians of the noise terms; min(#noise, #js) of them are used
    (l.118, l.130). *)
Definition sum_noise_terms n m (J0 : 'M[R]_(m, n)) (js : seq 'M[R]_m) (P0 : cval R n) (Qs : seq (cval R m)) :
    cval R m * 'M[R]_(n, m) :=
  let z := zip js Qs in
  match P0 with
  | Chol _ =>
      let sqrt_c0 := sqrt_of L P0 in
      let term0 := J0 *m sqrt_c0 in
      (Chol (llq L (projT2 (hcat (mk_blk term0) [seq mk_blk (p.1 *m sqrt_of L p.2) | p <- z]))),
       sqrt_c0 *m term0^T)
  | Dense _ =>
      let cross := self_adj P0 *m J0^T in
      (Dense (sa_lower (foldl +%R (J0 *m cross) [seq p.1 *m (self_adj p.2 *m p.1^T) | p <- z])), cross)
  end.

(** sum_noise_terms<return_cross = false>: the dense branch associates the products differently (l.87-90). *)
Definition sum_noise_terms_nc n m (J0 : 'M[R]_(m, n)) (js : seq 'M[R]_m) (P0 : cval R n) (Qs : seq (cval R m)) : cval R m :=
  let z := zip js Qs in
  match P0 with
  | Chol _ => Chol (llq L (projT2 (hcat (mk_blk (J0 *m sqrt_of L P0)) [seq mk_blk (p.1 *m sqrt_of L p.2) | p <- z])))
  | Dense _ =>
      Dense (sa_lower (foldl +%R (J0 *m self_adj P0 *m J0^T) [seq p.1 *m (self_adj p.2 *m p.1^T) | p <- z]))
  end.

(** LinearTransform::operator()(x, g, noise...): LinearTransformBase.hpp l.109-143, LinearTransform.hpp l.61-64. *)
Definition lin_transform n m (g : linfun n m) (x : gd R n) (ns : seq (gd R m)) : gd R m :=
  GD (lvalue g (gmean x) (map (@gmean R m) ns))
     (sum_noise_terms_nc (ljac0 g) (ljacs g (size ns)) (gcov x) (map (@gcov R m) ns)).

(** LinearTransform::transform_with_cross_covariance(x, g, noise...). *)
Definition lin_transform_cross n m (g : linfun n m) (x : gd R n) (ns : seq (gd R m)) : gd R m * 'M[R]_(n, m) :=
  let r := sum_noise_terms (ljac0 g) (ljacs g (size ns)) (gcov x) (map (@gcov R m) ns) in
  (GD (lvalue g (gmean x) (map (@gmean R m) ns)) r.1, r.2).

(** ** Identity and recursive-least-squares transforms. *)

(** IdentityTransform::operator()(x, noise...): IdentityTransform.hpp l.54-57 and transform_with_cross_covariance l.79-83. *)
Definition id_transform n (x : gd R n) (ns : seq (gd R n)) : gd R n := foldl (@g_add R L n) x ns.
Definition id_transform_cross n (x : gd R n) (ns : seq (gd R n)) : gd R n * 'M[R]_n :=
  (id_transform x ns, self_adj (gcov x)).

(** RecursiveLeastSquaresTransform::operator()(x, noise...): RecursiveLeastSquaresTransform.hpp l.37, l.60-64, and
    transform_with_cross_covariance l.86-93; inv_lambda = 1/lambda. *)
Definition rls_transform n (lambda : R) (x : gd R n) (ns : seq (gd R n)) : option (gd R n) :=
  if lambda == 0 then None else
  match c_mul L (gcov x) lambda^-1 with
  | Some c => Some (foldl (@g_add R L n) (GD (gmean x) c) ns)
  | None => None
  end.
Definition rls_transform_cross n (lambda : R) (x : gd R n) (ns : seq (gd R n)) : option (gd R n * 'M[R]_n) :=
  if lambda == 0 then None else
  match c_mul L (gcov x) lambda^-1 with
  | Some c => Some (foldl (@g_add R L n) (GD (gmean x) c) ns, self_adj c)
  | None => None
  end.

(** ** Several consecutive transforms: TransformBase::operator()(x, t, ts...), TransformBase.hpp l.51-63, and
    transform_with_cross_covariance, l.80-94: all but the last without the cross-covariance.  A chain of linear
    transformations from dimension n to dimension k, each with its perturbation matrices and noise terms. *)
Inductive chain : nat -> nat -> Type :=
| ChOne n k (A : 'M[R]_(k, n)) (Bs : seq 'M[R]_k) (ns : seq (gd R k)) : chain n k
| ChCons n m k (A : 'M[R]_(m, n)) (Bs : seq 'M[R]_m) (ns : seq (gd R m)) (c : chain m k) : chain n k.

Fixpoint seq_transform n k (c : chain n k) : gd R n -> gd R k :=
  match c with
  | ChOne _ _ A Bs ns => fun x => lin_transform (linear_transformation A Bs) x ns
  | ChCons _ _ _ A Bs ns c' => fun x => seq_transform c' (lin_transform (linear_transformation A Bs) x ns)
  end.

(** The dimension of the input of the last transform, and the result with its cross-covariance (with that input). *)
Fixpoint last_in n k (c : chain n k) : nat :=
  match c with ChOne n _ _ _ _ => n | ChCons _ _ _ _ _ _ c' => last_in c' end.
Fixpoint seq_transform_cross n k (c : chain n k) : gd R n -> gd R k * 'M[R]_(last_in c, k) :=
  match c with
  | ChOne _ _ A Bs ns => fun x => lin_transform_cross (linear_transformation A Bs) x ns
  | ChCons _ _ _ A Bs ns c' => fun x => seq_transform_cross c' (lin_transform (linear_transformation A Bs) x ns)
  end.

(** ** The filter. *)

(** KalmanFilter::update_step: KalmanFilter.hpp l.41-78. *)
Definition kalman_gain n m (Py : cval R m) (Pxy : 'M[R]_(n, m)) : 'M[R]_(n, m) := (S (self_adj Py) Pxy^T)^T.

Definition update_step n m (x : gd R n) (y : gd R m) (Pxy : 'M[R]_(n, m)) (z : 'cV[R]_m) : option (gd R n) :=
  let K_adj := S (self_adj (gcov y)) Pxy^T in
  let K := K_adj^T in
  let out_mean := gmean x + K *m (z - gmean y) in
  let out_cov :=
    match gcov y with
    | Chol _ => c_sub L (gcov x) (Chol (llq L (K *m sqrt_of L (gcov y))))
    | Dense _ => c_sub L (gcov x) (Dense (sa_lower (Pxy *m K_adj)))
    end in
  match out_cov with Some c => Some (GD out_mean c) | None => None end.

(** predict with a linear, identity or RLS process transform: KalmanFilter.hpp l.88-93. *)
Inductive process n :=
| PLinear of 'M[R]_n & seq 'M[R]_n & seq (gd R n)
| PIdentity of seq (gd R n)
| PRls of R & seq (gd R n).

Definition predict n (x : gd R n) (p : process n) : option (gd R n) :=
  match p with
  | PLinear A Bs ns => Some (lin_transform (linear_transformation A Bs) x ns)
  | PIdentity ns => Some (id_transform x ns)
  | PRls lambda ns => rls_transform lambda x ns
  end.

(** update with a linear measurement transform: KalmanFilter.hpp l.98-102, l.154-158. *)
Record measurement n := Meas {
  mdim : nat; mz : 'cV[R]_mdim; mH : 'M[R]_(mdim, n); mD : seq 'M[R]_mdim; mns : seq (gd R mdim) }.

Definition update n (x : gd R n) (u : measurement n) : option (gd R n) :=
  let yP := lin_transform_cross (linear_transformation (mH u) (mD u)) x (mns u) in
  update_step x yP.1 yP.2 (mz u).

(** operator()(z, x, proc_args, meas_args): l.170-181, the filter with two transforms. *)
Definition cycle n (x : gd R n) (p : process n) (u : measurement n) : option (gd R n) :=
  match predict x p with
  | Some y => let yP := lin_transform_cross (linear_transformation (mH u) (mD u)) y (mns u) in
              update_step y yP.1 yP.2 (mz u)
  | None => None
  end.

(** A history of a filter. *)
Inductive fop n := FPredict of process n | FUpdate of measurement n.
Definition fstep n (x : gd R n) (o : fop n) : option (gd R n) :=
  match o with FPredict p => predict x p | FUpdate u => update x u end.
Fixpoint filter n (x : gd R n) (os : seq (fop n)) : option (gd R n) :=
  match os with
  | [::] => Some x
  | o :: os' => match fstep x o with Some x' => filter x' os' | None => None end
  end.

End Kalman.
