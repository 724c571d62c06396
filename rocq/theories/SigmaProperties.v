(** * Properties of sample-point transforms (C42, C43, C45, C71, C73-C75).

    [L] is any linear-algebra back end satisfying [lib_ok] (LibModel.v). *)
From mathcomp Require Import all_ssreflect all_algebra.
From Verif Require Import MatBase LibModel RingTac GaussModel KalmanModel KalmanSpec KalmanProofs.
From Verif Require Import SigmaModel SigmaSpec SigmaProofs SigmaProofs2 SigmaProofs3.
Set Implicit Arguments.
Unset Strict Implicit.
Unset Printing Implicit Defensive.
Import GRing.Theory Num.Theory Order.Theory.
Local Open Scope ring_scope.

Section Bridge.
Variable R : rcfType.
Lemma wmean_eq m count (w v : 'I_count -> R) (Y : 'M[R]_(m, count)) : w =1 v -> wmean w Y = wmean v Y.
Proof. by move=> e; apply: eq_bigr => j _; rewrite e. Qed.
Lemma wcov_eq n m count (w v : 'I_count -> R) (X : 'M[R]_(n, count)) (Y : 'M[R]_(m, count)) : w =1 v -> wcov w X Y = wcov v X Y.
Proof. by move=> e; apply: eq_bigr => j _; rewrite e. Qed.

Variable p : uparams R.
Variable dim : nat.
Hypothesis a0 : ualpha p != 0.
Hypothesis dk0 : 0 < dim%:R + ukappa p dim.
Let wm := @ut_wm R (ualpha p) (ukappa p dim) dim.
Let wc := @ut_wc R (ualpha p) (ubeta p) (ukappa p dim) dim.
Lemma ut_wmean m (Y : 'M[R]_(m, u_count dim)) : wmean wm Y = Y *m mean_weights p dim.
Proof. by rewrite -wmeanE; apply: wmean_eq => j; rewrite ut_wmE. Qed.
Lemma ut_wmcov n m (X : 'M[R]_(n, u_count dim)) (Y : 'M[R]_(m, u_count dim)) :
  wcov wm X Y = X *m dg (mean_weights p dim) *m Y^T.
Proof. by rewrite -wcovE; apply: wcov_eq => j; rewrite ut_wmE. Qed.
Lemma ut_wcov n m (X : 'M[R]_(n, u_count dim)) (Y : 'M[R]_(m, u_count dim)) : wcov wc X Y = X *m dg (cov_weights p dim) *m Y^T.
Proof. by rewrite -wcovE; apply: wcov_eq => j; rewrite ut_wcE. Qed.
Lemma cu_wmean m (Y : 'M[R]_(m, c_count dim)) : wmean (fun=> (dim * 2)%:R^-1) Y = Y *m c_weights R dim.
Proof. by rewrite -wmeanE; apply: wmean_eq => j; rewrite mxE. Qed.
Lemma cu_wcov n m (X : 'M[R]_(n, c_count dim)) (Y : 'M[R]_(m, c_count dim)) :
  wcov (fun=> (dim * 2)%:R^-1) X Y = X *m dg (c_weights R dim) *m Y^T.
Proof. by rewrite -wcovE; apply: wcov_eq => j; rewrite mxE. Qed.

Lemma images_means n q m count (g : 'cV[R]_n -> 'cV[R]_q -> 'cV[R]_m) (X : 'M[R]_(n + q, count)) (Y : 'M[R]_(m, count)) mx mq :
  images g mx mq X Y -> Y = y_means g (usubmx X) (dsubmx X) mx mq.
Proof.
move=> h; apply/matrixP => i j; have := congr1 (fun c : 'cV_m => c i 0) (h j); rewrite mxE => ->.
by rewrite mxE [_ + mx]addrC [_ + mq]addrC.
Qed.
Lemma dev_fromE m count (Y : 'M[R]_(m, count)) y : dev_from Y y = deviations Y y.
Proof. by rewrite deviationsE. Qed.
End Bridge.

(** C42.  For independent inputs of total dimension [dim]: the sample points exist, the mean weights add up to one, the weighted
    mean of the points (deviations from the input mean) is zero, and their weighted covariance is the block-diagonal joint
    covariance of the inputs, with the mean weights and with the covariance weights.  The weights are those of the
    literature.  The inputs may be stored as self-adjoint matrices or as triangular factors. *)
Theorem unscented_points_moments (R : rcfType) (L : lib R) (p : uparams R) (ds : seq (anyd R)) :
  lib_ok L -> each (@rootable_d R) ds ->
  let dim := dimsum ds in
  ualpha p != 0 -> 0 < dim%:R + ukappa p dim ->
  let wm := @ut_wm R (ualpha p) (ukappa p dim) dim in
  let wc := @ut_wc R (ualpha p) (ubeta p) (ukappa p dim) dim in
  \sum_j wm j = 1 /\
  exists2 X, sp_points (unscented L p) dim ds = Some X &
    [/\ wmean wm X = 0, wcov wm X X = jcov ds & wcov wc X X = jcov ds].
Proof.
move=> LK rds dim a0 dk0 wm wc; have G := unscented_good LK a0 dk0; split.
  by rewrite -[RHS](g_one G); apply: eq_bigr => j _; rewrite ut_wmE.
have [X e] := g_ptsome G ds; exists X => //.
have [e1 e2 e3] := g_pts G erefl rds e; rewrite (ut_wmean a0 dk0) (ut_wmcov a0 dk0) (ut_wcov a0 dk0).
by rewrite e1 e2 e3.
Qed.
Print Assumptions unscented_points_moments.

Theorem cubature_points_moments (R : rcfType) (L : lib R) (ds : seq (anyd R)) :
  lib_ok L -> each (@rootable_d R) ds ->
  let dim := dimsum ds in
  (0 < dim)%N ->
  let w := fun=> (dim * 2)%:R^-1 : R in
  \sum_(j < dim * 2) w j = 1 /\
  exists2 X, sp_points (cubature L) dim ds = Some X & wmean w X = 0 /\ wcov w X X = jcov ds.
Proof.
move=> LK rds dim d0 w; have G := cubature_good LK d0; split.
  by rewrite -[RHS](g_one G); apply: eq_bigr => j _; rewrite mxE.
have [X e] := g_ptsome G ds; exists X => //.
by have [e1 _ e3] := g_pts G erefl rds e; rewrite cu_wmean cu_wcov e1 e3.
Qed.
Print Assumptions cubature_points_moments.

(** The default parameters of the library satisfy the hypotheses in every dimension (kappa = 0 in every positive one). *)
Definition default_params (R : rcfType) : uparams R := UP 1000%:R^-1 2%:R (fun _ => 0).
Definition estimation_params (R : rcfType) : uparams R := UP 1000%:R^-1 2%:R (fun dim => 3%:R - dim%:R).
Example default_params_ok (R : rcfType) dim : (0 < dim)%N ->
  [/\ ualpha (default_params R) != 0, 0 < dim%:R + ukappa (default_params R) dim,
      0 < dim%:R + ukappa (estimation_params R) dim & ualpha (default_params R) * ualpha (default_params R) <= ubeta (default_params R)].
Proof.
move=> d0 /=; have a : (1000%:R : R) != 0 by rewrite pnatr_eq0.
split; first by rewrite invr_eq0.
- by rewrite addr0 ltr0n.
- by rewrite addrCA subrr addr0 ltr0n.
- apply: (@le_trans _ _ 1); last by rewrite ler1n.
  by apply: mulr_ile1; rewrite ?invr_ge0 ?ler0n // invf_le1 ?ltr0n // ler1n.
Qed.
(** A state and two noise terms of different dimensions, one of them in factored form. *)
Example points_nonvacuous (R : rcfType) :
  each (@rootable_d R) [:: mkd (GD 0 (Dense (1%:M : 'M[R]_3))); mkd (GD 0 (Chol (2%:R%:M : 'M[R]_2))); mkd (GD 0 (Dense (0 : 'M[R]_1)))].
Proof. by split; [left; exact: posdef1|split; [exact: scalar_mx_is_trig|split=> //; right]]. Qed.

(** C45.  For any function g of the state and the noise terms, and both storage forms (in Cholesky form, whatever the sign of the
    centre weight), the unscented transform returns the weighted mean of the images of the sample points, and the weighted
    covariance and cross-covariance about that mean. *)
Theorem unscented_transform_moments (R : rcfType) (L : lib R) (p : uparams R) n m (x : gd R n) (ds : seq (anyd R))
    (g : 'cV[R]_n -> 'cV[R]_(dimsum ds) -> 'cV[R]_m) y cross :
  lib_ok L ->
  let dim := (n + dimsum ds)%N in
  ualpha p != 0 -> 0 < dim%:R + ukappa p dim ->
  let wm := @ut_wm R (ualpha p) (ukappa p dim) dim in
  let wc := @ut_wc R (ualpha p) (ubeta p) (ukappa p dim) dim in
  sp_transform (unscented L p) x g = Some (y, cross) ->
  exists2 X : 'M[R]_(n + dimsum ds, 1 + dim * 2), sp_points (unscented L p) dim (mkd x :: ds) = Some X &
  forall Y, images g (gmean x) (jmean ds) X Y ->
  [/\ gmean y = wmean wm Y,
      self_adj (gcov y) = wcov wc (dev_from Y (gmean y)) (dev_from Y (gmean y)),
      cross = wcov wc (usubmx X) (dev_from Y (gmean y)) &
      form (gcov y) = form (gcov x)].
Proof.
move=> LK dim a0 dk0 wm wc e; have G := unscented_good LK a0 dk0.
have [X eX [h _]] := sp_transform_gen x g G; exists X => // Y /images_means eY.
have [e1 e2 e3 _ e5] := h _ _ e; rewrite -eY in e1 e2 e3.
by rewrite !dev_fromE (ut_wmean a0 dk0) !(ut_wcov a0 dk0) e2 e3 e1 e5.
Qed.
Print Assumptions unscented_transform_moments.

Theorem cubature_transform_moments (R : rcfType) (L : lib R) n m (x : gd R n) (ds : seq (anyd R))
    (g : 'cV[R]_n -> 'cV[R]_(dimsum ds) -> 'cV[R]_m) :
  lib_ok L ->
  let dim := (n + dimsum ds)%N in
  (0 < dim)%N ->
  let w := fun=> (dim * 2)%:R^-1 : R in
  exists y cross, sp_transform (cubature L) x g = Some (y, cross) /\
  exists2 X : 'M[R]_(n + dimsum ds, dim * 2), sp_points (cubature L) dim (mkd x :: ds) = Some X &
  forall Y, images g (gmean x) (jmean ds) X Y ->
  [/\ gmean y = wmean w Y,
      self_adj (gcov y) = wcov w (dev_from Y (gmean y)) (dev_from Y (gmean y)),
      cross = wcov w (usubmx X) (dev_from Y (gmean y)) &
      form (gcov y) = form (gcov x)].
Proof.
move=> LK dim d0 w; have G := cubature_good LK d0.
have [X eX [h h']] := sp_transform_gen x g G; have [|[y cr] e] := h'; first by constructor 2.
exists y, cr; split=> //; exists X => // Y /images_means eY.
have [e1 e2 e3 _ e5] := h _ _ e; rewrite -eY in e1 e2 e3.
by rewrite !dev_fromE cu_wmean !cu_wcov e2 e3 e1 e5.
Qed.
Print Assumptions cubature_transform_moments.

(** C45.  The unscented transform returns whenever the input is stored as a self-adjoint matrix, the centre weight is not
    negative, or the weighted covariance is positive definite. *)
Theorem unscented_transform_returns (R : rcfType) (L : lib R) (p : uparams R) n m (x : gd R n) (ds : seq (anyd R))
    (g : 'cV[R]_n -> 'cV[R]_(dimsum ds) -> 'cV[R]_m) :
  lib_ok L ->
  let dim := (n + dimsum ds)%N in
  ualpha p != 0 -> 0 < dim%:R + ukappa p dim ->
  let wm := @ut_wm R (ualpha p) (ukappa p dim) dim in
  let wc := @ut_wc R (ualpha p) (ubeta p) (ukappa p dim) dim in
  exists2 X : 'M[R]_(n + dimsum ds, 1 + dim * 2), sp_points (unscented L p) dim (mkd x :: ds) = Some X &
  forall Y, images g (gmean x) (jmean ds) X Y ->
  [\/ form (gcov x) = false, 0 <= wc ord0 | posdef (wcov wc (dev_from Y (wmean wm Y)) (dev_from Y (wmean wm Y)))] ->
  exists r, sp_transform (unscented L p) x g = Some r.
Proof.
move=> LK dim a0 dk0 wm wc; have G := unscented_good LK a0 dk0.
have [X eX [_ h]] := sp_transform_gen x g G; exists X => // Y /images_means eY.
rewrite -eY in h; rewrite !dev_fromE (ut_wmean a0 dk0) !(ut_wcov a0 dk0).
have -> : wc ord0 = W_c0 p dim by rewrite /wc -(ut_wcE a0 dk0) mxE.
exact: h.
Qed.
Print Assumptions unscented_transform_returns.

(** C43.  Affine functions of the state and of the noise terms: the mean, covariance and cross-covariance are exact. *)
Theorem unscented_affine_exact (R : rcfType) (L : lib R) (p : uparams R) n m (x : gd R n) (ds : seq (anyd R))
    (A : 'M[R]_(m, n)) (B : 'M[R]_(m, dimsum ds)) (b : 'cV[R]_m) y cross :
  lib_ok L -> rootable (gcov x) -> each (@rootable_d R) ds ->
  ualpha p != 0 -> 0 < (n + dimsum ds)%:R + ukappa p (n + dimsum ds)%N ->
  sp_transform (unscented L p) x (fun v w => A *m v + B *m w + b) = Some (y, cross) ->
  [/\ gmean y = A *m gmean x + B *m jmean ds + b,
      self_adj (gcov y) = A *m self_adj (gcov x) *m A^T + B *m jcov ds *m B^T &
      cross = self_adj (gcov x) *m A^T].
Proof.
move=> LK rx rds a0 dk0 e; have [h _] := affine_ok A B b (unscented_good LK a0 dk0) rx rds.
by have [] := h _ _ e.
Qed.
Print Assumptions unscented_affine_exact.

(** ... and the transform does return, if the state is stored as a self-adjoint matrix, or the output covariance is positive
    definite. *)
Theorem unscented_affine_returns (R : rcfType) (L : lib R) (p : uparams R) n m (x : gd R n) (ds : seq (anyd R))
    (A : 'M[R]_(m, n)) (B : 'M[R]_(m, dimsum ds)) (b : 'cV[R]_m) :
  lib_ok L -> rootable (gcov x) -> each (@rootable_d R) ds ->
  ualpha p != 0 -> 0 < (n + dimsum ds)%:R + ukappa p (n + dimsum ds)%N ->
  form (gcov x) = false \/ posdef (A *m self_adj (gcov x) *m A^T + B *m jcov ds *m B^T) ->
  exists r, sp_transform (unscented L p) x (fun v w => A *m v + B *m w + b) = Some r.
Proof.
move=> LK rx rds a0 dk0 e; have [_ h] := affine_ok A B b (unscented_good LK a0 dk0) rx rds.
by apply: h; case: e => e; [constructor 1|constructor 3].
Qed.
Print Assumptions unscented_affine_returns.

Theorem cubature_affine_exact (R : rcfType) (L : lib R) n m (x : gd R n) (ds : seq (anyd R))
    (A : 'M[R]_(m, n)) (B : 'M[R]_(m, dimsum ds)) (b : 'cV[R]_m) :
  lib_ok L -> rootable (gcov x) -> each (@rootable_d R) ds -> (0 < n + dimsum ds)%N ->
  exists y cross, sp_transform (cubature L) x (fun v w => A *m v + B *m w + b) = Some (y, cross) /\
  [/\ gmean y = A *m gmean x + B *m jmean ds + b,
      self_adj (gcov y) = A *m self_adj (gcov x) *m A^T + B *m jcov ds *m B^T &
      cross = self_adj (gcov x) *m A^T].
Proof.
move=> LK rx rds d0; have [h h'] := affine_ok A B b (cubature_good LK d0) rx rds.
have [|[y cr] e] := h'; first by constructor 2.
by exists y, cr; split=> //; have [] := h _ _ e.
Qed.
Print Assumptions cubature_affine_exact.

(** C43.  On a LinearTransformation the sample-point transforms agree with LinearTransform: same mean, covariance and
    cross-covariance, same storage form. *)
Theorem sample_points_agree_with_linear (R : rcfType) (L : lib R) (p : uparams R) n m (x : gd R n) (A : 'M[R]_(m, n))
    (Bs : seq 'M[R]_m) (ns : seq (gd R m)) :
  lib_ok L -> rootable (gcov x) -> each (fun d => rootable (gcov d)) ns ->
  let ds := map (@mkd R m) ns in
  let g := fun v (w : 'cV_(dimsum ds)) => lin_apply A Bs v (unstack w) in
  let lin := lin_transform_cross L (linear_transformation A Bs) x ns in
  (ualpha p != 0 -> 0 < (n + dimsum ds)%:R + ukappa p (n + dimsum ds)%N ->
   forall y cross, sp_transform (unscented L p) x g = Some (y, cross) ->
   [/\ mom y = mom lin.1, cross = lin.2 & is_chol (gcov y) = is_chol (gcov lin.1)]) /\
  ((0 < n + dimsum ds)%N ->
   exists y cross, sp_transform (cubature L) x g = Some (y, cross) /\
   [/\ mom y = mom lin.1, cross = lin.2 & is_chol (gcov y) = is_chol (gcov lin.1)]).
Proof.
move=> LK rx rns ds g lin; split.
  by move=> a0 dk0 y cr e; have [] := sp_linear LK (unscented_good LK a0 dk0) rx rns e.
move=> d0; have G := cubature_good LK d0.
have [X _ [_ h]] := sp_transform_gen x g G; have [|[y cr] e] := h; first by constructor 2.
by exists y, cr; split=> //; have [] := sp_linear LK G rx rns e.
Qed.
Print Assumptions sample_points_agree_with_linear.

(** Two-dimensional state in factored form, with one noise term; the unscented transform with the library's default parameters
    (whose centre weight is negative) returns. *)
Example unscented_affine_nonvacuous (R : rcfType) (L : lib R) : lib_ok L ->
  let x := GD (const_mx 1) (Chol (2%:R%:M : 'M[R]_2)) in
  let ds := [:: mkd (GD 0 (Dense (1%:M : 'M[R]_2)))] in
  [/\ W_c0 (default_params R) (2 + dimsum ds) < 0, rootable (gcov x), each (@rootable_d R) ds &
      exists r, sp_transform (unscented L (default_params R)) x (fun v (w : 'cV_(dimsum ds)) => 1%:M *m v + row_mx 1%:M 0 *m w + 0) = Some r].
Proof.
move=> LK x ds; have rx : rootable (gcov x) by exact: scalar_mx_is_trig.
have rds : each (@rootable_d R) ds by split=> //; left; exact: posdef1.
split=> //.
  rewrite /W_c0 /W_m0 /unscaled_W0 /= mul0r sub0r.
  rewrite invfM !invrK mulN1r; set k : R := 1000%:R.
  have k1 : 4%:R < k by rewrite ltr_nat.
  have k2 : k <= k * k by apply: ler_pemulr; rewrite ?ler0n ?ler1n.
  have i0 : 0 <= k^-1 * k^-1 by rewrite mulr_ge0 // invr_ge0 ler0n.
  have -> : - (k * k) + 1 + 1 - k^-1 * k^-1 + 2%:R = (4%:R - k * k) - k^-1 * k^-1 by cring.
  by rewrite subr_lt0; apply: (lt_le_trans _ i0); rewrite subr_lt0; exact: lt_le_trans k2.
have d0 : (0 < 2 + dimsum ds)%N by [].
have [a0 dk0 _ _] := default_params_ok R d0.
apply: (@unscented_affine_returns R L (default_params R) 2 2 x ds 1%:M (row_mx 1%:M 0) 0 LK rx rds a0 dk0); right.
rewrite /= mul1mx trmx1 mulmx1; apply: posdefD.
  apply: posdef_mulT; rewrite unitmxE det_scalar unitfE expf_neq0 //; by rewrite pnatr_eq0.
apply: psd_congr; exact: (@jcov_psd R ds rds).
Qed.

(** C73.  For every function, every dimension and both storage forms, the covariance of the unscented transform is positive
    semidefinite when beta >= alpha^2 (so for all parameters of the library), although the centre weight is usually negative. *)
Theorem unscented_covariance_psd (R : rcfType) (L : lib R) (p : uparams R) n m (x : gd R n) (ds : seq (anyd R))
    (g : 'cV[R]_n -> 'cV[R]_(dimsum ds) -> 'cV[R]_m) y cross :
  lib_ok L -> ualpha p != 0 -> 0 < (n + dimsum ds)%:R + ukappa p (n + dimsum ds)%N -> ualpha p * ualpha p <= ubeta p ->
  sp_transform (unscented L p) x g = Some (y, cross) -> psd (self_adj (gcov y)) /\ proper (gcov y).
Proof.
move=> LK a0 dk0 ab e; have [X eX [h _]] := sp_transform_gen x g (unscented_good LK a0 dk0).
have [_ e2 _ pr _] := h _ _ e.
set D := deviations _ _ in e2 pr; have pD : psd (D *m dg (cov_weights p (n + dimsum ds)) *m D^T) by exact: u_cov_psd.
by rewrite e2; split=> //; exact: pr.
Qed.
Print Assumptions unscented_covariance_psd.

Theorem cubature_covariance_psd (R : rcfType) (L : lib R) n m (x : gd R n) (ds : seq (anyd R))
    (g : 'cV[R]_n -> 'cV[R]_(dimsum ds) -> 'cV[R]_m) y cross :
  lib_ok L -> (0 < n + dimsum ds)%N ->
  sp_transform (cubature L) x g = Some (y, cross) -> psd (self_adj (gcov y)) /\ proper (gcov y).
Proof.
move=> LK d0 e; have [X eX [h _]] := sp_transform_gen x g (cubature_good LK d0).
have [_ e2 _ pr _] := h _ _ e; rewrite e2; split; last (apply: pr); exact: c_cov_psd.
Qed.
Print Assumptions cubature_covariance_psd.

(** C74.  Consecutive sample-point transforms return the same distribution as one transform of the composite function (all noise
    terms being drawn together), and return whenever the state is stored as a self-adjoint matrix. *)
Theorem unscented_chain (R : rcfType) (L : lib R) (p : uparams R) n ds k (x : gd R n) (c : gchain n ds k) :
  (forall y cross, sp_chain (unscented L p) x c = Some (y, cross) ->
   exists cross', sp_transform (unscented L p) x (gcomp c) = Some (y, cross')) /\
  (form (gcov x) = false -> 0 < u_scale p (n + dimsum ds) -> exists r, sp_chain (unscented L p) x c = Some r).
Proof.
split=> [y cr|fx s0]; first by apply: sp_chain_ok; exact: u_indep.
rewrite /sp_chain fx /=; have [d ->] := delta_some L (gcov x) s0.
have [X ->] := points_some L (u_count (n + dimsum ds)) (1 + n + n)%N ds s0.
by apply: (@sp_run_some R (unscented L p)) => n' m P Y; eexists; reflexivity.
Qed.
Print Assumptions unscented_chain.

Theorem cubature_chain (R : rcfType) (L : lib R) n ds k (x : gd R n) (c : gchain n ds k) y cross :
  sp_chain (cubature L) x c = Some (y, cross) ->
  exists cross', sp_transform (cubature L) x (gcomp c) = Some (y, cross').
Proof. by apply: sp_chain_ok; exact: c_indep. Qed.
Print Assumptions cubature_chain.

Example unscented_chain_nonvacuous (R : rcfType) (L : lib R) : let x := GD (const_mx 1) (Dense (2%:R%:M : 'M[R]_2)) in
  let ds := [:: mkd (GD 0 (Dense (1%:M : 'M[R]_2)))] in
  let c := GCons (ds := ds) (fun (v : 'cV[R]_2) (w : 'cV[R]_(2 + 0)) => v + usubmx w)
           (GLast (ds := [::]) (fun (v : 'cV[R]_2) (w : 'cV[R]_0) => v 0 0 *: v)) in
  exists r, sp_chain (unscented L (default_params R)) x c = Some r.
Proof.
move=> x ds c; have [_ h] := unscented_chain L (default_params R) x c; apply: h => //.
by have [a0 dk0 _ _] := @default_params_ok R (2 + dimsum (ds ++ [::])) isT; exact: u_scale_gt0.
Qed.

(** C75.  The sample-point filter on an affine model.  For every history of predictions and updates with affine process and
    measurement functions and noise terms of any dimensions, a filter that uses unscented or cubature points returns the moments
    of the Kalman filter. *)
Theorem unscented_filter_is_kalman (R : rcfType) (L : lib R) (S : solver R) (p : uparams R) n (x g : gd R n) (os : seq (aop R n)) :
  lib_ok L -> solver_ok S -> ualpha p != 0 -> (forall dim, (n <= dim)%N -> 0 < dim%:R + ukappa p dim) ->
  rootable (gcov x) -> each (@a_noise R n) os -> a_along (@a_posed R n) (mom x) os ->
  (is_chol (gcov x) = false -> a_along (fun y o => posdef (Sg (affine_step y o))) (mom x) os) ->
  sp_filter L (unscented L p) S x (map (@as_step R n) os) = Some g ->
  mom g = affine_filter (mom x) os /\ psd (self_adj (gcov g)).
Proof.
move=> LK SK a0 dk0 rx nos wos pos e.
have good (ds : seq (anyd R)) : exists wm wc easy, @sp_good R (unscented L p) (n + dimsum ds) wm wc easy.
  by do 3 eexists; apply: (unscented_good LK a0); apply: dk0; exact: leq_addr.
by have [-> pg] := a_filter_ok LK SK good rx nos wos pos e; split=> //; exact: self_adj_psd.
Qed.
Print Assumptions unscented_filter_is_kalman.

Theorem cubature_filter_is_kalman (R : rcfType) (L : lib R) (S : solver R) n (x g : gd R n) (os : seq (aop R n)) :
  lib_ok L -> solver_ok S -> (0 < n)%N ->
  rootable (gcov x) -> each (@a_noise R n) os -> a_along (@a_posed R n) (mom x) os ->
  (is_chol (gcov x) = false -> a_along (fun y o => posdef (Sg (affine_step y o))) (mom x) os) ->
  sp_filter L (cubature L) S x (map (@as_step R n) os) = Some g ->
  mom g = affine_filter (mom x) os /\ psd (self_adj (gcov g)).
Proof.
move=> LK SK n0 rx nos wos pos e.
have good (ds : seq (anyd R)) : exists wm wc easy, @sp_good R (cubature L) (n + dimsum ds) wm wc easy.
  by do 3 eexists; apply: (cubature_good LK); rewrite addn_gt0 n0.
by have [-> pg] := a_filter_ok LK SK good rx nos wos pos e; split=> //; exact: self_adj_psd.
Qed.
Print Assumptions cubature_filter_is_kalman.

(** ... and they do return when the state is stored as a self-adjoint matrix. *)
Theorem sample_point_filter_returns (R : rcfType) (L : lib R) (S : solver R) (p : uparams R) n (x : gd R n) (os : seq (aop R n)) :
  lib_ok L -> solver_ok S -> ualpha p != 0 -> (forall dim, (n <= dim)%N -> 0 < dim%:R + ukappa p dim) -> (0 < n)%N ->
  is_chol (gcov x) = false -> rootable (gcov x) -> each (@a_noise R n) os -> a_along (@a_posed R n) (mom x) os ->
  a_along (fun y o => posdef (Sg (affine_step y o))) (mom x) os ->
  (exists g, sp_filter L (unscented L p) S x (map (@as_step R n) os) = Some g) /\
  (exists g, sp_filter L (cubature L) S x (map (@as_step R n) os) = Some g).
Proof.
move=> LK SK a0 dk0 n0 cx rx nos wos pos; split; apply: a_filter_some => // ds.
  by do 3 eexists; apply: (unscented_good LK a0); apply: dk0; exact: leq_addr.
by do 3 eexists; apply: (cubature_good LK); rewrite addn_gt0 n0.
Qed.
Print Assumptions sample_point_filter_returns.

(** A prediction x' = x + w + 1 and a measurement z = x' + v, with unit covariances. *)
Definition two_steps (R : rcfType) : seq (aop R 1) :=
  let N := [:: mkd (GD 0 (Dense (1%:M : 'M[R]_1)))] in
  [:: AProcess (ds := N) 1%:M (row_mx 1%:M 0) 1; AMeasure (ds := N) (const_mx 5%:R : 'cV[R]_1) 1%:M (row_mx 1%:M 0) 0].
Example filter_nonvacuous (R : rcfType) : let x := GD (0 : 'cV[R]_1) (Dense (1%:M : 'M[R]_1)) in
  [/\ rootable (gcov x), each (@a_noise R 1) (two_steps R), a_along (@a_posed R 1) (mom x) (two_steps R),
      a_along (fun y o => posdef (Sg (affine_step y o))) (mom x) (two_steps R) &
      Sg (affine_filter (mom x) (two_steps R)) = (2%:R / 3%:R)%:M].
Proof.
move=> x.
have rn : each (@rootable_d R) [:: mkd (GD 0 (Dense (1%:M : 'M[R]_1)))] by split=> //; left; exact: posdef1.
pose B : 'M[R]_(1, 1 + 0) := row_mx 1%:M 0.
pose J : 'M[R]_(1 + 0) := block_mx 1%:M 0 0 0.
have e0 : B *m J *m B^T = 1%:M.
  by rewrite /B /J mul_row_block !mul0mx !mulmx0 !addr0 mulmx1 tr_row_mx trmx1 mul_row_col mulmx1 mul0mx addr0.
have e1 : 1%:M *m 1%:M *m 1%:M^T + B *m J *m B^T = 2%:R%:M :> 'M[R]_1.
  by rewrite e0 trmx1 !mulmx1 -raddfD.
have e2 : 1%:M *m 2%:R%:M *m 1%:M^T + B *m J *m B^T = 3%:R%:M :> 'M[R]_1.
  by rewrite e0 trmx1 mul1mx mulmx1 -raddfD /= -mulrSr.
rewrite /B /J in e1 e2.
have n3 : (3%:R : R) != 0 by rewrite pnatr_eq0.
have pos (a : R) : 0 < a -> posdef (a%:M : 'M[R]_1) by move=> ha; rewrite -scalemx1; apply: posdefZ => //; exact: posdef1.
have e3 : 2%:R%:M - 2%:R%:M *m 1%:M^T *m invmx (3%:R%:M) *m (2%:R%:M *m 1%:M^T)^T = (2%:R / 3%:R)%:M :> 'M[R]_1.
  rewrite trmx1 mulmx1 tr_scalar_mx invmx_scalar -!scalar_mxM -raddfB /=; congr _%:M.
  apply: (mulIf n3); rewrite mulrBl mulfVK // mulrAC mulfVK //; cring.
split=> //.
- by left; exact: posdef1.
- by split=> //; rewrite /a_posed /= e1 e2; split=> //; apply: posdef_unit; apply: pos; rewrite ltr0n.
- split; first by rewrite /= e1; apply: pos; rewrite ltr0n.
  by split=> //; rewrite /= e1 e2 e3; apply: pos; rewrite divr_gt0 ?ltr0n.
- by rewrite /affine_filter /= e1 e2 e3.
Qed.

(** C45, refuted part.  With the default parameters, in Cholesky form, the transform fails (an exception) where the output
    covariance is singular, although in self-adjoint form it returns: a unit normal x copied into two components. *)
Theorem unscented_singular_refuted (R : rcfType) (L : lib R) : lib_ok L -> lrank_strict L ->
  let g := fun (v : 'cV[R]_1) (w : 'cV[R]_(dimsum [::])) => (const_mx 1 : 'M[R]_(2, 1)) *m v + 0 *m w + 0 in
  sp_transform (unscented L (default_params R)) (GD 0 (Chol (1%:M : 'M[R]_1))) g = None /\
  exists r, sp_transform (unscented L (default_params R)) (GD 0 (Dense (1%:M : 'M[R]_1))) g = Some r.
Proof.
move=> LK LS g; have [a0 dk0 _ _] := @default_params_ok R (1 + dimsum (R := R) [::]) isT.
split; last first.
  apply: (@unscented_affine_returns R L (default_params R) 1 2 _ [::] (const_mx 1) 0 0 LK _ _ a0 dk0) => //; [|by left].
  by left; exact: posdef1.
have w0 : W_c0 (default_params R) (1 + dimsum (R := R) [::]) < 0.
  rewrite /W_c0 /W_m0 /unscaled_W0 /= mul0r sub0r invfM !invrK mulN1r; set k : R := 1000%:R.
  have k1 : 4%:R < k by rewrite ltr_nat.
  have k2 : k <= k * k by apply: ler_pemulr; rewrite ?ler0n ?ler1n.
  have i0 : 0 <= k^-1 * k^-1 by rewrite mulr_ge0 // invr_ge0 ler0n.
  have -> : - (k * k) + 1 + 1 - k^-1 * k^-1 + 2%:R = (4%:R - k * k) - k^-1 * k^-1 by cring.
  by rewrite subr_lt0; apply: (lt_le_trans _ i0); rewrite subr_lt0; exact: lt_le_trans k2.
set x := GD _ _; have rx : rootable (gcov x) by exact: scalar_mx_is_trig.
have G := unscented_good LK a0 dk0.
have [X eX _] := sp_transform_gen x g G.
have [e1 e2 _] := @affine_moments R (unscented L (default_params R)) 1 2 x [::] (const_mx 1) 0 0 _ _ _ X G rx I eX.
rewrite /sp_transform eX; set Y := y_means _ _ _ _ _; rewrite -/g -/Y in e1 e2.
case e: sp_cov => [[c cr]|] //; exfalso; move: e.
rewrite -[sp_cov _ _ _]/(u_cov L (default_params R) true (usubmx X) (deviations Y (Y *m mean_weights (default_params R) _))).
pose v : 'cV[R]_2 := \col_i (if i == 0 then 1 else -1).
have v0 : v != 0 by apply/eqP => /matrixP /(_ 0 0); rewrite !mxE /= => /eqP; rewrite oner_eq0.
have z : v^T *m (const_mx 1 : 'M[R]_(2, 1)) = 0.
  by apply/matrixP => i j; rewrite !mxE !big_ord_recl big_ord0 !mxE /= !mulr1 addr0 subrr.
rewrite u_cov_none // e2 /= !mul0mx addr0 trmx1 !mulmx1 => -[_ /(_ v v0)].
by rewrite /qform mulmxA z !mul0mx mxE ltxx.
Qed.
Print Assumptions unscented_singular_refuted.

(** C71 for sample-point transforms.  The cross-covariance of consecutive transforms is that with the last intermediate result: a
    unit normal x, doubled and then copied: 4 instead of the cross-covariance 2 of x and 2 x. *)
Theorem sample_point_chain_cross_refuted (R : rcfType) (L : lib R) : lib_ok L ->
  let x := GD (0 : 'cV[R]_1) (Dense (1%:M : 'M[R]_1)) in
  let c := GCons (ds := [::]) (fun (v : 'cV[R]_1) (w : 'cV[R]_0) => v + v) (GLast (ds := [::]) (fun (v : 'cV[R]_1) (w : 'cV[R]_0) => v)) in
  exists y, sp_chain (cubature L) x c = Some (y, 4%:R%:M) /\ sp_transform (cubature L) x (gcomp c) = Some (y, 2%:R%:M).
Proof.
move=> LK x c.
have rx : rootable (gcov x) by left; exact: posdef1.
have d0 : (0 < 1 + dimsum (R := R) [::])%N by [].
have G := cubature_good LK d0.
have [[y cr] e] : exists r, sp_chain (cubature L) x c = Some r.
  rewrite /sp_chain; have [X ->] := g_ptsome G [:: mkd x].
  by apply: (@sp_run_some R (cubature L)) => n' m P Y; eexists; reflexivity.
exists y; have [cr' e'] := @sp_chain_ok R (cubature L) (@c_indep R L) _ _ _ _ _ _ _ e.
have eg : gcomp c =2 (fun v (w : 'cV[R]_(dimsum [::])) => 2%:R%:M *m v + 0 *m w + 0).
  by move=> v w /=; rewrite mul0mx !addr0 mul_scalar_mx scaler_nat mulr2n.
rewrite (sp_transform_ext _ _ eg) in e'.
have [h _] := affine_ok 2%:R%:M 0 0 G rx I.
have [_ _ ec _ _] := h _ _ e'.
rewrite (sp_transform_ext _ _ eg) e' ec /= tr_scalar_mx mul1mx; split=> //; rewrite e; congr (Some (_, _)).
move: e; rewrite /sp_chain; have [X eX] := g_ptsome G [:: mkd x]; rewrite eX.
have hd : dimsum [:: mkd x] = (1 + dimsum (R := R) [::])%N by [].
have [zX _ cX] := g_pts G hd (conj rx I) eX.
have wm0 : (usubmx X : 'M[R]_(1, c_count 1)) *m c_weights R 1 = 0.
  by have := congr1 usubmx zX; rewrite mul_usub_mx /= linear0.
have Pc : (usubmx X : 'M[R]_(1, c_count 1)) *m dg (c_weights R 1) *m (usubmx X)^T = 1%:M.
  have := congr1 ulsubmx cX; rewrite -{1 2}[X]vsubmxK tr_col_mx mul_col_mx mul_col_row !block_mxKul; exact.
set P : 'M[R]_(1, c_count 1) := usubmx X in wm0 Pc *.
have Y1 (Q : 'M[R]_(0, c_count 1)) : y_means (fun (v : 'cV[R]_1) (w : 'cV[R]_0) => v + v) P Q 0 0 = P + P.
  by apply/matrixP => i j; rewrite !mxE !addr0.
have Y2 (Q : 'M[R]_(0, c_count 1)) : y_means (fun (v : 'cV[R]_1) (w : 'cV[R]_0) => v) (P + P) Q 0 0 = P + P.
  by apply/matrixP => i j; rewrite !mxE !addr0.
have m0 : @c_mean R 1 1 (P + P) = 0 by rewrite -[LHS]/(sp_mean (s := cubature L) (P + P)) (g_mean G) mulmxDl wm0 addr0.
have D0 : deviations (P + P) 0 = P + P by apply/matrixP => i j; rewrite !mxE oppr0 addr0.
rewrite /sp_run /= Y1 m0 D0 Y2 m0 D0 => -[_ <-] /=.
rewrite -[RHS]mulmx1 -Pc mul_scalar_mx dg_c_weights !mul_mx_scalar -!scalemxAr -scalemxAl !mulmxDl !trmxD !mulmxDr.
by rewrite scalerA mulrC -scalerA; congr (_ *: _); rewrite scaler_nat !mulrS mulr0n addr0 !addrA.
Qed.
Print Assumptions sample_point_chain_cross_refuted.

(** C73, refuted part.  Without beta >= alpha^2 the covariance of the unscented transform can be negative: alpha = 1, beta = 0,
    kappa = -1/2, a unit normal x and the function x^2, whose unscented variance is -1/2. *)
Theorem unscented_negative_variance_refuted (R : rcfType) (L : lib R) : lib_ok L ->
  let p := UP 1 0 (fun=> - 2%:R^-1) in
  let x' := GD (0 : 'cV[R]_1) (Dense (1%:M : 'M[R]_1)) in
  let g := fun (v : 'cV[R]_1) (w : 'cV[R]_(dimsum [::])) => (v 0 0 ^+ 2)%:M : 'cV[R]_1 in
  exists y cross, sp_transform (unscented L p) x' g = Some (y, cross) /\ self_adj (gcov y) = (- 2%:R^-1)%:M.
Proof.
move=> LK p x' g.
have n2 : (2%:R : R) != 0 by rewrite pnatr_eq0.
have h1 : 1 - 2%:R^-1 = 2%:R^-1 :> R by apply: (mulIf n2); rewrite mulrBl mulVf // mul1r; cring.
have a0 : ualpha p != 0 by rewrite /= oner_eq0.
have dk0 : 0 < (1 + dimsum (R := R) [::])%:R + ukappa p (1 + dimsum (R := R) [::]).
  by rewrite /= h1 invr_gt0 ltr0n.
have G := unscented_good LK a0 dk0.
have rx : rootable (gcov x') by left; exact: posdef1.
have [X eX [h h']] := sp_transform_gen x' g G.
have [|[y cr] e] := h'; first by constructor 1.
exists y, cr; split=> //; have [_ -> _ _ _] := h _ _ e.
have s2 : u_scale p (1 + dimsum (R := R) [::]) = 2%:R^-1 by rewrite /u_scale /= !mul1r addrC.
have W1 : W p (1 + dimsum (R := R) [::]) = 1.
  by have := W_scale a0 dk0; rewrite s2 -mulr2n -[W _ _ *+ 2]mulr_natr mulfK.
have [D eD] : exists D, delta L (gcov x') (2%:R^-1) = Some D by eexists; reflexivity.
have DD : D *m D^T = 2%:R^-1 *: 1%:M by apply: (deltaE LK rx _ eD); rewrite invr_gt0 ltr0n.
have D2 : D 0 0 ^+ 2 = 2%:R^-1.
  by have /matrixP /(_ 0 0) := DD; rewrite !mxE big_ord1 !mxE mulr1 -expr2.
have pE : sp_points (unscented L p) (1 + dimsum (R := R) [::]) [:: mkd x'] = Some (col_mx (frame (u_count (1 + dimsum (R := R) [::])) 1 D) 0).
  rewrite -[LHS]/(match delta L (gcov x') (u_scale p (1 + dimsum (R := R) [::])) with
                  | Some D => Some (col_mx (frame (u_count (1 + dimsum (R := R) [::])) 1 D) 0) | None => None end).
  by rewrite s2 eD.
have {eX} eX : col_mx (frame (u_count (1 + dimsum (R := R) [::])) 1 D) 0 = X by move: eX; rewrite pE => -[].
set Y := y_means _ _ _ _ _.
have Y0 j : Y 0 j = if val j == 0%N then 0 else 2%:R^-1.
  rewrite /Y mxE /g mxE eqxx mulr1n -eX col_mxKu mxE [X in (_ + X) ^+ 2]mxE addr0 mxE.
  have e0 : entry D 0 0 = D 0 0 := entryE D 0 ord0.
  by case: j => -[|[|[|j]]] hj //=; rewrite mxE /= ?expr0n // ?sqrrN ?subnn ?e0 D2.
clearbody Y; rewrite (u_cov_identity dk0); apply/matrixP => i j; rewrite !ord1 addmxE !scalemxE W1 mul1r.
have -> : (from_centre Y *m (from_centre Y)^T) 0 0 = 2%:R^-1.
  rewrite mxE !big_ord_recl big_ord0 !mxE !Y0 /= subr0.
  by rewrite !subr0 mul0r add0r addr0 -mulrDl -mulr2n -[_ *+ 2]mulr_natr mulVf // mul1r.
have -> : Y *m mean_weights p (1 + dimsum (R := R) [::]) - col 0 Y = 1%:M.
  apply/matrixP => a b; rewrite !ord1 !mxE !big_ord_recl big_ord0 !mxE !Y0 /= W1 mul0r !mulr1 subr0 add0r addr0.
  by rewrite -mulr2n -[_ *+ 2]mulr_natr mulVf.
rewrite trmx1 mulmx1 /= !mxE /= mulr1 !mulr1n sub0r mulr1.
by rewrite -opprB h1.
Qed.
Print Assumptions unscented_negative_variance_refuted.