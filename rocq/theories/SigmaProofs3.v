(** * Proofs about the sample-point transform: positivity, consecutive transforms, agreement with the linear transform and filter. *)
From mathcomp Require Import all_ssreflect all_algebra.
From Verif Require Import MatBase LibModel RingTac GaussModel KalmanModel KalmanSpec KalmanProofs.
From Verif Require Import SigmaModel SigmaSpec SigmaProofs SigmaProofs2.
Set Implicit Arguments.
Unset Strict Implicit.
Unset Printing Implicit Defensive.
Import GRing.Theory Num.Theory Order.Theory.
Local Open Scope ring_scope.

Section Sigma.
Variable R : rcfType.
Variable L : lib R.
Hypothesis LK : lib_ok L.

(** ** The covariance of the unscented transform as a sum of positive terms. *)
Section Psd.
Variable p : uparams R.
Variable dim : nat.
Hypothesis a0 : ualpha p != 0.
Hypothesis dk0 : 0 < dim%:R + ukappa p dim.

Lemma cov_weightsE : cov_weights p dim = mean_weights p dim + (1 - ualpha p * ualpha p + ubeta p) *: delta_mx 0 0.
Proof.
apply/matrixP => i j; rewrite ord1 [RHS]mxE scalemxE !mxE eqxx andbT.
have -> : (i == 0) = (val i == 0%N) by [].
by case: eqP => _; [rewrite /W_c0 mulr1 !addrA|rewrite mulr0 addr0].
Qed.

Lemma ones_dg count (w : 'cV[R]_count) : dg w *m (const_mx 1 : 'rV[R]_count)^T = w.
Proof. by apply/matrixP => i j; rewrite ord1 mul_diag_mx !mxE mulr1. Qed.

Lemma sum_cov_weights : (const_mx 1 : 'rV[R]_(u_count dim)) *m cov_weights p dim = (2%:R - ualpha p * ualpha p + ubeta p)%:M.
Proof.
rewrite cov_weightsE mulmxDr -scalemxAr; apply/matrixP => i j; rewrite !ord1 addmxE scalemxE.
have -> : ((const_mx 1 : 'rV[R]_(u_count dim)) *m mean_weights p dim) 0 0 = 1.
  rewrite -[RHS](mean_weights_one dk0) mxE; apply: eq_bigr => k _; by rewrite mxE mul1r.
rewrite -colE !mxE mulr1 eqxx mulr1n; cring.
Qed.

Definition from_centre m (Y : 'M[R]_(m, u_count dim)) : 'M[R]_(m, u_count dim) := deviations Y (col 0 Y).

Lemma u_cov_identity m (Y : 'M[R]_(m, u_count dim)) :
  let D := deviations Y (Y *m mean_weights p dim) in
  let Z := from_centre Y in
  let d := Y *m mean_weights p dim - col 0 Y in
  D *m dg (cov_weights p dim) *m D^T
  = W p dim *: (Z *m Z^T) + (ubeta p - ualpha p * ualpha p) *: (d *m d^T).
Proof.
move=> D Z d; set wm := mean_weights p dim in D d *; set wc := cov_weights p dim.
pose o : 'rV[R]_(u_count dim) := const_mx 1.
have eZ : Z = Y - col 0 Y *m o by rewrite /Z /from_centre deviationsE.
have one : o *m wm = 1%:M.
  apply/matrixP => i j; rewrite !ord1 mxE [RHS]mxE -[RHS](mean_weights_one dk0); apply: eq_bigr => k _.
  by rewrite mxE mul1r.
have ed : d = Z *m wm by rewrite eZ mulmxBl -mulmxA one mulmx1.
have eD : D = Z - d *m o by rewrite /D deviationsE -/o eZ /d mulmxBl -[RHS]addrA opprB addKr.
have z0 : Z *m delta_mx 0 0 = 0 :> 'cV_m.
  by rewrite -colE; apply/matrixP => i j; rewrite !mxE subrr.
have zc : Z *m wc = d by rewrite /wc cov_weightsE mulmxDr -scalemxAr z0 scaler0 addr0 -ed.
have cz : wc^T *m Z^T = d^T by rewrite -trmx_mul zc.
have od : o *m dg wc = wc^T by apply: trmx_inj; rewrite trmx_mul dg_sym trmxK ones_dg.
have dz : Z *m dg wc *m Z^T = W p dim *: (Z *m Z^T).
  apply/matrixP => i k; rewrite mul_dg scalemxE mxE mulr_sumr; apply: eq_bigr => j _; rewrite [Z^T _ _]mxE.
  have [->|j0] := eqVneq j 0.
    have e l : Z l 0 = 0 by rewrite !mxE subrr.
    by rewrite !e !mulr0.
  by congr (_ * _); rewrite mxE; case: eqP => // h; case/eqP: j0; exact: val_inj.
clearbody d; rewrite eD mulmxBl trmxB trmx_mul !mulmxBl !mulmxBr dz -!(mulmxA d) od.
rewrite -[Z *m dg wc *m _]mulmxA [dg wc *m (o^T *m _)]mulmxA ones_dg [Z *m (wc *m _)]mulmxA zc.
rewrite cz [wc^T *m (o^T *m _)]mulmxA.
have -> : wc^T *m o^T = (2%:R - ualpha p * ualpha p + ubeta p)%:M.
  by rewrite -trmx_mul sum_cov_weights tr_scalar_mx.
rewrite mul_scalar_mx -scalemxAr -[in LHS]addrA; congr (_ + _).
apply/matrixP => i j; rewrite !(addmxE, oppmxE, scalemxE); cring.
Qed.

Lemma u_cov_psd m (Y : 'M[R]_(m, u_count dim)) : ualpha p * ualpha p <= ubeta p ->
  let D := deviations Y (Y *m mean_weights p dim) in psd (D *m dg (cov_weights p dim) *m D^T).
Proof.
move=> h D; rewrite u_cov_identity; apply: psdD; apply: psdZ; try exact: psd_mulT.
  by apply: ltW; exact: W_gt0.
by rewrite subr_ge0.
Qed.

End Psd.

Lemma c_cov_psd dim m (D : 'M[R]_(m, c_count dim)) : psd (D *m dg (c_weights R dim) *m D^T).
Proof.
rewrite dg_c_weights mul_mx_scalar -scalemxAl; apply: psdZ; last exact: psd_mulT.
by rewrite invr_ge0 ler0n.
Qed.

(** ** Agreement with the linear transform. *)
Section Linear.
Variable sp : spset R.

Fixpoint rowB m (js : seq 'M[R]_m) (ns : seq (gd R m)) : 'M[R]_(m, dimsum (map (@mkd R m) ns)) :=
  match ns return 'M[R]_(m, dimsum (map (@mkd R m) ns)) with
  | [::] => 0
  | d :: ns' => row_mx (head 0 js) (@rowB m (behead js) ns')
  end.

Lemma rowB_apply m (js : seq 'M[R]_m) (ns : seq (gd R m)) w : size js = size ns ->
  rowB js ns *m w = \sum_(q <- zip js (unstack w)) q.1 *m q.2.
Proof.
elim: ns js w => [|d ns IH] [|B js] w //= hs; first by rewrite mul0mx big_nil.
by case: hs => hs; rewrite -{1}[w]vsubmxK mul_row_col big_cons /= IH.
Qed.

Lemma size_unstack m (ns : seq (gd R m)) w : size (unstack (ns := ns) w) = size ns.
Proof. by elim: ns w => [|d ns IH] w //=; rewrite IH. Qed.

Lemma rowB_jmean m (js : seq 'M[R]_m) (ns : seq (gd R m)) : size js = size ns ->
  rowB js ns *m jmean (map (@mkd R m) ns) = \sum_(q <- zip js (map (@gmean R m) ns)) q.1 *m q.2.
Proof.
elim: ns js => [|d ns IH] [|B js] //= hs; first by rewrite mul0mx big_nil.
by case: hs => hs; rewrite mul_row_col big_cons /= IH.
Qed.

Lemma rowB_jcov m (js : seq 'M[R]_m) (ns : seq (gd R m)) : size js = size ns ->
  rowB js ns *m jcov (map (@mkd R m) ns) *m (rowB js ns)^T
  = \sum_(q <- zip js (map (@gcov R m) ns)) q.1 *m self_adj q.2 *m q.1^T.
Proof.
elim: ns js => [|d ns IH] [|B js] //= hs; first by rewrite !mul0mx big_nil.
by case: hs => hs; rewrite mul_row_block !mulmx0 addr0 add0r tr_row_mx mul_row_col big_cons /= IH.
Qed.

Lemma lin_as_affine n m (A : 'M[R]_(m, n)) Bs (ns : seq (gd R m)) v w :
  lin_apply A Bs v (unstack (ns := ns) w) = A *m v + rowB (pert_jacobians Bs (size ns)) ns *m w + 0.
Proof. by rewrite addr0 /lin_apply size_unstack rowB_apply // size_pert. Qed.

Lemma lin_affine_image n m (A : 'M[R]_(m, n)) Bs (x : gd R n) (ns : seq (gd R m)) :
  affine_image (mom x) A (rowB (pert_jacobians Bs (size ns)) ns) 0 = lin_image A Bs (mom x) (map (@mom R m) ns).
Proof.
apply: moments_ext.
  rewrite -lin_apply_mean /= addr0 rowB_jmean ?size_pert //; by rewrite /lin_apply size_map.
by rewrite -lin_cov_sum /= rowB_jcov // size_pert.
Qed.

Lemma each_rootable_mkd m (ns : seq (gd R m)) : each (fun d => rootable (gcov d)) ns -> each (@rootable_d R) (map (@mkd R m) ns).
Proof. by elim: ns => [|d ns IH] //= [? /IH]. Qed.

(** Functions that are equal everywhere give equal transforms. *)
Lemma sp_transform_ext n m (x : gd R n) ds (g h : 'cV[R]_n -> 'cV[R]_(dimsum ds) -> 'cV[R]_m) :
  (forall v w, g v w = h v w) -> sp_transform sp x g = sp_transform sp x h.
Proof.
move=> e; rewrite /sp_transform; case: sp_points => [X|] //.
by have -> : y_means g (usubmx X) (dsubmx X) (gmean x) (jmean ds) = y_means h (usubmx X) (dsubmx X) (gmean x) (jmean ds)
  by apply/matrixP => i j; rewrite !mxE e.
Qed.

Lemma sp_linear n m (x : gd R n) (A : 'M[R]_(m, n)) Bs (ns : seq (gd R m)) wm wc easy r cr :
  @sp_good R sp (n + dimsum (map (@mkd R m) ns)) wm wc easy -> rootable (gcov x) -> each (fun d => rootable (gcov d)) ns ->
  sp_transform sp x (fun v (w : 'cV_(dimsum (map (@mkd R m) ns))) => lin_apply A Bs v (unstack w)) = Some (r, cr) ->
  let y := lin_transform_cross L (linear_transformation A Bs) x ns in
  [/\ mom r = mom y.1, cr = y.2, proper (gcov r) & is_chol (gcov r) = is_chol (gcov y.1)].
Proof.
move=> G rx rns e; rewrite (sp_transform_ext x (@lin_as_affine n m A Bs ns)) in e.
have [h _] := affine_ok A (rowB (pert_jacobians Bs (size ns)) ns) 0 G rx (each_rootable_mkd rns).
have [h1 h2 h3 h4 h5] := h _ _ e.
have px := rootable_proper rx.
have nk : noise_ok x ns by apply: each_impl rns => d; case: ifP => // _ /rootable_proper.
have [e1 _ e3] := lin_transform_ok LK A Bs px nk.
move=> y; rewrite /y lin_transform_cross1 lin_transform_cross2 e1 e3 -lin_affine_image; split=> //.
by apply: moments_ext; rewrite /= ?h1 ?h2.
Qed.

End Linear.

(** ** Consecutive transforms. *)
Section Chain.
Variable sp : spset R.
Hypothesis indep : forall dim n n' m ch (X : 'M[R]_(n, sp_count sp dim)) (X' : 'M[R]_(n', sp_count sp dim))
  (Y : 'M[R]_(m, sp_count sp dim)), omap fst (sp_cov ch X Y) = omap fst (sp_cov ch X' Y).

Lemma col_dev m count (Y : 'M[R]_(m, count)) y j : col j (deviations Y y) + y = col j Y.
Proof. by apply/matrixP => i k; rewrite ord1 !mxE subrK. Qed.

Lemma col_add_mx a b count (Q : 'M[R]_(a + b, count)) u v j :
  col j Q + col_mx u v = col_mx (col j (usubmx Q) + u) (col j (dsubmx Q) + v).
Proof. by rewrite -add_col_mx -col_col_mx vsubmxK. Qed.

Lemma grp1_col count ds ds' (Q : 'M[R]_(dimsum (ds ++ ds'), count)) j :
  col j (grp1 Q) + jmean ds = grp1 (col j Q + jmean (ds ++ ds')).
Proof.
elim: ds Q => [|d ds IH] /= Q; first by apply/matrixP => -[].
by rewrite col_col_mx add_col_mx IH col_add_mx col_mxKu col_mxKd.
Qed.

Lemma grp2_col count ds ds' (Q : 'M[R]_(dimsum (ds ++ ds'), count)) j :
  col j (grp2 Q) + jmean ds' = grp2 (col j Q + jmean (ds ++ ds')).
Proof. by elim: ds Q => [|d ds IH] /= Q //; rewrite IH col_add_mx col_mxKd. Qed.

Lemma sp_run_ok dim ch n ds k (c : gchain n ds k) (P : 'M[R]_(n, sp_count sp dim)) Q mx r cr :
  sp_run ch c P Q mx = Some (r, cr) ->
  let Y := y_means (gcomp c) P Q mx (jmean ds) in
  let y := sp_mean Y in
  gmean r = y /\ forall n' (X : 'M[R]_(n', sp_count sp dim)), omap fst (sp_cov ch X (deviations Y y)) = Some (gcov r).
Proof.
elim: c P Q mx r cr => {n ds k} [n k ds g|n m k ds ds' g c IH] P Q mx r cr /=.
  case e: sp_cov => [[c' cr']|] // [<- _]; split=> // n' X.
  by rewrite (indep _ X P) e.
case: sp_cov => [_|] // /IH; set Y := y_means (gcomp c) _ _ _ _; set Y' := y_means _ P Q mx _.
suff -> : Y = Y' by [].
apply/matrixP => i j; rewrite !mxE col_dev; congr (gcomp c _ _ i 0); last exact: grp2_col.
by rewrite -grp1_col; apply/matrixP => a b; rewrite ord1 !mxE.
Qed.

Lemma sp_chain_ok n ds k (x : gd R n) (c : gchain n ds k) r cr :
  sp_chain sp x c = Some (r, cr) -> exists cr', sp_transform sp x (gcomp c) = Some (r, cr').
Proof.
rewrite /sp_chain /sp_transform; case: sp_points => [X|] // /sp_run_ok [em ec].
move: (ec n (usubmx X)); case: sp_cov => [[c' cr']|] //= [e].
by exists cr'; rewrite e -em; case: r {em ec e}.
Qed.

Lemma sp_run_some dim n ds k (c : gchain n ds k) (P : 'M[R]_(n, sp_count sp dim)) Q mx :
  (forall n' m (X : 'M[R]_(n', sp_count sp dim)) (Y : 'M[R]_(m, sp_count sp dim)), exists r, sp_cov false X Y = Some r) ->
  exists r, sp_run false c P Q mx = Some r.
Proof.
move=> h; elim: c P Q mx => {n ds k} [n k ds g|n m k ds ds' g c IH] P Q mx /=.
  by have [[c cr] ->] := h _ _ P (deviations (y_means g P Q mx (jmean ds)) (sp_mean (y_means g P Q mx (jmean ds)))); eexists; reflexivity.
set Y := y_means _ _ _ _ _.
by have [? ->] := h _ _ P (deviations Y (sp_mean Y)); exact: IH.
Qed.

End Chain.

Lemma u_indep p dim n n' m ch (X : 'M[R]_(n, u_count dim)) (X' : 'M[R]_(n', u_count dim)) (Y : 'M[R]_(m, u_count dim)) :
  omap fst (u_cov L p ch X Y) = omap fst (u_cov L p ch X' Y).
Proof.
rewrite /u_cov; case: ch => //; case: ifP => // _; case: ifP => // _; by case: lrank.
Qed.
Lemma c_indep dim n n' m ch (X : 'M[R]_(n, c_count dim)) (X' : 'M[R]_(n', c_count dim)) (Y : 'M[R]_(m, c_count dim)) :
  omap fst (c_cov L ch X Y) = omap fst (c_cov L ch X' Y).
Proof. by rewrite /c_cov; case: ch. Qed.

(** ** The filter. *)
Section Filter.
Variable sp : spset R.
Variable S : solver R.
Hypothesis SK : solver_ok S.
Variable n : nat.
Hypothesis good : forall ds : seq (anyd R), exists wm wc easy, @sp_good R sp (n + dimsum ds) wm wc easy.

Lemma formE k (c : cval R k) : form c = is_chol c. Proof. by []. Qed.

Lemma a_step_ok (x g : gd R n) (o : aop R n) : rootable (gcov x) -> a_noise o -> a_posed (mom x) o ->
  sp_fstep L sp S x (as_step o) = Some g ->
  [/\ mom g = affine_step (mom x) o, proper (gcov g) & is_chol (gcov g) = is_chol (gcov x)].
Proof.
move=> rx; case: o => [ds A B b|m z ds H D b] /= rds wx.
  have [wm [wc [easy G]]] := good ds; have [h _] := affine_ok A B b G rx rds.
  case e: sp_transform => [[y cr]|] // [<-]; have [e1 e2 _ py fy] := h _ _ e.
  by split=> //; apply: moments_ext.
have [wm [wc [easy G]]] := good ds; have [h _] := affine_ok H D b G rx rds.
case e: sp_transform => [[y cr]|] // e'; have [e1 e2 e3 py fy] := h _ _ e.
have ey : mom y = affine_image (mom x) H D b by apply: moments_ext.
have eSy : self_adj (gcov y) = Sg (affine_image (mom x) H D b) by rewrite -ey.
have px := rootable_proper rx.
have uy : self_adj (gcov y) \in unitmx by rewrite eSy.
have [eg pg cg] := update_step_ok LK SK px py uy e'.
split.
- by rewrite eg ey e3.
- by apply: pg; rewrite eSy e3; apply: post_psd; [exact: self_adj_psd|apply: psd_congr; exact: jcov_psd|].
- move: e' fy; rewrite /update_step; case: (gcov x) => [P|T]; case: (gcov y) => [Q|T'] //=.
    by case=> <-.
  by case: lrank => [T''|] // [<-].
Qed.

Lemma a_filter_ok (x g : gd R n) (os : seq (aop R n)) : rootable (gcov x) -> each (@a_noise R n) os ->
  a_along (@a_posed R n) (mom x) os ->
  (is_chol (gcov x) = false -> a_along (fun y o => posdef (Sg (affine_step y o))) (mom x) os) ->
  sp_filter L sp S x (map (@as_step R n) os) = Some g ->
  mom g = affine_filter (mom x) os /\ proper (gcov g).
Proof.
elim: os x => [|o os IH] x rx /=; first by move=> _ _ _ [<-]; split=> //; exact: rootable_proper.
case=> no nos [wo wos] d; case e: sp_fstep => [x'|] // e'.
have [em pm cm] := a_step_ok rx no wo e.
have rx' : rootable (gcov x').
  case cx: (is_chol (gcov x)); first by move: cm pm; rewrite cx; case: (gcov x').
  have [dx _] := d cx; move: cm dx pm; rewrite cx -em /=; case: (gcov x') => [P|T] //= _ dx _; by left.
have [||e1 e2] := IH x' rx' nos _ _ e'; first by rewrite em.
  by rewrite cm em => cx; have [] := d cx.
by rewrite e1 em.
Qed.

Lemma a_step_some (x : gd R n) (o : aop R n) : is_chol (gcov x) = false -> rootable (gcov x) -> a_noise o -> a_posed (mom x) o ->
  exists g, sp_fstep L sp S x (as_step o) = Some g.
Proof.
move=> cx rx; case: o => [ds A B b|m z ds H D b] /= rds wx.
  have [wm [wc [easy G]]] := good ds; have [_ h] := affine_ok A B b G rx rds.
  by have [|[y cr] ->] := h; [constructor 1|eexists; reflexivity].
have [wm [wc [easy G]]] := good ds; have [h' h] := affine_ok H D b G rx rds.
have [|[y cr] e] := h; first by constructor 1.
rewrite e; have [e1 e2 e3 py fy] := h' _ _ e.
apply: update_step_some => //; first exact: rootable_proper.
- by rewrite e2.
- by rewrite cx.
Qed.

Lemma a_filter_some (x : gd R n) (os : seq (aop R n)) : is_chol (gcov x) = false -> rootable (gcov x) -> each (@a_noise R n) os ->
  a_along (@a_posed R n) (mom x) os -> a_along (fun y o => posdef (Sg (affine_step y o))) (mom x) os ->
  exists g, sp_filter L sp S x (map (@as_step R n) os) = Some g.
Proof.
elim: os x => [|o os IH] x cx rx /=; first by eexists; reflexivity.
case=> no nos [wo wos] [dx d]; have [x' e] := a_step_some cx rx no wo; rewrite e.
have [em pm cm] := a_step_ok rx no wo e.
apply: IH; rewrite ?em //; first by rewrite cm.
move: cm dx pm; rewrite cx -em /=; case: (gcov x') => [P|T] //= _ dx _; by left.
Qed.

End Filter.

(** ** A negative centre weight and a singular covariance. *)
Lemma u_cov_none p dim n m (X : 'M[R]_(n, u_count dim)) (Y : 'M[R]_(m, u_count dim)) : lrank_strict L ->
  ualpha p != 0 -> 0 < dim%:R + ukappa p dim -> W_c0 p dim < 0 -> (1 < m)%N ->
  ~ posdef (Y *m dg (cov_weights p dim) *m Y^T) -> u_cov L p true X Y = None.
Proof.
move=> LS a0 dk0 w0 m1 npd; rewrite /u_cov ltNge (ltW (W_gt0 a0 dk0)) /= w0 LS //.
rewrite (llq_sq LK) sqrt_cols => [|j]; last by rewrite tail_weights (ltW (W_gt0 a0 dk0)).
by rewrite -cov_split.
Qed.

End Sigma.
