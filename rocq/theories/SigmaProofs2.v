(** * Proofs about the sample-point transform: the contract of a family of points, and its consequences. *)
From mathcomp Require Import all_ssreflect all_algebra.
From Verif Require Import MatBase LibModel RingTac GaussModel KalmanModel KalmanSpec KalmanProofs SigmaModel SigmaSpec SigmaProofs.
Set Implicit Arguments.
Unset Strict Implicit.
Unset Printing Implicit Defensive.
Import GRing.Theory Num.Theory Order.Theory.
Local Open Scope ring_scope.

Section Sigma.
Variable R : rcfType.
Variable L : lib R.
Hypothesis LK : lib_ok L.

(** ** Weighted sums as matrix products. *)
Lemma wmeanE m count (w : 'cV[R]_count) (Y : 'M[R]_(m, count)) : wmean (fun j => w j 0) Y = Y *m w.
Proof.
apply/matrixP => i k; rewrite ord1 summxE mxE; apply: eq_bigr => j _; rewrite !mxE; exact: mulrC.
Qed.

Lemma wcovE n m count (w : 'cV[R]_count) (X : 'M[R]_(n, count)) (Y : 'M[R]_(m, count)) :
  wcov (fun j => w j 0) X Y = X *m dg w *m Y^T.
Proof.
apply/matrixP => i k; rewrite mul_dg summxE; apply: eq_bigr => j _; rewrite !mxE; congr (_ * _).
by rewrite big_ord1 !mxE.
Qed.

Lemma dg_sym count (w : 'cV[R]_count) : (dg w)^T = dg w. Proof. exact: tr_diag_mx. Qed.

Lemma wsq_sym m count (w : 'cV[R]_count) (Y : 'M[R]_(m, count)) : (Y *m dg w *m Y^T)^T = Y *m dg w *m Y^T.
Proof. by rewrite !trmx_mul trmxK dg_sym mulmxA. Qed.

Lemma dg_sqrt count (w : 'cV[R]_count) : (forall j, 0 <= w j 0) ->
  dg (map_mx Num.sqrt w) *m dg (map_mx Num.sqrt w) = dg w.
Proof.
move=> w0; rewrite /dg mulmx_diag; congr diag_mx; apply/matrixP => i j; rewrite !mxE ord1.
by rewrite -expr2 sqr_sqrtr.
Qed.

Lemma sqrt_cols m count (w : 'cV[R]_count) (Y : 'M[R]_(m, count)) : (forall j, 0 <= w j 0) ->
  (Y *m dg (map_mx Num.sqrt w)) *m (Y *m dg (map_mx Num.sqrt w))^T = Y *m dg w *m Y^T.
Proof.
by move=> w0; rewrite trmx_mul dg_sym -[RHS]mulmxA -(dg_sqrt w0) !mulmxA.
Qed.

(** ** What the transform needs from a family of points. *)
Record sp_good (sp : spset R) (dim : nat) (wm wc : 'cV[R]_(sp_count sp dim)) (easy : Prop) : Prop := SpGood {
  g_mean : forall m (Y : 'M[R]_(m, sp_count sp dim)), sp_mean Y = Y *m wm;
  g_one : \sum_j wm j 0 = 1;
  g_pts : forall ds X, dimsum ds = dim -> each (@rootable_d R) ds -> sp_points sp dim ds = Some X ->
    [/\ X *m wm = 0, X *m dg wm *m X^T = jcov ds & X *m dg wc *m X^T = jcov ds];
  g_ptsome : forall ds, exists X, sp_points sp dim ds = Some X;
  g_cov : forall n m ch (X : 'M[R]_(n, sp_count sp dim)) (Y : 'M[R]_(m, sp_count sp dim)) c cr, sp_cov ch X Y = Some (c, cr) ->
    [/\ self_adj c = Y *m dg wc *m Y^T, cr = X *m dg wc *m Y^T, psd (Y *m dg wc *m Y^T) -> proper c & form c = ch];
  g_covsome : forall n m (ch : bool) (X : 'M[R]_(n, sp_count sp dim)) (Y : 'M[R]_(m, sp_count sp dim)),
    [\/ ch = false, easy | posdef (Y *m dg wc *m Y^T)] -> exists r, sp_cov ch X Y = Some r
}.

(** ** Unscented points. *)
Section Unscented.
Variable p : uparams R.
Variable dim : nat.
Hypothesis a0 : ualpha p != 0.
Hypothesis dk0 : 0 < dim%:R + ukappa p dim.

Let s := u_scale p dim.
Lemma u_scale_gt0 : 0 < u_scale p dim.
Proof. by rewrite /u_scale [_ + dim%:R]addrC mulr_gt0 // -expr2 lt_def sqr_ge0 sqrf_eq0 a0. Qed.

Lemma ut_scale : dim%:R + ut_lambda (ualpha p) (ukappa p dim) dim = u_scale p dim.
Proof. by rewrite /ut_lambda /u_scale expr2 addrC subrK [ukappa p dim + _]addrC. Qed.

Lemma W_scale : (W p dim + W p dim) * u_scale p dim = 1.
Proof.
rewrite -mulr2n -[W p dim *+ 2]mulr_natl /W /unscaled_W /u_scale [_ + dim%:R]addrC.
have n2 : (2%:R : R) != 0 by rewrite pnatr_eq0.
have kd : dim%:R + ukappa p dim != 0 by rewrite gt_eqF.
have q0 : ualpha p * ualpha p != 0 by rewrite mulf_neq0.
have e (t d q t' d' q' : R) : t * (t' * d' * q') * (q * d) = (t * t') * (d * d') * (q * q') by cring.
by rewrite e !divff // !mulr1.
Qed.

Lemma W_gt0 : 0 < W p dim.
Proof.
have h := W_scale; have h2 := u_scale_gt0.
have : 0 < (W p dim + W p dim) * u_scale p dim by rewrite h ltr01.
by rewrite pmulr_lgt0 // -mulr2n pmulrn_lgt0.
Qed.

Lemma W_ut : W p dim = (2%:R * (dim%:R + ut_lambda (ualpha p) (ukappa p dim) dim))^-1.
Proof.
rewrite ut_scale invfM -[W p dim]mulr1 -[1 in LHS](divff (lt0r_neq0 u_scale_gt0)) mulrA.
have n2 : (2%:R : R) != 0 by rewrite pnatr_eq0.
congr (_ / _); apply: (mulfI n2); rewrite divff //.
by rewrite mulrA mulr_natl mulr2n; exact: W_scale.
Qed.

Lemma Wm0_ut : W_m0 p dim = ut_lambda (ualpha p) (ukappa p dim) dim / (dim%:R + ut_lambda (ualpha p) (ukappa p dim) dim).
Proof.
rewrite ut_scale; set l := ut_lambda _ _ _.
have -> : l = u_scale p dim - dim%:R by rewrite -ut_scale addrAC subrr add0r.
rewrite mulrBl divff ?lt0r_neq0 ?u_scale_gt0 //; apply/eqP; rewrite -subr_eq0 opprB addrA; apply/eqP.
have n2 : (2%:R : R) != 0 by rewrite pnatr_eq0.
have kd : dim%:R + ukappa p dim != 0 by rewrite gt_eqF.
rewrite /W_m0 /unscaled_W0 /u_scale [_ + dim%:R]addrC.
set k := ukappa p dim in kd *; set d := dim%:R in kd *; set q := ualpha p * ualpha p.
have -> : k / (d + k) = 1 - d / (d + k) by rewrite -[1](divff kd) -mulrBl addrAC subrr add0r.
rewrite [1 - _ - 1]addrAC subrr add0r [(q * (d + k))^-1]invfM; cring.
Qed.

Lemma W_sum : W_m0 p dim + (dim * 2)%:R * W p dim = 1.
Proof.
rewrite /W_m0 /W /unscaled_W0 /unscaled_W natrM.
have n2 : (2%:R : R) != 0 by rewrite pnatr_eq0.
have kd : dim%:R + ukappa p dim != 0 by rewrite gt_eqF.
set k := ukappa p dim in kd *; set d := dim%:R in kd *; set q := ualpha p * ualpha p.
have -> : k / (d + k) = 1 - d / (d + k) by rewrite -[1](divff kd) -mulrBl addrAC subrr add0r.
rewrite [1 - _ - 1]addrAC subrr add0r; set e := (d + k)^-1.
have -> : d * 2%:R * (2%:R^-1 * e / q) = d * e / q by rewrite !mulrA mulfK.
by rewrite mulNr addrAC addNr add0r.
Qed.

Lemma weights0 count (w0 w : R) : (weights count.+1 w0 w) 0 0 = w0. Proof. by rewrite mxE. Qed.
Lemma weightsS count (w0 w : R) (j : 'I_count) : (weights count.+1 w0 w) (lift ord0 j) 0 = w. Proof. by rewrite mxE. Qed.

Lemma weights_uniform count (w0 w : R) : uniform (weights count w0 w) 1 w.
Proof. by move=> j hj; rewrite mxE (gtn_eqF hj). Qed.

Lemma mean_weights_one : \sum_j (mean_weights p dim) j 0 = 1.
Proof.
rewrite /mean_weights /u_count big_ord_recl weights0 (eq_bigr (fun _ => W p dim)) => [|j _]; last by rewrite weightsS.
by rewrite sumr_const card_ord -mulr_natl; exact: W_sum.
Qed.

Lemma ut_wmE j : (mean_weights p dim) j 0 = ut_wm (ualpha p) (ukappa p dim) j.
Proof. by rewrite mxE /ut_wm; case: ifP => _; [exact: Wm0_ut|exact: W_ut]. Qed.
Lemma ut_wcE j : (cov_weights p dim) j 0 = ut_wc (ualpha p) (ubeta p) (ukappa p dim) j.
Proof. by rewrite mxE /ut_wc; case: ifP => _; [rewrite /W_c0 Wm0_ut expr2 !addrA|exact: W_ut]. Qed.

Lemma u_points ds X : dimsum ds = dim -> each (@rootable_d R) ds -> sp_points (unscented L p) dim ds = Some X ->
  [/\ X *m mean_weights p dim = 0, X *m dg (mean_weights p dim) *m X^T = jcov ds &
      X *m dg (cov_weights p dim) *m X^T = jcov ds].
Proof.
move=> hd rd e; have hc : (1 + dimsum ds + dimsum ds <= u_count dim)%N by rewrite hd /u_count muln2 -addnn addnA.
have [_ m1 c1] := points_ok LK u_scale_gt0 rd hc (@weights_uniform _ (W_m0 p dim) (W p dim)) e.
have [_ _ c2] := points_ok LK u_scale_gt0 rd hc (@weights_uniform _ (W_c0 p dim) (W p dim)) e.
by rewrite W_scale scale1r in c1 c2; split.
Qed.

Lemma cov_split m (Y : 'M[R]_(m, 1 + dim * 2)) :
  Y *m dg (cov_weights p dim) *m Y^T
  = rsubmx Y *m dg (dsubmx (cov_weights p dim : 'cV[R]_(1 + dim * 2))) *m (rsubmx Y)^T + W_c0 p dim *: (lsubmx Y *m (lsubmx Y)^T).
Proof.
apply/matrixP => i k; rewrite mul_dg big_split_ord /= addrC [RHS]mxE; congr (_ + _).
  by rewrite mul_dg; apply: eq_bigr => j _; rewrite [rsubmx _ _ _]mxE [rsubmx _ _ _]mxE [dsubmx _ _ _]mxE.
by rewrite big_ord1 scalemxE [(lsubmx Y *m _) i k]mxE big_ord1 !mxE /=.
Qed.

Lemma tail_weights (j : 'I_(dim * 2)) : (dsubmx (cov_weights p dim : 'cV[R]_(1 + dim * 2))) j 0 = W p dim.
Proof. by rewrite !mxE. Qed.

Lemma u_cov_ok n m ch (X : 'M[R]_(n, u_count dim)) (Y : 'M[R]_(m, u_count dim)) c cr : u_cov L p ch X Y = Some (c, cr) ->
  let V := Y *m dg (cov_weights p dim) *m Y^T in
  [/\ self_adj c = V, cr = X *m dg (cov_weights p dim) *m Y^T, psd V -> proper c & form c = ch].
Proof.
move=> e V; move: e; rewrite /u_cov; case: ch; last first.
  by case=> <- <-; rewrite /= !mulmxA sa_lowerE; [split|exact: wsq_sym].
rewrite ltNge (ltW W_gt0) /=; case: ltP => w0.
- case e: lrank => [T|] // [<- <-]; have [tT sT] := lrank_sound LK (llq_trig LK _) e.
  split=> //=; rewrite sT (llq_sq LK) sqrt_cols => [|j]; last by rewrite tail_weights (ltW W_gt0).
  by rewrite /V cov_split.
- case=> <- <-; split=> //=; last by move=> _; exact: (llq_trig LK).
  rewrite (llq_sq LK) sqrt_cols // => j; rewrite mxE; case: ifP => _ //; exact: ltW W_gt0.
Qed.

Lemma u_cov_some n m ch (X : 'M[R]_(n, u_count dim)) (Y : 'M[R]_(m, u_count dim)) :
  [\/ ch = false, 0 <= W_c0 p dim | posdef (Y *m dg (cov_weights p dim) *m Y^T)] -> exists r, u_cov L p ch X Y = Some r.
Proof.
rewrite /u_cov; case: ch; last by move=> _; eexists; reflexivity.
rewrite ltNge (ltW W_gt0) /=; case: ltP => w0 [//| |].
- by [].
- move=> h; have [|T ->] := lrank_total LK (U := lsubmx (Y : 'M[R]_(m, 1 + dim * 2))) (a := W_c0 p dim)
    (llq_trig LK (rsubmx (Y : 'M[R]_(m, 1 + dim * 2)) *m dg (map_mx Num.sqrt (dsubmx (cov_weights p dim : 'cV[R]_(1 + dim * 2)))))).
    right; rewrite (llq_sq LK) sqrt_cols => [|j]; last by rewrite tail_weights (ltW W_gt0).
    by rewrite -cov_split.
  by eexists; reflexivity.
- by move=> _; eexists; reflexivity.
- by move=> _; eexists; reflexivity.
Qed.

Lemma unscented_good :
  @sp_good (unscented L p) dim (mean_weights p dim) (cov_weights p dim) (0 <= W_c0 p dim).
Proof.
split.
- by [].
- exact: mean_weights_one.
- exact: u_points.
- by move=> ds; exact: (points_some L _ _ _ u_scale_gt0).
- exact: u_cov_ok.
- exact: u_cov_some.
Qed.

End Unscented.

(** ** Cubature points. *)
Section Cubature.
Variable dim : nat.
Hypothesis d0 : (0 < dim)%N.

Definition c_weights : 'cV[R]_(c_count dim) := const_mx (c_count dim)%:R^-1.

Lemma cc_gt0 : 0 < (c_count dim)%:R :> R. Proof. by rewrite ltr0n muln_gt0 d0. Qed.

Lemma dg_c_weights : dg c_weights = (c_count dim)%:R^-1%:M.
Proof. by rewrite /dg /c_weights trmx_const diag_const_mx. Qed.

Lemma c_weights_uniform : uniform c_weights 0 (c_count dim)%:R^-1.
Proof. by move=> j _; rewrite mxE. Qed.

Lemma cubature_good : @sp_good (cubature L) dim c_weights c_weights True.
Proof.
have iw : 0 <= (c_count dim)%:R^-1 :> R by rewrite invr_ge0 ler0n.
split.
- move=> m Y /=; apply/matrixP => i k; rewrite ord1 /c_mean scalemxE !mxE mulrC mulr_suml.
  by apply: eq_bigr => j _; rewrite mxE.
- rewrite (eq_bigr (fun _ => (c_count dim)%:R^-1)) => [|j _]; last by rewrite mxE.
  by rewrite sumr_const card_ord -[LHS]mulr_natl divff // gt_eqF // cc_gt0.
- move=> ds X hd rd e; have hc : (0 + dimsum ds + dimsum ds <= c_count dim)%N by rewrite hd /c_count muln2 -addnn add0n.
  have s0 : 0 < dim%:R :> R by rewrite ltr0n.
  have [_ m1 c1] := points_ok LK s0 rd hc c_weights_uniform e.
  have e1 : ((c_count dim)%:R^-1 + (c_count dim)%:R^-1) * dim%:R = 1 :> R.
    rewrite -mulr2n -[_^-1 *+ 2]mulr_natl mulrAC -natrM mulnC divff // gt_eqF //; exact: cc_gt0.
  by rewrite e1 scale1r in c1; split.
- by move=> ds; apply: points_some; rewrite ltr0n.
- move=> n m ch X Y c cr; rewrite /= /c_cov dg_c_weights !mul_mx_scalar; case: ch => -[<- <-] /=.
    split=> //; last by move=> _; exact: (llq_trig LK).
    by rewrite (llq_sq LK) trmxZ -scalemxAl -scalemxAr scalerA -expr2 sqr_sqrtr // -scalemxAl.
  rewrite -!scalemxAr -!scalemxAl sa_lowerE; first by split.
  by rewrite trmxZ trmx_mul trmxK.
- by move=> n m ch X Y _ /=; rewrite /c_cov; case: ch; eexists; reflexivity.
Qed.

End Cubature.

(** ** Consequences, for any good family. *)
Section Good.
Variable sp : spset R.

Lemma col_ones m count (c : 'cV[R]_m) (w : 'cV[R]_count) : \sum_j w j 0 = 1 -> (c *m const_mx 1) *m w = c.
Proof.
move=> h; rewrite -mulmxA; have -> : (const_mx 1 : 'rV[R]_count) *m w = 1%:M.
  by apply/matrixP => i j; rewrite !ord1 !mxE -[RHS]h; apply: eq_bigr => k _; rewrite mxE mul1r.
by rewrite mulmx1.
Qed.

Lemma deviationsE m count (Y : 'M[R]_(m, count)) y : deviations Y y = Y - y *m const_mx 1.
Proof. by apply/matrixP => i j; rewrite !mxE big_ord1 !mxE mulr1. Qed.

Lemma y_means_affine count n q m (A : 'M[R]_(m, n)) (B : 'M[R]_(m, q)) b (P : 'M[R]_(n, count)) (Q : 'M[R]_(q, count)) mx mq :
  y_means (fun v w => A *m v + B *m w + b) P Q mx mq
  = row_mx A B *m col_mx P Q + (A *m mx + B *m mq + b) *m const_mx 1.
Proof.
have cE a (M : 'M[R]_(m, a)) (N : 'M[R]_(a, count)) i j : (M *m col j N) i 0 = (M *m N) i j.
  by rewrite !mxE; apply: eq_bigr => k _; rewrite mxE.
apply/matrixP => i j; rewrite mxE mul_row_col 2!(addmxE _ _ i 0) !mulmxDr !(addmxE _ _ i 0) !(addmxE _ _ i j) !cE.
by rewrite [X in _ = _ + X]mxE big_ord1 [const_mx 1 _ _]mxE mulr1 !(addmxE _ _ i 0); cring.
Qed.

(** The result of a transform of a good family, for any function. *)
Lemma sp_transform_gen n m (x : gd R n) ds (g : 'cV[R]_n -> 'cV[R]_(dimsum ds) -> 'cV[R]_m) wm wc easy :
  @sp_good sp (n + dimsum ds) wm wc easy ->
  exists2 X : 'M[R]_(n + dimsum ds, sp_count sp (n + dimsum ds)), sp_points sp (n + dimsum ds) (mkd x :: ds) = Some X &
    let Y := y_means g (usubmx X) (dsubmx X) (gmean x) (jmean ds) in
    let y := Y *m wm in
    let D := deviations Y y in
    (forall r cr, sp_transform sp x g = Some (r, cr) ->
       [/\ gmean r = y, self_adj (gcov r) = D *m dg wc *m D^T, cr = usubmx X *m dg wc *m D^T,
           psd (D *m dg wc *m D^T) -> proper (gcov r) & form (gcov r) = form (gcov x)])
    /\ ([\/ form (gcov x) = false, easy | posdef (D *m dg wc *m D^T)] -> exists r, sp_transform sp x g = Some r).
Proof.
move=> G; have [X eX] := g_ptsome G (mkd x :: ds); exists X => //; move=> Y y D.
rewrite /sp_transform /= eX -/Y (g_mean G) -/y -/D; split.
  move=> r cr; case e: sp_cov => [[c cr']|] // [<- <-] /=.
  by have [-> -> ? ?] := g_cov G e; split.
by move=> h; have [[c cr] ->] := g_covsome G (usubmx X) h; eexists; reflexivity.
Qed.

Lemma jcov_cons n (x : gd R n) ds : jcov (mkd x :: ds) = block_mx (self_adj (gcov x)) 0 0 (jcov ds).
Proof. by []. Qed.

Lemma affine_moments n m (x : gd R n) ds (A : 'M[R]_(m, n)) (B : 'M[R]_(m, dimsum ds)) b wm wc easy
    (X : 'M[R]_(n + dimsum ds, sp_count sp (n + dimsum ds))) :
  @sp_good sp (n + dimsum ds) wm wc easy -> rootable (gcov x) -> each (@rootable_d R) ds ->
  sp_points sp (n + dimsum ds) (mkd x :: ds) = Some X ->
  let Y := y_means (fun v w => A *m v + B *m w + b) (usubmx X) (dsubmx X) (gmean x) (jmean ds) in
  let D := deviations Y (Y *m wm) in
  [/\ Y *m wm = A *m gmean x + B *m jmean ds + b,
      D *m dg wc *m D^T = A *m self_adj (gcov x) *m A^T + B *m jcov ds *m B^T &
      usubmx X *m dg wc *m D^T = self_adj (gcov x) *m A^T].
Proof.
move=> G rx rds eX Y D.
have [|zm _ cX] := g_pts G (erefl : dimsum (mkd x :: ds) = n + dimsum ds)%N _ eX; first by split.
have eY : Y = row_mx A B *m X + (A *m gmean x + B *m jmean ds + b) *m const_mx 1 by rewrite /Y y_means_affine vsubmxK.
have em : Y *m wm = A *m gmean x + B *m jmean ds + b.
  by rewrite eY mulmxDl -mulmxA zm mulmx0 add0r col_ones //; exact: (g_one G).
have eD : D = row_mx A B *m X by rewrite /D em deviationsE eY addrK.
have sx : (self_adj (gcov x))^T = self_adj (gcov x) := self_adj_sym (rootable_proper rx).
split=> //.
- rewrite eD trmx_mul [X in X *m _ = _]/= -!mulmxA [dg wc *m _]mulmxA [X *m (_ *m _)]mulmxA [X *m (_ *m _)]mulmxA cX jcov_cons.
  by rewrite tr_row_mx mul_block_col !mul0mx addr0 add0r mul_row_col !mulmxA.
- have eu : usubmx X = row_mx 1%:M 0 *m X by rewrite -{2}[X]vsubmxK mul_row_col mul1mx mul0mx addr0.
  rewrite eD trmx_mul eu -!mulmxA [dg wc *m _]mulmxA [X *m (_ *m _)]mulmxA [X *m (_ *m _)]mulmxA cX jcov_cons.
  by rewrite tr_row_mx mul_block_col !mul0mx addr0 add0r mul_row_col mul1mx mul0mx addr0.
Qed.

Lemma jcov_psd ds : each (@rootable_d R) ds -> psd (jcov ds).
Proof.
elim: ds => [|[k d] ds IH] /=; first by move=> _; exact: psd0.
case=> rd /IH h; have pd := self_adj_psd (rootable_proper rd); split.
  by rewrite tr_block_mx !trmx0 (psd_sym pd) (psd_sym h).
move=> v; rewrite /qform -[v]vsubmxK tr_col_mx mul_row_block mul_row_col !mulmx0 addr0 add0r mxE.
by apply: addr_ge0; [case: pd => _|case: h => _]; apply.
Qed.

(** C43 for any good family. *)
Lemma affine_ok n m (x : gd R n) ds (A : 'M[R]_(m, n)) (B : 'M[R]_(m, dimsum ds)) b wm wc easy :
  @sp_good sp (n + dimsum ds) wm wc easy -> rootable (gcov x) -> each (@rootable_d R) ds ->
  (forall r cr, sp_transform sp x (fun v w => A *m v + B *m w + b) = Some (r, cr) ->
     [/\ gmean r = A *m gmean x + B *m jmean ds + b,
         self_adj (gcov r) = A *m self_adj (gcov x) *m A^T + B *m jcov ds *m B^T,
         cr = self_adj (gcov x) *m A^T, proper (gcov r) & form (gcov r) = form (gcov x)])
  /\ ([\/ form (gcov x) = false, easy | posdef (A *m self_adj (gcov x) *m A^T + B *m jcov ds *m B^T)] ->
      exists r, sp_transform sp x (fun v w => A *m v + B *m w + b) = Some r).
Proof.
move=> G rx rds; have [X eX] := sp_transform_gen x (fun v (w : 'cV_(dimsum ds)) => A *m v + B *m w + b) G.
have [e1 e2 e3] := @affine_moments n m x ds A B b wm wc easy X G rx rds eX.
move=> /=; rewrite e2 e3 e1 => -[h1 h2]; split=> // r cr /h1 [-> -> -> pr ->]; split=> //; apply: pr.
apply: psdD; apply: psd_congr; last exact: jcov_psd.
by apply: self_adj_psd; exact: rootable_proper.
Qed.

End Good.
End Sigma.
