(** * Proofs: chains of transforms, covariance and distribution arithmetic, refutations. *)
From mathcomp Require Import all_ssreflect all_algebra.
From Verif Require Import MatBase RingTac LibModel GaussModel KalmanModel KalmanSpec KalmanProofs KalmanProofs2.
Set Implicit Arguments.
Unset Strict Implicit.
Unset Printing Implicit Defensive.
Import GRing.Theory Num.Theory Order.Theory.
Local Open Scope ring_scope.

Section Proofs.
Variable R : rcfType.
Variable L : lib R.
Hypothesis LK : lib_ok L.

(** ** Chains. *)
Lemma chain_ok n k (c : chain R n k) (x : gd R n) : proper (gcov x) ->
  chain_noise (fun m q => if is_chol (gcov x) then rootable q else proper q) c ->
  [/\ mom (seq_transform L c x) = chain_image c (mom x), proper (gcov (seq_transform L c x)) &
      is_chol (gcov (seq_transform L c x)) = is_chol (gcov x)].
Proof.
elim: c x => {n k} [n k A Bs ns|n m k A Bs ns c IH] x px /=.
  exact: lin_transform_ok.
case=> nx nc; have [e p ch] := lin_transform_ok LK A Bs px nx.
have [|e2 p2 c2] := IH _ p; first by rewrite ch.
by rewrite e2 e c2 ch.
Qed.

Lemma chain_affine n k (c : chain R n k) : exists s : moments R k, forall x : moments R n,
  chain_image c x = Mom (chain_mx c *m mu x + mu s) (chain_mx c *m Sg x *m (chain_mx c)^T + Sg s).
Proof.
elim: c => {n k} [n k A Bs ns|n m k A Bs ns c [s IH]] /=.
  by eexists (Mom _ _) => x; reflexivity.
pose B i := nth 1%:M Bs i; pose w i := nth (Mom 0 0) (map (@mom R m) ns) i.
pose v := \sum_(i < size (map (@mom R m) ns)) B i *m mu (w i).
pose Q := \sum_(i < size (map (@mom R m) ns)) B i *m Sg (w i) *m (B i)^T.
exists (Mom (chain_mx c *m v + mu s) (chain_mx c *m Q *m (chain_mx c)^T + Sg s)) => x.
rewrite IH /lin_image -/B -/w -/v -/Q /=; apply: moments_ext => /=.
  by rewrite mulmxDr mulmxA addrA.
by rewrite !mulmxDr !mulmxDl trmx_mul !mulmxA addrA.
Qed.

Lemma chain_image_psd n k (c : chain R n k) : chain_noise (@proper R) c ->
  forall x, psd (Sg x) -> psd (Sg (chain_image c x)).
Proof.
elim: c => {n k} [n k A Bs ns|n m k A Bs ns c IH] /= => [nx|[nx nc]] x px.
  exact: (lin_cov_psd A Bs px (each_mom_psd nx)).
by apply: IH => //; exact: (lin_cov_psd A Bs px (each_mom_psd nx)).
Qed.

Lemma chain_cross1 n k (c : chain R n k) (x : gd R n) : (seq_transform_cross L c x).1 = seq_transform L c x.
Proof. by elim: c x => {n k} [n k A Bs ns|n m k A Bs ns c IH] x /=; rewrite ?sum_noise_nc ?IH. Qed.

Lemma chain_quiet_image n k (c : chain R n k) x : quiet c -> chain_image c x = lin_image (chain_mx c) [::] x [::].
Proof.
elim: c x => {n k} [n k A Bs ns|n m k A Bs ns c IH] x /= => [->|[-> /IH ->]] //=.
  by apply: moments_ext; rewrite /= !big_ord0.
by apply: moments_ext; rewrite /= !big_ord0 !addr0 ?trmx_mul !mulmxA.
Qed.

(** ** Covariance arithmetic. *)
Lemma c_sub_some n (a b : cval R n) : proper a -> (is_chol a -> is_chol b -> posdef (self_adj a - self_adj b)) ->
  exists c, c_sub L a b = Some c.
Proof.
case: a b => [P|T1] [Q|T2] /= pa h; try by eexists; reflexivity.
have [|T' ->] := @lrank_total _ _ LK _ _ T1 T2 (-1) pa; last by eexists; reflexivity.
by right; rewrite scaleN1r; exact: h.
Qed.

Lemma c_div_val n (a c : cval R n) s : proper a -> c_div L a s = Some c -> self_adj c = s^-1 *: self_adj a.
Proof.
case: a => [P|T] pa /=; first by case: eqP => // _ [<-].
case: ltrP => s0.
  case=> <-; rewrite /= trmxZ -scalemxAl -scalemxAr scalerA -invfM -expr2 sqr_sqrtr // ltW //.
case: ifP => sn //.
case e: lrank => [T'|] // [<-] /=.
have h0 : is_trig_mx (0 : 'M[R]_n) by apply: mx0_is_trig.
by have [_ ->] := lrank_sound LK h0 e; rewrite mul0mx add0r.
Qed.

Lemma c_div0 n (a : cval R n) : c_div L a 0 = None.
Proof. by case: a => [P|T] /=; rewrite ?eqxx // ltxx. Qed.

Lemma c_div_pos n (a : cval R n) s : 0 < s -> exists c, c_div L a s = Some c.
Proof. by case: a => [P|T] s0 /=; rewrite ?(gt_eqF s0) ?s0; eexists; reflexivity. Qed.

Lemma trigZ n (a : R) (T : 'M[R]_n) : is_trig_mx T -> is_trig_mx (a *: T).
Proof. by move=> h; apply/is_trig_mxP => i j ij; rewrite mxE (is_trig_mxP h) // mulr0. Qed.

Lemma c_div_proper n (a c : cval R n) s : 0 < s -> proper a -> c_div L a s = Some c -> proper c.
Proof.
case: a => [P|T] s0 pa /=; rewrite ?(gt_eqF s0) ?s0 => -[<-] /=; last exact: trigZ.
by apply: psdZ => //; rewrite invr_ge0 ltW.
Qed.

Lemma c_scale_val n (a : cval R n) s : self_adj (c_scale a s) = (s * s) *: self_adj a.
Proof. by case: a => [P|T] //=; rewrite trmxZ -scalemxAl -scalemxAr scalerA. Qed.

Lemma c_scale_proper n (a : cval R n) s : proper a -> proper (c_scale a s).
Proof. by case: a => [P|T] /= h; [apply: psdZ => //; rewrite -expr2 sqr_ge0|exact: trigZ]. Qed.

Lemma c_inv_scale_val n (a c : cval R n) s : c_inv_scale a s = Some c -> self_adj c = (s * s)^-1 *: self_adj a.
Proof.
rewrite /c_inv_scale; case: eqP => // s0 [<-]; case: a => [P|T] //=.
by rewrite trmxZ -scalemxAl -scalemxAr scalerA invfM.
Qed.

Lemma c_inv_scale_proper n (a c : cval R n) s : proper a -> c_inv_scale a s = Some c -> proper c.
Proof.
rewrite /c_inv_scale; case: eqP => // s0 pa [<-]; case: a pa => [P|T] /= h; last exact: trigZ.
by apply: psdZ => //; rewrite invr_ge0 -expr2 sqr_ge0.
Qed.

Lemma c_scale_mx_val n m (c : cval R n) (A : 'M[R]_(m, n)) : proper c ->
  self_adj (c_scale_mx L c A) = A *m self_adj c *m A^T.
Proof.
case: c => [P [sP _]|T _] /=; last by rewrite (llq_sq LK) trmx_mul !mulmxA.
by rewrite mulmxA sa_lowerE // !trmx_mul trmxK sP mulmxA.
Qed.

Lemma c_scale_mx_proper n m (c : cval R n) (A : 'M[R]_(m, n)) : proper c -> proper (c_scale_mx L c A).
Proof.
case: c => [P pP|T _] /=; last exact: (llq_trig LK).
have [sP _] := pP; rewrite mulmxA sa_lowerE; first exact: psd_congr.
by rewrite !trmx_mul trmxK sP mulmxA.
Qed.

(** Concatenation and splitting. *)
Lemma trig_block n m (T1 : 'M[R]_n) (T2 : 'M[R]_m) (B : 'M[R]_(m, n)) :
  is_trig_mx (block_mx T1 0 B T2) = is_trig_mx T1 && is_trig_mx T2.
Proof. by rewrite is_trig_block_mx // eqxx. Qed.

Lemma c_concat_val n m (a : cval R n) (b : cval R m) c : c_concat a b = Some c ->
  self_adj c = block_mx (self_adj a) 0 0 (self_adj b).
Proof.
case: a b => [P|T1] [Q|T2] //= [<-] //=.
by rewrite tr_block_mx mulmx_block !trmx0 !mulmx0 !mul0mx !addr0 !add0r.
Qed.

Lemma c_concat_proper n m (a : cval R n) (b : cval R m) c : proper a -> proper b -> c_concat a b = Some c -> proper c.
Proof.
case: a b => [P|T1] [Q|T2] //= pa pb [<-] /=; last by rewrite trig_block pa.
have [sP qP] := pa; have [sQ qQ] := pb; split; first by rewrite tr_block_mx !trmx0 sP sQ.
move=> z; rewrite -[z]vsubmxK /qform tr_col_mx mul_row_block !mulmx0 addr0 add0r mul_row_col mxE.
by apply: addr_ge0; [exact: qP|exact: qQ].
Qed.

Lemma c_split_concat n m (a : cval R n) (b : cval R m) c : c_concat a b = Some c -> c_split c = (a, b).
Proof. by case: a b => [P|T1] [Q|T2] //= [<-] /=; rewrite block_mxKul block_mxKdr. Qed.

(** ** Joseph form. *)
Lemma joseph n m (P : 'M[R]_n) (H : 'M[R]_(m, n)) (N : 'M[R]_m) (G : 'M[R]_(n, m)) : P^T = P ->
  error_cov P (P *m H^T) (H *m P *m H^T + N) G = joseph_cov P H N G.
Proof.
move=> sP; rewrite /error_cov /joseph_cov !trmx_mul trmxB trmx1 !trmx_mul trmxK sP.
mxexpand; rewrite ?mul1mx ?mulmx1; abel.
Qed.

Lemma condition_optimal n m (x : moments R n) (y : moments R m) (Pxy : 'M[R]_(n, m)) z (G : 'M[R]_(n, m)) :
  psd (Sg y) -> Sg y \in unitmx -> loewner (Sg (condition x y Pxy z)) (error_cov (Sg x) Pxy (Sg y) G).
Proof.
move=> py uy; rewrite /loewner /= error_cov_gap //; last exact: psd_sym.
exact: psd_congr.
Qed.

Lemma condition_shrinks n m (x : moments R n) (y : moments R m) (Pxy : 'M[R]_(n, m)) z :
  psd (Sg y) -> Sg y \in unitmx -> loewner (Sg (condition x y Pxy z)) (Sg x).
Proof.
move=> py uy; have := condition_optimal x Pxy z 0 py uy.
by rewrite /error_cov !mul0mx trmx0 mulmx0 !subr0 addr0.
Qed.

Lemma error_cov_gain n m (Pxx : 'M[R]_n) (Pxy : 'M[R]_(n, m)) (Py : 'M[R]_m) : Py^T = Py -> Py \in unitmx ->
  error_cov Pxx Pxy Py (Pxy *m invmx Py) = Pxx - Pxy *m invmx Py *m Pxy^T.
Proof.
move=> sy uy; apply/eqP; rewrite -subr_eq0; apply/eqP.
by rewrite error_cov_gap // subrr !mul0mx.
Qed.

(** ** Refutations. *)
Variable S : solver R.
Hypothesis SK : solver_ok S.

Definition perfect2 : measurement R 2 := Meas 0 1%:M [::] [::].

Lemma perfect_pred (x : moments R 2) : Sg x = 1%:M -> Sg (predicted x perfect2) = 1%:M.
Proof. by move=> e; rewrite predicted_Sg /noise_of /= big_ord0 addr0 e trmx1 !mulmx1. Qed.

Lemma perfect_throws : lrank_strict L -> update L S (GD 0 (Chol 1%:M)) perfect2 = None.
Proof.
move=> st; rewrite /update lin_transform_cross1 lin_transform_cross2.
set x := GD 0 (Chol 1%:M).
have px : proper (gcov x) by exact: scalar_mx_is_trig.
have [e p _] := @lin_transform_ok R L LK 2 2 1%:M [::] x [::] px I.
set y := lin_transform _ _ _ _ in e p *.
have ey : self_adj (gcov y) = 1%:M.
  by have := congr1 (fun d => Sg d) e; rewrite /= !big_ord0 addr0 trmx1 !mulmx1.
have yT : gcov y = Chol (llq L (1%:M *m 1%:M : 'M[R]_2)) by [].
rewrite /update_step ey yT [gcov x]/= [self_adj _]/= [sqrt_of _ _]/= [ljac0 _]/= [c_sub _ _ _]/= !mulmx1 trmx1 !mulmx1.
set T := llq L 1%:M.
have eT : T *m T^T = 1%:M by rewrite (llq_sq LK) trmx1 mulmx1.
have gE := @gain_eq R S SK 2 2 1%:M 1%:M (trmx1 _ _) (unitmx1 _ _).
rewrite trmx1 in gE; rewrite ?trmx1 gE invmx1 mulmx1 mul1mx st //; first by rewrite ltrN10.
rewrite (llq_sq LK) eT ?mulmx1 scaleN1r trmx1 mulmx1 subrr => -[_ /(_ (const_mx 1))].
by rewrite /qform mulmx0 mul0mx mxE ltxx; case: eqP => [/matrixP /(_ 0 0) /eqP|_ /(_ isT)] //; rewrite !mxE oner_eq0.
Qed.

Lemma perfect_dense : exists2 g, update L S (GD 0 (Dense 1%:M)) perfect2 = Some g & mom g = Mom 0 0.
Proof.
set x := GD 0 (Dense 1%:M).
have px : proper (gcov x) by apply: posdef_psd; exact: posdef1.
have wp : well_posed_step (mom x) (FUpdate perfect2) by rewrite /well_posed_step perfect_pred // unitmx1.
have nx : step_ok_noise x (FUpdate perfect2) by [].
have [//|g e] := @fstep_some R L LK S SK 2 x (FUpdate perfect2) px nx wp.
exists g; first exact: e.
have [-> _ _] := fstep_ok LK SK px nx wp e.
apply: moments_ext.
  by rewrite update_mu0 /noise_of /= !big_ord0 !mulmx0 !add0r oppr0 mulmx0.
by rewrite update_Sg0 /noise_of /= !big_ord0 addr0 trmx1 !mulmx1 trmx1 invmx1 !mulmx1 subrr.
Qed.
End Proofs.

Section Strict.
Variable R : rcfType.
(** An exact back end that is also strict. *)
Definition strict_lib : lib R := Lib
  (fun n P => cholf P)
  (fun n m A => cholf (A *m A^T))
  (fun n m T U a => let P := T *m T^T + a *: (U *m U^T) in
     if (cholf P *m (cholf P)^T == P) && ((n <= 1)%N || (0 <= a) || [forall i, 0 < cholf P i i]) then Some (cholf P) else None).

Lemma strict_lib_ok : lib_ok strict_lib.
Proof.
have [h1 h2 h3 h4 h5 h6 h7 h8] := exact_lib_ok R.
split=> //=.
  move=> n m T U a T' tT; case: ifP => // /andP [/eqP e _] [<-]; split=> //; exact: cholf_trig.
move=> n m T U a tT h; have p : psd (T *m T^T + a *: (U *m U^T)).
  case: h => [a0|/posdef_psd //]; apply: psdD; first exact: psd_mulT.
  by apply: psdZ; [exact: ltW|exact: psd_mulT].
rewrite cholf_correct // eqxx; case: h => [a0|pd]; first by rewrite (ltW a0) orbT; eexists; reflexivity.
have -> : [forall i, 0 < cholf (T *m T^T + a *: (U *m U^T)) i i] by apply/forallP => i; exact: cholf_posdiag.
by rewrite orbT; eexists; reflexivity.
Qed.

Lemma strict_lib_strict : lrank_strict strict_lib.
Proof.
move=> n m T U a n2 a0 np; rewrite /=; case: ifP => // /andP [/eqP e]; rewrite leqNgt n2 leNgt a0 /= => /forallP h.
case: np; rewrite -e; apply: posdef_mulT; rewrite trig_unit_diag; last exact: cholf_trig.
by apply/forallP => i; rewrite gt_eqF.
Qed.
End Strict.

Section More.
Variable R : rcfType.

Lemma mom_eq n (g : gd R n) (y : moments R n) : mom g = y -> gmean g = mu y /\ self_adj (gcov g) = Sg y.
Proof. by move=> <-. Qed.

Lemma mom_eq2 n (g g' : gd R n) : mom g = mom g' -> gmean g = gmean g' /\ self_adj (gcov g) = self_adj (gcov g').
Proof. by move/mom_eq. Qed.

Lemma updates_noise n (us : seq (measurement R n)) :
  each (fun u => each (fun d => rootable (gcov d)) (mns u) /\ posdef (Sg (noise_of u))) us ->
  each (@step_noise R (@rootable R) n) (map (@FUpdate R n) us).
Proof. by elim: us => [|u us IH] //= [[? _] /IH]. Qed.

Lemma updates_well_posed n (us : seq (measurement R n)) (x : moments R n) : psd (Sg x) ->
  each (fun u => posdef (Sg (noise_of u))) us -> holds_along (@well_posed_step R) x (map (@FUpdate R n) us).
Proof.
elim: us x => [|u us IH] x px //= [pu pus]; split.
  by rewrite -[X in X \in _]/(Sg (predicted x u)) predicted_Sg; apply: posdef_unit; exact: innov_posdef.
by apply: IH => //; have [] := update_Sg px pu.
Qed.

Lemma chain_noise_impl (p q : forall m, cval R m -> Prop) n k (c : chain R n k) : (forall m r, p m r -> q m r) ->
  chain_noise p c -> chain_noise q c.
Proof.
move=> h; elim: c => {n k} [n k A Bs ns|n m k A Bs ns c IH] /=; first by apply: each_impl => d; exact: h.
by case=> a /IH b; split=> //; apply: each_impl a => d; exact: h.
Qed.

Lemma quiet_noise (p : forall m, cval R m -> Prop) n k (c : chain R n k) : quiet c -> chain_noise p c.
Proof. by elim: c => {n k} [n k A Bs ns|n m k A Bs ns c IH] /= => [->|[-> /IH]]. Qed.

Lemma rls_well_posed n (lambda : R) (us : seq (measurement R n)) (x : moments R n) : 0 < lambda -> psd (Sg x) ->
  each (fun u => posdef (Sg (noise_of u))) us ->
  holds_along (@well_posed_step R) x (flatten [seq [:: FPredict (PRls lambda [::]); FUpdate u] | u <- us]).
Proof.
move=> l0; elim: us x => [|u us IH] x px //= [pu pus]; split=> //.
have p1 : psd (Sg (spec_step x (FPredict (PRls lambda [::])))).
  by rewrite rls_predict; apply: psdZ => //; rewrite invr_ge0 ltW.
split.
  rewrite -[X in X \in _]/(Sg (predicted (spec_step x (FPredict (PRls lambda [::]))) u)) predicted_Sg.
  by apply: posdef_unit; exact: innov_posdef.
by apply: IH => //; have [] := update_Sg p1 pu.
Qed.

Lemma rls_noise n (lambda : R) (us : seq (measurement R n)) :
  each (fun u => each (fun d => rootable (gcov d)) (mns u) /\ posdef (Sg (noise_of u))) us ->
  each (@step_noise R (@rootable R) n) (flatten [seq [:: FPredict (PRls lambda [::]); FUpdate u] | u <- us]).
Proof. by elim: us => [|u us IH] //= [[? _] /IH]. Qed.

Variable L : lib R.
Hypothesis LK : lib_ok L.
Variable S : solver R.

Lemma rls_proof n (lambda : R) (x g : gd R n) (us : seq (measurement R n)) :
  solver_ok S -> 0 < lambda -> proper (gcov x) -> posdef (self_adj (gcov x)) ->
  each (fun u => each (fun d => rootable (gcov d)) (mns u) /\ posdef (Sg (noise_of u))) us ->
  filter L S x (flatten [seq [:: FPredict (PRls lambda [::]); FUpdate u] | u <- us]) = Some g ->
  let N := size us in
  let cost := ls_cost lambda (mom x) (map (@sample_of R n) us) in
  [/\ invmx (self_adj (gcov g)) = lambda ^+ N *: invmx (self_adj (gcov x)) +
        \sum_(i < N) lambda ^+ (N - i.+1) *: nth 0 (map (@info R n) us) i,
      forall y, cost y = cost (gmean g) + qform (invmx (self_adj (gcov g))) (y - gmean g) &
      forall y, y != gmean g -> cost (gmean g) < cost y].
Proof.
move=> SK l0 px pd hus e N cost.
have pn : each (fun u => posdef (Sg (noise_of u))) us by apply: each_impl hus => u [].
have ps : psd (Sg (mom x)) by exact: self_adj_psd.
have nos' : each (@step_noise R (fun m c => if is_chol (gcov x) then rootable c else proper c) n)
   (flatten [seq [:: FPredict (PRls lambda [::]); FUpdate u] | u <- us]).
  by apply: each_impl (rls_noise lambda hus) => o; apply: step_noise_impl => m c; case: ifP => // _ /rootable_proper.
have [h _] := filter_gen LK SK px nos' (rls_well_posed l0 ps pn).
have [em _ _] := h g e.
have [py ey cy] := rls_correct l0 (pd : posdef (Sg (mom x))) pn; rewrite -/(rls_ops lambda us) in em.
rewrite -em in py ey cy; split=> // y ny.
rewrite /cost [X in _ < X]cy ltr_addl.
have [_ q] := posdef_inv py; apply: q; by rewrite subr_eq0.
Qed.

Lemma identity_lin_cov n (x d : gd R n) : proper (gcov x) ->
  self_adj (gcov (lin_transform L (identity_transformation R n) x [:: d])) = self_adj (gcov x).
Proof.
case: x => xm [P [sP _]|T tT] /=.
  by rewrite mul0mx trmx1 mul1mx mulmx1 addr0 sa_lowerE.
by rewrite (llq_sq LK) tr_row_mx mul_row_col mul1mx !mul0mx addr0.
Qed.

Lemma identity_refuted_proof n (x d : gd R n) :
  proper (gcov x) -> rootable (gcov d) -> self_adj (gcov d) != 0 ->
  self_adj (gcov (id_transform L x [:: d])) = self_adj (gcov x) + self_adj (gcov d) /\
  self_adj (gcov (lin_transform L (identity_transformation R n) x [:: d])) = self_adj (gcov x) /\
  mom (id_transform L x [:: d]) <> mom (lin_transform L (identity_transformation R n) x [:: d]).
Proof.
move=> px rd d0; have e1 : self_adj (gcov (id_transform L x [:: d])) = self_adj (gcov x) + self_adj (gcov d) by exact: c_add_val.
have e2 := identity_lin_cov d px; do !split=> //.
move=> h; case/eqP: d0; have := congr1 (@Sg R n) h; rewrite [LHS]e1 [RHS]e2 => /eqP.
by rewrite -subr_eq0 addrAC subrr add0r => /eqP.
Qed.

Lemma identity_partial_proof n (x : gd R n) : proper (gcov x) ->
  mom (id_transform L x [::]) = mom x /\ mom (lin_transform L (identity_transformation R n) x [::]) = mom x.
Proof.
move=> px; split=> //; apply: moments_ext => //=.
case: x px => xm [P [sP _]|T tT] /=.
  by rewrite trmx1 mul1mx mulmx1 sa_lowerE.
by rewrite (llq_sq LK) mul1mx.
Qed.

Lemma scal11 (a b : R) : a%:M *m b%:M = (a * b)%:M :> 'M[R]_1. Proof. by rewrite -scalar_mxM. Qed.

Lemma chain_cross_refuted_proof : solver_ok S ->
  let c := ChCons (2%:R%:M : 'M[R]_1) [::] [::] (ChOne (2%:R%:M : 'M[R]_1) [::] [:: GD 0 (Dense 1%:M)]) in
  let x := GD (0 : 'cV[R]_1) (Dense (1%:M : 'M[R]_1)) in
  let yP := seq_transform_cross L c x in
  [/\ self_adj (gcov x) *m (chain_mx c)^T = 4%:R%:M, self_adj (gcov yP.1) = 17%:R%:M, yP.2 = 8%:R%:M &
      forall z g, update_step L S x yP.1 yP.2 z = Some g -> self_adj (gcov g) 0 0 < 0].
Proof.
move=> SK c x yP; have px : proper (gcov x) by apply: posdef_psd; exact: posdef1.
have nc : chain_noise (fun m q => if is_chol (gcov x) then rootable q else proper q) c.
  by do !split=> //=; apply: posdef_psd; exact: posdef1.
have [e p _] := chain_ok LK px nc.
have e1 : self_adj (gcov yP.1) = 17%:R%:M.
  rewrite /yP chain_cross1; have := congr1 (@Sg R 1) e => /= ->.
  rewrite !big_ord0 big_ord1 /= addr0 !trmx1 ?mulmx1 ?mul1mx !tr_scalar_mx -!scalar_mxM -raddfD /=.
  by congr (_%:M); rewrite -!natrM -mulrSr.
have e2 : yP.2 = 8%:R%:M.
  rewrite /yP /=.
  by rewrite !mulmx1 !tr_scalar_mx -!scalar_mxM sa_lowerE ?tr_scalar_mx // -scalar_mxM -!natrM.
have py : proper (gcov yP.1) by rewrite /yP chain_cross1.
have n17 : (17%:R : R) != 0 by rewrite pnatr_eq0.
have u : self_adj (gcov yP.1) \in unitmx by rewrite e1 unitmxE det_scalar unitfE expf_neq0.
split=> //; first by rewrite /= mul1mx -scalar_mxM tr_scalar_mx -natrM.
move=> z g eg; have [em _ _] := update_step_ok LK SK px py u eg.
have [_ ->] := mom_eq em; rewrite -[Sg _]/(self_adj (gcov x) - yP.2 *m invmx (self_adj (gcov yP.1)) *m yP.2^T) e1 e2.
have -> : invmx (17%:R%:M : 'M[R]_1) = (17%:R^-1)%:M by rewrite invmx_scalar.
rewrite tr_scalar_mx -!scalar_mxM -raddfB mxE eqxx mulr1n subr_lt0.
rewrite mulrAC ltr_pdivl_mulr ?ltr0n // mul1r -natrM ltr_nat //.
Qed.

Lemma gaussian_arithmetic_proof n m (a b : gd R n) (A : 'M[R]_(m, n)) (s : R) :
  proper (gcov a) -> proper (gcov b) ->
  [/\ mom (g_add L a b) = Mom (gmean a + gmean b) (self_adj (gcov a) + self_adj (gcov b)),
      mom (g_mulmx L A a) = lin_image A [::] (mom a) [::],
      mom (g_mul a s) = lin_image (s%:M) [::] (mom a) [::] &
      s != 0 -> exists2 d, g_div a s = Some d & mom d = lin_image (s^-1%:M) [::] (mom a) [::]].
Proof.
move=> pa pb; split.
- by apply: moments_ext => //=; rewrite (c_add_val LK).
- by apply: moments_ext => /=; rewrite big_ord0 addr0 // (c_scale_mx_val LK).
- apply: moments_ext => /=; rewrite big_ord0 addr0 ?mul_scalar_mx // c_scale_val.
  by rewrite tr_scalar_mx mul_mx_scalar scalerA.
- move=> s0; rewrite /g_div; case e: (c_inv_scale _ _) => [c|]; last by move: e; rewrite /c_inv_scale (negPf s0).
  eexists; first reflexivity; apply: moments_ext => /=; rewrite big_ord0 addr0 ?mul_scalar_mx // (c_inv_scale_val e).
  by rewrite tr_scalar_mx mul_mx_scalar scalerA invfM.
Qed.

Lemma mom_add n (a b : gd R n) : mom (g_add L a b) = Mom (gmean a + gmean b) (self_adj (gcov a) + self_adj (gcov b)).
Proof. by apply: moments_ext => //=; rewrite (c_add_val LK). Qed.

Lemma mom_mulmx n m (A : 'M[R]_(m, n)) (a : gd R n) : proper (gcov a) ->
  mom (g_mulmx L A a) = Mom (A *m gmean a) (A *m self_adj (gcov a) *m A^T).
Proof. by move=> pa; apply: moments_ext => //=; rewrite (c_scale_mx_val LK). Qed.

Lemma gaussian_laws_proof n m k (a b c : gd R n) (A : 'M[R]_(k, m)) (B : 'M[R]_(m, n)) :
  proper (gcov a) -> proper (gcov b) -> proper (gcov c) ->
  [/\ mom (g_add L a b) = mom (g_add L b a),
      mom (g_add L (g_add L a b) c) = mom (g_add L a (g_add L b c)),
      mom (g_add L a (GD 0 (Dense 0))) = mom a /\ mom (g_add L a (GD 0 (Chol 0))) = mom a,
      mom (g_mulmx L A (g_mulmx L B a)) = mom (g_mulmx L (A *m B) a) &
      mom (g_mulmx L B (g_add L a b)) = mom (g_add L (g_mulmx L B a) (g_mulmx L B b))].
Proof.
move=> pa pb pc; split.
- by rewrite !mom_add addrC [X in Mom _ X]addrC.
- by rewrite !mom_add /= !(c_add_val LK) !addrA.
- by rewrite !mom_add /= mul0mx !addr0.
- have pB := c_scale_mx_proper LK B pa; rewrite !mom_mulmx //= (c_scale_mx_val LK) //.
  by rewrite trmx_mul !mulmxA.
- have pab := c_add_proper LK pa pb; rewrite mom_mulmx // !mom_add /= !(c_scale_mx_val LK) // (c_add_val LK).
  by rewrite !mulmxDr mulmxDl.
Qed.

Lemma gaussian_sub_proof n (a b d : gd R n) :
  proper (gcov a) -> proper (gcov b) -> g_sub L (g_add L a b) b = Some d -> mom d = mom a.
Proof.
move=> pa pb; rewrite /g_sub; case e: c_sub => [c|] // [<-]; apply: moments_ext => /=; first by rewrite addrK.
by rewrite (c_sub_val LK _ e) /= ?(c_add_val LK) ?addrK //; exact: c_add_proper.
Qed.

Lemma gaussian_difference_proof n (a b d : gd R n) :
  proper (gcov a) -> proper (gcov b) -> self_adj (gcov b) != 0 -> g_sub L a b = Some d ->
  self_adj (gcov d) <> self_adj (gcov a) + self_adj (gcov b).
Proof.
move=> pa pb b0; rewrite /g_sub; case e: c_sub => [c|] // [<-] /=.
rewrite (c_sub_val LK pa e) => /eqP; rewrite -subr_eq0 opprD addrACA subrr add0r -opprD oppr_eq0 -mulr2n -scaler_nat.
by rewrite scaler_eq0 (negPf b0) pnatr_eq0.
Qed.

Lemma concat_split_proof n m (a : gd R n) (b : gd R m) d : g_concat a b = Some d ->
  mom d = Mom (col_mx (gmean a) (gmean b)) (block_mx (self_adj (gcov a)) 0 0 (self_adj (gcov b))) /\ g_split d = (a, b).
Proof.
rewrite /g_concat; case e: c_concat => [c|] // [<-]; split.
  by apply: moments_ext => //=; exact: c_concat_val.
by rewrite /g_split /= (c_split_concat e) col_mxKu col_mxKd; case: a b {e} => [? ?] [? ?].
Qed.

Lemma split_refuted_proof :
  let T : 'M[R]_(1 + 1) := block_mx 1%:M 0 1%:M 1%:M in
  let d := GD (0 : 'cV[R]_(1 + 1)) (Chol T) in
  [/\ is_trig_mx T, drsubmx (self_adj (gcov d)) = 2%:R%:M & self_adj (gcov (g_split d).2) = 1%:M].
Proof.
split.
- by rewrite trig_block !scalar_mx_is_trig.
- by rewrite /= tr_block_mx !trmx1 mulmx_block block_mxKdr !mulmx1 mulr2n raddfD.
- by rewrite /= block_mxKdr trmx1 mulmx1.
Qed.

Lemma lchol_scal n (a : R) : 0 < a -> lchol L ((a * a) *: 1%:M : 'M[R]_n) = a%:M.
Proof.
move=> a0; have pd : posdef ((a * a) *: (1%:M : 'M[R]_n)) by apply: posdefZ; [exact: mulr_gt0|exact: posdef1].
apply: chol_unique; [exact: lchol_trig|exact: scalar_mx_is_trig|exact: lchol_diag| |].
  by move=> i; rewrite mxE eqxx mulr1n.
by rewrite lchol_sq // tr_scalar_mx -scalar_mxM scalemx1.
Qed.

Lemma sq_mul_refuted_proof :
  let x := SqSelf (4%:R *: 1%:M : 'M[R]_2) in
  [/\ reads_as L (IsSqrt x) = 2%:R%:M, reads_as L (sq_mul x 3%:R) = 36%:R%:M &
      reads_as L (sq_scale x 3%:R) = 6%:R%:M].
Proof.
split=> /=.
- by rewrite -[4%N]/(2 * 2)%N natrM lchol_scal ?ltr0n.
- by rewrite scalerA -!natrM scalemx1.
- by rewrite scalerA -!natrM -[(_ * _)%N]/(6 * 6)%N natrM lchol_scal ?ltr0n.
Qed.

Lemma g_sum_big n (x : gd R n) (ns : seq (gd R n)) :
  gmean (foldl (@g_add R L n) x ns) = gmean x + \sum_(d <- ns) gmean d /\
  self_adj (gcov (foldl (@g_add R L n) x ns)) = self_adj (gcov x) + \sum_(d <- ns) self_adj (gcov d).
Proof.
elim: ns x => [|d ns IH] x /=; first by rewrite !big_nil !addr0.
by have [-> ->] := IH (g_add L x d); rewrite /= (c_add_val LK) !big_cons !addrA.
Qed.

Lemma rls_transform_proof n (lambda : R) (x : gd R n) (ns : seq (gd R n)) : proper (gcov x) -> 0 < lambda ->
  exists y, [/\ rls_transform L lambda x ns = Some y,
      gmean y = gmean x + \sum_(d <- ns) gmean d,
      self_adj (gcov y) = lambda^-1 *: self_adj (gcov x) + \sum_(d <- ns) self_adj (gcov d) &
      rls_transform_cross L lambda x ns = Some (y, lambda^-1 *: self_adj (gcov x))].
Proof.
move=> px l0; rewrite /rls_transform /rls_transform_cross gt_eqF //.
have i0 : 0 < lambda^-1 by rewrite invr_gt0.
case e: (c_mul L (gcov x) lambda^-1) => [c|]; last by case: (gcov x) px e => [P|T] px //=; rewrite i0.
have [e1 e2] := g_sum_big (GD (gmean x) c) ns.
have ec := c_mul_val LK px e; exists (foldl (@g_add R L n) (GD (gmean x) c) ns); split=> //; by rewrite ?e2 /= ec.
Qed.

End More.
