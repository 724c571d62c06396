(** * Proofs: linear transforms and the Kalman filter refine the textbook moments. *)
From mathcomp Require Import all_ssreflect all_algebra.
From Verif Require Import MatBase LibModel GaussModel KalmanModel KalmanSpec.
Set Implicit Arguments.
Unset Strict Implicit.
Unset Printing Implicit Defensive.
Import GRing.Theory Num.Theory Order.Theory.
Local Open Scope ring_scope.

Section Proofs.
Variable R : rcfType.
Variable L : lib R.
Hypothesis LK : lib_ok L.

Lemma sa_lowerE n (M : 'M[R]_n) : M^T = M -> sa_lower M = M.
Proof. by move=> e; apply/matrixP => i j; rewrite mxE; case: ifP => // _; rewrite -{1}e mxE. Qed.

Lemma sa_lower_sym n (M : 'M[R]_n) : (sa_lower M)^T = sa_lower M.
Proof.
apply/matrixP => i j; rewrite !mxE; case: (ltngtP i j) => [h|h|/ord_inj->] //.
Qed.

Lemma self_adj_sym n (c : cval R n) : proper c -> (self_adj c)^T = self_adj c.
Proof. by case: c => [P [] //|T _] /=; rewrite trmx_mul trmxK. Qed.

Lemma self_adj_psd n (c : cval R n) : proper c -> psd (self_adj c).
Proof. by case: c => [P //|T _] /=; exact: psd_mulT. Qed.

Lemma sqrt_of_sq n (c : cval R n) : rootable c -> sqrt_of L c *m (sqrt_of L c)^T = self_adj c.
Proof.
case: c => [P [p|->]|T] //=; first exact: (lchol_sq LK).
by rewrite (lchol_0 LK) mul0mx.
Qed.

Lemma rootable_proper n (c : cval R n) : rootable c -> proper c.
Proof. by case: c => [P [/posdef_psd|->]|T] //=; exact: psd0. Qed.

(** Covariance arithmetic. *)
Lemma c_add_val n (a b : cval R n) : self_adj (c_add L a b) = self_adj a + self_adj b.
Proof.
case: a b => [P|T1] [Q|T2] //=.
by rewrite (llq_sq LK) tr_row_mx mul_row_col.
Qed.

Lemma c_add_proper n (a b : cval R n) : proper a -> proper b -> proper (c_add L a b).
Proof.
case: a b => [P|T1] [Q|T2] //= pa pb; try (by apply: psdD => //; exact: psd_mulT).
exact: (llq_trig LK).
Qed.

Lemma c_sub_val n (a b c : cval R n) : proper a -> c_sub L a b = Some c -> self_adj c = self_adj a - self_adj b.
Proof.
case: a b => [P|T1] [Q|T2] pa //=; try by case=> <-.
case e: lrank => [T'|] // [<-] /=.
by have [_ ->] := lrank_sound LK pa e; rewrite scaleN1r.
Qed.

Lemma c_sub_proper n (a b c : cval R n) : proper a -> proper b -> c_sub L a b = Some c ->
  psd (self_adj a - self_adj b) -> proper c.
Proof.
case: a b => [P|T1] [Q|T2] pa pb //=; try by case=> <-.
case e: lrank => [T'|] // [<-] /= _.
by have [] := lrank_sound LK pa e.
Qed.

Lemma c_mul_val n (a c : cval R n) s : proper a -> c_mul L a s = Some c -> self_adj c = s *: self_adj a.
Proof.
case: a => [P|T] pa /=; first by case=> <-.
case: ltrP => s0; first by case=> <-; rewrite /= linearZ /= -scalemxAl -scalemxAr scalerA -expr2 sqr_sqrtr // ltW.
case: ifP => sn.
  case e: lrank => [T'|] // [<-] /=.
  have h0 : is_trig_mx (0 : 'M[R]_n) by apply: mx0_is_trig.
  by have [_ ->] := lrank_sound LK h0 e; rewrite mul0mx add0r.
case=> <- /=; have -> : s = 0 by apply/eqP; rewrite eq_le s0 /= leNgt sn.
by rewrite mul0mx scale0r.
Qed.

Lemma c_mul_proper n (a c : cval R n) s : 0 <= s -> proper a -> c_mul L a s = Some c -> proper c.
Proof.
case: a => [P|T] s0 pa /=; first by case=> <-; exact: psdZ.
case: ltrP => h; first by case=> <- /=; apply/is_trig_mxP => i j ij; rewrite mxE (is_trig_mxP pa) // mulr0.
by rewrite ltNge s0 /= => -[<-]; exact: mx0_is_trig.
Qed.

Lemma c_mul_pos n (a : cval R n) s : 0 < s -> exists c, c_mul L a s = Some c.
Proof. by case: a => [P|T] s0 /=; rewrite ?s0; eexists; reflexivity. Qed.

(** Concatenated blocks. *)
Definition bsq m (b : blk R m) : 'M[R]_m := projT2 b *m (projT2 b)^T.

Lemma hcat_sq m (b : blk R m) bs : bsq (hcat b bs) = bsq b + \sum_(c <- bs) bsq c.
Proof.
elim: bs b => [|c bs IH] b /=; first by rewrite big_nil addr0.
by rewrite big_cons -IH /bsq /= tr_row_mx mul_row_col.
Qed.

Lemma size_pert m (Bs : seq 'M[R]_m) k : size (pert_jacobians Bs k) = k.
Proof.
rewrite /pert_jacobians; case: ltnP => h; last by rewrite size_take_min; apply/minn_idPl.
by rewrite size_cat size_nseq subnKC // ltnW.
Qed.

Lemma nth_pert m (Bs : seq 'M[R]_m) k i : (i < k)%N -> nth 1%:M (pert_jacobians Bs k) i = nth 1%:M Bs i.
Proof.
move=> ik; rewrite /pert_jacobians; case: ltnP => h; last by rewrite nth_take.
rewrite nth_cat; case: ltnP => // hi; rewrite nth_nseq; case: ifP => _; by rewrite nth_default.
Qed.

Lemma sum_zip (V : zmodType) A B (f : A -> B -> V) (a0 : A) (b0 : B) (s : seq A) (t : seq B) : size s = size t ->
  \sum_(p <- zip s t) f p.1 p.2 = \sum_(i < size t) f (nth a0 s i) (nth b0 t i).
Proof.
move=> e; rewrite (big_nth (a0, b0)) big_mkord size_zip e minnn.
by apply: eq_bigr => i _; rewrite nth_zip.
Qed.

Lemma sum_pert (V : zmodType) m B (f : 'M[R]_m -> B -> V) (Bs : seq 'M[R]_m) (b0 : B) (t : seq B) :
  \sum_(p <- zip (pert_jacobians Bs (size t)) t) f p.1 p.2 = \sum_(i < size t) f (nth 1%:M Bs i) (nth b0 t i).
Proof.
rewrite (sum_zip f 1%:M b0) ?size_pert //; apply: eq_bigr => i _; by rewrite nth_pert.
Qed.

Lemma foldl_sum (V : zmodType) (x : V) s : foldl +%R x s = x + \sum_(y <- s) y.
Proof. by elim: s x => [|y s IH] x /=; rewrite ?big_nil ?addr0 // IH big_cons addrA. Qed.

Lemma each_nth T (p : T -> Prop) d s i : each p s -> (i < size s)%N -> p (nth d s i).
Proof. by elim: s i => [|a s IH] [|i] //= [pa ps] h //; exact: IH. Qed.

Lemma each_impl T (p q : T -> Prop) s : (forall a, p a -> q a) -> each p s -> each q s.
Proof. by move=> h; elim: s => [|a s IH] //= [/h ? /IH]. Qed.

Lemma nth_mom m (ns : seq (gd R m)) i d : (i < size ns)%N -> nth (Mom 0 0) (map (@mom R m) ns) i = mom (nth d ns i).
Proof. by move=> h; rewrite (nth_map d). Qed.

(** The covariance both branches of the linear transform represent. *)
Definition gd0 m : gd R m := GD 0 (Dense 0).

Lemma lin_cov_sum n m (A : 'M[R]_(m, n)) (Bs : seq 'M[R]_m) (x : gd R n) (ns : seq (gd R m)) :
  A *m self_adj (gcov x) *m A^T
  + \sum_(p <- zip (pert_jacobians Bs (size ns)) (map (@gcov R m) ns)) p.1 *m self_adj p.2 *m p.1^T
  = Sg (lin_image A Bs (mom x) (map (@mom R m) ns)).
Proof.
rewrite /lin_image /= size_map; congr (_ + _).
rewrite -{1}(size_map (@gcov R m)) (sum_pert (fun B Q => B *m self_adj Q *m B^T) Bs (Dense 0)) size_map.
by apply: eq_bigr => i _; rewrite (nth_map (gd0 m)) // (nth_mom (gd0 m)).
Qed.

Lemma lin_cov_psd n m (A : 'M[R]_(m, n)) Bs (x : moments R n) ws : psd (Sg x) -> each (fun w => psd (Sg w)) ws ->
  psd (Sg (lin_image A Bs x ws)).
Proof.
move=> px pw; apply: psdD; first exact: psd_congr.
by apply: psd_sum => i _; apply: psd_congr; exact: (each_nth (Mom 0 0) pw).
Qed.

Lemma each_mom_psd m (ns : seq (gd R m)) : each (fun d => proper (gcov d)) ns -> each (fun w => psd (Sg w)) (map (@mom R m) ns).
Proof. by elim: ns => [|d ns IH] //= [/self_adj_psd ? /IH]. Qed.

Definition noise_ok n m (x : gd R n) (ns : seq (gd R m)) : Prop :=
  each (fun d => if is_chol (gcov x) then rootable (gcov d) else proper (gcov d)) ns.

Lemma noise_ok_proper n m (x : gd R n) (ns : seq (gd R m)) : noise_ok x ns -> each (fun d => proper (gcov d)) ns.
Proof. by apply: each_impl => d; case: ifP => // _ /rootable_proper. Qed.

Lemma each_zip_sum m (js : seq 'M[R]_m) (ns : seq (gd R m)) : each (fun d => rootable (gcov d)) ns ->
  \sum_(c <- [seq mk_blk (p.1 *m sqrt_of L p.2) | p <- zip js (map (@gcov R m) ns)]) bsq c
  = \sum_(p <- zip js (map (@gcov R m) ns)) p.1 *m self_adj p.2 *m p.1^T.
Proof.
elim: ns js => [|d ns IH] [|j js] //=; rewrite ?big_nil // => -[h /IH e].
rewrite !big_cons e; congr (_ + _).
by rewrite /bsq /= trmx_mul mulmxA -(mulmxA j) (sqrt_of_sq h).
Qed.

Lemma sum_noise_cov n m (A : 'M[R]_(m, n)) (Bs : seq 'M[R]_m) (x : gd R n) (ns : seq (gd R m)) :
  proper (gcov x) -> noise_ok x ns ->
  let c := sum_noise_terms_nc L A (pert_jacobians Bs (size ns)) (gcov x) (map (@gcov R m) ns) in
  [/\ self_adj c = Sg (lin_image A Bs (mom x) (map (@mom R m) ns)), proper c & is_chol c = is_chol (gcov x)].
Proof.
case: x => xm xc px nx c; rewrite {}/c.
have pc := lin_cov_psd A Bs (self_adj_psd px : psd (Sg (mom (GD xm xc)))) (each_mom_psd (noise_ok_proper nx)).
move: pc; rewrite -lin_cov_sum /=; move: nx; rewrite /noise_ok /=.
case: xc px => [P|T] /= px nx pc.
  rewrite foldl_sum big_map; under eq_bigr do rewrite mulmxA.
  by have e := psd_sym pc; rewrite sa_lowerE.
split=> //; last exact: (llq_trig LK).
rewrite (llq_sq LK) -[LHS]/(bsq (hcat _ _)) hcat_sq each_zip_sum //; congr (_ + _).
by rewrite /bsq /= trmx_mul !mulmxA.
Qed.

Lemma sum_noise_nc n m (J0 : 'M[R]_(m, n)) js (c : cval R n) Qs :
  (sum_noise_terms L J0 js c Qs).1 = sum_noise_terms_nc L J0 js c Qs.
Proof. by case: c => [P|T] //=; rewrite mulmxA. Qed.

Lemma sum_noise_cross n m (J0 : 'M[R]_(m, n)) js (c : cval R n) Qs :
  (sum_noise_terms L J0 js c Qs).2 = self_adj c *m J0^T.
Proof. by case: c => [P|T] //=; rewrite trmx_mul mulmxA. Qed.

Lemma lin_apply_mean n m (A : 'M[R]_(m, n)) Bs (x : gd R n) (ns : seq (gd R m)) :
  lin_apply A Bs (gmean x) (map (@gmean R m) ns) = mu (lin_image A Bs (mom x) (map (@mom R m) ns)).
Proof.
rewrite /lin_apply /lin_image /=; congr (_ + _).
rewrite (sum_pert (fun B w => B *m w) Bs 0) !size_map.
by apply: eq_bigr => i _; rewrite !(nth_map (gd0 m)).
Qed.

Lemma moments_ext n (a b : moments R n) : mu a = mu b -> Sg a = Sg b -> a = b.
Proof. by case: a b => ? ? [? ?] /= -> ->. Qed.

(** C38 core: moments, properness and form of the linear transform. *)
Lemma lin_transform_ok n m (A : 'M[R]_(m, n)) Bs (x : gd R n) (ns : seq (gd R m)) :
  proper (gcov x) -> noise_ok x ns ->
  let y := lin_transform L (linear_transformation A Bs) x ns in
  [/\ mom y = lin_image A Bs (mom x) (map (@mom R m) ns), proper (gcov y) & is_chol (gcov y) = is_chol (gcov x)].
Proof.
move=> px nx; have [e p c] := sum_noise_cov A Bs px nx.
by split=> //; apply: moments_ext => //=; exact: lin_apply_mean.
Qed.

Lemma lin_transform_cross1 n m (g : linfun R n m) (x : gd R n) (ns : seq (gd R m)) :
  (lin_transform_cross L g x ns).1 = lin_transform L g x ns.
Proof. by rewrite /lin_transform_cross /= sum_noise_nc. Qed.

Lemma lin_transform_cross2 n m (g : linfun R n m) (x : gd R n) (ns : seq (gd R m)) :
  (lin_transform_cross L g x ns).2 = self_adj (gcov x) *m (ljac0 g)^T.
Proof. by rewrite /lin_transform_cross /= sum_noise_cross. Qed.

(** Sums of distributions. *)
Lemma g_sum_ok n (x : gd R n) (ns : seq (gd R n)) :
  mom (foldl (@g_add R L n) x ns) = lin_image 1%:M [::] (mom x) (map (@mom R n) ns).
Proof.
have -> : lin_image 1%:M [::] (mom x) (map (@mom R n) ns)
        = Mom (gmean x + \sum_(d <- ns) gmean d) (self_adj (gcov x) + \sum_(d <- ns) self_adj (gcov d)).
  apply: moments_ext; rewrite /= ?mul1mx ?trmx1 ?mulmx1 size_map (big_nth (gd0 n)) big_mkord; congr (_ + _);
    by apply: eq_bigr => i _; rewrite nth_nil mul1mx ?trmx1 ?mulmx1 (nth_mom (gd0 n)).
elim: ns x => [|d ns IH] x /=; first by rewrite !big_nil !addr0.
by rewrite IH !big_cons /= c_add_val !addrA.
Qed.

Lemma g_sum_proper n (x : gd R n) (ns : seq (gd R n)) : proper (gcov x) -> each (fun d => proper (gcov d)) ns ->
  proper (gcov (foldl (@g_add R L n) x ns)).
Proof. by elim: ns x => [|d ns IH] x //= px [pd pn]; apply: IH => //; exact: c_add_proper. Qed.

Lemma g_sum_dense n (x : gd R n) (ns : seq (gd R n)) : is_chol (gcov (foldl (@g_add R L n) x ns)) -> is_chol (gcov x).
Proof. by elim: ns x => [|d ns IH] x //= /IH /=; case: (gcov x). Qed.

(** The measurement update. *)
Variable S : solver R.
Hypothesis SK : solver_ok S.

Lemma gain_eq n m (Py : 'M[R]_m) (Pxy : 'M[R]_(n, m)) : Py^T = Py -> Py \in unitmx ->
  (S Py Pxy^T)^T = Pxy *m invmx Py.
Proof.
move=> sy uy; have h := SK Pxy^T uy.
have -> : S Py Pxy^T = invmx Py *m Pxy^T by rewrite -{2}h mulKmx.
by rewrite trmx_mul trmxK trmx_inv sy.
Qed.

Lemma update_step_ok n m (x : gd R n) (y : gd R m) (Pxy : 'M[R]_(n, m)) z g :
  proper (gcov x) -> proper (gcov y) -> self_adj (gcov y) \in unitmx ->
  update_step L S x y Pxy z = Some g ->
  [/\ mom g = condition (mom x) (mom y) Pxy z,
      psd (self_adj (gcov x) - Pxy *m invmx (self_adj (gcov y)) *m Pxy^T) -> proper (gcov g) &
      is_chol (gcov g) -> is_chol (gcov x)].
Proof.
move=> px py uy; rewrite /update_step.
have sy := self_adj_sym py; have kE := gain_eq Pxy sy uy.
have kE' : S (self_adj (gcov y)) Pxy^T = invmx (self_adj (gcov y)) *m Pxy^T.
  by apply: trmx_inj; rewrite kE trmx_mul trmxK trmx_inv sy.
set K := (S _ _)^T.
have vT : llq L (K *m sqrt_of L (gcov y)) *m (llq L (K *m sqrt_of L (gcov y)))^T
        = K *m (sqrt_of L (gcov y) *m (sqrt_of L (gcov y))^T) *m K^T.
  by rewrite (llq_sq LK) trmx_mul !mulmxA.
have sQ : (Pxy *m invmx (self_adj (gcov y)) *m Pxy^T)^T = Pxy *m invmx (self_adj (gcov y)) *m Pxy^T.
  by rewrite !trmx_mul trmxK trmx_inv sy !mulmxA.
have KPK : K *m self_adj (gcov y) *m K^T = Pxy *m invmx (self_adj (gcov y)) *m Pxy^T.
  by rewrite /K kE trmx_mul trmx_inv sy mulmxKV // mulmxA.
pose out := if gcov y is Chol _ then Chol (llq L (K *m sqrt_of L (gcov y))) else Dense (sa_lower (Pxy *m S (self_adj (gcov y)) Pxy^T)).
have oE : self_adj out = Pxy *m invmx (self_adj (gcov y)) *m Pxy^T.
  rewrite /out; case e: (gcov y) => [Q|T].
    by rewrite -e /= kE' mulmxA sa_lowerE.
  by rewrite -e /= vT -KPK e.
have po : proper out.
  rewrite /out; case e: (gcov y) => [Q|T] /=; last exact: (llq_trig LK).
  rewrite -[Q]/(self_adj (Dense Q)) -e kE' mulmxA sa_lowerE // -KPK.
  by apply: psd_congr; exact: self_adj_psd.
have -> : (match gcov y with
           | Dense _ => c_sub L (gcov x) (Dense (sa_lower (Pxy *m S (self_adj (gcov y)) Pxy^T)))
           | Chol _ => c_sub L (gcov x) (Chol (llq L (K *m sqrt_of L (gcov y))))
           end) = c_sub L (gcov x) out by rewrite /out; case: (gcov y).
case e: (c_sub _ _ _) => [c|] // [<-] /=; split.
- apply: moments_ext => /=; first by rewrite /K kE.
  by rewrite (c_sub_val px e) oE.
- by move=> pp; apply: (c_sub_proper px po e); rewrite oE.
- by move: e; rewrite /out; case: (gcov x) => [P|T] //; case: (gcov y) => [Q|T'] /=; case=> <-.
Qed.

Lemma update_step_some n m (x : gd R n) (y : gd R m) (Pxy : 'M[R]_(n, m)) z :
  proper (gcov x) -> proper (gcov y) -> self_adj (gcov y) \in unitmx ->
  (is_chol (gcov x) -> is_chol (gcov y) -> posdef (self_adj (gcov x) - Pxy *m invmx (self_adj (gcov y)) *m Pxy^T)) ->
  exists g, update_step L S x y Pxy z = Some g.
Proof.
move=> px py uy pd; rewrite /update_step.
have kE := gain_eq Pxy (self_adj_sym py) uy.
case ey: (gcov y) => [Q|T]; case ex: (gcov x) => [P|T0] /=; try by eexists; reflexivity.
rewrite ey ex in pd kE; rewrite ex in px.
have [|T' ->] := @lrank_total _ _ LK _ _ T0 (llq L ((S (self_adj (Chol T)) Pxy^T)^T *m T)) (-1) px; last by eexists; reflexivity.
right; rewrite (llq_sq LK) scaleN1r; rewrite ey in uy; have := pd isT isT.
set Q := self_adj (Chol T) in uy kE *; rewrite kE trmx_mul.
have -> : Pxy *m invmx Q *m T *m (T^T *m (Pxy *m invmx Q)^T) = Pxy *m invmx Q *m Q *m (Pxy *m invmx Q)^T.
  by rewrite /Q /= !mulmxA.
have sQ : Q^T = Q by rewrite /Q /= trmx_mul trmxK.
by rewrite mulmxKV // trmx_mul trmx_inv sQ mulmxA.
Qed.

Lemma psd_block_schur n m (A : 'M[R]_n) (B : 'M[R]_(n, m)) (D : 'M[R]_m) : D \in unitmx ->
  psd (block_mx A B B^T D) -> psd (A - B *m invmx D *m B^T).
Proof.
move=> uD [sM pM].
have [sA sD] : A^T = A /\ D^T = D.
  by move: sM; rewrite tr_block_mx trmxK => /eq_block_mx [].
split=> [|x].
  by rewrite linearB /= !trmx_mul trmxK trmx_inv sA sD mulmxA.
pose y := - (invmx D *m B^T *m x).
have := pM (col_mx x y).
suff -> : qform (block_mx A B B^T D) (col_mx x y) = qform (A - B *m invmx D *m B^T) x by [].
rewrite /qform tr_col_mx mul_row_block mul_row_col.
have e : B^T *m x + D *m y = 0 by rewrite /y mulmxN !mulmxA mulmxV // mul1mx subrr.
rewrite !mulmxDl addrACA -!mulmxA -!mulmxDr e mulmx0 addr0 /y mulmxN; congr ((_ *m _) 0 0).
by rewrite mulmxBl !mulmxA.
Qed.

(** The posterior of a linear measurement is positive semidefinite. *)
Lemma post_psd n m (P : 'M[R]_n) (H : 'M[R]_(m, n)) (N : 'M[R]_m) : psd P -> psd N ->
  H *m P *m H^T + N \in unitmx ->
  psd (P - P *m H^T *m invmx (H *m P *m H^T + N) *m (P *m H^T)^T).
Proof.
move=> pP pN u; apply: psd_block_schur => //.
have e : block_mx P (P *m H^T) (P *m H^T)^T (H *m P *m H^T + N)
       = col_mx 1%:M H *m P *m (col_mx 1%:M H)^T + block_mx 0 0 0 N.
  rewrite tr_col_mx trmx1 mul_col_mx mul1mx mul_col_row mulmx1 add_block_mx !addr0 trmx_mul trmxK (psd_sym pP).
  by congr block_mx; rewrite mulmx1.
rewrite e; apply: psdD; first exact: psd_congr.
case: pN => sN pN; split; first by rewrite tr_block_mx !trmx0 sN.
move=> z; rewrite -[z]vsubmxK /qform tr_col_mx mul_row_block !mulmx0 !add0r mul_row_col mul0mx add0r.
exact: pN.
Qed.

Definition step_ok_noise n (x : gd R n) (o : fop R n) : Prop :=
  step_noise (fun m c => if is_chol (gcov x) then rootable c else proper c) o.

Lemma predicted_split n (x : moments R n) (u : measurement R n) : each (fun d => proper (gcov d)) (mns u) ->
  exists2 N, Sg (predicted x u) = mH u *m Sg x *m (mH u)^T + N & psd N.
Proof.
move=> pn; eexists; first by reflexivity.
by apply: psd_sum => i _; apply: psd_congr; exact: (each_nth (Mom 0 0) (each_mom_psd pn)).
Qed.

Lemma update_pre n (x : gd R n) (u : measurement R n) : proper (gcov x) -> noise_ok x (mns u) ->
  Sg (predicted (mom x) u) \in unitmx ->
  let y := lin_transform L (linear_transformation (mH u) (mD u)) x (mns u) in
  let Pxy := self_adj (gcov x) *m (mH u)^T in
  [/\ mom y = predicted (mom x) u, proper (gcov y), is_chol (gcov y) = is_chol (gcov x),
      self_adj (gcov y) \in unitmx & psd (self_adj (gcov x) - Pxy *m invmx (self_adj (gcov y)) *m Pxy^T)].
Proof.
move=> px nx uy y Pxy; have [e py cy] := lin_transform_ok (mH u) (mD u) px nx.
have ey : self_adj (gcov y) = Sg (predicted (mom x) u) by rewrite -[LHS]/(Sg (mom y)) e.
split=> //; first by rewrite ey.
have [N eN pN] := predicted_split (mom x) (noise_ok_proper nx).
rewrite ey eN; apply: post_psd => //; [exact: self_adj_psd|by rewrite -eN].
Qed.

Lemma fstep_ok n (x : gd R n) (o : fop R n) g : proper (gcov x) -> step_ok_noise x o -> well_posed_step (mom x) o ->
  fstep L S x o = Some g ->
  [/\ mom g = spec_step (mom x) o, proper (gcov g) & is_chol (gcov g) -> is_chol (gcov x)].
Proof.
move=> px; case: o => [[A Bs ns|ns|l ns]|u] /= nx wx.
- by case=> <-; have [-> ? ->] := lin_transform_ok A Bs px nx.
- case=> <-; split; [exact: g_sum_ok| |exact: g_sum_dense].
  by apply: g_sum_proper => //; exact: noise_ok_proper nx.
- rewrite /rls_transform gt_eqF //; case e: c_mul => [c|] // [<-].
  have v := c_mul_val px e; have li : 0 <= l^-1 by rewrite invr_ge0 ltW.
  split.
  + by rewrite g_sum_ok /mom /= v.
  + by apply: g_sum_proper => /=; [exact: c_mul_proper e|exact: noise_ok_proper nx].
  + move/g_sum_dense => /=; move: e; case: (gcov x) => [P|T] //=; first by case=> <-.
- rewrite /update lin_transform_cross1 lin_transform_cross2 => e.
  have [ey py cy uy pp] := update_pre px nx wx.
  have [eg pg cg] := update_step_ok px py uy e.
  by split=> //; [rewrite eg ey|exact: pg].
Qed.

Lemma fstep_some n (x : gd R n) (o : fop R n) : proper (gcov x) -> step_ok_noise x o -> well_posed_step (mom x) o ->
  (is_chol (gcov x) -> definite_step (mom x) o) -> exists g, fstep L S x o = Some g.
Proof.
move=> px; case: o => [[A Bs ns|ns|l ns]|u] /= nx wx dx; try by eexists; reflexivity.
- rewrite /rls_transform gt_eqF //; have [|c ->] := @c_mul_pos _ (gcov x) l^-1; last by eexists; reflexivity.
  by rewrite invr_gt0.
- rewrite /update lin_transform_cross1 lin_transform_cross2.
  have [ey py cy uy pp] := update_pre px nx wx.
  apply: update_step_some => // cx _; rewrite -[X in invmx X]/(Sg (mom _)) ey; exact: dx.
Qed.

Lemma step_noise_impl (p q : forall m, cval R m -> Prop) n (o : fop R n) : (forall m c, p m c -> q m c) ->
  step_noise p o -> step_noise q o.
Proof. by move=> h; case: o => [[A Bs ns|ns|l ns]|u] /=; apply: each_impl => d; exact: h. Qed.

Lemma filter_gen n (x : gd R n) (os : seq (fop R n)) : proper (gcov x) ->
  each (@step_noise R (fun m c => if is_chol (gcov x) then rootable c else proper c) n) os ->
  holds_along (@well_posed_step R) (mom x) os ->
  (forall g, filter L S x os = Some g ->
     [/\ mom g = spec_filter (mom x) os, proper (gcov g) & is_chol (gcov g) -> is_chol (gcov x)]) /\
  ((is_chol (gcov x) -> holds_along (@definite_step R) (mom x) os) -> exists g, filter L S x os = Some g).
Proof.
elim: os x => [|o os IH] x px /=; first by move=> _ _; split=> [g [<-]|_] //; exists x.
move=> [no nos] [wo wos]; split.
  move=> g; case e: fstep => [x'|] // e'.
  have [em pm cm] := fstep_ok px no wo e.
  have nos' : each (@step_noise R (fun m c => if is_chol (gcov x') then rootable c else proper c) n) os.
    apply: each_impl nos => o'; apply: step_noise_impl => m c; case: ifP => cx; case: ifP => cx' //.
      exact: rootable_proper.
    by rewrite cm in cx.
  rewrite -em in wos; have [h _] := IH x' pm nos' wos.
  have [eg pg cg] := h g e'; split=> //; last by move/cg/cm.
  by rewrite eg /spec_filter /= em.
move=> d; have [|x' e] := fstep_some px no wo; first by case/d.
rewrite e; have [em pm cm] := fstep_ok px no wo e.
have nos' : each (@step_noise R (fun m c => if is_chol (gcov x') then rootable c else proper c) n) os.
  apply: each_impl nos => o'; apply: step_noise_impl => m c; case: ifP => cx; case: ifP => cx' //.
    exact: rootable_proper.
  by rewrite cm in cx.
rewrite -em in wos; have [_ h] := IH x' pm nos' wos.
by apply: h => /cm /d [_]; rewrite em.
Qed.


End Proofs.
