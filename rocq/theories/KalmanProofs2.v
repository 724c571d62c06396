(** * Proofs: optimality, information form, order independence, least squares. *)
From Coq Require Import Permutation.
From mathcomp Require Import all_ssreflect all_algebra.
From Verif Require Import MatBase RingTac LibModel GaussModel KalmanModel KalmanSpec KalmanProofs.
Set Implicit Arguments.
Unset Strict Implicit.
Unset Printing Implicit Defensive.
Import GRing.Theory Num.Theory Order.Theory.
Local Open Scope ring_scope.

Section Proofs.
Variable R : rcfType.

(** ** Optimality. *)
Lemma error_cov_gap n m (Pxx : 'M[R]_n) (Pxy : 'M[R]_(n, m)) (Pyy : 'M[R]_m) (G : 'M[R]_(n, m)) :
  Pyy^T = Pyy -> Pyy \in unitmx ->
  let K := Pxy *m invmx Pyy in
  error_cov Pxx Pxy Pyy G - (Pxx - Pxy *m invmx Pyy *m Pxy^T) = (G - K) *m Pyy *m (G - K)^T.
Proof.
move=> sy uy K.
have KP : K *m Pyy = Pxy by rewrite mulmxKV.
have PK : Pyy *m K^T = Pxy^T by rewrite -{1}sy -trmx_mul KP.
rewrite /error_cov -/K trmxB mulmxBl KP mulmxBr !mulmxBl -(mulmxA G Pyy K^T) PK.
have -> : Pxy *m K^T = K *m Pxy^T by rewrite -{1}KP -mulmxA PK.
abel.
Qed.

(** ** Information form, for any positive semidefinite prior.

    W = H^T N^-1 H and b = H^T N^-1 (z - v) are the information matrix and vector of a measurement z = H x + v. *)
Definition info_mx n m (H : 'M[R]_(m, n)) (N : 'M[R]_m) : 'M[R]_n := H^T *m invmx N *m H.

Section Woodbury.
Variables (n m : nat) (P : 'M[R]_n) (H : 'M[R]_(m, n)) (N : 'M[R]_m).
Hypotheses (pP : psd P) (pN : posdef N).
Let S := H *m P *m H^T + N.
Let W := info_mx H N.

Lemma innov_posdef : posdef S.
Proof. by rewrite /S addrC; apply: posdefD => //; exact: psd_congr. Qed.
Let uS : S \in unitmx := posdef_unit innov_posdef.
Let uN : N \in unitmx := posdef_unit pN.

Let P' := P - P *m H^T *m invmx S *m (P *m H^T)^T.
Let M := 1%:M - H^T *m invmx S *m H *m P.

Lemma post_factor : P' = P *m M.
Proof. by rewrite /P' /M trmx_mul trmxK (psd_sym pP) mulmxBr mulmx1 !mulmxA. Qed.

Lemma M_inv : M *m (1%:M + W *m P) = 1%:M.
Proof.
rewrite /M /W /info_mx mulmxBl mul1mx mulmxDr mulmx1.
have -> : H^T *m invmx S *m H *m P *m (H^T *m invmx N *m H *m P)
        = H^T *m invmx S *m (S - N) *m invmx N *m H *m P.
  by rewrite /S addrK !mulmxA.
rewrite mulmxBr !mulmxBl (mulmxKV uS) (mulmxK uN).
abel.
Qed.

Lemma M_unit : 1%:M + W *m P \in unitmx.
Proof. by have [_ h] := mulmx1_unit M_inv. Qed.

Lemma M_eq : M = invmx (1%:M + W *m P).
Proof. by rewrite -[LHS](mulmxK M_unit) M_inv mul1mx. Qed.

Lemma post_info : P' = P *m invmx (1%:M + W *m P).
Proof. by rewrite post_factor M_eq. Qed.

Lemma gain_info : P *m H^T *m invmx S = P' *m H^T *m invmx N.
Proof.
rewrite post_factor /M mulmxBr mulmx1 !mulmxBl.
have -> : P *m (H^T *m invmx S *m H *m P) *m H^T *m invmx N
        = P *m H^T *m invmx S *m (S - N) *m invmx N by rewrite /S addrK !mulmxA.
rewrite mulmxBr !mulmxBl (mulmxKV uS) (mulmxK uN).
abel.
Qed.
End Woodbury.

Lemma info_psd n m (H : 'M[R]_(m, n)) (N : 'M[R]_m) : posdef N -> psd (info_mx H N).
Proof.
move=> pN; rewrite /info_mx -{2}[H]trmxK; apply: psd_congr.
have uN := posdef_unit pN.
have -> : invmx N = invmx N *m N *m (invmx N)^T.
  by rewrite mulVmx // mul1mx trmx_inv (psd_sym (posdef_psd pN)).
by apply: psd_congr; exact: posdef_psd.
Qed.

Lemma posdef_inv n (P : 'M[R]_n) : posdef P -> posdef (invmx P).
Proof.
move=> pP; have uP := posdef_unit pP; apply: psd_unit_posdef; last by rewrite unitmx_inv.
have -> : invmx P = invmx P *m P *m (invmx P)^T.
  by rewrite mulVmx // mul1mx trmx_inv (psd_sym (posdef_psd pP)).
by apply: psd_congr; exact: posdef_psd.
Qed.

(** ** One linear measurement update of the specification. *)
Lemma predicted_mu n (x : moments R n) (u : measurement R n) :
  mu (predicted x u) = mH u *m mu x + mu (noise_of u).
Proof. by rewrite /predicted /lin_image /noise_of /= size_map. Qed.

Lemma predicted_Sg n (x : moments R n) (u : measurement R n) :
  Sg (predicted x u) = mH u *m Sg x *m (mH u)^T + Sg (noise_of u).
Proof. by rewrite /predicted /lin_image /noise_of /= size_map. Qed.

Lemma update_Sg0 n (x : moments R n) (u : measurement R n) :
  Sg (spec_step x (FUpdate u)) = Sg x - Sg x *m (mH u)^T *m invmx (mH u *m Sg x *m (mH u)^T + Sg (noise_of u)) *m (Sg x *m (mH u)^T)^T.
Proof. by rewrite -predicted_Sg. Qed.

Lemma update_mu0 n (x : moments R n) (u : measurement R n) :
  mu (spec_step x (FUpdate u)) = mu x + Sg x *m (mH u)^T *m invmx (mH u *m Sg x *m (mH u)^T + Sg (noise_of u))
                                        *m (mz u - (mH u *m mu x + mu (noise_of u))).
Proof. by rewrite -predicted_Sg -predicted_mu. Qed.

Lemma update_Sg n (x : moments R n) (u : measurement R n) : psd (Sg x) -> posdef (Sg (noise_of u)) ->
  [/\ 1%:M + info u *m Sg x \in unitmx,
      Sg (spec_step x (FUpdate u)) = Sg x *m invmx (1%:M + info u *m Sg x) &
      psd (Sg (spec_step x (FUpdate u)))].
Proof.
move=> px pn; have h := innov_posdef (mH u) px pn; rewrite update_Sg0; split.
- exact: M_unit.
- exact: (post_info (mH u) px pn).
- by apply: post_psd => //; [exact: posdef_psd|exact: posdef_unit].
Qed.

Lemma update_mu n (x : moments R n) (u : measurement R n) : psd (Sg x) -> posdef (Sg (noise_of u)) ->
  mu (spec_step x (FUpdate u)) = mu x + Sg (spec_step x (FUpdate u)) *m (info_vec u - info u *m mu x).
Proof.
move=> px pn; rewrite update_mu0 (gain_info (mH u) px pn) -update_Sg0; congr (_ + _).
rewrite /info_vec /info -!(mulmxA _ _ (mu x)) -!(mulmxA (Sg _)) -(mulmxBr ((mH u)^T *m _)); congr (_ *m (_ *m _)).
abel.
Qed.

(** ** Any number of updates. *)
Definition tot_info n (us : seq (measurement R n)) := \sum_(u <- us) info u.
Definition tot_vec n (us : seq (measurement R n)) := \sum_(u <- us) info_vec u.

Lemma updates_info n (us : seq (measurement R n)) (x : moments R n) : psd (Sg x) ->
  each (fun u => posdef (Sg (noise_of u))) us ->
  let y := spec_filter x (map (@FUpdate R n) us) in
  [/\ 1%:M + tot_info us *m Sg x \in unitmx,
      Sg y = Sg x *m invmx (1%:M + tot_info us *m Sg x),
      mu y = mu x + Sg y *m (tot_vec us - tot_info us *m mu x) & psd (Sg y)].
Proof.
elim: us x => [|u us IH] x px /=.
  by rewrite /tot_info /tot_vec !big_nil mul0mx addr0 invmx1 mulmx1 sub0r mul0mx oppr0 mulmx0 addr0 unitmx1.
case=> pu pus; have [uu eS p1] := update_Sg px pu; have em := update_mu px pu.
move: eS p1 em; set x1 := spec_step x (FUpdate u) => eS p1 em.
have {IH} [uy ey em2 py] := IH x1 p1 pus.
rewrite -[spec_filter _ _]/(spec_filter x1 (map (@FUpdate R n) us)) in uy ey em2 py *.
set y := spec_filter x1 _ in ey em2 py *.
set W := tot_info us in uy ey em2 *; set b := tot_vec us in em2.
have -> : tot_info (u :: us) = info u + W by rewrite /tot_info big_cons.
have -> : tot_vec (u :: us) = info_vec u + b by rewrite /tot_vec big_cons.
set A := 1%:M + info u *m Sg x in uu eS.
have fact : 1%:M + (info u + W) *m Sg x = (1%:M + W *m Sg x1) *m A.
  by rewrite eS mulmxDl mul1mx mulmxA (mulmxKV uu) /A mulmxDl; abel.
have uT : 1%:M + (info u + W) *m Sg x \in unitmx by rewrite fact unitmx_mul uy.
split=> //.
- rewrite ey fact; set C := 1%:M + W *m Sg x1 in uy *; rewrite eS.
  have -> : invmx (C *m A) = invmx A *m invmx C.
    have uCA : C *m A \in unitmx by rewrite unitmx_mul uy.
    by rewrite -[RHS](mulmxK uCA) !mulmxA (mulmxKV uy) mulVmx // mul1mx.
  by rewrite mulmxA.
- have yx1 : Sg y *m (1%:M + W *m Sg x1) = Sg x1 by rewrite ey mulmxKV.
  rewrite em2 em -{1}yx1 !mulmxDr !mulmxDl; mxexpand; rewrite ?mulmx1 ?mul1mx; abel.
Qed.

(** Precision form. *)
Lemma updates_precision n (us : seq (measurement R n)) (x : moments R n) : posdef (Sg x) ->
  each (fun u => posdef (Sg (noise_of u))) us ->
  let y := spec_filter x (map (@FUpdate R n) us) in
  [/\ posdef (Sg y), invmx (Sg y) = invmx (Sg x) + tot_info us &
      invmx (Sg y) *m mu y = invmx (Sg x) *m mu x + tot_vec us].
Proof.
move=> px pus; have [u1 e1 e2 p1] := updates_info (posdef_psd px) pus.
move: e1 e2 p1; set y := spec_filter _ _; set W := tot_info us => e1 e2 p1 /=.
have ux := posdef_unit px.
have uy : Sg y \in unitmx by rewrite e1 unitmx_mul ux unitmx_inv.
have h : (invmx (Sg x) + W) *m Sg y = 1%:M.
  rewrite e1 mulmxA mulmxDl mulVmx //; exact: mulmxV.
have iy : invmx (Sg y) = invmx (Sg x) + W by rewrite -[RHS](mulmxK uy) h mul1mx.
split=> //; first exact: psd_unit_posdef.
rewrite {1}e2 mulmxDr mulKmx // iy; mxexpand; abel.
Qed.

(** Permutations. *)
Lemma perm_sum (V : zmodType) T (f : T -> V) (s t : seq T) : Permutation s t -> \sum_(a <- s) f a = \sum_(a <- t) f a.
Proof.
elim=> [|a s1 s2 _ IH|a b s1|s1 s2 s3 _ IH1 _ IH2] //; rewrite ?big_cons ?IH ?IH1 //.
by rewrite addrCA.
Qed.

Lemma perm_each T (p : T -> Prop) (s t : seq T) : Permutation s t -> each p s -> each p t.
Proof. by elim=> [|a s1 s2 _ IH|a b s1|s1 s2 s3 _ IH1 _ IH2] //= => [[? /IH]|[? []]|/IH1/IH2] //. Qed.

Lemma updates_perm n (us vs : seq (measurement R n)) (x : moments R n) : psd (Sg x) -> Permutation us vs ->
  each (fun u => posdef (Sg (noise_of u))) us ->
  spec_filter x (map (@FUpdate R n) us) = spec_filter x (map (@FUpdate R n) vs).
Proof.
move=> px pp pu; have pv := perm_each pp pu.
have [_ e1 e2 _] := updates_info px pu; have [_ f1 f2 _] := updates_info px pv.
have iE : tot_info us = tot_info vs by apply: perm_sum.
have vE : tot_vec us = tot_vec vs by apply: perm_sum.
by apply: moments_ext; rewrite ?e2 ?f2 e1 f1 iE ?vE.
Qed.

(** Stacking. *)
Lemma block_diag_inv m1 m2 (A : 'M[R]_m1) (B : 'M[R]_m2) : A \in unitmx -> B \in unitmx ->
  invmx (block_mx A 0 0 B) = block_mx (invmx A) 0 0 (invmx B).
Proof.
move=> uA uB; have h : block_mx A 0 0 B *m block_mx (invmx A) 0 0 (invmx B) = 1%:M.
  by rewrite mulmx_block !mulmx0 !mul0mx !addr0 !add0r !mulmxV // scalar_mx_block.
have [uC _] := mulmx1_unit h.
by rewrite -[RHS](mulKmx uC) h mulmx1.
Qed.

Lemma noise_stacked n (u v : measurement R n) :
  noise_of (stacked u v) = Mom (col_mx (mu (noise_of u)) (mu (noise_of v))) (block_mx (Sg (noise_of u)) 0 0 (Sg (noise_of v))).
Proof. by apply: moments_ext; rewrite /noise_of /= big_ord1 /= ?mul1mx // trmx1 mulmx1. Qed.

Lemma stacked_info n (u v : measurement R n) : Sg (noise_of u) \in unitmx -> Sg (noise_of v) \in unitmx ->
  info (stacked u v) = info u + info v /\ info_vec (stacked u v) = info_vec u + info_vec v.
Proof.
move=> uu uv; rewrite /info /info_vec noise_stacked [Sg (Mom _ _)]/= [mu (Mom _ _)]/= block_diag_inv //.
rewrite [mH (stacked _ _)]/= [mz (stacked _ _)]/= tr_col_mx mul_row_block !mulmx0 addr0 add0r.
by split; rewrite ?mul_row_col // opp_col_mx add_col_mx mul_row_col.
Qed.

Lemma posdef_block m1 m2 (A : 'M[R]_m1) (B : 'M[R]_m2) : posdef A -> posdef B -> posdef (block_mx A 0 0 B).
Proof.
move=> [sA pA] [sB pB]; split; first by rewrite tr_block_mx !trmx0 sA sB.
move=> z; rewrite -[z]vsubmxK; set a := usubmx z; set b := dsubmx z => z0.
rewrite /qform tr_col_mx mul_row_block !mulmx0 addr0 add0r mul_row_col mxE.
have [a0|an0] := eqVneq a 0; last first.
  apply: ltr_paddr; last exact: pA.
  by have := (posdef_psd (conj sB pB)).2 b.
have bn0 : b != 0 by apply: contraNneq z0 => b0; rewrite a0 b0 col_mx0.
by rewrite a0 trmx0 !mul0mx mxE add0r; exact: pB.
Qed.

(** ** Least squares. *)
Lemma bform_sym n m (A : 'M[R]_(n, m)) (x : 'cV[R]_n) (y : 'cV[R]_m) :
  (x^T *m A *m y) 0 0 = (y^T *m A^T *m x) 0 0.
Proof.
have -> : y^T *m A^T *m x = (x^T *m A *m y)^T by rewrite !trmx_mul trmxK mulmxA.
by rewrite [RHS]mxE.
Qed.

Lemma qform_sub n (A : 'M[R]_n) (x y : 'cV[R]_n) : A^T = A ->
  qform A (x - y) = qform A x - (x^T *m A *m y) 0 0 *+ 2 + qform A y.
Proof.
move=> sA; have e := bform_sym A y x; rewrite sA in e.
rewrite /qform trmxB !(mulmxBl, mulmxBr) !(addmxE, oppmxE) e; cring.
Qed.

Lemma qform_map n m (N : 'M[R]_m) (H : 'M[R]_(m, n)) (d : 'cV[R]_n) : qform N (H *m d) = qform (H^T *m N *m H) d.
Proof. by rewrite /qform trmx_mul !mulmxA. Qed.

Lemma complete_square n m (A : 'M[R]_n) (H : 'M[R]_(m, n)) (N : 'M[R]_m) (z : 'cV[R]_m) (c e x : 'cV[R]_n) :
  A^T = A -> N^T = N -> (A + H^T *m N *m H) *m e = H^T *m N *m (z - H *m c) ->
  qform A (x - c) + qform N (z - H *m x) =
  qform A e + qform N (z - H *m (c + e)) + qform (A + H^T *m N *m H) (x - (c + e)).
Proof.
move=> sA sN; set d := x - c; set r := z - H *m c; set W := H^T *m N *m H => Be.
have -> : z - H *m x = r - H *m d by rewrite /r /d mulmxBr; abel.
have -> : z - H *m (c + e) = r - H *m e by rewrite /r mulmxDr; abel.
have -> : x - (c + e) = d - e by rewrite /d; abel.
have sW : W^T = W by rewrite /W !trmx_mul trmxK sN mulmxA.
have sB : (A + W)^T = A + W by rewrite trmxD sA sW.
have h (v : 'cV[R]_n) : (r^T *m N *m (H *m v)) 0 0 = (v^T *m (A + W) *m e) 0 0.
  by rewrite (bform_sym N r) sN -(mulmxA v^T) Be trmx_mul !mulmxA.
clearbody d r; rewrite !qform_sub // !qform_map !h -/W !qformD -[(e^T *m (A + W) *m e) 0 0]/(qform (A + W) e) qformD; cring.
Qed.

(** Repeated forgetting and updating. *)
Definition rls_ops n (lambda : R) (us : seq (measurement R n)) : seq (fop R n) :=
  flatten [seq [:: FPredict (PRls lambda [::]); FUpdate u] | u <- us].

Lemma spec_filter_cat n (x : moments R n) os os' : spec_filter x (os ++ os') = spec_filter (spec_filter x os) os'.
Proof. by rewrite /spec_filter foldl_cat. Qed.

Lemma rls_predict n (lambda : R) (x : moments R n) : spec_step x (FPredict (PRls lambda [::])) = Mom (mu x) (lambda^-1 *: Sg x).
Proof. by apply: moments_ext; rewrite /= big_ord0 addr0 mul1mx // trmx1 mulmx1. Qed.

Lemma each_rcons T (p : T -> Prop) s a : each p (rcons s a) <-> each p s /\ p a.
Proof. by elim: s => [|b s IH] /=; [tauto|rewrite IH; tauto]. Qed.

Lemma ls_cost_rcons n (lambda : R) (x0 : moments R n) ms s x :
  ls_cost lambda x0 (rcons ms s) x = lambda * ls_cost lambda x0 ms x + sq_err s x.
Proof.
rewrite /ls_cost size_rcons big_ord_recr /= nth_rcons ltnn eqxx subnn expr0 mul1r exprS mulrDr !mulrA -addrA.
congr (_ + (_ + _)); rewrite mulr_sumr; apply: eq_bigr => i _.
by rewrite nth_rcons ltn_ord subSS mulrA -exprS subnSK.
Qed.

Lemma sq_errE n (u : measurement R n) x :
  sq_err (sample_of u) x = qform (invmx (Sg (noise_of u))) (mz u - mu (noise_of u) - mH u *m x).
Proof. by []. Qed.

Lemma invmxZ' n (a : R) (A : 'M[R]_n) : a != 0 -> A \in unitmx -> invmx (a *: A) = a^-1 *: invmx A.
Proof. by move=> a0 uA; rewrite invmxZ // unitmxZ // unitfE. Qed.

Lemma rls_correct n (lambda : R) (x0 : moments R n) (us : seq (measurement R n)) : 0 < lambda -> posdef (Sg x0) ->
  each (fun u => posdef (Sg (noise_of u))) us ->
  let y := spec_filter x0 (rls_ops lambda us) in
  let N := size us in
  [/\ posdef (Sg y),
      invmx (Sg y) = lambda ^+ N *: invmx (Sg x0) +
                     \sum_(i < N) lambda ^+ (N - i.+1) *: nth 0 (map (@info R n) us) i &
      forall x, ls_cost lambda x0 (map (@sample_of R n) us) x =
                ls_cost lambda x0 (map (@sample_of R n) us) (mu y) + qform (invmx (Sg y)) (x - mu y)].
Proof.
move=> l0 p0; elim/last_ind: us => [|us u IH] /=.
  move=> _; rewrite big_ord0 addr0 expr0 scale1r; split=> // x.
  by rewrite /ls_cost /= !big_ord0 !addr0 expr0 !mul1r subrr qform0 add0r.
move/each_rcons => [pus pu]; have {IH} [py ey cy] := IH pus.
have -> : rls_ops lambda (rcons us u) = rls_ops lambda us ++ [:: FPredict (PRls lambda [::]); FUpdate u].
  by rewrite /rls_ops map_rcons -cats1 flatten_cat.
rewrite spec_filter_cat; move: py ey cy; set y := spec_filter x0 (rls_ops lambda us) => py ey cy.
have -> : spec_filter y [:: FPredict (PRls lambda [::]); FUpdate u]
        = spec_step (spec_step y (FPredict (PRls lambda [::]))) (FUpdate u) by [].
rewrite rls_predict; set x1 := Mom _ _.
have li : lambda^-1 != 0 by rewrite invr_neq0 // gt_eqF.
have p1 : posdef (Sg x1) by apply: posdefZ => //; rewrite invr_gt0.
have i1 : invmx (Sg x1) = lambda *: invmx (Sg y).
  by rewrite /= invmxZ' ?invrK //; exact: posdef_unit.
have [pz] := @updates_precision n [:: u] x1 p1 (conj pu I).
rewrite /tot_info /tot_vec !big_seq1 -[spec_filter _ _]/(spec_step x1 (FUpdate u)) i1.
have mmz := update_mu (posdef_psd p1) pu.
move: pz mmz; set z := spec_step x1 (FUpdate u) => pz mmz iz _.
have uz := posdef_unit pz.
split=> //.
- rewrite iz size_rcons big_ord_recr /= subnn expr0 scale1r map_rcons nth_rcons size_map ltnn eqxx addrA.
  congr (_ + _); rewrite ey scalerDr scalerA -exprS; congr (_ + _).
  rewrite scaler_sumr; apply: eq_bigr => i _.
  by rewrite nth_rcons size_map ltn_ord scalerA -exprS subnSK.
move=> x; rewrite map_rcons !ls_cost_rcons !(cy x) (cy (mu z)) mmz -[mu x1]/(mu y).
set e := Sg z *m _.
have Be : (lambda *: invmx (Sg y) + info u) *m e = (mH u)^T *m invmx (Sg (noise_of u)) *m (mz u - mu (noise_of u) - mH u *m mu y).
  rewrite -iz /e (mulmxA (invmx _)) mulVmx // mul1mx /info_vec /info -(mulmxA _ (mH u)) -mulmxBr //.
have sA : (lambda *: invmx (Sg y))^T = lambda *: invmx (Sg y).
  by rewrite trmxZ trmx_inv (psd_sym (posdef_psd py)).
have sN : (invmx (Sg (noise_of u)))^T = invmx (Sg (noise_of u)).
  by rewrite trmx_inv (psd_sym (posdef_psd pu)).
have := complete_square x sA sN Be; rewrite -iz !qformZ => h.
have -> : mu y + e - mu y = e by abel.
rewrite !sq_errE mulrDr -addrA h; set c := ls_cost _ _ _ _; cring.
Qed.

End Proofs.
