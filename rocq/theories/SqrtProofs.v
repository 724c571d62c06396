(** * Proofs for SquareRootCovariance. *)
From mathcomp Require Import all_ssreflect all_algebra.
From Verif Require Import MatBase LibModel CovModel CovSpec CovProofs SqrtModel SqrtSpec.
Set Implicit Arguments.
Unset Strict Implicit.
Unset Printing Implicit Defensive.
Import GRing.Theory Num.Theory Order.Theory.
Local Open Scope ring_scope.

Section Proofs.
Variable R : rcfType.
Variable L : lib R.
Hypothesis LK : lib_ok L.
Variable n : nat.
Implicit Types (P T : 'M[R]_n) (c : src R n) (s : qstore R n) (v : vals R n).

Lemma lchol_cholf P : good P -> lchol L P = cholf P.
Proof.
case=> [h|->]; last by rewrite (lchol_0 LK) cholf0.
apply: chol_unique; [exact: lchol_trig|exact: cholf_trig|exact: lchol_diag|exact: cholf_posdiag|].
by rewrite (lchol_sq LK) // cholf_correct //; exact: posdef_psd.
Qed.

Lemma cholf_good P : good P -> cholf P *m (cholf P)^T = P.
Proof.
by case=> [h|->]; [apply: cholf_correct; exact: posdef_psd|rewrite cholf0 mul0mx].
Qed.

Lemma goodZ a P : 0 <= a -> good P -> good (a *: P).
Proof.
rewrite le_eqVlt => /orP [/eqP <- _|a0]; first by right; rewrite scale0r.
by case=> [h|->]; [left; exact: posdefZ|right; rewrite scaler0].
Qed.

Lemma cholfZ a P : 0 <= a -> good P -> cholf ((a * a) *: P) = a *: cholf P.
Proof.
rewrite le_eqVlt => /orP [/eqP <- _|a0]; first by rewrite mulr0 !scale0r cholf0.
case=> [h|->]; last by rewrite scaler0 cholf0 scaler0.
have aa : 0 < a * a by rewrite mulr_gt0.
apply: chol_unique.
- exact: cholf_trig.
- by apply: is_trigZ; exact: cholf_trig.
- by apply: cholf_posdiag; exact: posdefZ.
- by move=> i; rewrite mxE mulr_gt0 //; exact: cholf_posdiag.
rewrite sqrZ !cholf_correct //; first exact: posdef_psd.
by apply: posdef_psd; exact: posdefZ.
Qed.

Definition qrep c T : Prop :=
  [/\ is_trig_mx T, sd_le0 (qsd c) -> qchol c = T, sd_ge0 (qsd c) -> qnested c = T *m T^T &
      sd_gt0 (qsd c) -> good (qnested c) /\ T = cholf (qnested c)].

Lemma qrep_tri c T : qrep c T -> qrep (qget_tri L c) T.
Proof.
case: c => a b [] //= [t h1 h2 /= h3].
have [g e] := h3 isT.
rewrite /qget_tri /= /qforward /=; by split=> //= _; rewrite lchol_cholf.
Qed.

Lemma qget_tri_le0 c : sd_le0 (qsd (qget_tri L c)). Proof. by case: c => a b []. Qed.
Lemma qget_tri_id c : sd_le0 (qsd c) -> qget_tri L c = c. Proof. by case: c => a b []. Qed.

Lemma qrep_sa c T : qrep c T -> qrep (qget_sa c) T.
Proof.
case: c => a b [] //= [t /= h1 h2 h3]; rewrite /qget_sa /= /qreverse /=; split=> //= _; by rewrite ?h1.
Qed.

Lemma qget_sa_ge0 c : sd_ge0 (qsd (qget_sa c)). Proof. by case: c => a b []. Qed.

Definition qreps s v : Prop := forall k, qrep (s k) (v k).

Lemma qreps_upd s v i c P : qreps s v -> qrep c P -> qreps (qupd s i c) (vset v i P).
Proof. by move=> r rc k; rewrite /qupd /vset; case: eqP. Qed.

Lemma qreps_same s v i c : qreps s v -> qrep c (v i) -> qreps (qupd s i c) v.
Proof. by move=> r rc k; rewrite /qupd; case: eqP => [->|]. Qed.

Lemma qcombine_ok f s v i j : qreps s v ->
  (is_trig_mx (v i) -> is_trig_mx (v j) -> is_trig_mx (f (v i) (v j))) ->
  qreps (qcombine L f s i j) (vset v i (f (v i) (v j))).
Proof.
move=> r ft; rewrite /qcombine.
set s1 := qupd s i _; set s2 := qupd s1 j _.
have r1 : qreps s1 v by apply: qreps_same => //; apply: qrep_tri.
have r2 : qreps s2 v by apply: qreps_same => //; apply: qrep_tri.
have di : sd_le0 (qsd (s2 i)).
  rewrite /s2 /qupd; case: eqP => [_|_]; first exact: qget_tri_le0.
  by rewrite /s1 /qupd eqxx qget_tri_le0.
have dj : sd_le0 (qsd (s2 j)) by rewrite /s2 /qupd eqxx qget_tri_le0.
have [ti /(_ di) ei _ _] := r2 i.
have [tj /(_ dj) ej _ _] := r2 j.
by apply: qreps_upd => //; split=> //=; [exact: ft|rewrite ei ej].
Qed.

Lemma trigD (A B : 'M[R]_n) : is_trig_mx A -> is_trig_mx B -> is_trig_mx (A + B).
Proof.
by move=> /is_trig_mxP a /is_trig_mxP b; apply/is_trig_mxP => i j ij; rewrite mxE a // b // addr0.
Qed.

Lemma trigB (A B : 'M[R]_n) : is_trig_mx A -> is_trig_mx B -> is_trig_mx (A - B).
Proof. by move=> a b; rewrite -scaleN1r; apply: trigD => //; exact: is_trigZ. Qed.

Lemma trigM (A B : 'M[R]_n) : is_trig_mx A -> is_trig_mx B -> is_trig_mx (A *m B).
Proof.
move=> /is_trig_mxP a /is_trig_mxP b; apply/is_trig_mxP => i j ij; rewrite mxE big1 // => k _.
case: (ltnP k j) => kj; first by rewrite b // mulr0.
by rewrite a ?mul0r //; exact: leq_trans ij kj.
Qed.

Lemma qscaled_ok c T x : 0 <= x -> qrep c T ->
  qrep (Src (if sd_ge0 (qsd c) then (x * x) *: qnested c else qnested c)
            (if sd_le0 (qsd c) then x *: qchol c else qchol c) (qsd c)) (x *: T).
Proof.
move=> x0 [t h1 h2 h3]; split=> /=.
- exact: is_trigZ.
- by move=> d; rewrite d h1.
- by move=> d; rewrite d h2 // sqrZ.
- case: c h1 h2 h3 => a b [] //= h1 h2 h3 _; have [g ->] := h3 isT.
  by split; [apply: goodZ => //; rewrite mulr_ge0|rewrite cholfZ].
Qed.

Lemma qrank_ok c T m (U : 'M[R]_(n, m)) a : qrep c T -> good (T *m T^T + a *: (U *m U^T)) ->
  qrep (qrank c U a) (cholf (T *m T^T + a *: (U *m U^T))).
Proof.
move=> r g; rewrite /qrank -/(qget_sa c).
have [t _ h2 _] := qrep_sa r.
split=> //=; first exact: cholf_trig.
  by move=> _; rewrite h2 ?qget_sa_ge0 // cholf_good.
by move=> _; rewrite h2 ?qget_sa_ge0.
Qed.

Lemma qset_ok c T (i j : 'I_n) r : qrep c T -> (j <= i)%N ->
  qrep (qset L c i j r) (\matrix_(p, q) if (p == i) && (q == j) then r else T p q).
Proof.
move=> rc ji; rewrite /qset -/(qget_tri L c).
have [t h1 _ _] := qrep_tri rc.
split=> //=; last by move=> _; rewrite h1 ?qget_tri_le0.
apply/is_trig_mxP => p q pq; rewrite mxE; case: ifP => [/andP [/eqP e1 /eqP e2]|_].
  by move: pq; rewrite e1 e2 ltnNge ji.
by move/is_trig_mxP: t => ->.
Qed.

Lemma qcopy_ok c T : qrep c T -> qrep (qcopy c) T.
Proof. by case: c => x y [] [h0 h1 h2 h3]; split. Qed.

Lemma trig_det_ge0 T : is_trig_mx T -> (forall i, 0 <= T i i) -> 0 <= \det T.
Proof. by move=> t h; rewrite det_trig // prodr_ge0. Qed.

Lemma qdet_ok c T : qrep c T -> qdet c = \det T.
Proof.
case: c => x y d; rewrite /qdet; case: d => -[/= t h1 h2 h3]; try by rewrite h1.
have [g e] := h3 isT.
rewrite {1}(h2 isT) det_mulmx det_tr -expr2 sqrtr_sqr ger0_norm // e.
by apply: trig_det_ge0; [exact: cholf_trig|exact: cholf_diag_ge0].
Qed.

Lemma qstep_ok s v o : qreps s v -> qallowed v o ->
  exists2 sb, qstep L s o = Some sb & qreps sb.1 (qplain v o) /\ qreturns v o sb.2.
Proof.
move=> r; case: o => /=.
- move=> i P g; eexists; [reflexivity|split=> //=]; apply: qreps_upd => //; split=> //=; first exact: cholf_trig.
  by move=> _; rewrite cholf_good.
- by move=> i T t; eexists; [reflexivity|split=> //=]; apply: qreps_upd.
- by move=> i j _; eexists; [reflexivity|split=> //=]; apply: qreps_upd => //; exact: qcopy_ok.
- move=> i j _; eexists; [reflexivity|split=> //=].
  by apply: (@qcombine_ok (fun A B => A + B)) => //; exact: trigD.
- move=> i j _; eexists; [reflexivity|split=> //=].
  by apply: (@qcombine_ok (fun A B => A - B)) => //; exact: trigB.
- move=> i j _; eexists; [reflexivity|split=> //=].
  by apply: (@qcombine_ok (fun A B => A *m B)) => //; exact: trigM.
- by move=> i a a0; eexists; [reflexivity|split=> //=]; apply: qreps_upd => //; exact: qscaled_ok.
- move=> i a a0; rewrite /qdiv gt_eqF //; eexists; [reflexivity|split=> //=].
  apply: qreps_upd => //; rewrite invfM; apply: qscaled_ok => //.
  by rewrite invr_ge0 ltW.
- by move=> i m U a g; eexists; [reflexivity|split=> //=]; apply: qreps_upd => //; exact: qrank_ok.
- by move=> i k l x h; eexists; [reflexivity|split=> //=]; apply: qreps_upd => //; exact: qset_ok.
- move=> i k l _; eexists; [reflexivity|split=> //=].
    by apply: qreps_same => //; exact: qrep_tri.
  by have [_ -> //] := qrep_tri (r i); exact: qget_tri_le0.
- move=> i _; eexists; [reflexivity|split=> //=].
    by apply: qreps_same => //; exact: qrep_tri.
  by have [_ -> //] := qrep_tri (r i); exact: qget_tri_le0.
- move=> i _; eexists; [reflexivity|split=> //=].
    by apply: qreps_same => //; exact: qrep_sa.
  by have [_ _ -> //] := qrep_sa (r i); exact: qget_sa_ge0.
- by move=> i _; eexists; [reflexivity|split=> //=]; rewrite (qdet_ok (r i)).
Qed.

Lemma qrun_ok s v os : qreps s v -> qall (@qallowed R n) v os ->
  exists2 sb, qrun L s os = Some sb & qall_return v os sb.2.
Proof.
elim: os s v => [|o os IH] s v r /=; first by move=> _; eexists.
move=> [a h]; have [[s1 b] -> [r1 ok]] := qstep_ok r a.
by have [[s2 bs] -> ok2] := IH _ _ r1 h; eexists; [reflexivity|split].
Qed.

Lemma qreps0 : qreps (@qstore0 R n) (fun _ => 0).
Proof. by move=> k; split=> //=; rewrite ?mul0mx //; exact: mx0_is_trig. Qed.

End Proofs.

(** Triangular storage. *)
Lemma qstep1_ok (R : rcfType) (L : lib R) (n : nat) (T : 'M[R]_n) (o : qop1 R n) :
  lib_ok L -> is_trig_mx T -> q1_allowed T o ->
  exists2 T', qstep1 L T o = Some T' & q1_result T o T' /\ is_trig_mx T'.
Proof.
move=> LK tT; case: o => [Q|Q|Q|a|a|m U a] /= h.
- eexists; first reflexivity; split=> //; apply/is_trig_mxP => i j ij.
  by rewrite mxE (is_trig_mxP tT) // (is_trig_mxP h) // addr0.
- eexists; first reflexivity; split=> //; apply/is_trig_mxP => i j ij.
  by rewrite !mxE (is_trig_mxP tT) // (is_trig_mxP h) // subr0.
- eexists; first reflexivity; split=> //; apply/is_trig_mxP => i j ij.
  rewrite mxE big1 // => k _; case: (ltnP i k) => ik; first by rewrite (is_trig_mxP tT) // mul0r.
  by rewrite (is_trig_mxP h) ?mulr0 //; exact: leq_ltn_trans ik ij.
- eexists; first reflexivity; split=> //; apply/is_trig_mxP => i j ij.
  by rewrite mxE (is_trig_mxP tT) // mulr0.
- rewrite (negPf h); eexists; first reflexivity; split; first by rewrite scalerA divff // scale1r.
  by apply/is_trig_mxP => i j ij; rewrite mxE (is_trig_mxP tT) // mulr0.
- have [T' e] := @lrank_total _ _ LK _ _ T U a tT h; exists T' => //.
  by have [? ?] := lrank_sound LK tT e.
Qed.
