(** * Proofs about sample points and the sample-point transform. *)
From mathcomp Require Import all_ssreflect all_algebra.
From Verif Require Import MatBase LibModel RingTac GaussModel KalmanModel KalmanSpec KalmanProofs SigmaModel SigmaSpec.
Set Implicit Arguments.
Unset Strict Implicit.
Unset Printing Implicit Defensive.
Import GRing.Theory Num.Theory Order.Theory.
Local Open Scope ring_scope.

Section Sigma.
Variable R : rcfType.
Variable L : lib R.
Hypothesis LK : lib_ok L.

(** ** Sums over the columns of a frame. *)
Lemma sum_shift (V : zmodType) p k (F : nat -> V) : \sum_(p <= j < p + k) F j = \sum_(c < k) F (p + c)%N.
Proof. by rewrite -{1}[p]add0n big_addn addKn big_mkord; apply: eq_bigr => c _; rewrite addnC. Qed.

Lemma sum_frame (V : zmodType) k count pos (F : nat -> V) : (pos + k + k <= count)%N ->
  (forall j, (j < pos)%N -> F j = 0) -> (forall j, (pos + k + k <= j)%N -> F j = 0) ->
  \sum_(j < count) F j = \sum_(c < k) (F (pos + c)%N + F (pos + k + c)%N).
Proof.
move=> h h0 h1; rewrite big_split /=.
rewrite -(big_mkord xpredT F) (big_cat_nat _ _ _ (leq0n (pos + k)) (leq_trans (leq_addr k _) h)) /=; congr (_ + _).
  rewrite (big_cat_nat _ _ _ (leq0n pos) (leq_addr k pos)) /= big_nat big1 ?add0r => [|j /andP [_ jp]]; last exact: h0.
  exact: sum_shift.
rewrite (big_cat_nat _ _ _ (leq_addr k (pos + k)) h) /= [X in _ + X]big_nat [X in _ + X]big1 ?addr0 => [|j /andP [jp _]]; last exact: h1.
exact: sum_shift.
Qed.

Definition fentry k (D : 'M[R]_k) pos (i : 'I_k) (j : nat) : R :=
  if (j < pos)%N then 0
  else if (j < pos + k)%N then entry D i (j - pos)
  else if (j < pos + k + k)%N then - entry D i (j - (pos + k))
  else 0.

Lemma frameE k count pos (D : 'M[R]_k) i (j : 'I_count) : frame count pos D i j = fentry D pos i j.
Proof. by rewrite mxE. Qed.

Lemma entryE k (D : 'M[R]_k) i (c : 'I_k) : entry D i c = D i c.
Proof. by rewrite /entry valK. Qed.

Lemma fentry_lo k (D : 'M[R]_k) pos i j : (j < pos)%N -> fentry D pos i j = 0.
Proof. by rewrite /fentry => ->. Qed.
Lemma fentry_hi k (D : 'M[R]_k) pos i j : (pos + k + k <= j)%N -> fentry D pos i j = 0.
Proof.
move=> h; have h1 : (pos + k <= j)%N by apply: leq_trans h; exact: leq_addr.
have h2 : (pos <= j)%N by apply: leq_trans h1; exact: leq_addr.
by rewrite /fentry !ltnNge h h1 h2.
Qed.
Lemma fentry1 k (D : 'M[R]_k) pos i (c : 'I_k) : fentry D pos i (pos + c) = D i c.
Proof. by rewrite /fentry ltnNge leq_addr /= ltn_add2l ltn_ord addKn entryE. Qed.
Lemma fentry2 k (D : 'M[R]_k) pos i (c : 'I_k) : fentry D pos i (pos + k + c) = - D i c.
Proof.
rewrite /fentry ltnNge (leq_trans (leq_addr (k + c) pos)) ?addnA //= ltnNge leq_addr /= ltn_add2l ltn_ord.
by rewrite addKn entryE.
Qed.

(** Weights that are uniform from column [pos] on. *)
Definition uniform count (w : 'cV[R]_count) (pos : nat) (a : R) : Prop := forall j : 'I_count, (pos <= j)%N -> w j 0 = a.

Lemma uniformW count (w : 'cV[R]_count) pos pos' a : (pos <= pos')%N -> uniform w pos a -> uniform w pos' a.
Proof. by move=> h u j hj; apply: u; exact: leq_trans hj. Qed.

Lemma mul_dg m n count (X : 'M[R]_(m, count)) (Y : 'M[R]_(n, count)) w i k :
  (X *m dg w *m Y^T) i k = \sum_j w j 0 * (X i j * Y k j).
Proof.
rewrite mxE; apply: eq_bigr => j _; rewrite mul_mx_diag !mxE; cring.
Qed.

Lemma frame_mean k count pos (D : 'M[R]_k) (w : 'cV[R]_count) a : (pos + k + k <= count)%N -> uniform w pos a ->
  frame count pos D *m w = 0.
Proof.
move=> h u; apply/matrixP => i j; rewrite ord1 [RHS]mxE mxE.
transitivity (\sum_(j < count) (fentry D pos i j * a)).
  apply: eq_bigr => l _; rewrite frameE; have [lp|lp] := ltnP l pos; first by rewrite fentry_lo // !mul0r.
  by rewrite u.
rewrite (sum_frame (F := fun l => fentry D pos i l * a) h) => [|l|l].
- by rewrite big1 // => c _; rewrite fentry1 fentry2 -mulrDl subrr mul0r.
- by move=> lp; rewrite fentry_lo ?mul0r.
- by move=> lp; rewrite fentry_hi ?mul0r.
Qed.

Lemma frame_cov k count pos (D : 'M[R]_k) (w : 'cV[R]_count) a : (pos + k + k <= count)%N -> uniform w pos a ->
  frame count pos D *m dg w *m (frame count pos D)^T = (a + a) *: (D *m D^T).
Proof.
move=> h u; apply/matrixP => i i'; rewrite mul_dg.
transitivity (\sum_(j < count) a * (fentry D pos i j * fentry D pos i' j)).
  apply: eq_bigr => l _; rewrite !frameE; have [lp|lp] := ltnP l pos; first by rewrite !fentry_lo // !mul0r !mulr0.
  by rewrite u.
rewrite (sum_frame (F := fun l => a * (fentry D pos i l * fentry D pos i' l)) h) => [|l|l].
- rewrite scalemxE mxE mulr_sumr; apply: eq_bigr => c _; rewrite !fentry1 !fentry2 mulrNN mxE.
  by rewrite mulrDl.
- by move=> lp; rewrite !fentry_lo // mul0r mulr0.
- by move=> lp; rewrite !fentry_hi // mul0r mulr0.
Qed.

(** ** All the points. *)
Lemma deltaE k (c : cval R k) s D : rootable c -> 0 < s -> delta L c s = Some D -> D *m D^T = s *: self_adj c.
Proof.
case: c => [P|T] rc s0; rewrite /delta /=; last first.
  rewrite s0 => -[<-] /=; rewrite trmxZ -scalemxAl -scalemxAr scalerA -expr2 sqr_sqrtr //; exact: ltW.
move=> -[<-] /=; case: rc => [pd| ->]; last by rewrite scaler0 lchol_0 // mul0mx.
by rewrite lchol_sq //; exact: posdefZ.
Qed.

Lemma delta_some k (c : cval R k) s : 0 < s -> exists D, delta L c s = Some D.
Proof. by move=> s0; rewrite /delta; have [c' ->] := c_mul_pos L c s0; eexists; reflexivity. Qed.

Lemma points_some s count pos ds : 0 < s -> exists X, points L s count pos ds = Some X.
Proof.
move=> s0; elim: ds pos => [|[k d] ds IH] pos /=; first by eexists; reflexivity.
have [D ->] := delta_some (gcov d) s0; have [X ->] := IH (pos + k + k)%N.
by eexists; reflexivity.
Qed.

Lemma points_ok s count pos ds X (w : 'cV[R]_count) a : 0 < s -> each (@rootable_d R) ds ->
  (pos + dimsum ds + dimsum ds <= count)%N -> uniform w pos a -> points L s count pos ds = Some X ->
  [/\ forall i (j : 'I_count), (j < pos)%N -> X i j = 0, X *m w = 0 & X *m dg w *m X^T = ((a + a) * s) *: jcov ds].
Proof.
move=> s0; elim: ds pos X => [|[k d] ds IH] pos X /=.
  move=> _ _ _ [<-]; split; [by move=> i j _; rewrite mxE|by rewrite mul0mx|].
  by apply/matrixP => -[].
case=> rd rds hc u; case eD: delta => [D|] //; case eX: points => [X'|] // [<-].
have hc1 : (pos + k + k <= count)%N.
  by apply: leq_trans hc; rewrite -!addnA leq_add2l leq_add2l addnA [(dimsum ds + k)%N]addnC -addnA leq_addr.
have hc2 : (pos + k + k + dimsum ds + dimsum ds <= count)%N.
  by apply: leq_trans hc; rewrite !addnA -!addnA !leq_add2l !addnA [(dimsum ds + k)%N]addnC.
have le : (pos <= pos + k + k)%N by rewrite -addnA leq_addr.
have [z1 m1 c1] := IH _ X' rds hc2 (uniformW le u) eX.
have cr : frame count pos D *m dg w *m X'^T = 0.
  apply/matrixP => i i'; rewrite mul_dg [RHS]mxE big1 // => j _.
  have [lp|lp] := ltnP j (pos + k + k); first by rewrite (z1 i' j lp) !mulr0.
  by rewrite frameE fentry_hi // mul0r mulr0.
have cr' : X' *m dg w *m (frame count pos D)^T = 0.
  apply: (can_inj trmxK); rewrite !trmx_mul !trmxK tr_diag_mx mulmxA.
  by rewrite -[diag_mx _]/(dg w) cr trmx0.
split.
- move=> i j jp; rewrite mxE; case: splitP => c _; first by rewrite frameE fentry_lo.
  by apply: z1; exact: leq_trans le.
- by rewrite mul_col_mx m1 (frame_mean D hc1 u) col_mx0.
- rewrite tr_col_mx mul_col_mx mul_col_row (frame_cov D hc1 u) cr cr' c1 (deltaE rd s0 eD).
  by rewrite scale_block_mx !scaler0 scalerA.
Qed.

End Sigma.
