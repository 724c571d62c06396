(** * Proofs: moments of a quadratic function of random arguments. *)
From mathcomp Require Import all_ssreflect all_algebra.
From Verif Require Import RingTac MatBase LibModel GaussModel KalmanModel KalmanSpec KalmanProofs.
From Verif Require Import LinzModel LinzSpec LinzProofs LinzProb LinzProofs2.
Set Implicit Arguments.
Unset Strict Implicit.
Unset Printing Implicit Defensive.
Import GRing.Theory Num.Theory Order.Theory.
Local Open Scope ring_scope.

Section Exact.
Variables (R : rcfType) (W : finType) (p : W -> R).
Hypothesis hp : probability p.
Variables (n q m : nat) (g : 'cV[R]_n -> seq 'cV[R]_q -> 'cV[R]_m) (mu : 'cV[R]_n) (ws : seq 'cV[R]_q).
Variables (J0 : 'M[R]_(m, n)) (J : nat -> 'M[R]_(m, q)) (H0 : 'I_m -> 'M[R]_n) (H : nat -> 'I_m -> 'M[R]_q).
Variables (X : W -> 'cV[R]_n) (V : nat -> W -> 'cV[R]_q) (P : 'M[R]_n) (Q : nat -> 'M[R]_q).
Hypothesis hX : has_moments p X mu P.
Hypothesis hV : forall k, (k < size ws)%N -> has_moments p (V k) (nth 0 ws k) (Q k).

Let Y w := g (X w) (mkseq (fun k => V k w) (size ws)).
Let u w := X w - mu.
Let v k w := V k w - nth 0 ws k.
Let T0 w := J0 *m u w + 2%:R^-1 *: qforms H0 (u w).
Let T k w := J k *m v k w + 2%:R^-1 *: qforms (H k) (v k w).

Lemma Y_expand w (C : 'I_m -> nat -> 'M[R]_(n, q)) (D : 'I_m -> nat -> nat -> 'M[R]_q) : quadratic_jointly g mu ws J0 J H0 H C D ->
  Y w = g mu ws + (T0 w + \sum_(k < size ws) T k w)
    + \col_c (\sum_(k < size ws) bil (C c k) (u w) (v k w)
              + \sum_(k < size ws) \sum_(l < size ws | k != l) bil (D c k l) (v k w) (v l w)).
Proof.
case=> s0 s1 h.
have -> : Y w = g (mu + u w) (shifted ws (fun k => v k w)).
  rewrite /Y /u addrC subrK; congr (g _ _); apply: eq_mkseq => k; by rewrite /v addrC subrK.
rewrite h; congr (_ + _); rewrite /T0 /T big_split /= scalerDr scaler_sumr; abel.
Qed.

Lemma uncorrelated_bil a b (B : 'M[R]_(a, b)) (F : W -> 'cV[R]_a) (G : W -> 'cV[R]_b) mf mg :
  expect p F = mf -> expect p G = mg -> uncorrelated p F G -> expect1 p (fun w => bil B (F w - mf) (G w - mg)) = 0.
Proof.
move=> ef eg un; rewrite expect_bil -[X in \tr (_ *m X)]trmxK -expectT.
have -> : expect p (fun w => ((G w - mg) *m (F w - mf)^T)^T) = 0.
  by rewrite -un (covar_centred ef eg); apply: eq_expect => w; rewrite trmx_mul trmxK.
by rewrite trmx0 mulmx0 mxtrace0.
Qed.

Lemma exact_mean (C : 'I_m -> nat -> 'M[R]_(n, q)) (D : 'I_m -> nat -> nat -> 'M[R]_q) : quadratic_jointly g mu ws J0 J H0 H C D ->
  (forall k, (k < size ws)%N -> uncorrelated p X (V k)) ->
  (forall k l, (k < size ws)%N -> (l < size ws)%N -> k != l -> uncorrelated p (V k) (V l)) ->
  expect p Y = g mu ws + (hess_mean H0 P + \sum_(k < size ws) hess_mean (H k) (Q k)).
Proof.
move=> hj ux uv; rewrite (eq_expect p (fun w => Y_expand w hj)) expectD.
have -> : expect p (fun w => \col_c (\sum_(k < size ws) bil (C c k) (u w) (v k w)
              + \sum_(k < size ws) \sum_(l < size ws | k != l) bil (D c k l) (v k w) (v l w))) = 0.
  apply/colP=> c; rewrite expectE mxE; under eq_expect1 do rewrite mxE.
  rewrite expect1D !expect1_sum !big1 ?addr0 // => k _.
    rewrite expect1_sum big1 // => l kl.
    exact: (uncorrelated_bil _ (hV (ltn_ord k)).1 (hV (ltn_ord l)).1 (uv _ _ (ltn_ord k) (ltn_ord l) kl)).
  exact: (uncorrelated_bil _ hX.1 (hV (ltn_ord k)).1 (ux _ (ltn_ord k))).
rewrite addr0 expectD expect_const // expectD expect_sum; congr (_ + (_ + _)).
  by rewrite expectD (mean_lin hp hX) add0r (mean_quad hX).
apply: eq_bigr => k _; by rewrite expectD (mean_lin hp (hV (ltn_ord k))) add0r (mean_quad (hV (ltn_ord k))).
Qed.

Hypothesis hj : quadratic_separately g mu ws J0 J H0 H.
Hypothesis ix : forall k, (k < size ws)%N -> independent p X (V k).
Hypothesis iv : forall k l, (k < size ws)%N -> (l < size ws)%N -> k != l -> independent p (V k) (V l).
Hypothesis gX : gaussian_moments p X mu P.
Hypothesis gV : forall k, (k < size ws)%N -> gaussian_moments p (V k) (nth 0 ws k) (Q k).

Lemma Y_separate w : Y w = g mu ws + (T0 w + \sum_(k < size ws) T k w).
Proof.
rewrite (Y_expand w hj); apply: add_col0 => c.
rewrite !big1 ?addr0 // => k _; last by rewrite bil_zero.
by rewrite big1 // => l _; rewrite bil_zero.
Qed.

Let F0 (x : 'cV[R]_n) := J0 *m (x - mu) + 2%:R^-1 *: qforms H0 (x - mu).
Let F k (x : 'cV[R]_q) := J k *m (x - nth 0 ws k) + 2%:R^-1 *: qforms (H k) (x - nth 0 ws k).

Lemma covT0 : covar p T0 T0 = J0 *m P *m J0^T + hess_gram H0 P.
Proof. by case: (hj) => s0 s1 _; exact: (cov_term hp hX J0 gX s0). Qed.
Lemma covT k : (k < size ws)%N -> covar p (T k) (T k) = J k *m Q k *m (J k)^T + hess_gram (H k) (Q k).
Proof. by case: (hj) => s0 s1 _ hk; exact: (cov_term hp (hV hk) (J k) (gV hk) (s1 k)). Qed.
Lemma crossT0 : covar p X T0 = P *m J0^T.
Proof. exact: (cov_cross hp hX J0 _ gX). Qed.

Lemma exact_cov : covar p Y Y = J0 *m P *m J0^T + \sum_(k < size ws) J k *m Q k *m (J k)^T
  + (hess_gram H0 P + \sum_(k < size ws) hess_gram (H k) (Q k)).
Proof.
rewrite (eq_covar p Y_separate Y_separate) (covar_shift hp) covarDl.
set S := fun w => \sum_(k < size ws) T k w.
rewrite (covarDr p T0 T0 S) (covarDr p S T0 S) {}/S.
rewrite covT0 covar_sumr [X in _ + X + _]big1; last first.
  by move=> k _; apply: (independent_uncorrelated hp F0 (F k) (ix (ltn_ord k))).
rewrite covar_suml [X in _ + (X + _)]big1; last first.
  by move=> k _; apply: (independent_uncorrelated hp (F k) F0 (independent_sym (ix (ltn_ord k)))).
rewrite addr0 add0r covar_suml.
rewrite (eq_bigr (fun k : 'I__ => J k *m Q k *m (J k)^T + hess_gram (H k) (Q k))); last first.
  move=> k _; rewrite covar_sumr (bigD1 k) //= covT //.
  rewrite big1 ?addr0 // => l kl.
  by apply: (independent_uncorrelated hp (F k) (F l) (iv (ltn_ord k) (ltn_ord l) _)); rewrite eq_sym.
by rewrite big_split /= addrACA.
Qed.

Lemma exact_cross : covar p X Y = P *m J0^T.
Proof.
rewrite (eq_covar p (X' := fun w => 0 + X w) (fun w => esym (add0r (X w))) Y_separate) (covar_shift hp) covarDr.
rewrite crossT0 covar_sumr big1 ?addr0 // => k _.
exact: (independent_uncorrelated hp id (F k) (ix (ltn_ord k))).
Qed.
End Exact.

(** Sums over zipped sequences. *)
Lemma big_zip (V : zmodType) A B (a0 : A) (b0 : B) (s : seq A) (t : seq B) (F : A -> B -> V) : size s = size t ->
  \sum_(p <- zip s t) F p.1 p.2 = \sum_(k < size t) F (nth a0 s k) (nth b0 t k).
Proof.
move=> e; rewrite (big_nth (a0, b0)) size_zip e minnn big_mkord; apply: eq_bigr => k _.
by rewrite nth_zip.
Qed.
