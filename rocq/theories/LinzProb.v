(** * Proofs: moments of quadratic functions of random vectors. *)
From mathcomp Require Import all_ssreflect all_algebra.
From Verif Require Import RingTac MatBase LinzSpec LinzModel LinzProofs.
Set Implicit Arguments.
Unset Strict Implicit.
Unset Printing Implicit Defensive.
Import GRing.Theory Num.Theory Order.Theory.
Local Open Scope ring_scope.

Section Prob.
Variables (R : rcfType) (W : finType) (p : W -> R).

(** ** Expectations. *)
Lemma expectE a b (X : W -> 'M[R]_(a, b)) i j : expect p X i j = expect1 p (fun w => X w i j).
Proof. by rewrite /expect summxE; apply: eq_bigr => w _; rewrite mxE. Qed.
Lemma eq_expect a b (X Y : W -> 'M[R]_(a, b)) : X =1 Y -> expect p X = expect p Y.
Proof. by move=> h; apply: eq_bigr => w _; rewrite h. Qed.
Lemma eq_expect1 (X Y : W -> R) : X =1 Y -> expect1 p X = expect1 p Y.
Proof. by move=> h; apply: eq_bigr => w _; rewrite h. Qed.
Lemma expectD a b (X Y : W -> 'M[R]_(a, b)) : expect p (fun w => X w + Y w) = expect p X + expect p Y.
Proof. by rewrite /expect -big_split; apply: eq_bigr => w _; rewrite scalerDr. Qed.
Lemma expectZ a b c (X : W -> 'M[R]_(a, b)) : expect p (fun w => c *: X w) = c *: expect p X.
Proof. by rewrite /expect scaler_sumr; apply: eq_bigr => w _; rewrite !scalerA mulrC. Qed.
Lemma expectN a b (X : W -> 'M[R]_(a, b)) : expect p (fun w => - X w) = - expect p X.
Proof. by rewrite -scaleN1r -expectZ; apply: eq_expect => w; rewrite scaleN1r. Qed.
Lemma expectB a b (X Y : W -> 'M[R]_(a, b)) : expect p (fun w => X w - Y w) = expect p X - expect p Y.
Proof. by rewrite expectD expectN. Qed.
Lemma expectMl a b c (A : 'M[R]_(c, a)) (X : W -> 'M[R]_(a, b)) : expect p (fun w => A *m X w) = A *m expect p X.
Proof. by rewrite /expect mulmx_sumr; apply: eq_bigr => w _; rewrite scalemxAr. Qed.
Lemma expectMr a b c (A : 'M[R]_(b, c)) (X : W -> 'M[R]_(a, b)) : expect p (fun w => X w *m A) = expect p X *m A.
Proof. by rewrite /expect mulmx_suml; apply: eq_bigr => w _; rewrite scalemxAl. Qed.
Lemma expectT a b (X : W -> 'M[R]_(a, b)) : expect p (fun w => (X w)^T) = (expect p X)^T.
Proof. by rewrite /expect raddf_sum; apply: eq_bigr => w _; rewrite /= trmxZ. Qed.
Lemma expect_sum a b (I : Type) (r : seq I) (P : pred I) (X : I -> W -> 'M[R]_(a, b)) :
  expect p (fun w => \sum_(i <- r | P i) X i w) = \sum_(i <- r | P i) expect p (X i).
Proof. by rewrite /expect exchange_big; apply: eq_bigr => w _; rewrite scaler_sumr. Qed.
Lemma expect1D (X Y : W -> R) : expect1 p (fun w => X w + Y w) = expect1 p X + expect1 p Y.
Proof. by rewrite /expect1 -big_split; apply: eq_bigr => w _; rewrite mulrDr. Qed.
Lemma expect1Z c (X : W -> R) : expect1 p (fun w => c * X w) = c * expect1 p X.
Proof. by rewrite /expect1 mulr_sumr; apply: eq_bigr => w _; rewrite mulrCA. Qed.
Lemma expect1_sum (I : Type) (r : seq I) (P : pred I) (X : I -> W -> R) :
  expect1 p (fun w => \sum_(i <- r | P i) X i w) = \sum_(i <- r | P i) expect1 p (X i).
Proof. by rewrite /expect1 exchange_big; apply: eq_bigr => w _; rewrite mulr_sumr. Qed.

Hypothesis hp : probability p.
Lemma expect_const a b (A : 'M[R]_(a, b)) : expect p (fun _ => A) = A.
Proof. by rewrite /expect -scaler_suml hp scale1r. Qed.
Lemma expect1_const a : expect1 p (fun _ => a) = a.
Proof. by rewrite /expect1 -mulr_suml hp mul1r. Qed.

(** ** Covariances. *)
Lemma covarE a b (X : W -> 'cV[R]_a) (Y : W -> 'cV[R]_b) :
  covar p X Y = expect p (fun w => X w *m (Y w)^T) - expect p X *m (expect p Y)^T.
Proof.
rewrite /covar; set x := expect p X; set y := expect p Y.
transitivity (expect p (fun w => X w *m (Y w)^T - X w *m y^T - (x *m (Y w)^T - x *m y^T))).
  by apply: eq_expect => w; mxexpand; abel.
rewrite !expectB expectMr expectMl expectT expect_const -/x -/y; abel.
Qed.
Lemma covar_shift a b c c' (X : W -> 'cV[R]_a) (Y : W -> 'cV[R]_b) :
  covar p (fun w => c + X w) (fun w => c' + Y w) = covar p X Y.
Proof.
rewrite /covar; apply: eq_expect => w; rewrite !expectD !expect_const.
by congr (_ *m _^T); abel.
Qed.
Lemma eq_covar a b (X X' : W -> 'cV[R]_a) (Y Y' : W -> 'cV[R]_b) : X =1 X' -> Y =1 Y' -> covar p X Y = covar p X' Y'.
Proof. by move=> h h'; rewrite /covar (eq_expect h) (eq_expect h'); apply: eq_expect => w; rewrite h h'. Qed.
Lemma covarDl a b (X X' : W -> 'cV[R]_a) (Y : W -> 'cV[R]_b) :
  covar p (fun w => X w + X' w) Y = covar p X Y + covar p X' Y.
Proof.
rewrite /covar -expectD; apply: eq_expect => w; rewrite expectD -mulmxDl; congr (_ *m _); abel.
Qed.
Lemma covarT a b (X : W -> 'cV[R]_a) (Y : W -> 'cV[R]_b) : (covar p X Y)^T = covar p Y X.
Proof. by rewrite /covar -expectT; apply: eq_expect => w; rewrite trmx_mul trmxK. Qed.
Lemma covarDr a b (X : W -> 'cV[R]_a) (Y Y' : W -> 'cV[R]_b) :
  covar p X (fun w => Y w + Y' w) = covar p X Y + covar p X Y'.
Proof. by rewrite -covarT covarDl trmxD !covarT. Qed.
Lemma covar_suml a b (I : finType) (P : pred I) (X : I -> W -> 'cV[R]_a) (Y : W -> 'cV[R]_b) :
  covar p (fun w => \sum_(i | P i) X i w) Y = \sum_(i | P i) covar p (X i) Y.
Proof.
rewrite /covar -expect_sum; apply: eq_expect => w; rewrite expect_sum -mulmx_suml; congr (_ *m _).
by rewrite sumrB.
Qed.
Lemma covar_sumr a b (I : finType) (P : pred I) (X : W -> 'cV[R]_a) (Y : I -> W -> 'cV[R]_b) :
  covar p X (fun w => \sum_(i | P i) Y i w) = \sum_(i | P i) covar p X (Y i).
Proof. by rewrite -covarT covar_suml raddf_sum; apply: eq_bigr => i _; rewrite /= covarT. Qed.
Lemma covar_mulr a b c (X : W -> 'cV[R]_a) (A : 'M[R]_(c, b)) (Y : W -> 'cV[R]_b) :
  covar p X (fun w => A *m Y w) = covar p X Y *m A^T.
Proof.
rewrite /covar -expectMr; apply: eq_expect => w; rewrite expectMl -mulmxBr trmx_mul mulmxA //.
Qed.
Lemma covar_centred a b (X : W -> 'cV[R]_a) (Y : W -> 'cV[R]_b) mx my : expect p X = mx -> expect p Y = my ->
  covar p X Y = expect p (fun w => (X w - mx) *m (Y w - my)^T).
Proof. by move=> <- <-. Qed.

(** Functions of independent vectors are uncorrelated. *)
Lemma independent_uncorrelated a b c d (X : W -> 'cV[R]_a) (Y : W -> 'cV[R]_b)
    (F : 'cV[R]_a -> 'cV[R]_c) (G : 'cV[R]_b -> 'cV[R]_d) :
  independent p X Y -> covar p (fun w => F (X w)) (fun w => G (Y w)) = 0.
Proof.
move=> ind; rewrite covarE; apply/eqP; rewrite subr_eq0; apply/eqP.
apply/matrixP=> i j; rewrite expectE [RHS]mxE big_ord1 mxE !expectE -(ind (fun x => F x i 0) (fun y => G y j 0)).
by apply: eq_expect1 => w; rewrite mxE big_ord1 !mxE.
Qed.
Lemma independent_sym a b (X : W -> 'cV[R]_a) (Y : W -> 'cV[R]_b) : independent p X Y -> independent p Y X.
Proof.
move=> h phi psi; rewrite mulrC -h; apply: eq_expect1 => w; exact: mulrC.
Qed.

(** ** Expectation of bilinear and quadratic forms. *)
Lemma bil_trace a b (C : 'M[R]_(a, b)) u v : bil C u v = \tr (C *m (v *m u^T)).
Proof. by rewrite mulmxA mxtrace_mulC mulmxA /mxtrace big_ord1. Qed.
Lemma expect_trace a (X : W -> 'M[R]_a) : expect1 p (fun w => \tr (X w)) = \tr (expect p X).
Proof. by rewrite /expect raddf_sum; apply: eq_bigr => w _; rewrite /= linearZ. Qed.
Lemma expect_bil a b (C : 'M[R]_(a, b)) (U : W -> 'cV[R]_a) (V : W -> 'cV[R]_b) :
  expect1 p (fun w => bil C (U w) (V w)) = \tr (C *m expect p (fun w => V w *m (U w)^T)).
Proof. by rewrite -expectMl -expect_trace; apply: eq_expect1 => w; rewrite bil_trace. Qed.

(** ** One argument. *)
Section Term.
Variables (d m : nat) (X : W -> 'cV[R]_d) (mu : 'cV[R]_d) (P : 'M[R]_d).
Hypothesis hm : has_moments p X mu P.
Let u w := X w - mu.

Lemma mean_u : expect p u = 0.
Proof. by rewrite /u expectB expect_const hm.1 subrr. Qed.
Lemma cov_u : expect p (fun w => u w *m (u w)^T) = P.
Proof. by rewrite -hm.2 (covar_centred hm.1 hm.1). Qed.
Lemma P_sym : P^T = P.
Proof. by rewrite -hm.2 covarT. Qed.

Variables (J : 'M[R]_(m, d)) (H : 'I_m -> 'M[R]_d).
Let lin w := J *m u w.
Let quad w : 'cV[R]_m := 2%:R^-1 *: qforms H (u w).

Lemma mean_lin : expect p lin = 0.
Proof. by rewrite /lin expectMl mean_u mulmx0. Qed.
Lemma mean_quad : expect p quad = \col_k (2%:R^-1 * \tr (P *m H k)).
Proof.
rewrite /quad expectZ; apply/colP=> k; rewrite !mxE expectE; congr (_ * _).
rewrite mxtrace_mulC -cov_u -expect_bil.
by apply: eq_expect1 => w; rewrite mxE.
Qed.

Hypothesis hg : gaussian_moments p X mu P.
Hypothesis hs : forall k, (H k)^T = H k.

Lemma frob a b (A B : 'M[R]_(a, b)) : \sum_i \sum_j A i j * B i j = \tr (A *m B^T).
Proof. by apply: eq_bigr => i _; rewrite mxE; apply: eq_bigr => j _; rewrite mxE. Qed.

Lemma bilE a b (C : 'M[R]_(a, b)) x y : bil C x y = \sum_i \sum_j C i j * (x i 0 * y j 0).
Proof.
rewrite /bil mxE exchange_big; apply: eq_bigr => j _; rewrite mxE mulr_suml; apply: eq_bigr => i _.
by rewrite mxE; cring.
Qed.

Lemma expect_times_bil a b (S : W -> R) (C : 'M[R]_(a, b)) (U : W -> 'cV[R]_a) (V : W -> 'cV[R]_b) :
  expect1 p (fun w => S w * bil C (U w) (V w)) =
  \sum_i \sum_j C i j * expect1 p (fun w => S w * (U w i 0 * V w j 0)).
Proof.
transitivity (expect1 p (fun w => \sum_i \sum_j C i j * (S w * (U w i 0 * V w j 0)))).
  apply: eq_expect1 => w; rewrite bilE mulr_sumr; apply: eq_bigr => i _.
  by rewrite mulr_sumr; apply: eq_bigr => j _; cring.
rewrite expect1_sum; apply: eq_bigr => i _; rewrite expect1_sum; apply: eq_bigr => j _.
exact: expect1Z.
Qed.

Lemma third i j k : expect1 p (fun w => u w i 0 * (u w j 0 * u w k 0)) = 0.
Proof. by rewrite -(hg.1 i j k); apply: eq_expect1 => w; rewrite !mxE mulrA. Qed.
Lemma fourth i j k l : expect1 p (fun w => u w k 0 * u w l 0 * (u w i 0 * u w j 0)) =
  P i j * P k l + P i k * P j l + P i l * P j k.
Proof. by rewrite -(hg.2 i j k l); apply: eq_expect1 => w; rewrite !mxE; cring. Qed.

Lemma cov_lin_quad : covar p lin quad = 0.
Proof.
have : covar p u quad = 0.
  apply/matrixP=> a c; rewrite covarE mean_u mul0mx subr0 expectE [RHS]mxE.
  transitivity (expect1 p (fun w => 2%:R^-1 * (u w a 0 * bil (H c) (u w) (u w)))).
    by apply: eq_expect1 => w; rewrite mxE big_ord1 !mxE mulrCA.
  rewrite expect1Z expect_times_bil big1 ?mulr0 // => i _.
  by rewrite big1 // => j _; rewrite third mulr0.
rewrite -covarT => e; rewrite -covarT /lin covar_mulr.
by move: e; rewrite -[covar _ _ _]trmxK; rewrite !trmxK => /(congr1 trmx); rewrite trmxK trmx0 => ->; rewrite mul0mx trmx0.
Qed.

Lemma cov_quad : covar p quad quad = \matrix_(i, j) (2%:R^-1 * \tr (P *m H i *m P *m H j)).
Proof.
apply/matrixP=> i j; rewrite covarE mean_quad !(addmxE, oppmxE) expectE [in RHS]mxE.
have -> : (\col_k (2%:R^-1 * \tr (P *m H k)) *m (\col_k (2%:R^-1 * \tr (P *m H k)))^T) i j =
    (2%:R^-1 * 2%:R^-1) * (\tr (P *m H i) * \tr (P *m H j)) by rewrite mxE big_ord1 !mxE; cring.
transitivity ((2%:R^-1 * 2%:R^-1) * expect1 p (fun w => bil (H i) (u w) (u w) * bil (H j) (u w) (u w))
              - (2%:R^-1 * 2%:R^-1) * (\tr (P *m H i) * \tr (P *m H j))).
  congr (_ - _); rewrite -expect1Z; apply: eq_expect1 => w.
  by rewrite mxE big_ord1 !mxE -!qform_bil; cring.
rewrite expect_times_bil.
have e4 c e : expect1 p (fun w => bil (H i) (u w) (u w) * (u w c 0 * u w e 0)) =
    P c e * \tr (P *m H i) + (P *m H i *m P) c e *+ 2.
  transitivity (expect1 p (fun w => (u w c 0 * u w e 0) * bil (H i) (u w) (u w))).
    by apply: eq_expect1 => w; rewrite mulrC.
  rewrite expect_times_bil.
  transitivity (\sum_a \sum_b (H i a b * P a b * P c e + (P c a * H i a b * P b e + P e a * H i a b * P b c))).
    apply: eq_bigr => a _; apply: eq_bigr => b _; rewrite fourth.
    have -> : P a c = P c a by rewrite -{1}P_sym mxE.
    have -> : P a e = P e a by rewrite -{1}P_sym mxE.
    by cring.
  have tri (A B C : 'M[R]_d) x y : \sum_a \sum_b A x a * B a b * C b y = (A *m B *m C) x y.
    rewrite [RHS]mxE exchange_big; apply: eq_bigr => b _; rewrite mxE mulr_suml //.
  under eq_bigr do rewrite !big_split /=.
  rewrite !big_split /= !tri mulr2n.
  have -> : (P *m H i *m P) e c = (P *m H i *m P) c e.
    by rewrite -[in LHS](trmxK (P *m H i *m P)) mxE !trmx_mul P_sym hs mulmxA.
  have -> : \tr (P *m H i) = \sum_a \sum_b H i a b * P a b by rewrite mxtrace_mulC frob P_sym.
  congr (_ + _); rewrite mulrC mulr_suml; apply: eq_bigr => a _.
  by rewrite mulr_suml.
transitivity ((2%:R^-1 * 2%:R^-1) * (\sum_c \sum_e (H j c e * P c e * \tr (P *m H i) + (H j c e * (P *m H i *m P) c e) *+ 2))
              - (2%:R^-1 * 2%:R^-1) * (\tr (P *m H i) * \tr (P *m H j))).
  congr (_ * _ - _); apply: eq_bigr => c _; apply: eq_bigr => e _; rewrite e4.
  by rewrite mulrDr mulrA mulrnAr.
under eq_bigr do rewrite big_split /= -mulr_suml sumrMnl.
rewrite big_split /= -mulr_suml sumrMnl !frob P_sym.
have -> : \tr (H j *m P) = \tr (P *m H j) by exact: mxtrace_mulC.
have -> : \tr (H j *m (P *m H i *m P)^T) = \tr (P *m H i *m P *m H j).
  by rewrite mxtrace_mulC !trmx_mul P_sym hs !mulmxA.
have h2 : (2%:R^-1 * 2%:R : R) = 1 by rewrite mulVf ?two_neq0.
set t := \tr _; set s := \tr _; set r := \tr (_ *m _ *m _ *m _).
set h := 2%:R^-1 in h2 *.
transitivity (h * (h * 2%:R) * r); last by rewrite h2 mulr1.
by cring.
Qed.

Lemma cov_term : covar p (fun w => lin w + quad w) (fun w => lin w + quad w) =
  J *m P *m J^T + \matrix_(i, j) (2%:R^-1 * \tr (P *m H i *m P *m H j)).
Proof.
rewrite covarDl !covarDr cov_lin_quad -[covar p quad lin]covarT cov_lin_quad trmx0 addr0 add0r cov_quad.
congr (_ + _); rewrite /lin covar_mulr -covarT covar_mulr.
have -> : covar p u u = P by rewrite covarE mean_u mul0mx subr0 cov_u.
by rewrite trmx_mul trmxK P_sym.
Qed.

(** The input with the output. *)
Lemma cov_cross : covar p X (fun w => lin w + quad w) = P *m J^T.
Proof.
have e : covar p X quad = 0.
  transitivity (covar p u quad).
    rewrite -[RHS](covar_shift mu 0); apply: eq_covar => w; rewrite ?add0r //.
    by rewrite /u addrC subrK.
  apply/matrixP=> a c; rewrite covarE mean_u mul0mx subr0 expectE [RHS]mxE.
  transitivity (expect1 p (fun w => 2%:R^-1 * (u w a 0 * bil (H c) (u w) (u w)))).
    by apply: eq_expect1 => w; rewrite mxE big_ord1 !mxE mulrCA.
  rewrite expect1Z expect_times_bil big1 ?mulr0 // => i _.
  by rewrite big1 // => j _; rewrite third mulr0.
rewrite covarDr e addr0 /lin covar_mulr; congr (_ *m _).
rewrite -hm.2 -(covar_shift 0 mu); apply: eq_covar => w; rewrite ?add0r // /u addrC subrK //.
Qed.
End Term.
End Prob.
