(** * Matrices over a real closed field: positive semidefiniteness and a Cholesky factor.

    General mathematics used by the covariance, filter and transform models; nothing here models code
    except [cholf], which is the reference factorisation used as an instance of the oracles. *)
From mathcomp Require Import all_ssreflect all_algebra.
Set Implicit Arguments.
Unset Strict Implicit.
Unset Printing Implicit Defensive.
Import GRing.Theory Num.Theory Order.Theory.
Local Open Scope ring_scope.

Section Psd.
Variable R : rcfType.

(** The quadratic form. *)
Definition qform n (A : 'M[R]_n) (x : 'cV[R]_n) : R := (x^T *m A *m x) 0 0.

Definition psd n (A : 'M[R]_n) : Prop := A^T = A /\ forall x, 0 <= qform A x.

Definition loewner n (A B : 'M[R]_n) : Prop := psd (B - A).

Lemma qformD n (A B : 'M[R]_n) x : qform (A + B) x = qform A x + qform B x.
Proof. by rewrite /qform mulmxDr mulmxDl mxE. Qed.

Lemma qformZ n c (A : 'M[R]_n) x : qform (c *: A) x = c * qform A x.
Proof. by rewrite /qform -scalemxAr -scalemxAl mxE. Qed.

Lemma qformN n (A : 'M[R]_n) x : qform (- A) x = - qform A x.
Proof. by rewrite -scaleN1r qformZ mulN1r. Qed.

Lemma qform_congr m n (B : 'M[R]_(m, n)) (A : 'M[R]_n) x : qform (B *m A *m B^T) x = qform A (B^T *m x).
Proof. by rewrite /qform trmx_mul trmxK !mulmxA. Qed.

Lemma cV_sqr_ge0 n (y : 'cV[R]_n) : 0 <= (y^T *m y) 0 0.
Proof. by rewrite mxE sumr_ge0 // => i _; rewrite mxE -expr2 sqr_ge0. Qed.

Lemma cV_sqr_eq0 n (y : 'cV[R]_n) : (y^T *m y) 0 0 = 0 -> y = 0.
Proof.
rewrite mxE => h; apply/matrixP => i j; rewrite ord1 mxE.
have p : forall k : 'I_n, true -> 0 <= y^T 0 k * y k 0 by move=> k _; rewrite mxE -expr2 sqr_ge0.
have /psumr_eq0P := p => /(_ h i isT); rewrite mxE => /eqP; rewrite mulf_eq0 orbb => /eqP; exact.
Qed.

Lemma psd_mulT m n (A : 'M[R]_(m, n)) : psd (A *m A^T).
Proof.
split; first by rewrite trmx_mul trmxK.
by move=> x; rewrite -{1}(mulmx1 A) qform_congr /qform mulmx1 cV_sqr_ge0.
Qed.

Lemma psd_sym n (A : 'M[R]_n) : psd A -> A^T = A. Proof. by case. Qed.

Lemma psdD n (A B : 'M[R]_n) : psd A -> psd B -> psd (A + B).
Proof.
move=> [sA pA] [sB pB]; split; first by rewrite linearD /= sA sB.
by move=> x; rewrite qformD addr_ge0.
Qed.

Lemma psd0 n : psd (0 : 'M[R]_n).
Proof. by split; [rewrite trmx0|move=> x; rewrite /qform mulmx0 mul0mx mxE]. Qed.

Lemma psdZ n c (A : 'M[R]_n) : 0 <= c -> psd A -> psd (c *: A).
Proof.
move=> c0 [sA pA]; split; first by rewrite linearZ /= sA.
by move=> x; rewrite qformZ mulr_ge0.
Qed.

Lemma psd_congr m n (B : 'M[R]_(m, n)) (A : 'M[R]_n) : psd A -> psd (B *m A *m B^T).
Proof.
move=> [sA pA]; split; first by rewrite !trmx_mul trmxK sA mulmxA.
by move=> x; rewrite qform_congr.
Qed.

Lemma psd_sum n (I : Type) (r : seq I) (P : pred I) (F : I -> 'M[R]_n) :
  (forall i, P i -> psd (F i)) -> psd (\sum_(i <- r | P i) F i).
Proof. by move=> h; elim/big_rec: _ => [|i A Pi pA]; [exact: psd0|apply: psdD => //; exact: h]. Qed.

Lemma loewner_refl n (A : 'M[R]_n) : loewner A A.
Proof. by rewrite /loewner subrr; exact: psd0. Qed.

Lemma loewner_trans n (A B C : 'M[R]_n) : loewner A B -> loewner B C -> loewner A C.
Proof.
rewrite /loewner => h1 h2; have -> : C - A = (C - B) + (B - A) by rewrite addrA subrK.
exact: psdD.
Qed.

(** *** A Cholesky factor: lower triangular, non-negative diagonal, also for singular matrices. *)
Fixpoint cholf n : 'M[R]_n -> 'M[R]_n :=
  match n return 'M[R]_n -> 'M[R]_n with
  | 0 => fun A => A
  | n'.+1 => fun A : 'M[R]_(1 + n') =>
      let s := Num.sqrt (ulsubmx A 0 0) in
      let w := s^-1 *: dlsubmx A in
      block_mx (s%:M) 0 w (cholf (drsubmx A - w *m w^T)) : 'M[R]_(1 + n')
  end.

Lemma qform_block n (a : R) (v : 'cV[R]_n) (S : 'M[R]_n) (t : R) (y : 'cV[R]_n) :
  qform (block_mx a%:M v^T v S : 'M[R]_(1 + n)) (col_mx t%:M y) =
  a * t ^+ 2 + 2%:R * t * (v^T *m y) 0 0 + qform S y.
Proof.
rewrite /qform tr_col_mx mul_row_block mul_row_col tr_scalar_mx !mulmxDl.
have e1 : (t%:M *m a%:M *m t%:M : 'M[R]_1) 0 0 = a * t ^+ 2.
  by rewrite -!scalar_mxM mxE eqxx mulr1n expr2 mulrAC mulrC.
have e2 : (y^T *m v *m t%:M) 0 0 = t * (v^T *m y) 0 0.
  rewrite mul_mx_scalar mxE; congr (_ * _).
  by rewrite -[v in LHS]trmxK -trmx_mul mxE.
have e3 : (t%:M *m v^T *m y) 0 0 = t * (v^T *m y) 0 0.
  by rewrite mul_scalar_mx -scalemxAl mxE.
have eD (A B : 'M[R]_1) : (A + B) 0 0 = A 0 0 + B 0 0 by rewrite mxE.
by rewrite !eD e1 e2 e3 -mulrA mulr_natl mulr2n !addrA.
Qed.

Lemma psd_block_a n (a : R) (v : 'cV[R]_n) (S : 'M[R]_n) :
  psd (block_mx a%:M v^T v S : 'M[R]_(1 + n)) -> 0 <= a.
Proof.
move=> [_ p]; have := p (col_mx 1%:M 0); rewrite qform_block expr1n mulr1 mulmx0.
by rewrite mxE mulr0 addr0 /qform mulmx0 mxE addr0.
Qed.

Lemma psd_block_S n (a : R) (v : 'cV[R]_n) (S : 'M[R]_n) :
  psd (block_mx a%:M v^T v S : 'M[R]_(1 + n)) -> S^T = S.
Proof.
move=> [s _]; move: s; rewrite tr_block_mx => e.
by have := congr1 (@drsubmx _ 1 n 1 n) e; rewrite !block_mxKdr.
Qed.

Lemma psd_block_v0 n (v : 'cV[R]_n) (S : 'M[R]_n) :
  psd (block_mx 0%:M v^T v S : 'M[R]_(1 + n)) -> v = 0.
Proof.
move=> [_ p]; apply: cV_sqr_eq0; set c := (_ 0 0).
have c0 : 0 <= c by exact: cV_sqr_ge0.
apply/eqP; rewrite eq_le c0 andbT leNgt; apply/negP => cp.
have h t : 0 <= 2%:R * t * c + qform S v.
  by have := p (col_mx t%:M v); rewrite qform_block mul0r add0r.
set q := qform S v in h.
have := h (- (q + 1) / (2%:R * c)).
have nz : 2%:R * c != 0 :> R by rewrite mulf_neq0 ?pnatr_eq0 // lt0r_neq0.
rewrite mulrAC [2%:R * c * _]mulrC divfK // opprD addrAC addNr add0r.
by rewrite oppr_ge0 ler10.
Qed.

Lemma psd_schur n (a : R) (v : 'cV[R]_n) (S : 'M[R]_n) :
  psd (block_mx a%:M v^T v S : 'M[R]_(1 + n)) ->
  let w := (Num.sqrt a)^-1 *: v in psd (S - w *m w^T) /\ (Num.sqrt a) *: w = v.
Proof.
move=> h w; have a0 := psd_block_a h; have sS := psd_block_S h.
have [az|anz] := eqVneq a 0.
  move: h; rewrite az => h; have v0 := psd_block_v0 h.
  rewrite /w v0 scaler0 mul0mx subr0 scaler0; split => //; split => // x.
  by case: h => _ /(_ (col_mx 0%:M x)); rewrite qform_block mulr0 !mul0r !add0r.
have sa : Num.sqrt a != 0 by rewrite sqrtr_eq0 -ltNge lt_def anz a0.
have wv : Num.sqrt a *: w = v by rewrite /w scalerA divff // scale1r.
split => //; split; first by rewrite linearB /= trmx_mul trmxK sS.
move=> x; case: h => _ /(_ (col_mx (- (v^T *m x) 0 0 / a)%:M x)).
rewrite qform_block qformD qformN => h.
suff e : qform (w *m w^T) x = ((v^T *m x) 0 0) ^+ 2 / a.
  rewrite e addrC; move: h; set b := (v^T *m x) 0 0.
  suff -> : a * (- b / a) ^+ 2 + 2%:R * (- b / a) * b = - (b ^+ 2 / a) by [].
  rewrite mulNr sqrrN; set c := b / a; have -> : b = c * a by rewrite /c divfK.
  have -> : (c * a) ^+ 2 / a = c * (c * a) by rewrite expr2 -mulrA mulfK // mulrAC -mulrA.
  have -> : a * c ^+ 2 = c * (c * a) by rewrite expr2 mulrC mulrA.
  by rewrite mulrN mulNr -mulrA mulr_natl mulr2n opprD addrA subrr add0r.
rewrite -{1}(mulmx1 w) qform_congr /qform mulmx1.
have -> : w^T *m x = ((Num.sqrt a)^-1 * (v^T *m x) 0 0)%:M.
  by rewrite [LHS]mx11_scalar /w linearZ /= -scalemxAl mxE.
by rewrite tr_scalar_mx -scalar_mxM mxE eqxx mulr1n -expr2 exprMn exprVn sqr_sqrtr // mulrC.
Qed.

Lemma cholf_step n (A : 'M[R]_(1 + n)) :
  (forall B : 'M[R]_n, psd B -> cholf B *m (cholf B)^T = B) ->
  psd A -> (cholf A : 'M[R]_(1 + n)) *m (cholf A : 'M[R]_(1 + n))^T = A.
Proof.
move=> IH h; rewrite [cholf A]/(block_mx _ _ _ _).
set s := Num.sqrt _; set w := _ *: _.
have eA : A = block_mx (ulsubmx A 0 0)%:M (dlsubmx A)^T (dlsubmx A) (drsubmx A).
  rewrite -{1}(submxK A); congr block_mx; first by rewrite -mx11_scalar.
  by rewrite trmx_dlsub (psd_sym h).
have h' := h; rewrite eA in h'.
have a0 := psd_block_a h'.
have [pS wv] := psd_schur h'.
rewrite -/s -/w in pS wv.
rewrite (tr_block_mx (s%:M : 'M_1) 0 w) mulmx_block (tr_scalar_mx 1 s) !trmx0 !mulmx0 !mul0mx !addr0.
rewrite (IH _ pS) [RHS]eA; congr block_mx.
- by rewrite -scalar_mxM -expr2 sqr_sqrtr.
- by rewrite mul_scalar_mx -linearZ /= wv.
- by rewrite mul_mx_scalar wv.
- by rewrite addrC subrK.
Qed.

Lemma cholf_correct n (A : 'M[R]_n) : psd A -> cholf A *m (cholf A)^T = A.
Proof.
elim: n A => [|n IH] A h; first by rewrite [LHS]flatmx0 [RHS]flatmx0.
exact: (@cholf_step n A IH h).
Qed.

Lemma cholf_trig n (A : 'M[R]_n) : is_trig_mx (cholf A).
Proof.
elim: n A => [|n IH] A; first by apply/is_trig_mxP => -[].
rewrite [cholf A]/(block_mx _ _ _ _).
by rewrite (@is_trig_block_mx _ 1 n 1 n) // eqxx mx11_is_trig IH.
Qed.

Lemma psdP n (A : 'M[R]_n) : psd A <-> exists L : 'M[R]_n, A = L *m L^T.
Proof.
split; first by move=> h; exists (cholf A); rewrite cholf_correct.
by move=> [L ->]; exact: psd_mulT.
Qed.

Lemma psd_kernel n (A : 'M[R]_n) (x : 'cV[R]_n) : psd A -> qform A x = 0 -> A *m x = 0.
Proof.
move=> /psdP [L ->]; rewrite -{1}(mulmx1 L) qform_congr /qform mulmx1 => /cV_sqr_eq0 e.
by rewrite -mulmxA e mulmx0.
Qed.

Lemma psd_anti n (A : 'M[R]_n) : psd A -> psd (- A) -> A = 0.
Proof.
move=> pA [_ pN]; have z (x : 'cV[R]_n) : A *m x = 0.
  apply: (psd_kernel pA); apply/eqP; rewrite eq_le; case: pA => _ ->; rewrite andbT.
  by rewrite -oppr_ge0 -qformN.
by apply/matrixP => i j; have := z (delta_mx j 0); rewrite -colE => /colP/(_ i); rewrite !mxE.
Qed.

Lemma loewner_anti n (A B : 'M[R]_n) : loewner A B -> loewner B A -> A = B.
Proof.
rewrite /loewner => h1 h2; apply/eqP; rewrite -subr_eq0; apply/eqP; apply: psd_anti => //.
by rewrite opprB.
Qed.

(** *** Positive definiteness. *)
Definition posdef n (A : 'M[R]_n) : Prop := A^T = A /\ forall x, x != 0 -> 0 < qform A x.

Lemma qform0 n (A : 'M[R]_n) : qform A 0 = 0.
Proof. by rewrite /qform mulmx0 mxE. Qed.

Lemma posdef_psd n (A : 'M[R]_n) : posdef A -> psd A.
Proof.
move=> [sA pA]; split=> // x; have [->|x0] := eqVneq x 0; first by rewrite qform0.
exact/ltW/pA.
Qed.

Lemma posdef_unit n (A : 'M[R]_n) : posdef A -> A \in unitmx.
Proof.
move=> [sA pA]; rewrite unitmxE unitfE; apply/negP => /det0P [v v0 vA].
have := pA v^T; rewrite trmx_eq0 => /(_ v0).
by rewrite /qform trmxK vA mul0mx mxE ltxx.
Qed.

Lemma psd_unit_posdef n (A : 'M[R]_n) : psd A -> A \in unitmx -> posdef A.
Proof.
move=> pA uA; split; first exact: psd_sym.
move=> x x0; rewrite lt_neqAle pA.2 andbT eq_sym; apply/negP => /eqP /(psd_kernel pA) e.
by move/negP: x0; apply; rewrite -(mulKmx uA x) e mulmx0.
Qed.

Lemma posdefD n (A B : 'M[R]_n) : posdef A -> psd B -> posdef (A + B).
Proof.
move=> [sA pA] [sB pB]; split; first by rewrite linearD /= sA sB.
by move=> x x0; rewrite qformD ltr_paddr // pA.
Qed.

Lemma posdefZ n c (A : 'M[R]_n) : 0 < c -> posdef A -> posdef (c *: A).
Proof.
move=> c0 [sA pA]; split; first by rewrite linearZ /= sA.
by move=> x x0; rewrite qformZ mulr_gt0 // pA.
Qed.

Lemma posdef_mulT n (A : 'M[R]_n) : A \in unitmx -> posdef (A *m A^T).
Proof. by move=> uA; apply: psd_unit_posdef; [exact: psd_mulT|rewrite unitmx_mul unitmx_tr uA]. Qed.

Lemma posdef1 n : posdef (1%:M : 'M[R]_n).
Proof. by rewrite -[1%:M]mulmx1 -{2}trmx1; apply: posdef_mulT; exact: unitmx1. Qed.

(** *** Uniqueness of the Cholesky factor with a positive diagonal. *)
Definition posdiag n (A : 'M[R]_n) : Prop := forall i, 0 < A i i.

Lemma cholf_diag_ge0 n (A : 'M[R]_n) i : 0 <= cholf A i i.
Proof.
elim: n A i => [|n IH] A; first by case.
rewrite [cholf A]/(block_mx _ _ _ _) => i.
have := splitP (i : 'I_(1 + n)) => -[j e|j e].
  have -> : i = lshift n j by apply: val_inj.
  by rewrite (@block_mxEul _ 1 n 1 n) ord1 mxE eqxx mulr1n sqrtr_ge0.
have -> : i = rshift 1 j by apply: val_inj.
by rewrite (@block_mxEdr _ 1 n 1 n) IH.
Qed.

Lemma trig_unit_diag n (A : 'M[R]_n) : is_trig_mx A -> (A \in unitmx) = [forall i, A i i != 0].
Proof.
move=> tA; rewrite unitmxE unitfE det_trig //; apply/idP/forallP.
  by move=> /prodf_neq0 h i; exact: h.
by move=> h; apply/prodf_neq0 => i _; exact: h.
Qed.

Lemma cholf_posdiag n (A : 'M[R]_n) : posdef A -> posdiag (cholf A).
Proof.
move=> pA i; rewrite lt_neqAle cholf_diag_ge0 andbT eq_sym.
have : cholf A \in unitmx.
  by have := posdef_unit pA; rewrite -{1}(cholf_correct (posdef_psd pA)) unitmx_mul => /andP [].
by rewrite trig_unit_diag ?cholf_trig // => /forallP.
Qed.

Lemma chol_unique_step n (L M : 'M[R]_(1 + n)) :
  (forall L M : 'M[R]_n, is_trig_mx L -> is_trig_mx M -> posdiag L -> posdiag M ->
     L *m L^T = M *m M^T -> L = M) ->
  is_trig_mx L -> is_trig_mx M -> posdiag L -> posdiag M -> L *m L^T = M *m M^T -> L = M.
Proof.
move=> IH; rewrite -(submxK L) -(submxK M).
rewrite !(@is_trig_block_mx _ 1 n 1 n) // => /and3P [/eqP uL _ tL] /and3P [/eqP uM _ tM].
rewrite uL uM => pL pM.
rewrite !(@tr_block_mx _ 1 n 1 n) !mulmx_block !trmx0 !mulmx0 !mul0mx !addr0.
have l0 : 0 < (ulsubmx L : 'M_1) 0 0 by have := pL (lshift n 0); rewrite block_mxEul.
have m0 : 0 < (ulsubmx M : 'M_1) 0 0 by have := pM (lshift n 0); rewrite block_mxEul.
have qL : posdiag (drsubmx L) by move=> i; have := pL (rshift 1 i); rewrite block_mxEdr.
have qM : posdiag (drsubmx M) by move=> i; have := pM (rshift 1 i); rewrite block_mxEdr.
move=> /eq_block_mx [e1 _ e3 e4].
have eu : ulsubmx L = ulsubmx M.
  move: e1 l0 m0; rewrite (mx11_scalar (ulsubmx L)) (mx11_scalar (ulsubmx M)).
  rewrite !tr_scalar_mx -!scalar_mxM => /matrixP /(_ 0 0); rewrite !mxE eqxx !mulr1n => e l0 m0.
  by congr (_%:M); apply/eqP; rewrite -(@eqr_expn2 _ 2) ?ltW // !expr2 e.
have ed : dlsubmx L = dlsubmx M.
  move: e3; rewrite eu (mx11_scalar (ulsubmx M)) !tr_scalar_mx !mul_mx_scalar => /(congr1 (fun X => (ulsubmx M 0 0)^-1 *: X)).
  by rewrite !scalerA mulVf ?scale1r // gt_eqF.
rewrite eu ed; congr block_mx; apply: IH => //.
by move: e4; rewrite ed => /addrI.
Qed.

Lemma chol_unique n (L M : 'M[R]_n) :
  is_trig_mx L -> is_trig_mx M -> posdiag L -> posdiag M -> L *m L^T = M *m M^T -> L = M.
Proof.
elim: n L M => [|n IH] L M; first by move=> *; rewrite [LHS]flatmx0 [RHS]flatmx0.
exact: (@chol_unique_step n L M IH).
Qed.

End Psd.
