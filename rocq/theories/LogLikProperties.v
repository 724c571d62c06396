(** * Log-likelihood, entropy and random draws (C51, C78). *)
From Coq Require Import Reals Lra.
From mathcomp Require Import all_ssreflect all_algebra.
From Verif Require Import RingTac RealField MatBase LibModel GaussModel KalmanModel KalmanSpec KalmanProofs.
From Verif Require Import LinzSpec LinzProofs LinzProb LogLikModel LogLikSpec LogLikProofs.
Set Implicit Arguments.
Unset Strict Implicit.
Unset Printing Implicit Defensive.
Import GRing.Theory Num.Theory Order.Theory.
Local Open Scope ring_scope.
Delimit Scope R_scope with coqR.

(** C51.  The log-likelihood is the sum of the logarithms of the density at the observations, whichever way the
    covariance is stored. *)
Theorem log_likelihood_density (S : solver RR) n (x : gd RR n) (zs : seq 'cV[RR]_n) :
  solver_ok S -> proper (gcov x) -> self_adj (gcov x) \in unitmx ->
  log_likelihood S x zs = Some (total [seq ln (gauss_density (gmean x) (self_adj (gcov x)) z) | z <- zs]).
Proof.
move=> SK px ux; have hd := det_pos px ux.
rewrite (total_density _ _ hd) /log_likelihood (c_detE px) (square_sumE _ SK px ux).
by case: Rlt_dec.
Qed.
Print Assumptions log_likelihood_density.

Example log_likelihood_nonvacuous :
  let x : gd RR 2 := GD (const_mx 1) (Chol (2%:R%:M)) in
  proper (gcov x) /\ self_adj (gcov x) \in unitmx.
Proof.
split; first exact: scalar_mx_is_trig.
rewrite /= tr_scalar_mx -scalar_mxM unitmxE det_scalar unitrX // unitfE mulf_neq0 // pnatr_eq0 //.
Qed.

Lemma total_sum (s : seq R) : total s = \sum_(a <- s) (a : RR).
Proof. by elim: s => [|a s IH]; rewrite ?big_nil // big_cons -IH. Qed.

(** Reordering the observations changes nothing, even for a singular covariance or a solver that fails. *)
Theorem log_likelihood_permutation (S : solver RR) n (x : gd RR n) (zs zs' : seq 'cV[RR]_n) :
  perm_eq zs zs' -> log_likelihood S x zs = log_likelihood S x zs'.
Proof.
move=> h.
have sE s : square_sum S x s = \sum_(z <- s) (\tr ((z - gmean x)^T *m S _ _ (self_adj (gcov x)) (z - gmean x)) : RR).
  elim: s => [|z [|z' s] IH]; rewrite ?big_nil //; first by rewrite big_seq1.
  by rewrite big_cons -IH.
have e : square_sum S x zs = square_sum S x zs' by rewrite !sE; apply: perm_big.
by rewrite /log_likelihood (perm_size h) e.
Qed.
Print Assumptions log_likelihood_permutation.

(** Two data sets together: the sum. *)
Theorem log_likelihood_cat (S : solver RR) n (x : gd RR n) (zs zs' : seq 'cV[RR]_n) :
  solver_ok S -> proper (gcov x) -> self_adj (gcov x) \in unitmx ->
  exists a b, [/\ log_likelihood S x zs = Some a, log_likelihood S x zs' = Some b &
    log_likelihood S x (zs ++ zs') = Some (a + b)%coqR].
Proof.
move=> SK px ux; rewrite !log_likelihood_density //; do 2 eexists; split; try reflexivity.
by rewrite !total_sum map_cat big_cat.
Qed.
Print Assumptions log_likelihood_cat.

(** A singular covariance has no likelihood and no entropy. *)
Theorem log_likelihood_singular (S : solver RR) n (x : gd RR n) (zs : seq 'cV[RR]_n) :
  proper (gcov x) -> self_adj (gcov x) \notin unitmx -> log_likelihood S x zs = None /\ entropy x = None.
Proof.
move=> px; rewrite unitmxE unitfE negbK => /eqP e.
rewrite /log_likelihood /entropy (c_detE px) e.
by split; case: Rlt_dec => // h; case: (Rlt_irrefl (IZR 0)).
Qed.
Print Assumptions log_likelihood_singular.

Example log_likelihood_singular_nonvacuous :
  let x : gd RR 2 := GD 0 (Chol (const_mx 1 - delta_mx 0 1 - delta_mx 1 1)) in
  proper (gcov x) /\ self_adj (gcov x) \notin unitmx.
Proof.
split; first by apply/is_trig_mxP => -[[|[|i]] hi] [[|[|j]] hj] //= _; rewrite !mxE /= subr0 subrr.
rewrite unitmxE unitfE negbK /= det_mulmx det_tr; apply/eqP.
rewrite (_ : \det _ = 0) ?mul0r // det_trig; last first.
  by apply/is_trig_mxP => -[[|[|i]] hi] [[|[|j]] hj] //= _; rewrite !mxE /= subr0 subrr.
by rewrite !big_ord_recl big_ord0 !mxE /= !subr0 subrr mul0r mulr0.
Qed.

Lemma if_pos T (d : R) (a : T) : (IZR 0 < d)%coqR -> (if Rlt_dec (IZR 0) d then Some a else None) = Some a.
Proof. by case: Rlt_dec. Qed.

Lemma density_log2 n (mu : 'cV[RR]_n) (P : 'M[RR]_n) z : (IZR 0 < \det P)%coqR ->
  (- log2 (gauss_density mu P z) = 1 / (2 * ln 2) * (INR n * ln (2 * PI) + ln (\det P))
     + 1 / (2 * ln 2) * qform (invmx P) (z - mu)%R)%coqR.
Proof.
move=> hd; rewrite /log2 (ln_density _ _ hd).
have l2 := ln_lt_2.
move: (qform _ _) (INR n * ln _)%coqR (ln (\det P)) => q a b.
have aux (q' : R) : (- (- (1 / 2) * (a + b + q') / ln 2) = 1 / (2 * ln 2) * (a + b) + 1 / (2 * ln 2) * q')%coqR.
  by field; lra.
exact: aux.
Qed.

(** The entropy is the mean of minus the binary logarithm of the density, for every random vector with the mean and
    covariance of the distribution. *)
Theorem entropy_is_mean_log_density n (x : gd RR n) (W : finType) (p : W -> RR) (X : W -> 'cV[RR]_n) :
  proper (gcov x) -> self_adj (gcov x) \in unitmx ->
  probability p -> has_moments p X (gmean x) (self_adj (gcov x)) ->
  entropy x = Some (expect1 p (fun w => - log2 (gauss_density (gmean x) (self_adj (gcov x)) (X w)) : RR)).
Proof.
move=> px ux hp hX; have hd := det_pos px ux.
rewrite /entropy (c_detE px); rewrite (if_pos _ hd); congr Some.
rewrite (eq_expect1 p (fun w => density_log2 (gmean x) (X w) hd)).
rewrite expect1D expect1_const // expect1Z.
have -> : expect1 p (fun w => qform (invmx (self_adj (gcov x))) (X w - gmean x)) = INR n.
  rewrite expect_bil (cov_u hX) mulVmx // mxtrace1 /=.
  by elim: (n) => // k IH; rewrite S_INR -IH mulrS addrC.
have hp2 := PI_RGT_0; have l2 := ln_lt_2.
rewrite /log2 ln_exp ln_mult; [|lra|lra].
move: (ln (\det _)) => b; rewrite -[LHS]/((_ : R)).
have aux (k P D : R) : (1 / 2 * (k * (1 + P / ln 2 + 1 / ln 2) + D / ln 2) =
  1 / (2 * ln 2) * (k * (ln 2 + P) + D) + 1 / (2 * ln 2) * k)%coqR by field; lra.
exact: aux.
Qed.
Print Assumptions entropy_is_mean_log_density.

(** Given the covariance, the mean of the observations has the greatest likelihood. *)
Theorem log_likelihood_maximum (S : solver RR) n (c : cval RR n) (zs : seq 'cV[RR]_n) (mu : 'cV[RR]_n) :
  solver_ok S -> proper c -> self_adj c \in unitmx -> (0 < size zs)%N ->
  let avg := (size zs)%:R^-1 *: \sum_(z <- zs) z in
  exists a b, [/\ log_likelihood S (GD mu c) zs = Some a, log_likelihood S (GD avg c) zs = Some b & (a <= b)%coqR].
Proof.
move=> SK pc uc hs avg; rewrite !log_likelihood_density //; do 2 eexists; split; try reflexivity.
have hd := det_pos pc uc; rewrite /= !(total_density _ _ hd) !total_sum !big_map.
have n0 : ((size zs)%:R : RR) != 0 by rewrite pnatr_eq0 -lt0n.
have pd := psd_unit_posdef (self_adj_psd pc) uc.
have pi : psd (invmx (self_adj c)).
  split; first by rewrite trmx_inv (psd_sym (self_adj_psd pc)).
  move=> v; have := (self_adj_psd pc).2 (invmx (self_adj c) *m v).
  rewrite /qform trmx_mul trmx_inv (psd_sym (self_adj_psd pc)) -!mulmxA mulKVmx //.
have e : \sum_(z <- zs) (z - avg) = 0.
  by rewrite sumrB big_const_seq count_predT iter_addr addr0 -scaler_nat scalerA mulfV // scale1r subrr.
have -> : \sum_(z <- zs) qform (invmx (self_adj c)) (z - mu) = \sum_(z <- zs) qform (invmx (self_adj c)) (z - avg)
    + (size zs)%:R * qform (invmx (self_adj c)) (avg - mu).
  under eq_bigr => z _.
    have -> : qform (invmx (self_adj c)) (z - mu) = qform (invmx (self_adj c)) (z - avg) + qform (invmx (self_adj c)) (avg - mu)
       + (bil (invmx (self_adj c)) (z - avg) (avg - mu) + bil (invmx (self_adj c)) (avg - mu) (z - avg)).
      have -> : z - mu = (z - avg) + (avg - mu) by abel.
      rewrite !qform_bil !bilDl !bilDr; cring.
    over.
  rewrite !big_split /= big_const_seq count_predT iter_addr addr0.
  have -> : \sum_(z <- zs) bil (invmx (self_adj c)) (z - avg) (avg - mu) = 0.
    by under eq_bigr do rewrite bilT; rewrite /bil -summxE -!mulmx_sumr e !mulmx0 mxE.
  have -> : \sum_(z <- zs) bil (invmx (self_adj c)) (avg - mu) (z - avg) = 0.
    by rewrite /bil -summxE -!mulmx_sumr e !mulmx0 mxE.
  by rewrite !addr0 mulr_natl.
have := mulr_ge0 (ler0n RR (size zs)) (pi.2 (avg - mu)) => /leRP.
move: (_ * qform _ _) (\sum_(z <- zs) _) => q t h.
have aux (a b q' : R) : (0 <= q')%coqR -> (- (1 / 2) * (a + (b + q')) <= - (1 / 2) * (a + b))%coqR by lra.
exact: aux.
Qed.
Print Assumptions log_likelihood_maximum.

(** C78.  Draws made from standard normal numbers have the mean and the covariance of the distribution. *)
Theorem draws_have_moments (L : lib RR) n (x : gd RR n) (W : finType) (p : W -> RR) (N : W -> 'cV[RR]_n) :
  lib_ok L -> rootable (gcov x) -> probability p -> has_moments p N 0 1%:M ->
  has_moments p (fun w => draw L x (N w)) (gmean x) (self_adj (gcov x)).
Proof.
move=> LK rx hp [e1 e2]; split.
  by rewrite /draw expectD expect_const // expectMl e1 mulmx0 addr0.
rewrite /draw (covar_shift hp) covar_mulr -covarT covar_mulr -[covar _ _ _]covarT e2 trmx1 mul1mx trmxK.
exact: sqrt_of_sq.
Qed.
Print Assumptions draws_have_moments.

Example draws_nonvacuous : exists (W : finType) (p : W -> RR) (N : W -> 'cV[RR]_1),
  probability p /\ has_moments p N 0 1%:M.
Proof.
exists [finType of bool], (fun _ => 2%:R^-1), (fun b : bool => (-1) ^+ b *: 1).
have t : (2%:R^-1 : RR) + 2%:R^-1 = 1 by rewrite [RHS](splitr 1) !mul1r.
split; first by rewrite /probability big_bool.
have e : expect (fun _ : bool => 2%:R^-1 : RR) (fun b : bool => (-1) ^+ b *: 1) = 0 :> 'cV_1.
  by rewrite /expect big_bool /= expr0 expr1 scaleN1r scalerN scale1r addNr.
split=> //; rewrite (covar_centred e e) /expect big_bool /= !subr0 expr0 expr1 scaleN1r scale1r.
rewrite (_ : 1 = 1%:M) // trmxN trmx1 mulNmx mulmxN opprK mulmx1 -scalerDl t scale1r //.
Qed.
