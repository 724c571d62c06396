(** * Proofs: log-likelihood and entropy. *)
From Coq Require Import Reals Lra.
From mathcomp Require Import all_ssreflect all_algebra.
From Verif Require Import RingTac RealField MatBase LibModel GaussModel KalmanModel KalmanSpec KalmanProofs.
From Verif Require Import LinzSpec LinzProofs LinzProb LogLikModel LogLikSpec.
Set Implicit Arguments.
Unset Strict Implicit.
Unset Printing Implicit Defensive.
Import GRing.Theory Num.Theory Order.Theory.
Local Open Scope ring_scope.
Delimit Scope R_scope with coqR.

Lemma c_detE n (c : cval RR n) : proper c -> c_det c = \det (self_adj c).
Proof.
case: c => [P|T] //= h; rewrite det_mulmx det_tr.
by rewrite (det_trig h).
Qed.

Lemma det_pos n (c : cval RR n) : proper c -> self_adj c \in unitmx -> (IZR 0 < \det (self_adj c))%coqR.
Proof.
move=> pc uc; have [A eA] := (psdP _).1 (self_adj_psd pc).
move: uc; rewrite unitmxE eA det_mulmx det_tr unitrM => /andP [ud _].
apply/ltRP; rewrite -expr2 lt_def sqr_ge0 andbT sqrf_eq0 -unitfE //.
Qed.

Lemma square_sumE S n (x : gd RR n) zs : solver_ok S -> proper (gcov x) -> self_adj (gcov x) \in unitmx ->
  square_sum S x zs = total [seq qform (invmx (self_adj (gcov x))) (z - gmean x) | z <- zs].
Proof.
move=> SK px ux.
have t z : \tr ((z - gmean x)^T *m S _ _ (self_adj (gcov x)) (z - gmean x)) = qform (invmx (self_adj (gcov x))) (z - gmean x).
  rewrite -{1}[S _ _ _ _]mul1mx -(mulVmx ux) -mulmxA (SK _ _ _ _ ux) mulmxA /qform /mxtrace big_ord1 //.
elim: zs => [|z [|z' zs] IH] //; first by rewrite /= t Rplus_0_r.
by rewrite [LHS]/= t -/(square_sum S x (z' :: zs)) IH.
Qed.

Lemma ln_sqrt x : (0 < x -> ln (sqrt x) = ln x / 2)%coqR.
Proof.
move=> h; have hs := sqrt_lt_R0 _ h.
rewrite -{2}(sqrt_sqrt x); last lra.
rewrite ln_mult //; lra.
Qed.

Lemma ln_density n (mu : 'cV[RR]_n) (P : 'M[RR]_n) z : (IZR 0 < \det P)%coqR ->
  ln (gauss_density mu P z) = (- (1 / 2) * (INR n * ln (2 * PI) + ln (\det P) + qform (invmx P) (z - mu)%R))%coqR.
Proof.
move=> hd; rewrite /gauss_density; have hp := PI_RGT_0.
have h2 : (0 < 2 * PI)%coqR by lra.
have hpow := pow_lt _ n h2.
move: (qform _ _) => u; move: (\det P : R) hd => D hd.
have hm : (0 < (2 * PI) ^ n * D)%coqR by apply: Rmult_lt_0_compat.
have hs := sqrt_lt_R0 _ hm.
rewrite /Rdiv ln_mult; [|exact: exp_pos|exact: Rinv_0_lt_compat].
rewrite ln_exp ln_Rinv // ln_sqrt // ln_mult // ln_pow //.
rewrite -[RHS]/(_ * _)%coqR; lra.
Qed.

Lemma total_density n (mu : 'cV[RR]_n) (P : 'M[RR]_n) zs : (IZR 0 < \det P)%coqR ->
  total [seq ln (gauss_density mu P z) | z <- zs] =
  (- (1 / 2) * (INR (size zs) * (INR n * ln (2 * PI) + ln (\det P)) + total [seq qform (invmx P) (z - mu)%R | z <- zs]))%coqR.
Proof.
move=> hd; elim: zs => [|z zs IH]; first by rewrite /=; lra.
rewrite [LHS]/= IH (ln_density _ _ hd) [size (z :: zs)]/= S_INR.
have aux (q t a b k : R) : (- (1 / 2) * (a + b + q) + - (1 / 2) * (k * (a + b) + t)
  = - (1 / 2) * ((k + 1) * (a + b) + (q + t)))%coqR by ring.
exact: aux.
Qed.
