(** * Proofs: complex functions. *)
From Coq Require Import Reals ZArith List Lra Lia Psatz.
From Flocq Require Import Raux.
From Coquelicot Require Import Coquelicot.
From Verif Require Import MathModel MathSpec MathProofs MathProofs2 MathProofs3 MathProofs4 MathProofs5 CMathModel CMathSpec.
Local Open Scope R_scope.

Ltac ceq := apply injective_projections; simpl; try ring; try field.

Lemma C_nz (z : C) : z <> RtoC 0 <-> 0 < fst z * fst z + snd z * snd z.
Proof.
destruct z as [a b]; simpl. split.
- intro N. pose proof (Rle_0_sqr a). pose proof (Rle_0_sqr b). unfold Rsqr in *.
  destruct (Req_dec (a * a + b * b) 0) as [E|E]; [|lra]. exfalso. apply N. assert (a * a = 0) by lra. assert (b * b = 0) by lra.
  apply Rmult_integral in H1, H2. unfold RtoC. f_equal; tauto.
- intros H E. injection E as -> ->. lra.
Qed.

Lemma C2 : RtoC 2 = (RtoC 1 + RtoC 1)%C.
Proof. ceq. Qed.
Lemma two_nz : RtoC 2 <> RtoC 0.
Proof. intro E. apply RtoC_inj in E. lra. Qed.
Lemma two_nz' : (RtoC 1 + RtoC 1)%C <> RtoC 0.
Proof. rewrite <- C2. apply two_nz. Qed.
Lemma Ci_nz : Ci <> RtoC 0.
Proof. intro E. injection E. lra. Qed.
Ltac cring := rewrite ?C2; ring.
Ltac cfield := rewrite ?C2; field; repeat split; first [assumption | apply two_nz' | apply Ci_nz | idtac].

(** ** The exponential. *)
Lemma Cexp_plus z w : Cexp (z + w)%C = (Cexp z * Cexp w)%C.
Proof.
destruct z as [a b], w as [c d]. unfold Cexp. simpl. rewrite exp_plus, cos_plus, sin_plus. ceq.
Qed.
Lemma Cexp_0 : Cexp (RtoC 0) = RtoC 1.
Proof. unfold Cexp. simpl. rewrite exp_0, cos_0, sin_0. ceq. Qed.
Lemma Cexp_nz z : Cexp z <> RtoC 0.
Proof.
apply C_nz. unfold Cexp. simpl. pose proof (exp_pos (fst z)) as P. pose proof (sin2_cos2 (snd z)) as S. unfold Rsqr in S.
replace (_ + _) with (exp (fst z) * exp (fst z) * (sin (snd z) * sin (snd z) + cos (snd z) * cos (snd z))) by ring. rewrite S. nra.
Qed.
Lemma Cexp_opp z : Cexp (- z)%C = (/ Cexp z)%C.
Proof.
assert (E : (Cexp (- z) * Cexp z)%C = RtoC 1) by (rewrite <- Cexp_plus; replace (- z + z)%C with (RtoC 0) by ring; apply Cexp_0).
transitivity (Cexp (- z) * Cexp z * / Cexp z)%C; [|rewrite E; ring].
field. apply Cexp_nz.
Qed.
Lemma Cexp_dbl z : Cexp (2 * z)%C = (Cexp z * Cexp z)%C.
Proof. rewrite <- Cexp_plus. f_equal. cring. Qed.

Definition turns (x : R) : Prop := IZR (- 2 ^ 63) <= x / (PI * 2) < IZR (2 ^ 63).

Lemma cexp_val fuel z : exp_low < fst z < exp_high -> turns (snd z) -> (1 <= fuel)%nat -> cexp fuel z = Some (CVal (Cexp z)).
Proof.
intros A B F. unfold cexp. rewrite exp_val by exact A. cbn [rd]. destruct fuel as [|f]; [lia|].
destruct (scale_done (snd z) f B) as (t & E & _ & S & K). rewrite E. cbn [rdf rd]. cbv zeta. rewrite sin_reduced, cos_reduced, S, K. reflexivity.
Qed.
Lemma cexpm1_val fuel z : exp_low < fst z < exp_high -> turns (snd z) -> (1 <= fuel)%nat ->
  cexpm1 fuel z = Some (CVal (Cexp z - 1)%C).
Proof.
intros A B F. unfold cexpm1. rewrite expm1_val by exact A. cbn [rd]. destruct fuel as [|f]; [lia|].
destruct (scale_done (snd z) f B) as (t & E & _ & S & K). rewrite E. cbn [rdf rd]. cbv zeta.
rewrite sin_reduced, cos_impl_val, S, K. unfold ret. do 2 f_equal. unfold Cexp. ceq.
Qed.

(** ** Square root and logarithm. *)
Lemma csqrt_val re im neg : (im < 0 -> neg = true) -> (0 < im -> neg = false) -> exists w : C,
  csqrt re (Fin im neg) = Some (CVal w) /\ (w * w)%C = (re, im) /\ 0 <= fst w /\
  (if neg then snd w <= 0 else 0 <= snd w).
Proof.
intros H1 H2. unfold csqrt. cbv zeta. pose proof (Rle_0_sqr re) as R2. pose proof (Rle_0_sqr im) as I2. unfold Rsqr in *.
rewrite sqrt_val by lra. cbn [rd]. set (n := sqrt (re * re + im * im)).
assert (N0 : 0 <= n) by apply sqrt_pos. assert (NN : n * n = re * re + im * im) by (apply sqrt_sqrt; lra).
assert (N : Rabs re <= n) by (rewrite <- sqrt_Rsqr_abs; unfold n; apply sqrt_le_1_alt; unfold Rsqr; lra).
assert (Nb : - n <= re <= n) by (now apply Rabs_le_between).
rewrite !sqrt_val by lra. cbn [rd].
set (p := sqrt (1 / 2 * (n + re))). set (q := sqrt (1 / 2 * (n - re))).
assert (P0 : 0 <= p) by apply sqrt_pos. assert (Q0 : 0 <= q) by apply sqrt_pos.
assert (PP : p * p = 1 / 2 * (n + re)) by (apply sqrt_sqrt; lra). assert (QQ : q * q = 1 / 2 * (n - re)) by (apply sqrt_sqrt; lra).
assert (PQ : p * q = Rabs im / 2).
{ apply Rsqr_inj; [now apply Rmult_le_pos|pose proof (Rabs_pos im); lra|]. unfold Rsqr.
  replace (p * q * (p * q)) with (p * p * (q * q)) by ring. rewrite PP, QQ.
  replace (Rabs im / 2 * (Rabs im / 2)) with (Rabs im * Rabs im / 4) by field.
  rewrite <- Rabs_mult, Rabs_pos_eq by lra. nra. }
unfold copysign. cbn [signbit].
assert (S : (if Rlt_dec im 0 then true else if Rlt_dec 0 im then false else neg) = neg).
{ destruct (Rlt_dec im 0); [now rewrite H1|]. destruct (Rlt_dec 0 im); [now rewrite H2|easy]. }
rewrite S. destruct neg; cbn [num_of rd]; unfold ret.
- exists (p, - q). split; [easy|]. assert (im <= 0) by (destruct (Rle_dec im 0); [easy|]; discriminate H2; lra).
  rewrite Rabs_left1 in PQ by easy. split; [apply injective_projections; simpl; lra|]. simpl. lra.
- exists (p, q). split; [easy|]. assert (0 <= im) by (destruct (Rle_dec 0 im); [easy|]; discriminate H1; lra).
  rewrite Rabs_pos_eq in PQ by easy. split; [apply injective_projections; simpl; lra|]. simpl. lra.
Qed.

Lemma csqrt_pos re im : exists w : C, csqrt re (pos im) = Some (CVal w) /\ (w * w)%C = (re, im).
Proof.
(* the sign passed for a zero does not matter *)
assert (E : csqrt re (pos im) = csqrt re (Fin im (if Rlt_dec im 0 then true else false))).
{ unfold csqrt, pos, copysign, signbit. destruct (Rlt_dec im 0); [easy|]. now destruct (Rlt_dec 0 im). }
rewrite E. destruct (csqrt_val re im (if Rlt_dec im 0 then true else false)) as (w & A & B & _).
- intro. now destruct (Rlt_dec im 0).
- intro. destruct (Rlt_dec im 0); [lra|easy].
- exists w. tauto.
Qed.

Lemma angle_c re im : re <> 0 \/ im <> 0 -> exists t, num_of (atan2_impl (pos im) (pos re)) = Val t /\ angle_of re im t /\ - PI <= t <= PI.
Proof.
intro H. destruct (atan2_val im false re false H) as (t & E & A & B & _). exists t. unfold pos. now rewrite E.
Qed.

Lemma Cexp_polar a b t : angle_of a b t -> Cexp (1 / 2 * ln (a * a + b * b), t) = (a, b).
Proof.
intros (r & P & -> & ->). unfold Cexp. simpl.
replace (r * cos t * (r * cos t) + r * sin t * (r * sin t)) with (r * r * (sin t * sin t + cos t * cos t)) by ring.
pose proof (sin2_cos2 t) as S. unfold Rsqr in S. rewrite S, Rmult_1_r, ln_mult by exact P.
replace (1 / 2 * (ln r + ln r)) with (ln r) by field. now rewrite exp_ln.
Qed.

Lemma clog_val z : z <> RtoC 0 -> exists w N, (forall fuel, (N <= fuel)%nat -> clog fuel z = Some (CVal w)) /\ Cexp w = z /\ - PI <= snd w <= PI.
Proof.
intro NZ. pose proof (proj1 (C_nz z) NZ) as P. destruct z as [a b]. simpl in P.
destruct (angle_c a b) as (t & T & A & B).
{ destruct (Req_dec a 0) as [->|]; [|now left]. right. intros ->. lra. }
destruct (log_val _ P) as [N L]. exists (1 / 2 * ln (a * a + b * b), t), N. split; [|split; [now apply Cexp_polar|exact B]].
intros fuel F. unfold clog. rewrite (L fuel F). cbn [rdf rd]. now rewrite T.
Qed.

Lemma clog1p_val z : (1 + z)%C <> RtoC 0 -> exists w N, (forall fuel, (N <= fuel)%nat -> clog1p fuel z = Some (CVal w)) /\
  Cexp w = (1 + z)%C /\ - PI <= snd w <= PI.
Proof.
intro NZ. pose proof (proj1 (C_nz _) NZ) as P. destruct z as [a b]. simpl in P. rewrite !Rplus_0_l in P.
destruct (angle_c (a + 1) b) as (t & T & A & B).
{ destruct (Req_dec (a + 1) 0) as [E|]; [|now left]. right. intros ->. replace (1 + a) with 0 in P by lra. lra. }
destruct (log1p_val (a * a + 2 * a + b * b)) as [N L]; [lra|].
exists (1 / 2 * ln ((a + 1) * (a + 1) + b * b), t), N. split; [|split; [|exact B]].
- intros fuel F. unfold clog1p. rewrite (L fuel F). cbn [rdf rd]. rewrite T. cbn [rd]. unfold ret. do 5 f_equal. ring.
- rewrite Cexp_polar by exact A. ceq.
Qed.

(** ** Hyperbolic and trigonometric functions. *)
Lemma inv_pair a b : a * a + b * b <> 0 -> (/ (a, b))%C = (a / (a * a + b * b), - b / (a * a + b * b)).
Proof. intro N. unfold Cinv. simpl. replace (a * (a * 1) + b * (b * 1)) with (a * a + b * b) by ring. reflexivity. Qed.

Lemma pair_half (z : C) : (z / 2)%C = (fst z / 2, snd z / 2).
Proof. destruct z as [a b]. unfold Cdiv, Cinv. ceq. Qed.

Section range.
Variables (fuel : nat) (z : C).
Hypotheses (A : exp_low < fst z < exp_high) (B : turns (snd z)) (F : (1 <= fuel)%nat).

Lemma csinh_val : csinh fuel z = Some (CVal (Csinh z)).
Proof.
unfold csinh, Csinh. rewrite (cexp_val fuel z A B F), Cexp_opp. cbn [cd]. pose proof (proj1 (C_nz _) (Cexp_nz z)) as P.
destruct (Cexp z) as [a b]. simpl in P. rewrite inv_pair by lra. rewrite pair_half. simpl.
destruct (Req_EM_T b 0) as [->|N]; unfold ret; do 2 f_equal; apply injective_projections; simpl; field; try lra.
all: intros ->; lra.
Qed.
Lemma ccosh_val : ccosh fuel z = Some (CVal (Ccosh z)).
Proof.
unfold ccosh, Ccosh. rewrite (cexp_val fuel z A B F), Cexp_opp. cbn [cd]. pose proof (proj1 (C_nz _) (Cexp_nz z)) as P.
destruct (Cexp z) as [a b]. simpl in P. rewrite inv_pair by lra. rewrite pair_half. simpl.
destruct (Req_EM_T b 0) as [->|N]; unfold ret; do 2 f_equal; apply injective_projections; simpl; field; try lra.
all: intros ->; lra.
Qed.
End range.

Lemma Csinh_pair a b : Csinh (a, b) = (sinh a * cos b, cosh a * sin b).
Proof.
unfold Csinh. rewrite pair_half. unfold Cexp, sinh, cosh. simpl. rewrite cos_neg, sin_neg. ceq.
Qed.
Lemma Ccosh_pair a b : Ccosh (a, b) = (cosh a * cos b, sinh a * sin b).
Proof.
unfold Ccosh. rewrite pair_half. unfold Cexp, sinh, cosh. simpl. rewrite cos_neg, sin_neg. ceq.
Qed.
Lemma Ci_sq : (Ci * Ci = - (1))%C.
Proof. ceq. Qed.
Lemma Csin_sinh z : Csin z = (Csinh (Ci * z) / Ci)%C.
Proof. unfold Csin, Csinh. cfield. Qed.
Lemma Ccos_cosh z : Ccos z = Ccosh (Ci * z)%C.
Proof. reflexivity. Qed.
Lemma div_Ci z : (z / Ci)%C = (snd z, - fst z).
Proof. destruct z as [a b]. unfold Cdiv, Cinv, Ci. simpl. ceq. Qed.
Lemma cosh_neg a : cosh (- a) = cosh a.
Proof. unfold cosh. rewrite Ropp_involutive. field. Qed.
Lemma sinh_neg a : sinh (- a) = - sinh a.
Proof. unfold sinh. rewrite Ropp_involutive. field. Qed.
Lemma Csin_pair a b : Csin (a, b) = (sin a * cosh b, cos a * sinh b).
Proof.
rewrite Csin_sinh. replace (Ci * (a, b))%C with ((- b, a) : C) by ceq. rewrite Csinh_pair, div_Ci. simpl.
rewrite cosh_neg, sinh_neg. ceq.
Qed.
Lemma Ccos_pair a b : Ccos (a, b) = (cos a * cosh b, - sin a * sinh b).
Proof.
rewrite Ccos_cosh. replace (Ci * (a, b))%C with ((- b, a) : C) by ceq. rewrite Ccosh_pair. simpl.
rewrite cosh_neg, sinh_neg. ceq.
Qed.

Lemma csin_val fuel z : exp_low < snd z < exp_high -> turns (fst z) -> (1 <= fuel)%nat -> csin fuel z = Some (CVal (Csin z)).
Proof.
destruct z as [a b]. simpl. intros A B F. unfold csin. destruct fuel as [|f]; [lia|].
destruct (scale_done a f B) as (t & E & _ & S & K). rewrite E. cbn [rdf rd]. cbv zeta.
rewrite sin_reduced, cos_reduced, S, K, cosh_val, sinh_val by exact A. cbn [rd]. now rewrite Csin_pair.
Qed.
Lemma ccos_val fuel z : exp_low < snd z < exp_high -> turns (fst z) -> (1 <= fuel)%nat -> ccos fuel z = Some (CVal (Ccos z)).
Proof.
destruct z as [a b]. simpl. intros A B F. unfold ccos. destruct fuel as [|f]; [lia|].
destruct (scale_done a f B) as (t & E & _ & S & K). rewrite E. cbn [rdf rd]. cbv zeta.
rewrite sin_reduced, cos_reduced, S, K, cosh_val, sinh_val by exact A. cbn [rd]. now rewrite Ccos_pair.
Qed.

Lemma quot_val a b : b <> 0 -> quot a b = Val (a / b).
Proof. intro N. unfold quot. now destruct (Req_EM_T b 0). Qed.

Lemma ctan_val fuel z : exp_low < snd z < exp_high -> turns (fst z) -> (1 <= fuel)%nat -> Ccos z <> RtoC 0 ->
  ctan fuel z = Some (CVal (Csin z / Ccos z)%C).
Proof.
intros A B F N. unfold ctan. rewrite csin_val, ccos_val by assumption. cbn [cd]. apply C_nz in N.
destruct (Csin z) as [sr si], (Ccos z) as [cr ci]. simpl in N. rewrite !quot_val by lra. cbn [rd]. unfold ret. do 2 f_equal.
unfold Cdiv. rewrite inv_pair by lra. apply injective_projections; simpl; field; lra.
Qed.

Lemma ctanh_val fuel z : exp_low < fst z < exp_high -> turns (snd z) -> (1 <= fuel)%nat -> Ccosh z <> RtoC 0 ->
  ctanh fuel z = Some (CVal (Csinh z / Ccosh z)%C).
Proof.
intros A B F N.
assert (Z0 : z = RtoC 0 -> (Csinh z / Ccosh z)%C = RtoC 0).
{ intros ->. unfold Csinh. replace (- RtoC 0)%C with (RtoC 0) by ring. 
  replace ((Cexp 0 - Cexp 0) / 2)%C with (RtoC 0) by cfield. unfold Cdiv. ring. }
unfold ctanh. destruct (Req_EM_T (fst z) 0) as [E1|E1]; [destruct (Req_EM_T (snd z) 0) as [E2|E2]|].
{ rewrite Z0; [reflexivity|]. destruct z. simpl in *. now subst. }
all: rewrite (cexp_val fuel z A B F); cbn [cd]; pose proof (Cexp_nz z) as NE;
  assert (D : (Cexp z * Cexp z + 1)%C <> RtoC 0) by
   (intro E; apply N; unfold Ccosh; rewrite Cexp_opp;
    replace ((Cexp z + / Cexp z) / 2)%C with ((Cexp z * Cexp z + 1) / (2 * Cexp z))%C by (cfield);
    rewrite E; cfield);
  assert (Q : (Csinh z / Ccosh z)%C = ((Cexp z * Cexp z - 1) / (Cexp z * Cexp z + 1))%C) by
   (unfold Csinh, Ccosh; rewrite Cexp_opp; cfield);
  rewrite Q; apply C_nz in D; destruct (Cexp z) as [a b]; simpl in D;
  assert (D' : (a * a - b * b) * (a * a - b * b) + 2 * a * b * (2 * a * b) + 2 * (a * a - b * b) + 1 =
     (a * a - b * b + 1) * (a * a - b * b + 1) + (a * b + b * a + 0) * (a * b + b * a + 0)) by ring;
  cbv zeta; rewrite D', !quot_val by lra; cbn [rd]; unfold ret; do 2 f_equal;
  unfold Cdiv; replace ((a, b) * (a, b) + 1)%C with ((a * a - b * b + 1, a * b + b * a + 0) : C) by ceq;
  rewrite inv_pair by lra; apply injective_projections; simpl; field; lra.
Qed.

(** ** Inverse functions. *)
Lemma sq_decomp (z w c : C) : (w * w)%C = (z * z + c)%C -> ((w + z) * (w - z))%C = c.
Proof. intro E. transitivity (w * w - z * z)%C; [ring|]. rewrite E. ring. Qed.
Lemma C1_nz : RtoC 1 <> RtoC 0.
Proof. intro E. apply RtoC_inj in E. lra. Qed.
Lemma prod_nz (a b : C) : (a * b)%C = RtoC 1 -> a <> RtoC 0.
Proof. intros E ->. apply C1_nz. rewrite <- E. ring. Qed.
Lemma prod_inv (a b : C) : (a * b)%C = RtoC 1 -> (/ a)%C = b.
Proof. intro E. pose proof (prod_nz a b E) as N. transitivity (/ a * (a * b))%C; [rewrite E; ring|field; exact N]. Qed.

Lemma casinh_val z : exists w N, (forall fuel, (N <= fuel)%nat -> casinh fuel z = Some (CVal w)) /\ Csinh w = z.
Proof.
destruct z as [a b]. unfold casinh. destruct (csqrt_pos (a * a - b * b + 1) (2 * a * b)) as (s & -> & S). cbn [cd].
set (z := (a, b) : C). assert (Q : (s * s)%C = (z * z + 1)%C) by (rewrite S; unfold z; ceq).
pose proof (sq_decomp z s _ Q) as U. destruct (clog_val (s + z)%C (prod_nz _ _ U)) as (w & N & L & E & _).
exists w, N. split.
- intros fuel Hf. rewrite <- (L fuel Hf). f_equal. destruct s. unfold z. ceq.
- unfold Csinh. rewrite Cexp_opp, E, (prod_inv _ _ U). cfield.
Qed.

Lemma cacosh_val z : exists w N, (forall fuel, (N <= fuel)%nat -> cacosh fuel z = Some (CVal w)) /\ Ccosh w = z.
Proof.
destruct z as [a b]. unfold cacosh. destruct (csqrt_pos (a + 1) b) as (p & -> & P). destruct (csqrt_pos (a - 1) b) as (q & -> & Q). cbn [cd].
set (z := (a, b) : C). assert (S : ((p * q) * (p * q))%C = (z * z + (- (1)))%C).
{ transitivity ((p * p) * (q * q))%C; [ring|]. rewrite P, Q. unfold z. ceq. }
pose proof (sq_decomp z _ _ S) as U.
assert (U' : ((z + p * q) * (z - p * q))%C = RtoC 1) by (transitivity (- ((p * q + z) * (p * q - z)))%C; [ring|rewrite U; ring]).
destruct (clog_val (z + p * q)%C (prod_nz _ _ U')) as (w & N & L & E & _).
exists w, N. split.
- intros fuel Hf. rewrite <- (L fuel Hf). destruct p, q. f_equal. unfold z. ceq.
- unfold Ccosh. rewrite Cexp_opp, E, (prod_inv _ _ U'). cfield.
Qed.

Lemma casin_val z : exists w N, (forall fuel, (N <= fuel)%nat -> casin fuel z = Some (CVal w)) /\ Csin w = z.
Proof.
destruct z as [a b]. unfold casin. destruct (csqrt_pos (1 - a * a + b * b) (- 2 * a * b)) as (s & -> & S). cbn [cd].
set (z := (a, b) : C). assert (Q : (s * s)%C = ((Ci * z) * (Ci * z) + 1)%C) by (rewrite S; unfold z, Ci; ceq).
pose proof (sq_decomp _ s _ Q) as U.
assert (U' : ((s - Ci * z) * (s + Ci * z))%C = RtoC 1) by (rewrite <- U; ring).
destruct (clog_val (s - Ci * z)%C (prod_nz _ _ U')) as (l & N & L & E & _).
exists (- snd l, fst l), N. split.
- intros fuel Hf. replace ((fst s + b, snd s - a) : C) with (s - Ci * z)%C by (destruct s; unfold z, Ci; ceq).
  rewrite (L fuel Hf). reflexivity.
- assert (I : (Ci * ((- snd l)%R, fst l))%C = (- l)%C) by (destruct l; unfold Ci; ceq).
  unfold Csin. rewrite I. replace (- - l)%C with l by ring. rewrite Cexp_opp, E, (prod_inv _ _ U').
  cfield.
Qed.

Lemma Ccos_shift w : Ccos (RtoC (PI / 2) - w)%C = Csin w.
Proof.
destruct w as [a b]. replace (RtoC (PI / 2) - (a, b))%C with ((PI / 2 - a, - b) : C) by ceq.
rewrite Ccos_pair, Csin_pair, cos_shift, sin_shift, cosh_neg, sinh_neg. ceq.
Qed.

Lemma cacos_val z : exists w N, (forall fuel, (N <= fuel)%nat -> cacos fuel z = Some (CVal w)) /\ Ccos w = z.
Proof.
destruct (casin_val z) as (s & N & L & E). exists (RtoC (PI / 2) - s)%C, N. split; [|now rewrite Ccos_shift].
intros fuel Hf. unfold cacos. rewrite (L fuel Hf). cbn [cd]. unfold ret. do 2 f_equal. destruct s. ceq.
Qed.

Lemma Ctanh_exp w : (Cexp w * Cexp w + 1)%C <> RtoC 0 -> (Csinh w / Ccosh w)%C = ((Cexp w * Cexp w - 1) / (Cexp w * Cexp w + 1))%C /\ Ccosh w <> RtoC 0.
Proof.
intro D. pose proof (Cexp_nz w) as NE. split.
- unfold Csinh, Ccosh. rewrite Cexp_opp. cfield.
- unfold Ccosh. rewrite Cexp_opp. replace ((Cexp w + / Cexp w) / 2)%C with ((Cexp w * Cexp w + 1) / (2 * Cexp w))%C by (cfield).
  unfold Cdiv. intro E. apply D. transitivity ((Cexp w * Cexp w + 1) * / (2 * Cexp w) * (2 * Cexp w))%C; [cfield|].
  rewrite E. ring.
Qed.

Lemma catanh_val z : z <> RtoC 1 -> z <> RtoC (-1) -> exists w N, (forall fuel, (N <= fuel)%nat -> catanh fuel z = Some (CVal w)) /\
  Ccosh w <> RtoC 0 /\ (Csinh w / Ccosh w)%C = z.
Proof.
intros N1 N2.
assert (M1 : (1 - z)%C <> RtoC 0) by (intro E; apply N1; transitivity (1 - (1 - z))%C; [ring|rewrite E; ring]).
assert (M2 : (1 + z)%C <> RtoC 0) by (intro E; apply N2; transitivity ((1 + z) - 1)%C; [ring|rewrite E; ceq]).
assert (MQ : ((1 + z) / (1 - z))%C <> RtoC 0).
{ intro E. apply M2. transitivity ((1 + z) / (1 - z) * (1 - z))%C; [field; exact M1|rewrite E; ring]. }
destruct (clog_val _ MQ) as (l & N & L & E & _). exists (1 / 2 * fst l, 1 / 2 * snd l), N.
pose proof M1 as M1'. apply C_nz in M1'. 
assert (X : exists a b, z = (a, b)) by (destruct z; eauto). destruct X as (a & b & ->). simpl in M1'.
assert (D : 1 - 2 * a + a * a + b * b = (1 + - a) * (1 + - a) + (0 + - b) * (0 + - b)) by ring.
split.
- intros fuel Hf. unfold catanh. cbv zeta. rewrite D, !quot_val by lra. cbn [rd].
  replace (((1 - a * a - b * b) / ((1 + - a) * (1 + - a) + (0 + - b) * (0 + - b)), 2 * b / ((1 + - a) * (1 + - a) + (0 + - b) * (0 + - b))) : C)
    with ((1 + (a, b)) / (1 - (a, b)))%C.
  { rewrite (L fuel Hf). reflexivity. }
  unfold Cdiv. replace (1 - (a, b))%C with ((1 + - a, 0 + - b) : C) by ceq. rewrite inv_pair by lra.
  apply injective_projections; simpl; field; lra.
- set (w := (1 / 2 * fst l, 1 / 2 * snd l) : C).
  assert (W : (Cexp w * Cexp w)%C = ((1 + (a, b)) / (1 - (a, b)))%C).
  { rewrite <- Cexp_dbl, <- E. f_equal. unfold w. destruct l. ceq. }
  assert (D2 : (Cexp w * Cexp w + 1)%C <> RtoC 0).
  { rewrite W. replace ((1 + (a, b)) / (1 - (a, b)) + 1)%C with (2 / (1 - (a, b)))%C by cfield.
    intro Z. apply two_nz. transitivity (2 / (1 - (a, b)) * (1 - (a, b)))%C; [field; exact M1|rewrite Z; ring]. }
  destruct (Ctanh_exp w D2) as [T NZ]. split; [exact NZ|]. rewrite T, W. 
  field. repeat split; first [exact M1|idtac]. intro Z. apply two_nz. rewrite <- Z. ceq.
Qed.

Lemma catan_val z : z <> Ci -> z <> (- Ci)%C -> exists w N, (forall fuel, (N <= fuel)%nat -> catan fuel z = Some (CVal w)) /\
  Ccos w <> RtoC 0 /\ (Csin w / Ccos w)%C = z.
Proof.
intros N1 N2.
assert (M1 : (1 + Ci * z)%C <> RtoC 0).
{ intro E. apply N1. transitivity (- (Ci * Ci) * z)%C; [rewrite Ci_sq; ring|]. transitivity (Ci * (1 - (1 + Ci * z)))%C; [ring|]. rewrite E. ring. }
assert (M2 : (1 + - (Ci * z))%C <> RtoC 0).
{ intro E. apply N2. transitivity (- (Ci * Ci) * z)%C; [rewrite Ci_sq; ring|]. transitivity (- (Ci * (1 - (1 + - (Ci * z)))))%C; [ring|]. rewrite E. ring. }
destruct (clog1p_val _ M1) as (la & Na & La & Ea & _). destruct (clog1p_val _ M2) as (lb & Nb & Lb & Eb & _).
exists (1 / 2 * (snd la - snd lb), 1 / 2 * (fst lb - fst la)), (max Na Nb). split.
- intros fuel Hf. specialize (La fuel ltac:(lia)). specialize (Lb fuel ltac:(lia)). destruct z as [xr xi].
  replace (Ci * (xr, xi))%C with ((- xi, xr) : C) in La by ceq. replace (- (Ci * (xr, xi)))%C with ((xi, - xr) : C) in Lb by ceq.
  unfold clog1p in La, Lb. unfold catan. cbv zeta.
  destruct (log1p_ fuel (- xi * - xi + 2 * - xi + xr * xr)) as [[la'| | | |]|]; try discriminate. cbn [rdf rd] in *.
  destruct (num_of (atan2_impl (pos xr) (pos (- xi + 1)))) as [ta| | | |]; try discriminate. cbn [rdf rd] in *.
  destruct (log1p_ fuel (xi * xi + 2 * xi + - xr * - xr)) as [[lb'| | | |]|]; try discriminate. cbn [rdf rd] in *.
  destruct (num_of (atan2_impl (pos (- xr)) (pos (xi + 1)))) as [tb| | | |]; try discriminate. cbn [rdf rd] in *.
  unfold ret in *. injection La as <-. injection Lb as <-. simpl. reflexivity.
- set (w := (1 / 2 * (snd la - snd lb), 1 / 2 * (fst lb - fst la)) : C).
  assert (I : (2 * (Ci * w))%C = (la + - lb)%C) by (unfold w, Ci; destruct la, lb; ceq).
  assert (W : (Cexp (Ci * w) * Cexp (Ci * w))%C = ((1 + Ci * z) / (1 + - (Ci * z)))%C).
  { rewrite <- Cexp_dbl, I, Cexp_plus, Cexp_opp, Ea, Eb. reflexivity. }
  assert (D2 : (Cexp (Ci * w) * Cexp (Ci * w) + 1)%C <> RtoC 0).
  { rewrite W. replace ((1 + Ci * z) / (1 + - (Ci * z)) + 1)%C with (2 / (1 + - (Ci * z)))%C by cfield.
    intro Z. apply two_nz. transitivity (2 / (1 + - (Ci * z)) * (1 + - (Ci * z)))%C; [field; exact M2|rewrite Z; ring]. }
  destruct (Ctanh_exp _ D2) as [T NZ]. rewrite Ccos_cosh. split; [exact NZ|]. rewrite Csin_sinh.
  transitivity ((Csinh (Ci * w) / Ccosh (Ci * w)) / Ci)%C; [field; split; [exact NZ|apply Ci_nz]|]. rewrite T, W.
  field. repeat split; first [apply Ci_nz|exact M2|idtac]. intro Z. apply two_nz. rewrite <- Z. destruct z. ceq.
Qed.

(** ** hypot. *)
Lemma fold_plus l : forall s, fold_left Rplus l s = s + fold_right Rplus 0 l.
Proof. induction l as [|a l IH]; intro s; simpl; [ring|]. rewrite IH. ring. Qed.
Definition ssr (m : R) (l : list C) : R := fold_right Rplus 0 (map (fun a : C => fst a / m * (fst a / m) - snd a / m * (snd a / m)) l).
Definition ssi (m : R) (l : list C) : R := fold_right Rplus 0 (map (fun a : C => 2 * (fst a / m) * (snd a / m)) l).
Lemma Csum_sq_cons a l : Csum_sq (a :: l) = (a * a + Csum_sq l)%C.
Proof. reflexivity. Qed.
Lemma Csum_sq_pair m l : m <> 0 -> (RtoC (m * m) * (ssr m l, ssi m l))%C = Csum_sq l.
Proof.
intro N. induction l as [|a l IH]; [unfold ssr, ssi; ceq|]. rewrite Csum_sq_cons, <- IH. unfold ssr, ssi.
apply injective_projections; simpl; field; exact N.
Qed.

Lemma chypot_val l : l <> nil -> exists h, chypot l = Some (CVal h) /\ (h * h)%C = Csum_sq l.
Proof.
intros _. unfold chypot.
destruct (fold_max_ge (map abs_ (map fst l ++ map snd l)) 0) as [A B].
set (m := fold_left Rmax (map abs_ (map fst l ++ map snd l)) 0) in *. cbv zeta. destruct (Req_EM_T m 0) as [Z|N].
- exists (RtoC 0). split; [reflexivity|].
  assert (W : forall x, In x (map fst l ++ map snd l) -> x = 0).
  { intros x H. specialize (B (abs_ x) (in_map abs_ _ _ H)). rewrite abs_val, Z in B. pose proof (Rabs_pos x). apply Rcomplements.Rabs_eq_0. lra. }
  assert (V : forall a : C, In a l -> a = RtoC 0).
  { intros [x y] H. unfold RtoC. f_equal; apply W, in_or_app; [left; apply (in_map fst _ _ H)|right; apply (in_map snd _ _ H)]. }
  clear - V. induction l as [|a l IH]; [cbn [Csum_sq fold_right]; ring|]. rewrite Csum_sq_cons.
  rewrite <- IH by (intros; apply V; now right). rewrite (V a) by now left. ring.
- rewrite !fold_plus, !Rplus_0_l.
  destruct (csqrt_pos (ssr m l) (ssi m l)) as (s & E & S).
  match goal with |- context [csqrt ?a (pos ?b)] => change (csqrt a (pos b)) with (csqrt (ssr m l) (pos (ssi m l))) end. rewrite E. cbn [cd].
  exists (RtoC m * s)%C. split; [unfold ret; do 2 f_equal; destruct s; ceq|].
  rewrite <- (Csum_sq_pair m l N), <- S. replace (RtoC (m * m)) with (RtoC m * RtoC m)%C by ceq. ring.
Qed.

(** ** Powers. *)
Lemma cpow_integral_pos lowest m : (lowest < 0)%Z -> forall z n fuel, z <> RtoC 0 -> (0 <= n < 2 ^ Z.of_nat m)%Z -> (2 * m + 1 <= fuel)%nat ->
  cpow_integral lowest fuel z n = Some (CVal (pow_n z (Z.to_nat n))).
Proof.
intro L. induction m as [|m IH]; intros x n fuel X Hn Hf.
- destruct fuel as [|fuel]; [lia|]. now replace n with 0%Z by (simpl in Hn; lia).
- replace (2 ^ Z.of_nat (S m))%Z with (2 * 2 ^ Z.of_nat m)%Z in Hn by (rewrite Nat2Z.inj_succ, Z.pow_succ_r; lia).
  assert (XE : (if Req_EM_T (fst x) 0 then if Req_EM_T (snd x) 0 then true else false else false) = false).
  { destruct (Req_EM_T (fst x) 0) as [E1|]; [|easy]. destruct (Req_EM_T (snd x) 0) as [E2|]; [|easy].
    exfalso. apply X. destruct x. simpl in *. now subst. }
  assert (EV : forall y f, (0 < y < 2 * 2 ^ Z.of_nat m)%Z -> Z.rem y 2 <> 1%Z -> (2 * m + 2 <= f)%nat ->
    cpow_integral lowest f x y = Some (CVal (pow_n x (Z.to_nat y)))).
  { intros y f Hy Ey Hff. destruct f as [|f]; [lia|]. cbn [cpow_integral]. cbv zeta. rewrite XE.
    destruct (Z.eqb_spec y 0); [lia|]. destruct (Z.ltb_spec y 0); [lia|]. cbn [negb andb].
    destruct (Z.eqb_spec (Z.rem y 2) 1); [easy|]. destruct (Z.eqb_spec y lowest); [lia|].
    pose proof (rem_quot_even y ltac:(lia) Ey) as E.
    rewrite Z.rem_opp_l by lia.
    pose proof (Z.rem_bound_pos y 2 ltac:(lia) ltac:(lia)).
    destruct (Z.eqb_spec (- Z.rem y 2) 1); [lia|].
    rewrite IH; [|exact X|lia|lia]. cbn [cd]. do 2 f_equal.
    replace (Z.to_nat y) with (Z.to_nat (Z.quot y 2) + Z.to_nat (Z.quot y 2))%nat by lia.
    symmetry. apply (pow_n_plus x). }
  destruct fuel as [|fuel]; [lia|].
  destruct (Z.eq_dec n 0) as [->|N0]; [reflexivity|].
  destruct (Z.eq_dec (Z.rem n 2) 1) as [O|O].
  + cbn [cpow_integral]. cbv zeta. rewrite XE. destruct (Z.eqb_spec n 0); [lia|]. destruct (Z.ltb_spec n 0); [lia|]. cbn [negb andb].
    rewrite O. cbn [Z.eqb Pos.eqb].
    assert (E : cpow_integral lowest fuel x (n - 1) = Some (CVal (pow_n x (Z.to_nat (n - 1))))).
    { destruct (Z.eq_dec n 1) as [->|N1]; [destruct fuel; [lia|reflexivity]|].
      pose proof (Z.quot_rem n 2 ltac:(lia)) as Q. apply EV; [lia| |lia].
      replace (n - 1)%Z with (2 * Z.quot n 2)%Z by lia. rewrite Z.mul_comm, Z.rem_mul; lia. }
    rewrite E. cbn [cd]. do 2 f_equal. replace (Z.to_nat n) with (S (Z.to_nat (n - 1))) by lia. reflexivity.
  + apply EV; [lia|exact O|lia].
Qed.
