(** * Properties of the complex functions. *)
From Coq Require Import Reals ZArith List Lra Lia Psatz.
From Flocq Require Import Raux.
From Coquelicot Require Import Coquelicot.
From Verif Require Import MathModel MathSpec MathProofs MathProofs2 MathProofs3 MathProofs4 MathProofs5.
From Verif Require Import CMathModel CMathSpec CMathProofs.
Import ListNotations.
Local Open Scope R_scope.

(** C20: the square root of any complex number squares back to it; its real part is not negative and its imaginary part
    has the sign (bit) of the imaginary part of the argument. *)
Theorem complex_sqrt re im neg : (im < 0 -> neg = true) -> (0 < im -> neg = false) -> exists w : C,
  csqrt re (Fin im neg) = Some (CVal w) /\ (w * w)%C = (re, im) /\ 0 <= fst w /\ (if neg then snd w <= 0 else 0 <= snd w).
Proof. apply csqrt_val. Qed.
Print Assumptions complex_sqrt.
Example complex_sqrt_ex : exists w : C, csqrt (-4) (Fin 0 true) = Some (CVal w) /\ (w * w)%C = (-4, 0) /\ 0 <= fst w /\ snd w <= 0.
Proof. apply (complex_sqrt (-4) 0 true); [easy|lra]. Qed.

(** C83: exponential, hyperbolic and trigonometric functions of a complex number are those defined by the complex
    exponential, away from poles and while the real exponential and the range reduction are defined. *)
Theorem complex_exponentials fuel z : IZR (- 2 ^ 31 + 1) < fst z < IZR (2 ^ 31) ->
  IZR (- 2 ^ 63) <= snd z / (PI * 2) < IZR (2 ^ 63) -> (1 <= fuel)%nat ->
  cexp fuel z = Some (CVal (Cexp z)) /\ cexpm1 fuel z = Some (CVal (Cexp z - 1)%C) /\
  csinh fuel z = Some (CVal (Csinh z)) /\ ccosh fuel z = Some (CVal (Ccosh z)) /\
  (Ccosh z <> RtoC 0 -> ctanh fuel z = Some (CVal (Csinh z / Ccosh z)%C)).
Proof.
intros A B F. split; [now apply cexp_val|]. split; [now apply cexpm1_val|]. split; [now apply csinh_val|].
split; [now apply ccosh_val|]. intro N. now apply ctanh_val.
Qed.
Print Assumptions complex_exponentials.
Lemma range_small x : -10 <= x <= 10 -> IZR (- 2 ^ 31 + 1) < x < IZR (2 ^ 31) /\ IZR (- 2 ^ 63) <= x / (PI * 2) < IZR (2 ^ 63).
Proof.
intro H. assert (100 < IZR (2 ^ 31)) by (apply IZR_lt; lia). assert (IZR (- 2 ^ 31 + 1) < -100) by (apply IZR_lt; lia).
assert (100 < IZR (2 ^ 63)) by (apply IZR_lt; lia). assert (IZR (- 2 ^ 63) < -100) by (apply IZR_lt; lia). split; [lra|].
pose proof PI2_3_2. assert (P : 1 <= PI * 2) by lra.
assert (I : 0 < / (PI * 2) <= 1) by (split; [apply Rinv_0_lt_compat; lra|rewrite <- Rinv_1; apply Rinv_le_contravar; lra]).
unfold Rdiv. split; nra.
Qed.
Example complex_exponentials_ex : csinh 1 (1, -2) = Some (CVal (Csinh (1, -2))).
Proof. apply complex_exponentials; simpl; try (apply range_small; lra). lia. Qed.

Theorem complex_trigonometric fuel z : IZR (- 2 ^ 31 + 1) < snd z < IZR (2 ^ 31) ->
  IZR (- 2 ^ 63) <= fst z / (PI * 2) < IZR (2 ^ 63) -> (1 <= fuel)%nat ->
  csin fuel z = Some (CVal (Csin z)) /\ ccos fuel z = Some (CVal (Ccos z)) /\
  (Ccos z <> RtoC 0 -> ctan fuel z = Some (CVal (Csin z / Ccos z)%C)).
Proof.
intros A B F. split; [now apply csin_val|]. split; [now apply ccos_val|]. intro N. now apply ctan_val.
Qed.
Print Assumptions complex_trigonometric.
Example complex_trigonometric_ex : ccos 1 (-3, 2) = Some (CVal (Ccos (-3, 2))).
Proof. apply complex_trigonometric; simpl; try (apply range_small; lra). lia. Qed.

(** C83: the logarithm is the inverse of the exponential with imaginary part between -pi and pi, for every number but
    zero; log1p likewise. *)
Theorem complex_logarithm z :
  (z <> RtoC 0 -> exists w N, (forall fuel, (N <= fuel)%nat -> clog fuel z = Some (CVal w)) /\ Cexp w = z /\ - PI <= snd w <= PI) /\
  ((1 + z)%C <> RtoC 0 -> exists w N, (forall fuel, (N <= fuel)%nat -> clog1p fuel z = Some (CVal w)) /\
     Cexp w = (1 + z)%C /\ - PI <= snd w <= PI).
Proof. split; [apply clog_val|apply clog1p_val]. Qed.
Print Assumptions complex_logarithm.
Example complex_logarithm_ex : exists w N, (forall fuel, (N <= fuel)%nat -> clog fuel (-1, 0) = Some (CVal w)) /\ Cexp w = (-1, 0) /\ - PI <= snd w <= PI.
Proof. apply complex_logarithm. intro E. injection E. lra. Qed.

(** C83: inverse functions invert: for every complex number outside the poles. *)
Theorem complex_inverses z :
  (exists w N, (forall fuel, (N <= fuel)%nat -> casin fuel z = Some (CVal w)) /\ Csin w = z) /\
  (exists w N, (forall fuel, (N <= fuel)%nat -> cacos fuel z = Some (CVal w)) /\ Ccos w = z) /\
  (exists w N, (forall fuel, (N <= fuel)%nat -> casinh fuel z = Some (CVal w)) /\ Csinh w = z) /\
  (exists w N, (forall fuel, (N <= fuel)%nat -> cacosh fuel z = Some (CVal w)) /\ Ccosh w = z) /\
  (z <> RtoC 1 -> z <> RtoC (-1) -> exists w N, (forall fuel, (N <= fuel)%nat -> catanh fuel z = Some (CVal w)) /\
     Ccosh w <> RtoC 0 /\ (Csinh w / Ccosh w)%C = z) /\
  (z <> Ci -> z <> (- Ci)%C -> exists w N, (forall fuel, (N <= fuel)%nat -> catan fuel z = Some (CVal w)) /\
     Ccos w <> RtoC 0 /\ (Csin w / Ccos w)%C = z).
Proof.
split; [apply casin_val|]. split; [apply cacos_val|]. split; [apply casinh_val|]. split; [apply cacosh_val|].
split; [apply catanh_val|apply catan_val].
Qed.
Print Assumptions complex_inverses.
Example complex_inverses_ex : exists w N, (forall fuel, (N <= fuel)%nat -> casin fuel (2, 0) = Some (CVal w)) /\ Csin w = (2, 0).
Proof. apply complex_inverses. Qed.

(** C83: complex powers. *)
Theorem complex_pow z e : z <> RtoC 0 -> exists l : C, Cexp l = z /\ - PI <= snd l <= PI /\
  (IZR (- 2 ^ 31 + 1) < fst (l * e)%C < IZR (2 ^ 31) -> IZR (- 2 ^ 63) <= snd (l * e)%C / (PI * 2) < IZR (2 ^ 63) ->
   exists N, forall fuel, (N <= fuel)%nat -> cpow fuel z e = Some (CVal (Cexp (l * e)%C))).
Proof.
intro NZ. destruct (clog_val z NZ) as (l & N & L & E & B). exists l. split; [exact E|]. split; [exact B|]. intros R T.
exists (S N). intros fuel F. unfold cpow. rewrite (L fuel) by lia. cbn [cd]. destruct l as [a b], e as [c d].
apply (cexp_val fuel (a * c - b * d, a * d + b * c)); [exact R|exact T|lia].
Qed.
Print Assumptions complex_pow.
Example complex_pow_ex : exists l : C, Cexp l = Ci /\ - PI <= snd l <= PI.
Proof. destruct (complex_pow Ci (RtoC 2)) as (l & E & B & _); [apply Ci_nz|]. exists l. tauto. Qed.

Theorem complex_pow_integer lowest m z n fuel : (lowest < 0)%Z -> z <> RtoC 0 -> (lowest < n)%Z -> (Z.abs n < 2 ^ Z.of_nat m)%Z ->
  (2 * m + 2 <= fuel)%nat -> exists p : C, cpow_integral lowest fuel z n = Some (CVal p) /\
  (if Z.ltb n 0 then (p * pow_n z (Z.to_nat (- n)))%C = RtoC 1 else p = pow_n z (Z.to_nat n)).
Proof.
intros L X Hl Hn Hf. destruct (Z.ltb_spec n 0) as [H|H].
- destruct fuel as [|fuel]; [lia|]. cbn [cpow_integral]. cbv zeta.
  assert (XE : (if Req_EM_T (fst z) 0 then if Req_EM_T (snd z) 0 then true else false else false) = false).
  { destruct (Req_EM_T (fst z) 0) as [E1|]; [|easy]. destruct (Req_EM_T (snd z) 0) as [E2|]; [|easy].
    exfalso. apply X. destruct z. simpl in *. now subst. }
  rewrite XE. destruct (Z.eqb_spec n 0); [lia|]. destruct (Z.ltb_spec n 0); [|lia]. cbn [negb andb].
  destruct (Z.eqb_spec n lowest); [lia|]. rewrite (cpow_integral_pos lowest m L); [|exact X|lia|lia]. cbn [cd].
  eexists. split; [reflexivity|].
  assert (P : forall k, pow_n z k <> RtoC 0).
  { induction k as [|k IH]; [exact C1_nz|]. change (pow_n z (S k)) with (z * pow_n z k)%C. now apply Cmult_neq_0. }
  specialize (P (Z.to_nat (- n))). set (q := pow_n z (Z.to_nat (- n))) in *. change (1 / q * q = 1)%C. field. exact P.
- exists (pow_n z (Z.to_nat n)). split; [|easy]. apply (cpow_integral_pos lowest m L); [exact X|lia|lia].
Qed.
Print Assumptions complex_pow_integer.
Example complex_pow_integer_ex : exists p, cpow_integral int_min 8 Ci (-2) = Some (CVal p) /\ (p * (Ci * (Ci * 1)))%C = RtoC 1.
Proof. apply (complex_pow_integer int_min 2 Ci (-2) 8); try easy; [apply Ci_nz|lia]. Qed.

(** C21: hypot of complex arguments is a square root of the sum of their squares. *)
Theorem complex_hypot l : l <> [] -> exists h, chypot l = Some (CVal h) /\ (h * h)%C = Csum_sq l.
Proof. apply chypot_val. Qed.
Print Assumptions complex_hypot.
Example complex_hypot_ex : exists h, chypot [(3, 1); (0, 4)] = Some (CVal h) /\ (h * h)%C = (-8, 6).
Proof.
destruct (complex_hypot [(3, 1); (0, 4)]) as (h & E & S); [easy|]. exists h. split; [exact E|]. rewrite S. cbn [Csum_sq fold_right]. ceq.
Qed.

(** C84: atan2 of complex arguments has the right tangent whenever x is not zero and y/x is not a pole. *)
Lemma tan_shift w s : (s = PI \/ s = - PI) -> Csin (fst w + s, snd w) = (- Csin w)%C /\ Ccos (fst w + s, snd w) = (- Ccos w)%C.
Proof.
intro H. destruct w as [a b]. simpl. rewrite !Csin_pair, !Ccos_pair.
assert (T : sin (a + s) = - sin a /\ cos (a + s) = - cos a).
{ rewrite sin_plus, cos_plus. destruct H as [-> | ->]; rewrite ?sin_neg, ?cos_neg, sin_PI, cos_PI; split; ring. }
destruct T as [-> ->]. split; ceq.
Qed.
Theorem complex_atan2_tangent_partial (y x : C) : x <> RtoC 0 -> (y / x)%C <> Ci -> (y / x)%C <> (- Ci)%C ->
  exists w N, (forall fuel, (N <= fuel)%nat -> catan2 fuel y x = Some (CVal w)) /\ Ccos w <> RtoC 0 /\ (Csin w / Ccos w)%C = (y / x)%C.
Proof.
intros NX N1 N2. pose proof (proj1 (C_nz x) NX) as PX. destruct y as [yr yi], x as [xr xi]. simpl in PX. unfold catan2.
assert (QX : (if Req_EM_T xr 0 then if Req_EM_T xi 0 then true else false else false) = false).
{ destruct (Req_EM_T xr 0) as [->|]; [|easy]. destruct (Req_EM_T xi 0) as [->|]; [lra|easy]. }
rewrite QX. destruct (Req_EM_T yr 0) as [Er|Er]; [destruct (Req_EM_T yi 0) as [Ei|Ei]|].
1: { assert (Y0 : ((yr, yi) / (xr, xi))%C = RtoC 0) by (subst; replace ((0, 0) : C) with (RtoC 0) by ceq; unfold Cdiv; ring).
     assert (S0 : Csin (0, 0) = RtoC 0 /\ Ccos (0, 0) = RtoC 1).
     { rewrite Csin_pair, Ccos_pair, sin_0, cos_0, sinh_0, cosh_0. split; ceq. }
     destruct S0 as [S0 K0]. rewrite Y0. destruct (gtb 0 xr).
     - exists (PI, 0), O. split; [easy|]. destruct (tan_shift (0, 0) PI) as [S1 K1]; [now left|]. simpl in S1, K1. rewrite Rplus_0_l in S1, K1.
       rewrite S1, K1, S0, K0. split; [|unfold Cdiv; ring].
       intro E. apply C1_nz. transitivity (- - RtoC 1)%C; [ring|]. rewrite E. ring.
     - exists (0, 0), O. split; [easy|]. rewrite S0, K0. split; [apply C1_nz|unfold Cdiv; ring]. }
all: assert (Q : (((yr * xr + yi * xi) / (xr * xr + xi * xi), (yi * xr - yr * xi) / (xr * xr + xi * xi)) : C) = ((yr, yi) / (xr, xi))%C) by
   (unfold Cdiv; rewrite inv_pair by lra; apply injective_projections; simpl; field; lra);
  cbv zeta; rewrite Q; destruct (catan_val _ N1 N2) as (w & N & L & K & T).
all: assert (W : exists w', (forall fuel, (N <= fuel)%nat -> cd (catan fuel ((yr, yi) / (xr, xi))%C) (fun raw : C => let '(raw_r, raw_i) := raw in
      if gtb raw_r PI then ret (raw_r - PI) raw_i else if gtb (- PI) raw_r then ret (raw_r + PI) raw_i else ret raw_r raw_i) = Some (CVal w')) /\
      (w' = w \/ exists s, (s = PI \/ s = - PI) /\ w' = (fst w + s, snd w))) by
   (destruct w as [a b]; destruct (gtb a PI) eqn:G1; [|destruct (gtb (- PI) a) eqn:G2];
    [exists (a - PI, b)|exists (a + PI, b)|exists (a, b)];
    (split; [intros fuel F; rewrite (L fuel F); cbn [cd]; rewrite G1; try rewrite G2; reflexivity|]);
    [right; exists (- PI); split; [now right|reflexivity]|right; exists PI; split; [now left|reflexivity]|now left]).
all: destruct W as (w' & W1 & W2); exists w', N; split; [exact W1|]; destruct W2 as [->|(s & HS & ->)]; [now split|].
all: destruct (tan_shift w s HS) as [-> ->].
all: assert (K' : (- Ccos w)%C <> RtoC 0) by (intro E; apply K; transitivity (- - Ccos w)%C; [ring|rewrite E; ring]).
all: split; [exact K'|]; rewrite <- T; field; first [exact K|split; assumption|now split].
Qed.
Print Assumptions complex_atan2_tangent_partial.
Example complex_atan2_tangent_ex : exists w N, (forall fuel, (N <= fuel)%nat -> catan2 fuel (RtoC 1) (RtoC 2) = Some (CVal w)) /\
  Ccos w <> RtoC 0 /\ (Csin w / Ccos w)%C = (RtoC 1 / RtoC 2)%C.
Proof.
apply complex_atan2_tangent_partial; [apply two_nz| |]; rewrite <- RtoC_div by lra; intro E; injection E; intros; lra.
Qed.

(** C84 is false: for real arguments given as complex numbers, the quadrant is lost. *)
Theorem complex_atan2_quadrant_refuted : exists yr xr, exists w N,
  (forall fuel, (N <= fuel)%nat -> catan2 fuel (RtoC yr) (RtoC xr) = Some (CVal w)) /\ snd w = 0 /\ ~ angle_of xr yr (fst w) /\
  exists t, num_of (atan2_impl (pos yr) (pos xr)) = Val t /\ angle_of xr yr t.
Proof.
exists 1, (-1). destruct (log1p_val 1) as [N L]; [lra|].
assert (V : forall b, num_of (atan2_impl (pos b) (pos 1)) = Val (atan b)).
{ intro b. pose proof (atan2_right b false 1 false ltac:(lra)) as A.
  destruct (atan2_val b false 1 false) as (t & E & _); [left; lra|]. unfold pos. rewrite E in *. simpl in *. rewrite A. do 2 f_equal. field. }
exists (- PI / 4, 0), N. split; [|split; [reflexivity|split]].
- intros fuel F. unfold catan2, RtoC. cbv beta iota zeta. destruct (Req_EM_T (-1) 0); [lra|]. destruct (Req_EM_T 1 0); [lra|].
  replace ((1 * -1 + 0 * 0) / (-1 * -1 + 0 * 0)) with (-1) by field. replace ((0 * -1 - 1 * 0) / (-1 * -1 + 0 * 0)) with 0 by field.
  unfold catan. replace (- 0 * - 0 + 2 * - 0 + -1 * -1) with 1 by ring. replace (0 * 0 + 2 * 0 + - -1 * - -1) with 1 by ring.
  cbv zeta. replace (- 0 * - 0 + 2 * - 0 + -1 * -1) with 1 by ring. rewrite (L fuel F). cbn [rdf rd].
  replace (- 0 + 1) with 1 by ring. replace (0 + 1) with 1 by ring. rewrite V. cbn [rd]. rewrite V. cbn [rd cd ret].
  replace (- -1) with 1 by ring. replace (-1) with (- (1)) by ring. rewrite atan_opp, atan_1.
  replace (1 / 2 * (- (PI / 4) - PI / 4)) with (- PI / 4) by field. pose proof PI_RGT_0.
  rewrite (proj2 (gtb_false (- PI / 4) PI)) by lra. rewrite (proj2 (gtb_false (- PI) (- PI / 4))) by lra.
  unfold ret. do 3 f_equal. ring.
- intros (r & P & X & _). simpl in X. assert (0 < cos (- PI / 4)) by (apply cos_gt_0; pose proof PI_RGT_0; lra). nra.
- destruct (angle_c (-1) 1) as (t & T & A & _); [left; lra|]. exists t. tauto.
Qed.
Print Assumptions complex_atan2_quadrant_refuted.
