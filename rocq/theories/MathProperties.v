(** * Properties of the mathematical functions. *)
From Coq Require Import Reals ZArith List Lra Lia Psatz.
From Flocq Require Import Raux.
From Coquelicot Require Import Coquelicot.
From Verif Require Import MathModel MathSpec MathProofs MathProofs2 MathProofs3 MathProofs4 MathProofs5.
Import ListNotations.
Local Open Scope R_scope.

(** C18: fmod is the C remainder: x minus the truncated multiple of y, smaller than y, with the sign of x; applying it
    again changes nothing. *)
Theorem fmod_remainder x y : y <> 0 -> IZR (- 2 ^ 63) <= x / y < IZR (2 ^ 63) ->
  exists r n, fmod x y = Val r /\ c_remainder x y r n /\ fmod r y = Val r.
Proof.
intros N H. exists (x - IZR (Ztrunc (x / y)) * y), (Ztrunc (x / y)).
pose proof (trunc_remainder x y N) as T. split; [now apply fmod_val|]. split; [exact T|].
destruct T as (_ & B & _). set (r := x - IZR (Ztrunc (x / y)) * y) in *.
assert (Q : Rabs (r / y) < 1).
{ unfold Rdiv. rewrite Rabs_mult, Rabs_inv. apply (Rmult_lt_reg_r (Rabs y)); [now apply Rabs_pos_lt|].
  rewrite Rmult_assoc, Rinv_l by (now apply Rabs_no_R0). lra. }
assert (L : 1 <= IZR (2 ^ 63)) by (apply IZR_le; lia). pose proof Q as Q'. apply Rabs_def2 in Q'.
rewrite fmod_val; [|exact N|rewrite opp_IZR; lra].
replace (Ztrunc (r / y)) with 0%Z; [f_equal; ring|].
symmetry. destruct (Rle_dec 0 (r / y)) as [P|P].
- destruct (Ztrunc_pos (r / y) P) as [[A _] Z]. assert (IZR (Ztrunc (r / y)) < 1) by lra. apply lt_IZR in H0. lia.
- destruct (Ztrunc_neg (r / y)) as [[_ A] Z]; [lra|]. assert (-1 < IZR (Ztrunc (r / y))) by lra. apply lt_IZR in H0. lia.
Qed.
Print Assumptions fmod_remainder.
Example fmod_remainder_ex : exists r n, fmod (-7) 2 = Val r /\ c_remainder (-7) 2 r n /\ fmod r 2 = Val r.
Proof. apply fmod_remainder; [lra|]. rewrite opp_IZR. assert (IZR (2 ^ 63) > 100) by (apply Rlt_gt, IZR_lt; lia). lra. Qed.

(** C18: outside that range it never returns a number: an exception, or undefined behaviour exactly at 2^63. *)
Theorem fmod_out_of_range x y : y <> 0 -> x / y <= IZR (- 2 ^ 63) - 1 \/ IZR (2 ^ 63) <= x / y ->
  fmod x y = (if Req_EM_T (x / y) (IZR (2 ^ 63)) then UB else Thrown).
Proof.
intros N H. assert (L : 1 <= IZR (2 ^ 63)) by (apply IZR_le; lia). rewrite opp_IZR in H.
unfold fmod. destruct (Req_EM_T y 0); [easy|].
destruct (Req_EM_T x 0) as [->|X]; [replace (0 / y) with 0 in H by (unfold Rdiv; ring); lra|]. cbv zeta.
destruct (Rlt_dec (x / y) low) as [A|A]; unfold low in A; rewrite opp_IZR in A.
- destruct (Req_EM_T (x / y) (IZR (2 ^ 63))); [lra|easy].
- destruct (Rlt_dec high (x / y)) as [B|B]; unfold high in B.
  + destruct (Req_EM_T (x / y) (IZR (2 ^ 63))); [lra|easy].
  + assert (E : x / y = IZR (2 ^ 63)) by lra. rewrite E. destruct (Req_EM_T (IZR (2 ^ 63)) (IZR (2 ^ 63))); [|easy].
    unfold to_intmax. rewrite Ztrunc_IZR. reflexivity.
Qed.
Print Assumptions fmod_out_of_range.
Theorem fmod_limit_refuted : fmod (IZR (2 ^ 63)) 1 = UB.
Proof.
rewrite fmod_out_of_range; [|lra|right; lra]. rewrite Rdiv_1. now destruct (Req_EM_T (IZR (2 ^ 63)) (IZR (2 ^ 63))).
Qed.

(** C19: every iterate of the square root's loop but the first is above the root, they never increase, the error is at
    least halved by each, they converge, a fixed point is the root, and a loop that stops returns the root. *)
Theorem sqrt_iterates a : 0 < a ->
  (forall k, sqrt a <= newton a (S k)) /\ (forall k, newton a (S (S k)) <= newton a (S k)) /\
  (forall k, newton a (S (S k)) - sqrt a <= / 2 * (newton a (S k) - sqrt a)) /\
  is_lim_seq (newton a) (sqrt a) /\
  (forall k, newton a (S k) = newton a k -> newton a k = sqrt a) /\
  (forall fuel r, newton_run a fuel (/ 2 * a) 0 = Some r -> r = sqrt a).
Proof.
intro H. split; [apply newton_ge, H|]. split; [apply newton_le, H|]. split; [apply newton_half, H|].
split; [apply newton_cv, H|]. split; [|intros fuel r; now apply newton_loop_sound].
intros k E. exact (newton_fix a H _ (newton_pos a H k) E).
Qed.
Print Assumptions sqrt_iterates.
Example sqrt_iterates_ex : newton_run 4 2 (/ 2 * 4) 0 = Some 2.
Proof.
cbn [newton_run]. destruct (Req_EM_T (/ 2 * 4) 0); [lra|].
destruct (Req_EM_T (/ 2 * (/ 2 * 4 + 4 / (/ 2 * 4))) (/ 2 * 4)) as [_|N]; [f_equal; field|exfalso; apply N; field].
Qed.

(** C19: sqrt as called. *)
Theorem sqrt_correct a : (0 <= a -> exists r, sqrt_ a = Val r /\ 0 <= r /\ r * r = a) /\ (a < 0 -> sqrt_ a = NaN).
Proof.
split; [|apply sqrt_neg]. intro H. exists (sqrt a). split; [now apply sqrt_val|]. split; [apply sqrt_pos|now apply sqrt_sqrt].
Qed.
Print Assumptions sqrt_correct.
Example sqrt_correct_ex : exists r, sqrt_ 2 = Val r /\ 0 <= r /\ r * r = 2.
Proof. apply sqrt_correct. lra. Qed.

(** C21: hypot is the Euclidean norm of any positive number of arguments and bounds each of them. *)
Theorem hypot_norm l : l <> [] -> exists h, hypot l = Val h /\ 0 <= h /\ h * h = sum_sq l /\ (forall a, In a l -> Rabs a <= h).
Proof.
destruct l as [|x l]; [easy|]. intros _. exists (sqrt (sum_sq (x :: l))). rewrite hypot_val. split; [easy|].
pose proof (sum_sq_nonneg (x :: l)) as S. split; [apply sqrt_pos|]. split; [now apply sqrt_sqrt|].
intros a H. rewrite <- sqrt_Rsqr_abs. apply sqrt_le_1_alt. clear S. revert H. generalize (x :: l) as m.
induction m as [|b m IH]; simpl; intro H; [easy|]. unfold Rsqr in *. pose proof (Rle_0_sqr b). unfold Rsqr in *. pose proof (sum_sq_nonneg m).
destruct H as [->|H]; [lra|]. specialize (IH H). lra.
Qed.
Print Assumptions hypot_norm.
Example hypot_ex : exists h, hypot [3; -4; 12] = Val h /\ h * h = 169.
Proof. destruct (hypot_norm [3; -4; 12]) as (h & E & _ & S & _); [easy|]. exists h. split; [exact E|]. rewrite S. simpl. ring. Qed.

(** C21: hypot(c a1 .. c an) = |c| hypot(a1 .. an), and the order of the arguments does not matter. *)
Theorem hypot_scales c l h : l <> [] -> hypot l = Val h -> hypot (map (Rmult c) l) = Val (Rabs c * h).
Proof.
destruct l as [|x l]; [easy|]. intros _. rewrite hypot_val. intros [= <-]. cbn [map]. rewrite hypot_val. f_equal.
change (c * x :: map (Rmult c) l) with (map (Rmult c) (x :: l)).
assert (E : forall m, sum_sq (map (Rmult c) m) = c * c * sum_sq m) by (induction m as [|b m IH]; simpl; [ring|rewrite IH; ring]).
rewrite E. rewrite sqrt_mult by (apply Rle_0_sqr || apply sum_sq_nonneg). f_equal. exact (sqrt_Rsqr_abs c).
Qed.
Print Assumptions hypot_scales.
Example hypot_scales_ex : exists h, hypot [3; 4] = Val h /\ hypot [-6; -8] = Val (2 * h).
Proof.
destruct (hypot_norm [3; 4]) as (h & E & _); [easy|]. exists h. split; [exact E|].
replace 2 with (Rabs (-2)) by (rewrite Rabs_left; lra). rewrite <- (hypot_scales (-2) [3; 4] h); [|easy|exact E]. cbn [map].
replace (-2 * 3) with (-6) by ring. replace (-2 * 4) with (-8) by ring. reflexivity.
Qed.

(** C22: an integral power of a non-zero number is the repeated product or its inverse, for every exponent type whose
    least value is [lowest] and every exponent above it, within 2m+2 nested calls for exponents below 2^m. *)
Theorem pow_integer lowest m x n fuel : (lowest < 0)%Z -> x <> 0 -> (lowest < n)%Z -> (Z.abs n < 2 ^ Z.of_nat m)%Z ->
  (2 * m + 2 <= fuel)%nat -> pow_int lowest fuel x n = Some (Val (powerRZ x n)).
Proof.
intros L X Hl Hn Hf. unfold pow_int. destruct (Req_EM_T x 1) as [->|]; [now rewrite powerRZ_R1|].
destruct (Z.eqb_spec n 0) as [->|]; [reflexivity|]. destruct (Z.eqb_spec n lowest); [lia|]. rewrite Bool.andb_false_r.
now apply pow_integral_val with (m := m).
Qed.
Print Assumptions pow_integer.
Example pow_integer_ex : pow_int int_min 10 (-2) (-3) = Some (Val (/ (-2 * (-2 * (-2))))).
Proof. rewrite (pow_integer int_min 2); [|reflexivity|lra|reflexivity|reflexivity|lia]. simpl. do 3 f_equal. ring. Qed.

(** C22: powers of zero. *)
Theorem pow_zero lowest fuel n : (lowest < n)%Z ->
  pow_int lowest (S fuel) 0 n = Some (if Z.eqb n 0 then Val 1 else if Z.ltb 0 n then Val 0 else Infinite false).
Proof.
intro L. unfold pow_int. destruct (Req_EM_T 0 1); [lra|]. destruct (Z.eqb_spec n 0) as [->|N]; [reflexivity|].
destruct (Z.eqb_spec n lowest); [lia|]. rewrite Bool.andb_false_r. cbn [pow_integral].
destruct (Z.eqb_spec n 0); [easy|]. destruct (Req_EM_T 0 0); [|easy]. cbn [negb andb].
destruct (Z.eqb_spec (Z.rem n 2) 1) as [O|O].
- destruct (Z.ltb_spec 0 n); [reflexivity|]. pose proof (Z.rem_nonpos n 2 ltac:(lia) ltac:(lia)). lia.
- destruct (Z.eqb_spec n lowest); [lia|]. destruct (Z.eqb_spec (Z.rem (- n) 2) 1) as [P|P]; [|reflexivity].
  destruct (Z.ltb_spec 0 n); [|reflexivity]. pose proof (Z.rem_nonpos (- n) 2 ltac:(lia) ltac:(lia)). lia.
Qed.
Print Assumptions pow_zero.
Example pow_zero_ex : pow_int int_min 10 0 (-4) = Some (Infinite false) /\ pow_int int_min 10 0 5 = Some (Val 0).
Proof. split; [rewrite (pow_zero int_min 9 (-4))|rewrite (pow_zero int_min 9 5)]; reflexivity. Qed.

(** C22, limit: the least exponent of its type is negated, which is undefined, for every base but one. *)
Theorem pow_lowest_refuted : exists lowest, forall x fuel, x <> 1 -> pow_int lowest fuel x lowest = Some UB.
Proof. exists int_min. intros x fuel X. unfold pow_int. now destruct (Req_EM_T x 1). Qed.
Print Assumptions pow_lowest_refuted.

(** C22: the integer part of exp is e multiplied by itself. *)
Theorem exp_integer n : (int_min < n <= int_max)%Z -> exp_int n = Val (powerRZ (exp 1) n).
Proof.
intro H. rewrite exp_int_val by exact H. f_equal.
assert (P : forall k, exp (INR k) = exp 1 ^ k).
{ induction k as [|k IH]; [exact exp_0|]. rewrite S_INR, exp_plus, IH. simpl. ring. }
destruct n as [|p|p]; simpl.
- exact exp_0.
- rewrite <- P, INR_IPR. reflexivity.
- rewrite <- P, INR_IPR. rewrite <- exp_Ropp. reflexivity.
Qed.
Print Assumptions exp_integer.
Example exp_integer_ex : exp_int (-2) = Val (/ (exp 1 * (exp 1 * 1))).
Proof. now rewrite exp_integer. Qed.

(** C23: the range reduction of sin, cos and tan ends for every real and gives an angle within one turn of zero with the
    same sine and cosine, unless a conversion was undefined; it is defined when the number of turns is below 2^63. *)
Theorem range_reduction theta : exists N, forall fuel, (N <= fuel)%nat -> exists o, scale_periodic fuel theta = Some o /\
  (o = UB \/ exists t, o = Val t /\ - (PI * 2) < t < PI * 2 /\ same_angle t theta) /\
  (IZR (- 2 ^ 63) <= theta / (PI * 2) < IZR (2 ^ 63) -> o <> UB).
Proof.
destruct (scale_total theta) as [N H]. exists (S N). intros fuel F. destruct (H fuel ltac:(lia)) as (o & E & R).
exists o. split; [exact E|]. split; [exact R|]. intros I U. subst o. destruct fuel as [|f]; [lia|].
destruct (scale_done theta f I) as (t & E' & _). congruence.
Qed.
Print Assumptions range_reduction.
Example range_reduction_ex : IZR (- 2 ^ 63) <= (1000 * PI) / (PI * 2) < IZR (2 ^ 63).
Proof.
pose proof PI_RGT_0. replace (1000 * PI / (PI * 2)) with (IZR 500) by (field; lra). split; [apply IZR_le|apply IZR_lt]; lia.
Qed.

(** C23, limit: exactly 2^63 turns pass the range test and the conversion is undefined. *)
Theorem range_reduction_limit_refuted : exists theta, forall fuel, (1 <= fuel)%nat -> scale_periodic fuel theta = Some UB.
Proof.
pose proof pi2_pos as P. exists (IZR (2 ^ 63) * (PI * 2)). intros fuel F. destruct fuel as [|f]; [lia|]. cbn [scale_periodic].
assert (L : 1 <= IZR (2 ^ 63)) by (apply IZR_le; lia).
rewrite (proj2 (gtb_false (PI * 2) (IZR (2 ^ 63) * (PI * 2)))) by nra. rewrite Bool.andb_false_r.
replace (IZR (2 ^ 63) * (PI * 2) / (PI * 2)) with (IZR (2 ^ 63)) by (field; lra).
rewrite (proj2 (geb_true (IZR (2 ^ 63)) low)) by (unfold low; rewrite opp_IZR; lra).
rewrite (proj2 (geb_true high (IZR (2 ^ 63)))) by (unfold high; lra). cbn [andb]. unfold to_intmax. rewrite Ztrunc_IZR. reflexivity.
Qed.
Print Assumptions range_reduction_limit_refuted.

(** C23: sine, cosine and tangent as called. *)
Theorem sin_cos_tan theta fuel : IZR (- 2 ^ 63) <= theta / (PI * 2) < IZR (2 ^ 63) -> (1 <= fuel)%nat ->
  sin_ fuel theta = Some (Val (sin theta)) /\ cos_ fuel theta = Some (Val (cos theta)) /\
  (cos theta <> 0 -> tan_ fuel theta = Some (Val (tan theta))).
Proof.
intros H F. split; [now apply sin_in_range|]. split; [now apply cos_in_range|]. intro. now apply tan_in_range.
Qed.
Print Assumptions sin_cos_tan.
Example sin_cos_tan_ex : cos_ 1 (1000 * PI) = Some (Val 1).
Proof.
destruct (sin_cos_tan (1000 * PI) 1 range_reduction_ex (le_n _)) as (_ & -> & _). do 2 f_equal.
replace (1000 * PI) with (0 - IZR (-500) * (PI * 2)) by ring. rewrite cos_turn. apply cos_0.
Qed.

(** C24: arcsine, arccosine and arctangent are exact on their whole domain and not-a-number outside it. *)
Theorem inverse_trig x :
  (-1 <= x <= 1 -> exists s c, asin_ x = Val s /\ acos_ x = Val c /\
     sin s = x /\ - (PI / 2) <= s <= PI / 2 /\ cos c = x /\ 0 <= c <= PI) /\
  (x < -1 \/ 1 < x -> asin_ x = NaN /\ acos_ x = NaN) /\
  (exists t, atan_ x = Val t /\ tan t = x /\ - (PI / 2) < t < PI / 2).
Proof.
split; [|split].
- intro H. exists (asin x), (acos x). rewrite asin_val, acos_val by exact H. repeat split; try apply asin_bound; try apply acos_bound.
  + now apply sin_asin.
  + now apply cos_acos.
- intro H. split; [now apply asin_nan|]. unfold acos_. destruct (Req_EM_T x 1); [lra|]. now rewrite asin_nan.
- exists (atan x). rewrite atan_val. split; [easy|]. split; [apply tan_atan|]. pose proof (atan_bound x). lra.
Qed.
Print Assumptions inverse_trig.
Example inverse_trig_ex : exists s, asin_ (9 / 10) = Val s /\ sin s = 9 / 10.
Proof. destruct (inverse_trig (9 / 10)) as [H _]. destruct H as (s & c & A & _ & B & _); [lra|]. exists s. tauto. Qed.

(** C24: atan2(y, x) is the angle of (x, y) between -pi and pi, with the sign (bit) of y, in every quadrant and on the axes. *)
Theorem atan2_angle b nb a na : a <> 0 \/ b <> 0 -> exists t,
  atan2_impl (Fin b nb) (Fin a na) = Signed t (signbit (Fin b nb)) /\ angle_of a b t /\ - PI <= t <= PI /\
  (signbit (Fin b nb) = false -> 0 <= t) /\ (signbit (Fin b nb) = true -> t <= 0).
Proof. apply atan2_val. Qed.
Print Assumptions atan2_angle.
Example atan2_angle_ex : atan2_impl (Fin 0 true) (Fin (-3) true) = Signed (- PI) true.
Proof.
unfold atan2_impl, gtb, copysign, signbit.
destruct (Rlt_dec 0 (-3)); [lra|]. destruct (Rlt_dec (-3) 0); [|lra]. destruct (Rlt_dec 0 0); [lra|]. reflexivity.
Qed.

(** C24: atan2 at the origin depends on the signs of the zeros. *)
Theorem atan2_origin nb na : atan2_impl (Fin 0 nb) (Fin 0 na) =
  Signed (if na then (if nb then - PI else PI) else (if nb then - 0 else 0)) nb.
Proof. rewrite atan2_zero. now destruct na, nb. Qed.
Print Assumptions atan2_origin.
Example atan2_origin_ex : atan2_impl (Fin 0 false) (Fin 0 true) = Signed PI false.
Proof. apply atan2_origin. Qed.

(** C24: atan2 with infinite arguments is the limit of its finite values (along the diagonal when both are infinite). *)
Theorem atan2_infinities :
  let at2 y x := value (atan2_impl y x) in
  (forall a na, is_lim (fun b => at2 (Fin b (if Rlt_dec b 0 then true else false)) (Fin a na)) p_infty (at2 (Inf false) (Fin a na))) /\
  (forall a na, is_lim (fun b => at2 (Fin b (if Rlt_dec b 0 then true else false)) (Fin a na)) m_infty (at2 (Inf true) (Fin a na))) /\
  (forall b nb, is_lim (fun a => at2 (Fin b nb) (Fin a (if Rlt_dec a 0 then true else false))) p_infty (at2 (Fin b nb) (Inf false))) /\
  (forall b nb, is_lim (fun a => at2 (Fin b nb) (Fin a (if Rlt_dec a 0 then true else false))) m_infty (at2 (Fin b nb) (Inf true))) /\
  (forall u, 0 < u -> at2 (Fin u false) (Fin u false) = at2 (Inf false) (Inf false) /\
     at2 (Fin u false) (Fin (- u) true) = at2 (Inf false) (Inf true) /\
     at2 (Fin (- u) true) (Fin u false) = at2 (Inf true) (Inf false) /\
     at2 (Fin (- u) true) (Fin (- u) true) = at2 (Inf true) (Inf true)).
Proof.
assert (EP : forall f g (l : Rbar), (forall u, 0 < u -> f u = g u) -> is_lim f p_infty l -> is_lim g p_infty l).
{ intros f g l E. apply is_lim_ext_loc. exists 0. intros u U. now apply E. }
assert (EM : forall f g (l : Rbar), (forall u, u < 0 -> f u = g u) -> is_lim f m_infty l -> is_lim g m_infty l).
{ intros f g l E. apply is_lim_ext_loc. exists 0. intros u U. now apply E. }
intro at2. unfold at2. split; [|split; [|split; [|split]]].
- intros a na. apply (EP (fun b => PI / 2 - atan (a / b))); [intros u U; now rewrite atan2_upper|]. apply lim_shift. now left.
- intros a na. apply (EM (fun b => - PI / 2 - atan (a / b))); [intros u U; now rewrite atan2_lower|]. apply lim_shift. now right.
- intros b nb. apply (EP (fun a => atan (b / a))); [intros u U; now rewrite atan2_right|].
  replace (Finite (value (atan2_impl (Fin b nb) (Inf false)))) with (Finite 0); [apply atan_quot_lim; now left|].
  f_equal. cbn [atan2_impl]. unfold copysign. destruct (signbit _); cbn [value]; lra.
- intros b nb. apply (EM (fun a => atan (b / a) + (if signbit (Fin b nb) then - PI else PI))); [intros u U; now rewrite atan2_left|].
  replace (Finite (value (atan2_impl (Fin b nb) (Inf true)))) with (Finite (if signbit (Fin b nb) then - PI else PI)); [apply lim_shift_plus; now right|].
  f_equal. cbn [atan2_impl]. unfold copysign. now destruct (signbit _).
- intros u U. rewrite !atan2_upper, !atan2_lower by lra. cbn [atan2_impl plain value].
  replace (u / u) with 1 by (field; lra). replace (- u / - u) with 1 by (field; lra).
  replace (- u / u) with (- (1)) by (field; lra). replace (u / - u) with (- (1)) by (field; lra).
  rewrite atan_opp, atan_1. repeat split; field.
Qed.
Print Assumptions atan2_infinities.
Example atan2_infinities_ex : atan2_impl (Inf true) (Inf true) = Signed (- 3 * PI / 4) true.
Proof. cbn [atan2_impl plain]. pose proof PI_RGT_0. destruct (Rlt_dec (- 3 * PI / 4) 0); [easy|lra]. Qed.

(** C25: the scaling used by log ends for every positive real, leaves a number between 1/16 and 16, and the accumulated
    correction makes up for it. *)
Theorem log_scaling x : 0 < x -> exists N, forall fuel, (N <= fuel)%nat -> exists s c,
  (if geb x 16 then log_scaling_gt fuel x 0 else log_scaling_lt fuel x 0) = Some (s, c) /\
  / 16 < s < 16 /\ ln x = ln s + c.
Proof.
intro H. replace (/ 16) with (/ 2 ^ 4) by (f_equal; ring).
destruct (geb x 16) eqn:G; [apply geb_true in G|apply geb_false in G].
- destruct (scaled_gt x ltac:(lra)) as [N HN]. exists N. intros fuel F. destruct (HN fuel F) as (s & c & E & B & L).
  exists s, c. split; [exact E|]. split; [|lra]. assert (/ 2 ^ 4 < 1) by lra. lra.
- destruct (scaled_lt x ltac:(lra)) as [N HN]. exists N. intros fuel F. destruct (HN fuel F) as (s & c & E & B & L).
  exists s, c. split; [exact E|]. split; [|lra]. destruct B as [B1 B2]. specialize (B2 G). lra.
Qed.
Print Assumptions log_scaling.
Example log_scaling_ex : exists N, forall fuel, (N <= fuel)%nat -> exists s c,
  (if geb 1000 16 then log_scaling_gt fuel 1000 0 else log_scaling_lt fuel 1000 0) = Some (s, c) /\ / 16 < s < 16 /\ ln 1000 = ln s + c.
Proof. apply log_scaling. lra. Qed.

(** C25: log and log1p as called. *)
Theorem log_exact x :
  (0 < x -> exists N, forall fuel, (N <= fuel)%nat -> exists l, log_ fuel x = Some (Val l) /\ exp l = x) /\
  (x = 0 -> forall fuel, log_ fuel x = Some (Infinite true)) /\ (x < 0 -> forall fuel, log_ fuel x = Some NaN) /\
  (-1 < x -> exists N, forall fuel, (N <= fuel)%nat -> exists l, log1p_ fuel x = Some (Val l) /\ exp l = 1 + x) /\
  (x = -1 -> forall fuel, log1p_ fuel x = Some (Infinite true)) /\ (x < -1 -> forall fuel, log1p_ fuel x = Some NaN).
Proof.
repeat split.
- intro H. destruct (log_val x H) as [N L]. exists N. intros fuel F. exists (ln x). split; [now apply L|now apply exp_ln].
- intros -> fuel. unfold log_. destruct (Req_EM_T 0 1); [lra|]. now destruct (Req_EM_T 0 0).
- intros H fuel. unfold log_. destruct (Req_EM_T x 1); [lra|]. destruct (Req_EM_T x 0); [lra|]. now destruct (Rlt_dec x 0).
- intro H. destruct (log1p_val x H) as [N L]. exists N. intros fuel F. exists (ln (1 + x)). split; [now apply L|apply exp_ln; lra].
- intros -> fuel. unfold log1p_. destruct (Req_EM_T (-1) 0); [lra|]. now destruct (Req_EM_T (-1) (-1)).
- intros H fuel. unfold log1p_. destruct (Req_EM_T x 0); [lra|]. destruct (Req_EM_T x (-1)); [lra|]. now destruct (Rlt_dec x (-1)).
Qed.
Print Assumptions log_exact.
Example log_exact_ex : exists N, forall fuel, (N <= fuel)%nat -> exists l, log_ fuel (1 / 1000) = Some (Val l) /\ exp l = 1 / 1000.
Proof. apply log_exact. lra. Qed.

(** C80: exp, expm1 and the hyperbolic functions are exact whenever the argument, rounded down, is an int with a
    negation. *)
Theorem exponentials x : IZR (- 2 ^ 31 + 1) < x < IZR (2 ^ 31) ->
  exp_ x = Val (exp x) /\ expm1_ x = Val (exp x - 1) /\ sinh_ x = Val (sinh x) /\ cosh_ x = Val (cosh x) /\ tanh_ x = Val (tanh x).
Proof.
intro H. split; [now apply exp_val|]. split; [now apply expm1_val|]. split; [now apply sinh_val|].
split; [now apply cosh_val|now apply tanh_val].
Qed.
Print Assumptions exponentials.
Example exponentials_ex : exp_ (-3 / 2) = Val (exp (-3 / 2)).
Proof.
apply exponentials. assert (100 < IZR (2 ^ 31)) by (apply IZR_lt; lia). assert (IZR (- 2 ^ 31 + 1) < -100) by (apply IZR_lt; lia). lra.
Qed.

(** C80: inverse hyperbolic functions. *)
Theorem inverse_hyperbolic x :
  (exists y N, sinh y = x /\ forall fuel, (N <= fuel)%nat -> asinh_ fuel x = Some (Val y)) /\
  (1 <= x -> exists y N, 0 <= y /\ cosh y = x /\ forall fuel, (N <= fuel)%nat -> acosh_ fuel x = Some (Val y)) /\
  (x < 1 -> forall fuel, acosh_ fuel x = Some NaN) /\
  (-1 < x < 1 -> exists y N, tanh y = x /\ forall fuel, (N <= fuel)%nat -> atanh_ fuel x = Some (Val y)) /\
  (x < -1 \/ 1 < x -> forall fuel, atanh_ fuel x = Some NaN).
Proof.
split; [|split; [|split; [|split]]].
- destruct (asinh_val x) as (y & S & N & H). exists y, N. tauto.
- intro X. destruct (acosh_val x X) as (y & P & S & N & H). exists y, N. tauto.
- intros X fuel. unfold acosh_. destruct (Req_EM_T x 1); [lra|]. now destruct (Rlt_dec x 1).
- intro X. destruct (atanh_val x X) as (y & S & N & H). exists y, N. tauto.
- intros X fuel. unfold atanh_. destruct (gtb (-1) x) eqn:A; [easy|apply gtb_false in A].
  destruct (gtb x 1) eqn:B; [easy|apply gtb_false in B]. lra.
Qed.
Print Assumptions inverse_hyperbolic.
Example inverse_hyperbolic_ex : exists y N, tanh y = 1 / 2 /\ forall fuel, (N <= fuel)%nat -> atanh_ fuel (1 / 2) = Some (Val y).
Proof. apply inverse_hyperbolic. lra. Qed.

(** C81 is false: exp converts its argument to int, which is undefined for large finite arguments of either sign. *)
Theorem exp_defined_refuted : ~ (forall x, exists y, exp_ x = Val y) /\ exp_ (IZR (10 ^ 10)) = UB /\ exp_ (IZR (- 10 ^ 10)) = UB.
Proof.
assert (P : exp_ (IZR (10 ^ 10)) = UB).
{ unfold exp_. destruct (Req_EM_T (IZR (10 ^ 10)) 0) as [E|_]; [apply eq_IZR in E; lia|].
  destruct (Rlt_dec 0 (IZR (10 ^ 10))); [|exfalso; apply n, IZR_lt; lia].
  destruct (Rlt_dec (IZR (10 ^ 10)) 1) as [E|_]; [apply lt_IZR in E; lia|].
  unfold arg_trunc, to_int. rewrite Ztrunc_IZR. reflexivity. }
split; [intro A; destruct (A (IZR (10 ^ 10))) as [y Y]; congruence|]. split; [exact P|].
unfold exp_. destruct (Req_EM_T (IZR (- 10 ^ 10)) 0) as [E|_]; [apply eq_IZR in E; lia|].
destruct (Rlt_dec 0 (IZR (- 10 ^ 10))) as [E|_]; [apply lt_IZR in E; lia|].
unfold arg_trunc, to_int. rewrite Ztrunc_IZR. reflexivity.
Qed.
Print Assumptions exp_defined_refuted.

(** C82: a positive base raised to any real exponent (while exp is defined). *)
Theorem pow_real x e : 0 < x -> IZR (- 2 ^ 31 + 1) < e * ln x < IZR (2 ^ 31) ->
  exists N, forall fuel, (N <= fuel)%nat -> pow_ fuel x e = Some (Val (Rpower x e)).
Proof. apply pow_val. Qed.
Print Assumptions pow_real.
Example pow_real_ex : exists N, forall fuel, (N <= fuel)%nat -> pow_ fuel 2 (1 / 2) = Some (Val (Rpower 2 (1 / 2))).
Proof.
apply pow_real; [lra|]. assert (100 < IZR (2 ^ 31)) by (apply IZR_lt; lia). assert (IZR (- 2 ^ 31 + 1) < -100) by (apply IZR_lt; lia).
assert (0 < ln 2) by (rewrite <- ln_1; apply ln_increasing; lra). assert (ln 2 < 2) by (apply exp_lt_inv; rewrite exp_ln by lra; pose proof (exp_ineq1 2); lra). lra.
Qed.

(** C82 is false of other bases: an integral exponent and the same number as a floating-point exponent disagree. *)
Theorem pow_agree_refuted :
  (exists x n, forall fuel, pow_ (S fuel) x (IZR n) = Some (Val 0) /\ pow_int int_min (S fuel) x n = Some (Val 1)) /\
  (forall fuel, pow_ fuel (-2) (IZR 2) = Some NaN) /\ pow_int int_min 10 (-2) 2 = Some (Val (-2 * (-2 * 1))).
Proof.
split; [|split].
- exists 0, 0%Z. intro fuel. unfold pow_, pow_int. destruct (Req_EM_T 0 1); [lra|].
  rewrite (proj2 (gtb_false 0 0)) by lra. destruct (Req_EM_T 0 0); [|easy]. now destruct (Rlt_dec 0 0); [lra|].
- intro fuel. unfold pow_. destruct (Req_EM_T (-2) 1); [lra|]. rewrite (proj2 (gtb_false (-2) 0)) by lra.
  now destruct (Req_EM_T (-2) 0); [lra|].
- rewrite (pow_integer int_min 2); [reflexivity|reflexivity|lra|reflexivity|reflexivity|lia].
Qed.
Print Assumptions pow_agree_refuted.
