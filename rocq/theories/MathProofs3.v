(** * Proofs: exponentials, logarithms, range reduction. *)
From Coq Require Import Reals ZArith List Lra Lia Psatz.
From Flocq Require Import Raux.
From Coquelicot Require Import Coquelicot.
From Verif Require Import MathModel MathProofs MathProofs2.
Local Open Scope R_scope.

(** ** Truncation. *)
Lemma Ztrunc_pos x : 0 <= x -> IZR (Ztrunc x) <= x < IZR (Ztrunc x) + 1 /\ (0 <= Ztrunc x)%Z.
Proof.
intro H. rewrite Ztrunc_floor by exact H. split; [split; [apply Zfloor_lb|apply Zfloor_ub]|].
apply Zfloor_lub. exact H.
Qed.
Lemma Ztrunc_neg x : x <= 0 -> IZR (Ztrunc x) - 1 < x <= IZR (Ztrunc x) /\ (Ztrunc x <= 0)%Z.
Proof.
intro H. assert (E : Ztrunc x = (- Ztrunc (- x))%Z) by (rewrite Ztrunc_opp; lia). rewrite E.
destruct (Ztrunc_pos (- x)) as [P Q]; [lra|]. rewrite opp_IZR. split; [lra|lia].
Qed.

(** ** The integral exponential. *)
Lemma rem_quot_even x : (0 <= x)%Z -> Z.rem x 2 <> 1%Z -> x = (2 * Z.quot x 2)%Z.
Proof.
intros H N. pose proof (Z.quot_rem x 2 ltac:(lia)) as E.
pose proof (Z.rem_bound_pos x 2 H ltac:(lia)). lia.
Qed.

Lemma exp_plus_Z a b : exp (IZR a) * exp (IZR b) = exp (IZR (a + b)).
Proof. now rewrite <- exp_plus, plus_IZR. Qed.

Lemma integral_exp_pos lowest m : (lowest < 0)%Z -> forall x fuel, (0 <= x < 2 ^ Z.of_nat m)%Z -> (2 * m + 1 <= fuel)%nat ->
  integral_exp lowest fuel x = Some (Val (exp (IZR x))).
Proof.
intro L. induction m as [|m IH]; intros x fuel Hx Hf.
- destruct fuel as [|fuel]; [lia|]. replace x with 0%Z by (simpl in Hx; lia). cbn. now rewrite exp_0.
- destruct fuel as [|fuel]; [lia|]. cbn [integral_exp].
  destruct (Z.eqb_spec x 0) as [->|N0]; [now rewrite exp_0|].
  destruct (Z.eqb_spec x 1) as [->|N1]; [easy|].
  destruct (Z.ltb_spec x 0); [lia|].
  replace (2 ^ Z.of_nat (S m))%Z with (2 * 2 ^ Z.of_nat m)%Z in Hx
    by (rewrite Nat2Z.inj_succ, Z.pow_succ_r; lia).
  assert (EV : forall y f, (0 <= y < 2 * 2 ^ Z.of_nat m)%Z -> y <> 0%Z -> y <> 1%Z -> Z.rem y 2 <> 1%Z -> (2 * m + 2 <= f)%nat ->
    integral_exp lowest f y = Some (Val (exp (IZR y)))).
  { intros y f Hy Ny0 Ny1 Ey Hff. destruct f as [|f]; [lia|]. cbn [integral_exp].
    destruct (Z.eqb_spec y 0); [lia|]. destruct (Z.eqb_spec y 1); [lia|]. destruct (Z.ltb_spec y 0); [lia|].
    destruct (Z.eqb_spec (Z.rem y 2) 1); [easy|].
    pose proof (rem_quot_even y ltac:(lia) Ey) as E.
    rewrite IH; [|lia|lia]. cbn [option_map bind]. rewrite exp_plus_Z. do 4 f_equal. lia. }
  destruct (Z.eqb_spec (Z.rem x 2) 1) as [O|O].
  + assert (E : integral_exp lowest fuel (x - 1) = Some (Val (exp (IZR (x - 1))))).
    { pose proof (Z.quot_rem x 2 ltac:(lia)) as Q.
      apply EV; try lia.
      replace (x - 1)%Z with (2 * Z.quot x 2)%Z by lia. rewrite Z.mul_comm, Z.rem_mul; lia. }
    rewrite E. cbn [option_map bind]. change (exp 1) with (exp (IZR 1)). rewrite exp_plus_Z. do 4 f_equal. lia.
  + assert (E : integral_exp lowest (S fuel) x = Some (Val (exp (IZR x)))) by (apply EV; lia || exact O).
    cbn [integral_exp] in E. destruct (Z.eqb_spec x 0); [lia|]. destruct (Z.eqb_spec x 1); [lia|].
    destruct (Z.ltb_spec x 0); [lia|]. destruct (Z.eqb_spec (Z.rem x 2) 1); [easy|]. exact E.
Qed.

Lemma integral_exp_val lowest m x fuel : (lowest < x < 2 ^ Z.of_nat m)%Z -> (- x < 2 ^ Z.of_nat m)%Z -> (lowest < 0)%Z ->
  (2 * m + 2 <= fuel)%nat -> integral_exp lowest fuel x = Some (Val (exp (IZR x))).
Proof.
intros Hx Hn L Hf. destruct (Z.ltb_spec x 0) as [N|N].
- destruct fuel as [|fuel]; [lia|]. cbn [integral_exp].
  destruct (Z.eqb_spec x 0); [lia|]. destruct (Z.eqb_spec x 1); [lia|]. destruct (Z.ltb_spec x 0); [|lia].
  destruct (Z.eqb_spec x lowest); [lia|].
  rewrite (integral_exp_pos lowest m L); [|lia|lia]. cbn [option_map bind].
  rewrite opp_IZR, exp_Ropp. do 2 f_equal. unfold Rdiv. rewrite Rinv_inv. ring.
- apply (integral_exp_pos lowest m L); lia.
Qed.

Lemma exp_int_val x : (int_min < x <= int_max)%Z -> exp_int x = Val (exp (IZR x)).
Proof.
unfold int_min, int_max. intro H. unfold exp_int.
rewrite (integral_exp_val _ 31); [easy| | | |]; change (2 ^ Z.of_nat 31)%Z with (2 ^ 31)%Z; unfold int_min, int_fuel; lia.
Qed.

(** ** exp. *)
Definition exp_low : R := IZR (- 2 ^ 31 + 1).
Definition exp_high : R := IZR (2 ^ 31).

Lemma arg_trunc_val arg k : exp_low < arg < exp_high -> (arg < 0 \/ 1 <= arg) ->
  exists t : Z, arg_trunc arg k = k t /\ (int_min < t <= int_max)%Z.
Proof.
unfold exp_low, exp_high. intros H S. unfold arg_trunc, to_int.
assert (B : (int_min <= Ztrunc arg <= int_max)%Z /\ (arg < 0 -> (int_min + 2 <= Ztrunc arg)%Z)).
{ unfold int_min, int_max. destruct S as [S|S].
  - destruct (Ztrunc_neg arg) as [P Q]; [lra|].
    assert (IZR (- 2 ^ 31 + 1) < IZR (Ztrunc arg)) as I by lra. apply lt_IZR in I. split; [lia|intros _; lia].
  - destruct (Ztrunc_pos arg) as [P Q]; [lra|].
    assert (IZR (Ztrunc arg) < IZR (2 ^ 31)) as I by lra. apply lt_IZR in I. split; [lia|lra]. }
destruct B as [B1 B2].
rewrite (proj2 (Z.leb_le _ _) (proj1 B1)), (proj2 (Z.leb_le _ _) (proj2 B1)). cbn [andb].
destruct (Rlt_dec arg 0) as [N|N].
- specialize (B2 N). exists (Ztrunc arg - 1)%Z. rewrite (proj2 (Z.leb_le _ _)) by lia. split; [easy|]. unfold int_max in *. lia.
- exists (Ztrunc arg - 0)%Z. rewrite (proj2 (Z.leb_le _ _)) by lia. split; [easy|].
  destruct S; [lra|]. destruct (Ztrunc_pos arg) as [P Q]; [lra|]. unfold int_min, int_max in *. lia.
Qed.

Lemma exp_val arg : exp_low < arg < exp_high -> exp_ arg = Val (exp arg).
Proof.
intro H. unfold exp_. destruct (Req_EM_T arg 0) as [->|N0]; [now rewrite exp_0|].
assert (M : (0 < arg < 1 /\ (if Rlt_dec 0 arg then if Rlt_dec arg 1 then true else false else false) = true) \/
  ((arg < 0 \/ 1 <= arg) /\ (if Rlt_dec 0 arg then if Rlt_dec arg 1 then true else false else false) = false)).
{ destruct (Rlt_dec 0 arg); [destruct (Rlt_dec arg 1)|]; [left|right|right]; split; auto; lra. }
destruct M as [[M ->]|[M ->]].
- rewrite exp_impl_val. f_equal. ring.
- match goal with |- arg_trunc arg ?k = _ => destruct (arg_trunc_val arg k H M) as (t & -> & Ht) end.
  rewrite (exp_int_val t Ht). cbn [bind]. rewrite exp_impl_val. f_equal.
  replace (1 + (exp (arg - IZR t) - 1)) with (exp (arg - IZR t)) by ring. rewrite <- exp_plus. f_equal. ring.
Qed.

Lemma expm1_val arg : exp_low < arg < exp_high -> expm1_ arg = Val (exp arg - 1).
Proof.
intro H. unfold expm1_.
assert (M : (0 <= arg < 1 /\ (if Rle_dec 0 arg then if Rlt_dec arg 1 then true else false else false) = true) \/
  ((arg < 0 \/ 1 <= arg) /\ (if Rle_dec 0 arg then if Rlt_dec arg 1 then true else false else false) = false)).
{ destruct (Rle_dec 0 arg); [destruct (Rlt_dec arg 1)|]; [left|right|right]; split; auto; lra. }
destruct M as [[M ->]|[M ->]].
- destruct (Req_EM_T arg 0) as [->|N0]; [rewrite exp_0; f_equal; ring|]. rewrite exp_impl_val. f_equal. ring.
- match goal with |- arg_trunc arg ?k = _ => destruct (arg_trunc_val arg k H M) as (t & -> & Ht) end.
  rewrite (exp_int_val t Ht). cbn [bind]. rewrite exp_impl_val. f_equal.
  replace (exp arg) with (exp (IZR t) * exp (arg - IZR t)); [ring|]. rewrite <- exp_plus. f_equal. ring.
Qed.

(** ** Halley's iteration. *)
Definition hq (d : R) : R := 2 * (1 - exp (- d)) / (1 + exp (- d)).

Lemma hq_upper d : 0 <= d -> hq d <= d.
Proof.
intro H. unfold hq. pose proof (exp_pos (- d)) as P.
apply (Rmult_le_reg_r (1 + exp (- d))); [lra|]. unfold Rdiv. rewrite Rmult_assoc, Rinv_l, Rmult_1_r by lra.
destruct H as [H|<-]; [|rewrite Ropp_0, exp_0; lra].
destruct (MVT_gen (fun t => t * (1 + exp (- t)) - 2 * (1 - exp (- t))) 0 d (fun t => exp (- t) * (exp t - 1 - t))) as (c & B & E).
- intros t _. auto_derive; [easy|]. assert (exp (- t) * exp t = 1) by (rewrite <- exp_plus, Rplus_opp_l, exp_0; easy). nra.
- intros t _. apply continuity_pt_filterlim, (ex_derive_continuous (fun t => t * (1 + exp (- t)) - 2 * (1 - exp (- t)))).
  auto_derive. easy.
- rewrite Rmin_left, Rmax_right in B by lra. cbv beta in E. rewrite Ropp_0, exp_0 in E.
  assert (I : 1 + c <= exp c) by (apply exp_ineq1_le).
  assert (0 <= exp (- c) * (exp c - 1 - c) * (d - 0)).
  { apply Rmult_le_pos; [|lra]. apply Rmult_le_pos; [apply Rlt_le, exp_pos|lra]. }
  lra.
Qed.

Lemma hq_lower d D : 0 <= d <= D -> d * exp (- D) <= hq d.
Proof.
intros [H HD]. unfold hq. pose proof (exp_pos (- d)) as P.
apply (Rmult_le_reg_r (1 + exp (- d))); [lra|]. unfold Rdiv. rewrite (Rmult_assoc (2 * _)), Rinv_l, Rmult_1_r by lra.
assert (A : exp (- D) <= exp (- d)) by (destruct HD as [HD|<-]; [apply Rlt_le, exp_increasing|]; lra).
assert (B : exp (- d) <= 1) by (rewrite <- exp_0; destruct H as [H|<-]; [apply Rlt_le, exp_increasing|rewrite Ropp_0]; lra).
assert (I : 1 + d <= exp d) by apply exp_ineq1_le.
assert (E : exp (- d) * exp d = 1) by (rewrite <- exp_plus, Rplus_opp_l, exp_0; easy).
assert (C : d * exp (- d) <= 1 - exp (- d)) by nra.
pose proof (exp_pos (- D)). assert (d * exp (- D) <= d * exp (- d)) by nra.
assert (0 <= d * exp (- D)) by nra. nra.
Qed.

Lemma hq_odd d : hq (- d) = - hq d.
Proof.
unfold hq. rewrite Ropp_involutive. pose proof (exp_pos d). pose proof (exp_pos (- d)).
assert (E : exp (- d) = / exp d) by apply exp_Ropp. rewrite E. field. split; lra.
Qed.

(** |d| shrinks by a fixed factor and d keeps its sign. *)
Lemma hq_step d D : Rabs d <= D -> exists r, exp (- D) <= r <= 1 /\ hq d = r * d.
Proof.
intro H. destruct (Req_dec d 0) as [->|N].
- exists 1. split; [|unfold hq; rewrite Ropp_0, exp_0; field]. rewrite Rabs_R0 in H. split; [|lra].
  rewrite <- exp_0. destruct H as [H|<-]; [apply Rlt_le, exp_increasing|rewrite Ropp_0]; lra.
- exists (hq d / d). split; [|field; exact N].
  destruct (Rlt_dec 0 d) as [P|P].
  + rewrite Rabs_pos_eq in H by lra. pose proof (hq_lower d D ltac:(lra)). pose proof (hq_upper d ltac:(lra)).
    split; apply (Rmult_le_reg_r d); try lra; unfold Rdiv; rewrite Rmult_assoc, Rinv_l; lra.
  + rewrite Rabs_left in H by lra. pose proof (hq_lower (- d) D ltac:(lra)). pose proof (hq_upper (- d) ltac:(lra)).
    rewrite hq_odd in *. split; apply (Rmult_le_reg_r (- d)); try lra; unfold Rdiv;
    rewrite Rmult_assoc; replace (/ d * - d) with (-1) by (field; exact N); lra.
Qed.

Section Halley.
Variable x : R.
Hypothesis xpos : 0 < x.
Hypothesis small : Rabs (ln x) < 1024.
Let D := Rabs (ln x).

Lemma halley_step k t : 0 <= t <= 1 -> ln x - halley x k = t * ln x ->
  exists r, exp (- D) <= r <= 1 /\ ln x - halley x (S k) = (t * (1 - r)) * ln x.
Proof.
intros Ht E. cbn [halley]. set (y := halley x k) in *.
assert (Y : Rabs y <= D).
{ replace y with ((1 - t) * ln x) by lra. rewrite Rabs_mult, Rabs_pos_eq by lra. unfold D. pose proof (Rabs_pos (ln x)). nra. }
assert (B : exp_low < y < exp_high).
{ assert (Z : Rabs y < 1024) by (unfold D in Y; lra). apply Rabs_def2 in Z.
  assert (exp_low < -1024) by (apply IZR_lt; lia). assert (1024 < exp_high) by (apply IZR_lt; lia). lra. }
rewrite (exp_val y B). cbn [fin].
assert (DD : Rabs (ln x - y) <= D).
{ rewrite E, Rabs_mult, Rabs_pos_eq by lra. unfold D. pose proof (Rabs_pos (ln x)). nra. }
destruct (hq_step _ _ DD) as (r & Hr & Er). exists r. split; [exact Hr|].
assert (X : exp y = x * exp (- (ln x - y))).
{ rewrite <- (exp_ln x) at 1 by exact xpos. rewrite <- exp_plus. f_equal. ring. }
assert (Q : 2 * (x - exp y) / (x + exp y) = hq (ln x - y)).
{ rewrite X. unfold hq. pose proof (exp_pos (- (ln x - y))). field. split; [lra|]. nra. }
rewrite Q, Er, E. lra.
Qed.

Lemma halley_inv k : exists t, 0 <= t <= (1 - exp (- D)) ^ k /\ ln x - halley x k = t * ln x.
Proof.
assert (EP : 0 < exp (- D) <= 1).
{ split; [apply exp_pos|]. unfold D. rewrite <- exp_0. pose proof (Rabs_pos (ln x)) as P.
  destruct P as [P|<-]; [apply Rlt_le, exp_increasing|rewrite Ropp_0]; lra. }
induction k as [|k (t & Ht & E)].
- exists 1. split; [simpl; lra|]. simpl. ring.
- assert (P : (1 - exp (- D)) ^ k <= 1).
  { apply Rle_trans with (1 ^ k); [apply pow_incr; lra|rewrite pow1; lra]. }
  destruct (halley_step k t ltac:(lra) E) as (r & Hr & Er). exists (t * (1 - r)). split; [|exact Er].
  rewrite <- tech_pow_Rmult. split; [apply Rmult_le_pos; lra|].
  rewrite Rmult_comm. apply Rmult_le_compat; lra.
Qed.

Lemma halley_cv : is_lim_seq (halley x) (ln x).
Proof.
apply lim_abs with (b := fun k => D * (1 - exp (- D)) ^ k).
- intro k. destruct (halley_inv k) as (t & Ht & ->). rewrite Rabs_mult, (Rabs_pos_eq t) by lra.
  rewrite Rmult_comm. apply Rmult_le_compat_l; [apply Rabs_pos|lra].
- replace (Finite 0) with (Rbar_mult D 0) by (simpl; f_equal; ring).
  apply is_lim_seq_scal_l, is_lim_seq_geom.
  assert (EP : 0 < exp (- D) <= 1).
  { split; [apply exp_pos|]. unfold D. rewrite <- exp_0. pose proof (Rabs_pos (ln x)) as P.
    destruct P as [P|<-]; [apply Rlt_le, exp_increasing|rewrite Ropp_0]; lra. }
  rewrite Rabs_pos_eq; lra.
Qed.
End Halley.

Lemma log_impl_val x : / 2 ^ 5 <= x <= 2 ^ 5 -> log_impl x = ln x.
Proof.
intro H. assert (P : 0 < x) by lra. apply lim_eq, halley_cv; [exact P|].
assert (L : ln (2 ^ 5) <= 31).
{ replace (2 ^ 5) with (1 + 31) by ring. rewrite <- (ln_exp 31) at 2. apply Rcomplements.ln_le; [lra|]. apply exp_ineq1_le. }
assert (U : ln x <= 31) by (eapply Rle_trans; [apply Rcomplements.ln_le; [exact P|apply H]|exact L]).
assert (W : - 31 <= ln x).
{ assert (V : ln (/ 2 ^ 5) <= ln x) by (apply Rcomplements.ln_le; lra). rewrite ln_Rinv in V by lra. lra. }
apply Rabs_def1; lra.
Qed.

(** ** Scaling. *)
Lemma gtb_true a b : gtb a b = true <-> b < a.
Proof. unfold gtb. destruct (Rlt_dec b a); split; easy. Qed.
Lemma gtb_false a b : gtb a b = false <-> a <= b.
Proof. unfold gtb. destruct (Rlt_dec b a); split; try easy; lra. Qed.
Lemma geb_true a b : geb a b = true <-> b <= a.
Proof. unfold geb. destruct (Rle_dec b a); split; easy. Qed.
Lemma geb_false a b : geb a b = false <-> a < b.
Proof. unfold geb. destruct (Rle_dec b a); split; try easy; lra. Qed.

Lemma ln_pow2 k : ln (2 ^ k) = INR k * ln 2.
Proof. apply ln_pow. lra. Qed.
Lemma pow2_pos k : 0 < 2 ^ k.
Proof. apply pow_lt. lra. Qed.

Ltac case_gtb := match goal with |- context [gtb ?a ?b] =>
  let H := fresh "G" in destruct (gtb a b) eqn:H; [apply gtb_true in H|apply gtb_false in H] end.

Lemma log_scaling_gt_val n : forall x c fuel, 1 <= x < 2 ^ (4 * S n) -> (S n <= fuel)%nat ->
  exists s c', log_scaling_gt fuel x c = Some (s, c') /\ 1 <= s < 2 ^ 4 /\ ln s + c' = ln x + c.
Proof.
induction n as [|n IH]; intros x c fuel Hx Hf; (destruct fuel as [|fuel]; [lia|]); cbn [log_scaling_gt].
- change (4 * 1)%nat with 4%nat in Hx. case_gtb; [exists x, c; repeat split; lra|lra].
- case_gtb; [exists x, c; repeat split; lra|].
  assert (step : forall k, (4 <= k)%nat -> 2 ^ k <= x -> 1 <= x * / 2 ^ k < 2 ^ (4 * S n)).
  { intros k Hk Hkx. pose proof (pow2_pos k) as P. split.
    - apply (Rmult_le_reg_r (2 ^ k)); [exact P|]. rewrite Rmult_assoc, Rinv_l; lra.
    - apply (Rmult_lt_reg_r (2 ^ k)); [exact P|]. rewrite Rmult_assoc, Rinv_l, Rmult_1_r by lra.
      rewrite <- pow_add. eapply Rlt_le_trans; [apply Hx|]. apply Rle_pow; [lra|lia]. }
  assert (lnE : forall k, ln (x * / 2 ^ k) = ln x - INR k * ln 2).
  { intro k. pose proof (pow2_pos k). rewrite ln_mult, ln_Rinv, ln_pow2; [ring|lra|lra|]. now apply Rinv_0_lt_compat. }
  pose proof (lnE 4%nat) as L4. pose proof (lnE 16%nat) as L16. pose proof (lnE 64%nat) as L64.
  replace (INR 4) with 4 in L4 by (simpl; ring). replace (INR 16) with 16 in L16 by (simpl; ring).
  replace (INR 64) with 64 in L64 by (simpl; ring).
  case_gtb.
  + destruct (IH (x * / 2 ^ 4) (c + 4 * ln 2) fuel) as (s & c' & -> & B & E); [apply step; [lia|exact G]|lia|].
    exists s, c'. repeat split; try tauto. rewrite E, L4. ring.
  + case_gtb.
    * destruct (IH (x * / 2 ^ 16) (c + 16 * ln 2) fuel) as (s & c' & -> & B & E); [apply step; [lia|exact G0]|lia|].
      exists s, c'. repeat split; try tauto. rewrite E, L16. ring.
    * destruct (IH (x * / 2 ^ 64) (c + 64 * ln 2) fuel) as (s & c' & -> & B & E); [apply step; [lia|exact G1]|lia|].
      exists s, c'. repeat split; try tauto. rewrite E, L64. ring.
Qed.

Lemma log_scaling_lt_val n : forall x c fuel, / 2 ^ (4 * S n) < x < 17 -> (S n <= fuel)%nat ->
  exists s c', log_scaling_lt fuel x c = Some (s, c') /\ (/ 2 ^ 4 < s < 17 /\ (x < 16 -> s < 16)) /\ ln s + c' = ln x + c.
Proof.
induction n as [|n IH]; intros x c fuel Hx Hf; (destruct fuel as [|fuel]; [lia|]); cbn [log_scaling_lt].
- change (4 * 1)%nat with 4%nat in Hx. case_gtb; [exists x, c; repeat split; lra|lra].
- assert (X0 : 0 < x) by (pose proof (Rinv_0_lt_compat _ (pow2_pos (4 * S (S n)))); lra).
  case_gtb; [exists x, c; repeat split; lra|].
  assert (step : forall k, (4 <= k)%nat -> x <= / 2 ^ k -> / 2 ^ (4 * S n) < x * 2 ^ k <= 1).
  { intros k Hk Hkx. pose proof (pow2_pos k) as P. split.
    - apply (Rmult_lt_reg_r (/ 2 ^ k)); [now apply Rinv_0_lt_compat|]. rewrite Rmult_assoc, Rinv_r, Rmult_1_r by lra.
      eapply Rle_lt_trans; [|apply Hx]. rewrite <- Rinv_mult. rewrite <- pow_add.
      apply Rinv_le_contravar; [apply pow2_pos|]. apply Rle_pow; [lra|lia].
    - replace 1 with (/ 2 ^ k * 2 ^ k) by (apply Rinv_l; lra). apply Rmult_le_compat_r; lra. }
  assert (lnE : forall k, ln (x * 2 ^ k) = ln x + INR k * ln 2).
  { intro k. pose proof (pow2_pos k). rewrite ln_mult, ln_pow2; [ring|lra|lra]. }
  pose proof (lnE 4%nat) as L4. pose proof (lnE 16%nat) as L16. pose proof (lnE 64%nat) as L64.
  replace (INR 4) with 4 in L4 by (simpl; ring). replace (INR 16) with 16 in L16 by (simpl; ring).
  replace (INR 64) with 64 in L64 by (simpl; ring).
  case_gtb.
  + pose proof (step 4%nat ltac:(lia) G). destruct (IH (x * 2 ^ 4) (c - 4 * ln 2) fuel) as (s & c' & -> & (B & B2) & E); [lra|lia|].
    exists s, c'. repeat split; try tauto; [intros _; apply B2; lra|]. rewrite E, L4. ring.
  + case_gtb.
    * pose proof (step 16%nat ltac:(lia) G0). destruct (IH (x * 2 ^ 16) (c - 16 * ln 2) fuel) as (s & c' & -> & (B & B2) & E); [lra|lia|].
      exists s, c'. repeat split; try tauto; [intros _; apply B2; lra|]. rewrite E, L16. ring.
    * pose proof (step 64%nat ltac:(lia) G1). destruct (IH (x * 2 ^ 64) (c - 64 * ln 2) fuel) as (s & c' & -> & (B & B2) & E); [lra|lia|].
      exists s, c'. repeat split; try tauto; [intros _; apply B2; lra|]. rewrite E, L64. ring.
Qed.

Lemma pow2_unbounded x : exists n, x < 2 ^ (4 * S n).
Proof.
destruct (Pow_x_infinity 2 ltac:(rewrite Rabs_pos_eq; lra) (Rabs x + 1)) as [N H]. exists N.
specialize (H (4 * S N)%nat ltac:(lia)). rewrite Rabs_pos_eq in H by (apply Rlt_le, pow2_pos).
pose proof (Rle_abs x). lra.
Qed.

Lemma scaled_gt x : 1 <= x -> exists N, forall fuel, (N <= fuel)%nat -> exists s c',
  log_scaling_gt fuel x 0 = Some (s, c') /\ 1 <= s < 2 ^ 4 /\ ln s + c' = ln x.
Proof.
intro H. destruct (pow2_unbounded x) as [n Hn]. exists (S n). intros fuel Hf.
destruct (log_scaling_gt_val n x 0 fuel) as (s & c' & E & B & L); [lra|exact Hf|].
exists s, c'. repeat split; try tauto. lra.
Qed.
Lemma scaled_lt x : 0 < x < 17 -> exists N, forall fuel, (N <= fuel)%nat -> exists s c',
  log_scaling_lt fuel x 0 = Some (s, c') /\ (/ 2 ^ 4 < s < 17 /\ (x < 16 -> s < 16)) /\ ln s + c' = ln x.
Proof.
intro H. destruct (pow2_unbounded (/ x)) as [n Hn]. exists (S n). intros fuel Hf.
destruct (log_scaling_lt_val n x 0 fuel) as (s & c' & E & B & L); [|exact Hf|].
- split; [|lra]. rewrite <- (Rinv_inv x). apply Rinv_lt_contravar; [|exact Hn].
  apply Rmult_lt_0_compat; [apply Rinv_0_lt_compat; lra|apply pow2_pos].
- exists s, c'. repeat split; try tauto. lra.
Qed.

Lemma log_val x : 0 < x -> exists N, forall fuel, (N <= fuel)%nat -> log_ fuel x = Some (Val (ln x)).
Proof.
intro H. unfold log_.
destruct (geb x 16) eqn:G; [apply geb_true in G|apply geb_false in G].
- destruct (scaled_gt x ltac:(lra)) as [N HN]. exists N. intros fuel Hf. destruct (HN fuel Hf) as (s & c' & -> & B & L).
  destruct (Req_EM_T x 1) as [->|]; [now rewrite ln_1|]. destruct (Req_EM_T x 0); [lra|]. destruct (Rlt_dec x 0); [lra|].
  cbn [option_map fst snd]. rewrite log_impl_val by lra. now rewrite L.
- destruct (scaled_lt x ltac:(lra)) as [N HN]. exists N. intros fuel Hf. destruct (HN fuel Hf) as (s & c' & -> & B & L).
  destruct (Req_EM_T x 1) as [->|]; [now rewrite ln_1|]. destruct (Req_EM_T x 0); [lra|]. destruct (Rlt_dec x 0); [lra|].
  cbn [option_map fst snd]. rewrite log_impl_val by lra. now rewrite L.
Qed.

Lemma log1p_val x : -1 < x -> exists N, forall fuel, (N <= fuel)%nat -> log1p_ fuel x = Some (Val (ln (1 + x))).
Proof.
intro H. unfold log1p_.
assert (F : forall s c', / 2 ^ 4 <= s <= 17 -> ln s + c' = ln (x + 1) -> Some (Val (log_impl s + c')) = Some (Val (ln (1 + x)))).
{ intros s c' B L. rewrite log_impl_val by lra. now rewrite L, Rplus_comm. }
destruct (geb x 16) eqn:G; [apply geb_true in G|apply geb_false in G].
- destruct (scaled_gt (x + 1) ltac:(lra)) as [N HN]. exists N. intros fuel Hf. destruct (HN fuel Hf) as (s & c' & -> & B & L).
  destruct (Req_EM_T x 0) as [->|]; [lra|]. destruct (Req_EM_T x (-1)); [lra|]. destruct (Rlt_dec x (-1)); [lra|].
  destruct (gtb x (- / 8) && gtb (/ 8) x)%bool eqn:E; [apply andb_prop in E as [_ E]; apply gtb_true in E; lra|].
  apply (F s c'); [lra|exact L].
- destruct (scaled_lt (x + 1) ltac:(lra)) as [N HN]. exists N. intros fuel Hf. destruct (HN fuel Hf) as (s & c' & -> & [B _] & L).
  destruct (Req_EM_T x 0) as [->|]; [now rewrite Rplus_0_r, ln_1|]. destruct (Req_EM_T x (-1)); [lra|]. destruct (Rlt_dec x (-1)); [lra|].
  destruct (gtb x (- / 8) && gtb (/ 8) x)%bool eqn:E.
  + apply andb_prop in E as [E1 E2]. apply gtb_true in E1. apply gtb_true in E2.
    rewrite log1p_impl_val; [easy|]. apply Rabs_def1; lra.
  + apply (F s c'); [lra|exact L].
Qed.
