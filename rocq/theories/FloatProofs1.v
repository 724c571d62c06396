(** Rounding to nearest even in a binary format with subnormal numbers: facts on grids of multiples of a power of two. *)
From Coq Require Import ZArith Reals Lra Lia Bool.
From Flocq Require Import Core Sterbenz.
Local Open Scope R_scope.

Section Fmt.
Variables (emin prec : Z).
Context {Hp : Prec_gt_0 prec}.
Notation fexp := (FLT_exp emin prec).
Notation F := (generic_format radix2 fexp).
Notation rnd := (round radix2 fexp ZnearestE).
Notation bpow := (bpow radix2).

Lemma prec_pos : (0 < prec)%Z. Proof. exact Hp. Qed.

Lemma IZR_pow2 (k : Z) : (0 <= k)%Z -> IZR (2 ^ k) = bpow k.
Proof. intros H. change 2%Z with (radix_val radix2). now apply IZR_Zpower. Qed.

Lemma F_grid (k e : Z) : (emin <= e)%Z -> (Z.abs k <= 2 ^ prec)%Z -> F (IZR k * bpow e).
Proof.
  intros He Hk. pose proof prec_pos.
  destruct (Z.eq_dec (Z.abs k) (2 ^ prec)) as [E|E].
  - assert (G : F (bpow (prec + e))) by (apply generic_format_FLT_bpow; [exact Hp | lia]).
    rewrite bpow_plus, <- IZR_pow2 in G by lia.
    destruct (Z.abs_spec k) as [[_ A]|[_ A]].
    + replace k with (2 ^ prec)%Z by lia. exact G.
    + replace k with (- 2 ^ prec)%Z by lia. rewrite opp_IZR, Ropp_mult_distr_l_reverse. now apply generic_format_opp.
  - apply generic_format_FLT. exists (Float radix2 k e); [reflexivity | simpl; lia | exact He].
Qed.

Lemma F_bpow e : (emin <= e)%Z -> F (bpow e).
Proof. intros. now apply generic_format_FLT_bpow. Qed.

Lemma rnd_F x : F x -> rnd x = x.
Proof. intros. apply round_generic; auto with typeclass_instances. Qed.

Lemma F_rnd x : F (rnd x).
Proof. apply generic_format_round; auto with typeclass_instances. Qed.

Lemma rnd_mono x y : x <= y -> rnd x <= rnd y.
Proof. apply round_le; auto with typeclass_instances. Qed.

Lemma rnd_le x y : F y -> x <= y -> rnd x <= y.
Proof. intros G H. rewrite <- (rnd_F y G). now apply rnd_mono. Qed.

Lemma rnd_ge x y : F y -> y <= x -> y <= rnd x.
Proof. intros G H. rewrite <- (rnd_F y G). now apply rnd_mono. Qed.

Lemma rnd_opp x : rnd (- x) = - rnd x.
Proof. apply round_NE_opp. Qed.

Lemma F_cexp x : F x -> exists k, x = IZR k * bpow (cexp radix2 fexp x).
Proof. intros G. eexists. exact G. Qed.

Lemma bpow_grid (e c : Z) : (e <= c)%Z -> bpow c = IZR (2 ^ (c - e)) * bpow e.
Proof. intros. rewrite IZR_pow2 by lia. rewrite <- bpow_plus. f_equal. lia. Qed.

Lemma cexp_mono x y : x <> 0 -> Rabs x <= Rabs y -> (cexp radix2 fexp x <= cexp radix2 fexp y)%Z.
Proof.
  intros Hx H. unfold cexp, FLT_exp. pose proof (mag_le_abs radix2 x y Hx H). lia.
Qed.

(** A number of the format not smaller than [m] is a multiple of the unit of [m]. *)
Lemma grid_of_ge m x : m <> 0 -> F x -> Rabs m <= Rabs x -> exists k, x = IZR k * bpow (cexp radix2 fexp m).
Proof.
  intros Hm Fx H. destruct (F_cexp x Fx) as [k E].
  pose proof (cexp_mono m x Hm H) as C.
  exists (k * 2 ^ (cexp radix2 fexp x - cexp radix2 fexp m))%Z.
  rewrite mult_IZR, Rmult_assoc, <- bpow_grid by exact C. exact E.
Qed.

Lemma cexp_emin x : (emin <= cexp radix2 fexp x)%Z.
Proof. unfold cexp, FLT_exp. lia. Qed.

(** Rounding a multiple of a unit gives a multiple of this unit. *)
Lemma rnd_grid (k e : Z) : (emin <= e)%Z -> exists k', rnd (IZR k * bpow e) = IZR k' * bpow e.
Proof.
  intros He. set (x := IZR k * bpow e).
  destruct (Z.le_gt_cases e (cexp radix2 fexp x)) as [C|C].
  - unfold round, F2R. simpl. eexists (_ * 2 ^ (cexp radix2 fexp x - e))%Z.
    rewrite mult_IZR, Rmult_assoc, <- bpow_grid by exact C. reflexivity.
  - exists k. apply rnd_F. unfold x.
    destruct (Z.eq_dec k 0) as [->|Hk]. { rewrite Rmult_0_l. apply generic_format_0. }
    change (IZR k * bpow e) with (F2R (Float radix2 k e)). apply generic_format_F2R. intros _.
    change (F2R (Float radix2 k e)) with x. lia.
Qed.

(** An odd multiple of a unit that is in the format has less than [prec] bits. *)
Lemma F_odd (k e : Z) : Z.odd k = true -> F (IZR k * bpow e) -> (Z.abs k < 2 ^ prec)%Z.
Proof.
  intros Ho G. destruct (Z.le_gt_cases (2 ^ prec) (Z.abs k)) as [C|C]; [exfalso | exact C].
  pose proof prec_pos.
  assert (K : (e + 1 <= cexp radix2 fexp (IZR k * bpow e))%Z).
  { unfold cexp, FLT_exp.
    assert (prec + e + 1 <= mag radix2 (IZR k * bpow e))%Z; [| lia].
    apply mag_ge_bpow. replace (prec + e + 1 - 1)%Z with (prec + e)%Z by lia.
    rewrite Rabs_mult, <- abs_IZR, (Rabs_pos_eq (bpow e)) by apply bpow_ge_0.
    rewrite bpow_plus. apply Rmult_le_compat_r; [apply bpow_ge_0 |].
    rewrite <- IZR_pow2 by lia. now apply IZR_le. }
  destruct (F_cexp _ G) as [q E].
  set (c := cexp radix2 fexp (IZR k * bpow e)) in *.
  rewrite (bpow_grid e c) in E by lia. rewrite <- Rmult_assoc, <- mult_IZR in E.
  apply Rmult_eq_reg_r in E; [| apply Rgt_not_eq, bpow_gt_0].
  apply eq_IZR in E.
  set (j := (c - e)%Z) in *.
  replace j with (1 + (j - 1))%Z in E by lia. rewrite Z.pow_add_r in E by lia.
  rewrite E in Ho. replace (q * (2 ^ 1 * 2 ^ (j - 1)))%Z with (2 * (q * 2 ^ (j - 1)))%Z in Ho by lia.
  rewrite Z.odd_mul in Ho. discriminate.
Qed.

Lemma rnd_err x (c : Z) : Rabs x < bpow (prec + c) -> (emin <= c)%Z -> Rabs (rnd x - x) <= bpow c / 2.
Proof.
  intros H Hc. eapply Rle_trans; [apply error_le_half_ulp; auto with typeclass_instances |].
  enough (ulp radix2 fexp x <= bpow c) by lra.
  destruct (Req_dec x 0) as [->|Hx].
  - rewrite ulp_FLT_0 by exact Hp. now apply bpow_le.
  - rewrite ulp_neq_0 by exact Hx. apply bpow_le. unfold cexp, FLT_exp.
    assert (mag radix2 x <= prec + c)%Z by (apply mag_le_bpow; assumption). lia.
Qed.

(** Quotients of numbers of the format below one. *)
Lemma quot_lt_1 x y : F x -> F y -> 0 <= x -> x < y -> x / y <= 1 - bpow (- prec).
Proof.
  intros Fx Fy H0 H. pose proof prec_pos.
  assert (Hy : 0 < y) by lra.
  apply Rmult_le_reg_r with y; [exact Hy |].
  unfold Rdiv. rewrite Rmult_assoc, Rinv_l, Rmult_1_r by lra.
  rewrite Rmult_minus_distr_r, Rmult_1_l.
  assert (P : x <= pred radix2 fexp y) by (apply pred_ge_gt; auto with typeclass_instances).
  eapply Rle_trans; [exact P |].
  rewrite pred_eq_pos by lra. unfold pred_pos.
  destruct (Req_bool_spec y (bpow (mag radix2 y - 1))) as [E|E].
  - set (j := (mag radix2 y - 1)%Z) in *. clearbody j. clear P. rewrite E. rewrite <- bpow_plus.
    assert (bpow (- prec + j) <= bpow (fexp j)); [| lra].
    apply bpow_le. unfold FLT_exp. lia.
  - rewrite ulp_neq_0 by lra.
    assert (bpow (- prec) * y <= bpow (cexp radix2 fexp y)); [| lra].
    pose proof (bpow_mag_gt radix2 y) as G. rewrite Rabs_pos_eq in G by lra.
    apply Rle_trans with (bpow (- prec) * bpow (mag radix2 y)).
    + apply Rmult_le_compat_l; [apply bpow_ge_0 | lra].
    + rewrite <- bpow_plus. apply bpow_le. unfold cexp, FLT_exp. lia.
Qed.

Lemma F_pred1 : (emin <= - prec)%Z -> F (1 - bpow (- prec)).
Proof.
  intros H. pose proof prec_pos.
  replace (1 - bpow (- prec)) with (IZR (2 ^ prec - 1) * bpow (- prec)).
  - apply F_grid; [exact H | ]. lia.
  - rewrite minus_IZR, IZR_pow2 by lia. rewrite Rmult_minus_distr_r, <- bpow_plus.
    replace (prec + - prec)%Z with 0%Z by lia. simpl. lra.
Qed.

Lemma F_pred2 : (emin <= - prec)%Z -> F (2 * (1 - bpow (- prec))).
Proof.
  intros H. pose proof prec_pos.
  replace (2 * (1 - bpow (- prec))) with (IZR (2 ^ prec - 1) * bpow (1 - prec)).
  - apply F_grid; lia.
  - rewrite minus_IZR, IZR_pow2 by lia. rewrite Rmult_minus_distr_r, <- bpow_plus.
    replace (prec + (1 - prec))%Z with 1%Z by lia.
    replace (1 - prec)%Z with (1 + - prec)%Z by lia. rewrite bpow_plus. simpl. lra.
Qed.

Lemma rnd_quot_lt_1 x y : (emin <= - prec)%Z -> F x -> F y -> 0 <= x -> x < y -> 0 <= rnd (x / y) < 1.
Proof.
  intros H Fx Fy H0 Hxy. split.
  - apply rnd_ge; [apply generic_format_0 | apply Rmult_le_pos; [exact H0 | left; apply Rinv_0_lt_compat; lra]].
  - eapply Rle_lt_trans; [apply rnd_le; [now apply F_pred1 | now apply quot_lt_1] |].
    pose proof (bpow_gt_0 radix2 (- prec)). lra.
Qed.

Lemma F_double y : F y -> F (2 * y).
Proof.
  intros Fy. destruct (Req_dec y 0) as [->|Hy]. { rewrite Rmult_0_r. apply generic_format_0. }
  apply FLT_format_generic in Fy; [| exact Hp]. destruct Fy as [[m e] E A B]. simpl in A, B.
  apply generic_format_FLT. exists (Float radix2 m (e + 1)); simpl; try lia.
  rewrite E. unfold F2R. simpl. rewrite bpow_plus. simpl. lra.
Qed.

Lemma rnd_quot_lt_2 x y : (emin <= - prec)%Z -> F x -> F y -> y <= x -> 0 < y -> x < 2 * y -> 1 <= rnd (x / y) < 2.
Proof.
  intros H Fx Fy Hyx Hy Hxy. pose proof prec_pos. split.
  - apply rnd_ge; [change 1 with (bpow 0); apply F_bpow; lia |].
    apply Rmult_le_reg_r with y; [exact Hy |]. unfold Rdiv. rewrite Rmult_assoc, Rinv_l; lra.
  - eapply Rle_lt_trans; [apply rnd_le; [now apply F_pred2 |] |].
    + replace (x / y) with (2 * (x / (2 * y))) by (field; lra).
      apply Rmult_le_compat_l; [lra |]. apply quot_lt_1; try lra; [exact Fx | now apply F_double].
    + pose proof (bpow_gt_0 radix2 (- prec)). lra.
Qed.

(** Doubling and rounding commute above the subnormal numbers. *)
Lemma rnd_double x : bpow (emin + prec - 1) <= Rabs x -> rnd (2 * x) = 2 * rnd x.
Proof.
  intros H. assert (Hx : x <> 0).
  { intros ->. rewrite Rabs_R0 in H. pose proof (bpow_gt_0 radix2 (emin + prec - 1)). lra. }
  assert (M : (emin + prec <= mag radix2 x)%Z) by (apply mag_ge_bpow; exact H).
  assert (C : cexp radix2 fexp (2 * x) = (cexp radix2 fexp x + 1)%Z).
  { unfold cexp. replace (2 * x) with (x * bpow 1) by (simpl; lra). rewrite mag_mult_bpow by exact Hx.
    unfold FLT_exp. lia. }
  unfold round, scaled_mantissa, F2R. simpl. rewrite C.
  replace (2 * x * bpow (- (cexp radix2 fexp x + 1))) with (x * bpow (- cexp radix2 fexp x)).
  - rewrite bpow_plus. simpl. lra.
  - replace (- (cexp radix2 fexp x + 1))%Z with (- cexp radix2 fexp x + -1)%Z by lia.
    rewrite bpow_plus. simpl. lra.
Qed.

Lemma mantissa_bound x k : x <> 0 -> x = IZR k * bpow (cexp radix2 fexp x) -> (Z.abs k < 2 ^ prec)%Z.
Proof.
  intros Hx E. apply lt_IZR. pose proof prec_pos. rewrite abs_IZR, IZR_pow2 by lia.
  pose proof (bpow_mag_gt radix2 x) as G.
  rewrite E in G at 1. rewrite Rabs_mult, (Rabs_pos_eq (bpow _)) in G by apply bpow_ge_0.
  set (c := cexp radix2 fexp x) in *.
  assert (bpow (mag radix2 x) <= bpow prec * bpow c).
  { rewrite <- bpow_plus. apply bpow_le. unfold c, cexp, FLT_exp. lia. }
  apply Rmult_lt_reg_r with (bpow c); [apply bpow_gt_0 | lra].
Qed.

(** ** The sums made by the wrapping of [-m, m). *)
Section Sym.
Variables (m : R).
Hypothesis (Fm : F m) (Hm : 0 < m).
Let e := cexp radix2 fexp m.
Let u := bpow e.

Lemma sym_u : 0 < u. Proof. apply bpow_gt_0. Qed.

Lemma sym_A : exists A : Z, m = IZR A * u /\ (0 < A < 2 ^ prec)%Z.
Proof.
  destruct (F_cexp m Fm) as [A E]. exists A. split; [exact E |].
  pose proof (mantissa_bound m A ltac:(lra) E).
  assert (0 < A)%Z; [| lia].
  apply lt_IZR. apply Rmult_lt_reg_r with (bpow (cexp radix2 fexp m)); [apply bpow_gt_0 |]. lra.
Qed.

Lemma sym_emin : (emin <= e)%Z. Proof. apply cexp_emin. Qed.

Lemma ulp_m : ulp radix2 fexp m = u.
Proof. apply ulp_neq_0. lra. Qed.

(** Below the range. *)
Lemma sym_low phi : F phi -> - (3 * m) <= phi -> phi < - m ->
  let d := rnd (phi + m) in
  - (2 * m) <= d < 0 /\ F d /\ Rabs (d - (phi + m)) <= u /\
  (- (2 * m) < d -> let r := rnd (rnd (- m + d) + 2 * m) in
     - m <= r <= m - u /\ Rabs (r - (d + m)) <= 2 * u).
Proof.
  intros Fphi H1 H2 d. pose proof sym_u as Hu. pose proof prec_pos as Hpp.
  destruct sym_A as [A [EA HA]].
  assert (Gphi : exists P, phi = IZR P * u).
  { apply grid_of_ge; [lra | exact Fphi |]. rewrite Rabs_pos_eq, Rabs_left by lra. lra. }
  destruct Gphi as [P EP].
  assert (HP : (P <= - A - 1)%Z).
  { apply Z.lt_le_pred. apply lt_IZR. rewrite opp_IZR. apply Rmult_lt_reg_r with u; [exact Hu |]. lra. }
  assert (ED : exists D, d = IZR D * u).
  { unfold d. rewrite EP, EA, <- Rmult_plus_distr_r, <- plus_IZR. apply rnd_grid, sym_emin. }
  destruct ED as [D ED].
  assert (Dl : - (2 * m) <= d).
  { apply rnd_ge; [apply generic_format_opp, F_double, Fm | lra]. }
  assert (Du : d <= - u).
  { apply rnd_le; [apply generic_format_opp, F_bpow, sym_emin |].
    rewrite EP, EA, <- Rmult_plus_distr_r, <- plus_IZR.
    replace (- u) with (IZR (-1) * u) by lra. apply Rmult_le_compat_r; [lra |]. apply IZR_le. lia. }
  assert (A2 : 2 * m < bpow (prec + (e + 1))).
  { rewrite EA. replace (prec + (e + 1))%Z with (prec + 1 + e)%Z by lia. rewrite bpow_plus, <- Rmult_assoc.
    apply Rmult_lt_compat_r; [exact Hu |]. rewrite <- IZR_pow2 by lia. rewrite <- mult_IZR. apply IZR_lt.
    rewrite Z.pow_add_r by lia. lia. }
  pose proof sym_emin as He.
  assert (Derr : Rabs (d - (phi + m)) <= u).
  { replace u with (bpow (e + 1) / 2) by (rewrite bpow_plus; unfold u; simpl; lra).
    apply rnd_err; [| lia]. rewrite Rabs_left by lra. lra. }
  split; [lra |]. split; [apply F_rnd |]. split; [exact Derr |].
  intros Hd r.
  assert (HD1 : (- (2 * A) < D)%Z).
  { apply lt_IZR. rewrite opp_IZR, mult_IZR. apply Rmult_lt_reg_r with u; [exact Hu |]. rewrite <- ED. rewrite EA in Hd. lra. }
  assert (HD2 : (D <= -1)%Z).
  { apply le_IZR. apply Rmult_le_reg_r with u; [exact Hu |]. rewrite <- ED. lra. }
  set (t := - m + d) in r.
  assert (Et : t = IZR (D - A) * u) by (unfold t; rewrite EA, ED, minus_IZR; lra).
  (* the first sum is not below -3m *)
  assert (Ft : (3 * A - 1 < 2 ^ (prec + 1) \/ - D <= 2 * A - 2)%Z).
  { destruct (Z.eq_dec (- D) (2 * A - 1)) as [E|E]; [left | right; lia].
    assert (Z.abs D < 2 ^ prec)%Z.
    { apply F_odd with e. - rewrite <- Z.odd_opp, E, Z.odd_sub, Z.odd_mul. reflexivity.
      - fold u. rewrite <- ED. apply F_rnd. }
    replace (prec + 1)%Z with (1 + prec)%Z by lia. rewrite Z.pow_add_r by lia.
    assert (2 ^ prec = 2 * 2 ^ (prec - 1))%Z.
    { replace prec with (1 + (prec - 1))%Z at 1 by lia. rewrite Z.pow_add_r by lia. reflexivity. }
    lia. }
  set (s := rnd t) in r.
  assert (Rabs t = IZR (A - D) * u) as At.
  { rewrite Et. rewrite Rabs_left1.
    - replace (A - D)%Z with (- (D - A))%Z by lia. rewrite opp_IZR. lra.
    - replace 0 with (0 * u) by lra. apply Rmult_le_compat_r; [lra |]. apply IZR_le. lia. }
  assert (Serr : Rabs (s - t) <= 2 * u).
  { replace (2 * u) with (bpow (e + 2) / 2) by (rewrite bpow_plus; unfold u; simpl; lra).
    apply rnd_err; [| lia]. rewrite At. replace (prec + (e + 2))%Z with (prec + 2 + e)%Z by lia. rewrite bpow_plus.
    apply Rmult_lt_compat_r; [exact Hu |]. rewrite <- IZR_pow2 by lia. apply IZR_lt. rewrite Z.pow_add_r by lia. lia. }
  assert (Sl : - (3 * m) <= s).
  { destruct Ft as [Ft|Ft].
    - assert (Rabs (s - t) <= u).
      { replace u with (bpow (e + 1) / 2) by (rewrite bpow_plus; unfold u; simpl; lra).
        apply rnd_err; [| lia]. rewrite At. replace (prec + (e + 1))%Z with (prec + 1 + e)%Z by lia. rewrite bpow_plus.
        apply Rmult_lt_compat_r; [exact Hu |]. rewrite <- IZR_pow2 by lia. apply IZR_lt. lia. }
      apply Rabs_le_inv in H.
      assert (- (3 * m) + u <= t).
      { rewrite Et, EA. replace (- (3 * (IZR A * u)) + u) with (IZR (- 3 * A + 1) * u)
          by (rewrite plus_IZR, mult_IZR; lra).
        apply Rmult_le_compat_r; [lra |]. apply IZR_le. lia. }
      lra.
    - apply Rabs_le_inv in Serr.
      assert (- (3 * m) + 2 * u <= t).
      { rewrite Et, EA. replace (- (3 * (IZR A * u)) + 2 * u) with (IZR (- 3 * A + 2) * u)
          by (rewrite plus_IZR, mult_IZR; lra).
        apply Rmult_le_compat_r; [lra |]. apply IZR_le. lia. }
      lra. }
  assert (Su : s <= - (m + u)).
  { apply rnd_le.
    - apply generic_format_opp. replace (m + u) with (IZR (A + 1) * u) by (rewrite plus_IZR; lra).
      apply F_grid; [exact He | lia].
    - rewrite Et, EA. replace (- (IZR A * u + u)) with (IZR (- A - 1) * u) by (rewrite minus_IZR, opp_IZR; lra).
      apply Rmult_le_compat_r; [lra |]. apply IZR_le. lia. }
  assert (ES : exists K, s + 2 * m = IZR K * u).
  { destruct (rnd_grid (D - A) e He) as [K EK]. fold u in EK. rewrite <- Et in EK. exists (K + 2 * A)%Z.
    unfold s. rewrite EK, EA, plus_IZR, mult_IZR. lra. }
  destruct ES as [K EK].
  assert (FK : F (s + 2 * m)).
  { rewrite EK. apply F_grid; [exact He |].
    assert (- A <= K <= A)%Z; [| lia].
    split; apply le_IZR; apply Rmult_le_reg_r with u; try exact Hu; rewrite <- EK, ?opp_IZR; lra. }
  unfold r. rewrite (rnd_F _ FK). split; [lra |].
  replace (s + 2 * m - (d + m)) with (s - t) by (unfold t; lra). exact Serr.
Qed.

(** Above the range. *)
Lemma sym_high phi : F phi -> m <= phi -> phi < 3 * m ->
  let d := rnd (phi + m) in
  2 * m <= d <= 4 * m /\ F d /\ F (d - 2 * m) /\ Rabs (d - (phi + m)) <= 2 * u /\
  (d < 4 * m -> let r := rnd (- m + (d - 2 * m)) in
     r = d - 3 * m /\ - m <= r <= m - u).
Proof.
  intros Fphi H1 H2 d. pose proof sym_u as Hu. pose proof prec_pos as Hpp. pose proof sym_emin as He.
  destruct sym_A as [A [EA HA]].
  assert (Gphi : exists P, phi = IZR P * u).
  { apply grid_of_ge; [lra | exact Fphi |]. rewrite !Rabs_pos_eq by lra. lra. }
  destruct Gphi as [P EP].
  assert (ED : exists D, d = IZR D * u).
  { unfold d. rewrite EP, EA, <- Rmult_plus_distr_r, <- plus_IZR. apply rnd_grid, He. }
  destruct ED as [D ED].
  assert (Dl : 2 * m <= d) by (apply rnd_ge; [apply F_double, Fm | lra]).
  assert (Du : d <= 4 * m).
  { apply rnd_le; [replace (4 * m) with (2 * (2 * m)) by lra; apply F_double, F_double, Fm | lra]. }
  assert (Fd : F d) by apply F_rnd.
  split; [lra |]. split; [exact Fd |]. split.
  { apply sterbenz; auto with typeclass_instances; [apply F_double, Fm | lra]. }
  split.
  { replace (2 * u) with (bpow (e + 2) / 2) by (rewrite bpow_plus; unfold u; simpl; lra).
    apply rnd_err; [| lia]. rewrite Rabs_pos_eq by lra.
    apply Rlt_le_trans with (4 * m); [lra |].
    rewrite EA. replace (prec + (e + 2))%Z with (prec + 2 + e)%Z by lia. rewrite bpow_plus, <- Rmult_assoc.
    apply Rmult_le_compat_r; [left; exact Hu |]. rewrite <- IZR_pow2 by lia. rewrite <- mult_IZR. apply IZR_le.
    rewrite Z.pow_add_r by lia. lia. }
  intros Hd r.
  assert (HD : (2 * A <= D < 4 * A)%Z).
  { split.
    - apply le_IZR. rewrite mult_IZR. apply Rmult_le_reg_r with u; [exact Hu |]. rewrite <- ED. rewrite EA in Dl. lra.
    - apply lt_IZR. rewrite mult_IZR. apply Rmult_lt_reg_r with u; [exact Hu |]. rewrite <- ED. rewrite EA in Hd. lra. }
  assert (E : - m + (d - 2 * m) = IZR (D - 3 * A) * u) by (rewrite minus_IZR, mult_IZR, EA, ED; lra).
  assert (Er : r = IZR (D - 3 * A) * u).
  { unfold r. rewrite E. apply rnd_F, F_grid; [exact He | lia]. }
  split; [rewrite Er, <- E; lra |]. rewrite Er, EA. split.
  - replace (- (IZR A * u)) with (IZR (- A) * u) by (rewrite opp_IZR; lra).
    apply Rmult_le_compat_r; [lra |]. apply IZR_le. lia.
  - replace (IZR A * u - u) with (IZR (A - 1) * u) by (rewrite minus_IZR; lra).
    apply Rmult_le_compat_r; [lra |]. apply IZR_le. lia.
Qed.

(** The single shift made by from_stat_space. *)
Lemma sym_once_low phi : F phi -> - (3 * m) <= phi -> phi < - m ->
  let r := rnd (phi + 2 * m) in - m <= r <= m - u /\ r = phi + 2 * m.
Proof.
  intros Fphi H1 H2 r. pose proof sym_u as Hu. pose proof sym_emin as He.
  destruct sym_A as [A [EA HA]].
  assert (Gphi : exists P, phi = IZR P * u).
  { apply grid_of_ge; [lra | exact Fphi |]. rewrite Rabs_pos_eq, Rabs_left by lra. lra. }
  destruct Gphi as [P EP].
  assert (HP : (- (3 * A) <= P <= - A - 1)%Z).
  { split.
    - apply le_IZR. rewrite opp_IZR, mult_IZR. apply Rmult_le_reg_r with u; [exact Hu |]. rewrite <- EP. rewrite EA in H1. lra.
    - apply Z.lt_le_pred. apply lt_IZR. rewrite opp_IZR. apply Rmult_lt_reg_r with u; [exact Hu |]. lra. }
  assert (E : phi + 2 * m = IZR (P + 2 * A) * u) by (rewrite plus_IZR, mult_IZR, EA, EP; lra).
  assert (Er : r = IZR (P + 2 * A) * u).
  { unfold r. rewrite E. apply rnd_F, F_grid; [exact He | lia]. }
  split; [| rewrite Er, E; reflexivity].
  rewrite Er, EA. split.
  - replace (- (IZR A * u)) with (IZR (- A) * u) by (rewrite opp_IZR; lra).
    apply Rmult_le_compat_r; [lra |]. apply IZR_le. lia.
  - replace (IZR A * u - u) with (IZR (A - 1) * u) by (rewrite minus_IZR; lra).
    apply Rmult_le_compat_r; [lra |]. apply IZR_le. lia.
Qed.

Lemma sym_once_high phi : F phi -> m <= phi -> phi < 3 * m ->
  let r := rnd (phi - 2 * m) in - m <= r <= m - u /\ r = phi - 2 * m.
Proof.
  intros Fphi H1 H2 r. pose proof sym_u as Hu. pose proof sym_emin as He.
  destruct sym_A as [A [EA HA]].
  assert (Gphi : exists P, phi = IZR P * u).
  { apply grid_of_ge; [lra | exact Fphi |]. rewrite !Rabs_pos_eq by lra. lra. }
  destruct Gphi as [P EP].
  assert (HP : (A <= P < 3 * A)%Z).
  { split.
    - apply le_IZR. apply Rmult_le_reg_r with u; [exact Hu |]. rewrite <- EP. rewrite EA in H1. lra.
    - apply lt_IZR. rewrite mult_IZR. apply Rmult_lt_reg_r with u; [exact Hu |]. rewrite <- EP. rewrite EA in H2. lra. }
  assert (E : phi - 2 * m = IZR (P - 2 * A) * u) by (rewrite minus_IZR, mult_IZR, EA, EP; lra).
  assert (Er : r = IZR (P - 2 * A) * u).
  { unfold r. rewrite E. apply rnd_F, F_grid; [exact He | lia]. }
  split; [| rewrite Er, E; reflexivity].
  rewrite Er, EA. split.
  - replace (- (IZR A * u)) with (IZR (- A) * u) by (rewrite opp_IZR; lra).
    apply Rmult_le_compat_r; [lra |]. apply IZR_le. lia.
  - replace (IZR A * u - u) with (IZR (A - 1) * u) by (rewrite minus_IZR; lra).
    apply Rmult_le_compat_r; [lra |]. apply IZR_le. lia.
Qed.

End Sym.
End Fmt.
