(** The square-root loop ends: rounding on the grid of the root, and no cycle of two values. *)
From Coq Require Import ZArith Reals Lra Lia Psatz Bool Znumtheory Zpow_facts.
From Flocq Require Import Core Relative Sterbenz IEEE754.BinarySingleNaN.
From Verif Require Import FloatModel FloatProofs1 FloatProofs2 FloatProofs3 FloatProofs4 FloatProofs5.
Local Open Scope R_scope.

(** ** One round, in units of the gap at the root. *)
Section Grid.
Context {prec emin : Z} {Hp : Prec_gt_0 prec}.
Notation fexp := (FLT_exp emin prec).
Notation F := (generic_format radix2 fexp).
Notation rnd := (round radix2 fexp ZnearestE).
Notation bpow := (bpow radix2).
Variable e : Z.
Hypothesis (Hprec : (6 <= prec)%Z) (He : (emin < e)%Z).
Let G := bpow e.
Let h := (2 ^ (prec - 1))%Z.

Lemma G0 : 0 < G. Proof. apply bpow_gt_0. Qed.
Lemma h32 : (32 <= h)%Z.
Proof. unfold h. change 32%Z with (2 ^ 5)%Z. apply Z.pow_le_mono_r; lia. Qed.
Lemma pow_h : (2 ^ prec = 2 * h)%Z.
Proof. unfold h. replace prec with (1 + (prec - 1))%Z at 1 by lia. rewrite Z.pow_add_r by lia. reflexivity. Qed.
Lemma bpow_h c : bpow (c + prec - 1) = IZR h * bpow c.
Proof. unfold h. rewrite (IZR_pow2 (prec - 1)) by lia. rewrite <- bpow_plus. f_equal; lia. Qed.

(** The rounding in these units. *)
Definition r (z : R) : R := rnd (z * G) / G.
Lemma r_mono x y : x <= y -> r x <= r y.
Proof.
  intros H. unfold r, Rdiv. pose proof G0. apply Rmult_le_compat_r; [left; now apply Rinv_0_lt_compat |].
  apply rnd_mono; [exact Hp |]. apply Rmult_le_compat_r; lra.
Qed.
Definition Fr (x : R) : Prop := F (x * G).
Lemma r_Fr x : Fr x -> r x = x.
Proof. intros H. unfold r. rewrite rnd_F by assumption. pose proof G0. field; lra. Qed.
Lemma Fr_int k : (Z.abs k <= 2 * h)%Z -> Fr (IZR k).
Proof. intros H. unfold Fr, G. apply F_grid; [exact Hp | lia | rewrite pow_h; exact H]. Qed.
Lemma Fr_even k : (Z.abs k <= 2 * h)%Z -> Fr (2 * IZR k).
Proof.
  intros H. unfold Fr, G. replace (2 * IZR k * bpow e) with (IZR k * bpow (e + 1)) by (rewrite bpow_plus; change (bpow 1) with 2; lra).
  apply F_grid; [exact Hp | lia | rewrite pow_h; exact H].
Qed.
Lemma r_le x y : Fr y -> x <= y -> r x <= y.
Proof. intros H L. rewrite <- (r_Fr y H). now apply r_mono. Qed.
Lemma r_ge x y : Fr y -> y <= x -> y <= r x.
Proof. intros H L. rewrite <- (r_Fr y H). now apply r_mono. Qed.

(** Within one binade, with spacing [2^j]. *)
Lemma binade j z : (-1 <= j)%Z -> IZR h * bpow j <= z -> z < 2 * IZR h * bpow j ->
  r z = IZR (ZnearestE (z * bpow (- j))) * bpow j.
Proof.
  intros Hj L U. pose proof G0 as P. unfold r.
  assert (C : cexp radix2 fexp (z * G) = (e + j)%Z).
  { pose proof h32 as H32. apply IZR_le in H32. pose proof (bpow_gt_0 radix2 j).
    assert (Z0 : 0 < z) by (apply Rlt_le_trans with (IZR h * bpow j); [apply Rmult_lt_0_compat; lra | exact L]).
    assert (M : (mag radix2 (z * G) = e + j + prec :> Z)%Z).
    { apply mag_unique. rewrite Rabs_pos_eq by (left; apply Rmult_lt_0_compat; lra). split.
      - rewrite bpow_h, bpow_plus. unfold G. replace (IZR h * (bpow e * bpow j)) with (IZR h * bpow j * bpow e) by ring.
        apply Rmult_le_compat_r; [apply bpow_ge_0 | exact L].
      - replace (e + j + prec)%Z with ((e + j + 1) + prec - 1)%Z by lia. rewrite bpow_h, !bpow_plus. change (bpow 1) with 2. unfold G.
        replace (IZR h * (bpow e * bpow j * 2)) with (2 * IZR h * bpow j * bpow e) by ring.
        apply Rmult_lt_compat_r; [apply bpow_gt_0 | exact U]. }
    unfold cexp, FLT_exp. rewrite M. lia. }
  unfold round, scaled_mantissa, F2R. cbn [Fnum Fexp]. rewrite C.
  replace (z * G * bpow (- (e + j))) with (z * bpow (- j)).
  - rewrite bpow_plus. unfold G. pose proof (bpow_gt_0 radix2 e). field. lra.
  - unfold G. replace (- (e + j))%Z with (- e + - j)%Z by lia. rewrite bpow_plus, (bpow_opp _ e).
    pose proof (bpow_gt_0 radix2 e). field. lra.
Qed.
Lemma binade0 z : IZR h <= z -> z < 2 * IZR h -> r z = IZR (ZnearestE z).
Proof. intros L U. rewrite (binade 0 z) by (change (bpow 0) with 1; try lia; lra). change (bpow (- 0)) with 1. change (bpow 0) with 1. now rewrite !Rmult_1_r. Qed.
Lemma near_le z k : z < IZR k + / 2 -> (ZnearestE z <= k)%Z.
Proof.
  intros H. apply le_IZR. pose proof (Znearest_half (fun t => negb (Z.even t)) z) as N. apply Rabs_le_inv in N.
  assert (L : (ZnearestE z < k + 1)%Z); [| apply IZR_le; lia]. apply lt_IZR. rewrite plus_IZR. lra.
Qed.
Lemma near_ge z k : IZR k - / 2 < z -> (k <= ZnearestE z)%Z.
Proof.
  intros H. pose proof (Znearest_half (fun t => negb (Z.even t)) z) as N. apply Rabs_le_inv in N.
  assert (L : (k - 1 < ZnearestE z)%Z); [| lia]. apply lt_IZR. rewrite minus_IZR. lra.
Qed.

Lemma round_le z k : (h <= k <= 2 * h)%Z -> z < IZR k + / 2 -> r z <= IZR k.
Proof.
  intros K U. pose proof h32 as H32. destruct (Rle_or_lt z (IZR k)) as [C|C]; [apply r_le; [apply Fr_int; lia | exact C] |].
  destruct (Z.eq_dec k (2 * h)) as [E|E].
  - rewrite (binade 1 z).
    + change (bpow (- (1))) with (/ 2). change (bpow 1) with 2. assert (N : (ZnearestE (z * / 2) <= h)%Z).
      { apply near_le. subst k. rewrite mult_IZR in *. lra. }
      apply IZR_le in N. subst k. rewrite mult_IZR. lra.
    + lia.
    + subst k. rewrite mult_IZR in C. change (bpow 1) with 2. lra.
    + subst k. rewrite mult_IZR in U. change (bpow 1) with 2. apply IZR_le in H32. lra.
  - assert (L1 : IZR h <= IZR k) by (apply IZR_le; lia). assert (L2 : IZR (k + 1) <= IZR (2 * h)) by (apply IZR_le; lia).
    rewrite plus_IZR, mult_IZR in L2. rewrite binade0 by lra. apply IZR_le, near_le. exact U.
Qed.
Lemma round_le_top z : z < IZR (2 * h) + 1 -> r z <= IZR (2 * h).
Proof.
  intros U. pose proof h32 as H32. apply IZR_le in H32.
  destruct (Rle_or_lt z (IZR (2 * h))) as [C|C]; [apply r_le; [apply Fr_int; lia | exact C] |].
  rewrite mult_IZR in *. rewrite (binade 1 z); [| lia | change (bpow 1) with 2; lra | change (bpow 1) with 2; lra].
  assert (N : (ZnearestE (z * / 2) <= h)%Z) by (apply near_le; lra).
  apply IZR_le in N. change (bpow 1) with 2. change (bpow (- (1))) with (/ 2). lra.
Qed.
Lemma round_ge z k : (h < k <= 2 * h)%Z -> IZR k - / 2 < z -> IZR k <= r z.
Proof.
  intros K U. destruct (Rle_or_lt (IZR k) z) as [C|C]; [apply r_ge; [apply Fr_int; lia | exact C] |].
  assert (L1 : IZR (h + 1) <= IZR k) by (apply IZR_le; lia). assert (L2 : IZR k <= IZR (2 * h)) by (apply IZR_le; lia).
  rewrite plus_IZR in L1. rewrite mult_IZR in L2. rewrite binade0 by lra. apply IZR_le, near_ge. exact U.
Qed.
Lemma round_ge_low z : IZR h - / 4 < z -> IZR h <= r z.
Proof.
  intros U. pose proof h32 as H32. assert (H32' := IZR_le _ _ H32).
  destruct (Rle_or_lt (IZR h) z) as [C|C]; [apply r_ge; [apply Fr_int; lia | exact C] |].
  rewrite (binade (-1) z); [| lia | change (bpow (-1)) with (/ 2); lra | change (bpow (-1)) with (/ 2); lra].
  assert (N : (2 * h <= ZnearestE (z * 2))%Z) by (apply near_ge; rewrite mult_IZR; lra).
  apply IZR_le in N. rewrite mult_IZR in N. change (bpow (- (-1))) with 2. change (bpow (-1)) with (/ 2). lra.
Qed.
Lemma round_ge2 z k : (h < k <= 2 * h)%Z -> 2 * IZR k - 1 < z -> 2 * IZR k <= r z.
Proof.
  intros K U. destruct (Rle_or_lt (2 * IZR k) z) as [C|C]; [apply r_ge; [apply Fr_even; lia | exact C] |].
  assert (L1 : IZR (h + 1) <= IZR k) by (apply IZR_le; lia). assert (L2 : IZR k <= IZR (2 * h)) by (apply IZR_le; lia).
  rewrite plus_IZR in L1. rewrite mult_IZR in L2.
  rewrite (binade 1 z); [| lia | change (bpow 1) with 2; lra | change (bpow 1) with 2; lra].
  assert (N : (k <= ZnearestE (z * / 2))%Z) by (apply near_ge; lra).
  apply IZR_le in N. change (bpow (- (1))) with (/ 2). change (bpow 1) with 2. lra.
Qed.
Lemma near_tie k : ZnearestE (IZR k + / 2) = if Z.even k then k else (k + 1)%Z.
Proof.
  unfold Znearest. assert (Ef : Zfloor (IZR k + / 2) = k) by (apply Zfloor_imp; rewrite plus_IZR; lra).
  rewrite Ef. rewrite Rcompare_Eq by lra. assert (Ec : Zceil (IZR k + / 2) = (k + 1)%Z).
  { apply Zceil_imp. rewrite plus_IZR, minus_IZR, plus_IZR. lra. }
  rewrite Ec. destruct (Z.even k); reflexivity.
Qed.
Lemma round_tie k : (h <= k < 2 * h)%Z -> r (IZR k + / 2) = if Z.even k then IZR k else IZR (k + 1).
Proof.
  intros K. assert (L1 : IZR h <= IZR k) by (apply IZR_le; lia). assert (L2 : IZR (k + 1) <= IZR (2 * h)) by (apply IZR_le; lia).
  rewrite plus_IZR, mult_IZR in L2. rewrite binade0 by lra. rewrite near_tie. destruct (Z.even k); reflexivity.
Qed.

(** [al] is the argument: a multiple of [h], with root between [m] and [m + 1]. *)
Variables (m K : Z) (al : R).
Hypothesis (Hm : (h <= m < 2 * h)%Z) (Hal : al = IZR K * IZR h) (Lo : IZR m * IZR m <= al) (Up : al < (IZR m + 1) * (IZR m + 1)).
Definition n (x : R) : R := r ((x + r (al / x)) / 2).

Lemma m32 : 32 <= IZR m. Proof. pose proof h32. apply IZR_le. lia. Qed.
Lemma al_pos : 0 < al. Proof. pose proof m32. assert (0 < IZR m * IZR m) by (apply Rmult_lt_0_compat; lra). lra. Qed.
Lemma div_le a b c : 0 < b -> a <= c * b -> a / b <= c.
Proof. intros B H. apply Rmult_le_reg_r with b; [exact B |]. replace (a / b * b) with a by (field; lra). exact H. Qed.
Lemma div_lt a b c : 0 < b -> a < c * b -> a / b < c.
Proof. intros B H. apply Rmult_lt_reg_r with b; [exact B |]. replace (a / b * b) with a by (field; lra). exact H. Qed.
Lemma le_div a b c : 0 < b -> c * b <= a -> c <= a / b.
Proof. intros B H. apply Rmult_le_reg_r with b; [exact B |]. replace (a / b * b) with a by (field; lra). exact H. Qed.
Lemma lt_div a b c : 0 < b -> c * b < a -> c < a / b.
Proof. intros B H. apply Rmult_lt_reg_r with b; [exact B |]. replace (a / b * b) with a by (field; lra). exact H. Qed.

(** From above, the iteration does not go up. *)
Lemma n_down x : Fr x -> 0 < x -> al <= x * x -> n x <= x.
Proof.
  intros Fx X A. unfold n. apply r_le; [exact Fx |]. assert (r (al / x) <= x); [| lra].
  apply r_le; [exact Fx |]. apply div_le; lra.
Qed.
(** A number of the format between m/2 and m is a multiple of one half, and of one from h on. *)
Lemma Fr_half x : Fr x -> IZR h <= 2 * x -> exists k, x = IZR k / 2.
Proof.
  intros Fx L. pose proof G0 as P. pose proof h32 as H32. apply IZR_le in H32.
  destruct (grid_of_ge emin prec (IZR h * bpow (e - 1)) (x * G)) as [k E].
  - pose proof (bpow_gt_0 radix2 (e - 1)). assert (0 < IZR h * bpow (e - 1)) by (apply Rmult_lt_0_compat; lra). lra.
  - exact Fx.
  - rewrite !Rabs_pos_eq.
    + unfold G. replace (bpow e) with (2 * bpow (e - 1)) by (replace e with (1 + (e - 1))%Z at 2 by lia; rewrite bpow_plus; change (bpow 1) with 2; lra).
      pose proof (bpow_gt_0 radix2 (e - 1)). replace (x * (2 * bpow (e - 1))) with (2 * x * bpow (e - 1)) by ring. apply Rmult_le_compat_r; lra.
    + apply Rmult_le_pos; lra.
    + apply Rmult_le_pos; [lra | apply bpow_ge_0].
  - exists k. rewrite <- bpow_h in E.
    assert (C : cexp radix2 fexp (bpow (e - 1 + prec - 1)) = (e - 1)%Z).
    { unfold cexp. rewrite mag_bpow. unfold FLT_exp. lia. }
    rewrite C in E. apply Rmult_eq_reg_r with G; [| lra]. rewrite E. unfold G.
    replace (bpow e) with (2 * bpow (e - 1)) by (replace e with (1 + (e - 1))%Z at 2 by lia; rewrite bpow_plus; change (bpow 1) with 2; lra).
    field.
Qed.
Lemma Fr_one x : Fr x -> IZR h <= x -> exists k, x = IZR k.
Proof.
  intros Fx L. pose proof G0 as P. pose proof h32 as H32. apply IZR_le in H32.
  destruct (grid_of_ge emin prec (IZR h * bpow e) (x * G)) as [k E].
  - pose proof (bpow_gt_0 radix2 e). assert (0 < IZR h * bpow e) by (apply Rmult_lt_0_compat; lra). lra.
  - exact Fx.
  - rewrite !Rabs_pos_eq.
    + unfold G. apply Rmult_le_compat_r; [apply bpow_ge_0 | exact L].
    + apply Rmult_le_pos; lra.
    + apply Rmult_le_pos; [lra | apply bpow_ge_0].
  - exists k. rewrite <- bpow_h in E.
    assert (C : cexp radix2 fexp (bpow (e + prec - 1)) = e).
    { unfold cexp. rewrite mag_bpow. unfold FLT_exp. lia. }
    rewrite C in E. apply Rmult_eq_reg_r with G; [| lra]. rewrite E. reflexivity.
Qed.

(** The iteration never falls below [m]. *)
Lemma quotient_up x : Fr x -> 0 < x -> x <= IZR m -> 2 * IZR m - x <= r (al / x).
Proof.
  intros Fx X XM. pose proof m32 as M32. pose proof h32 as H32. assert (H32' := IZR_le _ _ H32).
  assert (Mh : IZR h <= IZR m) by (apply IZR_le; lia). assert (Mt : IZR m <= IZR (2 * h - 1)) by (apply IZR_le; lia).
  rewrite minus_IZR, mult_IZR in Mt.
  destruct (Rle_or_lt x (IZR m / 2)) as [C1|C1].
  { apply Rle_trans with (2 * IZR m); [lra |]. apply r_ge; [apply Fr_even; lia |]. apply le_div; [exact X |]. nra. }
  destruct (Rle_lt_or_eq_dec _ _ XM) as [C2| ->].
  2: { apply Rle_trans with (IZR m); [lra |]. apply r_ge; [apply Fr_int; lia |]. apply le_div; lra. }
  set (d := IZR m - x). assert (D0 : 0 < d) by (unfold d; lra).
  assert (Zq : 2 * IZR m - x < al / x).
  { apply lt_div; [exact X |]. assert (0 < d * d) by (apply Rmult_lt_0_compat; lra). unfold d in *. nra. }
  destruct (Rle_or_lt (2 * IZR m - x) (IZR (2 * h))) as [C3|C3].
  - (* within the binade *)
    destruct (Fr_half x Fx ltac:(lra)) as [k Ek].
    destruct (Z.Even_or_Odd k) as [[i Ei]|[i Ei]].
    + apply r_ge; [| lra]. replace (2 * IZR m - x) with (IZR (2 * m - i)).
      * apply Fr_int. assert (IZR (2 * m - i) <= IZR (2 * h)).
        { rewrite minus_IZR, mult_IZR. rewrite Ek, Ei, mult_IZR in C3. lra. }
        apply le_IZR in H. assert (IZR 0 < IZR (2 * m - i)); [| apply lt_IZR in H0; lia].
        rewrite minus_IZR, mult_IZR. rewrite Ek, Ei, mult_IZR in XM. lra.
      * rewrite minus_IZR, mult_IZR, Ek, Ei, mult_IZR. field.
    + assert (Et : 2 * IZR m - x = IZR (2 * m - i) - / 2).
      { rewrite minus_IZR, mult_IZR, Ek, Ei, plus_IZR, mult_IZR. field. }
      rewrite Et in *. apply Rle_trans with (IZR (2 * m - i)); [lra |]. apply round_ge; [| exact Zq]. split.
      * apply lt_IZR. unfold d in D0. lra.
      * assert (IZR (2 * m - i) < IZR (2 * h + 1)) by (rewrite plus_IZR; lra). apply lt_IZR in H. lia.
  - rewrite mult_IZR in C3. destruct (Rle_or_lt (IZR h) x) as [C4|C4].
    + destruct (Fr_one x Fx C4) as [i Ei].
      destruct (Z.Even_or_Odd i) as [[j Ej]|[j Ej]].
      * apply r_ge; [| lra]. replace (2 * IZR m - x) with (2 * IZR (m - j)) by (rewrite minus_IZR, Ei, Ej, mult_IZR; ring).
        apply Fr_even. assert (0 <= IZR (m - j)) by (rewrite minus_IZR; rewrite Ei, Ej, mult_IZR in XM; lra).
        assert (IZR (m - j) <= IZR (2 * h)) by (rewrite minus_IZR, mult_IZR; rewrite Ei, Ej, mult_IZR in C4; lra).
        apply le_IZR in H. apply le_IZR in H0. lia.
      * assert (Et : 2 * IZR m - x = 2 * IZR (m - j) - 1) by (rewrite minus_IZR, Ei, Ej, plus_IZR, mult_IZR; ring).
        rewrite Et in *. apply Rle_trans with (2 * IZR (m - j)); [lra |]. apply round_ge2; [| exact Zq]. split.
        { apply lt_IZR. lra. }
        { apply le_IZR. rewrite minus_IZR, mult_IZR. rewrite Ei, Ej, plus_IZR, mult_IZR in C4. lra. }
    + (* far below *)
      assert (Dl : IZR h < 2 * d) by (unfold d; lra).
      assert (Zb : 2 * IZR m - x + 2 <= al / x).
      { apply le_div; [exact X |]. assert (IZR h * IZR h <= 4 * (d * d)) by nra.
        assert (8 * IZR h <= d * d) by nra. assert (2 * x <= d * d) by lra.
        assert (E : (2 * IZR m - x) * x + d * d = IZR m * IZR m) by (unfold d; ring). lra. }
      set (t := 2 * IZR m - x) in *. set (k := Zceil (t / 2)).
      assert (Kl : t / 2 <= IZR k) by apply Zceil_ub.
      assert (Ku : IZR k < t / 2 + 1) by (pose proof (Zceil_lb (t / 2)); fold k in H; lra).
      apply Rle_trans with (2 * IZR k); [lra |]. apply r_ge; [| lra]. apply Fr_even.
      assert (IZR k < IZR (2 * h)) by (rewrite mult_IZR; unfold t in *; lra).
      assert (0 <= IZR k) by (unfold t in *; lra). apply lt_IZR in H. apply le_IZR in H0. lia.
Qed.
Lemma n_lower x : Fr x -> 0 < x -> IZR m <= n x.
Proof.
  intros Fx X. pose proof h32. pose proof m32 as M32. unfold n. destruct (Rle_or_lt x (IZR m)) as [C|C].
  - pose proof (quotient_up x Fx X C). apply r_ge; [apply Fr_int; lia | lra].
  - (* above: the quotient is at least 2m - x, which the format has *)
    destruct (Rle_or_lt (2 * IZR m) x) as [C1|C1].
    { apply r_ge; [apply Fr_int; lia |]. assert (0 <= r (al / x)); [| lra]. apply r_ge; [apply (Fr_int 0); lia |].
      apply Rmult_le_pos; [left; apply al_pos | left; now apply Rinv_0_lt_compat]. }
    assert (Mh : IZR h <= IZR m) by (apply IZR_le; lia).
    destruct (Fr_one x Fx ltac:(lra)) as [i Ei].
    apply r_ge; [apply Fr_int; lia |]. assert (2 * IZR m - x <= r (al / x)); [| lra].
    replace (2 * IZR m - x) with (IZR (2 * m - i)) by (rewrite minus_IZR, mult_IZR; lra).
    apply r_ge.
    + apply Fr_int. subst x. apply lt_IZR in C. rewrite <- mult_IZR in C1. apply lt_IZR in C1. lia.
    + apply le_div; [exact X |]. rewrite minus_IZR, mult_IZR, <- Ei. assert (0 <= (IZR m - x) * (IZR m - x)) by apply Rle_0_sqr. nra.
Qed.
(** From [m], the iteration stays or goes to [m + 1]. *)
Lemma n_root : n (IZR m) = IZR m \/ n (IZR m) = IZR m + 1.
Proof.
  pose proof h32. pose proof m32 as M32. assert (FM : Fr (IZR m)) by (apply Fr_int; lia).
  pose proof (n_lower (IZR m) FM ltac:(lra)) as L. unfold n in *. set (q := r (al / IZR m)) in *.
  assert (Ub : al / IZR m < IZR m + 2 + 1 / 2).
  { apply div_lt; [lra |]. nra. }
  assert (U : r ((IZR m + q) / 2) <= IZR m + 1).
  { destruct (Z.eq_dec m (2 * h - 1)) as [E|E].
    - assert (Q : q <= 2 * IZR (h + 1)).
      { apply r_le; [apply Fr_even; lia |]. assert (Em : IZR m = 2 * IZR h - 1) by (rewrite E, minus_IZR, mult_IZR; reflexivity).
        rewrite plus_IZR. apply div_le; [lra |]. rewrite Em in *. nra. }
      rewrite plus_IZR in Q. replace (IZR m + 1) with (IZR (2 * h)) by (rewrite E, minus_IZR; lra).
      apply round_le_top. rewrite E, minus_IZR, mult_IZR. lra.
    - assert (Q : q <= IZR (m + 2)) by (apply round_le; [lia | rewrite plus_IZR; lra]).
      rewrite plus_IZR in Q. rewrite <- plus_IZR. apply r_le; [apply Fr_int; lia |]. rewrite plus_IZR. lra. }
  destruct (Rtotal_order ((IZR m + q) / 2) (IZR m + / 2)) as [C|[C|C]].
  - left. apply Rle_antisym; [| exact L]. apply round_le; [lia | exact C].
  - rewrite C. rewrite round_tie by lia. rewrite plus_IZR. destruct (Z.even m); tauto.
  - right. apply Rle_antisym; [exact U |]. rewrite <- plus_IZR. apply round_ge; [lia |]. rewrite plus_IZR. lra.
Qed.
(** The two neighbours of the root are not exchanged. *)
Lemma no_cycle : n (IZR m) = IZR m + 1 -> n (IZR m + 1) = IZR m -> False.
Proof.
  pose proof h32 as H32. pose proof m32 as M32. intros N1 N2. unfold n in *.
  set (q := r (al / IZR m)) in *. set (q' := r (al / (IZR m + 1))) in *.
  assert (Q1 : IZR m + 1 <= q).
  { destruct (Rle_or_lt (IZR m + 1) q) as [C|C]; [exact C | exfalso].
    assert (r ((IZR m + q) / 2) <= IZR m); [| lra]. apply round_le; [lia | lra]. }
  assert (Q2 : q' <= IZR m).
  { destruct (Rle_or_lt q' (IZR m)) as [C|C]; [exact C | exfalso].
    assert (IZR (m + 1) <= r ((IZR m + 1 + q') / 2)); [| rewrite plus_IZR in *; lra].
    apply round_ge; [lia | rewrite plus_IZR; lra]. }
  (* a quotient below m *)
  assert (B2 : q' < IZR m -> al <= (IZR m - / 4) * (IZR m + 1) /\ (m <> h -> al <= (IZR m - / 2) * (IZR m + 1))).
  { intros C. split.
    - destruct (Rle_or_lt al ((IZR m - / 4) * (IZR m + 1))) as [D|D]; [exact D | exfalso].
      assert (E : IZR m - / 4 < al / (IZR m + 1)) by (apply lt_div; lra).
      destruct (Z.eq_dec m h) as [Eh|Eh].
      + assert (IZR m <= q'); [| lra]. unfold q'. rewrite Eh at 1. apply round_ge_low. rewrite <- Eh. exact E.
      + assert (IZR m <= q'); [| lra]. apply round_ge; [lia | lra].
    - intros Eh. destruct (Rle_or_lt al ((IZR m - / 2) * (IZR m + 1))) as [D|D]; [exact D | exfalso].
      assert (E : IZR m - / 2 < al / (IZR m + 1)) by (apply lt_div; lra).
      assert (IZR m <= q'); [| lra]. apply round_ge; [lia | lra]. }
  assert (B1 : q' <= IZR m -> al <= (IZR m + / 2) * (IZR m + 1)).
  { intros _. destruct (Rle_or_lt al ((IZR m + / 2) * (IZR m + 1))) as [D|D]; [exact D | exfalso].
    assert (E : IZR m + / 2 < al / (IZR m + 1)) by (apply lt_div; lra).
    assert (IZR (m + 1) <= q'); [| rewrite plus_IZR in *; lra]. apply round_ge; [lia | rewrite plus_IZR; lra]. }
  specialize (B1 Q2).
  destruct (Rle_lt_or_eq_dec _ _ Q1) as [C|C].
  - (* the quotient at m is above m + 1 *)
    assert (A1 : (IZR m + 3 / 2) * IZR m <= al).
    { destruct (Rle_or_lt ((IZR m + 3 / 2) * IZR m) al) as [D|D]; [exact D | exfalso].
      assert (E : al / IZR m < IZR m + 1 + / 2) by (apply div_lt; lra).
      assert (q <= IZR (m + 1)); [| rewrite plus_IZR in *; lra]. apply round_le; [lia | rewrite plus_IZR; lra]. }
    destruct (Rle_lt_or_eq_dec _ _ Q2) as [C2|C2].
    { destruct (B2 C2) as [B _]. nra. }
    replace ((IZR m + 1 + q') / 2) with (IZR m + / 2) in N2 by lra. rewrite round_tie in N2 by lia.
    destruct (Z.even m) eqn:Ev; [| rewrite plus_IZR in N2; lra].
    apply Z.even_spec in Ev. destruct Ev as [i Ei].
    assert (I1 : (m * (2 * m + 3) <= 2 * (K * h) <= m * (2 * m + 3) + 1)%Z).
    { rewrite Hal in *. split; apply le_IZR; rewrite ?plus_IZR, !mult_IZR, !plus_IZR, !mult_IZR; nra. }
    assert (I2 : (2 * (K * h) = m * (2 * m + 3))%Z) by (clear - I1 Ei; subst m; nia).
    assert (Dv : (2 ^ prec | m)%Z).
    { apply Gauss with (2 * m + 3)%Z.
      - exists K. rewrite pow_h. lia.
      - apply rel_prime_sym, rel_prime_Zpower_r; [lia |]. apply Zgcd_1_rel_prime.
        replace (2 * m + 3)%Z with (1 + (m + 1) * 2)%Z by ring. rewrite Z.gcd_comm. rewrite Z.gcd_add_mult_diag_r. reflexivity. }
    apply Z.divide_pos_le in Dv; [| lia]. rewrite pow_h in Dv. lia.
  - (* a tie at m: m is odd *)
    replace ((IZR m + q) / 2) with (IZR m + / 2) in N1 by lra. rewrite round_tie in N1 by lia.
    destruct (Z.even m) eqn:Ev; [lra |].
    assert (Mh : m <> h).
    { intros E. rewrite E in Ev. unfold h in Ev. rewrite Z.even_pow in Ev by lia. discriminate. }
    destruct (Rle_lt_or_eq_dec _ _ Q2) as [C2|C2].
    + destruct (B2 C2) as [_ B]. specialize (B Mh).
      assert (E : al / IZR m < IZR m + / 2) by (apply div_lt; nra).
      assert (q <= IZR m); [| lra]. apply round_le; [lia | exact E].
    + replace ((IZR m + 1 + q') / 2) with (IZR m + / 2) in N2 by lra. rewrite round_tie, Ev, plus_IZR in N2 by lia. lra.
Qed.
(** Further up, the iteration goes down. *)
Lemma n_strict x : Fr x -> IZR m + 1 < x -> n x < x.
Proof.
  intros Fx C. pose proof h32 as H32. assert (H32' := IZR_le _ _ H32). pose proof m32 as M32. pose proof G0 as P.
  assert (Mh : IZR h <= IZR m) by (apply IZR_le; lia). assert (Mt : IZR m + 1 <= 2 * IZR h).
  { rewrite <- mult_IZR, <- plus_IZR. apply IZR_le. lia. }
  destruct (Fr_one x Fx ltac:(lra)) as [i Ei].
  assert (Ci : (m + 2 <= i)%Z) by (rewrite Ei, <- plus_IZR in C; apply lt_IZR in C; lia).
  assert (X2 : IZR m + 2 <= x) by (rewrite Ei, <- plus_IZR; now apply IZR_le).
  assert (Q : r (al / x) <= IZR m).
  { apply round_le; [lia |]. apply div_lt; [lra |]. apply Rlt_le_trans with ((IZR m + / 2) * (IZR m + 2)); [nra | apply Rmult_le_compat_l; lra]. }
  unfold n. destruct (Rle_or_lt x (2 * IZR h)) as [D|D].
  - apply Rle_lt_trans with (x - 1); [| lra]. apply r_le; [| lra]. rewrite Ei in *. rewrite <- minus_IZR. apply Fr_int.
    rewrite <- mult_IZR in D. apply le_IZR in D. lia.
  - (* above 2h the neighbour below is at least 2h *)
    set (y := pred radix2 fexp (x * G)).
    assert (Fy : F y) by (apply generic_format_pred; [auto with typeclass_instances | exact Fx]).
    assert (Y1 : 2 * IZR h * G <= y).
    { apply pred_ge_gt; [auto with typeclass_instances | | exact Fx |].
      - rewrite <- mult_IZR. apply (Fr_int (2 * h)). lia.
      - apply Rmult_lt_compat_r; lra. }
    assert (Y2 : y < x * G).
    { apply pred_lt_id. assert (0 < x * G) by (apply Rmult_lt_0_compat; lra). lra. }
    assert (Y3 : succ radix2 fexp y = x * G) by (apply succ_pred; [auto with typeclass_instances | exact Fx]).
    unfold r at 1. apply Rmult_lt_reg_r with G; [exact P |].
    replace (rnd ((x + r (al / x)) / 2 * G) / G * G) with (rnd ((x + r (al / x)) / 2 * G)) by (field; lra).
    apply Rle_lt_trans with y; [| exact Y2]. apply round_N_le_midp; auto with typeclass_instances. rewrite Y3.
    assert ((x + r (al / x)) * G < y + x * G); [| lra]. rewrite Rmult_plus_distr_r.
    assert (r (al / x) * G < 2 * IZR h * G) by (apply Rmult_lt_compat_r; lra). lra.
Qed.
(** The root itself, when it is a number of the format, is where the iteration ends. *)
Lemma n_exact : al = IZR m * IZR m -> n (IZR m + 1) = IZR m.
Proof.
  intros E. pose proof h32 as H32. pose proof m32 as M32.
  apply Rle_antisym.
  - assert (Q : r (al / (IZR m + 1)) <= IZR m - / 2).
    { assert (D : al / (IZR m + 1) < IZR m - 1 + / 2) by (apply div_lt; [lra |]; rewrite E; nra).
      destruct (Z.eq_dec m h) as [Eh|Eh].
      - apply r_le; [| lra]. unfold Fr, G.
        replace ((IZR m - / 2) * bpow e) with (IZR (2 * m - 1) * bpow (e - 1)).
        + apply F_grid; [exact Hp | lia | rewrite pow_h; lia].
        + replace e with (1 + (e - 1))%Z at 2 by lia. rewrite bpow_plus. change (bpow 1) with 2. rewrite minus_IZR, mult_IZR. field.
      - apply Rle_trans with (IZR (m - 1)); [| rewrite minus_IZR; lra]. apply round_le; [lia | rewrite minus_IZR; lra]. }
    unfold n. apply round_le; [lia | lra].
  - apply n_lower; [| lra]. rewrite <- plus_IZR. apply Fr_int. lia.
Qed.
Lemma n_Fr x : Fr (n x).
Proof.
  unfold Fr, n, r. pose proof G0. replace (rnd ((x + rnd (al / x * G) / G) / 2 * G) / G * G) with (rnd ((x + rnd (al / x * G) / G) / 2 * G)) by (field; lra).
  apply F_rnd; exact Hp.
Qed.
Lemma n_next : n (IZR m + 1) = IZR m \/ n (IZR m + 1) = IZR m + 1.
Proof.
  pose proof h32 as H32. pose proof m32 as M32. assert (FM : Fr (IZR m + 1)) by (rewrite <- plus_IZR; apply Fr_int; lia).
  pose proof (n_lower _ FM ltac:(lra)) as L. pose proof (n_down _ FM ltac:(lra) ltac:(lra)) as U.
  assert (Mh : IZR h <= IZR m) by (apply IZR_le; lia).
  destruct (Fr_one _ (n_Fr _) (Rle_trans _ _ _ Mh L)) as [i Ei]. rewrite Ei in *.
  rewrite <- plus_IZR in *. apply le_IZR in L. apply le_IZR in U.
  assert (D : i = m \/ i = (m + 1)%Z) by lia. destruct D as [-> | ->]; tauto.
Qed.
End Grid.

(** ** The loop. *)
Section Fmt.
Context {prec emax : Z} {Hp : Prec_gt_0 prec} {Hx : Prec_lt_emax prec emax}.
Notation fl := (binary_float prec emax).
Notation emin := (3 - emax - prec)%Z.
Notation fexp := (FLT_exp emin prec).
Notation F := (generic_format radix2 fexp).
Notation rnd := (round radix2 fexp ZnearestE).
Notation bpow := (bpow radix2).
Notation v := (@B2R prec emax).
Hypothesis (Hprec : (6 <= prec)%Z) (Hemax : (65 <= emax)%Z) (Hpx : (prec + 4 <= emax)%Z).

Lemma F_emin x : F x -> exists k, x = IZR k * bpow emin.
Proof.
  intros H. destruct (F_cexp _ _ x H) as [k E]. exists (k * 2 ^ (cexp radix2 fexp x - emin))%Z.
  assert (emin <= cexp radix2 fexp x)%Z by (unfold cexp, FLT_exp; lia).
  rewrite mult_IZR, IZR_pow2 by lia. rewrite Rmult_assoc, <- bpow_plus. rewrite E at 1. f_equal. f_equal. lia.
Qed.

Section Arg.
Variable a : fl.
Hypothesis (Fa : is_finite a = true) (Pa : 2 * bpow emin <= v a).
Let A := v a.
Let S := sqrt A.
Let e := cexp radix2 fexp S.
Let G := bpow e.
Let m := Zfloor (S * bpow (- e)).
Let h := (2 ^ (prec - 1))%Z.
Let al := A / (G * G).

Lemma A0 : 0 < A. Proof. pose proof (bpow_gt_0 radix2 emin). unfold A. lra. Qed.
Lemma S0 : 0 < S. Proof. apply sqrt_lt_R0, A0. Qed.
Lemma SS : S * S = A. Proof. apply sqrt_sqrt. left. apply A0. Qed.
Lemma SL : bpow (emin + prec + 1) <= S.
Proof.
  unfold S. rewrite <- (sqrt_square (bpow (emin + prec + 1))) by apply bpow_ge_0. apply sqrt_le_1_alt.
  apply Rle_trans with (2 * bpow emin); [| exact Pa]. rewrite <- bpow_plus.
  replace (2 * bpow emin) with (bpow (1 + emin)) by (rewrite bpow_plus; change (bpow 1) with 2; lra). apply bpow_le. lia.
Qed.
Lemma mag_S : (emin + prec + 2 <= mag radix2 S)%Z.
Proof.
  apply mag_ge_bpow. pose proof S0. rewrite Rabs_pos_eq by lra.
  replace (emin + prec + 2 - 1)%Z with (emin + prec + 1)%Z by lia. exact SL.
Qed.
Lemma e_mag : e = (mag radix2 S - prec)%Z.
Proof. pose proof mag_S. unfold e, cexp, FLT_exp. lia. Qed.
Lemma He : (emin < e)%Z. Proof. pose proof mag_S. rewrite e_mag. lia. Qed.
Lemma GP : 0 < G. Proof. apply bpow_gt_0. Qed.
Lemma SG : S * bpow (- e) = S / G.
Proof. unfold G. now rewrite bpow_opp. Qed.
Lemma IZR_h c : bpow (c + prec - 1) = IZR h * bpow c.
Proof. unfold h. rewrite (IZR_pow2 (prec - 1)) by lia. rewrite <- bpow_plus. f_equal; lia. Qed.
Lemma Sm : IZR m <= S / G < IZR m + 1.
Proof. rewrite <- SG. split; [apply Zfloor_lb | apply Zfloor_ub]. Qed.
Lemma Hm : (h <= m < 2 * h)%Z.
Proof.
  pose proof S0 as S0. pose proof GP as GP. pose proof (bpow_mag_le radix2 S ltac:(lra)) as L. pose proof (bpow_mag_gt radix2 S) as U.
  rewrite Rabs_pos_eq in L, U by lra.
  replace (mag radix2 S - 1)%Z with (e + prec - 1)%Z in L by (rewrite e_mag; lia).
  replace (mag radix2 S : Z) with ((e + 1) + prec - 1)%Z in U by (rewrite e_mag; lia).
  rewrite IZR_h in L, U. rewrite bpow_plus in U. change (bpow 1) with 2 in U. fold G in L, U.
  split.
  - unfold m. apply Zfloor_lub. rewrite SG. apply Rmult_le_reg_r with G; [exact GP |]. replace (S / G * G) with S by (field; lra). exact L.
  - apply lt_IZR. rewrite mult_IZR. apply Rle_lt_trans with (S / G); [apply Sm |].
    apply Rmult_lt_reg_r with G; [exact GP |]. replace (S / G * G) with S by (field; lra). lra.
Qed.
Lemma al_sq : al = (S / G) * (S / G).
Proof. unfold al. rewrite <- SS. pose proof GP. field. lra. Qed.
Lemma Lo : IZR m * IZR m <= al.
Proof.
  rewrite al_sq. pose proof Sm. pose proof Hm as [Hm _]. assert (0 <= IZR m).
  { apply IZR_le. unfold h in Hm. pose proof (Z.pow_nonneg 2 (prec - 1)). lia. }
  apply Rmult_le_compat; lra.
Qed.
Lemma Up : al < (IZR m + 1) * (IZR m + 1).
Proof.
  rewrite al_sq. pose proof Sm. pose proof S0. pose proof GP.
  assert (0 < S / G) by (apply Rmult_lt_0_compat; [lra | now apply Rinv_0_lt_compat]). apply Rmult_gt_0_lt_compat; lra.
Qed.
Lemma Hal : exists K, al = IZR K * IZR h.
Proof.
  pose proof A0 as A0. pose proof S0 as S0. pose proof GP as GP.
  destruct (F_cexp _ _ A (v_F a)) as [k E].
  assert (MA : (2 * mag radix2 S - 1 <= mag radix2 A)%Z).
  { apply mag_ge_bpow. rewrite Rabs_pos_eq by lra. rewrite <- SS.
    replace (2 * mag radix2 S - 1 - 1)%Z with ((mag radix2 S - 1) + (mag radix2 S - 1))%Z by lia. rewrite bpow_plus.
    pose proof (bpow_mag_le radix2 S ltac:(lra)) as L. rewrite Rabs_pos_eq in L by lra.
    apply Rmult_le_compat; try apply bpow_ge_0; exact L. }
  set (c := cexp radix2 fexp A) in *.
  assert (C : (0 <= c - 2 * e - (prec - 1))%Z) by (rewrite e_mag; unfold c, cexp, FLT_exp; lia).
  exists (k * 2 ^ (c - 2 * e - (prec - 1)))%Z. unfold al, h. rewrite mult_IZR, !IZR_pow2 by lia. rewrite E.
  rewrite Rmult_assoc, <- bpow_plus. unfold G. rewrite <- bpow_plus. unfold Rdiv. rewrite <- bpow_opp, Rmult_assoc, <- bpow_plus.
  f_equal. f_equal. lia.
Qed.

Notation n := (n (prec := prec) (emin := emin) e al).
Notation Fr := (Fr (prec := prec) (emin := emin) e).
(** The lemmas above, for this argument. *)
Lemma low x : Fr x -> 0 < x -> IZR m <= n x.
Proof. destruct Hal as [K HK]. apply (n_lower e Hprec He m K al Hm HK Lo Up). Qed.
Lemma strict x : Fr x -> IZR m + 1 < x -> n x < x.
Proof. destruct Hal as [K HK]. apply (n_strict e Hprec He m K al Hm HK Lo Up). Qed.

Lemma step_n (p : fl) : inv a p -> inv a (step a p) /\ v (step a p) = n (v p / G) * G.
Proof.
  intros I. destruct Hal as [K HK]. destruct (inv_step Hprec Hemax Hpx a p Fa A0 I) as (I' & V & _). split; [exact I' |]. rewrite V. clear V I'.
  destruct I as (_ & _ & P & _). set (P0 := v p) in *. set (q := rnd (v a / P0)). pose proof GP as GP.
  assert (E1 : n (P0 / G) * G = rnd ((P0 + q) / 2)).
  { unfold FloatProofs8.n, r. fold G. replace (al / (P0 / G) * G) with (v a / P0) by (unfold al, A; field; lra). fold q.
    replace ((P0 / G + q / G) / 2 * G) with ((P0 + q) / 2) by (field; lra). field. lra. }
  rewrite E1.
  assert (FP : Fr (P0 / G)) by (unfold FloatProofs8.Fr; fold G; replace (P0 / G * G) with P0 by (field; lra); apply v_F).
  assert (X0 : 0 < P0 / G) by (apply Rmult_lt_0_compat; [lra | now apply Rinv_0_lt_compat]).
  assert (q0 : 0 <= q).
  { apply rnd_ge; [exact Hp | apply generic_format_0 |]. apply Rmult_le_pos; [left; exact A0 | left; apply Rinv_0_lt_compat; lra]. }
  assert (Big : IZR m * G <= P0 + q).
  { destruct (Rle_or_lt (P0 / G) (IZR m)) as [C|C].
    - pose proof (quotient_up e Hprec He m K al Hm HK Lo Up _ FP X0 C) as Q. unfold r in Q. fold G in Q.
      replace (al / (P0 / G) * G) with (v a / P0) in Q by (unfold al, A; field; lra). fold q in Q.
      assert (M0 : 0 <= IZR m) by lra.
      assert (Q2 : (2 * IZR m - P0 / G) * G <= q / G * G) by (apply Rmult_le_compat_r; lra).
      replace (q / G * G) with q in Q2 by (field; lra). replace ((2 * IZR m - P0 / G) * G) with (2 * IZR m * G - P0) in Q2 by (field; lra).
      assert (0 <= IZR m * G) by (apply Rmult_le_pos; lra). lra.
    - assert (IZR m * G <= P0 / G * G) by (apply Rmult_le_compat_r; lra). replace (P0 / G * G) with P0 in H by (field; lra). lra. }
  assert (Big2 : bpow (emin + prec) <= P0 + q).
  { eapply Rle_trans; [| exact Big]. apply Rle_trans with (IZR h * G).
    - unfold G. rewrite <- IZR_h. apply bpow_le. pose proof He. lia.
    - apply Rmult_le_compat_r; [lra |]. apply IZR_le, Hm. }
  assert (B3 : bpow (emin + prec) = 2 * bpow (emin + prec - 1)).
  { replace (emin + prec)%Z with (1 + (emin + prec - 1))%Z at 1 by lia. rewrite bpow_plus. change (bpow 1) with 2. lra. }
  pose proof (bpow_gt_0 radix2 (emin + prec - 1)).
  replace (P0 + q) with (2 * ((P0 + q) / 2)) at 1 by field. rewrite rnd_double by (rewrite Rabs_pos_eq by lra; lra).
  replace (/ 2 * (2 * rnd ((P0 + q) / 2))) with (rnd ((P0 + q) / 2)) by field.
  apply rnd_F, F_rnd; exact Hp.
Qed.

Definition ends (p : fl) : Prop := exists fuel r, sqrt_loop fuel a (step a p) p = FVal r.
Lemma ends_step p : ends (step a p) -> ends p.
Proof.
  intros (f & r & E). destruct (feq (step a p) p) eqn:C.
  - exists 0%nat, (step a p). cbn [sqrt_loop]. now rewrite C.
  - exists (Datatypes.S f), r. cbn [sqrt_loop]. rewrite C. exact E.
Qed.
Lemma ends_fix p : inv a p -> v (step a p) = v p -> ends p.
Proof.
  intros I E. exists 0%nat, (step a p). cbn [sqrt_loop]. rewrite feq_spec; [| apply step_n; exact I | apply I].
  rewrite E. now rewrite Req_bool_true.
Qed.
Lemma Fr_v (p : fl) : Fr (v p / G).
Proof. pose proof GP. unfold FloatProofs8.Fr. fold G. replace (v p / G * G) with (v p) by (field; lra). apply v_F. Qed.
Lemma pos_v (p : fl) : inv a p -> 0 < v p / G.
Proof. pose proof GP. intros (_ & _ & I & _). apply Rmult_lt_0_compat; [lra | now apply Rinv_0_lt_compat]. Qed.
Lemma scaled (p : fl) x : v p = x * G -> v p / G = x.
Proof. pose proof GP. intros ->. field. lra. Qed.
Lemma step_to (p : fl) x y : inv a p -> v p = x * G -> n x = y -> v (step a p) = y * G.
Proof. intros I E N. rewrite (proj2 (step_n p I)), (scaled p x E), N. reflexivity. Qed.

Lemma ends_root p : inv a p -> v p = IZR m * G -> ends p.
Proof.
  intros I E. destruct Hal as [K HK].
  destruct (n_root e Hprec He m K al Hm HK Lo Up) as [C|C].
  - apply ends_fix; [exact I |]. rewrite E. now apply (step_to p _ _ I E).
  - pose proof (step_to p _ _ I E C) as E'. apply ends_step. pose proof (proj1 (step_n p I)) as I'.
    apply ends_fix; [exact I' |]. rewrite E'. apply (step_to _ _ _ I' E').
    destruct (n_next e Hprec He m K al Hm HK Lo Up) as [D|D]; [| exact D].
    exfalso. exact (no_cycle e Hprec He m K al Hm HK Lo Up C D).
Qed.
Lemma ends_next p : inv a p -> v p = (IZR m + 1) * G -> ends p.
Proof.
  intros I E. destruct Hal as [K HK]. destruct (n_next e Hprec He m K al Hm HK Lo Up) as [D|D].
  - apply ends_step. apply ends_root; [apply step_n; exact I |]. now apply (step_to p _ _ I E).
  - apply ends_fix; [exact I |]. rewrite E. now apply (step_to p _ _ I E).
Qed.
Lemma ends_above N : forall p, inv a p -> IZR m <= v p / G -> v p <= IZR (Z.of_nat N) * bpow emin -> ends p.
Proof.
  pose proof GP as GP. pose proof (bpow_gt_0 radix2 emin) as E0.
  induction N as [|N IH]; intros p I L B.
  - exfalso. change (IZR (Z.of_nat 0)) with 0 in B. destruct I as (_ & _ & I & _). lra.
  - destruct (Rle_or_lt (v p / G) (IZR m + 1)) as [C|C].
    + assert (Mh : IZR h <= IZR m) by (apply IZR_le, Hm).
      destruct (Fr_one e Hprec He _ (Fr_v p) (Rle_trans _ _ _ Mh L)) as [i Ei].
      rewrite Ei in *. rewrite <- plus_IZR in C. apply le_IZR in C. apply le_IZR in L.
      assert (Ep : v p = IZR i * G) by (rewrite <- Ei; field; lra).
      assert (D : i = m \/ i = (m + 1)%Z) by lia. destruct D as [-> | ->].
      * now apply ends_root.
      * apply ends_next; [exact I |]. now rewrite <- plus_IZR.
    + pose proof (strict _ (Fr_v p) C) as D. destruct (step_n p I) as [I' V].
      assert (Lt : v (step a p) < v p).
      { rewrite V. apply Rlt_le_trans with (v p / G * G); [apply Rmult_lt_compat_r; lra | right; field; lra]. }
      apply ends_step, IH; [exact I' | |].
      * rewrite (scaled _ _ V). apply low; [apply Fr_v | now apply pos_v].
      * destruct (F_emin _ (v_F (step a p))) as [k Ek]. destruct (F_emin _ (v_F p)) as [j Ej].
        rewrite Ek, Ej in *. apply Rmult_lt_reg_r in Lt; [| exact E0]. apply lt_IZR in Lt.
        apply Rmult_le_reg_r in B; [| exact E0]. apply le_IZR in B.
        apply Rmult_le_compat_r; [lra |]. apply IZR_le. lia.
Qed.
Lemma ends_all p : inv a p -> ends p.
Proof.
  intros I. apply ends_step. destruct (step_n p I) as [I' V]. destruct (F_emin _ (v_F (step a p))) as [k Ek].
  pose proof (bpow_gt_0 radix2 emin) as E0.
  apply (ends_above (Z.to_nat k)); [exact I' | |].
  - rewrite (scaled _ _ V). apply low; [apply Fr_v | now apply pos_v].
  - rewrite Ek. apply Rmult_le_compat_r; [lra |]. apply IZR_le. lia.
Qed.
Theorem fsqrt_ends : exists fuel r, fsqrt fuel a = FVal r.
Proof.
  destruct (ends_all (fmul half a)) as (f & r & E); [now apply inv_half |].
  exists (Datatypes.S f), r. rewrite (fsqrt_loop a Fa A0). cbn [sqrt_loop]. rewrite half_nonzero by assumption. exact E.
Qed.

(** The value is one of the two numbers of the format next to the root. *)
Theorem fsqrt_next_to fuel r : fsqrt fuel a = FVal r -> is_finite r = true /\ 0 < v r /\
  ((v r <= S /\ forall x : fl, is_finite x = true -> v x <= S -> v x <= v r) \/
   (S <= v r /\ forall x : fl, is_finite x = true -> S <= v x -> v r <= v x)) /\
  Rabs (v r - S) <= ulp radix2 fexp S.
Proof.
  intros E. rewrite (fsqrt_loop a Fa A0) in E. pose proof GP as GP.
  destruct (loop_fix a (inv a)) with (fuel := fuel) (next := fmul half a) (previous := fzero : fl) (r := r) as (Ir & p & Ip & Ep & Vp).
  - intros q Iq. split; [apply Iq |]. now apply step_n.
  - now apply inv_half.
  - intros C. rewrite half_nonzero in C by assumption. discriminate.
  - exact E.
  - split; [apply Ir |]. split; [apply Ir |].
    assert (V : v r = n (v r / G) * G) by (rewrite <- Vp at 2; rewrite Ep; now apply step_n).
    assert (Nx : n (v r / G) = v r / G) by (rewrite V at 2; field; lra).
    set (x := v r / G) in *. assert (X0 : 0 < x) by (now apply pos_v). assert (FX : Fr x) by apply Fr_v.
    assert (L : IZR m <= x) by (rewrite <- Nx; now apply low).
    assert (U : x <= IZR m + 1).
    { destruct (Rle_or_lt x (IZR m + 1)) as [C|C]; [exact C |]. pose proof (strict x FX C). lra. }
    assert (Mh : IZR h <= IZR m) by (apply IZR_le, Hm).
    destruct (Fr_one e Hprec He _ FX (Rle_trans _ _ _ Mh L)) as [i Ei].
    assert (Vr : v r = x * G) by (unfold x; field; lra).
    assert (D : i = m \/ i = (m + 1)%Z).
    { rewrite Ei in L, U. rewrite <- plus_IZR in U. apply le_IZR in L. apply le_IZR in U. lia. }
    assert (SE : S = S / G * G) by (field; lra). pose proof Sm as [S1 S2].
    assert (Ge : forall y : fl, IZR m < v y / G -> IZR m + 1 <= v y / G).
    { intros y H. destruct (Fr_one e Hprec He _ (Fr_v y) ltac:(fold h; lra)) as [j Ej]. rewrite Ej in *.
      apply lt_IZR in H. rewrite <- plus_IZR. apply IZR_le. lia. }
    assert (Div : forall y z, y <= z -> y / G <= z / G).
    { intros y z H. apply Rmult_le_compat_r; [left; now apply Rinv_0_lt_compat | exact H]. }
    split.
    2: { pose proof S0. rewrite ulp_neq_0 by lra. change (Rabs (v r - S) <= G). rewrite Vr, SE.
      rewrite <- Rmult_minus_distr_r, Rabs_mult, (Rabs_pos_eq G) by lra. rewrite <- (Rmult_1_l G) at 3. apply Rmult_le_compat_r; [lra |].
      apply Rabs_le. lra. }
    destruct D as [D|D]; rewrite D in Ei.
    + left. split; [rewrite Vr, SE; apply Rmult_le_compat_r; lra |].
      intros y Fy Hy. rewrite Vr. replace (v y) with (v y / G * G) by (field; lra). apply Rmult_le_compat_r; [lra |].
      destruct (Rle_or_lt (v y / G) x) as [C|C]; [exact C |]. rewrite Ei in C. pose proof (Ge y C). pose proof (Div _ _ Hy). lra.
    + rewrite plus_IZR in Ei. right. split; [rewrite Vr, SE; apply Rmult_le_compat_r; lra |].
      intros y Fy Hy. rewrite Vr, Ei. replace (v y) with (v y / G * G) by (field; lra). apply Rmult_le_compat_r; [lra |].
      apply Ge. pose proof (Div _ _ Hy). destruct (Rle_lt_or_eq_dec _ _ S1) as [C|C]; [lra |].
      exfalso. destruct Hal as [K HK]. rewrite Ei in Nx. rewrite (n_exact e Hprec He m K al Hm HK Lo Up) in Nx; [lra |]. rewrite al_sq, <- C. reflexivity.
Qed.
End Arg.

(** *** Every argument *)
Lemma loop_more f : forall k (a next previous : fl) r, sqrt_loop f a next previous = FVal r ->
  sqrt_loop (f + k) a next previous = FVal r.
Proof.
  induction f as [|f IH]; intros k a next previous r E.
  - cbn [sqrt_loop] in E. destruct (feq next previous) eqn:C; [| discriminate]. destruct k; cbn [sqrt_loop Nat.add]; rewrite C; exact E.
  - cbn [sqrt_loop Nat.add] in E |- *. destruct (feq next previous); [exact E | now apply IH].
Qed.
Lemma fsqrt_more f k (a : fl) r : fsqrt f a = FVal r -> fsqrt (f + k) a = FVal r.
Proof.
  unfold fsqrt. destruct (isnan a || feq a fzero); [tauto |]. destruct (flt a fzero); [tauto |].
  destruct (feq a (B754_infinity false)); [tauto |]. apply loop_more.
Qed.
Theorem fsqrt_total (a : fl) : exists fuel r, forall k, fsqrt (fuel + k) a = FVal r.
Proof.
  enough (exists fuel r, fsqrt fuel a = FVal r) as (f & r & E).
  { exists f, r. intros k. now apply fsqrt_more. }
  assert (Fin : is_finite a = true -> exists fuel r, fsqrt fuel a = FVal r).
  { intros Fa. destruct (Rle_or_lt (v a) 0) as [N|N].
    - exists 0%nat. unfold fsqrt. rewrite (finite_nan a Fa), feq_spec, flt_spec by (try assumption; reflexivity).
      change (v fzero) with 0. destruct (Rle_lt_or_eq_dec _ _ N) as [C|C].
      + rewrite Req_bool_false, Rlt_bool_true by lra. eexists. reflexivity.
      + rewrite Req_bool_true by exact C. eexists. reflexivity.
    - destruct (Rle_or_lt (2 * bpow emin) (v a)) as [C|C]; [now apply fsqrt_ends |].
      (* the smallest number: its half is zero *)
      exists 0%nat. rewrite (fsqrt_loop a Fa N). cbn [sqrt_loop].
      destruct (half_val Hprec Hemax a Fa N) as [V W].
      rewrite feq_spec by (try assumption; reflexivity). change (v fzero) with 0.
      destruct (F_emin _ (v_F a)) as [k Ek]. pose proof (bpow_gt_0 radix2 emin) as E0.
      assert (k = 1%Z).
      { rewrite Ek in N, C. rewrite <- (Rmult_0_l (bpow emin)) in N. apply Rmult_lt_reg_r in N; [| exact E0]. apply lt_IZR in N.
        apply Rmult_lt_reg_r in C; [| exact E0]. apply lt_IZR in C. lia. }
      subst k. rewrite Rmult_1_l in Ek. rewrite V, Ek.
      assert (Z : rnd (/ 2 * bpow emin) = 0).
      { unfold round, scaled_mantissa, F2R. cbn [Fnum Fexp].
        replace (/ 2 * bpow emin) with (bpow (emin - 1)) by (unfold Zminus at 1; rewrite bpow_plus; change (bpow (- (1))) with (/ 2); lra).
        unfold cexp. rewrite mag_bpow. replace (fexp (emin - 1 + 1)) with emin by (unfold FLT_exp; lia).
        rewrite <- bpow_plus. replace (emin - 1 + - emin)%Z with (-1)%Z by lia. change (bpow (-1)) with (/ 2).
        replace (/ 2) with (IZR 0 + / 2) by lra. rewrite near_tie. simpl. lra. }
      rewrite Z. rewrite Req_bool_true by reflexivity. eexists. reflexivity. }
  destruct a as [s|s| |s mm ee B]; try (apply Fin; reflexivity); exists 0%nat; unfold fsqrt; cbn [isnan orb]; try (eexists; reflexivity).
  destruct s; eexists; reflexivity.
Qed.
Theorem fhypot_total (x y : fl) : exists fuel r, forall k, fhypot (fuel + k) x y = FVal r.
Proof.
  unfold fhypot. cbv zeta. destruct (isinf x || isinf y); [exists 0%nat; eexists; reflexivity |].
  destruct (isnan x || isnan y); [exists 0%nat; eexists; reflexivity |].
  destruct (feq (fmax (fabs x) (fabs y)) fzero); [exists 0%nat; eexists; reflexivity |].
  destruct (fsqrt_total (fadd (fmul (fdiv x (fmax (fabs x) (fabs y))) (fdiv x (fmax (fabs x) (fabs y))))
    (fmul (fdiv y (fmax (fabs x) (fabs y))) (fdiv y (fmax (fabs x) (fabs y)))))) as (f & r & E).
  exists f. eexists. intros k. rewrite E. reflexivity.
Qed.
Section Lim.
Context {lprec lemax : Z} {Hlp : Prec_gt_0 lprec} {Hlx : Prec_lt_emax lprec lemax}.
Theorem spher_total (acos : fl -> fl) (pi pi2 : fl) (mn mx down : binary_float lprec lemax) (d x y z : fl) :
  exists fuel r, forall k, spher_from_stat acos pi pi2 (fuel + k) mn mx down d x y z = FVal r.
Proof.
  unfold spher_from_stat. cbv zeta. destruct (fhypot_total x y) as (f1 & r1 & E1).
  destruct (fsqrt_total (fadd (fmul r1 r1) (fmul z z))) as (f2 & r2 & E2).
  exists (f1 + f2)%nat. eexists. intros k. rewrite <- Nat.add_assoc, E1. cbn [fbind].
  replace (f1 + (f2 + k))%nat with (f2 + (f1 + k))%nat by lia. rewrite E2. reflexivity.
Qed.
End Lim.

(** *** Accuracy of hypot *)
Let u := bpow (- prec).
Lemma err1 x : Rabs x <= 1 -> Rabs (rnd x - x) <= u / 2.
Proof.
  intros H. pose proof (bpow_gt_0 radix2 (- prec)) as U. fold u in U.
  assert (F1 : F 1) by (change 1 with (bpow 0); apply F_bpow; [exact Hp | lia]).
  destruct (Rle_lt_or_eq_dec _ _ H) as [C|C].
  - apply rnd_err; [exact Hp | | lia]. replace (prec + - prec)%Z with 0%Z by lia. exact C.
  - assert (E : F x) by (destruct (Rabs_eq_Rabs x 1) as [-> | ->]; [rewrite C, Rabs_R1; reflexivity | exact F1 | now apply generic_format_opp]).
    rewrite rnd_F by exact E. rewrite Rminus_eq_0, Rabs_R0. lra.
Qed.
Lemma err2 x : 0 <= x <= 2 -> Rabs (rnd x - x) <= u.
Proof.
  intros H. pose proof (bpow_gt_0 radix2 (- prec)) as U. fold u in U.
  destruct (Req_dec x 2) as [E|E].
  - rewrite rnd_F; [rewrite Rminus_eq_0, Rabs_R0; lra |]. rewrite E. change 2 with (bpow 1). apply F_bpow; [exact Hp | lia].
  - replace u with (bpow (1 - prec) / 2) by (unfold u, Zminus; rewrite bpow_plus; change (bpow 1) with 2; lra).
    apply rnd_err; [exact Hp | | lia]. replace (prec + (1 - prec))%Z with 1%Z by lia. change (bpow 1) with 2. rewrite Rabs_pos_eq; lra.
Qed.
Lemma err_rel x : 0 <= x -> Rabs (rnd x - x) <= u * x + bpow emin.
Proof.
  intros H. pose proof (bpow_gt_0 radix2 (- prec)) as U. fold u in U. pose proof (bpow_gt_0 radix2 emin).
  assert (0 <= u * x) by (apply Rmult_le_pos; lra).
  destruct (Rle_or_lt (bpow (emin + prec - 1)) x) as [C|C].
  - pose proof (relative_error_N_FLT radix2 emin prec Hp (fun t => negb (Z.even t)) x) as E.
    rewrite Rabs_pos_eq in E by lra. specialize (E C).
    replace (/ 2 * bpow (- prec + 1)) with u in E by (unfold u; rewrite bpow_plus; change (bpow 1) with 2; lra). lra.
  - assert (E : Rabs (rnd x - x) <= bpow emin / 2); [| lra].
    apply rnd_err; [exact Hp | | lia]. rewrite Rabs_pos_eq by exact H. eapply Rlt_le_trans; [exact C | apply bpow_le; lia].
Qed.
Lemma sq_err t : Rabs t <= 1 -> Rabs (rnd (rnd t * rnd t) - t * t) <= 3 / 2 * u /\ Rabs (rnd t) <= 1.
Proof.
  intros H. pose proof (bpow_gt_0 radix2 (- prec)) as U. fold u in U. pose proof (err1 t H) as E1.
  assert (F1 : F 1) by (change 1 with (bpow 0); apply F_bpow; [exact Hp | lia]).
  assert (Q : Rabs (rnd t) <= 1).
  { apply Rabs_le_inv in H. apply Rabs_le. split; [apply rnd_ge; [exact Hp | now apply generic_format_opp | lra] | apply rnd_le; [exact Hp | exact F1 | lra]]. }
  split; [| exact Q]. set (q := rnd t) in *.
  assert (Q2 : Rabs (q * q) <= 1) by (rewrite Rabs_mult, <- (Rmult_1_l 1); apply Rmult_le_compat; try apply Rabs_pos; exact Q).
  pose proof (err1 (q * q) Q2) as E2.
  assert (E3 : Rabs (q * q - t * t) <= u).
  { replace (q * q - t * t) with ((q - t) * (q + t)) by ring. rewrite Rabs_mult. replace u with (u / 2 * 2) by field.
    apply Rmult_le_compat; try apply Rabs_pos; [exact E1 |]. eapply Rle_trans; [apply Rabs_triang | lra]. }
  replace (rnd (q * q) - t * t) with ((rnd (q * q) - q * q) + (q * q - t * t)) by ring.
  eapply Rle_trans; [apply Rabs_triang |]. lra.
Qed.
Lemma hypot_R (X Y M s : R) : 0 < M -> Rabs X <= M -> Rabs Y <= M -> M * M <= X * X + Y * Y ->
  let sg := rnd (rnd (rnd (X / M) * rnd (X / M)) + rnd (rnd (Y / M) * rnd (Y / M))) in
  1 <= sg <= 2 -> Rabs (s - sqrt sg) <= 2 * u ->
  Rabs (M * s - sqrt (X * X + Y * Y)) <= 9 / 2 * u * M /\ M <= sqrt (X * X + Y * Y).
Proof.
  intros M0 HX HY HM sg Hsg Hs. pose proof (bpow_gt_0 radix2 (- prec)) as U. fold u in U.
  assert (Div : forall Z, Rabs Z <= M -> Rabs (Z / M) <= 1).
  { intros Z HZ. unfold Rdiv. rewrite Rabs_mult, (Rabs_pos_eq (/ M)) by (left; now apply Rinv_0_lt_compat).
    apply Rmult_le_reg_r with M; [exact M0 |]. rewrite Rmult_assoc, Rinv_l by lra. lra. }
  destruct (sq_err (X / M) (Div X HX)) as [EX QX]. destruct (sq_err (Y / M) (Div Y HY)) as [EY QY].
  set (sx := rnd (rnd (X / M) * rnd (X / M))) in *. set (sy := rnd (rnd (Y / M) * rnd (Y / M))) in *.
  assert (F1 : F 1) by (change 1 with (bpow 0); apply F_bpow; [exact Hp | lia]).
  assert (Sb : forall q, Rabs q <= 1 -> 0 <= rnd (q * q) <= 1).
  { intros q Hq. assert (0 <= q * q <= 1).
    { split; [apply Rle_0_sqr |]. rewrite <- (Rabs_pos_eq (q * q)) by apply Rle_0_sqr. rewrite Rabs_mult, <- (Rmult_1_l 1).
      apply Rmult_le_compat; try apply Rabs_pos; exact Hq. }
    split; [apply rnd_ge; [exact Hp | apply generic_format_0 | lra] | apply rnd_le; [exact Hp | exact F1 | lra]]. }
  pose proof (Sb _ QX) as BX. pose proof (Sb _ QY) as BY. fold sx in BX. fold sy in BY.
  pose proof (err2 (sx + sy) ltac:(lra)) as ES. fold sg in ES.
  set (tau := (X / M) * (X / M) + (Y / M) * (Y / M)).
  assert (ET : tau = (X * X + Y * Y) / (M * M)) by (unfold tau; field; lra).
  assert (T1 : 1 <= tau).
  { rewrite ET. apply Rmult_le_reg_r with (M * M); [apply Rmult_lt_0_compat; lra |].
    replace ((X * X + Y * Y) / (M * M) * (M * M)) with (X * X + Y * Y) by (field; lra). lra. }
  assert (E4 : Rabs (sg - tau) <= 4 * u).
  { replace (sg - tau) with ((sg - (sx + sy)) + ((sx - X / M * (X / M)) + (sy - Y / M * (Y / M)))) by (unfold tau; ring).
    eapply Rle_trans; [apply Rabs_triang |]. pose proof (Rabs_triang (sx - X / M * (X / M)) (sy - Y / M * (Y / M))). lra. }
  assert (R1 : 1 <= sqrt sg) by (rewrite <- sqrt_1; apply sqrt_le_1_alt; lra).
  assert (R2 : 1 <= sqrt tau) by (rewrite <- sqrt_1; apply sqrt_le_1_alt; lra).
  assert (E5 : Rabs (sqrt sg - sqrt tau) <= 2 * u).
  { apply Rmult_le_reg_r with (sqrt sg + sqrt tau); [lra |].
    rewrite <- (Rabs_pos_eq (sqrt sg + sqrt tau)) at 1 by lra. rewrite <- Rabs_mult.
    replace ((sqrt sg - sqrt tau) * (sqrt sg + sqrt tau)) with (sqrt sg * sqrt sg - sqrt tau * sqrt tau) by ring.
    rewrite !sqrt_sqrt by lra. eapply Rle_trans; [exact E4 |]. replace (4 * u) with (2 * u * 2) by ring. apply Rmult_le_compat_l; lra. }
  assert (EH : sqrt (X * X + Y * Y) = M * sqrt tau).
  { replace (X * X + Y * Y) with (M * M * tau) by (rewrite ET; field; lra). rewrite sqrt_mult_alt by (left; apply Rmult_lt_0_compat; lra).
    rewrite sqrt_square by lra. reflexivity. }
  rewrite EH. split.
  - rewrite <- Rmult_minus_distr_l, Rabs_mult, (Rabs_pos_eq M) by lra.
    replace (s - sqrt tau) with ((s - sqrt sg) + (sqrt sg - sqrt tau)) by ring.
    rewrite (Rmult_comm (9 / 2 * u)). apply Rmult_le_compat_l; [lra |]. eapply Rle_trans; [apply Rabs_triang |]. lra.
  - rewrite <- (Rmult_1_r M) at 1. apply Rmult_le_compat_l; lra.
Qed.

Theorem fhypot_accurate (x y : fl) fuel r : is_finite x = true -> is_finite y = true -> fhypot fuel x y = FVal r ->
  let h := sqrt (v x * v x + v y * v y) in
  (is_finite r = true -> Rabs (v r - h) <= 6 * u * h + bpow emin) /\
  (h <= bpow (emax - 2) -> is_finite r = true).
Proof.
  intros Fx Fy E h. pose proof (bpow_gt_0 radix2 (- prec)) as U. fold u in U. unfold fhypot in E.
  assert (US : u <= / 64) by (apply u_small; exact Hprec).
  assert (P2 : (2 <= prec)%Z) by lia.
  pose proof (bpow_gt_0 radix2 emin) as T0.
  rewrite (finite_inf x Fx), (finite_inf y Fy), (finite_nan x Fx), (finite_nan y Fy) in E. cbn [orb] in E. cbv zeta in E.
  destruct (fabs_ok x Fx) as [X1 X2]. destruct (fabs_ok y Fy) as [Y1 Y2].
  destruct (fmax_ok _ _ X1 Y1) as [M1 M2]. rewrite X2, Y2 in M2. set (m := fmax (fabs x) (fabs y)) in *.
  rewrite feq_spec in E by (try assumption; reflexivity). change (v fzero) with 0 in E.
  pose proof (Rmax_l (Rabs (v x)) (Rabs (v y))) as L1. pose proof (Rmax_r (Rabs (v x)) (Rabs (v y))) as L2.
  pose proof (Rabs_pos (v x)) as N1. pose proof (Rabs_pos (v y)) as N2. rewrite <- M2 in L1, L2.
  assert (Sqx : v x * v x = Rabs (v x) * Rabs (v x)) by (rewrite <- Rabs_mult; symmetry; apply Rabs_pos_eq, Rle_0_sqr).
  assert (Sqy : v y * v y = Rabs (v y) * Rabs (v y)) by (rewrite <- Rabs_mult; symmetry; apply Rabs_pos_eq, Rle_0_sqr).
  destruct (Req_dec (v m) 0) as [Z|Z].
  { rewrite Req_bool_true in E by exact Z. injection E as <-.
    assert (h = 0). { unfold h. replace (v x * v x + v y * v y) with 0; [apply sqrt_0 |]. rewrite Sqx, Sqy. replace (Rabs (v x)) with 0 by lra. replace (Rabs (v y)) with 0 by lra. ring. }
    split; [| tauto]. intros _. rewrite H, Z. rewrite Rminus_0_r, Rabs_R0. lra. }
  rewrite Req_bool_false in E by exact Z.
  assert (Pm : 0 < v m) by lra.
  destruct (quot_le_1 P2 Hemax x m Fx Pm L1) as (A1 & A2 & A3).
  destruct (quot_le_1 P2 Hemax y m Fy Pm L2) as (B1 & B2 & B3).
  set (qx := fdiv x m) in *. set (qy := fdiv y m) in *.
  assert (F1 : F 1) by (change 1 with (bpow 0); apply F_bpow; [exact Hp | lia]).
  assert (Sq : forall q : fl, is_finite q = true -> Rabs (v q) <= 1 ->
    is_finite (fmul q q) = true /\ v (fmul q q) = rnd (v q * v q) /\ 0 <= v (fmul q q) <= 1).
  { intros q Fq Hq. assert (H2 : 0 <= v q * v q <= 1).
    { split; [apply Rle_0_sqr |]. rewrite <- (Rabs_pos_eq (v q * v q)) by apply Rle_0_sqr. rewrite Rabs_mult.
      rewrite <- (Rmult_1_l 1). apply Rmult_le_compat; try apply Rabs_pos; exact Hq. }
    destruct (fmul_ok q q Fq Fq) as [C1 C2].
    { rewrite Rabs_pos_eq by lra. apply Rle_trans with 1; [lra |]. change 1 with (bpow 0). apply bpow_le. lia. }
    split; [exact C2 |]. split; [exact C1 |]. rewrite C1. split.
    - apply rnd_ge; [exact Hp | apply generic_format_0 | lra].
    - apply rnd_le; [exact Hp | exact F1 | lra]. }
  destruct (Sq qx A1 A2) as (C1 & C3 & C4). destruct (Sq qy B1 B2) as (D1 & D3 & D4).
  destruct (fadd_ok (fmul qx qx) (fmul qy qy) C1 D1) as [S1 S2].
  { rewrite Rabs_pos_eq by lra. apply Rle_trans with 2; [lra |]. change 2 with (bpow 1). apply bpow_le. lia. }
  set (w := fadd (fmul qx qx) (fmul qy qy)) in *.
  assert (One : forall t : fl, v (fdiv t m) = rnd (v t / v m) -> Rabs (v t) = v m ->
     v (fmul (fdiv t m) (fdiv t m)) = rnd (v (fdiv t m) * v (fdiv t m)) -> v (fmul (fdiv t m) (fdiv t m)) = 1).
  { intros t V1 Vt V2. rewrite V2, V1.
    assert (Q : rnd (v t / v m) * rnd (v t / v m) = 1).
    { destruct (Rle_or_lt 0 (v t)).
      - rewrite Rabs_pos_eq in Vt by lra. rewrite Vt. replace (v m / v m) with 1 by (field; lra). rewrite rnd_F by exact F1. lra.
      - rewrite Rabs_left in Vt by lra. replace (v t / v m) with (- 1) by (rewrite <- Vt; field; lra).
        rewrite rnd_F by (now apply generic_format_opp). lra. }
    rewrite Q. now apply rnd_F. }
  assert (Hs : 1 <= v w <= 2).
  { rewrite S1. split.
    - apply rnd_ge; [exact Hp | exact F1 |].
      destruct (Rle_or_lt (Rabs (v y)) (Rabs (v x))) as [C|C].
      + rewrite Rmax_left in M2 by exact C. pose proof (One x A3 (eq_sym M2) C3) as O. fold qx in O. rewrite O. lra.
      + rewrite Rmax_right in M2 by lra. pose proof (One y B3 (eq_sym M2) D3) as O. fold qy in O. rewrite O. lra.
    - apply rnd_le; [exact Hp | change 2 with (bpow 1); apply F_bpow; [exact Hp | lia] | lra]. }
  destruct (fsqrt fuel w) as [s| | |] eqn:Es; cbn [fbind] in E; try discriminate. injection E as <-.
  destruct (fsqrt_next_to w S2) with (fuel := fuel) (r := s) as (s1 & s2 & _ & s3).
  { apply Rle_trans with 1; [| lra]. replace (2 * bpow emin) with (bpow (1 + emin)) by (rewrite bpow_plus; change (bpow 1) with 2; lra).
    change 1 with (bpow 0). apply bpow_le. lia. }
  { exact Es. }
  assert (R1 : 1 <= sqrt (v w)) by (rewrite <- sqrt_1; apply sqrt_le_1_alt; lra).
  assert (R2 : sqrt (v w) < 2).
  { apply Rsqr_incrst_0; [| lra | lra]. unfold Rsqr. rewrite sqrt_sqrt by lra. lra. }
  assert (Ul : ulp radix2 fexp (sqrt (v w)) = 2 * u).
  { rewrite ulp_neq_0 by lra. unfold cexp. replace (mag radix2 (sqrt (v w)) : BinNums.Z) with 1%Z.
    - replace (fexp 1) with (1 + - prec)%Z by (unfold FLT_exp; lia). rewrite bpow_plus. change (bpow 1) with 2. reflexivity.
    - symmetry. apply mag_unique. rewrite Rabs_pos_eq by lra. change (bpow (1 - 1)) with 1. change (bpow 1) with 2. lra. }
  rewrite Ul in s3.
  assert (Wv : v w = rnd (rnd (rnd (v x / v m) * rnd (v x / v m)) + rnd (rnd (v y / v m) * rnd (v y / v m)))).
  { rewrite S1, C3, D3, A3, B3. reflexivity. }
  assert (MM : v m * v m <= v x * v x + v y * v y).
  { rewrite Sqx, Sqy. rewrite M2. destruct (Rle_or_lt (Rabs (v y)) (Rabs (v x))) as [C|C]; [rewrite Rmax_left by exact C | rewrite Rmax_right by lra].
    - pose proof (Rmult_le_pos _ _ N2 N2). lra.
    - pose proof (Rmult_le_pos _ _ N1 N1). lra. }
  destruct (hypot_R (v x) (v y) (v m) (v s) Pm L1 L2 MM) as [H1 H2]; [rewrite <- Wv; exact Hs | rewrite <- Wv; exact s3 |].
  fold h in H1, H2.
  assert (Ms : 0 <= v m * v s) by (apply Rmult_le_pos; lra).
  assert (Um : 9 / 2 * u * v m <= 9 / 2 * u * h) by (apply Rmult_le_compat_l; lra).
  assert (Uh : u * h <= / 64 * h) by (apply Rmult_le_compat_r; lra).
  apply Rabs_le_inv in H1.
  assert (Main : Rabs (rnd (v m * v s) - h) <= 6 * u * h + bpow emin).
  { pose proof (err_rel (v m * v s) Ms) as Er.
    assert (u * (v m * v s) <= u * (2 * h - 9 / 10 * h)) by (apply Rmult_le_compat_l; lra).
    apply Rabs_le_inv in Er. apply Rabs_le. lra. }
  assert (Nn : atleast (prec := prec) (emax := emax) 0 s) by (apply nn_of; [exact s1 | now apply sign_of_pos | lra]).
  split.
  - intros Fr. destruct (fmul_nn m s M1 Pm Nn) as [Ei|(_ & _ & _ & G4)]; [rewrite Ei in Fr; discriminate |].
    rewrite G4. exact Main.
  - intros Hh. apply fmul_ok; [exact M1 | exact s1 |]. rewrite Rabs_pos_eq by exact Ms.
    assert (bpow (emax - 1) = 2 * bpow (emax - 2)).
    { replace (emax - 1)%Z with (1 + (emax - 2))%Z by lia. rewrite bpow_plus. change (bpow 1) with 2. lra. }
    lra.
Qed.
End Fmt.
