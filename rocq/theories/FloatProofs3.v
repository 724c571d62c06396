(** Wrapping an angle at most one turn outside its range. *)
From Coq Require Import ZArith Reals Lra Lia Bool.
From Flocq Require Import Core Sterbenz IEEE754.BinarySingleNaN.
From Verif Require Import FloatModel FloatProofs1 FloatProofs2.
Local Open Scope R_scope.

Section Fmt.
Context {prec emax : Z} {Hp : Prec_gt_0 prec} {Hx : Prec_lt_emax prec emax}.
Context {lprec lemax : Z} {Hlp : Prec_gt_0 lprec} {Hlx : Prec_lt_emax lprec lemax}.
Notation fl := (binary_float prec emax).
Notation lim := (binary_float lprec lemax).
Notation emin := (3 - emax - prec)%Z.
Notation fexp := (FLT_exp emin prec).
Notation F := (generic_format radix2 fexp).
Notation rnd := (round radix2 fexp ZnearestE).
Notation lexp := (FLT_exp (3 - lemax - lprec) lprec).
Notation bpow := (bpow radix2).
Notation v := (@B2R prec emax).
Notation w := (@B2R lprec lemax).
Notation to_R := (FloatModel.to_R (prec := prec) (emax := emax)).
Notation period := (FloatModel.period (prec := prec) (emax := emax)).
Hypothesis (Hprec : (2 <= prec)%Z) (Hemax : (65 <= emax)%Z) (Hlp' : (prec <= lprec)%Z) (Hlx' : (emax <= lemax)%Z).

Lemma cast_up (x : fl) : is_finite x = true -> w (cast lprec lemax x) = v x /\ is_finite (cast lprec lemax x) = true.
Proof.
  intros Fx. pose proof (Hx : (prec < emax)%Z).
  assert (G : generic_format radix2 lexp (v x)).
  { pose proof (v_F x) as G. apply FLT_format_generic in G; [| exact Hp]. destruct G as [[m e] E A B]. cbn [Fnum Fexp] in A, B.
    apply generic_format_FLT. exists (Float radix2 m e); [exact E | cbn [Fnum] | cbn [Fexp]; lia].
    eapply Z.lt_le_trans; [exact A |]. apply (Z.pow_le_mono_r 2); lia. }
  destruct (fl_cast_correct (p' := lprec) (e' := lemax) x Fx) as [A B].
  { rewrite round_generic by (auto with typeclass_instances).
    eapply Rlt_le_trans; [apply abs_B2R_lt_emax | apply bpow_le; lia]. }
  split; [| exact B]. rewrite A. apply round_generic; auto with typeclass_instances.
Qed.

Lemma below_spec (phi : fl) (mx : lim) : is_finite phi = true -> is_finite mx = true -> below phi mx = Rlt_bool (v phi) (w mx).
Proof.
  intros A B. destruct (cast_up phi A) as [C D]. unfold below. rewrite Bltb_correct by assumption. now rewrite C.
Qed.

Lemma cast_down (x : lim) : is_finite x = true -> Rabs (w x) <= bpow (emax - 1) ->
  v (to_R x) = rnd (w x) /\ is_finite (to_R x) = true.
Proof. intros A B. apply (fl_cast_correct (p' := prec) (e' := emax) x); [exact A | now apply rnd_lt_emax]. Qed.

Section Limit.
Variable M : lim.
Hypothesis (FM : is_finite M = true) (M1 : bpow (emin + prec - 1) <= w M) (M2 : w M <= bpow (emax - 4)).
Let m := rnd (w M).

Lemma Mpos : 0 < w M.
Proof. eapply Rlt_le_trans; [apply bpow_gt_0 | exact M1]. Qed.

Lemma bp (k j : Z) : bpow (k + 1) = 2 * bpow k.
Proof. rewrite bpow_plus. simpl. lra. Qed.

Lemma m_F : F m. Proof. apply F_rnd. exact Hp. Qed.

Lemma m_bounds : bpow (emin + prec - 1) <= m <= bpow (emax - 4).
Proof.
  pose proof (Hx : (prec < emax)%Z). split.
  - apply rnd_ge; [exact Hp | apply F_bpow; [exact Hp | lia] | exact M1].
  - apply rnd_le; [exact Hp | apply F_bpow; [exact Hp | lia] | exact M2].
Qed.

Lemma m_pos : 0 < m.
Proof. pose proof m_bounds. pose proof (bpow_gt_0 radix2 (emin + prec - 1)). lra. Qed.

Lemma big : 8 * bpow (emax - 4) = bpow (emax - 1).
Proof. replace (emax - 1)%Z with (3 + (emax - 4))%Z by lia. rewrite (bpow_plus radix2 3). simpl. lra. Qed.

Lemma quarter : 4 * bpow (emax - 4) = bpow (emax - 2).
Proof. replace (emax - 2)%Z with (2 + (emax - 4))%Z by lia. rewrite (bpow_plus radix2 2). simpl. lra. Qed.

Lemma toR_M : v (to_R M) = m /\ is_finite (to_R M) = true.
Proof.
  apply cast_down; [exact FM |]. pose proof Mpos. pose proof big. pose proof (bpow_gt_0 radix2 (emax - 4)).
  rewrite Rabs_pos_eq; lra.
Qed.

Lemma toR_mM : v (to_R (Bopp M)) = - m /\ is_finite (to_R (Bopp M)) = true.
Proof.
  pose proof Mpos. pose proof big. pose proof (bpow_gt_0 radix2 (emax - 4)).
  destruct (cast_down (Bopp M)) as [A B].
  - now rewrite is_finite_Bopp.
  - rewrite B2R_Bopp, Rabs_Ropp, Rabs_pos_eq; lra.
  - rewrite A, B2R_Bopp, rnd_opp. split; [reflexivity | exact B].
Qed.

Lemma rnd_emax_lim x : Rabs x <= bpow (emax - 1) -> Rabs (round radix2 lexp ZnearestE x) < bpow lemax.
Proof.
  intros H. apply (rnd_lt_emax (prec := lprec) (emax := lemax)).
  eapply Rle_trans; [exact H | apply bpow_le; lia].
Qed.

Lemma period_sym : v (period (Bopp M) M) = 2 * m /\ is_finite (period (Bopp M) M) = true.
Proof.
  pose proof Mpos. pose proof big. pose proof (bpow_gt_0 radix2 (emax - 4)).
  destruct (fsub_ok (prec := lprec) (emax := lemax) M (Bopp M)) as [A B].
  - exact FM.
  - now rewrite is_finite_Bopp.
  - rewrite B2R_Bopp. apply Rle_trans with (bpow (emax - 1)); [| apply bpow_le; lia].
    rewrite Rabs_pos_eq; lra.
  - rewrite B2R_Bopp in A. replace (w M - - w M) with (2 * w M) in A by lra.
    rewrite round_generic in A.
    + destruct (cast_down (fsub M (Bopp M)) B) as [C D].
      * rewrite A, Rabs_pos_eq; lra.
      * rewrite A in C. rewrite rnd_double in C; [split; [exact C | exact D] |].
        rewrite Rabs_pos_eq by lra. exact M1.
    + auto with typeclass_instances.
    + apply F_double; [exact Hlp |]. exact (v_F (prec := lprec) (emax := lemax) M).
Qed.

(** A number of the scalar format is below the limit iff it is below the rounded limit, or equal to it and the limit was
    rounded down. *)
Lemma below_of_lt x : F x -> x < m -> x < w M.
Proof.
  intros Fx H. apply Rnot_le_lt. intros C. apply (Rlt_irrefl x). eapply Rlt_le_trans; [exact H |].
  apply rnd_le; [exact Hp | exact Fx | exact C].
Qed.

Lemma ge_of_ge x : F x -> w M <= x -> m <= x.
Proof. intros Fx H. apply rnd_le; [exact Hp | exact Fx | exact H]. Qed.

Theorem wrap_sym (phi : fl) : is_finite phi = true -> - (3 * m) <= v phi < 3 * m ->
  exists r, fwrap (Bopp M) M phi = FVal r /\ is_finite r = true /\
    - m <= v r < w M /\
    exists k : Z, (Z.abs k <= 2)%Z /\ Rabs (v r - (v phi + IZR k * (2 * m))) <= 3 * ulp radix2 fexp m.
Proof.
  intros Fphi H.
  pose proof m_pos as Hm. pose proof m_F as Fm. pose proof m_bounds as Bm. pose proof big as Bg. pose proof quarter as Qt.
  pose proof (bpow_gt_0 radix2 (emax - 4)) as P4.
  destruct toR_mM as [T1 T2]. destruct period_sym as [P1 P2].
  unfold fwrap. rewrite (below_spec phi M Fphi FM), fle_spec by assumption. rewrite T1.
  assert (Hu : 0 < ulp radix2 fexp m) by (rewrite ulp_neq_0 by lra; apply bpow_gt_0).
  destruct (Rle_bool_spec (- m) (v phi)) as [C|C].
  destruct (Rlt_bool_spec (v phi) (w M)) as [D|D]; cbn [andb].
  - exists phi. split; [reflexivity |]. split; [exact Fphi |]. split; [lra |]. exists 0%Z. split; [lia |].
    rewrite Rmult_0_l, Rplus_0_r, Rminus_diag_eq, Rabs_R0 by reflexivity. lra.
  - (* above *)
    assert (D' : m <= v phi) by (apply ge_of_ge; [apply v_F | exact D]).
    destruct (sym_high _ _ m Fm Hm (v phi) (v_F phi) D' (proj2 H)) as (S1 & S2 & S3 & S4 & S5).
    cbv zeta in S5. rewrite <- (ulp_m _ _ m Hm) in S4, S5.
    destruct (fsub_ok phi (to_R (Bopp M)) Fphi T2) as [E1 E2].
    { rewrite T1. rewrite Rabs_pos_eq; lra. }
    rewrite T1 in E1. replace (v phi - - m) with (v phi + m) in E1 by lra.
    set (d := rnd (v phi + m)) in *.
    destruct (ffmod_small Hprec Hemax (fsub phi (to_R (Bopp M))) (period (Bopp M) M) E2 P2) as (q & Q1 & Q2 & Q3).
    { rewrite P1. lra. }
    { rewrite P1, E1, Rabs_pos_eq; lra. }
    rewrite Q1. cbn [fbind]. rewrite E1, P1 in Q3.
    assert (Q4 : v q = if Rlt_bool d (4 * m) then d - 2 * m else 0).
    { rewrite Q3. unfold fmod2. rewrite Rabs_pos_eq by lra. rewrite Rlt_bool_false by lra.
      replace (2 * (2 * m)) with (4 * m) by lra. rewrite (Rlt_bool_false d 0) by lra. reflexivity. }
    rewrite flt_spec by (try assumption; reflexivity). change (v fzero) with 0.
    rewrite Rlt_bool_false by (rewrite Q4; destruct (Rlt_bool d (4 * m)); lra).
    destruct (fadd_ok (to_R (Bopp M)) q T2 Q2) as [R1 R2].
    { rewrite T1, Q4. destruct (Rlt_bool_spec d (4 * m)); apply Rabs_le; lra. }
    eexists. split; [reflexivity |]. split; [exact R2 |]. rewrite R1, T1, Q4.
    destruct (Rlt_bool_spec d (4 * m)) as [G|G].
    + destruct (S5 G) as [U1 U2]. split.
      * split; [lra |]. apply below_of_lt; [apply F_rnd; exact Hp | lra].
      * exists (-1)%Z. split; [lia |]. rewrite U1.
        replace (d - 3 * m - (v phi + -1 * (2 * m))) with (d - (v phi + m)) by lra. lra.
    + rewrite Rplus_0_r, rnd_F by (now apply generic_format_opp). split.
      * split; [lra |]. apply Rlt_trans with 0; [lra | exact Mpos].
      * exists (-2)%Z. split; [lia |].
        replace (- m - (v phi + -2 * (2 * m))) with (d - (v phi + m)) by lra. lra.
  - (* below *)
    cbn [andb].
    destruct (sym_low _ _ m Fm Hm (v phi) (v_F phi) (proj1 H) C) as (S1 & S2 & S3 & S4).
    cbv zeta in S4. rewrite <- (ulp_m _ _ m Hm) in S3, S4.
    destruct (fsub_ok phi (to_R (Bopp M)) Fphi T2) as [E1 E2].
    { rewrite T1. rewrite Rabs_left1; lra. }
    rewrite T1 in E1. replace (v phi - - m) with (v phi + m) in E1 by lra.
    set (d := rnd (v phi + m)) in *.
    destruct (ffmod_small Hprec Hemax (fsub phi (to_R (Bopp M))) (period (Bopp M) M) E2 P2) as (q & Q1 & Q2 & Q3).
    { rewrite P1. lra. }
    { rewrite P1, E1, Rabs_left; lra. }
    rewrite Q1. cbn [fbind]. rewrite E1, P1 in Q3.
    rewrite flt_spec by (try assumption; reflexivity). change (v fzero) with 0.
    destruct (Rlt_or_le (- (2 * m)) d) as [G|G].
    + assert (Q4 : v q = d).
      { rewrite Q3. unfold fmod2. rewrite Rabs_left by lra. rewrite Rlt_bool_true by lra. reflexivity. }
      rewrite Q4, Rlt_bool_true by lra. destruct (S4 G) as [U1 U2].
      destruct (fadd_ok (to_R (Bopp M)) q T2 Q2) as [R1 R2].
      { rewrite T1, Q4. rewrite Rabs_left; lra. }
      rewrite T1, Q4 in R1.
      destruct (fadd_ok (fadd (to_R (Bopp M)) q) (period (Bopp M) M) R2 P2) as [W1 W2].
      { rewrite R1, P1. apply Rabs_le. assert (rnd (- m + d) <= 0) by (apply rnd_le; [exact Hp | apply generic_format_0 | lra]).
        assert (- bpow (emax - 2) <= rnd (- m + d)).
        { apply rnd_ge; [exact Hp | | lra]. apply generic_format_opp, F_bpow; [exact Hp |].
          pose proof (Hx : (prec < emax)%Z). lia. }
        lra. }
      rewrite R1, P1 in W1.
      eexists. split; [reflexivity |]. split; [exact W2 |]. rewrite W1. split.
      * split; [lra |]. apply below_of_lt; [apply F_rnd; exact Hp | lra].
      * exists 1%Z. split; [lia |].
        set (r := rnd (rnd (- m + d) + 2 * m)) in *.
        replace (r - (v phi + 1 * (2 * m))) with ((r - (d + m)) + (d - (v phi + m))) by lra.
        eapply Rle_trans; [apply Rabs_triang |]. lra.
    + assert (Ed : d = - (2 * m)) by lra.
      assert (Q4 : v q = 0).
      { rewrite Q3. unfold fmod2. rewrite Ed, Rabs_left by lra. rewrite Rlt_bool_false by lra.
        rewrite Rlt_bool_true by lra. rewrite Rlt_bool_true by lra. lra. }
      rewrite Q4, Rlt_bool_false by lra.
      destruct (fadd_ok (to_R (Bopp M)) q T2 Q2) as [R1 R2].
      { rewrite T1, Q4. rewrite Rabs_left; lra. }
      eexists. split; [reflexivity |]. split; [exact R2 |]. rewrite R1, T1, Q4.
      rewrite Rplus_0_r, rnd_F by (now apply generic_format_opp). split.
      * split; [lra |]. apply Rlt_trans with 0; [lra | exact Mpos].
      * exists 1%Z. split; [lia |].
        replace (- m - (v phi + 1 * (2 * m))) with (d - (v phi + m)) by lra. lra.
Qed.

(** The same for from_stat_space, whose single shift compares with the rounded limit. *)
Theorem once_sym (phi : fl) : is_finite phi = true -> - (3 * m) <= v phi < 3 * m ->
  let r := fwrap_once (Bopp M) M phi in
  is_finite r = true /\ - m <= v r < m /\ exists k : Z, (Z.abs k <= 1)%Z /\ v r = v phi + IZR k * (2 * m).
Proof.
  intros Fphi H r.
  pose proof m_pos as Hm. pose proof m_F as Fm. pose proof m_bounds as Bm. pose proof big as Bg.
  destruct toR_mM as [T1 T2]. destruct toR_M as [T3 T4]. destruct period_sym as [P1 P2].
  assert (Hu : 0 < ulp radix2 fexp m) by (rewrite ulp_neq_0 by lra; apply bpow_gt_0).
  unfold r, fwrap_once. rewrite flt_spec, fle_spec by assumption. rewrite T1, T3.
  destruct (Rlt_bool_spec (v phi) (- m)) as [C|C].
  { destruct (fadd_ok phi (period (Bopp M) M) Fphi P2) as [A B].
    { rewrite P1. apply Rabs_le. lra. }
    destruct (sym_once_low _ _ m Fm Hm (v phi) (v_F phi) (proj1 H) C) as [S1 S2]. rewrite <- (ulp_m _ _ m Hm) in S1.
    rewrite P1 in A. rewrite A. split; [exact B |]. split; [lra |]. exists 1%Z. split; [lia |]. rewrite S2. lra. }
  destruct (Rle_bool_spec m (v phi)) as [D|D].
  { destruct (fsub_ok phi (period (Bopp M) M) Fphi P2) as [A B].
    { rewrite P1. apply Rabs_le. lra. }
    destruct (sym_once_high _ _ m Fm Hm (v phi) (v_F phi) D (proj2 H)) as [S1 S2]. rewrite <- (ulp_m _ _ m Hm) in S1.
    rewrite P1 in A. rewrite A. split; [exact B |]. split; [lra |]. exists (-1)%Z. split; [lia |]. rewrite S2. lra. }
  split; [exact Fphi |]. split; [lra |]. exists 0%Z. split; [lia |]. lra.
Qed.

(** ** Ranges [0, M). *)
Notation Z0 := (B754_zero false : lim).

Lemma toR_0 : v (to_R Z0) = 0 /\ is_finite (to_R Z0) = true /\ to_R Z0 = B754_zero false.
Proof. split; [reflexivity | split; reflexivity]. Qed.

Lemma period_pos : v (period Z0 M) = m /\ is_finite (period Z0 M) = true.
Proof.
  pose proof Mpos. pose proof big. pose proof (bpow_gt_0 radix2 (emax - 4)).
  destruct (fsub_ok (prec := lprec) (emax := lemax) M Z0) as [A B]; [exact FM | reflexivity | |].
  - cbn [B2R]. rewrite Rminus_0_r. apply Rle_trans with (bpow (emax - 1)); [| apply bpow_le; lia].
    rewrite Rabs_pos_eq; lra.
  - cbn [B2R] in A. rewrite Rminus_0_r in A. rewrite round_generic in A.
    + destruct (cast_down (fsub M Z0) B) as [C D].
      * rewrite A, Rabs_pos_eq; lra.
      * rewrite A in C. split; [exact C | exact D].
    + auto with typeclass_instances.
    + exact (v_F (prec := lprec) (emax := lemax) M).
Qed.

Theorem wrap_pos (phi : fl) : is_finite phi = true -> - m <= v phi < 2 * m ->
  exists r, fwrap Z0 M phi = FVal r /\ is_finite r = true /\
    0 <= v r <= m /\
    (0 <= v phi -> v r < w M /\ exists k : Z, (Z.abs k <= 1)%Z /\ v r = v phi + IZR k * m) /\
    (v phi < 0 -> v r = if Rlt_bool (- m) (v phi) then rnd (v phi + m) else 0).
Proof.
  intros Fphi H.
  pose proof m_pos as Hm. pose proof m_F as Fm. pose proof m_bounds as Bm. pose proof big as Bg. pose proof quarter as Qt.
  pose proof (bpow_gt_0 radix2 (emax - 4)) as P4.
  destruct toR_0 as (T1 & T2 & T3). destruct period_pos as [P1 P2].
  unfold fwrap. rewrite (below_spec phi M Fphi FM), fle_spec by assumption. rewrite T1.
  destruct (Rle_bool_spec 0 (v phi)) as [C|C].
  destruct (Rlt_bool_spec (v phi) (w M)) as [D|D]; cbn [andb].
  { exists phi. split; [reflexivity |]. split; [exact Fphi |].
    assert (v phi <= m) by (apply rnd_ge; [exact Hp | apply v_F | lra]).
    split; [lra |]. split; [| intros; lra]. intros _. split; [exact D |]. exists 0%Z. split; [lia | lra]. }
  - assert (D' : m <= v phi) by (apply ge_of_ge; [apply v_F | exact D]).
    destruct (fsub_ok phi (to_R Z0) Fphi T2) as [E1 E2].
    { rewrite T1, Rminus_0_r, Rabs_pos_eq; lra. }
    rewrite T1, Rminus_0_r, rnd_F in E1 by apply v_F.
    destruct (ffmod_small Hprec Hemax (fsub phi (to_R Z0)) (period Z0 M) E2 P2) as (q & Q1 & Q2 & Q3).
    { rewrite P1. lra. }
    { rewrite P1, E1, Rabs_pos_eq; lra. }
    rewrite Q1. cbn [fbind]. rewrite E1, P1 in Q3.
    assert (Q4 : v q = v phi - m).
    { rewrite Q3. unfold fmod2. rewrite Rabs_pos_eq by lra. rewrite Rlt_bool_false, Rlt_bool_true, Rlt_bool_false by lra.
      reflexivity. }
    rewrite flt_spec by (try assumption; reflexivity). change (v fzero) with 0.
    rewrite Rlt_bool_false by (rewrite Q4; lra).
    destruct (fadd_ok (to_R Z0) q T2 Q2) as [R1 R2].
    { rewrite T1, Q4, Rplus_0_l, Rabs_pos_eq; lra. }
    eexists. split; [reflexivity |]. split; [exact R2 |].
    rewrite T1, Rplus_0_l, rnd_F in R1 by apply v_F. rewrite R1, Q4. split; [lra |]. split; [| intros; lra].
    intros _. split.
    + apply below_of_lt; [rewrite <- Q4; apply v_F | lra].
    + exists (-1)%Z. split; [lia | lra].
  - cbn [andb].
    destruct (fsub_ok phi (to_R Z0) Fphi T2) as [E1 E2].
    { rewrite T1, Rminus_0_r, Rabs_left; lra. }
    rewrite T1, Rminus_0_r, rnd_F in E1 by apply v_F.
    destruct (ffmod_small Hprec Hemax (fsub phi (to_R Z0)) (period Z0 M) E2 P2) as (q & Q1 & Q2 & Q3).
    { rewrite P1. lra. }
    { rewrite P1, E1, Rabs_left; lra. }
    rewrite Q1. cbn [fbind]. rewrite E1, P1 in Q3.
    rewrite flt_spec by (try assumption; reflexivity). change (v fzero) with 0.
    destruct (Rlt_bool_spec (- m) (v phi)) as [G|G].
    + assert (Q4 : v q = v phi).
      { rewrite Q3. unfold fmod2. rewrite Rabs_left by lra. rewrite Rlt_bool_true by lra. reflexivity. }
      rewrite Q4, Rlt_bool_true by lra.
      destruct (fadd_ok (to_R Z0) q T2 Q2) as [R1 R2].
      { rewrite T1, Q4, Rplus_0_l, Rabs_left; lra. }
      rewrite T1, Q4, Rplus_0_l, rnd_F in R1 by apply v_F.
      destruct (fadd_ok (fadd (to_R Z0) q) (period Z0 M) R2 P2) as [W1 W2].
      { rewrite R1, P1, Rabs_pos_eq; lra. }
      rewrite R1, P1 in W1.
      eexists. split; [reflexivity |]. split; [exact W2 |]. rewrite W1. split.
      * split; [apply rnd_ge | apply rnd_le]; try exact Hp; try lra; [apply generic_format_0 | exact Fm].
      * split; [intros; lra |]. reflexivity.
    + assert (E : v phi = - m) by lra.
      assert (Q4 : v q = 0).
      { rewrite Q3. unfold fmod2. rewrite E, Rabs_left by lra. rewrite Rlt_bool_false by lra.
        rewrite Rlt_bool_true by lra. rewrite Rlt_bool_true by lra. lra. }
      rewrite Q4, Rlt_bool_false by lra.
      destruct (fadd_ok (to_R Z0) q T2 Q2) as [R1 R2].
      { rewrite T1, Q4, Rplus_0_l, Rabs_R0. lra. }
      rewrite T1, Q4, Rplus_0_l, rnd_F in R1 by apply generic_format_0.
      eexists. split; [reflexivity |]. split; [exact R2 |]. rewrite R1. split; [lra |]. split; [intros; lra |]. reflexivity.
Qed.

(** A small negative angle wraps to the excluded end of the range. *)
Theorem wrap_pos_end : bpow (emin + prec + 2) <= w M ->
  exists phi r, is_finite phi = true /\ fwrap Z0 M phi = FVal r /\ v r = m.
Proof.
  intros HM. pose proof m_pos as Hm. pose proof m_F as Fm. pose proof (Hx : (prec < emax)%Z). pose proof (prec_pos prec).
  assert (Bm : bpow (emin + prec + 2) <= m) by (apply rnd_ge; [exact Hp | apply F_bpow; [exact Hp | lia] | exact HM]).
  pose proof (bpow_gt_0 radix2 emin) as Pe.
  assert (Fe : F (- bpow emin)) by (apply generic_format_opp, F_bpow; [exact Hp | lia]).
  destruct (of_me_ok (prec := prec) (emax := emax) (-1) emin) as [A B].
  { rewrite Rabs_mult, <- abs_IZR, (Rabs_pos_eq (bpow _)) by lra. simpl (Z.abs _). rewrite Rmult_1_l. apply bpow_le. lia. }
  replace (-1 * bpow emin) with (- bpow emin) in A by lra.
  rewrite rnd_F in A by exact Fe.
  assert (L : bpow emin < bpow (emin + prec + 2)) by (apply bpow_lt; lia).
  destruct (wrap_pos (of_me (-1) emin) B) as (r & R1 & R2 & R3 & R4 & R5); [rewrite A; lra |].
  exists (of_me (-1) emin), r. split; [exact B |]. split; [exact R1 |].
  rewrite R5, A, Rlt_bool_true by lra.
  apply Rle_antisym; [apply rnd_le; [exact Hp | exact Fm | lra] |].
  (* the predecessor of m is more than two units away *)
  apply round_N_ge_midp; auto with typeclass_instances.
  assert (Mg : (emin + prec + 3 <= mag radix2 m)%Z).
  { apply mag_ge_bpow. replace (emin + prec + 3 - 1)%Z with (emin + prec + 2)%Z by lia. rewrite Rabs_pos_eq by lra. exact Bm. }
  assert (K : 4 * bpow emin <= m - pred radix2 fexp m).
  { replace (4 * bpow emin) with (bpow (emin + 2)) by (rewrite bpow_plus; simpl (bpow 2); lra).
    rewrite pred_eq_pos by lra. unfold pred_pos.
    destruct (Req_bool_spec m (bpow (mag radix2 m - 1))) as [E|E].
    - assert (bpow (emin + 2) <= bpow (fexp (mag radix2 m - 1))) by (apply bpow_le; unfold FLT_exp; lia). lra.
    - rewrite ulp_neq_0 by lra. assert (bpow (emin + 2) <= bpow (cexp radix2 fexp m)); [| lra].
      apply bpow_le. unfold cexp, FLT_exp. lia. }
  lra.
Qed.
End Limit.
End Fmt.
