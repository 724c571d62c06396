(** The square-root loop, hypot and the spherical angles in floating point. *)
From Coq Require Import ZArith Reals Lra Lia Bool.
From Flocq Require Import Core Relative Sterbenz IEEE754.BinarySingleNaN.
From Verif Require Import FloatModel FloatProofs1 FloatProofs2.
Local Open Scope R_scope.

Section Fmt.
Context {prec emax : Z} {Hp : Prec_gt_0 prec} {Hx : Prec_lt_emax prec emax}.
Notation fl := (binary_float prec emax).
Notation emin := (3 - emax - prec)%Z.
Notation fexp := (FLT_exp emin prec).
Notation F := (generic_format radix2 fexp).
Notation rnd := (round radix2 fexp ZnearestE).
Notation bpow := (bpow radix2).
Notation v := (@B2R prec emax).
Notation pinf := (B754_infinity false : fl).
Hypothesis (Hprec : (2 <= prec)%Z) (Hemax : (65 <= emax)%Z).

(** A value that is [+inf], or finite, with a clear sign, and at least [t]. *)
Definition atleast (t : R) (x : fl) : Prop := x = pinf \/ (is_finite x = true /\ Bsign x = false /\ t <= v x).
Notation nn := (atleast 0).

Lemma sign_nonneg (x : fl) : is_finite x = true -> Bsign x = false -> 0 <= v x.
Proof.
  destruct x as [s|s| |s m e B]; try discriminate; cbn; intros _ ->.
  - lra.
  - apply F2R_ge_0. cbn. lia.
Qed.

Lemma sign_of_pos (x : fl) : 0 < v x -> Bsign x = false.
Proof.
  destruct x as [s|s| |s m e B]; cbn; try lra. destruct s; [| reflexivity].
  intros H. exfalso. apply Rlt_not_le in H. apply H. apply F2R_le_0. cbn. lia.
Qed.

Lemma nn_of (t : R) (x : fl) : is_finite x = true -> Bsign x = false -> t <= v x -> atleast t x.
Proof. intros. right. tauto. Qed.

Lemma B2SF_inf (x : fl) s : B2SF x = SpecFloat.S754_infinity s -> x = B754_infinity s.
Proof. destruct x; cbn; try discriminate. intros E. now injection E as ->. Qed.

Lemma overflow_inf s : binary_overflow prec emax mode_NE s = SpecFloat.S754_infinity s.
Proof. reflexivity. Qed.

Lemma fadd_nn (x y : fl) : nn x -> nn y ->
  fadd x y = pinf \/
  (is_finite x = true /\ is_finite y = true /\ is_finite (fadd x y) = true /\ Bsign (fadd x y) = false /\
   v (fadd x y) = rnd (v x + v y)).
Proof.
  intros [->|(F1 & S1 & _)]; intros [->|(F2 & S2 & _)].
  - left. reflexivity.
  - left. destruct y; try discriminate; reflexivity.
  - left. destruct x; try discriminate; reflexivity.
  - pose proof (Bplus_correct prec emax Hp Hx mode_NE x y F1 F2) as C.
    change (round radix2 (SpecFloat.fexp prec emax) (round_mode mode_NE)) with rnd in C.
    destruct (Rlt_bool (Rabs (rnd (v x + v y))) (bpow emax)).
    + right. destruct C as (C1 & C2 & C3). repeat split; try assumption.
      unfold fadd. rewrite C3, S1, S2. pose proof (sign_nonneg x F1 S1). pose proof (sign_nonneg y F2 S2).
      destruct (Rcompare_spec (v x + v y) 0); try reflexivity. lra.
    + left. destruct C as (C1 & _). rewrite overflow_inf, S1 in C1. exact (B2SF_inf _ _ C1).
Qed.

Lemma fmul_nn (x y : fl) : is_finite x = true -> 0 < v x -> nn y ->
  fmul x y = pinf \/
  (is_finite y = true /\ is_finite (fmul x y) = true /\ Bsign (fmul x y) = false /\ v (fmul x y) = rnd (v x * v y)).
Proof.
  intros F1 P1 [->|(F2 & S2 & _)].
  - left. pose proof (sign_of_pos x P1) as S. destruct x as [s|s| |s m e B]; cbn in P1; try discriminate; try lra.
    cbn in S. subst s. reflexivity.
  - pose proof (Bmult_correct prec emax Hp Hx mode_NE x y) as C. pose proof (sign_of_pos x P1) as S1.
    change (round radix2 (SpecFloat.fexp prec emax) (round_mode mode_NE)) with rnd in C.
    destruct (Rlt_bool (Rabs (rnd (v x * v y))) (bpow emax)).
    + right. destruct C as (C1 & C2 & C3). rewrite F1, F2 in C2. cbn [andb] in C2.
      repeat split; try assumption. unfold fmul. rewrite C3, S1, S2; [reflexivity |].
      now apply finite_nan.
    + left. rewrite overflow_inf, S1, S2 in C. exact (B2SF_inf _ _ C).
Qed.

Lemma fsqr_nn (x : fl) : is_finite x = true \/ x = pinf ->
  fmul x x = pinf \/
  (is_finite x = true /\ is_finite (fmul x x) = true /\ Bsign (fmul x x) = false /\ v (fmul x x) = rnd (v x * v x)).
Proof.
  intros [F1 | ->]; [| left; reflexivity].
  pose proof (Bmult_correct prec emax Hp Hx mode_NE x x) as C.
  change (round radix2 (SpecFloat.fexp prec emax) (round_mode mode_NE)) with rnd in C.
  destruct (Rlt_bool (Rabs (rnd (v x * v x))) (bpow emax)).
  + right. destruct C as (C1 & C2 & C3). rewrite F1 in C2. cbn [andb] in C2.
    repeat split; try assumption. unfold fmul. rewrite C3; [apply xorb_nilpotent |]. now apply finite_nan.
  + left. rewrite overflow_inf, xorb_nilpotent in C. exact (B2SF_inf _ _ C).
Qed.

Lemma fdiv_nn (a p : fl) : is_finite a = true -> 0 < v a -> nn p ->
  fdiv a p = pinf \/ (p = pinf /\ fdiv a p = fzero) \/
  (is_finite p = true /\ 0 < v p /\ is_finite (fdiv a p) = true /\ Bsign (fdiv a p) = false /\
   v (fdiv a p) = rnd (v a / v p)).
Proof.
  intros Fa Pa [->|(F2 & S2 & P2)].
  - right. left. split; [reflexivity |]. pose proof (sign_of_pos a Pa) as S.
    destruct a as [s|s| |s m e B]; cbn in Pa; try discriminate; try lra. cbn in S. subst s. reflexivity.
  - pose proof (sign_of_pos a Pa) as S1.
    destruct (Req_dec (v p) 0) as [Z|Z].
    + left. destruct p as [s|s| |s m e B]; try discriminate.
      * cbn in S2. subst s. destruct a as [s|s| |s m e B]; cbn in Pa; try discriminate; try lra.
        cbn in S1. subst s. reflexivity.
      * exfalso. cbn in Z. apply eq_0_F2R in Z. cbn in Z. destruct s; discriminate.
    + pose proof (Bdiv_correct prec emax Hp Hx mode_NE a p Z) as C.
      change (round radix2 (SpecFloat.fexp prec emax) (round_mode mode_NE)) with rnd in C.
      destruct (Rlt_bool (Rabs (rnd (v a / v p))) (bpow emax)).
      * right. right. destruct C as (C1 & C2 & C3). rewrite Fa in C2. repeat split; try assumption; [lra |].
        unfold fdiv. rewrite C3, S1, S2; [reflexivity |]. now apply finite_nan.
      * left. rewrite overflow_inf, S1, S2 in C. exact (B2SF_inf _ _ C).
Qed.

Lemma half_ok : v half = / 2 /\ is_finite half = true.
Proof.
  pose proof (Hx : (prec < emax)%Z).
  destruct (of_me_ok (prec := prec) (emax := emax) 1 (-1)) as [A B].
  - rewrite Rmult_1_l, Rabs_pos_eq by apply bpow_ge_0. apply bpow_le. lia.
  - split; [| exact B]. unfold half. rewrite A, Rmult_1_l.
    rewrite rnd_F; [simpl; lra |]. apply F_bpow; [exact Hp | lia].
Qed.

(** One round of the loop. *)
Definition step (a p : fl) : fl := fmul half (fadd p (fdiv a p)).

Lemma step_cases (a p : fl) : is_finite a = true -> 0 < v a -> nn p ->
  step a p = pinf \/
  (is_finite p = true /\ 0 < v p /\ is_finite (step a p) = true /\ Bsign (step a p) = false /\
   v (step a p) = rnd (/ 2 * rnd (v p + rnd (v a / v p)))).
Proof.
  intros Fa Pa Hn. destruct half_ok as [H1 H2]. unfold step.
  assert (HI : fmul half pinf = pinf).
  { destruct (fmul_nn half pinf H2 ltac:(lra) ltac:(left; reflexivity)) as [E|E]; [exact E | destruct E; discriminate]. }
  destruct (fdiv_nn a p Fa Pa Hn) as [E|[[-> E]|(F1 & P1 & F2 & S2 & V2)]].
  - rewrite E. left. assert (fadd p pinf = pinf) as ->; [| exact HI].
    destruct (fadd_nn p pinf Hn ltac:(left; reflexivity)) as [A|A]; [exact A | destruct A as (_ & A & _); discriminate].
  - rewrite E. left. assert (fadd pinf fzero = pinf) as ->; [reflexivity | exact HI].
  - assert (N2 : nn (fdiv a p)) by (apply nn_of; [exact F2 | exact S2 | now apply sign_nonneg]).
    destruct (fadd_nn p (fdiv a p) Hn N2) as [E|(_ & _ & F3 & S3 & V3)].
    + rewrite E. left. exact HI.
    + assert (N3 : nn (fadd p (fdiv a p))) by (apply nn_of; [exact F3 | exact S3 | now apply sign_nonneg]).
      destruct (fmul_nn half _ H2 ltac:(lra) N3) as [E|(_ & F4 & S4 & V4)]; [left; exact E |].
      right. repeat split; try assumption. rewrite V4, V3, V2, H1. reflexivity.
Qed.

Lemma step_nn (a p : fl) : is_finite a = true -> 0 < v a -> nn p -> nn (step a p).
Proof.
  intros Fa Pa Hn. destruct (step_cases a p Fa Pa Hn) as [E|(_ & _ & A & B & _)]; [left; exact E |].
  apply nn_of; [exact A | exact B | now apply sign_nonneg].
Qed.

(** What holds of every round holds of the value returned. *)
Lemma loop_ind (a : fl) (I Q : fl -> Prop) : (forall p, I p -> I (step a p) /\ Q (step a p)) ->
  forall fuel next previous r, I next -> (feq next previous = true -> Q next) ->
  sqrt_loop fuel a next previous = FVal r -> Q r.
Proof.
  intros Hs. induction fuel as [|f IH]; intros next previous r In Qn E; cbn [sqrt_loop] in E.
  - destruct (feq next previous); [injection E as <-; now apply Qn | discriminate].
  - destruct (feq next previous); [injection E as <-; now apply Qn |].
    change (fmul half (fadd next (fdiv a next))) with (step a next) in E.
    destruct (Hs next In) as [A B]. eapply IH; [exact A | intros _; exact B | exact E].
Qed.

Lemma fsqrt_loop (a : fl) : is_finite a = true -> 0 < v a -> forall fuel,
  fsqrt fuel a = sqrt_loop fuel a (fmul half a) fzero.
Proof.
  intros Fa Pa fuel. unfold fsqrt. rewrite (finite_nan a Fa), feq_spec, flt_spec by (try assumption; reflexivity).
  change (v fzero) with 0. rewrite Req_bool_false, Rlt_bool_false by lra. cbn [orb].
  destruct a; try discriminate; reflexivity.
Qed.

Lemma half_nn (a : fl) : is_finite a = true -> 0 < v a -> nn (fmul half a).
Proof.
  intros Fa Pa. destruct half_ok as [H1 H2].
  destruct (fmul_nn half a H2 ltac:(lra)) as [E|(_ & A & B & _)].
  - apply nn_of; [exact Fa | now apply sign_of_pos | lra].
  - left. exact E.
  - apply nn_of; [exact A | exact B | now apply sign_nonneg].
Qed.

(** The square root of a number that is not negative is not negative and not a NaN. *)
Lemma fsqrt_nn (a : fl) fuel r : nn a -> fsqrt fuel a = FVal r -> nn r.
Proof.
  intros [->|(Fa & Sa & _)] E.
  - cbn in E. injection E as <-. left. reflexivity.
  - destruct (Req_dec (v a) 0) as [Z|Z].
    + unfold fsqrt in E. rewrite (finite_nan a Fa), feq_spec in E by (try assumption; reflexivity).
      change (v fzero) with 0 in E. rewrite Req_bool_true in E by exact Z. cbn [orb] in E. injection E as <-.
      apply nn_of; [exact Fa | exact Sa | lra].
    + assert (Pa : 0 < v a) by (pose proof (sign_nonneg a Fa Sa); lra).
      rewrite (fsqrt_loop a Fa Pa) in E.
      eapply (loop_ind a nn nn); [| | | exact E].
      * intros p Hn. pose proof (step_nn a p Fa Pa Hn). tauto.
      * now apply half_nn.
      * intros _. now apply half_nn.
Qed.

(** *** Arguments not below one. *)
Lemma F2 : F 2.
Proof. change 2 with (bpow 1). apply F_bpow; [exact Hp |]. pose proof (Hx : (prec < emax)%Z). lia. Qed.
Lemma F1 : F 1.
Proof. change 1 with (bpow 0). apply F_bpow; [exact Hp |]. pose proof (Hx : (prec < emax)%Z). lia. Qed.

Lemma iter_ge_2 (A P : R) : F P -> 0 < P -> 1 <= A -> 2 <= rnd (P + rnd (A / P)).
Proof.
  intros FP HP HA. pose proof (Hx : (prec < emax)%Z).
  apply Rle_trans with (rnd (P + rnd (1 / P))).
  2:{ apply rnd_mono; [exact Hp |]. apply Rplus_le_compat_l. apply rnd_mono; [exact Hp |].
      apply Rmult_le_compat_r; [left; now apply Rinv_0_lt_compat | exact HA]. }
  assert (Q0 : 0 <= rnd (1 / P)).
  { apply rnd_ge; [exact Hp | apply generic_format_0 |]. apply Rmult_le_pos; [lra | left; now apply Rinv_0_lt_compat]. }
  destruct (Rle_or_lt 2 P) as [C|C].
  { apply rnd_ge; [exact Hp | apply F2 | lra]. }
  destruct (Rle_or_lt P (/ 2)) as [D|D].
  { apply rnd_ge; [exact Hp | apply F2 |].
    assert (2 <= rnd (1 / P)); [| lra]. apply rnd_ge; [exact Hp | apply F2 |].
    apply Rmult_le_reg_r with P; [exact HP |]. unfold Rdiv. rewrite Rmult_assoc, Rinv_l; lra. }
  destruct (Req_dec P 1) as [E|E].
  { rewrite E. replace (1 / 1) with 1 by field. rewrite (rnd_F _ _ 1) by apply F1. replace (1 + 1) with 2 by lra.
    rewrite rnd_F by apply F2. lra. }
  assert (I2 : 1 / P < 2).
  { apply Rmult_lt_reg_r with P; [exact HP |]. unfold Rdiv. rewrite Rmult_assoc, Rinv_l; lra. }
  assert (I0 : 0 < 1 / P) by (unfold Rdiv; rewrite Rmult_1_l; now apply Rinv_0_lt_compat).
  assert (Er : Rabs (rnd (1 / P) - 1 / P) <= bpow (1 - prec) / 2).
  { apply rnd_err; [exact Hp | | lia]. replace (prec + (1 - prec))%Z with 1%Z by lia. rewrite Rabs_pos_eq by lra. simpl. lra. }
  apply Rabs_le_inv in Er.
  assert (S : 2 < P + 1 / P).
  { apply Rmult_lt_reg_r with P; [exact HP |]. unfold Rdiv. rewrite Rmult_plus_distr_r, Rmult_assoc, Rinv_l by lra.
    assert (0 < (P - 1) * (P - 1)) by (apply Rlt_0_sqr; lra). lra. }
  apply round_N_ge_midp; auto with typeclass_instances; [apply F2 |].
  assert (P2 : pred radix2 fexp 2 <= 2 - bpow (1 - prec)).
  { change 2 with (bpow 1). rewrite pred_bpow. assert (bpow (1 - prec) <= bpow (fexp 1)); [| lra].
    apply bpow_le. unfold FLT_exp. lia. }
  lra.
Qed.

Lemma step_ge_1 (a p : fl) : is_finite a = true -> 1 <= v a -> nn p -> atleast 1 (step a p).
Proof.
  intros Fa Pa Hn. destruct (step_cases a p Fa ltac:(lra) Hn) as [E|(A & B & C & D & E)]; [left; exact E |].
  right. split; [exact C |]. split; [exact D |]. rewrite E.
  pose proof (iter_ge_2 (v a) (v p) (v_F p) B Pa). apply rnd_ge; [exact Hp | apply F1 | lra].
Qed.

Lemma fsqrt_ge_1 (a : fl) fuel r : is_finite a = true -> 1 <= v a -> fsqrt fuel a = FVal r -> atleast 1 r.
Proof.
  intros Fa Pa E. rewrite (fsqrt_loop a Fa ltac:(lra)) in E.
  eapply (loop_ind a nn (atleast 1)); [| | | exact E].
  - intros p Hn. split; [apply step_nn; [exact Fa | lra | exact Hn] | now apply step_ge_1].
  - apply half_nn; [exact Fa | lra].
  - intros C. exfalso. destruct half_ok as [H1 H2].
    assert (Hb : Rabs (v half * v a) <= bpow (emax - 1)).
    { rewrite H1. pose proof (abs_B2R_lt_emax prec emax a) as B. rewrite Rabs_pos_eq in B by lra.
      rewrite Rabs_pos_eq by lra. assert (BB : bpow emax = 2 * bpow (emax - 1)) by (replace emax with (1 + (emax - 1))%Z at 1 by lia; rewrite bpow_plus; simpl (bpow 1); lra). rewrite BB in B.
      apply Rmult_le_reg_l with 2; [lra |]. rewrite <- Rmult_assoc, Rinv_r, Rmult_1_l by lra. left. exact B. }
    destruct (fmul_ok half a H2 Fa Hb) as [M1 M2].
    rewrite feq_spec in C by (try assumption; reflexivity). change (v fzero) with 0 in C. rewrite M1, H1 in C.
    assert (/ 2 <= rnd (/ 2 * v a)).
    { apply rnd_ge; [exact Hp | change (/ 2) with (bpow (-1)); apply F_bpow; [exact Hp |] | lra].
      pose proof (Hx : (prec < emax)%Z). lia. }
    rewrite Req_bool_false in C by lra. discriminate.
Qed.

(** *** hypot *)
Lemma fabs_ok (x : fl) : is_finite x = true -> is_finite (fabs x) = true /\ v (fabs x) = Rabs (v x).
Proof.
  intros Fx. unfold fabs, fsignbit. rewrite flt_spec by (try assumption; reflexivity). change (v fzero) with 0.
  destruct (Rlt_bool_spec (v x) 0).
  - rewrite is_finite_Bopp, B2R_Bopp, Rabs_left by lra. split; [exact Fx | reflexivity].
  - rewrite Rabs_pos_eq by lra. split; [exact Fx | reflexivity].
Qed.

Lemma fmax_ok (x y : fl) : is_finite x = true -> is_finite y = true ->
  is_finite (fmax x y) = true /\ v (fmax x y) = Rmax (v x) (v y).
Proof.
  intros A B. unfold fmax. rewrite flt_spec by assumption. destruct (Rlt_bool_spec (v x) (v y)).
  - rewrite Rmax_right by lra. tauto.
  - rewrite Rmax_left by lra. tauto.
Qed.

Lemma quot_le_1 (x m : fl) : is_finite x = true -> 0 < v m -> Rabs (v x) <= v m ->
  is_finite (fdiv x m) = true /\ Rabs (v (fdiv x m)) <= 1 /\ v (fdiv x m) = rnd (v x / v m).
Proof.
  intros Fx Pm H. pose proof (Hx : (prec < emax)%Z).
  assert (Q : Rabs (v x / v m) <= 1).
  { unfold Rdiv. rewrite Rabs_mult, Rabs_inv, (Rabs_pos_eq (v m)) by lra.
    apply Rmult_le_reg_r with (v m); [lra |]. rewrite Rmult_assoc, Rinv_l; lra. }
  destruct (fdiv_ok x m Fx ltac:(lra)) as [A B].
  { eapply Rle_trans; [exact Q |]. change 1 with (bpow 0). apply bpow_le. lia. }
  split; [exact B |]. split; [| exact A]. rewrite A. apply Rabs_le_inv in Q. apply Rabs_le. split.
  - apply rnd_ge; [exact Hp | apply generic_format_opp, F1 | lra].
  - apply rnd_le; [exact Hp | apply F1 | lra].
Qed.

Theorem fhypot_ge (x y : fl) fuel r : is_finite x = true -> is_finite y = true -> fhypot fuel x y = FVal r ->
  r = pinf \/
  (is_finite r = true /\ Rabs (v x) <= v r /\ Rabs (v y) <= v r).
Proof.
  intros Fx Fy E. unfold fhypot in E.
  rewrite (finite_inf x Fx), (finite_inf y Fy), (finite_nan x Fx), (finite_nan y Fy) in E. cbn [orb] in E. cbv zeta in E.
  destruct (fabs_ok x Fx) as [X1 X2]. destruct (fabs_ok y Fy) as [Y1 Y2].
  destruct (fmax_ok _ _ X1 Y1) as [M1 M2]. rewrite X2, Y2 in M2. set (m := fmax (fabs x) (fabs y)) in *.
  rewrite feq_spec in E by (try assumption; reflexivity). change (v fzero) with 0 in E.
  pose proof (Rmax_l (Rabs (v x)) (Rabs (v y))) as L1. pose proof (Rmax_r (Rabs (v x)) (Rabs (v y))) as L2.
  pose proof (Rabs_pos (v x)) as N1. pose proof (Rabs_pos (v y)) as N2.
  destruct (Req_dec (v m) 0) as [Z|Z].
  { rewrite Req_bool_true in E by exact Z. injection E as <-. right. split; [exact M1 |]. rewrite Z. rewrite M2 in Z. lra. }
  rewrite Req_bool_false in E by exact Z.
  assert (Pm : 0 < v m) by (rewrite M2 in Z |- *; lra).
  destruct (quot_le_1 x m Fx Pm ltac:(lra)) as (A1 & A2 & A3).
  destruct (quot_le_1 y m Fy Pm ltac:(lra)) as (B1 & B2 & B3).
  set (qx := fdiv x m) in *. set (qy := fdiv y m) in *.
  assert (Sq : forall q : fl, is_finite q = true -> Rabs (v q) <= 1 ->
    is_finite (fmul q q) = true /\ Bsign (fmul q q) = false /\ v (fmul q q) = rnd (v q * v q) /\ 0 <= v (fmul q q) <= 1).
  { intros q Fq Hq. pose proof (Hx : (prec < emax)%Z).
    assert (H2 : 0 <= v q * v q <= 1).
    { split; [apply Rle_0_sqr |]. rewrite <- (Rabs_pos_eq (v q * v q)) by apply Rle_0_sqr. rewrite Rabs_mult.
      rewrite <- (Rmult_1_l 1). apply Rmult_le_compat; try apply Rabs_pos; exact Hq. }
    destruct (fmul_ok q q Fq Fq) as [C1 C2].
    { rewrite Rabs_pos_eq by lra. apply Rle_trans with 1; [lra |]. change 1 with (bpow 0). apply bpow_le. lia. }
    destruct (fsqr_nn q (or_introl Fq)) as [C|(_ & _ & C & _)]; [rewrite C in C2; discriminate |].
    split; [exact C2 |]. split; [exact C |]. split; [exact C1 |]. rewrite C1. split.
    - apply rnd_ge; [exact Hp | apply generic_format_0 | lra].
    - apply rnd_le; [exact Hp | apply F1 | lra]. }
  destruct (Sq qx A1 A2) as (C1 & C2 & C3 & C4). destruct (Sq qy B1 B2) as (D1 & D2 & D3 & D4).
  destruct (fadd_ok (fmul qx qx) (fmul qy qy) C1 D1) as [S1 S2].
  { rewrite Rabs_pos_eq by lra. apply Rle_trans with 2; [lra |]. change 2 with (bpow 1). apply bpow_le. lia. }
  assert (One : forall t : fl, v (fdiv t m) = rnd (v t / v m) -> Rabs (v t) = v m ->
     v (fmul (fdiv t m) (fdiv t m)) = rnd (v (fdiv t m) * v (fdiv t m)) -> v (fmul (fdiv t m) (fdiv t m)) = 1).
  { intros t V1 Vt V2. rewrite V2, V1.
    assert (Q : rnd (v t / v m) * rnd (v t / v m) = 1).
    { destruct (Rle_or_lt 0 (v t)).
      - rewrite Rabs_pos_eq in Vt by lra. rewrite Vt. replace (v m / v m) with 1 by (field; lra). rewrite rnd_F by apply F1. lra.
      - rewrite Rabs_left in Vt by lra. replace (v t / v m) with (- 1) by (rewrite <- Vt; field; lra).
        rewrite rnd_F by (apply generic_format_opp, F1). lra. }
    rewrite Q. apply rnd_F, F1. }
  assert (Hs : 1 <= v (fadd (fmul qx qx) (fmul qy qy))).
  { rewrite S1. apply rnd_ge; [exact Hp | apply F1 |].
    destruct (Rle_or_lt (Rabs (v y)) (Rabs (v x))) as [C|C].
    - rewrite Rmax_left in M2 by exact C. pose proof (One x A3 (eq_sym M2) C3) as O. fold qx in O. rewrite O. lra.
    - rewrite Rmax_right in M2 by lra. pose proof (One y B3 (eq_sym M2) D3) as O. fold qy in O. rewrite O. lra. }
  destruct (fsqrt fuel (fadd (fmul qx qx) (fmul qy qy))) as [s| | |] eqn:ES; cbn [fbind] in E; try discriminate.
  injection E as <-. pose proof (fsqrt_ge_1 _ _ _ S2 Hs ES) as G.
  assert (Gn : nn s) by (destruct G as [->|(G1 & G2 & G3)]; [left; reflexivity | apply nn_of; [exact G1 | exact G2 | lra]]).
  destruct (fmul_nn m s M1 Pm Gn) as [E|(G1 & G2 & _ & G4)]; [left; exact E |].
  right. split; [exact G2 |]. destruct G as [->|(_ & _ & G3)]; [discriminate |].
  assert (v m <= v (fmul m s)).
  { rewrite G4. apply rnd_ge; [exact Hp | apply v_F |]. rewrite <- (Rmult_1_r (v m)) at 1. apply Rmult_le_compat_l; lra. }
  lra.
Qed.

End Fmt.
