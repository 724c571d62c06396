(** The floating-point operations of the model as rounded real operations; fmod with a quotient of at most two. *)
From Coq Require Import ZArith Reals Lra Lia Bool.
From Flocq Require Import Core Sterbenz IEEE754.BinarySingleNaN.
From Verif Require Import FloatModel FloatProofs1.
Local Open Scope R_scope.

Lemma fl_cast_correct {p e p' e' : Z} {Hp' : Prec_gt_0 p'} {Hx' : Prec_lt_emax p' e'} (x : binary_float p e) :
  is_finite x = true ->
  Rabs (round radix2 (FLT_exp (3 - e' - p') p') ZnearestE (B2R x)) < bpow radix2 e' ->
  B2R (cast p' e' x) = round radix2 (FLT_exp (3 - e' - p') p') ZnearestE (B2R x) /\ is_finite (cast p' e' x) = true.
Proof.
  destruct x as [s|s| |s m ex B]; try discriminate; intros _ H; cbn [cast].
  - cbn [B2R is_finite]. rewrite round_0; auto with typeclass_instances.
  - pose proof (binary_normalize_correct p' e' Hp' Hx' mode_NE (cond_Zopp s (Zpos m)) ex s) as N. cbv zeta in N.
    cbn [B2R] in H |- *.
    change (round radix2 (SpecFloat.fexp p' e') (round_mode mode_NE)) with
      (round radix2 (FLT_exp (3 - e' - p') p') ZnearestE) in N.
    rewrite Rlt_bool_true in N by exact H. destruct N as (A & B' & _). split; [exact A | exact B'].
Qed.

Section Fmt.
Context {prec emax : Z} {Hp : Prec_gt_0 prec} {Hx : Prec_lt_emax prec emax}.
Notation fl := (binary_float prec emax).
Notation emin := (3 - emax - prec)%Z.
Notation fexp := (FLT_exp emin prec).
Notation F := (generic_format radix2 fexp).
Notation rnd := (round radix2 fexp ZnearestE).
Notation bpow := (bpow radix2).
Notation v := (@B2R prec emax).

Lemma v_F (x : fl) : F (v x).
Proof. exact (generic_format_B2R prec emax x). Qed.

Lemma rnd_lt_emax x : Rabs x <= bpow (emax - 1) -> Rabs (rnd x) < bpow emax.
Proof.
  intros H. apply Rle_lt_trans with (bpow (emax - 1)); [| apply bpow_lt; lia].
  pose proof (prec_pos prec). pose proof (Hx : (prec < emax)%Z).
  assert (G : F (bpow (emax - 1))) by (apply F_bpow; [exact Hp | lia]).
  apply Rabs_le_inv in H. apply Rabs_le. split.
  - apply rnd_ge; [exact Hp | now apply generic_format_opp | lra].
  - apply rnd_le; [exact Hp | exact G | lra].
Qed.

Lemma fadd_ok (x y : fl) : is_finite x = true -> is_finite y = true -> Rabs (v x + v y) <= bpow (emax - 1) ->
  v (fadd x y) = rnd (v x + v y) /\ is_finite (fadd x y) = true.
Proof.
  intros A B H. pose proof (Bplus_correct prec emax Hp Hx mode_NE x y A B) as C.
  change (round radix2 (SpecFloat.fexp prec emax) (round_mode mode_NE)) with rnd in C.
  rewrite Rlt_bool_true in C by (now apply rnd_lt_emax). tauto.
Qed.

Lemma fsub_ok (x y : fl) : is_finite x = true -> is_finite y = true -> Rabs (v x - v y) <= bpow (emax - 1) ->
  v (fsub x y) = rnd (v x - v y) /\ is_finite (fsub x y) = true.
Proof.
  intros A B H. pose proof (Bminus_correct prec emax Hp Hx mode_NE x y A B) as C.
  change (round radix2 (SpecFloat.fexp prec emax) (round_mode mode_NE)) with rnd in C.
  rewrite Rlt_bool_true in C by (now apply rnd_lt_emax). tauto.
Qed.

Lemma fmul_ok (x y : fl) : is_finite x = true -> is_finite y = true -> Rabs (v x * v y) <= bpow (emax - 1) ->
  v (fmul x y) = rnd (v x * v y) /\ is_finite (fmul x y) = true.
Proof.
  intros A B H. pose proof (Bmult_correct prec emax Hp Hx mode_NE x y) as C.
  change (round radix2 (SpecFloat.fexp prec emax) (round_mode mode_NE)) with rnd in C.
  rewrite Rlt_bool_true in C by (now apply rnd_lt_emax). destruct C as (C1 & C2 & _).
  split; [exact C1 |]. unfold fmul. rewrite C2, A, B. reflexivity.
Qed.

Lemma fdiv_ok (x y : fl) : is_finite x = true -> v y <> 0 -> Rabs (v x / v y) <= bpow (emax - 1) ->
  v (fdiv x y) = rnd (v x / v y) /\ is_finite (fdiv x y) = true.
Proof.
  intros A B H. pose proof (Bdiv_correct prec emax Hp Hx mode_NE x y B) as C.
  change (round radix2 (SpecFloat.fexp prec emax) (round_mode mode_NE)) with rnd in C.
  rewrite Rlt_bool_true in C by (now apply rnd_lt_emax). destruct C as (C1 & C2 & _).
  split; [exact C1 |]. unfold fdiv. rewrite C2. exact A.
Qed.

Lemma of_me_ok (m e : Z) : Rabs (IZR m * bpow e) <= bpow (emax - 1) ->
  v (of_me m e) = rnd (IZR m * bpow e) /\ is_finite (of_me m e) = true.
Proof.
  intros H. pose proof (binary_normalize_correct prec emax Hp Hx mode_NE m e false) as N. cbv zeta in N.
  change (round radix2 (SpecFloat.fexp prec emax) (round_mode mode_NE)) with rnd in N.
  rewrite Rlt_bool_true in N by (now apply rnd_lt_emax). destruct N as (A & B & _). split; [exact A | exact B].
Qed.

Lemma of_Z_ok (n : Z) : Rabs (IZR n) <= bpow (emax - 1) -> v (of_Z n) = rnd (IZR n) /\ is_finite (of_Z n) = true.
Proof.
  intros H. pose proof (of_me_ok n 0) as K. change (bpow 0) with 1 in K. rewrite Rmult_1_r in K. now apply K.
Qed.

Lemma flt_spec (x y : fl) : is_finite x = true -> is_finite y = true -> flt x y = Rlt_bool (v x) (v y).
Proof. apply Bltb_correct. Qed.
Lemma fle_spec (x y : fl) : is_finite x = true -> is_finite y = true -> fle x y = Rle_bool (v x) (v y).
Proof. apply Bleb_correct. Qed.
Lemma feq_spec (x y : fl) : is_finite x = true -> is_finite y = true -> feq x y = Req_bool (v x) (v y).
Proof. apply Beqb_correct. Qed.

Lemma finite_nan (x : fl) : is_finite x = true -> isnan x = false.
Proof. now destruct x. Qed.
Lemma finite_inf (x : fl) : is_finite x = true -> isinf x = false.
Proof. now destruct x. Qed.

Lemma trunc_in (q : R) (n : Z) : (0 <= n)%Z -> IZR n <= q < IZR n + 1 -> Ztrunc q = n.
Proof.
  intros Hn H. rewrite Ztrunc_floor by (apply (IZR_le 0) in Hn; lra). apply Zfloor_imp. rewrite plus_IZR. exact H.
Qed.

Lemma Btrunc_spec (x : fl) : Btrunc x = Ztrunc (v x).
Proof.
  pose proof (Btrunc_correct prec emax Hx x) as H. unfold round, scaled_mantissa, cexp, F2R in H.
  cbn [Fnum Fexp FIX_exp] in H. change (Raux.bpow radix2 (FIX_exp 0 (mag radix2 (B2R x)))) with 1 in H.
  change (Raux.bpow radix2 (- FIX_exp 0 (mag radix2 (B2R x)))) with 1 in H. rewrite !Rmult_1_r in H.
  now apply eq_IZR in H.
Qed.

Hypothesis (Hprec : (2 <= prec)%Z) (Hemax : (65 <= emax)%Z).

Lemma F_Z (n : Z) : (Z.abs n <= 2 ^ prec)%Z -> F (IZR n).
Proof.
  intros H. pose proof (Hx : (prec < emax)%Z). replace (IZR n) with (IZR n * bpow 0) by (simpl; lra).
  apply F_grid; [exact Hp | lia | lia].
Qed.

Lemma small_Z (n : Z) : (Z.abs n <= 4)%Z -> v (of_Z n) = IZR n /\ is_finite (of_Z n) = true.
Proof.
  intros H. pose proof (Hx : (prec < emax)%Z).
  assert (4 <= 2 ^ prec)%Z by (change 4%Z with (2 ^ 2)%Z; apply Z.pow_le_mono_r; lia).
  destruct (of_Z_ok n) as [A B].
  - rewrite <- abs_IZR. apply Rle_trans with (bpow 2); [apply (IZR_le _ 4) in H; simpl; lra | apply bpow_le; lia].
  - rewrite A. split; [| exact B]. apply rnd_F. apply F_Z. lia.
Qed.

(** The range test of fmod lets small quotients through. *)
Lemma range_test (q : fl) : is_finite q = true -> Rabs (v q) <= 2 ->
  flt q (of_Z (- 2 ^ 63)) || flt (of_Z (2 ^ 63 - 1)) q = false /\
  ((- 2 ^ 63 <=? Btrunc q) && (Btrunc q <=? 2 ^ 63 - 1))%Z && is_finite q = true.
Proof.
  intros Fq Hq. apply Rabs_le_inv in Hq.
  assert (B2 : 2 ^ 63 <= bpow (emax - 1)).
  { replace (2 ^ 63) with (bpow 63) by (simpl; lra). apply bpow_le. lia. }
  assert (I : IZR (2 ^ 63) = 2 ^ 63) by (rewrite pow_IZR; reflexivity).
  assert (T : -2 <= rnd (- 2) /\ rnd 2 = 2).
  { pose proof (small_Z (-2) ltac:(lia)). pose proof (small_Z 2 ltac:(lia)).
    rewrite !rnd_F; try exact Hp; try lra.
    - apply F_Z. assert (4 <= 2 ^ prec)%Z by (change 4%Z with (2 ^ 2)%Z; apply Z.pow_le_mono_r; lia). lia.
    - apply F_Z. assert (4 <= 2 ^ prec)%Z by (change 4%Z with (2 ^ 2)%Z; apply Z.pow_le_mono_r; lia). lia. }
  destruct (of_Z_ok (- 2 ^ 63)) as [A1 A2].
  { rewrite opp_IZR, Rabs_Ropp, I, Rabs_pos_eq by (apply pow_le; lra). exact B2. }
  destruct (of_Z_ok (2 ^ 63 - 1)) as [C1 C2].
  { rewrite minus_IZR, I. rewrite Rabs_pos_eq; [lra |]. assert (1 <= 2 ^ 63) by (apply pow_R1_Rle; lra). lra. }
  split.
  - rewrite !flt_spec by assumption. rewrite A1, C1.
    rewrite !Rlt_bool_false; [reflexivity | |].
    + apply Rle_trans with 2; [lra |]. rewrite <- (proj2 T). apply rnd_mono; [exact Hp |]. apply (IZR_le 2). lia.
    + apply Rle_trans with (-2); [| lra]. apply Rle_trans with (rnd (-2)).
      * apply rnd_mono; [exact Hp |]. apply (IZR_le _ (-2)). lia.
      * rewrite rnd_F; [lra |]. apply F_Z.
        assert (4 <= 2 ^ prec)%Z by (change 4%Z with (2 ^ 2)%Z; apply Z.pow_le_mono_r; lia). lia.
  - rewrite Btrunc_spec, Fq, andb_true_r.
    assert (- 2 <= Ztrunc (v q) <= 2)%Z.
    { split; [rewrite <- (Ztrunc_IZR (-2)) | rewrite <- (Ztrunc_IZR 2)]; apply Ztrunc_le; lra. }
    apply andb_true_intro. split; apply Z.leb_le; lia.
Qed.

(** The value of fmod when the quotient is at most two. *)
Definition fmod2 (x y : R) : R :=
  if Rlt_bool (Rabs x) y then x
  else if Rlt_bool (Rabs x) (2 * y) then (if Rlt_bool x 0 then x + y else x - y)
  else 0.

Lemma ffmod_small (x y : fl) : is_finite x = true -> is_finite y = true -> 0 < v y <= bpow (emax - 2) ->
  Rabs (v x) <= 2 * v y ->
  exists m, ffmod x y = FVal m /\ is_finite m = true /\ v m = fmod2 (v x) (v y).
Proof.
  intros Fx Fy Hy H. pose proof (Hx : (prec < emax)%Z).
  assert (Em : (emin <= - prec)%Z) by lia.
  assert (B2 : 2 * bpow (emax - 2) = bpow (emax - 1)).
  { replace (emax - 1)%Z with (1 + (emax - 2))%Z by lia. rewrite bpow_plus. simpl. lra. }
  unfold ffmod.
  rewrite (finite_nan x Fx), (finite_nan y Fy), (finite_inf x Fx), (finite_inf y Fy). cbn [orb].
  rewrite !feq_spec by (try assumption; reflexivity). change (v fzero) with 0.
  rewrite (Req_bool_false (v y)) by lra. rewrite orb_false_r.
  destruct (Req_dec (v x) 0) as [X0|X0].
  { rewrite Req_bool_true by exact X0. exists x. split; [reflexivity |]. split; [exact Fx |].
    unfold fmod2. rewrite X0, Rabs_R0, Rlt_bool_true by lra. reflexivity. }
  rewrite Req_bool_false by exact X0. cbv zeta.
  assert (Q : Rabs (v x / v y) <= 2).
  { unfold Rdiv. rewrite Rabs_mult, Rabs_inv, (Rabs_pos_eq (v y)) by lra.
    apply Rmult_le_reg_r with (v y); [lra |]. rewrite Rmult_assoc, Rinv_l; lra. }
  destruct (fdiv_ok x y Fx ltac:(lra)) as [Dq Df].
  { eapply Rle_trans; [exact Q |]. apply Rle_trans with (bpow 1); [simpl; lra | apply bpow_le; lia]. }
  set (q := fdiv x y) in *.
  assert (F2 : F 2).
  { apply F_Z. assert (4 <= 2 ^ prec)%Z by (change 4%Z with (2 ^ 2)%Z; apply Z.pow_le_mono_r; lia). lia. }
  assert (Q2 : Rabs (v q) <= 2).
  { rewrite Dq. apply Rabs_le_inv in Q. apply Rabs_le. split.
    - apply rnd_ge; [exact Hp | now apply generic_format_opp | lra].
    - apply rnd_le; [exact Hp | exact F2 | lra]. }
  destruct (range_test q Df Q2) as [R1 R2]. rewrite R1, R2.
  (* the truncated quotient *)
  assert (NT : let n := Btrunc q in
    (Rabs (v x) < v y -> n = 0%Z) /\
    (v y <= Rabs (v x) < 2 * v y -> n = if Rlt_bool (v x) 0 then (-1)%Z else 1%Z) /\
    (Rabs (v x) = 2 * v y -> n = if Rlt_bool (v x) 0 then (-2)%Z else 2%Z)).
  { intros n. unfold n. rewrite Btrunc_spec, Dq.
    assert (Gen : forall w, F w -> 0 <= w <= 2 * v y ->
      (w < v y -> Ztrunc (rnd (w / v y)) = 0%Z) /\
      (v y <= w < 2 * v y -> Ztrunc (rnd (w / v y)) = 1%Z) /\
      (w = 2 * v y -> Ztrunc (rnd (w / v y)) = 2%Z)).
    { intros w Fw Hw. split; [| split].
      - intros L. apply trunc_in; [lia |].
        pose proof (rnd_quot_lt_1 _ _ (Hp := Hp) w (v y) Em Fw (v_F y) (proj1 Hw) L). lra.
      - intros L. apply trunc_in; [lia |].
        pose proof (rnd_quot_lt_2 _ _ (Hp := Hp) w (v y) Em Fw (v_F y) (proj1 L) (proj1 Hy) (proj2 L)). lra.
      - intros ->. replace (2 * v y / v y) with 2 by (field; lra). rewrite rnd_F by assumption.
        apply (Ztrunc_IZR 2). }
    destruct (Rlt_bool_spec (v x) 0) as [S|S].
    - rewrite Rabs_left by exact S. rewrite Rabs_left in H by exact S.
      destruct (Gen (- v x)) as (G1 & G2 & G3); [apply generic_format_opp, v_F | lra |].
      assert (E : Ztrunc (rnd (v x / v y)) = (- Ztrunc (rnd (- v x / v y)))%Z).
      { rewrite <- Ztrunc_opp. f_equal. rewrite <- rnd_opp. f_equal. field. lra. }
      rewrite E. split; [| split]; intros L; [rewrite G1 by lra | rewrite G2 by lra | rewrite G3 by lra]; reflexivity.
    - rewrite Rabs_pos_eq by exact S. rewrite Rabs_pos_eq in H by exact S.
      destruct (Gen (v x)) as (G1 & G2 & G3); [apply v_F | lra |].
      split; [| split]; intros L; [rewrite G1 by lra | rewrite G2 by lra | rewrite G3 by lra]; reflexivity. }
  set (n := Btrunc q) in *.
  assert (Hn : (Z.abs n <= 2)%Z /\ F (v x - IZR n * v y) /\ v x - IZR n * v y = fmod2 (v x) (v y)).
  { unfold fmod2. destruct (Rlt_bool_spec (Rabs (v x)) (v y)) as [C|C].
    { rewrite (proj1 NT C). split; [lia |]. rewrite Rmult_0_l, Rminus_0_r. split; [apply v_F | reflexivity]. }
    destruct (Rlt_bool_spec (Rabs (v x)) (2 * v y)) as [C'|C'].
    { destruct NT as (_ & NT & _). specialize (NT (conj C C')). rewrite NT. clear NT.
      destruct (Rlt_bool_spec (v x) 0) as [S|S].
      - rewrite Rabs_left in C, C' by exact S. split; [lia |]. replace (v x - -1 * v y) with (v x + v y) by lra.
        split; [| reflexivity]. replace (v x + v y) with (- (- v x - v y)) by lra. apply generic_format_opp.
        apply sterbenz; auto with typeclass_instances; [apply generic_format_opp, v_F | apply v_F | lra].
      - rewrite Rabs_pos_eq in C, C' by exact S. split; [lia |]. rewrite Rmult_1_l. split; [| reflexivity].
        apply sterbenz; auto with typeclass_instances; [apply v_F | apply v_F | lra]. }
    assert (E : Rabs (v x) = 2 * v y) by lra. destruct NT as (_ & _ & NT). specialize (NT E). rewrite NT. clear NT.
    assert (Z0 : v x - IZR (if Rlt_bool (v x) 0 then -2 else 2) * v y = 0).
    { destruct (Rlt_bool_spec (v x) 0) as [S|S]; [rewrite Rabs_left in E by exact S | rewrite Rabs_pos_eq in E by exact S]; lra. }
    split; [destruct (Rlt_bool (v x) 0); lia |]. rewrite Z0. split; [apply generic_format_0 | reflexivity]. }
  destruct Hn as (Hn & FR & ER).
  destruct (small_Z n ltac:(lia)) as [N1 N2].
  assert (Hny : Rabs (IZR n * v y) <= bpow (emax - 1)).
  { rewrite Rabs_mult, <- abs_IZR, (Rabs_pos_eq (v y)) by lra. rewrite <- B2.
    apply Rmult_le_compat; [apply IZR_le; lia | lra | apply IZR_le; lia | lra]. }
  destruct (fmul_ok (of_Z n) y N2 Fy) as [M1 M2]; [rewrite N1; exact Hny |].
  assert (Fny : F (IZR n * v y)).
  { assert (K : forall k, (0 <= k <= 2)%Z -> F (IZR k * v y)).
    { intros k Hk. assert (k = 0 \/ k = 1 \/ k = 2)%Z as [-> | [-> | ->]] by lia.
      - rewrite Rmult_0_l. apply generic_format_0.
      - rewrite Rmult_1_l. apply v_F.
      - apply F_double; [exact Hp | apply v_F]. }
    destruct (Z.le_gt_cases 0 n).
    - apply K. lia.
    - replace (IZR n * v y) with (- (IZR (- n) * v y)) by (rewrite opp_IZR; lra). apply generic_format_opp, K. lia. }
  rewrite N1, rnd_F in M1 by assumption.
  destruct (fsub_ok x (fmul (of_Z n) y) Fx M2) as [S1 S2].
  { rewrite M1, ER. unfold fmod2. rewrite <- B2.
    destruct (Rlt_bool_spec (Rabs (v x)) (v y)) as [C|C]; [lra |].
    destruct (Rlt_bool_spec (Rabs (v x)) (2 * v y)) as [C'|C'].
    - destruct (Rlt_bool_spec (v x) 0) as [S|S].
      + rewrite Rabs_left in C, C' by exact S. rewrite Rabs_left1 by lra. lra.
      + rewrite Rabs_pos_eq in C, C' by exact S. rewrite Rabs_pos_eq by lra. lra.
    - rewrite Rabs_R0. lra. }
  eexists. split; [reflexivity |]. split; [exact S2 |].
  rewrite S1, M1, rnd_F by assumption. exact ER.
Qed.

End Fmt.
