(** Scaling by powers of two, and log as a whole. *)
From Coq Require Import ZArith Reals Lra Lia Bool.
From Flocq Require Import Core Mult_error IEEE754.BinarySingleNaN.
From Verif Require Import FloatModel FloatSpec FloatProofs1 FloatProofs2 FserModel FserSpec FserProofs1 FserProofs2 FserProofs3 FserProofs4 FserProofs5 FserProofs10.
From Verif Require Import FlogModel FlogSpec FlogProofs1 FlogProofs2 FlogProofs3.
Local Open Scope R_scope.

Lemma ln_le a b : 0 < a -> a <= b -> ln a <= ln b.
Proof. intros A [B| ->]; [left; now apply ln_increasing|right; reflexivity]. Qed.
Lemma ln2_bounds : 11 / 16 <= ln 2 <= 7 / 10.
Proof.
  split.
  - rewrite <- (ln_exp (11 / 16)). apply ln_le; [apply exp_pos|]. apply exp_11_16.
  - rewrite <- (ln_exp (7 / 10)). apply ln_le; [lra|].
    assert (E : forall n z, exp (INR n * z) = exp z ^ n).
    { clear. induction n as [|n IH]; intro z; [rewrite Rmult_0_l, exp_0; reflexivity|].
      rewrite S_INR, Rmult_plus_distr_r, Rmult_1_l, exp_plus, IH. simpl; ring. }
    replace (7 / 10) with (INR 70 * (1 / 100)) by (simpl INR; lra). rewrite E.
    apply Rle_trans with ((1 + 1 / 100) ^ 70); [simpl; lra|]. apply pow_incr. pose proof (exp_ineq1_le (1 / 100)). lra.
Qed.
Lemma ln_bpow k : ln (bpow radix2 k) = IZR k * ln 2.
Proof. rewrite bpow_exp. rewrite ln_exp. reflexivity. Qed.

Section Fmt.
Context {prec emax : Z} {Hp : Prec_gt_0 prec} {Hx : Prec_lt_emax prec emax}.
Notation fl := (binary_float prec emax).
Notation emin := (3 - emax - prec)%Z.
Notation F := (generic_format radix2 (FLT_exp emin prec)).
Notation rnd := (round radix2 (FLT_exp emin prec) ZnearestE).
Notation bpow := (bpow radix2).
Notation v := (@B2R prec emax).
Notation u := (bpow (- prec)).
Notation eta := (@eta prec).
Notation dd := (@dd prec).
Hypothesis Sup : supported_log prec emax.
Let S1 : (24 <= prec)%Z. Proof. apply Sup. Qed.
Let S2 : (65 <= emax)%Z. Proof. apply Sup. Qed.
Let S3 : (prec + 40 <= emax)%Z. Proof. apply Sup. Qed.
Let S4 : (emax + prec <= 20000)%Z. Proof. apply Sup. Qed.
Variables ln2 : fl.
Hypothesis (F2 : is_finite ln2 = true) (C2 : good_constant prec (v ln2) (ln 2)).
Notation C := (v ln2).

Lemma C_bounds : 6 / 10 <= C <= 7001 / 10000.
Proof. pose proof ln2_bounds. unfold good_constant, unit_error in C2. apply Rabs_le_inv in C2. pose proof (u_tiny Sup). lra. Qed.

Lemma two_pow (c : Z) : (-64 <= c <= 64)%Z -> v (of_me 1 c) = bpow c /\ is_finite (of_me 1 c : fl) = true.
Proof.
  intros H. assert (B : Rabs (1 * bpow c) <= bpow (emax - 1)) by (rewrite Rmult_1_l, Rabs_pos_eq by apply bpow_ge_0; apply bpow_le; lia).
  destruct (of_me_ok 1 c B) as [E Fi]. split; [|exact Fi]. rewrite E, Rmult_1_l. apply rnd_F, F_bpow; [exact Hp|lia].
Qed.
Definition expo (c : Z) : Prop := c = 4%Z \/ c = 16%Z \/ c = 64%Z.
Lemma cln2 (c : Z) : expo c -> v (fmul (of_Z c) ln2) = IZR c * C /\ is_finite (fmul (of_Z c) ln2) = true.
Proof.
  intros H. assert (P : exists b, (0 <= b <= 6)%Z /\ IZR c = bpow b).
  { destruct H as [->|[->| ->]]; [exists 2%Z|exists 4%Z|exists 6%Z]; split; try lia; reflexivity. }
  destruct P as (b & Hb & Eb). pose proof C_bounds as CB.
  assert (B : IZR c <= 64) by (destruct H as [->|[->| ->]]; lra). assert (B0 : 0 <= IZR c) by (destruct H as [->|[->| ->]]; lra).
  destruct (of_Z_ok (prec := prec) (emax := emax) c) as [V Fi]; [rewrite Eb, Rabs_pos_eq by apply bpow_ge_0; apply bpow_le; lia|].
  rewrite (rnd_F _ _ (IZR c)) in V by (rewrite Eb; apply F_bpow; [exact Hp|lia]).
  destruct (fmul_ok (of_Z c) ln2 Fi F2) as [E Fm]; [rewrite V; apply (big_ok Sup), Rabs_le; nra|].
  split; [|exact Fm]. rewrite E, V. apply rnd_F. rewrite Eb, Rmult_comm. apply mult_bpow_pos_exact_FLT; [apply v_F|lia].
Qed.

(** The error of the accumulated correction. *)
Definition cerr (k : Z) : R := 18 / 100 * u * (IZR k * IZR k).
Lemma cerr_step a (k c : Z) : F a -> (0 <= k <= 20000)%Z -> expo c -> F (IZR c * C) -> Rabs (a - IZR k * C) <= cerr k ->
  Rabs (rnd (a + IZR c * C) - IZR (k + c) * C) <= cerr (k + c) /\ Rabs (a + IZR c * C) <= bpow (emax - 1).
Proof.
  intros Fa Hk Hc Fc H. pose proof C_bounds as CB. pose proof (u_tiny Sup) as U.
  assert (K0 : 0 <= IZR k <= 20000) by (split; apply IZR_le; lia).
  assert (Cc : 4 <= IZR c <= 64) by (destruct Hc as [->|[->| ->]]; lra).
  assert (E1 : cerr k <= 36 / 10000 * IZR k).
  { unfold cerr. assert (u * IZR k <= / 1000000 * 20000) by (apply Rmult_le_compat; lra).
    replace (18 / 100 * u * (IZR k * IZR k)) with (18 / 100 * (u * IZR k) * IZR k) by ring. apply Rmult_le_compat_r; lra. }
  pose proof (rnd_plus (prec := prec) (emax := emax) a (IZR c * C) Fa Fc) as R.
  assert (S : Rabs (a + IZR c * C) <= 71 / 100 * (IZR k + IZR c)) by (apply Rabs_le_inv in H; apply Rabs_le; nra).
  split.
  - rewrite plus_IZR. replace (rnd (a + IZR c * C) - (IZR k + IZR c) * C) with ((rnd (a + IZR c * C) - (a + IZR c * C)) + (a - IZR k * C)) by ring.
    eapply Rle_trans; [apply Rabs_triang|]. unfold cerr in *. rewrite plus_IZR.
    assert (u * Rabs (a + IZR c * C) <= u * (71 / 100 * (IZR k + IZR c))) by (apply Rmult_le_compat_l; lra).
    assert (G : 71 / 100 * (IZR k + IZR c) <= 18 / 100 * (2 * IZR k * IZR c + IZR c * IZR c)) by nra.
    assert (u * (71 / 100 * (IZR k + IZR c)) <= u * (18 / 100 * (2 * IZR k * IZR c + IZR c * IZR c))) by (apply Rmult_le_compat_l; lra). lra.
  - apply Rle_trans with (bpow 20); [simpl; lra|apply bpow_le; lia].
Qed.

Section Arg.
Variable A : R.
Hypothesis (PA : 0 < A).

(** ** Large arguments *)
Definition inv_gt (k : Z) (x corr : fl) : Prop :=
  is_finite x = true /\ is_finite corr = true /\ (0 <= k <= 20000)%Z /\ v x * bpow k = A /\ 1 <= v x /\ Rabs (v corr - IZR k * C) <= cerr k.

Lemma finite_lt (x : fl) : v x < bpow emax.
Proof. apply Rle_lt_trans with (Rabs (v x)); [apply Rle_abs|apply abs_B2R_lt_emax]. Qed.

Lemma gt_step k x corr c : inv_gt k x corr -> A < bpow emax -> expo c -> bpow c <= v x ->
  inv_gt (k + c) (fmul x (of_me 1 (- c))) (fadd corr (fmul (of_Z c) ln2)).
Proof.
  intros (Fx & Fc & Hk & EA & L & EC) LA Hc Hb.
  assert (cc : (4 <= c <= 64)%Z) by (unfold expo in Hc; lia).
  destruct (two_pow (- c) ltac:(lia)) as [V Fi].
  assert (PX : 0 < v x) by lra.
  assert (X1 : 1 <= v x * bpow (- c)).
  { apply Rle_trans with (bpow c * bpow (- c)); [rewrite <- bpow_plus, Z.add_opp_diag_r; simpl; lra|]. apply Rmult_le_compat_r; [apply bpow_ge_0|exact Hb]. }
  destruct (fmul_ok x (of_me 1 (- c)) Fx Fi) as [E Fm].
  { rewrite V, Rabs_pos_eq by lra. apply Rle_trans with (bpow emax * bpow (- c)); [apply Rmult_le_compat_r; [apply bpow_ge_0|left; apply finite_lt]|].
    rewrite <- bpow_plus. apply bpow_le. lia. }
  rewrite V in E. rewrite rnd_F in E.
  2: { apply mult_bpow_exact_FLT; [apply v_F|]. assert (c + 1 <= mag radix2 (v x))%Z; [|lia].
       apply mag_ge_bpow. rewrite Rabs_pos_eq by lra. replace (c + 1 - 1)%Z with c by lia. exact Hb. }
  destruct (cln2 c Hc) as [Ec Fcl].
  destruct (cerr_step (v corr) k c (v_F corr) Hk Hc ltac:(rewrite <- Ec; apply v_F) EC) as [R B].
  destruct (fadd_ok corr (fmul (of_Z c) ln2) Fc Fcl) as [Ea Fa]; [rewrite Ec; exact B|].
  assert (EA' : v x * bpow (- c) * bpow (k + c) = A).
  { rewrite Rmult_assoc, <- bpow_plus. replace (- c + (k + c))%Z with k by lia. exact EA. }
  repeat split; try assumption.
  - lia.
  - apply Z.le_trans with emax; [|lia]. apply Z.lt_le_incl. apply (lt_bpow radix2). eapply Rle_lt_trans; [|exact LA]. rewrite <- EA'.
    pose proof (bpow_gt_0 radix2 (k + c)). nra.
  - rewrite E. exact EA'.
  - rewrite E. exact X1.
  - rewrite Ea, Ec. exact R.
Qed.

Lemma gt_loop m : forall k x corr, inv_gt k x corr -> A < bpow emax -> (emax - k <= Z.of_nat m)%Z ->
  exists k' x' corr', inv_gt k' x' corr' /\ v x' < 16 /\ forall n, (m <= n)%nat -> log_scaling_gt n ln2 x corr = FVal (x', corr').
Proof.
  induction m as [|m IH]; intros k x corr I LA Hm; pose proof I as (Fx & Fc & Hk & EA & L & EC).
  all: destruct (two_pow 4 ltac:(lia)) as [V4 F4]; destruct (two_pow 16 ltac:(lia)) as [V16 F16]; destruct (two_pow 64 ltac:(lia)) as [V64 F64].
  all: assert (T : forall n, log_scaling_gt n ln2 x corr = if Rlt_bool (v x) 16 then FVal (x, corr) else match n with O => FRunning | S n =>
         if Rlt_bool (v x) (bpow 16) then log_scaling_gt n ln2 (fmul x (of_me 1 (-4))) (fadd corr (fmul (of_Z 4) ln2))
         else if Rlt_bool (v x) (bpow 64) then log_scaling_gt n ln2 (fmul x (of_me 1 (-16))) (fadd corr (fmul (of_Z 16) ln2))
         else log_scaling_gt n ln2 (fmul x (of_me 1 (-64))) (fadd corr (fmul (of_Z 64) ln2)) end)
       by (intros n; destruct n; cbn [log_scaling_gt]; rewrite !flt_spec by assumption; rewrite ?V4, ?V16, ?V64; reflexivity).
  all: destruct (Rlt_le_dec (v x) 16) as [D|D]; [exists k, x, corr; split; [exact I|]; split; [exact D|]; intros n _; rewrite T, Rlt_bool_true by exact D; reflexivity|].
  - exfalso. assert (emax <= k)%Z by lia. apply (bpow_le radix2) in H. rewrite <- EA in LA. pose proof (bpow_gt_0 radix2 k). nra.
  - assert (Go : exists c, expo c /\ bpow c <= v x /\ forall n, log_scaling_gt (S n) ln2 x corr = log_scaling_gt n ln2 (fmul x (of_me 1 (- c))) (fadd corr (fmul (of_Z c) ln2))).
    { destruct (Rlt_le_dec (v x) (bpow 16)) as [D1|D1]; [exists 4%Z|destruct (Rlt_le_dec (v x) (bpow 64)) as [D2|D2]; [exists 16%Z|exists 64%Z]]; (split; [unfold expo; lia|]);
        (split; [first [exact D1|exact D2|simpl; lra]|]); intros n; rewrite T, Rlt_bool_false by exact D.
      - rewrite Rlt_bool_true by exact D1. reflexivity.
      - rewrite Rlt_bool_false, Rlt_bool_true by assumption. reflexivity.
      - rewrite !Rlt_bool_false by assumption. reflexivity. }
    destruct Go as (c & Hc & Hb & G). pose proof (gt_step k x corr c I LA Hc Hb) as I'.
    destruct (IH _ _ _ I' LA) as (k' & x' & corr' & If & Lf & R); [unfold expo in Hc; lia|].
    exists k', x', corr'. split; [exact If|]. split; [exact Lf|]. intros [|n] Hn; [lia|]. rewrite G. apply R. lia.
Qed.

(** ** Small arguments *)
Definition inv_lt (k : Z) (x corr : fl) : Prop :=
  is_finite x = true /\ is_finite corr = true /\ (0 <= k <= 20000)%Z /\ v x = A * bpow k /\ v x < 16 /\ (k = 0%Z \/ v x <= 1) /\
  Rabs (- v corr - IZR k * C) <= cerr k.

Lemma lt_step k x corr c : inv_lt k x corr -> bpow emin <= A -> expo c -> v x <= bpow (- c) ->
  inv_lt (k + c) (fmul x (of_me 1 c)) (fsub corr (fmul (of_Z c) ln2)).
Proof.
  intros (Fx & Fc & Hk & EA & L & _ & EC) LA Hc Hb.
  assert (cc : (4 <= c <= 64)%Z) by (unfold expo in Hc; lia).
  destruct (two_pow c ltac:(lia)) as [V Fi].
  assert (PX : 0 < v x) by (rewrite EA; apply Rmult_lt_0_compat; [exact PA|apply bpow_gt_0]).
  assert (X1 : v x * bpow c <= 1).
  { apply Rle_trans with (bpow (- c) * bpow c); [apply Rmult_le_compat_r; [apply bpow_ge_0|exact Hb]|]. rewrite <- bpow_plus, Z.add_opp_diag_l. simpl; lra. }
  assert (X0 : 0 < v x * bpow c) by (apply Rmult_lt_0_compat; [exact PX|apply bpow_gt_0]).
  destruct (fmul_ok x (of_me 1 c) Fx Fi) as [E Fm].
  { rewrite V. apply (big_ok Sup). rewrite Rabs_pos_eq by lra. lra. }
  rewrite V in E. rewrite rnd_F in E by (apply mult_bpow_pos_exact_FLT; [apply v_F|lia]).
  destruct (cln2 c Hc) as [Ec Fcl].
  destruct (cerr_step (- v corr) k c ltac:(apply generic_format_opp, v_F) Hk Hc ltac:(rewrite <- Ec; apply v_F) EC) as [R B].
  replace (- v corr + IZR c * C) with (- (v corr - IZR c * C)) in R, B by ring. rewrite Rabs_Ropp in B. rewrite rnd_opp in R.
  destruct (fsub_ok corr (fmul (of_Z c) ln2) Fc Fcl) as [Ea Fa]; [rewrite Ec; exact B|].
  assert (EA' : v x * bpow c = A * bpow (k + c)) by (rewrite EA, Rmult_assoc, <- bpow_plus; reflexivity).
  repeat split; try assumption.
  - lia.
  - apply Z.le_trans with (- emin)%Z; [|lia]. apply (le_bpow radix2). apply Rmult_le_reg_r with (bpow emin); [apply bpow_gt_0|].
    rewrite <- (bpow_plus radix2 (- emin)), Z.add_opp_diag_l. change (bpow 0) with 1. apply Rle_trans with (A * bpow (k + c)); [|lra].
    rewrite Rmult_comm. apply Rmult_le_compat_r; [apply bpow_ge_0|exact LA].
  - rewrite E. exact EA'.
  - rewrite E. lra.
  - right. rewrite E. exact X1.
  - rewrite Ea, Ec. exact R.
Qed.

Lemma lt_loop m : forall k x corr, inv_lt k x corr -> bpow emin <= A -> (- emin - k <= Z.of_nat m)%Z ->
  exists k' x' corr', inv_lt k' x' corr' /\ / 16 < v x' /\ forall n, (m <= n)%nat -> log_scaling_lt n ln2 x corr = FVal (x', corr').
Proof.
  induction m as [|m IH]; intros k x corr I LA Hm; pose proof I as (Fx & Fc & Hk & EA & L & L1 & EC).
  all: destruct (two_pow (-4) ltac:(lia)) as [V4 F4]; destruct (two_pow (-16) ltac:(lia)) as [V16 F16]; destruct (two_pow (-64) ltac:(lia)) as [V64 F64].
  all: assert (T : forall n, log_scaling_lt n ln2 x corr = if Rlt_bool (/ 16) (v x) then FVal (x, corr) else match n with O => FRunning | S n =>
         if Rlt_bool (bpow (-16)) (v x) then log_scaling_lt n ln2 (fmul x (of_me 1 4)) (fsub corr (fmul (of_Z 4) ln2))
         else if Rlt_bool (bpow (-64)) (v x) then log_scaling_lt n ln2 (fmul x (of_me 1 16)) (fsub corr (fmul (of_Z 16) ln2))
         else log_scaling_lt n ln2 (fmul x (of_me 1 64)) (fsub corr (fmul (of_Z 64) ln2)) end)
       by (intros n; destruct n; cbn [log_scaling_lt]; rewrite !flt_spec by assumption; rewrite ?V4, ?V16, ?V64; reflexivity).
  all: destruct (Rlt_le_dec (/ 16) (v x)) as [D|D]; [exists k, x, corr; split; [exact I|]; split; [exact D|]; intros n _; rewrite T, Rlt_bool_true by exact D; reflexivity|].
  - exfalso. assert (- emin <= k)%Z by lia. apply (bpow_le radix2) in H. rewrite EA in D.
    assert (1 <= A * bpow k); [|lra]. apply Rle_trans with (bpow emin * bpow (- emin)); [rewrite <- bpow_plus, Z.add_opp_diag_r; simpl; lra|].
    apply Rmult_le_compat; try apply bpow_ge_0; assumption.
  - assert (Go : exists c, expo c /\ v x <= bpow (- c) /\ forall n, log_scaling_lt (S n) ln2 x corr = log_scaling_lt n ln2 (fmul x (of_me 1 c)) (fsub corr (fmul (of_Z c) ln2))).
    { destruct (Rlt_le_dec (bpow (-16)) (v x)) as [D1|D1]; [exists 4%Z|destruct (Rlt_le_dec (bpow (-64)) (v x)) as [D2|D2]; [exists 16%Z|exists 64%Z]]; (split; [unfold expo; lia|]);
        (split; [first [exact D1|exact D2|simpl; lra]|]); intros n; rewrite T, Rlt_bool_false by exact D.
      - rewrite Rlt_bool_true by exact D1. reflexivity.
      - rewrite Rlt_bool_false, Rlt_bool_true by assumption. reflexivity.
      - rewrite !Rlt_bool_false by assumption. reflexivity. }
    destruct Go as (c & Hc & Hb & G). pose proof (lt_step k x corr c I LA Hc Hb) as I'.
    destruct (IH _ _ _ I' LA) as (k' & x' & corr' & If & Lf & R); [unfold expo in Hc; lia|].
    exists k', x', corr'. split; [exact If|]. split; [exact Lf|]. intros [|n] Hn; [lia|]. rewrite G. apply R. lia.
Qed.

(** ** The sum *)
Lemma sum_ok (l corr : fl) (k : Z) x : is_finite l = true -> is_finite corr = true -> (0 <= k <= 20000)%Z -> Rabs (v l) <= 3 ->
  Rabs (v l - ln x) <= 2 * eta + 2 * dd -> IZR k * ln 2 <= Rabs (ln A) ->
  (Rabs (v corr - IZR k * C) <= cerr k /\ ln A = ln x + IZR k * ln 2 \/ Rabs (- v corr - IZR k * C) <= cerr k /\ ln A = ln x - IZR k * ln 2) ->
  is_finite (fadd l corr) = true /\ Rabs (v (fadd l corr) - ln A) <= log_accuracy prec A.
Proof.
  intros Fl Fc Hk L3 El KA HC. pose proof C_bounds as CB. pose proof (u_tiny Sup) as U. pose proof ln2_bounds as LB.
  assert (K0 : 0 <= IZR k <= 20000) by (split; apply IZR_le; lia).
  set (T := Rabs (ln A)) in *. assert (KT : IZR k <= 16 / 11 * T) by nra.
  assert (E1 : cerr k <= 36 / 10000 * IZR k).
  { unfold cerr. assert (u * IZR k <= / 1000000 * 20000) by (apply Rmult_le_compat; lra).
    replace (18 / 100 * u * (IZR k * IZR k)) with (18 / 100 * (u * IZR k) * IZR k) by ring. apply Rmult_le_compat_r; lra. }
  assert (E2 : cerr k <= 45 / 100 * (T * T) * u).
  { unfold cerr. assert (IZR k * IZR k <= 16 / 11 * T * (16 / 11 * T)) by (apply Rmult_le_compat; lra).
    assert (u * (IZR k * IZR k) <= u * (16 / 11 * T * (16 / 11 * T))) by (apply Rmult_le_compat_l; lra).
    assert (0 <= u * (T * T)) by (apply Rmult_le_pos; [lra|nra]). lra. }
  assert (CK : Rabs (IZR k * C - IZR k * ln 2) <= IZR k * u).
  { rewrite <- Rmult_minus_distr_l, Rabs_mult, (Rabs_pos_eq (IZR k)) by lra. apply Rmult_le_compat_l; [lra|exact C2]. }
  assert (cb : Rabs (v corr) <= 71 / 100 * IZR k).
  { destruct HC as [[H _]|[H _]]; apply Rabs_le_inv in H; apply Rabs_le; nra. }
  assert (sb : Rabs (v l + v corr) <= 3 + 71 / 100 * IZR k) by (eapply Rle_trans; [apply Rabs_triang|]; lra).
  destruct (fadd_ok l corr Fl Fc) as [E Ff].
  { apply Rle_trans with (bpow 20); [simpl; lra|apply bpow_le; lia]. }
  split; [exact Ff|]. rewrite E. pose proof (rnd_plus (prec := prec) (emax := emax) (v l) (v corr) (v_F l) (v_F corr)) as R.
  assert (Z : Rabs (v l + v corr - ln A) <= 2 * eta + 2 * dd + cerr k + IZR k * u).
  { apply Rabs_le_inv in El, CK. destruct HC as [[H ->]|[H ->]]; apply Rabs_le_inv in H; apply Rabs_le; lra. }
  replace (rnd (v l + v corr) - ln A) with ((rnd (v l + v corr) - (v l + v corr)) + (v l + v corr - ln A)) by ring.
  eapply Rle_trans; [apply Rabs_triang|].
  assert (W : u * Rabs (v l + v corr) <= u * (3 + 71 / 100 * IZR k)) by (apply Rmult_le_compat_l; lra).
  assert (KU : IZR k * u <= 16 / 11 * T * u) by (apply Rmult_le_compat_r; lra).
  assert (TT : ln A * ln A = T * T) by (unfold T; rewrite <- Rabs_mult, Rabs_pos_eq; [reflexivity|nra]).
  unfold log_accuracy, unit_error. fold T. rewrite TT. unfold FlogProofs2.eta, FlogProofs2.dd in Z.
  assert (0 <= T) by (unfold T; apply Rabs_pos). assert (0 <= T * u) by (apply Rmult_le_pos; lra). assert (0 <= T * T * u) by (apply Rmult_le_pos; [nra|lra]).
  assert (u * (3 + 71 / 100 * IZR k) = 3 * u + 71 / 100 * (IZR k * u)) by ring. lra.
Qed.
End Arg.

Variable e : fl.
Hypothesis (Fe : is_finite e = true) (Ce : best_constant prec (v e) (exp 1)).

Lemma pos_ge_emin (x : fl) : 0 < v x -> bpow emin <= v x.
Proof. intros P. pose proof (gap 0 (v x) (generic_format_0 _ _) (v_F x) P). lra. Qed.

Theorem log_spec (x : fl) : is_finite x = true -> 0 < v x ->
  exists y, eventually (fun fuel => flog fuel e ln2 x) (FVal y) /\ is_finite y = true /\ Rabs (v y - ln (v x)) <= log_accuracy prec (v x).
Proof.
  intros Fx Px. destruct (small_Z (prec := prec) (emax := emax) ltac:(lia) ltac:(lia) 1 ltac:(lia)) as [V1 F1].
  assert (V0 : v fzero = 0) by reflexivity. assert (F0 : is_finite (fzero : fl) = true) by reflexivity.
  assert (V16 : v (of_Z 16) = 16 /\ is_finite (of_Z 16 : fl) = true).
  { destruct (of_Z_ok (prec := prec) (emax := emax) 16) as [V Fi]; [apply (big_ok Sup), Rabs_le; lra|]. split; [|exact Fi]. rewrite V. apply rnd_F.
    change 16 with (bpow 4). apply F_bpow; [exact Hp|lia]. }
  destruct V16 as [V16 F16].
  assert (Ninf : feq x (B754_infinity false) = false) by (destruct x as [?| | |[|] ? ? ?]; try discriminate; reflexivity).
  assert (T : forall fuel, flog fuel e ln2 x = if Req_bool (v x) 1 then FVal fzero else
    fbind (if Rle_bool 16 (v x) then log_scaling_gt fuel ln2 x fzero else log_scaling_lt fuel ln2 x fzero) (fun sc =>
    fbind (log_impl fuel fuel e (fst sc) fzero 0) (fun l => FVal (fadd l (snd sc))))).
  { intros fuel. unfold flog. rewrite (finite_nan x Fx), Ninf, !feq_spec, flt_spec, fle_spec by assumption. rewrite V1, V0, V16.
    destruct (Req_bool (v x) 1); [reflexivity|]. rewrite Req_bool_false, Rlt_bool_false by lra. reflexivity. }
  assert (c0 : cerr 0 = 0) by (unfold cerr; ring).
  destruct (Req_dec (v x) 1) as [E1|N1].
  { exists fzero. split; [exists 0%nat; intros fuel _; rewrite T, Req_bool_true by exact E1; reflexivity|]. split; [exact F0|].
    rewrite E1, ln_1, V0, Rminus_0_r, Rabs_R0. unfold log_accuracy, unit_error. rewrite ln_1, Rabs_R0.
    assert (24 <= IZR prec) by (apply IZR_le; lia). pose proof (u_tiny Sup). apply Rmult_le_pos; lra. }
  destruct (Rle_lt_dec 16 (v x)) as [G|G].
  - destruct (gt_loop (v x) Px (Z.to_nat emax) 0 x fzero) as (k & x' & corr & (Fx' & Fc & Hk & EA & L & EC) & Lt & R).
    { repeat split; try assumption; try lia; try lra; [simpl; ring|rewrite V0, c0, Rmult_0_l, Rminus_0_r, Rabs_R0; lra]. }
    { apply finite_lt. }
    { lia. }
    destruct (loop_ok Sup e x' Fe Ce Fx' ltac:(lra)) as (l & K & (Fl & L3 & El) & Rl).
    assert (EL : ln (v x) = ln (v x') + IZR k * ln 2) by (rewrite <- EA, ln_mult, ln_bpow by (try apply bpow_gt_0; lra); reflexivity).
    pose proof ln2_bounds as LB. assert (0 <= IZR k) by (apply IZR_le; lia).
    assert (0 <= ln (v x')) by (rewrite <- ln_1; apply ln_le; lra).
    destruct (sum_ok (v x) l corr k (v x') Fl Fc Hk L3 El) as [Ff Ef].
    { rewrite Rabs_pos_eq; [lra|]. rewrite EL. nra. }
    { left. split; [exact EC|exact EL]. }
    exists (fadd l corr). split; [|split; assumption]. exists (Z.to_nat emax + K)%nat. intros fuel Hf.
    rewrite T, Req_bool_false, Rle_bool_true by lra. rewrite R by lia. cbn [fbind fst snd]. rewrite Rl by lia. reflexivity.
  - destruct (lt_loop (v x) Px (Z.to_nat (- emin)) 0 x fzero) as (k & x' & corr & (Fx' & Fc & Hk & EA & L & L1 & EC) & Lt & R).
    { repeat split; try assumption; try lia; try lra; [simpl; ring|rewrite V0, c0, Ropp_0, Rmult_0_l, Rminus_0_r, Rabs_R0; lra]. }
    { now apply pos_ge_emin. }
    { lia. }
    destruct (loop_ok Sup e x' Fe Ce Fx' ltac:(lra)) as (l & K & (Fl & L3 & El) & Rl).
    assert (EL : ln (v x) = ln (v x') - IZR k * ln 2) by (rewrite EA, ln_mult, ln_bpow by (try apply bpow_gt_0; lra); ring).
    pose proof ln2_bounds as LB. assert (0 <= IZR k) by (apply IZR_le; lia).
    destruct (sum_ok (v x) l corr k (v x') Fl Fc Hk L3 El) as [Ff Ef].
    { destruct L1 as [->|L1]; [rewrite Rmult_0_l; apply Rabs_pos|]. assert (ln (v x') <= 0) by (rewrite <- ln_1; apply ln_le; lra).
      rewrite Rabs_left1; [lra|]. rewrite EL. nra. }
    { right. split; [exact EC|exact EL]. }
    exists (fadd l corr). split; [|split; assumption]. exists (Z.to_nat (- emin) + K)%nat. intros fuel Hf.
    rewrite T, Req_bool_false, Rle_bool_false by lra. rewrite R by lia. cbn [fbind fst snd]. rewrite Rl by lia. reflexivity.
Qed.
End Fmt.
