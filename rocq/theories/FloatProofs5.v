(** Accuracy of the square-root loop; the two spherical angles. *)
From Coq Require Import ZArith Reals Lra Lia Psatz Bool.
From Flocq Require Import Core Relative Sterbenz IEEE754.BinarySingleNaN.
From Verif Require Import FloatModel FloatProofs1 FloatProofs2 FloatProofs3 FloatProofs4.
Local Open Scope R_scope.

Section Fmt.
Context {prec emax : Z} {Hp : Prec_gt_0 prec} {Hx : Prec_lt_emax prec emax}.
Notation fl := (binary_float prec emax).
Notation emin := (3 - emax - prec)%Z.
Notation fexp := (FLT_exp emin prec).
Notation F := (generic_format radix2 fexp).
Notation rnd := (round radix2 fexp ZnearestE).
Notation bpow := (bpow radix2).
Notation v := (@B2R prec emax).
Notation pinf := (B754_infinity false : fl).
Notation nn := (atleast (prec := prec) (emax := emax) 0).
Hypothesis (Hprec : (6 <= prec)%Z) (Hemax : (65 <= emax)%Z) (Hpx : (prec + 4 <= emax)%Z).
Let u := bpow (- prec).
Lemma P2 : (2 <= prec)%Z. Proof. lia. Qed.

Lemma u_pos : 0 < u. Proof. apply bpow_gt_0. Qed.
Lemma u_small : u <= / 64.
Proof. replace (/ 64) with (bpow (-6)) by (simpl; lra). apply bpow_le. lia. Qed.

Lemma rnd_lo x : bpow (emin + prec - 1) <= x -> (1 - u) * x <= rnd x.
Proof.
  intros H. pose proof (bpow_gt_0 radix2 (emin + prec - 1)).
  pose proof (relative_error_N_FLT radix2 emin prec Hp (fun t => negb (Z.even t)) x) as E.
  rewrite Rabs_pos_eq in E by lra. specialize (E H).
  replace (/ 2 * bpow (- prec + 1)) with u in E by (unfold u; rewrite bpow_plus; simpl (bpow 1); lra).
  apply Rabs_le_inv in E. lra.
Qed.

Lemma rnd_lo_abs x : 0 <= x -> (1 - u) * x - bpow emin <= rnd x.
Proof.
  intros H. pose proof u_pos. pose proof (bpow_gt_0 radix2 emin).
  destruct (Rle_or_lt (bpow (emin + prec - 1)) x) as [C|C].
  - pose proof (rnd_lo x C). lra.
  - assert (E : Rabs (rnd x - x) <= bpow emin / 2).
    { apply rnd_err; [exact Hp | | lia]. rewrite Rabs_pos_eq by exact H. eapply Rlt_le_trans; [exact C | apply bpow_le; lia]. }
    apply Rabs_le_inv in E. assert (0 <= u * x) by (apply Rmult_le_pos; lra). lra.
Qed.

(** One round never falls far below the root. *)
Lemma step_lower_R (A P : R) : bpow emin <= A -> 0 < P ->
  (1 - 4 * u) * sqrt A <= rnd (/ 2 * rnd (P + rnd (A / P))).
Proof.
  intros HA HP. pose proof u_pos as U0. pose proof u_small as U1. pose proof (bpow_gt_0 radix2 emin) as E0.
  assert (A0 : 0 < A) by lra.
  set (S := sqrt A). assert (S0 : 0 < S) by (apply sqrt_lt_R0; lra).
  assert (SS : S * S = A) by (apply sqrt_sqrt; lra).
  assert (SL : bpow (emin + prec) <= S).
  { unfold S. rewrite <- (sqrt_square (bpow (emin + prec))) by apply bpow_ge_0. apply sqrt_le_1_alt.
    eapply Rle_trans; [| exact HA]. rewrite <- bpow_plus. apply bpow_le. lia. }
  assert (Eu : bpow emin = u * bpow (emin + prec)) by (unfold u; rewrite <- bpow_plus; f_equal; lia).
  assert (EuS : bpow emin <= u * S) by (rewrite Eu; apply Rmult_le_compat_l; lra).
  assert (AP : 0 <= A / P) by (apply Rmult_le_pos; [lra | left; now apply Rinv_0_lt_compat]).
  assert (AG : 2 * S <= P + A / P).
  { apply Rmult_le_reg_r with P; [exact HP |]. replace ((P + A / P) * P) with (P * P + A) by (field; lra).
    rewrite <- SS. assert (0 <= (P - S) * (P - S)) by apply Rle_0_sqr. lra. }
  pose proof (rnd_lo_abs (A / P) AP) as Q.
  assert (T1 : (2 - 3 * u) * S <= P + rnd (A / P)).
  { assert ((1 - u) * (2 * S) <= (1 - u) * (P + A / P)) by (apply Rmult_le_compat_l; lra).
    assert (0 <= u * P) by (apply Rmult_le_pos; lra). lra. }
  assert (N1 : S <= (2 - 3 * u) * S).
  { rewrite <- (Rmult_1_l S) at 1. apply Rmult_le_compat_r; lra. }
  assert (B1 : bpow (emin + prec - 1) <= bpow (emin + prec) / 2).
  { replace (emin + prec)%Z with (emin + prec - 1 + 1)%Z at 2 by lia. rewrite (bpow_plus _ (emin + prec - 1)). simpl (bpow 1). lra. }
  pose proof (rnd_lo (P + rnd (A / P))) as T2.
  assert (T3 : (1 - u) * ((2 - 3 * u) * S) <= rnd (P + rnd (A / P))).
  { eapply Rle_trans; [| apply T2; lra]. apply Rmult_le_compat_l; lra. }
  assert (N2 : S <= (1 - u) * ((2 - 3 * u) * S)).
  { rewrite <- Rmult_assoc. rewrite <- (Rmult_1_l S) at 1. apply Rmult_le_compat_r; nra. }
  pose proof (rnd_lo (/ 2 * rnd (P + rnd (A / P)))) as T4.
  assert (T5 : (1 - u) * (/ 2 * ((1 - u) * ((2 - 3 * u) * S))) <= rnd (/ 2 * rnd (P + rnd (A / P)))).
  { eapply Rle_trans; [| apply T4; lra]. apply Rmult_le_compat_l; lra. }
  eapply Rle_trans; [| exact T5].
  replace ((1 - u) * (/ 2 * ((1 - u) * ((2 - 3 * u) * S)))) with (((1 - u) * (1 - u) * (1 - 3 / 2 * u)) * S) by field.
  apply Rmult_le_compat_r; [lra |]. nra.
Qed.

Lemma pos_ge_emin (x : fl) : 0 < v x -> bpow emin <= v x.
Proof.
  intros H. pose proof (abs_B2R_ge_emin prec emax x) as B.
  rewrite Rabs_pos_eq in B by lra. apply B.
  destruct x; cbn in H |- *; try lra; reflexivity.
Qed.

Lemma step_lower (a p : fl) : is_finite a = true -> 0 < v a -> nn p ->
  atleast ((1 - 4 * u) * sqrt (v a)) (step a p).
Proof.
  intros Fa Pa Hn. destruct (step_cases P2 Hemax a p Fa Pa Hn) as [E|(A & B & C & D & E)]; [left; exact E |].
  right. split; [exact C |]. split; [exact D |]. rewrite E. apply step_lower_R; [now apply pos_ge_emin | exact B].
Qed.

Lemma half_val (a : fl) : is_finite a = true -> 0 < v a -> v (fmul half a) = rnd (/ 2 * v a) /\ is_finite (fmul half a) = true.
Proof.
  intros Fa Pa. destruct (half_ok (prec := prec) (emax := emax) P2 Hemax) as [H1 H2].
  assert (Hb : Rabs (v half * v a) <= bpow (emax - 1)).
  { rewrite H1. pose proof (abs_B2R_lt_emax prec emax a) as B. rewrite Rabs_pos_eq in B by lra.
    rewrite Rabs_pos_eq by lra.
    assert (BB : bpow emax = 2 * bpow (emax - 1)) by (replace emax with (1 + (emax - 1))%Z at 1 by lia; rewrite bpow_plus; simpl (bpow 1); lra).
    rewrite BB in B. lra. }
  destruct (fmul_ok half a H2 Fa Hb) as [M1 M2]. rewrite M1, H1. split; [reflexivity | exact M2].
Qed.

Lemma half_nonzero (a : fl) : is_finite a = true -> 2 * bpow emin <= v a -> feq (fmul half a) fzero = false.
Proof.
  intros Fa Pa. pose proof (bpow_gt_0 radix2 emin). destruct (half_val a Fa ltac:(lra)) as [A B].
  rewrite feq_spec by (try assumption; reflexivity). change (v fzero) with 0. rewrite A.
  assert (bpow emin <= rnd (/ 2 * v a)) by (apply rnd_ge; [exact Hp | apply F_bpow; [exact Hp | lia] | lra]).
  apply Req_bool_false. lra.
Qed.

Lemma fsqrt_lower (a : fl) fuel r : is_finite a = true -> 2 * bpow emin <= v a -> fsqrt fuel a = FVal r ->
  atleast ((1 - 4 * u) * sqrt (v a)) r.
Proof.
  intros Fa Ha E. pose proof (bpow_gt_0 radix2 emin). assert (Pa : 0 < v a) by lra.
  rewrite (fsqrt_loop a Fa Pa) in E.
  eapply (loop_ind a nn (atleast ((1 - 4 * u) * sqrt (v a)))); [| | | exact E].
  - intros p Hn. split; [apply step_nn; try assumption; lia | now apply step_lower].
  - apply half_nn; try assumption; lia.
  - intros C. rewrite half_nonzero in C by assumption. discriminate.
Qed.

(** *** Accuracy *)
(** The loop stops at a number that one more round leaves where it is. *)
Lemma loop_fix (a : fl) (I : fl -> Prop) : (forall p, I p -> is_finite p = true /\ I (step a p)) ->
  forall fuel next previous r, I next -> (feq next previous = true -> False) ->
  sqrt_loop fuel a next previous = FVal r -> I r /\ exists p, I p /\ r = step a p /\ v p = v r.
Proof.
  intros Hs.
  assert (G : forall fuel next previous r, I next -> I previous -> next = step a previous ->
    sqrt_loop fuel a next previous = FVal r -> I r /\ exists p, I p /\ r = step a p /\ v p = v r).
  { assert (Eq : forall n p : fl, I n -> I p -> feq n p = true -> v p = v n).
    { intros n p In Ip C. rewrite feq_spec in C; [| apply Hs, In | apply Hs, Ip].
      destruct (Req_bool_spec (v n) (v p)) as [D|D]; [lra | discriminate]. }
    induction fuel as [|f IH]; intros next previous r In Ip En E; cbn [sqrt_loop] in E.
    - destruct (feq next previous) eqn:C; [| discriminate]. injection E as <-.
      split; [exact In |]. exists previous. split; [exact Ip |]. split; [exact En |]. now apply Eq.
    - destruct (feq next previous) eqn:C.
      + injection E as <-. split; [exact In |]. exists previous. split; [exact Ip |]. split; [exact En |]. now apply Eq.
      + change (fmul half (fadd next (fdiv a next))) with (step a next) in E.
        apply (IH (step a next) next r); [apply Hs, In | exact In | reflexivity | exact E]. }
  intros fuel next previous r In Hf E. destruct fuel as [|f]; cbn [sqrt_loop] in E.
  - destruct (feq next previous); [exfalso; now apply Hf | discriminate].
  - destruct (feq next previous); [exfalso; now apply Hf |].
    change (fmul half (fadd next (fdiv a next))) with (step a next) in E.
    apply (G f (step a next) next r); [apply Hs, In | exact In | reflexivity | exact E].
Qed.

Lemma fadd_ok3 (x y : fl) : is_finite x = true -> is_finite y = true -> 0 <= v x + v y <= 3 * bpow (emax - 2) ->
  v (fadd x y) = rnd (v x + v y) /\ is_finite (fadd x y) = true /\ rnd (v x + v y) <= 3 * bpow (emax - 2).
Proof.
  intros A B H. pose proof (Bplus_correct prec emax Hp Hx mode_NE x y A B) as C.
  change (round radix2 (SpecFloat.fexp prec emax) (round_mode mode_NE)) with rnd in C.
  assert (F3 : F (3 * bpow (emax - 2))).
  { apply F_grid; [exact Hp | lia |]. apply Z.le_trans with (2 ^ 6)%Z; [simpl; lia | apply Z.pow_le_mono_r; lia]. }
  assert (U : rnd (v x + v y) <= 3 * bpow (emax - 2)) by (apply rnd_le; [exact Hp | exact F3 | lra]).
  assert (L : 0 <= rnd (v x + v y)) by (apply rnd_ge; [exact Hp | apply generic_format_0 | lra]).
  assert (E : bpow emax = 4 * bpow (emax - 2)).
  { replace emax with (2 + (emax - 2))%Z at 1 by lia. rewrite bpow_plus. simpl (bpow 2). lra. }
  pose proof (bpow_gt_0 radix2 (emax - 2)).
  rewrite Rlt_bool_true in C by (rewrite Rabs_pos_eq by lra; lra). tauto.
Qed.

Definition inv (a p : fl) : Prop :=
  is_finite p = true /\ Bsign p = false /\ 0 < v p <= bpow (emax - 1) /\ v a / v p <= bpow (emax - 2).

Lemma inv_nn a p : inv a p -> nn p.
Proof. intros (A & B & C & _). right. split; [exact A |]. split; [exact B | lra]. Qed.

Lemma inv_step (a p : fl) : is_finite a = true -> 0 < v a -> inv a p -> inv a (step a p) /\
  v (step a p) = rnd (/ 2 * rnd (v p + rnd (v a / v p))) /\ (1 - 4 * u) * sqrt (v a) <= v (step a p).
Proof.
  intros Fa Pa I. pose proof I as (F1 & S1 & P1 & Q1). pose proof u_small as US. pose proof u_pos as UP.
  pose proof (inv_nn a p I) as Hn.
  assert (FB : F (bpow (emax - 2))) by (apply F_bpow; [exact Hp | lia]).
  assert (FB1 : F (bpow (emax - 1))) by (apply F_bpow; [exact Hp | lia]).
  assert (B2 : bpow (emax - 1) = 2 * bpow (emax - 2)).
  { replace (emax - 1)%Z with (1 + (emax - 2))%Z by lia. rewrite bpow_plus. simpl (bpow 1). lra. }
  assert (Q0 : 0 <= v a / v p) by (apply Rmult_le_pos; [lra | left; apply Rinv_0_lt_compat; lra]).
  assert (Rq : 0 <= rnd (v a / v p) <= bpow (emax - 2)).
  { split; [apply rnd_ge; [exact Hp | apply generic_format_0 | exact Q0] | apply rnd_le; [exact Hp | exact FB | exact Q1]]. }
  assert (V : v (step a p) = rnd (/ 2 * rnd (v p + rnd (v a / v p))) /\ is_finite (step a p) = true /\ Bsign (step a p) = false /\
    rnd (v p + rnd (v a / v p)) <= 3 * bpow (emax - 2)).
  { destruct (fdiv_ok a p Fa ltac:(lra)) as [D1 D2]; [rewrite Rabs_pos_eq by exact Q0; lra |].
    destruct (fadd_ok3 p (fdiv a p) F1 D2) as (A1 & A2 & A3); [rewrite D1; lra |].
    rewrite D1 in A3.
    destruct (step_cases P2 Hemax a p Fa Pa Hn) as [E|(_ & _ & C & D & E)]; [| tauto]. exfalso. unfold step in E.
    destruct (half_ok (prec := prec) (emax := emax) P2 Hemax) as [H1 H2].
    destruct (fmul_ok half _ H2 A2) as [M1 M2].
    { rewrite H1, A1, D1. rewrite Rabs_pos_eq; [lra |]. apply Rmult_le_pos; [lra |].
      apply rnd_ge; [exact Hp | apply generic_format_0 | lra]. }
    rewrite E in M2. discriminate. }
  destruct V as (V1 & V2 & V3 & V4).
  assert (Rn : rnd (/ 2 * rnd (v p + rnd (v a / v p))) <= bpow (emax - 1)).
  { pose proof (bpow_gt_0 radix2 (emax - 2)). apply rnd_le; [exact Hp | exact FB1 | lra]. }
  pose proof (step_lower_R (v a) (v p) (pos_ge_emin a Pa) (proj1 P1)) as L.
  assert (S0 : 0 < sqrt (v a)) by (apply sqrt_lt_R0; lra).
  split; [| split; [exact V1 | rewrite V1; exact L]].
  assert (V0 : 0 < v (step a p)).
  { rewrite V1. eapply Rlt_le_trans; [| exact L]. apply Rmult_lt_0_compat; lra. }
  split; [exact V2 |]. split; [exact V3 |]. split; [rewrite V1 in V0 |- *; lra |].
  (* the next quotient *)
  set (S := sqrt (v a)) in *. assert (SS : S * S = v a) by (apply sqrt_sqrt; lra).
  assert (SB : 2 * S <= bpow (emax - 2)).
  { apply Rsqr_incr_0_var; [| apply bpow_ge_0]. unfold Rsqr. replace (2 * S * (2 * S)) with (4 * v a) by (rewrite <- SS; lra).
    pose proof (abs_B2R_lt_emax prec emax a) as B. rewrite Rabs_pos_eq in B by lra.
    apply Rle_trans with (4 * bpow emax); [lra |]. replace 4 with (bpow 2) by (simpl; lra).
    rewrite <- !bpow_plus. apply bpow_le. lia. }
  rewrite V1. set (N := rnd (/ 2 * rnd (v p + rnd (v a / v p)))) in *.
  assert (N0 : S / 2 <= N) by (eapply Rle_trans; [| exact L]; unfold Rdiv; rewrite Rmult_comm; apply Rmult_le_compat_r; lra).
  apply Rmult_le_reg_r with N; [lra |]. unfold Rdiv. rewrite Rmult_assoc, Rinv_l, Rmult_1_r by lra.
  rewrite <- SS. apply Rle_trans with (bpow (emax - 2) * (S / 2)).
  - replace (S * S) with (2 * S * (S / 2)) by field. apply Rmult_le_compat_r; lra.
  - apply Rmult_le_compat_l; [apply bpow_ge_0 | exact N0].
Qed.

Lemma inv_half (a : fl) : is_finite a = true -> 2 * bpow emin <= v a -> inv a (fmul half a).
Proof.
  intros Fa Pa. pose proof (bpow_gt_0 radix2 emin) as E0. destruct (half_val a Fa ltac:(lra)) as [A B].
  assert (L : bpow emin <= rnd (/ 2 * v a)) by (apply rnd_ge; [exact Hp | apply F_bpow; [exact Hp | lia] | lra]).
  assert (FB : F (bpow (emax - 1))) by (apply F_bpow; [exact Hp | lia]).
  assert (BB : bpow emax = 2 * bpow (emax - 1)) by (replace emax with (1 + (emax - 1))%Z at 1 by lia; rewrite bpow_plus; simpl (bpow 1); lra).
  pose proof (abs_B2R_lt_emax prec emax a) as BA. rewrite Rabs_pos_eq in BA by lra. rewrite BB in BA.
  split; [exact B |]. split; [apply sign_of_pos; rewrite A; lra |]. rewrite A. split.
  - split; [lra |]. apply rnd_le; [exact Hp | exact FB | lra].
  - assert (Lo : / 8 * v a <= rnd (/ 2 * v a)).
    { pose proof u_small. pose proof (rnd_lo_abs (/ 2 * v a) ltac:(lra)) as R.
      destruct (Rle_or_lt (bpow emin) (/ 4 * v a)) as [C|C].
      - assert ((1 - u) * (/ 2 * v a) >= 3 / 8 * v a) by (apply Rle_ge; apply Rle_trans with ((3 / 4) * (/ 2 * v a)); [lra | apply Rmult_le_compat_r; lra]). lra.
      - lra. }
    apply Rmult_le_reg_r with (rnd (/ 2 * v a)); [lra |]. unfold Rdiv. rewrite Rmult_assoc, Rinv_l, Rmult_1_r by lra.
    apply Rle_trans with (8 * rnd (/ 2 * v a)); [lra |]. apply Rmult_le_compat_r; [lra |].
    replace 8 with (bpow 3) by (simpl; lra). apply bpow_le. lia.
Qed.

Lemma F_half x : bpow (emin + prec) <= x -> F x -> F (/ 2 * x).
Proof.
  intros H Fx. pose proof (bpow_gt_0 radix2 (emin + prec)).
  assert (X0 : x <> 0) by lra.
  assert (Mg : (emin + prec + 1 <= mag radix2 x)%Z).
  { apply mag_ge_bpow. rewrite Rabs_pos_eq by lra. replace (emin + prec + 1 - 1)%Z with (emin + prec)%Z by lia. exact H. }
  replace (/ 2 * x) with (x * bpow (-1)) by (simpl (bpow (-1)); lra).
  destruct (F_cexp _ _ x Fx) as [k E].
  rewrite E, Rmult_assoc, <- bpow_plus.
  apply F_grid; [exact Hp | unfold cexp, FLT_exp; lia |].
  pose proof (mantissa_bound _ _ x k X0 E). lia.
Qed.

Theorem fsqrt_accurate (a : fl) fuel r : is_finite a = true -> 2 * bpow emin <= v a ->
  fsqrt fuel a = FVal r ->
  is_finite r = true /\ 0 < v r /\ Rabs (v r - sqrt (v a)) <= 4 / 3 * ulp radix2 fexp (v r).
Proof.
  intros Fa Pa E. pose proof (bpow_gt_0 radix2 emin) as E0. pose proof u_small as US. pose proof u_pos as UP.
  rewrite (fsqrt_loop a Fa ltac:(lra)) in E.
  destruct (loop_fix a (inv a)) with (fuel := fuel) (next := fmul half a) (previous := fzero : fl) (r := r) as (Ir & p & Ip & Ep & Vp).
  - intros q Iq. split; [apply Iq |]. apply inv_step; [exact Fa | lra | exact Iq].
  - now apply inv_half.
  - intros C. rewrite half_nonzero in C by (try assumption; lra). discriminate.
  - exact E.
  - destruct Ir as (R1 & R2 & R3 & R4). split; [exact R1 |]. split; [lra |].
    destruct (inv_step a p Fa ltac:(lra) Ip) as (_ & V & L). rewrite <- Ep in V, L. rewrite Vp in V. clear p Ip Ep Vp E.
    set (P := v r) in *. set (A := v a) in *.
    assert (A0 : 0 < A) by lra.
    set (S := sqrt A) in *. assert (S0 : 0 < S) by (apply sqrt_lt_R0; lra).
    assert (SS : S * S = A) by (apply sqrt_sqrt; lra).
    assert (SL : bpow (emin + prec + 1) <= S).
    { unfold S. rewrite <- (sqrt_square (bpow (emin + prec + 1))) by apply bpow_ge_0. apply sqrt_le_1_alt.
      apply Rle_trans with (2 * bpow emin); [| exact Pa]. rewrite <- bpow_plus.
      replace (2 * bpow emin) with (bpow (1 + emin)) by (rewrite bpow_plus; simpl (bpow 1); lra). apply bpow_le. lia. }
    assert (PL : bpow (emin + prec) <= P).
    { eapply Rle_trans; [| exact L]. replace (emin + prec + 1)%Z with (1 + (emin + prec))%Z in SL by lia. rewrite bpow_plus in SL.
      simpl (bpow 1) in SL. apply Rle_trans with (/ 2 * S); [lra | apply Rmult_le_compat_r; lra]. }
    set (q := rnd (A / P)) in *. set (s := rnd (P + q)) in *.
    assert (Q0 : 0 <= q) by (apply rnd_ge; [exact Hp | apply generic_format_0 | apply Rmult_le_pos; [lra | left; apply Rinv_0_lt_compat; lra]]).
    assert (sL : bpow (emin + prec) <= s) by (apply rnd_ge; [exact Hp | apply F_bpow; [exact Hp | lia] | lra]).
    assert (Fs : F s) by (apply F_rnd; exact Hp).
    rewrite rnd_F in V by (now apply F_half).
    (* s = 2 P *)
    assert (Es : s = 2 * P) by lra.
    assert (FP : F P) by apply v_F.
    assert (W : ulp radix2 fexp (2 * P) = 2 * ulp radix2 fexp P).
    { rewrite !ulp_neq_0 by lra. unfold cexp. replace (2 * P) with (P * bpow 1) by (simpl (bpow 1); lra).
      rewrite mag_mult_bpow by lra.
      assert (emin + prec + 1 <= mag radix2 P)%Z.
      { apply mag_ge_bpow. rewrite Rabs_pos_eq by lra. replace (emin + prec + 1 - 1)%Z with (emin + prec)%Z by lia. exact PL. }
      replace (fexp (mag radix2 P + 1)) with (1 + fexp (mag radix2 P))%Z by (unfold FLT_exp; lia).
      rewrite bpow_plus. simpl (bpow 1). lra. }
    assert (D1 : Rabs (s - (P + q)) <= ulp radix2 fexp P).
    { pose proof (error_le_half_ulp_round radix2 fexp (fun t => negb (Z.even t)) (P + q)) as D.
      change (round radix2 fexp (Znearest (fun t => negb (Z.even t))) (P + q)) with s in D. rewrite Es, W in D. rewrite Es. lra. }
    rewrite Es in D1.
    assert (U0 : 0 < ulp radix2 fexp P) by (rewrite ulp_neq_0 by lra; apply bpow_gt_0).
    assert (UPP : ulp radix2 fexp P <= 2 * u * P).
    { rewrite ulp_neq_0 by lra. pose proof (bpow_mag_le radix2 P ltac:(lra)) as G. rewrite Rabs_pos_eq in G by lra.
      apply Rle_trans with (2 * u * bpow (mag radix2 P - 1)); [| apply Rmult_le_compat_l; lra].
      assert (emin + prec + 1 <= mag radix2 P)%Z.
      { apply mag_ge_bpow. rewrite Rabs_pos_eq by lra. replace (emin + prec + 1 - 1)%Z with (emin + prec)%Z by lia. exact PL. }
      replace (2 * u) with (bpow (1 + - prec)) by (rewrite bpow_plus; simpl (bpow 1); fold u; lra).
      rewrite <- bpow_plus. apply bpow_le. unfold cexp, FLT_exp. lia. }
    assert (Uq : ulp radix2 fexp q <= 2 * ulp radix2 fexp P).
    { rewrite <- W. apply ulp_le; auto with typeclass_instances. apply Rabs_le_inv in D1.
      rewrite !Rabs_pos_eq by lra. nra. }
    assert (D2 : Rabs (q - A / P) <= ulp radix2 fexp P).
    { pose proof (error_le_half_ulp_round radix2 fexp (fun t => negb (Z.even t)) (A / P)) as D.
      change (round radix2 fexp (Znearest (fun t => negb (Z.even t))) (A / P)) with q in D. lra. }
    (* |P - A / P| <= 2 ulp *)
    set (w := ulp radix2 fexp P) in *.
    apply Rabs_le_inv in D1. apply Rabs_le_inv in D2.
    assert (EP : (P - A / P) * P = (P - S) * (P + S)) by (rewrite <- SS; field; lra).
    assert (S2 : / 2 * P <= S).
    { apply Rsqr_incr_0_var; [| lra]. unfold Rsqr. rewrite SS.
      assert (A = A / P * P) by (field; lra).
      assert (P - 2 * w <= A / P) by lra.
      assert ((P - 2 * w) * P <= A) by (rewrite H; apply Rmult_le_compat_r; lra). nra. }
    apply Rabs_le. split; apply Rmult_le_reg_r with (P + S); try lra; rewrite <- EP.
    + assert (- (2 * w) * P <= (P - A / P) * P) by (apply Rmult_le_compat_r; lra). nra.
    + assert ((P - A / P) * P <= (2 * w) * P) by (apply Rmult_le_compat_r; lra). nra.
Qed.

End Fmt.
