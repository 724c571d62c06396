(** Spherical from_stat_space in floating point. *)
From Coq Require Import ZArith Reals Lra Lia Psatz Bool.
From Flocq Require Import Core Relative Sterbenz IEEE754.BinarySingleNaN.
From Verif Require Import FloatModel FloatProofs1 FloatProofs2 FloatProofs3 FloatProofs4 FloatProofs5.
Local Open Scope R_scope.

Section Fmt.
Context {prec emax : Z} {Hp : Prec_gt_0 prec} {Hx : Prec_lt_emax prec emax}.
Context {lprec lemax : Z} {Hlp : Prec_gt_0 lprec} {Hlx : Prec_lt_emax lprec lemax}.
Notation fl := (binary_float prec emax).
Notation lim := (binary_float lprec lemax).
Notation emin := (3 - emax - prec)%Z.
Notation fexp := (FLT_exp emin prec).
Notation F := (generic_format radix2 fexp).
Notation rnd := (round radix2 fexp ZnearestE).
Notation lexp := (FLT_exp (3 - lemax - lprec) lprec).
Notation bpow := (bpow radix2).
Notation v := (@B2R prec emax).
Notation w := (@B2R lprec lemax).
Notation pinf := (B754_infinity false : fl).
Notation nn := (atleast (prec := prec) (emax := emax) 0).
Notation to_R := (FloatModel.to_R (prec := prec) (emax := emax)).
Notation period := (FloatModel.period (prec := prec) (emax := emax)).
Hypothesis (Hprec : (6 <= prec)%Z) (Hemax : (65 <= emax)%Z) (Hpx : (prec + 4 <= emax)%Z)
  (Hlp' : (prec <= lprec)%Z) (Hlx' : (emax <= lemax)%Z).

Lemma P2' : (2 <= prec)%Z. Proof. lia. Qed.

(** Finite and at most [2^k] in absolute value. *)
Definition bd (k : Z) (x : fl) : Prop := is_finite x = true /\ Rabs (v x) <= bpow k.

Lemma rnd_abs_le x k : (emin <= k)%Z -> Rabs x <= bpow k -> Rabs (rnd x) <= bpow k.
Proof.
  intros Hk H. apply Rabs_le_inv in H. pose proof (F_bpow emin prec k Hk) as G. apply Rabs_le. split.
  - apply rnd_ge; [exact Hp | now apply generic_format_opp | lra].
  - apply rnd_le; [exact Hp | exact G | lra].
Qed.

Lemma bd_cast (x : lim) k : (0 <= k <= emax - 1)%Z -> is_finite x = true -> Rabs (w x) <= bpow k -> bd k (to_R x).
Proof.
  intros Hk Fx H. destruct (cast_down (prec := prec) (emax := emax) x Fx) as [A B].
  - eapply Rle_trans; [exact H | apply bpow_le; lia].
  - split; [exact B |]. rewrite A. apply rnd_abs_le; [lia | exact H].
Qed.

Lemma bd_period (mn mx : lim) k : (0 <= k <= emax - 3)%Z -> is_finite mn = true -> is_finite mx = true ->
  Rabs (w mn) <= bpow k -> Rabs (w mx) <= bpow k -> bd (k + 1) (period mn mx).
Proof.
  intros Hk F1 F2 H1 H2. pose proof (Hlx : (lprec < lemax)%Z).
  assert (S : Rabs (w mx - w mn) <= bpow (k + 1)).
  { rewrite bpow_plus. simpl (bpow 1). unfold Rminus. eapply Rle_trans; [apply Rabs_triang |]. rewrite Rabs_Ropp. lra. }
  destruct (fsub_ok (prec := lprec) (emax := lemax) mx mn F2 F1) as [A B].
  { eapply Rle_trans; [exact S | apply bpow_le; lia]. }
  apply (bd_cast (fsub mx mn)); [lia | exact B |]. rewrite A.
  apply Rabs_le_inv in S.
  assert (G : generic_format radix2 lexp (bpow (k + 1))) by (apply F_bpow; [exact Hlp | lia]).
  apply Rabs_le. split.
  - apply rnd_ge; [exact Hlp | now apply generic_format_opp | lra].
  - apply rnd_le; [exact Hlp | exact G | lra].
Qed.

Lemma bd_div (x y : fl) k : (0 <= k <= emax - 1)%Z -> bd k x -> 1 <= v y -> bd k (fdiv x y).
Proof.
  intros Hk [A B] H.
  assert (Q : Rabs (v x / v y) <= bpow k).
  { unfold Rdiv. rewrite Rabs_mult, Rabs_inv, (Rabs_pos_eq (v y)) by lra.
    apply Rmult_le_reg_r with (v y); [lra |]. rewrite Rmult_assoc, Rinv_l, Rmult_1_r by lra.
    eapply Rle_trans; [exact B |]. rewrite <- (Rmult_1_r (bpow k)) at 1. apply Rmult_le_compat_l; [apply bpow_ge_0 | exact H]. }
  destruct (fdiv_ok x y A ltac:(lra)) as [C D].
  - eapply Rle_trans; [exact Q | apply bpow_le; lia].
  - split; [exact D |]. rewrite C. apply rnd_abs_le; [lia | exact Q].
Qed.

Lemma bd_mul (x y : fl) k j : (0 <= k + j <= emax - 1)%Z -> bd k x -> bd j y -> bd (k + j) (fmul x y).
Proof.
  intros Hk [A B] [C D].
  assert (Q : Rabs (v x * v y) <= bpow (k + j)).
  { rewrite Rabs_mult, bpow_plus. apply Rmult_le_compat; try apply Rabs_pos; assumption. }
  destruct (fmul_ok x y A C) as [G H].
  - eapply Rle_trans; [exact Q | apply bpow_le; lia].
  - split; [exact H |]. rewrite G. apply rnd_abs_le; [lia | exact Q].
Qed.

Lemma bd_le (x : fl) k j : (k <= j)%Z -> bd k x -> bd j x.
Proof. intros H [A B]. split; [exact A |]. eapply Rle_trans; [exact B | now apply bpow_le]. Qed.

Lemma bd_copysign (x y : fl) k : bd k x -> bd k (fcopysign x y).
Proof.
  intros [A B]. unfold fcopysign. rewrite (finite_nan x A). pose proof (bpow_ge_0 radix2 k).
  destruct (feq x fzero).
  - destruct (fsignbit y); (split; [reflexivity |]; cbn [B2R fzero]; rewrite Rabs_R0; assumption).
  - destruct (Bool.eqb _ _); [split; assumption |]. split; [now rewrite is_finite_Bopp | now rewrite B2R_Bopp, Rabs_Ropp].
Qed.

Lemma once_finite (mn mx : lim) (phi : fl) : bd (emax - 4) phi -> bd (emax - 4) (period mn mx) ->
  is_finite (fwrap_once mn mx phi) = true.
Proof.
  intros [A B] [C D]. unfold fwrap_once. apply Rabs_le_inv in B. apply Rabs_le_inv in D.
  assert (Q : 8 * bpow (emax - 4) = bpow (emax - 1)).
  { replace (emax - 1)%Z with (3 + (emax - 4))%Z by lia. rewrite bpow_plus. simpl (bpow 3). lra. }
  pose proof (bpow_gt_0 radix2 (emax - 4)).
  destruct (flt phi (to_R mn)); [apply fadd_ok; [exact A | exact C | apply Rabs_le; lra] |].
  destruct (fle (to_R mx) phi); [apply fsub_ok; [exact A | exact C | apply Rabs_le; lra] | exact A].
Qed.

(** The contract of the arc cosine: a finite value for every argument from -1 to 1. *)
Definition acos_contract (acos : fl -> fl) : Prop :=
  forall t, is_finite t = true -> -1 <= v t <= 1 -> is_finite (acos t) = true /\ 0 <= v (acos t) <= 4.

Lemma acos_bd acos t : acos_contract acos -> is_finite t = true -> Rabs (v t) <= 1 -> bd 2 (acos t).
Proof.
  intros C Ft Ht. apply Rabs_le_inv in Ht. destruct (C t Ft Ht) as [A B]. split; [exact A |].
  rewrite Rabs_pos_eq by lra. simpl (bpow 2). lra.
Qed.

Lemma inf_quot (z : fl) : is_finite z = true -> is_finite (fdiv z pinf) = true /\ v (fdiv z pinf) = 0.
Proof. destruct z; try discriminate; split; reflexivity. Qed.

Section Spher.
Variables (acos : fl -> fl) (pi pi2 : fl) (mn mx down : lim).
Hypothesis (Ha : acos_contract acos) (Hpi : 3 <= v pi <= 4) (Hpi2 : 6 <= v pi2 <= 8).
Hypothesis (Fmn : is_finite mn = true) (Fmx : is_finite mx = true) (Fdn : is_finite down = true).
Hypothesis (Bmn : Rabs (w mn) <= bpow (emax - 8)) (Bmx : Rabs (w mx) <= bpow (emax - 8)) (Bdn : Rabs (w down) <= bpow (emax - 8)).

Lemma theta_finite (h z : fl) : is_finite z = true -> nn h -> (h = pinf \/ v h = 0 \/ Rabs (v z) <= v h) ->
  is_finite (calc_theta acos pi (to_R down) h z) = true.
Proof.
  intros Fz Hn C. unfold calc_theta.
  assert (D : bd (emax - 8) (fdiv (to_R down) pi)).
  { apply bd_div; [lia | apply bd_cast; [lia | exact Fdn | exact Bdn] | lra]. }
  assert (K : bd 2 (if feq h fzero then h else acos (fdiv z h))).
  { destruct Hn as [->|(F1 & _ & P1)].
    - cbn [feq Beqb]. change (feq pinf fzero) with false. cbv iota.
      destruct (inf_quot z Fz) as [A B]. apply acos_bd; [exact Ha | exact A |]. rewrite B, Rabs_R0. lra.
    - rewrite feq_spec by (try assumption; reflexivity). change (v fzero) with 0.
      destruct (Req_bool_spec (v h) 0) as [E|E].
      + split; [exact F1 |]. rewrite E, Rabs_R0. apply bpow_ge_0.
      + destruct C as [->|[C|C]]; [discriminate | lra |].
        destruct (quot_le_1 P2' Hemax z h Fz ltac:(lra) C) as (A & B & _).
        apply acos_bd; assumption. }
  pose proof (bd_mul _ _ (emax - 8) 2 ltac:(lia) D K) as [R _]. exact R.
Qed.

Lemma phi_finite (hypot x y : fl) : is_finite x = true ->
  (hypot = pinf \/ (is_finite hypot = true /\ Rabs (v x) <= v hypot)) ->
  is_finite (fwrap_once mn mx (calc_phi acos hypot x (fcopysign (fdiv (period mn mx) pi2) y))) = true.
Proof.
  intros Fx C. unfold calc_phi.
  assert (Pd : bd (emax - 7) (period mn mx)).
  { replace (emax - 7)%Z with (emax - 8 + 1)%Z by lia. apply bd_period; try assumption. lia. }
  assert (Sc : bd (emax - 7) (fcopysign (fdiv (period mn mx) pi2) y)).
  { apply bd_copysign, bd_div; [lia | exact Pd | lra]. }
  assert (K : bd 2 (if feq hypot fzero then hypot else acos (fdiv x hypot))).
  { destruct C as [->|(F1 & H)].
    - change (feq pinf fzero) with false. cbv iota.
      destruct (inf_quot x Fx) as [A B]. apply acos_bd; [exact Ha | exact A |]. rewrite B, Rabs_R0. lra.
    - rewrite feq_spec by (try assumption; reflexivity). change (v fzero) with 0. pose proof (Rabs_pos (v x)).
      destruct (Req_bool_spec (v hypot) 0) as [E|E].
      + split; [exact F1 |]. rewrite E, Rabs_R0. apply bpow_ge_0.
      + destruct (quot_le_1 P2' Hemax x hypot Fx ltac:(lra) H) as (A & B & _).
        apply acos_bd; assumption. }
  apply once_finite.
  - pose proof (bd_mul _ _ (emax - 7) 2 ltac:(lia) Sc K) as R. apply (bd_le _ (emax - 7 + 2)); [lia | exact R].
  - apply (bd_le _ (emax - 7)); [lia | exact Pd].
Qed.

Lemma sq_pos (x : fl) : is_finite x = true \/ x = pinf -> nn (fmul x x).
Proof.
  intros H. destruct (fsqr_nn x H) as [E|(_ & A & B & _)]; [left; exact E |].
  apply nn_of; [exact A | exact B | now apply sign_nonneg].
Qed.

Theorem spher_finite fuel (d x y z d' theta phi : fl) :
  is_finite d = true -> is_finite x = true -> is_finite y = true -> is_finite z = true ->
  spher_from_stat acos pi pi2 fuel mn mx down d x y z = FVal (d', theta, phi) ->
  d' = d /\ is_finite phi = true /\
  (v z = 0 \/
   (bpow (emin + 2 * prec) <= v z * v z /\ 16 * bpow (- prec) * (v z * v z) <= Rmax (Rabs (v x)) (Rabs (v y)) * Rmax (Rabs (v x)) (Rabs (v y))) ->
   is_finite theta = true).
Proof.
  intros Fd Fx Fy Fz E. unfold spher_from_stat in E. cbv zeta in E.
  destruct (fhypot fuel x y) as [H| | |] eqn:EH; cbn [fbind] in E; try discriminate.
  destruct (fsqrt fuel (fadd (fmul H H) (fmul z z))) as [h| | |] eqn:Eh; cbn [fbind] in E; try discriminate.
  injection E as <- <- <-.
  pose proof (fhypot_ge P2' Hemax x y fuel H Fx Fy EH) as G.
  split; [reflexivity |]. split.
  { apply phi_finite; [exact Fx |]. destruct G as [->|(G1 & G2 & _)]; [left; reflexivity | right; tauto]. }
  intros C.
  assert (NH : nn (fmul H H)) by (apply sq_pos; destruct G as [->|(G1 & _)]; tauto).
  assert (NZ : nn (fmul z z)) by (apply sq_pos; tauto).
  assert (NA : nn (fadd (fmul H H) (fmul z z))).
  { destruct (fadd_nn (fmul H H) (fmul z z) NH NZ) as [A|(_ & _ & A & B & _)]; [left; exact A |].
    apply nn_of; [exact A | exact B | now apply sign_nonneg]. }
  pose proof (fsqrt_nn P2' Hemax _ _ _ NA Eh) as Nh.
  apply theta_finite; [exact Fz | exact Nh |].
  destruct C as [C|[C1 C2]].
  { rewrite C, Rabs_R0. destruct Nh as [->|(_ & _ & P)]; [left; reflexivity | right; right; exact P]. }
  destruct (fadd_nn (fmul H H) (fmul z z) NH NZ) as [A|(A1 & A2 & A3 & A4 & A5)].
  { rewrite A in Eh. cbn in Eh. injection Eh as <-. left. reflexivity. }
  destruct (fsqr_nn H ltac:(destruct G as [->|(G1 & _)]; tauto)) as [B|(B1 & _ & _ & B2)]; [rewrite B in A1; discriminate |].
  destruct (fsqr_nn z ltac:(tauto)) as [D|(_ & _ & _ & D2)]; [rewrite D in A2; discriminate |].
  destruct G as [->|(G1 & G2 & G3)]; [discriminate |].
  rewrite B2, D2 in A5. set (a := fadd (fmul H H) (fmul z z)) in *.
  set (Z := v z) in *. set (M := Rmax (Rabs (v x)) (Rabs (v y))) in *. set (u := bpow (- prec)) in *.
  pose proof (u_pos (prec := prec)) as U0. pose proof (u_small (prec := prec) Hprec) as U1. fold u in U0, U1.
  pose proof (bpow_gt_0 radix2 emin) as E0.
  assert (MH : M <= v H) by (apply Rmax_lub; assumption).
  assert (M0 : 0 <= M) by (unfold M; eapply Rle_trans; [apply Rabs_pos | apply Rmax_l]).
  assert (L1 : 16 * u * (Z * Z) <= v H * v H).
  { eapply Rle_trans; [exact C2 |]. apply Rmult_le_compat; lra. }
  assert (N1 : bpow (emin + prec - 1) <= 16 * u * (Z * Z)).
  { apply Rle_trans with (16 * u * bpow (emin + 2 * prec)); [| apply Rmult_le_compat_l; lra].
    unfold u. rewrite Rmult_assoc, <- bpow_plus. apply Rle_trans with (bpow (- prec + (emin + 2 * prec))).
    - apply bpow_le. lia.
    - pose proof (bpow_gt_0 radix2 (- prec + (emin + 2 * prec))). lra. }
  assert (N2 : bpow (emin + prec - 1) <= Z * Z) by (eapply Rle_trans; [| exact C1]; apply bpow_le; lia).
  assert (L2 : (1 - u) * (16 * u * (Z * Z)) <= rnd (v H * v H)).
  { eapply Rle_trans; [apply (rnd_lo (prec := prec) (emax := emax)); exact N1 |]. apply rnd_mono; [exact Hp | exact L1]. }
  pose proof (rnd_lo (prec := prec) (emax := emax) (Z * Z) N2) as L3. fold u in L3.
  assert (ZZ : 0 < Z * Z) by (pose proof (bpow_gt_0 radix2 (emin + prec - 1)); lra).
  assert (L4 : (1 - u) * ((1 + 16 * u) * (Z * Z)) <= rnd (v H * v H) + rnd (Z * Z)) by lra.
  assert (N3 : bpow (emin + prec - 1) <= rnd (v H * v H) + rnd (Z * Z)).
  { apply Rle_trans with (Z * Z); [exact N2 |]. eapply Rle_trans; [| exact L4].
    rewrite <- Rmult_assoc. rewrite <- (Rmult_1_l (Z * Z)) at 1. apply Rmult_le_compat_r; [lra |].
    assert (0 <= u * (15 - 16 * u)) by (apply Rmult_le_pos; lra). lra. }
  pose proof (rnd_lo (prec := prec) (emax := emax) _ N3) as L5. fold u in L5. rewrite <- A5 in L5.
  assert (L6 : (1 - u) * ((1 - u) * ((1 + 16 * u) * (Z * Z))) <= v a).
  { eapply Rle_trans; [| exact L5]. apply Rmult_le_compat_l; lra. }
  assert (La : 2 * bpow emin <= v a).
  { apply Rle_trans with (bpow (emin + prec - 1)).
    - replace (2 * bpow emin) with (bpow (1 + emin)) by (rewrite bpow_plus; simpl (bpow 1); lra). apply bpow_le. lia.
    - apply Rle_trans with (Z * Z); [exact N2 |]. eapply Rle_trans; [| exact L6].
      replace ((1 - u) * ((1 - u) * ((1 + 16 * u) * (Z * Z)))) with ((1 - u) * ((1 - u) * (1 + 16 * u)) * (Z * Z)) by ring.
      rewrite <- (Rmult_1_l (Z * Z)) at 1. apply Rmult_le_compat_r; [lra |].
      assert (0 <= u * (14 - 31 * u + 16 * (u * u))) by (apply Rmult_le_pos; nra). lra. }
  pose proof (fsqrt_lower Hprec Hemax Hpx a fuel h A3 La Eh) as [I|(I1 & I2 & I3)]; [left; exact I |].
  right. right. fold u in I3. eapply Rle_trans; [| exact I3].
  set (S := sqrt (v a)) in *.
  assert (SS : S * S = v a) by (apply sqrt_sqrt; lra).
  assert (S0 : 0 <= S) by apply sqrt_pos.
  assert (P4 : 0 < 1 - 4 * u) by lra.
  apply Rsqr_incr_0_var; [| apply Rmult_le_pos; lra]. rewrite <- Rsqr_abs. unfold Rsqr.
  replace ((1 - 4 * u) * S * ((1 - 4 * u) * S)) with ((1 - 4 * u) * (1 - 4 * u) * (S * S)) by ring. rewrite SS.
  apply Rle_trans with ((1 - 4 * u) * (1 - 4 * u) * ((1 - u) * ((1 - u) * ((1 + 16 * u) * (Z * Z))))).
  - replace ((1 - 4 * u) * (1 - 4 * u) * ((1 - u) * ((1 - u) * ((1 + 16 * u) * (Z * Z)))))
      with (((1 - 4 * u) * (1 - 4 * u) * ((1 - u) * ((1 - u) * (1 + 16 * u)))) * (Z * Z)) by ring.
    rewrite <- (Rmult_1_l (Z * Z)) at 1. apply Rmult_le_compat_r; [lra |].
    assert (Q1 : 1 - 10 * u <= (1 - 4 * u) * (1 - 4 * u) * ((1 - u) * (1 - u))).
    { assert (R1 : 1 - 5 * u <= (1 - 4 * u) * (1 - u)) by nra.
      assert (R2 : (1 - 5 * u) * (1 - 5 * u) <= (1 - 4 * u) * (1 - u) * ((1 - 4 * u) * (1 - u))) by (apply Rmult_le_compat; lra).
      nra. }
    assert (Q2 : 1 <= (1 - 10 * u) * (1 + 16 * u)).
    { assert (u * u <= u * / 64) by (apply Rmult_le_compat_l; lra). lra. }
    apply Rle_trans with ((1 - 10 * u) * (1 + 16 * u)); [exact Q2 |].
    replace ((1 - 4 * u) * (1 - 4 * u) * ((1 - u) * ((1 - u) * (1 + 16 * u)))) with ((1 - 4 * u) * (1 - 4 * u) * ((1 - u) * (1 - u)) * (1 + 16 * u)) by ring.
    apply Rmult_le_compat_r; [lra | exact Q1].
  - apply Rmult_le_compat_l; [apply Rmult_le_pos; lra | exact L6].
Qed.
End Spher.
End Fmt.
