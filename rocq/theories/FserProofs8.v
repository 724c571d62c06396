(** Angles brought near zero; sin and cos of every argument that is not too large. *)
From Coq Require Import ZArith Reals Lra Lia Bool Machin Ratan.
From Flocq Require Import Core Plus_error Mult_error Relative IEEE754.BinarySingleNaN.
From Verif Require Import FloatModel FloatProofs1 FloatProofs2 FserModel FserProofs1 FserProofs2 FserProofs3 FserProofs6 FserProofs7.
Local Open Scope R_scope.

Lemma PI_bounds : 314 / 100 <= PI <= 3142 / 1000.
Proof. pose proof (PI_2_3_7_ineq 2) as H. unfold tg_alt, PI_2_3_7_tg, Ratan_seq in H. simpl in H. lra. Qed.

Section Fmt.
Context {prec emax : Z} {Hp : Prec_gt_0 prec} {Hx : Prec_lt_emax prec emax}.
Notation fl := (binary_float prec emax).
Notation emin := (3 - emax - prec)%Z.
Notation fexp := (FLT_exp emin prec).
Notation F := (generic_format radix2 fexp).
Notation rnd := (round radix2 fexp ZnearestE).
Notation bpow := (bpow radix2).
Notation v := (@B2R prec emax).
Hypothesis (Hprec : (8 <= prec)%Z) (Hemax : (65 <= emax)%Z) (Hpx : (prec + 40 <= emax)%Z) (Hbig : (emax + prec <= 20000)%Z).
Notation u := (bpow (- prec)).
Notation h := (bpow (emin - 1)).
Local Notation N := (Z.to_nat (emax + prec + 33)).

Lemma sin_zero (x : fl) : is_finite x = true -> v x = 0 -> forall fuel, sin_series fuel x = FVal x.
Proof.
  intros Fx Vx fuel.
  assert (Bx : Rabs (v x) <= bpow 0) by (rewrite Vx, Rabs_R0; simpl; lra).
  destruct (mul_step (prec := prec) (emax := emax) x x 0 0 Fx Fx Bx Bx ltac:(lia)) as (Fm & Vm & Bm). rewrite Vx, Rmult_0_l, round_0 in Vm by auto with typeclass_instances.
  destruct (mul_step (prec := prec) (emax := emax) (fmul x x) x 0 0 Fm Fx ltac:(rewrite Vm, Rabs_R0; apply bpow_ge_0) Bx ltac:(lia)) as (Fm2 & Vm2 & _).
  rewrite Vm, Rmult_0_l, round_0 in Vm2 by auto with typeclass_instances.
  destruct (div_step (prec := prec) (emax := emax) ltac:(lia) ltac:(lia) (fmul (fmul x x) x) (-6) 2 0 Fm2 ltac:(rewrite Vm2, Rabs_R0; apply bpow_ge_0) ltac:(lia) ltac:(split; lia) ltac:(lia)) as (F0 & V0 & _).
  rewrite Vm2 in V0. unfold Rdiv in V0. rewrite Rmult_0_l, round_0 in V0 by auto with typeclass_instances.
  destruct (fadd_ok x (fdiv (fmul (fmul x x) x) (of_Z (-6))) Fx F0) as [V2 F2]; [rewrite V0, Vx, Rplus_0_r, Rabs_R0; apply bpow_ge_0 |].
  rewrite V0, Vx, Rplus_0_r, round_0 in V2 by auto with typeclass_instances. unfold sin_series. destruct fuel; cbn [sin_cos_series]; (rewrite feq_spec by auto; rewrite Req_bool_true by (rewrite Vx, V2; reflexivity); reflexivity).
Qed.

Variable pi : fl.
Hypothesis (Fpi : is_finite pi = true) (Npi : Rabs (v pi - PI) <= 2 * u).
Lemma pi_range : 313 / 100 <= v pi <= 3151 / 1000.
Proof. pose proof PI_bounds. destruct (prec_facts (prec := prec) ltac:(lia)) as (U & _). pose proof Npi as A. apply Rabs_le_inv in A. lra. Qed.
Lemma pi2_ok : let p := fmul pi (of_Z 2) in is_finite p = true /\ v p = 2 * v pi.
Proof.
  cbv zeta. destruct (small_Z (prec := prec) (emax := emax) ltac:(lia) ltac:(lia) 2 ltac:(lia)) as [V2 F2]. pose proof pi_range.
  destruct (fmul_ok pi (of_Z 2) Fpi F2) as [V G]; [rewrite V2, Rabs_pos_eq by lra; apply Rle_trans with (bpow 3); [simpl; lra | apply bpow_le; lia] |]. split; [exact G |].
  rewrite V, V2. replace (v pi * 2) with (v pi * bpow 1) by (simpl; lra). rewrite rnd_F; [simpl; lra |]. apply mult_bpow_pos_exact_FLT; [apply v_F | lia].
Qed.
Theorem scale_ok (x : fl) : is_finite x = true -> Rabs (v x) <= bpow (prec - 5) -> Rabs (v x) <= bpow 62 ->
  exists t (n : Z), is_finite t = true /\ (forall fuel, scale_periodic fuel pi x = FVal t) /\ Rabs (v t) <= 13 / 2 /\
    Rabs (v t - (v x - 2 * IZR n * PI)) <= 4 * u * Rabs (v x) /\ (Rabs (v x) < 2 * v pi -> t = x /\ n = 0%Z).
Proof.
  intros Fx B5 B62. destruct pi2_ok as [F2 V2]. pose proof pi_range as R. destruct (prec_facts (prec := prec) ltac:(lia)) as (U & U2 & _). pose proof (Rabs_pos (v x)) as ax.
  set (p := fmul pi (of_Z 2)) in *.
  assert (C1 : flt (Bopp p) x && flt x p = true <-> Rabs (v x) < 2 * v pi).
  { rewrite !flt_spec by (auto; now rewrite is_finite_Bopp). rewrite B2R_Bopp, V2. split.
    - intros H. apply andb_prop in H. destruct H as [H1 H2]. destruct (Rlt_bool_spec (- (2 * v pi)) (v x)); [| discriminate]. destruct (Rlt_bool_spec (v x) (2 * v pi)); [| discriminate]. apply Rabs_def1; lra.
    - intros H. apply Rabs_def2 in H. rewrite !Rlt_bool_true by lra. reflexivity. }
  destruct (Rlt_le_dec (Rabs (v x)) (2 * v pi)) as [L|L].
  { exists x, 0%Z. split; [exact Fx |]. split; [intros [|fuel]; cbn [scale_periodic]; fold p; rewrite (proj2 C1 L); reflexivity |]. split; [lra |]. split; [| auto].
    replace (v x - (v x - 2 * IZR 0 * PI)) with 0 by ring. rewrite Rabs_R0. apply Rmult_le_pos; lra. }
  assert (C2 : flt (Bopp p) x && flt x p = false) by (destruct (flt (Bopp p) x && flt x p); [exfalso; pose proof (proj1 C1 eq_refl); lra | reflexivity]).
  set (P2 := 2 * v pi) in *. set (X := v x) in *.
  assert (P2r : 626 / 100 <= P2 <= 63 / 10).
  { unfold P2. pose proof PI_bounds. pose proof Npi as A. apply Rabs_le_inv in A. lra. }
  assert (q0 : Rabs (X / P2) = Rabs X / P2) by (unfold Rdiv; rewrite Rabs_mult, Rabs_inv, (Rabs_pos_eq P2) by lra; reflexivity).
  assert (q1 : Rabs X / P2 <= Rabs X / 6) by (apply Rmult_le_compat_l; [lra |]; apply Rinv_le; lra).
  assert (q62 : Rabs (X / P2) <= bpow 60).
  { rewrite q0. apply Rle_trans with (Rabs X / 4); [apply Rmult_le_compat_l; [lra |]; apply Rinv_le; lra |]. replace 62%Z with (60 + 2)%Z in B62 by lia. rewrite bpow_plus in B62. simpl (bpow 2) in B62. lra. }
  assert (q5 : Rabs (X / P2) <= bpow (prec - 7)).
  { rewrite q0. apply Rle_trans with (Rabs X / 4); [apply Rmult_le_compat_l; [lra |]; apply Rinv_le; lra |]. replace (prec - 5)%Z with (prec - 7 + 2)%Z in B5 by lia. rewrite bpow_plus in B5. simpl (bpow 2) in B5. lra. }
  destruct (fdiv_ok x p Fx) as [Vq Fq]; [rewrite V2; lra | rewrite V2; eapply Rle_trans; [exact q62 | apply bpow_le; lia] |]. rewrite V2 in Vq. fold X in Vq. set (q := fdiv x p) in *.
  assert (q60 : Rabs (v q) <= bpow 60) by (rewrite Vq; apply rnd_abs; [lia | exact q62]).
  assert (qp : Rabs (v q) <= bpow (prec - 7)) by (rewrite Vq; apply rnd_abs; [lia | exact q5]).
  (* range checks *)
  assert (Z60 : 0 < bpow 60) by apply bpow_gt_0.
  assert (C3 : fle (of_Z (- 2 ^ 63)) q && fle q (of_Z (2 ^ 63 - 1)) = true).
  { destruct (of_Z_ok (prec := prec) (emax := emax) (- 2 ^ 63)) as [Va Fa]; [rewrite opp_IZR, Rabs_Ropp, <- abs_IZR; change (IZR (Z.abs (2 ^ 63))) with (bpow 63); apply bpow_le; lia |].
    destruct (of_Z_ok (prec := prec) (emax := emax) (2 ^ 63 - 1)) as [Vb Fb]; [rewrite <- abs_IZR; apply Rle_trans with (bpow 63); [change (bpow 63) with (IZR (2 ^ 63)); apply IZR_le; lia | apply bpow_le; lia] |].
    rewrite !fle_spec by auto. rewrite Va, Vb. apply Rabs_le_inv in q60.
    rewrite !Rle_bool_true; [reflexivity | |].
    - apply Rle_trans with (bpow 60); [lra |]. apply rnd_ge; [exact Hp | apply F_bpow; [exact Hp | lia] |]. change (bpow 60) with (IZR (2 ^ 60)). apply IZR_le. lia.
    - apply Rle_trans with (- bpow 60); [| lra]. apply rnd_le; [exact Hp | apply generic_format_opp, F_bpow; [exact Hp | lia] |]. change (bpow 60) with (IZR (2 ^ 60)). rewrite <- opp_IZR. apply IZR_le. lia. }
  set (n := Btrunc q).
  assert (En : n = Ztrunc (v q)) by apply Btrunc_spec.
  assert (n60 : (Z.abs n <= 2 ^ 60)%Z) by (rewrite En, <- Ztrunc_abs; rewrite <- (Ztrunc_IZR (2 ^ 60)); apply Ztrunc_le; exact q60).
  assert (np : (Z.abs n <= 2 ^ prec)%Z).
  { rewrite En, <- Ztrunc_abs, <- (Ztrunc_IZR (2 ^ prec)). apply Ztrunc_le. rewrite IZR_pow2 by lia. eapply Rle_trans; [exact qp | apply bpow_le; lia]. }
  assert (nq : Rabs (IZR n) <= Rabs (v q) /\ Rabs (v q - IZR n) <= 1).
  { rewrite En. destruct (Rle_lt_dec 0 (v q)) as [C|C].
    - rewrite Ztrunc_floor by exact C. pose proof (Zfloor_lb (v q)). pose proof (Zfloor_ub (v q)). assert (0 <= IZR (Zfloor (v q))) by (apply IZR_le, Zfloor_lub; lra). rewrite !Rabs_pos_eq by lra. split; lra.
    - rewrite Ztrunc_ceil by lra. unfold Zceil. rewrite opp_IZR. pose proof (Zfloor_lb (- v q)). pose proof (Zfloor_ub (- v q)). assert (0 <= IZR (Zfloor (- v q))) by (apply IZR_le, Zfloor_lub; lra).
      rewrite Rabs_Ropp, (Rabs_pos_eq (IZR _)), (Rabs_left (v q)) by lra. split; [lra |]. apply Rabs_le. lra. }
  destruct nq as [nq1 nq2].
  assert (C4 : (- 2 ^ 63 <=? n)%Z && (n <=? 2 ^ 63 - 1)%Z && is_finite q = true).
  { rewrite Fq, andb_true_r. apply andb_true_intro. split; apply Z.leb_le; lia. }
  assert (nR : Rabs (IZR n) <= bpow 60) by lra.
  destruct (of_Z_ok (prec := prec) (emax := emax) n) as [Vn Fn]; [eapply Rle_trans; [exact nR | apply bpow_le; lia] |]. rewrite rnd_F in Vn by (apply F_Z; [lia | lia | exact np]).
  destruct (fmul_ok (of_Z n) p Fn F2) as [Vm Fm].
  { rewrite Vn, V2, Rabs_mult, (Rabs_pos_eq P2) by lra. apply Rle_trans with (bpow 60 * bpow 3); [apply Rmult_le_compat; try lra; [apply Rabs_pos | simpl; lra] |]. rewrite <- bpow_plus. apply bpow_le. lia. }
  rewrite Vn, V2 in Vm.
  (* errors *)
  assert (Hh : 0 < h) by apply bpow_gt_0.
  assert (HB : h <= / 1048576 * u) by (apply Rle_trans with (bpow (- 20) * u); [rewrite <- bpow_plus; apply bpow_le; lia | change (bpow (- 20)) with (/ 1048576); lra]).
  pose proof (ap_rnd0 (prec := prec) (emax := emax) (X / P2)) as A1. unfold ap in A1. rewrite <- Vq, q0 in A1.
  assert (uX : u * Rabs X <= / 32).
  { apply Rle_trans with (u * bpow (prec - 5)); [apply Rmult_le_compat_l; lra |]. rewrite <- bpow_plus. replace (- prec + (prec - 5))%Z with (-5)%Z by lia. simpl. lra. }
  assert (uq : u * (Rabs X / P2) <= u * Rabs X / 6) by (replace (u * Rabs X / 6) with (u * (Rabs X / 6)) by field; apply Rmult_le_compat_l; lra).
  assert (D1 : Rabs (X - IZR n * P2) <= P2 * (1 + 6 / 1000)).
  { replace (X - IZR n * P2) with (P2 * ((X / P2 - v q) + (v q - IZR n))) by (field; lra). rewrite Rabs_mult, (Rabs_pos_eq P2) by lra. apply Rmult_le_compat_l; [lra |].
    eapply Rle_trans; [apply Rabs_triang |]. rewrite Rabs_minus_sym in A1. lra. }
  assert (D1' : Rabs (X - IZR n * P2) <= 634 / 100) by lra.
  assert (nX : Rabs (IZR n * P2) <= Rabs X + 634 / 100).
  { replace (IZR n * P2) with (X - (X - IZR n * P2)) by ring. eapply Rle_trans; [apply Rabs_triang |]. rewrite Rabs_Ropp. lra. }
  pose proof (ap_rnd0 (prec := prec) (emax := emax) (IZR n * P2)) as A2. unfold ap in A2. rewrite <- Vm in A2.
  assert (unX : u * Rabs (IZR n * P2) <= u * Rabs X + 634 / 100 * u) by (apply Rle_trans with (u * (Rabs X + 634 / 100)); [apply Rmult_le_compat_l; lra | lra]).
  set (m := fmul (of_Z n) p) in *.
  assert (D2 : Rabs (X - v m) <= 641 / 100).
  { replace (X - v m) with ((X - IZR n * P2) + - (v m - IZR n * P2)) by ring. eapply Rle_trans; [apply Rabs_triang |]. rewrite Rabs_Ropp. lra. }
  destruct (fsub_ok x m Fx Fm) as [Vt Ft]; [fold X; apply Rle_trans with (bpow 3); [simpl; lra | apply bpow_le; lia] |]. fold X in Vt.
  assert (D3 : Rabs (v (fsub x m) - (X - v m)) <= u * (641 / 100)).
  { rewrite Vt. change (X - v m) with (X + - v m). eapply Rle_trans; [apply rnd_plus; [apply v_F | apply generic_format_opp, v_F] |]. apply Rmult_le_compat_l; [lra | exact D2]. }
  exists (fsub x m), n. split; [exact Ft |]. split; [| split; [| split]].
  - intros [|fuel]; cbn [scale_periodic]; fold p; rewrite C2; fold q; rewrite C3; fold n; rewrite C4; reflexivity.
  - replace (v (fsub x m)) with ((v (fsub x m) - (X - v m)) + (X - v m)) by ring. eapply Rle_trans; [apply Rabs_triang |]. lra.
  - replace (v (fsub x m) - (X - 2 * IZR n * PI)) with ((v (fsub x m) - (X - v m)) + (- (v m - IZR n * P2) + - (IZR n * (P2 - 2 * PI)))) by ring.
    eapply Rle_trans; [apply Rabs_triang |]. assert (D4 : Rabs (- (v m - IZR n * P2) + - (IZR n * (P2 - 2 * PI))) <= Rabs (v m - IZR n * P2) + Rabs (IZR n * (P2 - 2 * PI))) by (eapply Rle_trans; [apply Rabs_triang |]; rewrite !Rabs_Ropp; lra).
    assert (D5 : Rabs (IZR n * (P2 - 2 * PI)) <= (Rabs X / 6 * (1 + / 256) + h) * (4 * u)).
    { rewrite Rabs_mult. apply Rmult_le_compat; try apply Rabs_pos.
      - eapply Rle_trans; [exact nq1 |]. assert (Rabs (v q) <= Rabs (v q - X / P2) + Rabs (X / P2)) by (replace (v q) with ((v q - X / P2) + X / P2) at 1 by ring; apply Rabs_triang). rewrite q0 in H.
        assert (u * Rabs X <= / 256 * Rabs X) by (apply Rmult_le_compat_r; lra). lra.
      - unfold P2. replace (2 * v pi - 2 * PI) with (2 * (v pi - PI)) by ring. rewrite Rabs_mult, (Rabs_pos_eq 2) by lra. pose proof Npi. lra. }
    assert (hu : h * u <= / 1048576 * u) by (apply Rmult_le_compat_r; lra). assert (uXL : u * P2 <= u * Rabs X) by (apply Rmult_le_compat_l; lra). assert (u * (626 / 100) <= u * P2) by (apply Rmult_le_compat_l; lra). lra.
  - intros C. lra.
Qed.

Definition wide_tol (x : R) : R := (2400 * IZR prec + 194000 + 4 * Rabs x) * u.
Lemma not_special (x : fl) : is_finite x = true -> isinf x || isnan x = false.
Proof. destruct x; intros; try discriminate; reflexivity. Qed.
Lemma sin_period_Z a (n : Z) : sin (a - 2 * IZR n * PI) = sin a /\ cos (a - 2 * IZR n * PI) = cos a.
Proof.
  destruct (Z_le_dec 0 n) as [L|L].
  - assert (E : IZR n = INR (Z.to_nat n)) by (rewrite INR_IZR_INZ, Z2Nat.id by lia; reflexivity). rewrite E. split; [rewrite <- (sin_period (a - 2 * INR (Z.to_nat n) * PI) (Z.to_nat n)) | rewrite <- (cos_period (a - 2 * INR (Z.to_nat n) * PI) (Z.to_nat n))]; f_equal; ring.
  - assert (E : IZR n = - INR (Z.to_nat (- n))) by (rewrite INR_IZR_INZ, Z2Nat.id, opp_IZR by lia; ring). rewrite E. split; [rewrite <- (sin_period a (Z.to_nat (- n))) | rewrite <- (cos_period a (Z.to_nat (- n)))]; f_equal; ring.
Qed.
Theorem fsin_ok (x : fl) : is_finite x = true -> Rabs (v x) <= bpow (prec - 5) -> Rabs (v x) <= bpow 62 ->
  exists y, is_finite y = true /\ Rabs (v y - sin (v x)) <= wide_tol (v x) /\ forall fuel, (N <= fuel)%nat -> fsin fuel pi x = FVal y.
Proof.
  intros Fx B5 B62. destruct (scale_ok x Fx B5 B62) as (t & n & Ft & St & Bt & Et & _). destruct (sin_far Hprec Hemax Hpx Hbig t Ft Bt) as (y & Fy & Ey & Ry).
  exists y. split; [exact Fy |]. split; [| intros fuel L; unfold fsin; rewrite (not_special x Fx), St; cbn [fbind]; now apply Ry].
  pose proof (sin_lip (v t) (v x - 2 * IZR n * PI)) as Lp. rewrite (proj1 (sin_period_Z (v x) n)) in Lp.
  replace (v y - sin (v x)) with ((v y - sin (v t)) + (sin (v t) - sin (v x))) by ring. eapply Rle_trans; [apply Rabs_triang |]. unfold wide_tol, far_tol in *. lra.
Qed.
Theorem fcos_ok (x : fl) : is_finite x = true -> Rabs (v x) <= bpow (prec - 5) -> Rabs (v x) <= bpow 62 ->
  exists y, is_finite y = true /\ Rabs (v y - cos (v x)) <= wide_tol (v x) /\ forall fuel, (N <= fuel)%nat -> fcos fuel pi x = FVal y.
Proof.
  intros Fx B5 B62. destruct (scale_ok x Fx B5 B62) as (t & n & Ft & St & Bt & Et & _). destruct (cos_far Hprec Hemax Hpx Hbig t Ft Bt) as (y & Fy & Ey & Ry).
  exists y. split; [exact Fy |]. split; [| intros fuel L; unfold fcos; rewrite (not_special x Fx), St; cbn [fbind]; now apply Ry].
  pose proof (cos_lip (v t) (v x - 2 * IZR n * PI)) as Lp. rewrite (proj2 (sin_period_Z (v x) n)) in Lp.
  replace (v y - cos (v x)) with ((v y - cos (v t)) + (cos (v t) - cos (v x))) by ring. eapply Rle_trans; [apply Rabs_triang |]. unfold wide_tol, far_tol in *. lra.
Qed.
Lemma unscaled (x : fl) : is_finite x = true -> Rabs (v x) <= 5 / 2 -> forall fuel, scale_periodic fuel pi x = FVal x.
Proof.
  intros Fx B. pose proof pi_range. destruct (scale_ok x Fx) as (t & n & _ & St & _ & _ & E).
  - apply Rle_trans with (bpow 3); [simpl; lra | apply bpow_le; lia].
  - apply Rle_trans with (bpow 3); [simpl; lra | apply bpow_le; lia].
  - destruct (E ltac:(lra)) as [-> _]. exact St.
Qed.
Theorem fsin_near (x : fl) : is_finite x = true -> Rabs (v x) <= 5 / 2 ->
  exists y, is_finite y = true /\ Rabs (v y - sin (v x)) <= near_tol (prec := prec) /\ forall fuel, (N <= fuel)%nat -> fsin fuel pi x = FVal y.
Proof.
  intros Fx B. destruct (sin_near Hprec Hemax Hpx Hbig x Fx ltac:(lra) B) as (y & Fy & Ey & Ry). exists y. split; [exact Fy |]. split; [exact Ey |]. intros fuel L. unfold fsin. rewrite (not_special x Fx), unscaled by auto. now apply Ry.
Qed.
Theorem fcos_near (x : fl) : is_finite x = true -> Rabs (v x) <= 5 / 2 ->
  exists y, is_finite y = true /\ Rabs (v y - cos (v x)) <= near_tol (prec := prec) /\ forall fuel, (N <= fuel)%nat -> fcos fuel pi x = FVal y.
Proof.
  intros Fx B. destruct (cos_near Hprec Hemax Hpx Hbig x Fx ltac:(lra) B) as (y & Fy & Ey & Ry). exists y. split; [exact Fy |]. split; [exact Ey |]. intros fuel L. unfold fcos. rewrite (not_special x Fx), unscaled by auto. now apply Ry.
Qed.
Theorem fsin_rel (x : fl) : is_finite x = true -> Rabs (v x) <= 1 ->
  exists y, is_finite y = true /\ Rabs (v y - sin (v x)) <= rel_tol (prec := prec) * Rabs (v x) /\ forall fuel, (N <= fuel)%nat -> fsin fuel pi x = FVal y.
Proof.
  intros Fx B. destruct (Req_dec (v x) 0) as [Z0|Z0].
  - exists x. split; [exact Fx |]. split; [rewrite Z0, sin_0, Rminus_0_r, Rabs_R0; lra |]. intros fuel L. unfold fsin. rewrite (not_special x Fx), unscaled by (auto; lra). now apply sin_zero.
  - destruct (sin_rel Hprec Hemax Hpx Hbig x Fx ltac:(lra) B Z0) as (y & Fy & Ey & Ry). exists y. split; [exact Fy |]. split; [exact Ey |]. intros fuel L. unfold fsin. rewrite (not_special x Fx), unscaled by (auto; lra). now apply Ry.
Qed.
End Fmt.
