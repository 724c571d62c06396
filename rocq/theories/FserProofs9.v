(** expm1 of every argument that is not too large. *)
From Coq Require Import ZArith Reals Lra Lia Bool.
From Flocq Require Import Core Plus_error Relative IEEE754.BinarySingleNaN.
From Verif Require Import FloatModel FloatProofs1 FloatProofs2 FserModel FserProofs1 FserProofs2 FserProofs3 FserProofs4 FserProofs5.
Local Open Scope R_scope.
Lemma mul_ab a b c d : Rabs a <= c -> Rabs b <= d -> Rabs (a * b) <= c * d.
Proof. intros A B. rewrite Rabs_mult. apply Rmult_le_compat; auto using Rabs_pos. Qed.

Section Fmt.
Context {prec emax : Z} {Hp : Prec_gt_0 prec} {Hx : Prec_lt_emax prec emax}.
Notation fl := (binary_float prec emax).
Notation emin := (3 - emax - prec)%Z.
Notation fexp' := (FLT_exp emin prec).
Notation F := (generic_format radix2 fexp').
Notation rnd := (round radix2 fexp' ZnearestE).
Notation bpow := (bpow radix2).
Notation v := (@B2R prec emax).
Hypothesis (Hprec : (8 <= prec)%Z) (Hemax : (65 <= emax)%Z) (Hpx : (prec + 40 <= emax)%Z) (Hbig : (emax + prec <= 20000)%Z).
Notation u := (bpow (- prec)).
Notation h := (bpow (emin - 1)).
Local Notation N := (Z.to_nat (emax + prec)).
Variable e : fl.
Hypothesis (Fe : is_finite e = true) (Ne : Rabs (v e - exp 1) <= 3 / 4 * u * exp 1).

Lemma expm1_series_zero (x : fl) : is_finite x = true -> v x = 0 -> forall fuel, exp_series fuel 1 x fzero x = FVal fzero.
Proof.
  intros Fx Vx fuel. destruct (fadd_ok fzero x eq_refl Fx) as [V G]; [change (v fzero) with 0; rewrite Vx, Rplus_0_r, Rabs_R0; apply bpow_ge_0 |].
  change (v fzero) with 0 in V. rewrite Vx, Rplus_0_r, round_0 in V by auto with typeclass_instances.
  destruct fuel; cbn [exp_series]; (rewrite feq_spec by auto; rewrite Req_bool_true by (rewrite V; reflexivity); reflexivity).
Qed.
Theorem fexpm1_unit (x : fl) : is_finite x = true -> 0 <= v x < 1 ->
  exists y, is_finite y = true /\ Rabs (v y - (exp (v x) - 1)) <= expm1_error (prec := prec) * v x /\ forall fuel, (N <= fuel)%nat -> fexpm1 fuel e x = FVal y.
Proof.
  intros Fx Bx. pose proof (one_ok (prec := prec) (emax := emax) ltac:(lia) ltac:(lia)) as [V1 F1'].
  assert (nn : isnan x = false) by (destruct x; try discriminate; reflexivity).
  assert (ip : feq x (B754_infinity false) = false) by (destruct x as [[]| | |[]]; try discriminate; reflexivity).
  assert (im : feq x (B754_infinity true) = false) by (destruct x as [[]| | |[]]; try discriminate; reflexivity).
  unfold fexpm1. setoid_rewrite nn. setoid_rewrite ip. setoid_rewrite im. rewrite feq_spec, flt_spec, fle_spec, V1 by auto. change (v fzero) with 0.
  rewrite Rle_bool_true, Rlt_bool_true by lra. cbn [andb]. destruct (Req_bool_spec (v x) 0) as [X0|X0].
  - exists x. split; [exact Fx |]. split; [| reflexivity]. rewrite X0, exp_0. replace (0 - (1 - 1)) with 0 by ring. rewrite Rabs_R0. lra.
  - destruct (expm1_series_partial (prec := prec) (emax := emax) ltac:(lia) ltac:(lia) ltac:(lia) ltac:(lia) x Fx ltac:(lra) ltac:(lra)) as (y & Fy & Ey & Ry). exists y. auto.
Qed.


(** The two factors. *)
Lemma factors (x : fl) : is_finite x = true -> Rabs (v x) <= 11 / 16 * IZR emax - 4 -> Rabs (v x) <= bpow (prec - 5) -> exists n (a : fl) m,
  truncated x = FVal n /\ is_finite a = true /\ v a <= bpow (emax - 4) /\ 0 < v a /\
  Rabs (v a - exp (IZR n)) <= 24 / 10 * (Rabs (v x) + 1) * u * exp (IZR n) /\ (forall fuel, (m < fuel)%nat -> integral_exp fuel e n = FVal a) /\ (m < N)%nat /\
  let f := fsub x (of_Z n) in is_finite f = true /\ 0 <= v f <= 1 /\ Rabs (v f - (v x - IZR n)) <= u.
Proof.
  intros Fx Bx Sx. pose proof (u256 (prec := prec) ltac:(lia)) as U. pose proof (usq (prec := prec) ltac:(lia)) as U2.
  pose proof (Rabs_pos (v x)) as ax.
  assert (xa : Rabs (v x) * u <= / 32) by (apply Rle_trans with (bpow (prec - 5) * u); [apply Rmult_le_compat_r; lra |]; rewrite <- bpow_plus; replace (prec - 5 + - prec)%Z with (-5)%Z by lia; simpl; lra).
      assert (B20 : Rabs (v x) <= bpow 20).
      { eapply Rle_trans; [exact Bx |]. change (bpow 20) with (IZR 1048576). assert (IZR emax <= 20000) by (apply IZR_le; lia). lra. }
      destruct (truncated_ok x Fx B20) as (n & En & Ln & Fr & Bn).
      set (m := Z.abs_nat n). assert (Em : INR m = Rabs (IZR n)) by (unfold m; rewrite INR_IZR_INZ, Zabs2Nat.id_abs; apply abs_IZR).
      assert (mu : INR m * u <= 36 / 1000) by (assert (INR m * u <= (Rabs (v x) + 1) * u) by (apply Rmult_le_compat_r; lra); lra).
      assert (Hov : exp (IZR (Z.abs n)) * (1 + u) ^ (2 * m) <= bpow (emax - 4)).
      { apply Rle_trans with (exp (IZR (Z.abs n)) * exp (INR (2 * m) * u)); [apply Rmult_le_compat_l; [left; apply exp_pos | apply pow_exp] |]. rewrite <- exp_plus. apply exp_bpow; [lia |].
        rewrite abs_IZR, mult_INR, minus_IZR. change (INR 2) with 2. lra. }
      destruct (e_near Hprec e Ne) as [Ne' Ge].
      assert (Hov2 : exp (IZR (Z.abs n)) * (1 + u) ^ (2 * m) <= bpow (emax - 2)) by (eapply Rle_trans; [exact Hov | apply bpow_le; lia]).
      destruct (integral_exp_Z (prec := prec) (emax := emax) ltac:(lia) ltac:(lia) e Fe Ne' Ge n ltac:(unfold int_max; change (2 ^ 31)%Z with 2147483648%Z; change (2 ^ 21)%Z with 2097152%Z in Ln; lia) Hov2) as (a & Fa & Na & _ & Ra).
      (* the fraction *)
      assert (ZF : F (IZR n)).
      { apply F_Z; [lia | lia | ]. assert (Z.abs n <= 2 ^ prec)%Z; [| lia]. apply le_IZR. rewrite abs_IZR, IZR_pow2 by lia. eapply Rle_trans; [exact Bn |]. apply Rle_trans with (bpow (prec - 5) + bpow (prec - 5)).
        - apply Rplus_le_compat; [exact Sx |]. change 1 with (bpow 0). apply bpow_le. lia.
        - replace (bpow (prec - 5) + bpow (prec - 5)) with (bpow (prec - 5 + 1)) by (rewrite bpow_plus; simpl (bpow 1); lra). apply bpow_le. lia. }
      destruct (of_Z_ok (prec := prec) (emax := emax) n) as [Vn Fn]; [apply Z_big; [lia .. |]; change (2 ^ 21)%Z with 2097152%Z in Ln; change (2 ^ 31)%Z with 2147483648%Z; lia |].
      rewrite rnd_F in Vn by exact ZF.
      destruct (fsub_ok x (of_Z n) Fx Fn) as [Vf Ff]; [rewrite Vn, Rabs_pos_eq by lra; apply Rle_trans with (bpow 0); [simpl; lra | apply bpow_le; lia] |].
      rewrite Vn in Vf. set (f := fsub x (of_Z n)) in *.
      assert (f01 : 0 <= v f <= 1).
      { rewrite Vf. split; [apply rnd_ge; [exact Hp | apply generic_format_0 | lra] | apply rnd_le; [exact Hp | apply (F1 (prec := prec) (emax := emax)); lia | lra]]. }
      assert (fd : Rabs (v f - (v x - IZR n)) <= u).
      { rewrite Vf. change (v x - IZR n) with (v x + - IZR n). eapply Rle_trans; [apply (rnd_plus (v x) (- IZR n)); [apply v_F | now apply generic_format_opp] |].
        replace u with (u * 1) at 2 by ring. apply Rmult_le_compat_l; [lra |]. rewrite Rabs_pos_eq; lra. }

      exists n, a, m. split; [exact En |]. split; [exact Fa |].
      pose proof (near_pos _ _ _ Na) as pa. destruct Na as (pA & NaL & NaU). set (g := (1 + u) ^ (2 * m)) in *.
      assert (g1' : 1 <= g) by (unfold g; apply g1). fold m in NaL, NaU. fold g in NaL, NaU.
      assert (ge : g <= exp (2 * INR m * u)) by (eapply Rle_trans; [apply pow_exp |]; rewrite mult_INR; change (INR 2) with 2; lra).
      pose proof (pos_INR m) as m0. assert (mu0 : 0 <= INR m * u) by (apply Rmult_le_pos; lra).
      pose proof (exp_small (2 * INR m * u) ltac:(lra)) as ge2.
      assert (gb : g - 1 <= 24 / 10 * (Rabs (v x) + 1) * u) by (assert (INR m * u <= (Rabs (v x) + 1) * u) by (apply Rmult_le_compat_r; lra); lra).
      split; [| split; [exact pa | split; [| split; [exact Ra | split]]]].
      { eapply Rle_trans; [exact NaU |]. eapply Rle_trans; [| exact Hov]. apply Rmult_le_compat_r; [lra |]. apply exp_le_mono, IZR_le. lia. }
      { set (A := exp (IZR n)) in *. set (w := 24 / 10 * (Rabs (v x) + 1) * u) in *. assert (A * (g - 1) <= A * w) by (apply Rmult_le_compat_l; lra).
        apply Rabs_le. split; [| lra]. destruct (Rle_lt_dec (v a) A) as [L|L]; [| assert (0 <= w * A) by (apply Rmult_le_pos; lra); lra].
        assert (v a * (g - 1) <= A * (g - 1)) by (apply Rmult_le_compat_r; lra). lra. }
      { assert (Q : INR m <= Rabs (v x) + 1) by lra. apply INR_lt. rewrite (INR_IZR_INZ N), Z2Nat.id by lia. assert (IZR emax <= IZR (emax + prec)) by (apply IZR_le; lia). lra. }
      cbv zeta. fold f. auto.
Qed.

Definition expm1_tol (x : R) : R := (11 * IZR prec + 7 * Rabs x + 155) * u.
Lemma outer (x : fl) : is_finite x = true -> Rabs (v x) <= 11 / 16 * IZR emax - 4 -> Rabs (v x) <= bpow (prec - 5) ->
  (forall fuel, fexpm1 fuel e x = fbind (truncated x) (fun n => let frac := fsub x (of_Z n) in
    fbind (integral_exp fuel e n) (fun a => fbind (exp_series fuel 1 frac fzero frac) (fun er => let et := fsub a (of_Z 1) in FVal (fadd (fadd (fmul et er) et) er))))) ->
  exists y, is_finite y = true /\ Rabs (v y - (exp (v x) - 1)) <= expm1_tol (v x) * (exp (v x) + 1) /\ forall fuel, (N <= fuel)%nat -> fexpm1 fuel e x = FVal y.
Proof.
  intros Fx Bx Sx RUN. pose proof (u256 (prec := prec) ltac:(lia)) as U. pose proof (usq (prec := prec) ltac:(lia)) as U2. pose proof (prec_u (prec := prec) ltac:(lia)) as PU.
  assert (pp : 8 <= IZR prec) by (apply IZR_le; lia). assert (pu0 : 0 <= IZR prec * u) by (apply Rmult_le_pos; lra).
  pose proof (Rabs_pos (v x)) as ax. assert (xu : 0 <= Rabs (v x) * u) by (apply Rmult_le_pos; lra).
  assert (xa : Rabs (v x) * u <= / 32) by (apply Rle_trans with (bpow (prec - 5) * u); [apply Rmult_le_compat_r; lra |]; rewrite <- bpow_plus; replace (prec - 5 + - prec)%Z with (-5)%Z by lia; simpl; lra).
  destruct (factors x Fx Bx Sx) as (n & a & m & En & Fa & aU & pa & Ea & Ra & Lm & Fac). cbv zeta in Fac. set (f := fsub x (of_Z n)) in *. destruct Fac as (Ff & f01 & fd).
  set (Em := expm1_error (prec := prec)). assert (Em0 : 0 <= Em <= 4 / 10) by (unfold Em, expm1_error; lra).
  assert (ER : exists r : fl, is_finite r = true /\ Rabs (v r - (exp (v f) - 1)) <= Em /\ forall fuel, (N <= fuel)%nat -> exp_series fuel 1 f fzero f = FVal r).
  { destruct (Req_dec (v f) 0) as [Z0|Z0].
    - exists fzero. split; [reflexivity |]. split; [| intros fuel _; now apply expm1_series_zero]. change (v fzero) with 0. rewrite Z0, exp_0. replace (0 - (1 - 1)) with 0 by ring. rewrite Rabs_R0. lra.
    - destruct (expm1_series_partial (prec := prec) (emax := emax) ltac:(lia) ltac:(lia) ltac:(lia) ltac:(lia) f Ff f01 ltac:(lra)) as (r & Fr & Er & Rr). exists r. split; [exact Fr |]. split; [| exact Rr].
      eapply Rle_trans; [exact Er |]. fold Em. rewrite <- (Rmult_1_r Em) at 2. apply Rmult_le_compat_l; lra. }
  destruct ER as (r & Fr & Er & Rr).
  pose proof (one_ok (prec := prec) (emax := emax) ltac:(lia) ltac:(lia)) as [V1 F1'].
  set (A := exp (IZR n)) in *. set (B := exp (v f)) in *. set (X := exp (v x)) in *.
  assert (pA : 0 < A) by apply exp_pos. assert (pX : 0 < X) by apply exp_pos.
  assert (B1 : 1 <= B) by (unfold B; pose proof (exp_ineq1_le (v f)); lra). assert (B3 : B <= 28 / 10) by (unfold B; apply Rle_trans with (exp 1); [apply exp_le_mono; lra | pose proof exp_1; lra]).
  assert (EX : X = A * B * exp (- (v f - (v x - IZR n)))) by (unfold X, A, B; rewrite <- !exp_plus; f_equal; ring).
  set (dl := v f - (v x - IZR n)) in *. apply Rabs_le_inv in fd. 
  assert (AB0 : 0 < A * B) by (apply Rmult_lt_0_compat; lra).
  assert (D1 : exp (- dl) <= 1 + 12 / 10 * u) by (eapply Rle_trans; [apply exp_le_mono with (z := u); lra | apply exp_small; lra]).
  assert (D2 : 1 - u <= exp (- dl)) by (pose proof (exp_ineq1_le (- dl)); lra).
  assert (XAB : Rabs (A * B - X) <= 2 * u * X).
  { assert (Q1 : A * B * (1 - u) <= X) by (rewrite EX; apply Rmult_le_compat_l; lra). assert (Q2 : X <= A * B * (1 + 12 / 10 * u)) by (rewrite EX; apply Rmult_le_compat_l; lra).
    assert (W : A * B * u <= / 256 * (A * B)) by (rewrite Rmult_comm; apply Rmult_le_compat_r; lra). assert (A * B <= 2 * X) by lra. assert (W2 : A * B * u <= 102 / 100 * (u * X)) by (assert (u * (A * B) <= u * (102 / 100 * X)) by (apply Rmult_le_compat_l; lra); lra). apply Rabs_le. lra. }
  assert (uX : 0 <= u * X <= / 256 * X) by (split; [apply Rmult_le_pos | apply Rmult_le_compat_r]; lra).
  assert (AX : A <= 101 / 100 * X) by (apply Rabs_le_inv in XAB; assert (A * 1 <= A * B) by (apply Rmult_le_compat_l; lra); lra).
  set (T := X + 1). assert (T1 : 1 <= T) by (unfold T; lra).
  set (dt := 24 / 10 * (Rabs (v x) + 1) * u) in *. assert (dt0 : 0 <= dt <= 85 / 1000) by (unfold dt; lra).
  assert (dA : dt * A <= 85 / 1000 * A) by (apply Rmult_le_compat_r; lra).
  assert (Ea' := Ea). apply Rabs_le_inv in Ea'.
  assert (aT : Rabs (v a - 1) <= 11 / 10 * T) by (apply Rabs_le; unfold T; lra).
  assert (TM : T <= bpow (emax - 3)).
  { apply Rle_trans with (bpow (emax - 4) + bpow 0); [| replace (emax - 3)%Z with (emax - 4 + 1)%Z by lia; rewrite (bpow_plus radix2 (emax - 4) 1); simpl (bpow 1); pose proof (bpow_le radix2 0 (emax - 4) ltac:(lia)); lra]. unfold T, X. simpl (bpow 0).
    apply Rplus_le_compat_r. apply exp_bpow; [lia |]. rewrite minus_IZR. pose proof (Rle_abs (v x)). lra. }
  assert (big : 4 * T <= bpow (emax - 1)) by (replace (emax - 1)%Z with (emax - 3 + 2)%Z by lia; rewrite (bpow_plus radix2 (emax - 3) 2); simpl (bpow 2); lra).
  assert (uT : 0 <= u * T <= / 256 * T) by (split; [apply Rmult_le_pos | apply Rmult_le_compat_r]; lra).
  assert (Hh : 0 < h) by apply bpow_gt_0. assert (HB : h <= / 1048576 * u) by (apply Rle_trans with (bpow (- 20) * u); [rewrite <- bpow_plus; apply bpow_le; lia | change (bpow (- 20)) with (/ 1048576); lra]).
  assert (HT : h <= / 1048576 * (u * T)) by (assert (u * 1 <= u * T) by (apply Rmult_le_compat_l; lra); lra).
  destruct (fsub_ok a (of_Z 1) Fa F1') as [Vt Ft]; [rewrite V1; lra |]. rewrite V1 in Vt. set (et := fsub a (of_Z 1)) in *.
  assert (Et : Rabs (v et - (v a - 1)) <= 11 / 10 * (u * T)).
  { rewrite Vt. change (v a - 1) with (v a + - (1)). eapply Rle_trans; [apply rnd_plus; [apply v_F | apply generic_format_opp, (F1 (prec := prec) (emax := emax)); lia] |]. assert (u * Rabs (v a + - (1)) <= u * (11 / 10 * T)) by (apply Rmult_le_compat_l; [lra | exact aT]). lra. }
  assert (et1 : Rabs (v et) <= 111 / 100 * T) by (replace (v et) with ((v et - (v a - 1)) + (v a - 1)) by ring; eapply Rle_trans; [apply Rabs_triang |]; lra).
  assert (r1 : Rabs (v r) <= 22 / 10) by (apply Rabs_le_inv in Er; apply Rabs_le; lra).
  assert (p1 : Rabs (v et * v r) <= 245 / 100 * T) by (eapply Rle_trans; [apply (mul_ab _ _ _ _ et1 r1) |]; lra).
  destruct (fmul_ok et r Ft Fr) as [Vp Fp]; [lra |]. set (p := fmul et r) in *.
  pose proof (ap_rnd0 (prec := prec) (emax := emax) (v et * v r)) as Ap. unfold ap in Ap. rewrite <- Vp in Ap.
  assert (Ap' : Rabs (v p - v et * v r) <= 246 / 100 * (u * T)) by (assert (u * Rabs (v et * v r) <= u * (245 / 100 * T)) by (apply Rmult_le_compat_l; lra); lra).
  assert (p2 : Rabs (v p) <= 247 / 100 * T) by (replace (v p) with ((v p - v et * v r) + v et * v r) by ring; eapply Rle_trans; [apply Rabs_triang |]; lra).
  assert (s0 : Rabs (v p + v et) <= 36 / 10 * T) by (eapply Rle_trans; [apply Rabs_triang |]; lra).
  destruct (fadd_ok p et Fp Ft) as [Vs Fs]; [lra |]. set (s := fadd p et) in *.
  assert (Es : Rabs (v s - (v p + v et)) <= 36 / 10 * (u * T)) by (rewrite Vs; eapply Rle_trans; [apply rnd_plus; apply v_F |]; assert (u * Rabs (v p + v et) <= u * (36 / 10 * T)) by (apply Rmult_le_compat_l; lra); lra).
  assert (s1 : Rabs (v s) <= 362 / 100 * T) by (replace (v s) with ((v s - (v p + v et)) + (v p + v et)) by ring; eapply Rle_trans; [apply Rabs_triang |]; lra).
  assert (y0 : Rabs (v s + v r) <= 59 / 10 * T) by (eapply Rle_trans; [apply Rabs_triang |]; lra).
  assert (big2 : 59 / 10 * T <= bpow (emax - 1)).
  { apply Rle_trans with (8 * T); [lra |]. assert (TM2 : T <= bpow (emax - 4)); [| replace (emax - 1)%Z with (emax - 4 + 3)%Z by lia; rewrite (bpow_plus radix2 (emax - 4) 3); simpl (bpow 3); lra].
    unfold T, X. apply Rle_trans with (bpow (emax - 5) + bpow 0); [| replace (emax - 4)%Z with (emax - 5 + 1)%Z by lia; rewrite (bpow_plus radix2 (emax - 5) 1); simpl (bpow 1); pose proof (bpow_le radix2 0 (emax - 5) ltac:(lia)); lra].
    simpl (bpow 0). apply Rplus_le_compat_r. apply exp_bpow; [lia |]. rewrite minus_IZR. pose proof (Rle_abs (v x)). lra. }
  destruct (fadd_ok s r Fs Fr) as [Vy Fy]; [lra |]. set (y := fadd s r) in *.
  assert (Ey : Rabs (v y - (v s + v r)) <= 59 / 10 * (u * T)) by (rewrite Vy; eapply Rle_trans; [apply rnd_plus; apply v_F |]; assert (u * Rabs (v s + v r) <= u * (59 / 10 * T)) by (apply Rmult_le_compat_l; lra); lra).
  exists y. split; [exact Fy |]. split.
  2:{ intros fuel L. rewrite RUN, En. cbn [fbind]. cbv zeta. fold f. rewrite Ra by lia. cbn [fbind]. rewrite Rr by exact L. reflexivity. }
  assert (Q1 : Rabs ((v et - (v a - 1)) * v r) <= 11 / 10 * (u * T) * (22 / 10)) by (apply mul_ab; assumption).
  assert (Q2 : Rabs ((v a - 1) * (v r - (B - 1))) <= 11 / 10 * T * Em) by (apply mul_ab; assumption).
  assert (Q3 : Rabs ((v a - A) * B) <= dt * A * (28 / 10)) by (apply mul_ab; [assumption | rewrite Rabs_pos_eq; lra]).
  assert (Q4 : dt * A <= dt * (101 / 100 * T)) by (apply Rmult_le_compat_l; unfold T; lra).
  assert (Q5 : Em * 1 <= Em * T) by (apply Rmult_le_compat_l; lra).
  replace (v y - (X - 1)) with ((v y - (v s + v r)) + ((v s - (v p + v et)) + ((v p - v et * v r) + (((v et - (v a - 1)) * v r) + (((v a - 1) * (v r - (B - 1))) + ((v et - (v a - 1)) + ((v r - (B - 1)) + (((v a - A) * B) + (A * B - X))))))))) by ring.
  pose proof (Rabs_triang (v y - (v s + v r)) ((v s - (v p + v et)) + ((v p - v et * v r) + (((v et - (v a - 1)) * v r) + (((v a - 1) * (v r - (B - 1))) + ((v et - (v a - 1)) + ((v r - (B - 1)) + (((v a - A) * B) + (A * B - X))))))))) as t1.
  pose proof (Rabs_triang (v s - (v p + v et)) ((v p - v et * v r) + (((v et - (v a - 1)) * v r) + (((v a - 1) * (v r - (B - 1))) + ((v et - (v a - 1)) + ((v r - (B - 1)) + (((v a - A) * B) + (A * B - X)))))))) as t2.
  pose proof (Rabs_triang (v p - v et * v r) (((v et - (v a - 1)) * v r) + (((v a - 1) * (v r - (B - 1))) + ((v et - (v a - 1)) + ((v r - (B - 1)) + (((v a - A) * B) + (A * B - X))))))) as t3.
  pose proof (Rabs_triang ((v et - (v a - 1)) * v r) (((v a - 1) * (v r - (B - 1))) + ((v et - (v a - 1)) + ((v r - (B - 1)) + (((v a - A) * B) + (A * B - X)))))) as t4.
  pose proof (Rabs_triang ((v a - 1) * (v r - (B - 1))) ((v et - (v a - 1)) + ((v r - (B - 1)) + (((v a - A) * B) + (A * B - X))))) as t5.
  pose proof (Rabs_triang (v et - (v a - 1)) ((v r - (B - 1)) + (((v a - A) * B) + (A * B - X)))) as t6.
  pose proof (Rabs_triang (v r - (B - 1)) (((v a - A) * B) + (A * B - X))) as t7.
  pose proof (Rabs_triang ((v a - A) * B) (A * B - X)) as t8.
  assert (Q6 : u * X <= u * T) by (apply Rmult_le_compat_l; unfold T; lra).
  assert (Fin : 21 / 10 * Em * T + dt * (101 / 100 * T) * (28 / 10) + 18 * (u * T) <= expm1_tol (v x) * T).
  { replace (21 / 10 * Em * T + dt * (101 / 100 * T) * (28 / 10) + 18 * (u * T)) with ((21 / 10 * Em + dt * (101 / 100) * (28 / 10) + 18 * u) * T) by ring. apply Rmult_le_compat_r; [lra |]. unfold Em, expm1_error, dt, expm1_tol. lra. }
  lra.
Qed.
Theorem fexpm1_ok (x : fl) : is_finite x = true -> Rabs (v x) <= 11 / 16 * IZR emax - 4 -> Rabs (v x) <= bpow (prec - 5) ->
  exists y, is_finite y = true /\ Rabs (v y - (exp (v x) - 1)) <= expm1_tol (v x) * (exp (v x) + 1) /\ forall fuel, (N <= fuel)%nat -> fexpm1 fuel e x = FVal y.
Proof.
  intros Fx Bx Sx. pose proof (u256 (prec := prec) ltac:(lia)) as U. pose proof (usq (prec := prec) ltac:(lia)) as U2. pose proof (prec_u (prec := prec) ltac:(lia)) as PU.
  assert (pp : 8 <= IZR prec) by (apply IZR_le; lia). assert (pu0 : 0 <= IZR prec * u) by (apply Rmult_le_pos; lra).
  pose proof (Rabs_pos (v x)) as ax. pose proof (exp_pos (v x)) as ex.
  assert (xu : 0 <= Rabs (v x) * u) by (apply Rmult_le_pos; lra).
  destruct (Rle_lt_dec 0 (v x)) as [C0|C0]; [destruct (Rlt_le_dec (v x) 1) as [C1|C1] |].
  { destruct (fexpm1_unit x Fx (conj C0 C1)) as (y & Fy & Ey & Ry). exists y. split; [exact Fy |]. split; [| exact Ry]. eapply Rle_trans; [exact Ey |].
    apply Rmult_le_compat; unfold expm1_error, expm1_tol; lra. }

  all: pose proof (one_ok (prec := prec) (emax := emax) ltac:(lia) ltac:(lia)) as [V1 F1'].
  all: assert (nn : isnan x = false) by (destruct x; try discriminate; reflexivity).
  all: assert (ip : feq x (B754_infinity false) = false) by (destruct x as [[]| | |[]]; try discriminate; reflexivity).
  all: assert (im : feq x (B754_infinity true) = false) by (destruct x as [[]| | |[]]; try discriminate; reflexivity).
  all: assert (ou : fle fzero x && flt x (of_Z 1) = false) by (rewrite flt_spec, fle_spec, V1 by auto; change (v fzero) with 0; first [rewrite (Rlt_bool_false (v x) 1) by lra; apply andb_false_r | rewrite (Rle_bool_false 0 (v x)) by lra; reflexivity]).
  all: assert (RUN : forall fuel, fexpm1 fuel e x = fbind (truncated x) (fun n => let frac := fsub x (of_Z n) in
    fbind (integral_exp fuel e n) (fun a => fbind (exp_series fuel 1 frac fzero frac) (fun er => let et := fsub a (of_Z 1) in FVal (fadd (fadd (fmul et er) et) er)))))
    by (intros fuel; unfold fexpm1; rewrite nn, ip, im, ou; reflexivity).
  all: now apply outer.
Qed.
End Fmt.
