(** exp of every argument that is not too large. *)
From Coq Require Import ZArith Reals Lra Lia Bool.
From Flocq Require Import Core Plus_error Relative IEEE754.BinarySingleNaN.
From Verif Require Import FloatModel FloatProofs1 FloatProofs2 FserModel FserProofs1 FserProofs2 FserProofs3 FserProofs4.
Local Open Scope R_scope.

Lemma exp_1 : 2 <= exp 1 <= 28 / 10.
Proof.
  pose proof (exp_ineq1_le 1). split; [lra |].
  pose proof (tail_bound (ea 1) (fun n => 1 / IZR (Z.of_nat n + 2)) (fun _ => 1) 0 1 ltac:(lra) ltac:(lra) ltac:(intros; lra)) as T. 
  specialize (T ltac:(intros i; pose proof (ratio 1 i ltac:(lra)); rewrite Rabs_pos_eq; lra) ltac:(intros i; apply ea_step) (exp 1 - 1) 4%nat (ea_lim 1)).
  apply Rabs_le_inv in T. unfold ea in T. cbn in T. rewrite Rabs_pos_eq in T by lra. lra.
Qed.
Lemma exp_1_tight : exp 1 <= 2725 / 1000.
Proof.
  pose proof (tail_bound (ea 1) (fun n => 1 / IZR (Z.of_nat n + 2)) (fun _ => 1) 0 1 ltac:(lra) ltac:(lra) ltac:(intros; lra)) as T. 
  specialize (T ltac:(intros i; pose proof (ratio 1 i ltac:(lra)); rewrite Rabs_pos_eq; lra) ltac:(intros i; apply ea_step) (exp 1 - 1) 5%nat (ea_lim 1)).
  apply Rabs_le_inv in T. unfold ea in T. simpl in T. rewrite Rabs_pos_eq in T by lra. lra.
Qed.
Lemma exp_INR n : exp (INR n) = exp 1 ^ n.
Proof. induction n as [|n IH]; [cbn; apply exp_0 |]. rewrite S_INR, exp_plus, IH. cbn [pow]. ring. Qed.
Lemma exp_nat_mul n z : exp (INR n * z) = exp z ^ n.
Proof. induction n as [|n IH]; [cbn; rewrite Rmult_0_l; apply exp_0 |]. rewrite S_INR, Rmult_plus_distr_r, Rmult_1_l, exp_plus, IH. cbn [pow]. ring. Qed.
Lemma pow_lt_l a b n : 0 <= a < b -> (0 < n)%nat -> a ^ n < b ^ n.
Proof.
  intros H. induction n as [|n IH]; [lia |]. intros _. cbn [pow]. destruct n as [|n]; [cbn; lra |]. specialize (IH ltac:(lia)). apply Rmult_le_0_lt_compat; try lra. apply pow_le. lra.
Qed.
Lemma exp_11_16 : exp (11 / 16) <= 2.
Proof.
  apply Rnot_lt_le. intros C. pose proof (pow_lt_l 2 (exp (11 / 16)) 16 ltac:(lra) ltac:(lia)) as P. rewrite <- exp_nat_mul in P.
  replace (INR 16 * (11 / 16)) with (INR 11 * 1) in P by (cbn; lra). rewrite exp_nat_mul in P. pose proof exp_1_tight as T. pose proof (exp_pos 1).
  pose proof (pow_incr (exp 1) (2725 / 1000) 11 ltac:(lra)) as I. assert ((2725 / 1000) ^ 11 <= 2 ^ 16) by (cbn; lra). lra.
Qed.
Lemma exp_le_mono y z : y <= z -> exp y <= exp z.
Proof. intros H. destruct (Rle_lt_or_eq_dec y z H) as [L|L]; [left; now apply exp_increasing | rewrite L; lra]. Qed.
Lemma exp_bpow (k : Z) z : (0 <= k)%Z -> z <= 11 / 16 * IZR k -> exp z <= bpow radix2 k.
Proof.
  intros K H. apply Rle_trans with (exp (INR (Z.to_nat k) * (11 / 16))).
  - assert (E : INR (Z.to_nat k) = IZR k) by (rewrite INR_IZR_INZ, Z2Nat.id by lia; reflexivity). rewrite E. apply exp_le_mono. lra.
  - rewrite exp_nat_mul. apply Rle_trans with (2 ^ Z.to_nat k); [apply pow_incr; split; [left; apply exp_pos | apply exp_11_16] |].
    rewrite <- (Z2Nat.id k) at 2 by lia. generalize (Z.to_nat k) as n. clear. induction n as [|n IH]; [simpl; lra |]. replace (Z.of_nat (S n)) with (Z.of_nat n + 1)%Z by lia. rewrite bpow_plus. cbn [pow]. simpl (bpow radix2 1). lra.
Qed.
Lemma exp_small z : 0 <= z <= / 12 -> exp z <= 1 + 12 / 10 * z.
Proof.
  intros H. pose proof (exp_ineq1_le (- z)) as L. rewrite exp_Ropp in L. pose proof (exp_pos z) as P.
  assert (M : (1 + - z) * exp z <= 1) by (apply Rle_trans with (/ exp z * exp z); [apply Rmult_le_compat_r; lra | rewrite Rinv_l; lra]).
  apply Rmult_le_reg_l with (1 - z); [lra |]. assert (z * z <= / 12 * z) by (apply Rmult_le_compat_r; lra). lra.
Qed.

Section Fmt.
Context {prec emax : Z} {Hp : Prec_gt_0 prec} {Hx : Prec_lt_emax prec emax}.
Notation fl := (binary_float prec emax).
Notation emin := (3 - emax - prec)%Z.
Notation fexp' := (FLT_exp emin prec).
Notation F := (generic_format radix2 fexp').
Notation rnd := (round radix2 fexp' ZnearestE).
Notation bpow := (bpow radix2).
Notation v := (@B2R prec emax).
Hypothesis (Hprec : (8 <= prec)%Z) (Hemax : (65 <= emax)%Z) (Hpx : (prec + 40 <= emax)%Z) (Hbig : (emax + prec <= 20000)%Z).
Notation u := (bpow (- prec)).
Local Notation N := (Z.to_nat (emax + prec)).

Lemma pow_exp k : (1 + u) ^ k <= exp (INR k * u).
Proof. rewrite exp_nat_mul. apply pow_incr. pose proof (bpow_gt_0 radix2 (- prec)). split; [lra | apply exp_ineq1_le]. Qed.

(** ** The integer part *)
Lemma truncated_ok (x : fl) : is_finite x = true -> Rabs (v x) <= bpow 20 ->
  exists n, truncated x = FVal n /\ (Z.abs n <= 2 ^ 21)%Z /\ 0 <= v x - IZR n <= 1 /\ Rabs (IZR n) <= Rabs (v x) + 1.
Proof.
  intros Fx Bx. unfold truncated. rewrite Btrunc_spec, Fx, flt_spec by auto. change (v fzero) with 0. set (t := Ztrunc (v x)).
  assert (T : (Z.abs t <= 2 ^ 20)%Z).
  { unfold t. rewrite <- Ztrunc_abs. rewrite <- (Ztrunc_IZR (2 ^ 20)). apply Ztrunc_le. exact Bx. }
  change (2 ^ 20)%Z with 1048576%Z in T. change int_max with 2147483647%Z. change (- 2 ^ 31)%Z with (-2147483648)%Z.
  replace (-2147483648 <=? t)%Z with true by (symmetry; apply Z.leb_le; lia). replace (t <=? 2147483647)%Z with true by (symmetry; apply Z.leb_le; lia). cbn [andb].
  destruct (Rlt_bool_spec (v x) 0) as [C|C].
  - replace (-2147483648 <=? t - 1)%Z with true by (symmetry; apply Z.leb_le; lia). exists (t - 1)%Z. split; [reflexivity |]. split; [change (2 ^ 21)%Z with 2097152%Z; lia |].
    assert (E : t = (- Zfloor (- v x))%Z) by (unfold t; rewrite Ztrunc_ceil by lra; reflexivity).
    assert (E2 : IZR t = - IZR (Zfloor (- v x))) by (rewrite E; apply opp_IZR).
    pose proof (Zfloor_lb (- v x)). pose proof (Zfloor_ub (- v x)). rewrite minus_IZR, E2. split; [lra |]. rewrite (Rabs_left (v x)) by lra.
    assert (0 <= IZR (Zfloor (- v x))) by (apply IZR_le, Zfloor_lub; lra). rewrite Rabs_left1 by lra. lra.
  - rewrite Z.sub_0_r. replace (-2147483648 <=? t)%Z with true by (symmetry; apply Z.leb_le; lia). exists t. split; [reflexivity |]. split; [change (2 ^ 21)%Z with 2097152%Z; lia |].
    assert (E : t = Zfloor (v x)) by (unfold t; apply Ztrunc_floor; lra). rewrite E. pose proof (Zfloor_lb (v x)). pose proof (Zfloor_ub (v x)). split; [lra |].
    assert (0 <= IZR (Zfloor (v x))) by (apply IZR_le, Zfloor_lub; lra). rewrite !Rabs_pos_eq by lra. lra.
Qed.

Variable e : fl.
Hypothesis (Fe : is_finite e = true) (Ne : Rabs (v e - exp 1) <= 3 / 4 * u * exp 1).
Lemma e_near : near (prec := prec) 1 (exp 1) (v e) /\ 1 <= v e.
Proof.
  pose proof exp_1 as E. pose proof (u256 (prec := prec) ltac:(lia)) as U. pose proof Ne as Ne'. apply Rabs_le_inv in Ne'. assert (3 / 4 * u * exp 1 <= / 256 * exp 1) by (apply Rmult_le_compat_r; lra).
  split; [| lra]. split; [lra |]. rewrite pow_1. split; [| lra].
  assert ((1 - 3 / 4 * u) * exp 1 * (1 + u) <= v e * (1 + u)) by (apply Rmult_le_compat_r; lra).
  assert (0 <= (u / 4 - 3 / 4 * (u * u)) * exp 1); [| lra]. pose proof (usq (prec := prec) ltac:(lia)). apply Rmult_le_pos; lra.
Qed.

Definition exp_tol (x : R) : R := (8 * IZR prec + 4 * Rabs x + 73) * u.
Theorem fexp_ok (x : fl) : is_finite x = true -> Rabs (v x) <= 11 / 16 * IZR emax - 4 -> Rabs (v x) <= bpow (prec - 5) ->
  exists y, is_finite y = true /\ Rabs (v y - exp (v x)) <= exp_tol (v x) * exp (v x) /\ forall fuel, (N <= fuel)%nat -> fexp fuel e x = FVal y.
Proof.
  intros Fx Bx Sx. pose proof (u256 (prec := prec) ltac:(lia)) as U. pose proof (usq (prec := prec) ltac:(lia)) as U2. pose proof (prec_u (prec := prec) ltac:(lia)) as PU.
  pose proof (one_ok (prec := prec) (emax := emax) ltac:(lia) ltac:(lia)) as [V1 F1'].
  assert (nn : isnan x = false) by (destruct x; try discriminate; reflexivity).
  assert (ip : feq x (B754_infinity false) = false) by (destruct x as [[]| | |[]]; try discriminate; reflexivity).
  assert (im : feq x (B754_infinity true) = false) by (destruct x as [[]| | |[]]; try discriminate; reflexivity).
  assert (xa : Rabs (v x) * u <= / 32).
  { apply Rle_trans with (bpow (prec - 5) * u); [apply Rmult_le_compat_r; lra |]. rewrite <- bpow_plus. replace (prec - 5 + - prec)%Z with (-5)%Z by lia. simpl. lra. }
  pose proof (Rabs_pos (v x)) as ax. pose proof (exp_pos (v x)) as ex.
  assert (xu : 0 <= Rabs (v x) * u) by (apply Rmult_le_pos; lra).
  assert (pp : 8 <= IZR prec) by (apply IZR_le; lia).
  assert (EE : 0 <= exp_error (prec := prec) <= 485 / 1000) by (unfold exp_error; assert (0 <= IZR prec * u) by (apply Rmult_le_pos; lra); lra).
  unfold fexp. setoid_rewrite nn. setoid_rewrite ip. setoid_rewrite im. rewrite feq_spec, flt_spec, flt_spec, V1 by auto. change (v fzero) with 0.
  destruct (Req_bool_spec (v x) 0) as [X0|X0].
  - exists (of_Z 1). split; [exact F1' |]. split; [| reflexivity]. rewrite V1, X0, exp_0, Rminus_diag_eq, Rabs_R0 by reflexivity. unfold exp_tol. rewrite Rabs_R0. assert (0 <= IZR prec * u) by (apply Rmult_le_pos; lra). lra.
  - destruct (Rlt_bool 0 (v x) && Rlt_bool (v x) 1) eqn:Unit.
    + apply andb_prop in Unit. destruct Unit as [A B]. destruct (Rlt_bool_spec 0 (v x)) as [A'|]; [| discriminate]. destruct (Rlt_bool_spec (v x) 1) as [B'|]; [| discriminate].
      destruct (exp_series_partial (prec := prec) (emax := emax) ltac:(lia) ltac:(lia) ltac:(lia) ltac:(lia) x Fx ltac:(lra)) as (y & Fy & Ey & Ry). exists y. split; [exact Fy |]. split; [| exact Ry].
      eapply Rle_trans; [exact Ey |]. assert (1 <= exp (v x)) by (pose proof (exp_ineq1_le (v x)); lra).
      assert (exp_error (prec := prec) * 1 <= exp_tol (v x) * exp (v x)); [| lra]. apply Rmult_le_compat; try lra. unfold exp_error, exp_tol. assert (0 <= IZR prec * u) by (apply Rmult_le_pos; lra). lra.
    + assert (B20 : Rabs (v x) <= bpow 20).
      { eapply Rle_trans; [exact Bx |]. change (bpow 20) with (IZR 1048576). assert (IZR emax <= 20000) by (apply IZR_le; lia). lra. }
      destruct (truncated_ok x Fx B20) as (n & -> & Ln & Fr & Bn). cbn [fbind].
      set (m := Z.abs_nat n). assert (Em : INR m = Rabs (IZR n)) by (unfold m; rewrite INR_IZR_INZ, Zabs2Nat.id_abs; apply abs_IZR).
      assert (mu : INR m * u <= 36 / 1000) by (assert (INR m * u <= (Rabs (v x) + 1) * u) by (apply Rmult_le_compat_r; lra); lra).
      assert (Hov : exp (IZR (Z.abs n)) * (1 + u) ^ (2 * m) <= bpow (emax - 4)).
      { apply Rle_trans with (exp (IZR (Z.abs n)) * exp (INR (2 * m) * u)); [apply Rmult_le_compat_l; [left; apply exp_pos | apply pow_exp] |]. rewrite <- exp_plus. apply exp_bpow; [lia |].
        rewrite abs_IZR, mult_INR, minus_IZR. change (INR 2) with 2. lra. }
      destruct e_near as [Ne' Ge].
      assert (Hov2 : exp (IZR (Z.abs n)) * (1 + u) ^ (2 * m) <= bpow (emax - 2)) by (eapply Rle_trans; [exact Hov | apply bpow_le; lia]).
      destruct (integral_exp_Z (prec := prec) (emax := emax) ltac:(lia) ltac:(lia) e Fe Ne' Ge n ltac:(unfold int_max; change (2 ^ 31)%Z with 2147483648%Z; change (2 ^ 21)%Z with 2097152%Z in Ln; lia) Hov2) as (a & Fa & Na & _ & Ra).
      (* the fraction *)
      assert (ZF : F (IZR n)).
      { apply F_Z; [lia | lia | ]. assert (Z.abs n <= 2 ^ prec)%Z; [| lia]. apply le_IZR. rewrite abs_IZR, IZR_pow2 by lia. eapply Rle_trans; [exact Bn |]. apply Rle_trans with (bpow (prec - 5) + bpow (prec - 5)).
        - apply Rplus_le_compat; [exact Sx |]. change 1 with (bpow 0). apply bpow_le. lia.
        - replace (bpow (prec - 5) + bpow (prec - 5)) with (bpow (prec - 5 + 1)) by (rewrite bpow_plus; simpl (bpow 1); lra). apply bpow_le. lia. }
      destruct (of_Z_ok (prec := prec) (emax := emax) n) as [Vn Fn]; [apply Z_big; [lia .. |]; change (2 ^ 21)%Z with 2097152%Z in Ln; change (2 ^ 31)%Z with 2147483648%Z; lia |].
      rewrite rnd_F in Vn by exact ZF.
      destruct (fsub_ok x (of_Z n) Fx Fn) as [Vf Ff]; [rewrite Vn, Rabs_pos_eq by lra; apply Rle_trans with (bpow 0); [simpl; lra | apply bpow_le; lia] |].
      rewrite Vn in Vf. set (f := fsub x (of_Z n)) in *.
      assert (f01 : 0 <= v f <= 1).
      { rewrite Vf. split; [apply rnd_ge; [exact Hp | apply generic_format_0 | lra] | apply rnd_le; [exact Hp | apply (F1 (prec := prec) (emax := emax)); lia | lra]]. }
      assert (fd : Rabs (v f - (v x - IZR n)) <= u).
      { rewrite Vf. change (v x - IZR n) with (v x + - IZR n). eapply Rle_trans; [apply (rnd_plus (v x) (- IZR n)); [apply v_F | now apply generic_format_opp] |].
        replace u with (u * 1) at 2 by ring. apply Rmult_le_compat_l; [lra |]. rewrite Rabs_pos_eq; lra. }
      destruct (exp_series_partial (prec := prec) (emax := emax) ltac:(lia) ltac:(lia) ltac:(lia) ltac:(lia) f Ff f01) as (b & Fb & Eb & Rb).
      (* sizes *)
      pose proof (near_pos _ _ _ Na) as pa. destruct Na as (pA & NaL & NaU). set (g := (1 + u) ^ (2 * m)) in *.
      assert (g1' : 1 <= g) by (unfold g; apply g1). fold m in NaL, NaU. fold g in NaL, NaU.
      assert (B1 : 1 <= exp (v f)) by (pose proof (exp_ineq1_le (v f)); lra). assert (B3 : exp (v f) <= 3) by (apply Rle_trans with (exp 1); [apply exp_le_mono; lra | pose proof exp_1; lra]).
      apply Rabs_le_inv in Eb. assert (bb : 1 / 2 <= v b <= 4) by lra.
      assert (aU : v a <= bpow (emax - 4)).
      { eapply Rle_trans; [exact NaU |]. eapply Rle_trans; [| exact Hov]. apply Rmult_le_compat_r; [lra |]. apply exp_le_mono, IZR_le. lia. }
      assert (aL : bpow (4 - emax) <= v a).
      { replace (4 - emax)%Z with (- (emax - 4))%Z by lia. rewrite bpow_opp. apply Rmult_le_reg_r with (bpow (emax - 4)); [apply bpow_gt_0 |]. rewrite Rinv_l by (apply Rgt_not_eq, bpow_gt_0).
        apply Rle_trans with (v a * (exp (IZR (Z.abs n)) * g)); [| apply Rmult_le_compat_l; lra].
        replace (v a * (exp (IZR (Z.abs n)) * g)) with (v a * g * exp (IZR (Z.abs n))) by ring. apply Rle_trans with (exp (IZR n) * exp (IZR (Z.abs n))); [| apply Rmult_le_compat_r; [left; apply exp_pos | exact NaL]].
        rewrite <- exp_plus, <- plus_IZR. replace 1 with (exp 0) by apply exp_0. apply exp_le_mono. apply (IZR_le 0). lia. }
      assert (abU : v a * v b <= bpow (emax - 2)).
      { replace (emax - 2)%Z with (emax - 4 + 2)%Z by lia. rewrite bpow_plus. simpl (bpow 2). apply Rmult_le_compat; lra. }
      assert (abL : bpow (emin + prec - 1) <= v a * v b).
      { apply Rle_trans with (bpow (4 - emax + -1)); [apply bpow_le; lia |]. rewrite bpow_plus. simpl (bpow (-1)). pose proof (bpow_ge_0 radix2 (4 - emax)). apply Rmult_le_compat; lra. }
      assert (ab0 : 0 < v a * v b) by (apply Rmult_lt_0_compat; lra).
      destruct (fmul_ok a b Fa Fb) as [Vy Fy]; [rewrite Rabs_pos_eq by lra; eapply Rle_trans; [exact abU | apply bpow_le; lia] |].
      exists (fmul a b). split; [exact Fy |]. split.
      2:{ intros fuel L. rewrite Ra by (fold m; assert (INR m <= Rabs (v x) + 1) by lra; apply INR_lt; rewrite (INR_IZR_INZ fuel); assert (IZR emax <= IZR (Z.of_nat fuel)) by (apply IZR_le; lia); lra).
          cbn [fbind]. rewrite Rb by exact L. reflexivity. }
      rewrite Vy. destruct (rnd_near1 (v a * v b) abL) as [YL YU]. set (y := rnd (v a * v b)) in *.
      (* exact value *)
      assert (EX : exp (v x) = exp (IZR n) * exp (v f) * exp (- (v f - (v x - IZR n)))) by (rewrite <- !exp_plus; f_equal; ring).
      set (dl := v f - (v x - IZR n)) in *. apply Rabs_le_inv in fd.
      assert (D1 : exp (- dl) <= exp u) by (apply exp_le_mono; lra). assert (D2 : exp (- u) <= exp (- dl)) by (apply exp_le_mono; lra).
      set (X := exp (v x)) in *. set (A := exp (IZR n)) in *. set (B := exp (v f)) in *. set (E := exp_error (prec := prec)) in *.
      assert (pB : 0 < B) by lra.
      assert (Bb : v b <= B * (1 + E)) by (assert (E * 1 <= E * B) by (apply Rmult_le_compat_l; lra); lra).
      assert (Bb2 : B * (1 - E) <= v b) by (assert (E * 1 <= E * B) by (apply Rmult_le_compat_l; lra); lra).
      set (k := (2 * m + 2)%nat). assert (Ek : INR k = 2 * INR m + 2) by (unfold k; rewrite plus_INR, mult_INR; cbn; ring).
      assert (gk : g * (1 + u) <= exp ((2 * INR m + 1) * u)).
      { unfold g. replace ((1 + u) ^ (2 * m) * (1 + u)) with ((1 + u) ^ (2 * m + 1)) by (rewrite pow_add, pow_1; ring). eapply Rle_trans; [apply pow_exp |]. apply exp_le_mono. rewrite plus_INR, mult_INR. cbn. lra. }
      assert (gp : 0 < g * (1 + u)) by (apply Rmult_lt_0_compat; lra).
      set (K := (2 * INR m + 2) * u). assert (K0 : 0 <= K <= / 12) by (unfold K; pose proof (pos_INR m); assert (0 <= INR m * u) by (apply Rmult_le_pos; lra); lra).
      assert (XA : A * B <= X * exp u).
      { rewrite EX. fold dl. rewrite Rmult_assoc. rewrite <- (Rmult_1_r (A * B)) at 1. apply Rmult_le_compat_l; [apply Rmult_le_pos; lra |]. rewrite <- exp_plus. replace 1 with (exp 0) by apply exp_0. apply exp_le_mono. lra. }
      assert (XB : X * exp (- u) <= A * B).
      { rewrite EX. rewrite Rmult_assoc. rewrite <- (Rmult_1_r (A * B)) at 2. apply Rmult_le_compat_l; [apply Rmult_le_pos; lra |]. rewrite <- exp_plus. replace 1 with (exp 0) by apply exp_0. apply exp_le_mono. lra. }
      assert (Up : y <= X * ((1 + E) * exp K)).
      { apply Rle_trans with (A * B * (1 + E) * (g * (1 + u))).
        - eapply Rle_trans; [exact YU |]. replace (A * B * (1 + E) * (g * (1 + u))) with ((A * g) * (B * (1 + E)) * (1 + u)) by ring. apply Rmult_le_compat_r; [lra |]. apply Rmult_le_compat; lra.
        - replace K with (u + (2 * INR m + 1) * u) by (unfold K; ring). rewrite exp_plus. replace (X * ((1 + E) * (exp u * exp ((2 * INR m + 1) * u)))) with (X * exp u * (1 + E) * exp ((2 * INR m + 1) * u)) by ring.
          apply Rmult_le_compat; [apply Rmult_le_pos; [apply Rmult_le_pos; lra | lra] | lra | apply Rmult_le_compat_r; lra | exact gk]. }
      assert (Lo : X * ((1 - E) * exp (- K)) <= y).
      { apply Rmult_le_reg_r with (g * (1 + u)); [exact gp |]. apply Rle_trans with (A * B * (1 - E)).
        - replace (- K) with (- u + - ((2 * INR m + 1) * u)) by (unfold K; ring). rewrite exp_plus.
          replace (X * ((1 - E) * (exp (- u) * exp (- ((2 * INR m + 1) * u)))) * (g * (1 + u))) with (X * exp (- u) * (1 - E) * (exp (- ((2 * INR m + 1) * u)) * (g * (1 + u)))) by ring.
          rewrite <- (Rmult_1_r (A * B * (1 - E))). apply Rmult_le_compat; [apply Rmult_le_pos; [apply Rmult_le_pos; [lra | left; apply exp_pos] | lra] | apply Rmult_le_pos; [left; apply exp_pos | lra] | apply Rmult_le_compat_r; lra |].
          apply Rle_trans with (exp (- ((2 * INR m + 1) * u)) * exp ((2 * INR m + 1) * u)); [apply Rmult_le_compat_l; [left; apply exp_pos | exact gk] |]. rewrite <- exp_plus, Rplus_opp_l, exp_0. lra.
        - replace (y * (g * (1 + u))) with (y * (1 + u) * g) by ring. apply Rle_trans with (v a * v b * g); [| apply Rmult_le_compat_r; lra].
          replace (v a * v b * g) with ((v a * g) * v b) by ring. rewrite Rmult_assoc. apply Rmult_le_compat; try lra. apply Rmult_le_pos; lra. }
      pose proof (exp_small K K0) as EK. pose proof (exp_ineq1_le (- K)) as EK2.
      assert (KX : K <= 2 * (Rabs (v x) * u) + 4 * u) by (unfold K; assert (INR m * u <= (Rabs (v x) + 1) * u) by (apply Rmult_le_compat_r; lra); lra).
      assert (T1 : (1 + E) * exp K <= 1 + exp_tol (v x)).
      { apply Rle_trans with ((1 + E) * (1 + 12 / 10 * K)); [apply Rmult_le_compat_l; lra |]. assert (E * K <= 485 / 1000 * K) by (apply Rmult_le_compat_r; lra). unfold exp_tol, E, exp_error in *. assert (0 <= IZR prec * u) by (apply Rmult_le_pos; lra). lra. }
      assert (T2 : 1 - exp_tol (v x) <= (1 - E) * exp (- K)).
      { apply Rle_trans with ((1 - E) * (1 - K)); [| apply Rmult_le_compat_l; lra]. assert (0 <= E * K) by (apply Rmult_le_pos; lra). unfold exp_tol, E, exp_error in *. assert (0 <= IZR prec * u) by (apply Rmult_le_pos; lra). lra. }
      assert (X * ((1 + E) * exp K) <= X * (1 + exp_tol (v x))) by (apply Rmult_le_compat_l; lra).
      assert (X * (1 - exp_tol (v x)) <= X * ((1 - E) * exp (- K))) by (apply Rmult_le_compat_l; lra).
      apply Rabs_le. lra.
Qed.
End Fmt.
