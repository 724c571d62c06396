(** sinh, cosh and tanh in floating point. *)
From Coq Require Import ZArith Reals Lra Lia Bool.
From Flocq Require Import Core Mult_error IEEE754.BinarySingleNaN.
From Verif Require Import FloatModel FloatSpec FloatProofs1 FloatProofs2 FloatProofs4 FserModel FserSpec FserProofs1 FserProofs2 FserProofs3 FserProofs5 FserProofs10.
From Verif Require Import FlogModel FlogSpec FlogProofs1 FlogProofs2 FlogProofs4 FhypModel FhypSpec.
Local Open Scope R_scope.

(** The reciprocal of an approximation. *)
Lemma inv_near a b t : 0 < a -> 0 <= t <= / 100 -> Rabs (b - a) <= t * a -> 0 < b /\ Rabs (/ b - / a) <= 102 / 100 * t * / a.
Proof.
  intros A T H. apply Rabs_le_inv in H. assert (B : 99 / 100 * a <= b) by nra. assert (P : 0 < b) by lra. split; [exact P|].
  replace (/ b - / a) with ((a - b) * (/ b * / a)) by (field; lra).
  rewrite Rabs_mult, (Rabs_pos_eq (/ b * / a)) by (left; apply Rmult_lt_0_compat; apply Rinv_0_lt_compat; lra).
  assert (D : Rabs (a - b) <= t * a) by (apply Rabs_le; lra). assert (I : / b <= 102 / 100 * / a).
  { apply Rmult_le_reg_r with b; [exact P|]. rewrite Rinv_l by lra. apply Rmult_le_reg_r with a; [exact A|].
    replace (102 / 100 * / a * b * a) with (102 / 100 * b) by (field; lra). lra. }
  assert (0 < / a) by (apply Rinv_0_lt_compat; lra). assert (0 < / b) by (apply Rinv_0_lt_compat; lra).
  apply Rle_trans with (t * a * (102 / 100 * / a * / a)).
  - apply Rmult_le_compat; [apply Rabs_pos|nra|exact D|nra].
  - right. field. lra.
Qed.
Section Fmt.
Context {prec emax : Z} {Hp : Prec_gt_0 prec} {Hx : Prec_lt_emax prec emax}.
Notation fl := (binary_float prec emax).
Notation emin := (3 - emax - prec)%Z.
Notation F := (generic_format radix2 (FLT_exp emin prec)).
Notation rnd := (round radix2 (FLT_exp emin prec) ZnearestE).
Notation bpow := (bpow radix2).
Notation v := (@B2R prec emax).
Notation u := (bpow (- prec)).
Notation h := (bpow (emin - 1)).
Hypothesis Sup : supported_log prec emax.
Let S1 : (24 <= prec)%Z. Proof. apply Sup. Qed.
Let S2 : (65 <= emax)%Z. Proof. apply Sup. Qed.
Let S3 : (prec + 40 <= emax)%Z. Proof. apply Sup. Qed.
Let S4 : (emax + prec <= 20000)%Z. Proof. apply Sup. Qed.
Variable e : fl.
Hypothesis (Fe : is_finite e = true) (Ce : best_constant prec (v e) (exp 1)).

Definition tol (x : R) : R := exp_accuracy prec x.
Lemma tol_small x : Rabs x <= 11 / 16 * IZR emax - 4 -> 0 <= tol x <= / 100.
Proof.
  intros H. unfold tol, exp_accuracy, unit_error. pose proof (pu_small Sup) as P. pose proof (u_tiny Sup) as U. pose proof (Rabs_pos x).
  assert (24 <= IZR prec) by (apply IZR_le; lia). assert (IZR emax <= 20000) by (apply IZR_le; lia).
  assert (u <= / 16000000) by (apply Rle_trans with (bpow (-24)); [apply bpow_le; lia|simpl; lra]).
  assert (Rabs x * u <= 13750 * / 16000000) by (apply Rmult_le_compat; lra).
  split; [apply Rmult_le_pos; lra|]. rewrite !Rmult_plus_distr_r, !Rmult_assoc. lra.
Qed.
Lemma exp_run (x : fl) : is_finite x = true -> Rabs (v x) <= 11 / 16 * IZR emax - 4 ->
  exists y, eventually (fun fuel => fexp fuel e x) (FVal y) /\ is_finite y = true /\ 0 < v y /\ Rabs (v y - exp (v x)) <= tol (v x) * exp (v x).
Proof.
  intros Fx B. apply exp_spec; try assumption; [apply Sup|]. apply Rle_trans with (bpow 14); [|apply bpow_le; lia].
  assert (IZR emax <= 20000) by (apply IZR_le; lia). simpl. lra.
Qed.
(** The range of exp. *)
Lemma exp_range x : Rabs x <= 11 / 16 * IZR emax - 4 -> bpow (5 - emax) <= exp x <= bpow (emax - 5).
Proof.
  intros H. apply Rabs_le_inv in H. assert (65 <= IZR emax) by (apply IZR_le; lia).
  assert (E : forall z, z <= 11 / 16 * IZR emax - 4 -> exp z <= bpow (emax - 5)).
  { intros z Hz. apply exp_bpow; [lia|]. rewrite minus_IZR. lra. }
  split; [|apply E; lra]. specialize (E (- x) ltac:(lra)). rewrite exp_Ropp in E.
  replace (5 - emax)%Z with (- (emax - 5))%Z by lia. rewrite bpow_opp. apply Rinv_le in E; [|apply Rinv_0_lt_compat, exp_pos].
  rewrite Rinv_inv in E. exact E.
Qed.
Lemma cosh_ge x : 1 <= cosh x.
Proof.
  unfold cosh. rewrite exp_Ropp. pose proof (exp_pos x) as P. set (a := exp x) in *.
  assert (2 <= a + / a); [|lra]. apply Rmult_le_reg_r with a; [exact P|]. rewrite Rmult_plus_distr_r, Rinv_l by lra. pose proof (Rle_0_sqr (a - 1)) as Q. unfold Rsqr in Q. nra.
Qed.
Lemma half_v : v half = / 2 /\ is_finite (half : fl) = true.
Proof. apply half_ok; lia. Qed.
Lemma one_v : v (of_Z 1) = 1 /\ is_finite (of_Z 1 : fl) = true.
Proof. apply small_Z; lia. Qed.

(** 1 / ex. *)
Lemma recip (x ex : fl) : Rabs (v x) <= 11 / 16 * IZR emax - 4 -> is_finite ex = true -> 0 < v ex -> Rabs (v ex - exp (v x)) <= tol (v x) * exp (v x) ->
  is_finite (fdiv (of_Z 1) ex) = true /\ 0 <= v (fdiv (of_Z 1) ex) <= bpow (emax - 4) /\
  Rabs (v (fdiv (of_Z 1) ex) - exp (- v x)) <= (102 / 100 * tol (v x) + 2 * u) * exp (- v x) + h.
Proof.
  intros B Fx P E. pose proof (tol_small _ B) as T. pose proof (exp_range _ B) as R. pose proof (exp_pos (v x)) as EP. pose proof (u_tiny Sup) as U.
  destruct one_v as [V1 F1]. destruct (inv_near (exp (v x)) (v ex) (tol (v x)) EP T E) as [_ I].
  rewrite exp_Ropp. set (a := exp (v x)) in *. set (b := v ex) in *. set (t := tol (v x)) in *.
  assert (IA : 0 < / a) by (apply Rinv_0_lt_compat; exact EP).
  assert (IB : 0 < / b) by (apply Rinv_0_lt_compat; exact P).
  assert (IA2 : / a <= bpow (emax - 5)).
  { replace (bpow (emax - 5)) with (/ bpow (- (emax - 5))) by (rewrite bpow_opp, Rinv_inv; reflexivity). apply Rinv_le; [apply bpow_gt_0|].
    replace (- (emax - 5))%Z with (5 - emax)%Z by lia. apply R. }
  apply Rabs_le_inv in I. assert (IB2 : / b <= 2 * bpow (emax - 5)) by nra.
  assert (D : bpow (emax - 4) = 2 * bpow (emax - 5)) by (replace (emax - 4)%Z with (1 + (emax - 5))%Z by lia; rewrite bpow_plus; change (bpow 1) with 2; lra).
  destruct (fdiv_ok (of_Z 1) ex F1) as [Ed Fd]; [fold b; lra| |].
  { rewrite V1. fold b. unfold Rdiv. rewrite Rmult_1_l, Rabs_pos_eq by lra. rewrite <- D in IB2. eapply Rle_trans; [exact IB2|]. apply bpow_le; lia. }
  rewrite V1 in Ed. fold b in Ed. unfold Rdiv in Ed. rewrite Rmult_1_l in Ed. split; [exact Fd|]. rewrite Ed. split.
  - split; [apply rnd_ge; [exact Hp|apply F_0|lra]|]. apply rnd_le; [exact Hp|apply F_bpow; [exact Hp|lia]|lra].
  - pose proof (ap_rnd0 (prec := prec) (emax := emax) (/ b)) as A. unfold ap in A. rewrite (Rabs_pos_eq (/ b)) in A by lra.
    apply Rabs_le_inv in A. assert (u * / b <= u * (102 / 100 * / a)) by (apply Rmult_le_compat_l; nra).
    assert (0 <= u * / a) by nra. apply Rabs_le. lra.
Qed.

Lemma h_le : h <= u / 1000.
Proof.
  apply Rle_trans with (bpow (- prec - 10)); [apply bpow_le; lia|]. replace (- prec - 10)%Z with (- prec + -10)%Z by lia. rewrite bpow_plus. simpl (bpow (-10)). pose proof (bpow_gt_0 radix2 (- prec)). lra.
Qed.
Lemma rnd_half z : F z -> Rabs (rnd (z * / 2) - z * / 2) <= h.
Proof.
  intros Fz. destruct (Rle_lt_dec (bpow (emin + prec)) (Rabs z)) as [G|G].
  - rewrite rnd_F; [rewrite Rminus_diag_eq, Rabs_R0 by reflexivity; apply bpow_ge_0|].
    replace (/ 2) with (bpow (-1)) by (simpl; lra). apply mult_bpow_exact_FLT; [exact Fz|].
    assert (emin + prec + 1 <= mag radix2 z)%Z; [|lia]. apply mag_ge_bpow. replace (emin + prec + 1 - 1)%Z with (emin + prec)%Z by lia. exact G.
  - replace h with (bpow emin / 2) by (replace (emin - 1)%Z with (emin + -1)%Z by lia; rewrite bpow_plus; simpl (bpow (-1)); lra).
    apply rnd_err; [exact Hp| |lia]. rewrite Rabs_mult, (Rabs_pos_eq (/ 2)) by lra. rewrite Z.add_comm. pose proof (Rabs_pos z). lra.
Qed.
(** The common last part of sinh and cosh. *)
Lemma half_sum (w : fl) z c t : is_finite w = true -> Rabs (v w) <= bpow (emax - 2) -> 1 <= c -> 0 <= t -> Rabs (v w - 2 * z) <= 2 * (t * c) ->
  is_finite (fmul w half) = true /\ Rabs (v (fmul w half) - z) <= (t + u) * c.
Proof.
  intros Fw B C T E. destruct half_v as [Vh Fh]. pose proof (u_tiny Sup) as U. pose proof h_le as HL.
  destruct (fmul_ok w half Fw Fh) as [Em Fm].
  { rewrite Vh, Rabs_mult, (Rabs_pos_eq (/ 2)) by lra. apply Rle_trans with (bpow (emax - 2)); [pose proof (Rabs_pos (v w)); lra|apply bpow_le; lia]. }
  split; [exact Fm|]. rewrite Em, Vh.
  pose proof (rnd_half (v w) (v_F w)) as A.
  apply Rabs_le_inv in A, E. assert (u <= u * c) by nra. apply Rabs_le. lra.
Qed.

Theorem cosh_spec (x : fl) : is_finite x = true -> Rabs (v x) <= 11 / 16 * IZR emax - 4 ->
  exists y, eventually (fun fuel => fcosh fuel e x) (FVal y) /\ is_finite y = true /\ Rabs (v y - cosh (v x)) <= hyperbolic_accuracy prec (v x) * cosh (v x).
Proof.
  intros Fx B. destruct (exp_run x Fx B) as (ex & [N R] & Fex & Pex & Eex). destruct (recip x ex B Fex Pex Eex) as (Fd & Bd & Ed).
  pose proof (exp_range _ B) as Rg. pose proof (tol_small _ B) as T. pose proof (u_tiny Sup) as U. pose proof h_le as HL. pose proof (cosh_ge (v x)) as C1.
  pose proof (exp_pos (v x)) as E0. pose proof (exp_pos (- v x)) as E0'.
  set (d := fdiv (of_Z 1) ex) in *. set (a := exp (v x)) in *. set (b := exp (- v x)) in *. set (t := tol (v x)) in *.
  assert (CC : cosh (v x) = (a + b) / 2) by reflexivity.
  assert (D : forall k, bpow (k + 1) = 2 * bpow k) by (intros k; rewrite bpow_plus; change (bpow 1) with 2; lra).
  assert (Bex : v ex <= bpow (emax - 4)).
  { apply Rabs_le_inv in Eex. replace (emax - 4)%Z with (emax - 5 + 1)%Z by lia. rewrite D. nra. }
  assert (D3 : bpow (emax - 3) = 2 * bpow (emax - 4)) by (replace (emax - 3)%Z with (emax - 4 + 1)%Z by lia; apply D).
  destruct (fadd_ok ex d Fex Fd) as [Ea Fa]; [rewrite Rabs_pos_eq by lra; apply Rle_trans with (bpow (emax - 3)); [lra|apply bpow_le; lia]|].
  pose proof (rnd_plus (prec := prec) (emax := emax) (v ex) (v d) (v_F ex) (v_F d)) as Rp. rewrite <- Ea in Rp.
  rewrite (Rabs_pos_eq (v ex + v d)) in Rp by lra.
  apply Rabs_le_inv in Rp, Eex, Ed.
  assert (SB : v ex + v d <= 11 / 10 * (a + b)) by (assert (u * b <= / 1000 * b) by (apply Rmult_le_compat_r; lra); nra).
  assert (us : u * (v ex + v d) <= u * (11 / 10 * (a + b))) by (apply Rmult_le_compat_l; lra).
  destruct (half_sum (fadd ex d) (cosh (v x)) (cosh (v x)) (102 / 100 * t + 4 * u) Fa) as [Ff Ef].
  - rewrite Ea. apply rnd_abs; [lia|]. rewrite Rabs_pos_eq by lra. apply Rle_trans with (bpow (emax - 3)); [lra|apply bpow_le; lia].
  - exact C1.
  - lra.
  - rewrite CC. assert (0 <= t * a) by nra. assert (0 <= t * b) by nra. assert (0 <= u * a) by nra. assert (0 <= u * b) by nra.
    assert (u * 2 <= u * (a + b)) by (apply Rmult_le_compat_l; lra).
    apply Rabs_le. lra.
  - exists (fmul (fadd ex d) half). split; [|split; [exact Ff|]].
    + exists N. intros fuel Hf. unfold fcosh. rewrite (finite_nan x Fx), (finite_inf x Fx), (R fuel Hf). reflexivity.
    + eapply Rle_trans; [exact Ef|]. apply Rmult_le_compat_r; [lra|]. unfold t, tol, exp_accuracy, hyperbolic_accuracy, unit_error.
      assert (24 <= IZR prec) by (apply IZR_le; lia). pose proof (Rabs_pos (v x)).
      assert (0 <= IZR prec * u) by nra. assert (0 <= Rabs (v x) * u) by nra. lra.
Qed.

Theorem sinh_spec (x : fl) : is_finite x = true -> Rabs (v x) <= 11 / 16 * IZR emax - 4 ->
  exists y, eventually (fun fuel => fsinh fuel e x) (FVal y) /\ is_finite y = true /\ Rabs (v y - sinh (v x)) <= hyperbolic_accuracy prec (v x) * cosh (v x).
Proof.
  intros Fx B. pose proof (cosh_ge (v x)) as C1. pose proof (u_tiny Sup) as U. assert (P24 : 24 <= IZR prec) by (apply IZR_le; lia).
  assert (F0 : is_finite (fzero : fl) = true) by reflexivity. assert (V0 : v fzero = 0) by reflexivity.
  destruct (Req_dec (v x) 0) as [Z|NZ].
  { exists x. split; [|split; [exact Fx|]].
    - exists 0%nat. intros fuel _. unfold fsinh. rewrite (finite_nan x Fx), feq_spec, V0, Req_bool_true by assumption. reflexivity.
    - rewrite Z, sinh_0, Rminus_0_r, Rabs_R0. rewrite Z in C1. apply Rmult_le_pos; [|lra]. unfold hyperbolic_accuracy, unit_error. rewrite Rabs_R0. apply Rmult_le_pos; lra. }
  destruct (exp_run x Fx B) as (ex & [N R] & Fex & Pex & Eex). destruct (recip x ex B Fex Pex Eex) as (Fd & Bd & Ed).
  pose proof (exp_range _ B) as Rg. pose proof (tol_small _ B) as T. pose proof h_le as HL.
  pose proof (exp_pos (v x)) as E0. pose proof (exp_pos (- v x)) as E0'.
  set (d := fdiv (of_Z 1) ex) in *. set (a := exp (v x)) in *. set (b := exp (- v x)) in *. set (t := tol (v x)) in *.
  assert (CC : cosh (v x) = (a + b) / 2) by reflexivity. assert (SC : sinh (v x) = (a - b) / 2) by reflexivity.
  assert (D : forall k, bpow (k + 1) = 2 * bpow k) by (intros k; rewrite bpow_plus; change (bpow 1) with 2; lra).
  assert (Bex : v ex <= bpow (emax - 4)).
  { apply Rabs_le_inv in Eex. replace (emax - 4)%Z with (emax - 5 + 1)%Z by lia. rewrite D. nra. }
  assert (D3 : bpow (emax - 3) = 2 * bpow (emax - 4)) by (replace (emax - 3)%Z with (emax - 4 + 1)%Z by lia; apply D).
  assert (AB : Rabs (v ex - v d) <= bpow (emax - 3)) by (apply Rabs_le; lra).
  destruct (fsub_ok ex d Fex Fd) as [Ea Fa]; [apply Rle_trans with (bpow (emax - 3)); [exact AB|apply bpow_le; lia]|].
  pose proof (rnd_plus (prec := prec) (emax := emax) (v ex) (- v d) (v_F ex) ltac:(apply generic_format_opp, v_F)) as Rp.
  change (v ex + - v d) with (v ex - v d) in Rp. rewrite <- Ea in Rp.
  assert (AS : Rabs (v ex - v d) <= v ex + v d) by (apply Rabs_le; lra).
  assert (us0 : u * Rabs (v ex - v d) <= u * (v ex + v d)) by (apply Rmult_le_compat_l; lra).
  apply Rabs_le_inv in Rp, Eex, Ed.
  assert (SB : v ex + v d <= 11 / 10 * (a + b)) by (assert (u * b <= / 1000 * b) by (apply Rmult_le_compat_r; lra); nra).
  assert (us : u * (v ex + v d) <= u * (11 / 10 * (a + b))) by (apply Rmult_le_compat_l; lra).
  destruct (half_sum (fsub ex d) (sinh (v x)) (cosh (v x)) (102 / 100 * t + 4 * u) Fa) as [Ff Ef].
  - rewrite Ea. apply rnd_abs; [lia|]. apply Rle_trans with (bpow (emax - 3)); [exact AB|apply bpow_le; lia].
  - exact C1.
  - lra.
  - rewrite CC, SC. assert (0 <= t * a) by nra. assert (0 <= t * b) by nra. assert (0 <= u * a) by nra. assert (0 <= u * b) by nra.
    assert (u * 2 <= u * (a + b)) by (apply Rmult_le_compat_l; lra).
    apply Rabs_le. lra.
  - exists (fmul (fsub ex d) half). split; [|split; [exact Ff|]].
    + exists N. intros fuel Hf. unfold fsinh. rewrite (finite_nan x Fx), (finite_inf x Fx), feq_spec, V0, Req_bool_false, (R fuel Hf) by assumption. reflexivity.
    + eapply Rle_trans; [exact Ef|]. apply Rmult_le_compat_r; [lra|]. unfold t, tol, exp_accuracy, hyperbolic_accuracy, unit_error.
      pose proof (Rabs_pos (v x)).
      assert (0 <= IZR prec * u) by nra. assert (0 <= Rabs (v x) * u) by nra. lra.
Qed.
End Fmt.
