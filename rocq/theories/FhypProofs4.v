(** acosh near 1 in floating point. *)
From Coq Require Import ZArith Reals Lra Lia Bool.
From Flocq Require Import Core IEEE754.BinarySingleNaN.
From Verif Require Import FloatModel FloatSpec FloatProofs1 FloatProofs2 FloatProofs4 FserModel FserSpec FserProofs1 FserProofs2 FserProofs3 FserProofs5 FserProofs10 FloatProperties.
From Verif Require Import FlogModel FlogSpec FlogProofs1 FlogProofs2 FlogProofs4 FhypModel FhypSpec FhypProofs1 FhypProofs2 FhypProofs3.
Local Open Scope R_scope.

(** The difference of two roots. *)
Lemma sqrt_diff a c d : 0 <= a -> 0 < c -> Rabs (a - c) <= d -> Rabs (sqrt a - sqrt c) <= d * / sqrt c.
Proof.
  intros A C H. pose proof (sqrt_lt_R0 c C) as S. pose proof (sqrt_pos a) as P. pose proof (sqrt_sqrt a A) as SA. pose proof (sqrt_sqrt c ltac:(lra)) as SC.
  set (x := sqrt a) in *. set (y := sqrt c) in *. apply Rmult_le_reg_r with y; [exact S|]. rewrite Rmult_assoc, Rinv_l, Rmult_1_r by lra.
  eapply Rle_trans; [|exact H]. replace (a - c) with ((x - y) * (x + y)) by lra. rewrite Rabs_mult, (Rabs_pos_eq (x + y)) by lra.
  apply Rmult_le_compat_l; [apply Rabs_pos|lra].
Qed.

Section Fmt.
Context {prec emax : Z} {Hp : Prec_gt_0 prec} {Hx : Prec_lt_emax prec emax}.
Notation fl := (binary_float prec emax).
Notation emin := (3 - emax - prec)%Z.
Notation F := (generic_format radix2 (FLT_exp emin prec)).
Notation rnd := (round radix2 (FLT_exp emin prec) ZnearestE).
Notation bpow := (bpow radix2).
Notation v := (@B2R prec emax).
Notation u := (bpow (- prec)).
Notation h := (bpow (emin - 1)).
Hypothesis Sup : supported_log prec emax.
Let S1 : (24 <= prec)%Z. Proof. apply Sup. Qed.
Let S2 : (65 <= emax)%Z. Proof. apply Sup. Qed.
Let S3 : (prec + 40 <= emax)%Z. Proof. apply Sup. Qed.
Let S4 : (emax + prec <= 20000)%Z. Proof. apply Sup. Qed.
Variable e : fl.
Hypothesis (Fe : is_finite e = true) (Ce : best_constant prec (v e) (exp 1)).
Variable ln2 : fl.
Hypothesis (F2 : is_finite ln2 = true) (C2 : good_constant prec (v ln2) (ln 2)).

Lemma root_low (a : fl) : is_finite a = true -> 4 * u <= v a ->
  exists r, eventually (fun fuel => fsqrt fuel a) (FVal r) /\ is_finite r = true /\ 0 < v r /\ Rabs (v r - sqrt (v a)) <= 27 / 10 * u * sqrt (v a).
Proof.
  intros Fa A. pose proof (u_tiny Sup) as U.
  destruct (sqrt_returns a ltac:(lia) ltac:(lia) ltac:(lia)) as (r & N & R). exists r.
  assert (T : bpow emin <= / 1000 * u).
  { apply Rle_trans with (bpow (- prec + -10)); [apply bpow_le; lia|]. rewrite bpow_plus. simpl (bpow (-10)). lra. }
  assert (T' : bpow (emin + prec - 1) <= / 1000 * u).
  { apply Rle_trans with (bpow (- prec + -10)); [apply bpow_le; lia|]. rewrite bpow_plus. simpl (bpow (-10)). lra. }
  destruct (sqrt_accuracy a r N ltac:(lia) ltac:(lia) ltac:(lia) Fa) as (Fr & Pr & Er).
  { unfold tiny. lra. }
  { apply R. lia. }
  split; [exists N; exact R|]. split; [exact Fr|]. split; [exact Pr|].
  pose proof (sqrt_sqrt (v a) ltac:(lra)) as SS. pose proof (sqrt_lt_R0 (v a) ltac:(lra)) as SP.
  assert (SA : 4 * u <= sqrt (v a)).
  { destruct (Rle_lt_dec 1 (v a)) as [L|L]; [apply Rle_trans with 1; [lra|]; rewrite <- sqrt_1; apply sqrt_le_1_alt; exact L|].
    assert (sqrt (v a) <= 1) by (rewrite <- sqrt_1; apply sqrt_le_1_alt; lra). nra. }
  assert (G : FloatSpec.gap prec emax (v r) <= 2 * u * v r).
  { unfold FloatSpec.gap. destruct (Rle_lt_dec (bpow (emin + prec - 1)) (Rabs (v r))) as [X|X].
    - eapply Rle_trans; [apply ulp_FLT_le; exact X|]. rewrite (Rabs_pos_eq (v r)) by lra. replace (1 - prec)%Z with (1 + - prec)%Z by lia. rewrite bpow_plus. change (bpow 1) with 2. lra.
    - exfalso. unfold FloatSpec.gap in Er. rewrite ulp_FLT_small in Er.
      + rewrite (Rabs_pos_eq (v r)) in X by lra. apply Rabs_le_inv in Er. lra.
      + exact Hp.
      + eapply Rlt_trans; [exact X|]. apply bpow_lt. lia. }
  set (s := sqrt (v a)) in *. apply Rabs_le_inv in Er.
  assert (ur : u * v r <= / 1000000 * v r) by (apply Rmult_le_compat_r; lra). assert (v r <= 1001 / 1000 * s) by lra.
  assert (u * v r <= u * (1001 / 1000 * s)) by (apply Rmult_le_compat_l; lra). assert (0 <= u * s) by nra. apply Rabs_le. lra.
Qed.

(** The logarithm of an approximation r (1 + w) of a positive number r. *)
Lemma log_near (q : fl) r w : is_finite q = true -> 0 < r -> 0 <= w <= / 1000 -> Rabs (v q - r) <= w * r ->
  exists y, eventually (fun fuel => flog fuel e ln2 q) (FVal y) /\ is_finite y = true /\
    Rabs (v y - ln r) <= (16 * IZR prec + 209 + 31 / 10 * Rabs (ln r) + ln r * ln r / 2) * u + 11 / 10 * w.
Proof.
  intros Fq R W H. pose proof (u_tiny Sup) as U. destruct (ln_close (v q) r w R ltac:(lra) H) as [P L].
  destruct (log_spec Sup ln2 F2 C2 e Fe Ce q Fq P) as (y & Ry & Fy & Ey). exists y. split; [exact Ry|]. split; [exact Fy|].
  unfold log_accuracy, unit_error in Ey. set (a := ln (v q)) in *. set (b := ln r) in *.
  assert (L' : Rabs (a - b) <= 2 / 1000) by lra. apply Rabs_le_inv in L'.
  assert (AB : Rabs a <= Rabs b + 2 / 1000) by (replace a with (b + (a - b)) by lra; eapply Rle_trans; [apply Rabs_triang|]; apply Rplus_le_compat_l; lra).
  assert (SQ : a * a <= b * b + Rabs b * (5 / 1000) + / 1000).
  { rewrite <- (Rabs_pos_eq (a * a)), <- (Rabs_pos_eq (b * b)), !Rabs_mult by nra. pose proof (Rabs_pos a). pose proof (Rabs_pos b).
    apply Rle_trans with ((Rabs b + 2 / 1000) * (Rabs b + 2 / 1000)); [apply Rmult_le_compat; lra|nra]. }
  assert (X : (16 * IZR prec + 208 + 3 * Rabs a + a * a / 2) * u <= (16 * IZR prec + 209 + 31 / 10 * Rabs b + b * b / 2) * u).
  { apply Rmult_le_compat_r; [lra|]. pose proof (Rabs_pos b). lra. }
  apply Rabs_le_inv in L, Ey. apply Rabs_le. lra.
Qed.

Theorem acosh_all (x : fl) : is_finite x = true -> 1 < v x -> v x * v x <= bpow (emax - 3) ->
  exists y, eventually (fun fuel => facosh fuel e ln2 x) (FVal y) /\ is_finite y = true /\
    Rabs (v y - arcosh (v x)) <= inverse_accuracy prec (arcosh (v x)) + 2 * unit_error prec / sqrt (v x * v x - 1).
Proof.
  intros Fx P B. pose proof (u_tiny Sup) as U. destruct (one_v Sup) as [V1 F1].
  assert (D : forall k, bpow (k + 1) = 2 * bpow k) by (intros k; rewrite bpow_plus; change (bpow 1) with 2; lra).
  assert (G : 1 + 2 * u <= v x).
  { apply Rle_trans with (succ radix2 (FLT_exp emin prec) 1).
    - rewrite succ_eq_pos by lra. apply Rplus_le_compat_l. rewrite ulp_neq_0 by lra. unfold cexp, FLT_exp. change 1 with (bpow 0). rewrite mag_bpow, Z.max_l by lia.
      rewrite <- D. apply bpow_le. lia.
    - apply succ_le_lt; [apply FLT_exp_valid; exact Hp|rewrite <- V1; apply v_F|apply v_F|exact P]. }
  destruct (square_run Sup x Fx B) as (Fm & Bm & Em). set (w := fmul x x) in *.
  assert (Gw : 1 + 4 * u <= v w).
  { destruct (fmul_ok x x Fx Fx) as [E _]; [rewrite Rabs_pos_eq by nra; apply Rle_trans with (bpow (emax - 3)); [lra|apply bpow_le; lia]|].
    fold w in E. rewrite E. apply rnd_ge; [exact Hp| |nra].
    replace (1 + 4 * u) with (F2R (Float radix2 (2 ^ (prec - 2) + 1) (2 - prec))).
    - apply generic_format_FLT. exists (Float radix2 (2 ^ (prec - 2) + 1) (2 - prec)); [reflexivity| |cbn [Fexp]; lia].
      cbn [Fnum]. rewrite Z.abs_eq by (pose proof (Z.pow_nonneg 2 (prec - 2)); lia). change (radix_val radix2) with 2%Z.
      assert (2 ^ prec = 4 * 2 ^ (prec - 2))%Z by (replace prec with (2 + (prec - 2))%Z at 1 by lia; rewrite Z.pow_add_r by lia; reflexivity).
      assert (1 <= 2 ^ (prec - 2))%Z by (change 1%Z with (2 ^ 0)%Z; apply Z.pow_le_mono_r; lia). lia.
    - unfold F2R. cbn [Fnum Fexp]. rewrite plus_IZR. change 2%Z with (radix_val radix2) at 1. rewrite IZR_Zpower by lia. rewrite Rmult_plus_distr_r, <- bpow_plus.
      replace (prec - 2 + (2 - prec))%Z with 0%Z by lia. replace (2 - prec)%Z with (2 + - prec)%Z by lia. rewrite bpow_plus. change (bpow 0) with 1. change (bpow 2) with 4. lra. }
  pose proof (D (emax - 3)%Z) as D2. replace (emax - 3 + 1)%Z with (emax - 2)%Z in D2 by lia.
  pose proof (D (emax - 2)%Z) as D1. replace (emax - 2 + 1)%Z with (emax - 1)%Z in D1 by lia.
  assert (One : 1 <= bpow (emax - 3)) by (change 1 with (bpow 0); apply bpow_le; lia).
  destruct (fsub_ok w (of_Z 1) Fm F1) as [Ea Fa]; [rewrite V1; apply Rabs_le; lra|]. rewrite V1 in Ea.
  pose proof (rnd_plus (prec := prec) (emax := emax) (v w) (Ropp 1) (v_F w) ltac:(rewrite <- V1; apply generic_format_opp, v_F)) as Rp. change (v w + Ropp 1) with (v w - 1) in Rp.
  apply Rabs_le_inv in Em. unfold arcosh, unit_error. assert (Gs : 1 + 4 * u <= v x * v x) by nra. assert (Lx : v x <= v x * v x) by nra.
  set (s := v x * v x) in *. assert (us : 0 <= u * s <= / 1000000 * s) by (split; [nra|apply Rmult_le_compat_r; lra]).
  rewrite <- Ea, (Rabs_pos_eq (v w - 1)) in Rp by lra. apply Rabs_le_inv in Rp.
  set (a := fsub w (of_Z 1)) in *. assert (A4 : 4 * u <= v a).
  { rewrite Ea. apply rnd_ge; [exact Hp| |lra]. replace (4 * u) with (bpow (2 + - prec)) by (rewrite bpow_plus; change (bpow 2) with 4; lra). apply F_bpow; [exact Hp|lia]. }
  destruct (root_low a Fa A4) as (r & [N R] & Fr & Pr & Er).
  set (c := s - 1) in *. assert (PC : 4 * u <= c) by (unfold c; lra).
  assert (AC : Rabs (v a - c) <= u * (21 / 10 * c + 11 / 10)).
  { assert (u * (v w - 1) <= u * (c + u * s + u / 1000)) by (apply Rmult_le_compat_l; unfold c; lra).
    assert (u * (u * s) <= / 1000000 * (u * s)) by (apply Rmult_le_compat_r; lra). assert (u * (u / 1000) <= / 1000000 * (u / 1000)) by (apply Rmult_le_compat_r; lra).
    assert (u * s = u * c + u) by (unfold c; lra). apply Rabs_le. unfold c in *. lra. }
  pose proof (sqrt_diff (v a) c _ ltac:(lra) ltac:(lra) AC) as SD. pose proof (sqrt_sqrt c ltac:(lra)) as SS. pose proof (sqrt_lt_R0 c ltac:(lra)) as SP.
  set (q := sqrt c) in *. assert (IQ : 0 < / q) by (apply Rinv_0_lt_compat; exact SP). set (k := u * / q).
  assert (Q1 : u * (21 / 10 * c + 11 / 10) * / q = 21 / 10 * (u * q) + 11 / 10 * k).
  { unfold k. rewrite <- SS. field. lra. }
  rewrite Q1 in SD. assert (PK : 0 < k) by (apply Rmult_lt_0_compat; lra).
  assert (K : k <= / 4000).
  { assert (Q : u <= / 4000 * q); [|unfold k; apply Rmult_le_reg_r with q; [exact SP|]; rewrite Rmult_assoc, Rinv_l by lra; lra].
    assert (bpow (-24) = / 16777216) by (simpl; lra). assert (u <= / 16777216) by (rewrite <- H; apply bpow_le; lia).
    apply Rsqr_incr_0_var; [unfold Rsqr|lra]. replace (/ 4000 * q * (/ 4000 * q)) with (/ 16000000 * (q * q)) by lra. rewrite SS.
    assert (u * u <= / 16777216 * u) by (apply Rmult_le_compat_r; lra). lra. }
  assert (uq : 0 <= u * q <= / 1000000 * q) by (split; [nra|apply Rmult_le_compat_r; lra]).
  set (b := sqrt (v a)) in *. apply Rabs_le_inv in SD, Er. assert (PB : 0 <= b) by apply sqrt_pos.
  assert (uk : 0 <= u * k <= / 1000000 * k) by (split; [nra|apply Rmult_le_compat_r; lra]).
  assert (uuq : u * (u * q) <= / 1000000 * (u * q)) by (apply Rmult_le_compat_r; lra).
  assert (ub : u * b <= u * (q + (21 / 10 * (u * q) + 11 / 10 * k))) by (apply Rmult_le_compat_l; lra).
  assert (RQ : Rabs (v r - q) <= 49 / 10 * (u * q) + 12 / 10 * k) by (apply Rabs_le; lra). apply Rabs_le_inv in RQ.
  assert (QB : q <= bpow (emax - 3) + 1) by (destruct (Rle_lt_dec q 1) as [L|L]; [lra|]; assert (q <= q * q) by nra; unfold c in *; lra).
  destruct (fadd_ok x r Fx Fr) as [Es Fs]; [rewrite Rabs_pos_eq by lra; lra|].
  pose proof (rnd_plus (prec := prec) (emax := emax) (v x) (v r) (v_F x) (v_F r)) as Rp2. rewrite <- Es, (Rabs_pos_eq (v x + v r)) in Rp2 by lra. apply Rabs_le_inv in Rp2.
  destruct (log_near (fadd x r) (v x + q) (7 * u + 14 / 10 * k) Fs ltac:(lra) ltac:(lra)) as (y & [M Ry] & Fy & Ey).
  { assert (u * (v x + v r) <= u * (v x + q + (49 / 10 * (u * q) + 12 / 10 * k))) by (apply Rmult_le_compat_l; lra). assert (0 <= u * v x) by (apply Rmult_le_pos; lra).
    assert (k * 1 <= k * (v x + q)) by (apply Rmult_le_compat_l; lra). apply Rabs_le. lra. }
  exists y. split; [|split; [exact Fy|]].
  - exists (Nat.max N M). intros fuel Hf. unfold facosh.
    rewrite (finite_nan x Fx), !(finite_eq_inf x) by assumption. rewrite feq_spec, flt_spec, V1, Req_bool_false, Rlt_bool_false by (assumption || lra). fold w. fold a.
    rewrite (R fuel) by lia. cbn [fbind]. apply Ry. lia.
  - eapply Rle_trans; [exact Ey|]. unfold inverse_accuracy, unit_error. set (l := ln (v x + q)). pose proof (Rabs_pos l).
    replace (2 * u / q) with (2 * k) by (unfold k, Rdiv; lra).
    assert (0 <= Rabs l * u) by (apply Rmult_le_pos; lra). lra.
Qed.
End Fmt.
