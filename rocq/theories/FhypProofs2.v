(** tanh and atanh in floating point. *)
From Coq Require Import ZArith Reals Lra Lia Bool.
From Flocq Require Import Core Mult_error IEEE754.BinarySingleNaN.
From Verif Require Import FloatModel FloatSpec FloatProofs1 FloatProofs2 FloatProofs4 FserModel FserSpec FserProofs1 FserProofs2 FserProofs3 FserProofs5 FserProofs10.
From Verif Require Import FlogModel FlogSpec FlogProofs1 FlogProofs2 FlogProofs4 FhypModel FhypSpec FhypProofs1.
Local Open Scope R_scope.

(** The function (E - 1) / (E + 1). *)
Lemma cayley_near E F d k : 0 <= E -> 0 <= F -> 0 <= d <= / 20 -> 0 <= k <= / 100 -> Rabs (F - E) <= d * E + k ->
  Rabs ((F - 1) / (F + 1) - (E - 1) / (E + 1)) <= 53 / 100 * d + 2 * k.
Proof.
  intros A B D K H. replace ((F - 1) / (F + 1) - (E - 1) / (E + 1)) with ((F - E) * (2 * (/ (F + 1) * / (E + 1)))) by (field; lra).
  assert (FE : 95 / 100 * (E + 1) <= F + 1) by (apply Rabs_le_inv in H; nra).
  set (i := / (E + 1)). set (j := / (F + 1)).
  assert (I : 0 < i <= 1) by (split; [apply Rinv_0_lt_compat; lra|unfold i; rewrite <- Rinv_1; apply Rinv_le; lra]).
  assert (J : 0 < j <= 1) by (split; [apply Rinv_0_lt_compat; lra|unfold j; rewrite <- Rinv_1; apply Rinv_le; lra]).
  assert (IE : i * (E + 1) = 1) by (apply Rinv_l; lra). assert (JF : j * (F + 1) = 1) by (apply Rinv_l; lra).
  assert (JI : j <= 106 / 100 * i).
  { apply Rmult_le_reg_r with (F + 1); [lra|]. rewrite JF. apply Rle_trans with (106 / 100 * i * (95 / 100 * (E + 1))); [|apply Rmult_le_compat_l; lra].
    replace (106 / 100 * i * (95 / 100 * (E + 1))) with (106 / 100 * (95 / 100) * (i * (E + 1))) by lra. rewrite IE. lra. }
  assert (Q : E * (i * i) <= / 4).
  { assert (E * i = 1 - i) by lra. replace (E * (i * i)) with (E * i * i) by lra. rewrite H0. pose proof (Rle_0_sqr (i - / 2)) as S. unfold Rsqr in S. lra. }
  rewrite Rabs_mult, (Rabs_pos_eq (2 * (j * i))) by nra.
  apply Rle_trans with ((d * E + k) * (2 * (j * i))); [apply Rmult_le_compat_r; [nra|exact H]|].
  assert (J2 : d * E * (2 * (j * i)) <= 53 / 100 * d).
  { apply Rle_trans with (d * E * (2 * (106 / 100 * i * i))); [apply Rmult_le_compat_l; [nra|]; apply Rmult_le_compat_l; [lra|]; apply Rmult_le_compat_r; lra|].
    replace (d * E * (2 * (106 / 100 * i * i))) with (212 / 100 * d * (E * (i * i))) by lra.
    apply Rle_trans with (212 / 100 * d * / 4); [apply Rmult_le_compat_l; lra|lra]. }
  assert (J3 : j * i <= 1 * 1) by (apply Rmult_le_compat; lra).
  assert (k * (2 * (j * i)) <= k * 2) by (apply Rmult_le_compat_l; lra). lra.
Qed.
(** A quotient of two approximations. *)
Lemma ratio_near a b n m w : 0 < b -> 0 < w <= / 1000 -> Rabs (n - a) <= w * Rabs a -> Rabs (m - b) <= w * b -> 0 < m /\ Rabs (n / m - a / b) <= 21 / 10 * w * Rabs (a / b).
Proof.
  intros B W N M. assert (MB : 999 / 1000 * b <= m) by (apply Rabs_le_inv in M; nra). assert (PM : 0 < m) by lra. split; [exact PM|].
  replace (n / m - a / b) with (((n - a) * b - a * (m - b)) * (/ m * / b)) by (field; lra).
  assert (IB : 0 < / b) by (apply Rinv_0_lt_compat; lra). assert (IM : 0 < / m) by (apply Rinv_0_lt_compat; lra).
  rewrite Rabs_mult, (Rabs_pos_eq (/ m * / b)) by nra. unfold Rdiv. rewrite (Rabs_mult a (/ b)), (Rabs_pos_eq (/ b)) by lra.
  assert (X : Rabs ((n - a) * b - a * (m - b)) <= 2 * w * Rabs a * b).
  { eapply Rle_trans; [apply Rabs_triang|]. rewrite Rabs_Ropp, !Rabs_mult, (Rabs_pos_eq b) by lra. pose proof (Rabs_pos a).
    assert (Rabs (n - a) * b <= w * Rabs a * b) by (apply Rmult_le_compat_r; lra). assert (Rabs a * Rabs (m - b) <= Rabs a * (w * b)) by (apply Rmult_le_compat_l; lra). lra. }
  assert (Y : / m <= 105 / 100 * / b).
  { apply Rmult_le_reg_r with m; [exact PM|]. rewrite Rinv_l by lra. apply Rle_trans with (105 / 100 * / b * (999 / 1000 * b)); [|apply Rmult_le_compat_l; lra].
    replace (105 / 100 * / b * (999 / 1000 * b)) with (105 / 100 * (999 / 1000)) by (field; lra). lra. }
  apply Rle_trans with (2 * w * Rabs a * b * (105 / 100 * / b * / b)).
  - apply Rmult_le_compat; [apply Rabs_pos|nra|exact X|]. apply Rmult_le_compat_r; lra.
  - right. field. lra.
Qed.
Lemma tanh_exp x : tanh x = (exp x * exp x - 1) / (exp x * exp x + 1).
Proof. unfold tanh, sinh, cosh. rewrite exp_Ropp. pose proof (exp_pos x). field. nra. Qed.
(** The logarithm of an approximation. *)
Lemma ln_close q r w : 0 < r -> 0 <= w <= / 1000 -> Rabs (q - r) <= w * r -> 0 < q /\ Rabs (ln q - ln r) <= 11 / 10 * w.
Proof.
  intros R W H. apply Rabs_le_inv in H. assert (P : 0 < q) by nra. split; [exact P|].
  assert (IR : 0 < / r) by (apply Rinv_0_lt_compat; exact R). assert (IQ : 0 < / q) by (apply Rinv_0_lt_compat; exact P).
  pose proof (ln_le_minus (q * / r) ltac:(apply Rmult_lt_0_compat; lra)) as A. pose proof (ln_le_minus (r * / q) ltac:(apply Rmult_lt_0_compat; lra)) as B.
  rewrite ln_mult, ln_Rinv in A, B by lra.
  assert (QR : q * / r <= 1 + w) by (apply Rmult_le_reg_r with r; [exact R|]; rewrite Rmult_assoc, Rinv_l by lra; lra).
  assert (RQ : r * / q <= 1 + 11 / 10 * w) by (apply Rmult_le_reg_r with q; [exact P|]; rewrite Rmult_assoc, Rinv_l by lra; nra).
  apply Rabs_le. lra.
Qed.

Section Fmt.
Context {prec emax : Z} {Hp : Prec_gt_0 prec} {Hx : Prec_lt_emax prec emax}.
Notation fl := (binary_float prec emax).
Notation emin := (3 - emax - prec)%Z.
Notation F := (generic_format radix2 (FLT_exp emin prec)).
Notation rnd := (round radix2 (FLT_exp emin prec) ZnearestE).
Notation bpow := (bpow radix2).
Notation v := (@B2R prec emax).
Notation u := (bpow (- prec)).
Notation h := (bpow (emin - 1)).
Hypothesis Sup : supported_log prec emax.
Let S1 : (24 <= prec)%Z. Proof. apply Sup. Qed.
Let S2 : (65 <= emax)%Z. Proof. apply Sup. Qed.
Let S3 : (prec + 40 <= emax)%Z. Proof. apply Sup. Qed.
Let S4 : (emax + prec <= 20000)%Z. Proof. apply Sup. Qed.
Variable e : fl.
Hypothesis (Fe : is_finite e = true) (Ce : best_constant prec (v e) (exp 1)).

Theorem tanh_spec (x : fl) : is_finite x = true -> Rabs (v x) <= 11 / 32 * IZR emax - 4 ->
  exists y, eventually (fun fuel => ftanh fuel e x) (FVal y) /\ is_finite y = true /\ Rabs (v y - tanh (v x)) <= tanh_accuracy prec (v x).
Proof.
  intros Fx B. pose proof (u_tiny Sup) as U. assert (P24 : 24 <= IZR prec) by (apply IZR_le; lia).
  assert (F0 : is_finite (fzero : fl) = true) by reflexivity. assert (V0 : v fzero = 0) by reflexivity.
  assert (I1 : feq x (B754_infinity false) = false) by (destruct x as [?| | |[|] ? ? ?]; try discriminate; reflexivity).
  assert (I2 : feq x (B754_infinity true) = false) by (destruct x as [?| | |[|] ? ? ?]; try discriminate; reflexivity).
  destruct (Req_dec (v x) 0) as [Z|NZ].
  { exists x. split; [|split; [exact Fx|]].
    - exists 0%nat. intros fuel _. unfold ftanh. rewrite (finite_nan x Fx), I1, I2, feq_spec, V0, Req_bool_true by assumption. reflexivity.
    - rewrite Z. replace (tanh 0) with 0 by (unfold tanh; rewrite sinh_0; unfold Rdiv; ring). rewrite Rminus_0_r, Rabs_R0.
      unfold tanh_accuracy, unit_error. rewrite Rabs_R0. apply Rmult_le_pos; lra. }
  assert (IE : 65 <= IZR emax) by (apply IZR_le; lia).
  assert (B' : Rabs (v x) <= 11 / 16 * IZR emax - 4) by lra.
  destruct (exp_run Sup e Fe Ce x Fx B') as (ex & [N R] & Fex & Pex & Eex). pose proof (tol_small Sup (v x) B') as T. pose proof (h_le Sup) as HL.
  assert (Rg : Rabs (v x + v x) <= 11 / 16 * IZR emax - 4).
  { replace (v x + v x) with (2 * v x) by lra. rewrite Rabs_mult, (Rabs_pos_eq 2) by lra. lra. }
  apply (exp_range Sup) in Rg. rewrite exp_plus in Rg. pose proof (exp_pos (v x)) as E0. rewrite tanh_exp.
  destruct (one_v Sup) as [V1 F1].
  set (a := exp (v x)) in *. set (t := tol (prec := prec) (v x)) in *. set (E := a * a) in *. assert (PE : 0 < E) by (unfold E; nra).
  apply Rabs_le_inv in Eex.
  assert (SQ : (1 - 201 / 100 * t) * E <= v ex * v ex <= (1 + 201 / 100 * t) * E).
  { assert ((1 - t) * a <= v ex <= (1 + t) * a) by lra. assert (0 <= (1 - t) * a) by nra. unfold E.
    split; [apply Rle_trans with ((1 - t) * a * ((1 - t) * a)); [|apply Rmult_le_compat; lra] | apply Rle_trans with ((1 + t) * a * ((1 + t) * a)); [apply Rmult_le_compat; lra|]].
    - replace ((1 - t) * a * ((1 - t) * a)) with ((1 - t) * (1 - t) * (a * a)) by lra. apply Rmult_le_compat_r; nra.
    - replace ((1 + t) * a * ((1 + t) * a)) with ((1 + t) * (1 + t) * (a * a)) by lra. apply Rmult_le_compat_r; nra. }
  assert (tE : 0 <= t * E <= / 100 * E) by (split; [nra|apply Rmult_le_compat_r; lra]).
  assert (D : forall k, bpow (k + 1) = 2 * bpow k) by (intros k; rewrite bpow_plus; change (bpow 1) with 2; lra).
  assert (D4 : bpow (emax - 4) = 2 * bpow (emax - 5)) by (replace (emax - 4)%Z with (emax - 5 + 1)%Z by lia; apply D).
  assert (D3 : bpow (emax - 3) = 2 * bpow (emax - 4)) by (replace (emax - 3)%Z with (emax - 4 + 1)%Z by lia; apply D).
  assert (One : 1 <= bpow (emax - 5)) by (change 1 with (bpow 0); apply bpow_le; lia).
  assert (Le : bpow (emax - 3) <= bpow (emax - 1)) by (apply bpow_le; lia).
  assert (Psq : 0 <= v ex * v ex <= bpow (emax - 4)) by (split; [nra|lra]).
  destruct (fmul_ok ex ex Fex Fex) as [Em Fm]; [rewrite Rabs_pos_eq by lra; lra|].
  set (w := fmul ex ex) in *.
  assert (Pw : 0 <= v w <= bpow (emax - 4)) by (rewrite Em; split; [apply rnd_ge; [exact Hp|apply F_0|lra]|apply rnd_le; [exact Hp|apply F_bpow; [exact Hp|lia]|lra]]).
  assert (Ew : Rabs (v w - E) <= (201 / 100 * t + 11 / 10 * u) * E + h).
  { pose proof (ap_rnd0 (prec := prec) (emax := emax) (v ex * v ex)) as A. unfold ap in A. rewrite <- Em, (Rabs_pos_eq (v ex * v ex)) in A by lra.
    apply Rabs_le_inv in A. assert (u * (v ex * v ex) <= u * (11 / 10 * E)) by (apply Rmult_le_compat_l; lra). assert (0 <= u * E) by nra. apply Rabs_le. lra. }
  pose proof (bpow_ge_0 radix2 (emin - 1)) as H0.
  pose proof (cayley_near E (v w) (201 / 100 * t + 11 / 10 * u) h ltac:(lra) ltac:(lra) ltac:(lra) ltac:(lra) Ew) as CN.
  destruct (fsub_ok w (of_Z 1) Fm F1) as [Es Fs]; [rewrite V1; apply Rabs_le; lra|].
  destruct (fadd_ok w (of_Z 1) Fm F1) as [Ea Fa]; [rewrite V1; apply Rabs_le; lra|].
  rewrite V1 in Es, Ea.
  pose proof (rnd_plus (prec := prec) (emax := emax) (v w) (Ropp 1) (v_F w) ltac:(rewrite <- V1; apply generic_format_opp, v_F)) as R1.
  pose proof (rnd_plus (prec := prec) (emax := emax) (v w) 1 (v_F w) ltac:(rewrite <- V1; apply v_F)) as R2.
  change (v w + Ropp 1) with (v w - 1) in R1. rewrite <- Es in R1. rewrite <- Ea in R2. rewrite (Rabs_pos_eq (v w + 1)) in R2 by lra.
  destruct (ratio_near (v w - 1) (v w + 1) (v (fsub w (of_Z 1))) (v (fadd w (of_Z 1))) u ltac:(lra) ltac:(lra) R1 R2) as [Pm RN].
  assert (AB : Rabs ((v w - 1) / (v w + 1)) <= 1).
  { unfold Rdiv. rewrite Rabs_mult, (Rabs_pos_eq (/ (v w + 1))) by (left; apply Rinv_0_lt_compat; lra).
    apply Rmult_le_reg_r with (v w + 1); [lra|]. rewrite Rmult_assoc, Rinv_l, Rmult_1_r, Rmult_1_l by lra. apply Rabs_le. lra. }
  assert (RN' : Rabs (v (fsub w (of_Z 1)) / v (fadd w (of_Z 1)) - (v w - 1) / (v w + 1)) <= 21 / 10 * u).
  { eapply Rle_trans; [exact RN|]. apply Rle_trans with (21 / 10 * u * 1); [apply Rmult_le_compat_l; lra|lra]. }
  clear RN. set (q := v (fsub w (of_Z 1)) / v (fadd w (of_Z 1))) in *.
  assert (AQ : Rabs q <= 2) by (apply Rabs_le_inv in AB, RN'; apply Rabs_le; lra).
  destruct (fdiv_ok (fsub w (of_Z 1)) (fadd w (of_Z 1)) Fs) as [Ed Fd]; [lra|fold q; lra|].
  fold q in Ed. exists (fdiv (fsub w (of_Z 1)) (fadd w (of_Z 1))). split; [|split; [exact Fd|]].
  - exists N. intros fuel Hf. unfold ftanh. rewrite (finite_nan x Fx), I1, I2, feq_spec, V0, Req_bool_false, (R fuel Hf) by assumption. reflexivity.
  - rewrite Ed. pose proof (ap_rnd0 (prec := prec) (emax := emax) q) as A. unfold ap in A.
    assert (u * Rabs q <= u * 2) by (apply Rmult_le_compat_l; lra). apply Rabs_le_inv in A, RN', CN.
    assert (t = (8 * IZR prec + 4 * Rabs (v x) + 73) * u) by reflexivity. unfold tanh_accuracy, unit_error. pose proof (Rabs_pos (v x)).
    assert (0 <= IZR prec * u) by nra. assert (0 <= Rabs (v x) * u) by nra. apply Rabs_le. lra.
Qed.

Variable ln2 : fl.
Hypothesis (F2 : is_finite ln2 = true) (C2 : good_constant prec (v ln2) (ln 2)).

(** The logarithm of an approximation r (1 + w) of a positive number r. *)
Lemma log_close (q : fl) r w : is_finite q = true -> 0 < r -> 0 <= w <= 10 * u -> Rabs (v q - r) <= w * r ->
  exists y, eventually (fun fuel => flog fuel e ln2 q) (FVal y) /\ is_finite y = true /\
    Rabs (v y - ln r) <= (16 * IZR prec + 209 + 31 / 10 * Rabs (ln r) + ln r * ln r / 2) * u + 11 / 10 * w.
Proof.
  intros Fq R W H. pose proof (u_tiny Sup) as U. destruct (ln_close (v q) r w R ltac:(lra) H) as [P L].
  destruct (log_spec Sup ln2 F2 C2 e Fe Ce q Fq P) as (y & Ry & Fy & Ey). exists y. split; [exact Ry|]. split; [exact Fy|].
  unfold log_accuracy, unit_error in Ey. set (a := ln (v q)) in *. set (b := ln r) in *.
  assert (L' : Rabs (a - b) <= / 1000) by lra. apply Rabs_le_inv in L'.
  assert (AB : Rabs a <= Rabs b + / 1000) by (replace a with (b + (a - b)) by lra; eapply Rle_trans; [apply Rabs_triang|]; apply Rplus_le_compat_l; lra).
  assert (SQ : a * a <= b * b + Rabs b * (3 / 1000) + / 1000).
  { rewrite <- (Rabs_pos_eq (a * a)), <- (Rabs_pos_eq (b * b)), !Rabs_mult by nra. pose proof (Rabs_pos a). pose proof (Rabs_pos b).
    apply Rle_trans with ((Rabs b + / 1000) * (Rabs b + / 1000)); [apply Rmult_le_compat; lra|nra]. }
  assert (X : (16 * IZR prec + 208 + 3 * Rabs a + a * a / 2) * u <= (16 * IZR prec + 209 + 31 / 10 * Rabs b + b * b / 2) * u).
  { apply Rmult_le_compat_r; [lra|]. pose proof (Rabs_pos b). lra. }
  apply Rabs_le_inv in L, Ey. apply Rabs_le. lra.
Qed.

Theorem atanh_spec (x : fl) : is_finite x = true -> Rabs (v x) < 1 ->
  exists y, eventually (fun fuel => fatanh fuel e ln2 x) (FVal y) /\ is_finite y = true /\ Rabs (v y - artanh (v x)) <= atanh_accuracy prec (v x).
Proof.
  intros Fx B. pose proof (u_tiny Sup) as U. assert (P24 : 24 <= IZR prec) by (apply IZR_le; lia).
  destruct (one_v Sup) as [V1 F1]. destruct (half_v Sup) as [Vh Fh]. pose proof (h_le Sup) as HL.
  assert (VM : v (of_Z (-1)) = -1 /\ is_finite (of_Z (-1) : fl) = true) by (apply small_Z; lia). destruct VM as [VM FM].
  assert (F0 : is_finite (fzero : fl) = true) by reflexivity. assert (V0 : v fzero = 0) by reflexivity.
  assert (G : Rabs (v x) <= 1 - u).
  { apply Rle_trans with (pred radix2 (FLT_exp emin prec) 1).
    - apply pred_ge_gt; [apply FLT_exp_valid; exact Hp|apply generic_format_abs, v_F|rewrite <- V1; apply v_F|exact B].
    - change 1 with (bpow 0) at 1. rewrite pred_bpow. unfold FLT_exp. rewrite Z.max_l by lia. apply Req_le. simpl (bpow 0). f_equal. }
  apply Rabs_lt_inv in B. apply Rabs_le_inv in G.
  assert (E1 : flt x (of_Z (-1)) = false) by (rewrite flt_spec, VM by assumption; apply Rlt_bool_false; lra).
  assert (E2 : flt (of_Z 1) x = false) by (rewrite flt_spec, V1 by assumption; apply Rlt_bool_false; lra).
  assert (E3 : feq x (of_Z 1) = false) by (rewrite feq_spec, V1 by assumption; apply Req_bool_false; lra).
  assert (E4 : feq x (of_Z (-1)) = false) by (rewrite feq_spec, VM by assumption; apply Req_bool_false; lra).
  unfold atanh_accuracy, unit_error.
  destruct (Req_dec (v x) 0) as [Z|NZ].
  { exists x. split; [|split; [exact Fx|]].
    - exists 0%nat. intros fuel _. unfold fatanh. rewrite (finite_nan x Fx), E1, E2, E3, E4, feq_spec, V0, Req_bool_true by assumption. reflexivity.
    - assert (Z0 : artanh (v x) = 0) by (unfold artanh; rewrite Z; replace ((1 + 0) / (1 - 0)) with 1 by field; rewrite ln_1; lra).
      rewrite Z0, Z, Rminus_0_r, Rabs_R0. apply Rmult_le_pos; lra. }
  assert (Big : bpow 2 <= bpow (emax - 1)) by (apply bpow_le; lia). change (bpow 2) with 4 in Big.
  destruct (fadd_ok (of_Z 1) x F1 Fx) as [Ea Fa]; [rewrite V1; apply Rabs_le; lra|].
  destruct (fsub_ok (of_Z 1) x F1 Fx) as [Es Fs]; [rewrite V1; apply Rabs_le; lra|].
  rewrite V1 in Es, Ea.
  pose proof (rnd_plus (prec := prec) (emax := emax) 1 (v x) ltac:(rewrite <- V1; apply v_F) (v_F x)) as R1.
  pose proof (rnd_plus (prec := prec) (emax := emax) 1 (- v x) ltac:(rewrite <- V1; apply v_F) ltac:(apply generic_format_opp, v_F)) as R2.
  change (1 + - v x) with (1 - v x) in R2. rewrite <- Ea in R1. rewrite <- Es in R2. rewrite (Rabs_pos_eq (1 - v x)) in R2 by lra.
  destruct (ratio_near (1 + v x) (1 - v x) (v (fadd (of_Z 1) x)) (v (fsub (of_Z 1) x)) u ltac:(lra) ltac:(lra) R1 R2) as [Pm RN].
  set (r := (1 + v x) / (1 - v x)) in *. set (q := v (fadd (of_Z 1) x) / v (fsub (of_Z 1) x)) in *.
  assert (IX : 0 < / (1 - v x)) by (apply Rinv_0_lt_compat; lra).
  assert (PR : u / 2 <= r).
  { apply Rmult_le_reg_r with (1 - v x); [lra|]. unfold r, Rdiv. rewrite (Rmult_assoc (1 + v x)), Rinv_l by lra. nra. }
  rewrite (Rabs_pos_eq r) in RN by lra.
  assert (RB : r <= bpow (prec + 1)).
  { assert (uu : u * bpow (prec + 1) = 2) by (rewrite <- bpow_plus; replace (- prec + (prec + 1))%Z with 1%Z by lia; reflexivity).
    apply Rmult_le_reg_r with (1 - v x); [lra|]. unfold r, Rdiv. rewrite (Rmult_assoc (1 + v x)), Rinv_l by lra.
    apply Rle_trans with (bpow (prec + 1) * u); [lra|]. apply Rmult_le_compat_l; [apply bpow_ge_0|lra]. }
  assert (ur : u * r <= / 1000000 * r) by (apply Rmult_le_compat_r; lra).
  apply Rabs_le_inv in RN. assert (BQ : 0 <= q <= bpow (prec + 2)).
  { replace (prec + 2)%Z with (prec + 1 + 1)%Z by lia. rewrite (bpow_plus _ (prec + 1)). change (bpow 1) with 2. lra. }
  destruct (fdiv_ok (fadd (of_Z 1) x) (fsub (of_Z 1) x) Fa) as [Ed Fd]; [lra|fold q; rewrite Rabs_pos_eq by lra; apply Rle_trans with (bpow (prec + 2)); [lra|apply bpow_le; lia]|].
  fold q in Ed. set (d := fdiv (fadd (of_Z 1) x) (fsub (of_Z 1) x)) in *.
  assert (hr : h <= u * r / 10).
  { apply Rle_trans with (u * (u / 2) / 10); [|assert (u * (u / 2) <= u * r) by (apply Rmult_le_compat_l; lra); lra].
    apply Rle_trans with (bpow (- prec + - prec + -10)); [apply bpow_le; lia|]. rewrite !bpow_plus. simpl (bpow (-10)). nra. }
  destruct (log_close d r (4 * u) Fd ltac:(lra) ltac:(lra)) as (y & [N Ry] & Fy & Ey).
  { rewrite Ed. pose proof (ap_rnd0 (prec := prec) (emax := emax) q) as A. unfold ap in A. rewrite (Rabs_pos_eq q) in A by lra. apply Rabs_le_inv in A.
    assert (u * q <= u * (11 / 10 * r)) by (apply Rmult_le_compat_l; lra). apply Rabs_le. lra. }
  assert (AR : ln r = 2 * artanh (v x)) by (unfold artanh; fold r; lra). rewrite AR in Ey. set (A := artanh (v x)) in *.
  rewrite Rabs_mult, (Rabs_pos_eq 2) in Ey by lra.
  assert (By : Rabs (v y * / 2) <= bpow (emax - 1)).
  { rewrite Rabs_mult, (Rabs_pos_eq (/ 2)) by lra. pose proof (abs_B2R_lt_emax _ _ y) as L. assert (D : bpow (emax - 1 + 1) = 2 * bpow (emax - 1)) by (rewrite bpow_plus; change (bpow 1) with 2; lra).
    replace (emax - 1 + 1)%Z with emax in D by lia. lra. }
  destruct (fmul_ok half y Fh Fy) as [Em Fm]; [rewrite Vh, Rmult_comm; exact By|].
  exists (fmul half y). split; [|split; [exact Fm|]].
  - exists N. intros fuel Hf. unfold fatanh. rewrite (finite_nan x Fx), E1, E2, E3, E4, feq_spec, V0, Req_bool_false by assumption.
    fold d. cbn [orb]. rewrite (Ry fuel Hf). reflexivity.
  - rewrite Em, Vh, (Rmult_comm (/ 2)). pose proof (rnd_half (emax := emax) (v y) (v_F y)) as Hf. apply Rabs_le_inv in Hf, Ey. pose proof (Rabs_pos A).
    assert (0 <= Rabs A * u) by nra. assert (0 <= IZR prec * u) by nra. apply Rabs_le. lra.
Qed.
End Fmt.
