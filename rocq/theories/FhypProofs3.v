(** asinh and acosh in floating point. *)
From Coq Require Import ZArith Reals Lra Lia Bool.
From Flocq Require Import Core IEEE754.BinarySingleNaN.
From Verif Require Import FloatModel FloatSpec FloatProofs1 FloatProofs2 FloatProofs4 FserModel FserSpec FserProofs1 FserProofs2 FserProofs3 FserProofs5 FserProofs10 FloatProperties.
From Verif Require Import FlogModel FlogSpec FlogProofs1 FlogProofs2 FlogProofs4 FhypModel FhypSpec FhypProofs1 FhypProofs2.
Local Open Scope R_scope.

(** The root of an approximation. *)
Lemma sqrt_near a c w : 0 < c -> 0 <= w <= / 100 -> Rabs (a - c) <= w * c -> Rabs (sqrt a - sqrt c) <= w * sqrt c.
Proof.
  intros C W H. apply Rabs_le_inv in H. assert (A : 0 <= a) by nra. pose proof (sqrt_lt_R0 c C) as S. pose proof (sqrt_sqrt c ltac:(lra)) as SS.
  assert (U : sqrt a <= (1 + w) * sqrt c).
  { rewrite <- (sqrt_square ((1 + w) * sqrt c)) by nra. apply sqrt_le_1_alt. replace ((1 + w) * sqrt c * ((1 + w) * sqrt c)) with ((1 + w) * (1 + w) * (sqrt c * sqrt c)) by lra.
    rewrite SS. apply Rle_trans with ((1 + w) * c); [lra|]. apply Rmult_le_compat_r; nra. }
  assert (L : (1 - w) * sqrt c <= sqrt a).
  { rewrite <- (sqrt_square ((1 - w) * sqrt c)) by nra. apply sqrt_le_1_alt. replace ((1 - w) * sqrt c * ((1 - w) * sqrt c)) with ((1 - w) * (1 - w) * (sqrt c * sqrt c)) by lra.
    rewrite SS. apply Rle_trans with ((1 - w) * c); [|lra]. apply Rmult_le_compat_r; nra. }
  apply Rabs_le. lra.
Qed.

Section Fmt.
Context {prec emax : Z} {Hp : Prec_gt_0 prec} {Hx : Prec_lt_emax prec emax}.
Notation fl := (binary_float prec emax).
Notation emin := (3 - emax - prec)%Z.
Notation F := (generic_format radix2 (FLT_exp emin prec)).
Notation rnd := (round radix2 (FLT_exp emin prec) ZnearestE).
Notation bpow := (bpow radix2).
Notation v := (@B2R prec emax).
Notation u := (bpow (- prec)).
Notation h := (bpow (emin - 1)).
Hypothesis Sup : supported_log prec emax.
Let S1 : (24 <= prec)%Z. Proof. apply Sup. Qed.
Let S2 : (65 <= emax)%Z. Proof. apply Sup. Qed.
Let S3 : (prec + 40 <= emax)%Z. Proof. apply Sup. Qed.
Let S4 : (emax + prec <= 20000)%Z. Proof. apply Sup. Qed.
Variable e : fl.
Hypothesis (Fe : is_finite e = true) (Ce : best_constant prec (v e) (exp 1)).
Variable ln2 : fl.
Hypothesis (F2 : is_finite ln2 = true) (C2 : good_constant prec (v ln2) (ln 2)).

(** The root of a number from 1 that approximates c. *)
Lemma root_run (a : fl) c : is_finite a = true -> 1 <= v a -> 1 <= c -> Rabs (v a - c) <= 5 / 2 * u * c ->
  exists r, eventually (fun fuel => fsqrt fuel a) (FVal r) /\ is_finite r = true /\ 0 < v r /\ Rabs (v r - sqrt c) <= 26 / 5 * u * sqrt c.
Proof.
  intros Fa A C H. pose proof (u_tiny Sup) as U.
  destruct (sqrt_returns a ltac:(lia) ltac:(lia) ltac:(lia)) as (r & N & R). exists r.
  destruct (sqrt_accuracy a r N ltac:(lia) ltac:(lia) ltac:(lia) Fa) as (Fr & Pr & Er).
  { unfold tiny. apply Rle_trans with 1; [|exact A]. apply Rle_trans with (bpow (1 + emin)); [rewrite bpow_plus; change (bpow 1) with 2; lra|].
    change 1 with (bpow 0). apply bpow_le. lia. }
  { apply R. lia. }
  split; [exists N; exact R|]. split; [exact Fr|]. split; [exact Pr|].
  pose proof (sqrt_near (v a) c (5 / 2 * u) ltac:(lra) ltac:(lra) H) as SN.
  assert (SA : 1 <= sqrt (v a)) by (rewrite <- sqrt_1; apply sqrt_le_1_alt; exact A).
  assert (SC : 1 <= sqrt c) by (rewrite <- sqrt_1; apply sqrt_le_1_alt; exact C).
  assert (G : FloatSpec.gap prec emax (v r) <= 2 * u * v r).
  { unfold FloatSpec.gap. destruct (Rle_lt_dec (bpow (emin + prec - 1)) (Rabs (v r))) as [X|X].
    - eapply Rle_trans; [apply ulp_FLT_le; exact X|]. rewrite (Rabs_pos_eq (v r)) by lra. replace (1 - prec)%Z with (1 + - prec)%Z by lia. rewrite bpow_plus. change (bpow 1) with 2. lra.
    - exfalso. unfold FloatSpec.gap in Er. rewrite ulp_FLT_small in Er.
      + rewrite (Rabs_pos_eq (v r)) in X by lra. apply Rabs_le_inv in Er.
        assert (bpow emin <= / 4) by (change (/ 4) with (bpow (-2)); apply bpow_le; lia).
        assert (bpow (emin + prec - 1) <= / 4) by (change (/ 4) with (bpow (-2)); apply bpow_le; lia). lra.
      + exact Hp.
      + eapply Rlt_trans; [exact X|]. apply bpow_lt. lia. }
  apply Rabs_le_inv in Er, SN. assert (us : u * sqrt c <= / 1000000 * sqrt c) by (apply Rmult_le_compat_r; lra).
  assert (ur : u * v r <= / 1000000 * v r) by (apply Rmult_le_compat_r; lra). assert (v r <= 1001 / 1000 * sqrt c) by lra.
  assert (u * v r <= u * (1001 / 1000 * sqrt c)) by (apply Rmult_le_compat_l; lra). apply Rabs_le. lra.
Qed.

(** The logarithm of x plus the root. *)
Lemma sum_log (x a : fl) c : is_finite x = true -> 0 <= v x <= bpow (emax - 3) -> is_finite a = true -> 1 <= v a -> 1 <= c <= bpow (emax - 2) -> Rabs (v a - c) <= 5 / 2 * u * c ->
  exists y, eventually (fun fuel => fbind (fsqrt fuel a) (fun s => flog fuel e ln2 (fadd x s))) (FVal y) /\ is_finite y = true /\
    Rabs (v y - ln (v x + sqrt c)) <= inverse_accuracy prec (ln (v x + sqrt c)).
Proof.
  intros Fx Bx Fa A C H. pose proof (u_tiny Sup) as U. destruct (root_run a c Fa A ltac:(lra) H) as (r & [N R] & Fr & Pr & Er).
  assert (SC : 1 <= sqrt c) by (rewrite <- sqrt_1; apply sqrt_le_1_alt; lra). pose proof (sqrt_sqrt c ltac:(lra)) as SS.
  assert (SL : sqrt c <= bpow (emax - 2)) by nra. assert (us : u * sqrt c <= / 1000000 * sqrt c) by (apply Rmult_le_compat_r; lra).
  assert (D : forall k, bpow (k + 1) = 2 * bpow k) by (intros k; rewrite bpow_plus; change (bpow 1) with 2; lra).
  assert (D2 : bpow (emax - 2) = 2 * bpow (emax - 3)) by (replace (emax - 2)%Z with (emax - 3 + 1)%Z by lia; apply D).
  assert (D1 : bpow (emax - 1) = 2 * bpow (emax - 2)) by (replace (emax - 1)%Z with (emax - 2 + 1)%Z by lia; apply D).
  apply Rabs_le_inv in Er.
  destruct (fadd_ok x r Fx Fr) as [Es Fs]; [rewrite Rabs_pos_eq by lra; lra|].
  pose proof (rnd_plus (prec := prec) (emax := emax) (v x) (v r) (v_F x) (v_F r)) as Rp. rewrite <- Es, (Rabs_pos_eq (v x + v r)) in Rp by lra. apply Rabs_le_inv in Rp.
  destruct (log_close Sup e Fe Ce ln2 F2 C2 (fadd x r) (v x + sqrt c) (7 * u) Fs ltac:(lra) ltac:(lra)) as (y & [M Ry] & Fy & Ey).
  { assert (u * (v x + v r) <= u * (11 / 10 * (v x + sqrt c))) by (apply Rmult_le_compat_l; lra). assert (0 <= u * v x) by nra. assert (0 <= u * sqrt c) by nra. apply Rabs_le. lra. }
  exists y. split; [|split; [exact Fy|]].
  - exists (Nat.max N M). intros fuel Hf. rewrite (R fuel) by lia. cbn [fbind]. apply Ry. lia.
  - eapply Rle_trans; [exact Ey|]. unfold inverse_accuracy, unit_error. set (l := ln (v x + sqrt c)). pose proof (Rabs_pos l).
    assert (0 <= Rabs l * u) by nra. lra.
Qed.

Lemma finite_eq_inf (x : fl) b : is_finite x = true -> feq x (B754_infinity b) = false.
Proof. intros Fx. destruct x as [?| | |[|] ? ? ?]; try discriminate; destruct b; reflexivity. Qed.
(** The square. *)
Lemma square_run (x : fl) : is_finite x = true -> v x * v x <= bpow (emax - 3) ->
  is_finite (fmul x x) = true /\ 0 <= v (fmul x x) <= bpow (emax - 3) /\ Rabs (v (fmul x x) - v x * v x) <= u * (v x * v x) + u / 1000.
Proof.
  intros Fx B. assert (P : 0 <= v x * v x) by nra. destruct (fmul_ok x x Fx Fx) as [E Fm]; [rewrite Rabs_pos_eq by lra; apply Rle_trans with (bpow (emax - 3)); [lra|apply bpow_le; lia]|].
  split; [exact Fm|]. rewrite E. split; [split; [apply rnd_ge; [exact Hp|apply F_0|lra]|apply rnd_le; [exact Hp|apply F_bpow; [exact Hp|lia]|lra]]|].
  pose proof (ap_rnd0 (prec := prec) (emax := emax) (v x * v x)) as A. unfold ap in A. rewrite (Rabs_pos_eq (v x * v x)) in A by lra. pose proof (h_le Sup). lra.
Qed.

Theorem asinh_spec (x : fl) : is_finite x = true -> 0 <= v x -> v x * v x <= bpow (emax - 3) ->
  exists y, eventually (fun fuel => fasinh fuel e ln2 x) (FVal y) /\ is_finite y = true /\ Rabs (v y - arsinh (v x)) <= inverse_accuracy prec (arsinh (v x)).
Proof.
  intros Fx P B. pose proof (u_tiny Sup) as U. assert (P24 : 24 <= IZR prec) by (apply IZR_le; lia). destruct (one_v Sup) as [V1 F1].
  assert (F0 : is_finite (fzero : fl) = true) by reflexivity. assert (V0 : v fzero = 0) by reflexivity.
  destruct (Req_dec (v x) 0) as [Z|NZ].
  { exists x. split; [|split; [exact Fx|]].
    - exists 0%nat. intros fuel _. unfold fasinh. rewrite (finite_nan x Fx), feq_spec, V0, Req_bool_true by assumption. reflexivity.
    - assert (Z0 : arsinh (v x) = 0) by (unfold arsinh; rewrite Z, Rmult_0_l, !Rplus_0_l, sqrt_1; apply ln_1).
      rewrite Z0, Z, Rminus_0_r. unfold inverse_accuracy, unit_error. rewrite Rabs_R0. apply Rmult_le_pos; lra. }
  destruct (square_run x Fx B) as (Fm & Bm & Em). set (w := fmul x x) in *.
  assert (D : bpow (emax - 3 + 1) = 2 * bpow (emax - 3)) by (rewrite bpow_plus; change (bpow 1) with 2; lra). replace (emax - 3 + 1)%Z with (emax - 2)%Z in D by lia.
  assert (One : 1 <= bpow (emax - 3)) by (change 1 with (bpow 0); apply bpow_le; lia). assert (Le : bpow (emax - 2) <= bpow (emax - 1)) by (apply bpow_le; lia).
  destruct (fadd_ok w (of_Z 1) Fm F1) as [Ea Fa]; [rewrite V1, Rabs_pos_eq by lra; lra|]. rewrite V1 in Ea.
  pose proof (rnd_plus (prec := prec) (emax := emax) (v w) 1 (v_F w) ltac:(rewrite <- V1; apply v_F)) as Rp. rewrite <- Ea, (Rabs_pos_eq (v w + 1)) in Rp by lra.
  apply Rabs_le_inv in Em, Rp. assert (Q : 0 <= v x * v x) by nra. set (s := v x * v x) in *. assert (us : 0 <= u * s <= / 1000000 * s) by (split; [nra|apply Rmult_le_compat_r; lra]).
  assert (u * (v w + 1) <= u * (1001 / 1000 * (s + 1))) by (apply Rmult_le_compat_l; lra).
  destruct (sum_log x (fadd w (of_Z 1)) (s + 1) Fx) as (y & [N R] & Fy & Ey); try assumption.
  - split; [exact P|]. destruct (Rle_lt_dec (v x) 1) as [L|L]; [lra|unfold s in B; nra].
  - rewrite Ea. apply rnd_ge; [exact Hp|rewrite <- V1; apply v_F|lra].
  - lra.
  - apply Rabs_le. lra.
  - exists y. split; [|split; [exact Fy|exact Ey]]. exists N. intros fuel Hf. unfold fasinh.
    rewrite (finite_nan x Fx), !(finite_eq_inf x) by assumption. rewrite feq_spec, V0, Req_bool_false by assumption. fold w. apply R. exact Hf.
Qed.

Theorem acosh_spec (x : fl) : is_finite x = true -> 2 <= v x -> v x * v x <= bpow (emax - 3) ->
  exists y, eventually (fun fuel => facosh fuel e ln2 x) (FVal y) /\ is_finite y = true /\ Rabs (v y - arcosh (v x)) <= inverse_accuracy prec (arcosh (v x)).
Proof.
  intros Fx P B. pose proof (u_tiny Sup) as U. destruct (one_v Sup) as [V1 F1].
  destruct (square_run x Fx B) as (Fm & Bm & Em). set (w := fmul x x) in *.
  assert (D : bpow (emax - 3 + 1) = 2 * bpow (emax - 3)) by (rewrite bpow_plus; change (bpow 1) with 2; lra). replace (emax - 3 + 1)%Z with (emax - 2)%Z in D by lia.
  assert (One : 1 <= bpow (emax - 3)) by (change 1 with (bpow 0); apply bpow_le; lia). assert (Le : bpow (emax - 2) <= bpow (emax - 1)) by (apply bpow_le; lia).
  destruct (fsub_ok w (of_Z 1) Fm F1) as [Ea Fa]; [rewrite V1; apply Rabs_le; lra|]. rewrite V1 in Ea.
  pose proof (rnd_plus (prec := prec) (emax := emax) (v w) (Ropp 1) (v_F w) ltac:(rewrite <- V1; apply generic_format_opp, v_F)) as Rp. change (v w + Ropp 1) with (v w - 1) in Rp.
  apply Rabs_le_inv in Em. assert (Q : 4 <= v x * v x) by nra. set (s := v x * v x) in *. assert (us : 0 <= u * s <= / 1000000 * s) by (split; [nra|apply Rmult_le_compat_r; lra]).
  rewrite <- Ea, (Rabs_pos_eq (v w - 1)) in Rp by lra. apply Rabs_le_inv in Rp.
  assert (u * (v w - 1) <= u * (1001 / 1000 * (s - 1))) by (apply Rmult_le_compat_l; lra). assert (u * 4 <= u * s) by (apply Rmult_le_compat_l; lra).
  destruct (sum_log x (fsub w (of_Z 1)) (s - 1) Fx) as (y & [N R] & Fy & Ey); try assumption.
  - split; [lra|]. unfold s in B; nra.
  - rewrite Ea. apply rnd_ge; [exact Hp|rewrite <- V1; apply v_F|lra].
  - lra.
  - apply Rabs_le. lra.
  - exists y. split; [|split; [exact Fy|exact Ey]]. exists N. intros fuel Hf. unfold facosh.
    rewrite (finite_nan x Fx), !(finite_eq_inf x) by assumption. rewrite feq_spec, flt_spec, V1, Req_bool_false, Rlt_bool_false by (assumption || lra). fold w. apply R. exact Hf.
Qed.
End Fmt.
