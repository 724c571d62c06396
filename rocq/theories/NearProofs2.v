(** Comparison of complex numbers up to a tolerance. *)
From Coq Require Import ZArith Reals Lra Lia Bool.
From Flocq Require Import Core Relative Plus_error IEEE754.BinarySingleNaN.
From Verif Require Import FloatModel FloatProofs1 FloatProofs2 NearModel NearSpec NearProofs.
Local Open Scope R_scope.

Section Fmt.
Context {prec emax : Z} {Hp : Prec_gt_0 prec} {Hx : Prec_lt_emax prec emax}.
Notation fl := (binary_float prec emax).
Notation emin := (3 - emax - prec)%Z.
Notation F := (generic_format radix2 (FLT_exp emin prec)).
Notation rnd := (round radix2 (FLT_exp emin prec) ZnearestE).
Notation bpow := (bpow radix2).
Notation v := (@B2R prec emax).
Notation u := (bpow (- prec)).
Notation h := (bpow (emin - 1)).
Hypothesis P8 : (8 <= prec)%Z.

Lemma u_small : 0 < u <= / 256.
Proof. split; [apply bpow_gt_0|]. apply Rle_trans with (bpow (-8)); [apply bpow_le; lia|simpl; lra]. Qed.
Lemma u_ro_u : u_ro radix2 prec = u.
Proof. unfold u_ro. rewrite bpow_plus. change (bpow 1) with 2. lra. Qed.
Lemma add_rel (a b : R) : F a -> F b -> exists d, Rabs d <= u /\ rnd (a + b) = (a + b) * (1 + d).
Proof.
  intros A B. destruct (FLT_plus_error_N_ex radix2 emin prec (fun x => negb (Z.even x)) a b A B) as (d & D & E).
  exists d. split; [|exact E]. eapply Rle_trans; [exact D|]. eapply Rle_trans; [apply u_rod1pu_ro_le_u_ro|]. rewrite u_ro_u. lra.
Qed.
Lemma rnd_abs_rel (z : R) : 0 <= z -> (1 - u) * z - h <= rnd z <= (1 + u) * z + h.
Proof.
  intros Z0. destruct (Rle_lt_dec (bpow (emin + prec - 1)) z) as [G|G].
  - pose proof (relative_error_N_FLT radix2 emin prec Hp (fun x => negb (Z.even x)) z) as H. rewrite (Rabs_pos_eq z) in H by exact Z0. specialize (H G).
    replace (/ 2 * bpow (- prec + 1)) with u in H by (rewrite bpow_plus; change (bpow 1) with 2; lra).
    apply Rabs_le_inv in H. pose proof (bpow_gt_0 radix2 (emin - 1)). lra.
  - assert (E : Rabs (rnd z - z) <= bpow emin / 2).
    { apply rnd_err; [exact Hp| |lia]. rewrite Rabs_pos_eq by exact Z0. apply Rlt_le_trans with (1 := G). apply bpow_le. lia. }
    replace (bpow emin / 2) with h in E by (replace (emin - 1)%Z with (emin + -1)%Z by lia; rewrite bpow_plus; simpl (bpow (-1)); lra).
    apply Rabs_le_inv in E. pose proof u_small. assert (0 <= u * z) by (apply Rmult_le_pos; lra). lra.
Qed.
Lemma h_small : h <= / 4.
Proof. apply Rle_trans with (bpow (-2)); [apply bpow_le; pose proof (emax_2 (prec:=prec)(emax:=emax)); lia|simpl; lra]. Qed.
Lemma bp k : bpow (k + 1) = 2 * bpow k.
Proof. rewrite bpow_plus. change (bpow 1) with 2. lra. Qed.

(** The rounded sum of two squares. *)
Lemma square_sum (a b : fl) : (8 < emax)%Z -> is_finite a = true -> is_finite b = true -> v a * v a + v b * v b <= bpow (emax - 2) ->
  let s := fadd (fmul a a) (fmul b b) in let N := v a * v a + v b * v b in
  is_finite s = true /\ (1 - u) * ((1 - u) * N - 2 * h) <= v s <= (1 + u) * ((1 + u) * N + 2 * h).
Proof.
  intros E8 A B L. cbv zeta. pose proof u_small as U. pose proof h_small as Hs. assert (H0 : 0 < h) by apply bpow_gt_0.
  assert (Qa : 0 <= v a * v a) by nra. assert (Qb : 0 <= v b * v b) by nra.
  assert (D : bpow (emax - 1) = 2 * bpow (emax - 2)) by (rewrite <- bp; f_equal; lia).
  assert (B1 : 64 <= bpow (emax - 2)) by (apply Rle_trans with (bpow 6); [simpl; lra|apply bpow_le; lia]).
  destruct (fmul_ok a a A A) as [Va Fa]; [rewrite Rabs_pos_eq by exact Qa; lra|].
  destruct (fmul_ok b b B B) as [Vb Fb]; [rewrite Rabs_pos_eq by exact Qb; lra|].
  pose proof (rnd_abs_rel _ Qa) as Ra. pose proof (rnd_abs_rel _ Qb) as Rb. rewrite <- Va in Ra. rewrite <- Vb in Rb.
  assert (Pa : 0 <= v (fmul a a)) by (rewrite Va; apply rnd_ge; [exact Hp|apply generic_format_0|exact Qa]).
  assert (Pb : 0 <= v (fmul b b)) by (rewrite Vb; apply rnd_ge; [exact Hp|apply generic_format_0|exact Qb]).
  set (N := v a * v a + v b * v b) in *.
  assert (S1 : v (fmul a a) + v (fmul b b) <= (1 + u) * N + 2 * h) by (unfold N; lra).
  assert (S2 : (1 - u) * N - 2 * h <= v (fmul a a) + v (fmul b b)) by (unfold N; lra).
  assert (N0 : 0 <= N) by (unfold N; lra).
  assert (UN : u * N <= / 256 * bpow (emax - 2)) by (apply Rmult_le_compat; lra).
  destruct (fadd_ok (fmul a a) (fmul b b) Fa Fb) as [Vs Fs].
  { rewrite Rabs_pos_eq by lra. rewrite D. lra. }
  split; [exact Fs|]. rewrite Vs. destruct (add_rel (v (fmul a a)) (v (fmul b b)) (v_F _) (v_F _)) as (d & Dd & Ed). rewrite Ed.
  apply Rabs_le_inv in Dd. set (t := v (fmul a a) + v (fmul b b)) in *. assert (T0 : 0 <= t) by (unfold t; lra). split.
  - apply Rle_trans with ((1 - u) * t); [apply Rmult_le_compat_l; lra|]. rewrite (Rmult_comm t). apply Rmult_le_compat_r; lra.
  - apply Rle_trans with ((1 + u) * t); [|apply Rmult_le_compat_l; lra]. rewrite (Rmult_comm t). apply Rmult_le_compat_r; lra.
Qed.
(** The rounded difference. *)
Lemma diff_rel (x y : fl) : (8 < emax)%Z -> is_finite x = true -> is_finite y = true -> (v x - v y) * (v x - v y) <= bpow (emax - 3) ->
  is_finite (fsub x y) = true /\ exists d, Rabs d <= u /\ v (fsub x y) = (v x - v y) * (1 + d).
Proof.
  intros E8 A B L. assert (B1 : 32 <= bpow (emax - 3)) by (apply Rle_trans with (bpow 5); [simpl; lra|apply bpow_le; lia]).
  assert (D : bpow (emax - 3) <= bpow (emax - 1)) by (apply bpow_le; lia).
  destruct (fsub_ok x y A B) as [V Fi].
  { assert (Q : Rabs (v x - v y) * Rabs (v x - v y) <= bpow (emax - 3)) by (rewrite <- Rabs_mult, Rabs_pos_eq; [exact L|exact (Rle_0_sqr (v x - v y))]).
    pose proof (Rabs_pos (v x - v y)). destruct (Rle_lt_dec (Rabs (v x - v y)) 1); [lra|]. nra. }
  split; [exact Fi|]. destruct (add_rel (v x) (- v y) (v_F x)) as (d & Dd & Ed); [apply generic_format_opp, v_F|].
  exists d. split; [exact Dd|]. rewrite V. exact Ed.
Qed.
Lemma square_rel (z d w : R) : Rabs d <= u -> w = z * (1 + d) -> (1 - u) * (1 - u) * (z * z) <= w * w <= (1 + u) * (1 + u) * (z * z).
Proof.
  intros D ->. apply Rabs_le_inv in D. pose proof u_small. replace (z * (1 + d) * (z * (1 + d))) with ((1 + d) * (1 + d) * (z * z)) by lra.
  split; (apply Rmult_le_compat_r; [nra|]); apply Rmult_le_compat; lra.
Qed.
Theorem near_complex (x y err : fl * fl) : (8 < emax)%Z ->
  is_finite (fst x) = true -> is_finite (snd x) = true -> is_finite (fst y) = true -> is_finite (snd y) = true ->
  is_finite (fst err) = true -> is_finite (snd err) = true ->
  let N := (v (fst x) - v (fst y)) * (v (fst x) - v (fst y)) + (v (snd x) - v (snd y)) * (v (snd x) - v (snd y)) in
  let E := v (fst err) * v (fst err) + v (snd err) * v (snd err) in
  N <= bpow (emax - 3) -> bpow (5 - emax) <= E <= bpow (emax - 3) ->
  (near_err_c x y err = true -> N <= (1 + 10 * u) * E) /\ (N <= (1 - 10 * u) * E -> near_err_c x y err = true).
Proof.
  intros E8 X1 X2 Y1 Y2 F1 F2. cbv zeta. pose proof u_small as U.
  set (a := v (fst x) - v (fst y)). set (b := v (snd x) - v (snd y)). set (E := v (fst err) * v (fst err) + v (snd err) * v (snd err)).
  intros LN LE. assert (Na : 0 <= a * a) by nra. assert (Nb : 0 <= b * b) by nra.
  destruct (diff_rel (fst y) (fst x) E8 Y1 X1) as (Fa & d1 & D1 & V1).
  { replace ((v (fst y) - v (fst x)) * (v (fst y) - v (fst x))) with (a * a) by (unfold a; lra). lra. }
  destruct (diff_rel (snd y) (snd x) E8 Y2 X2) as (Fb & d2 & D2 & V2).
  { replace ((v (snd y) - v (snd x)) * (v (snd y) - v (snd x))) with (b * b) by (unfold b; lra). lra. }
  pose proof (square_rel _ _ _ D1 V1) as Q1. pose proof (square_rel _ _ _ D2 V2) as Q2.
  replace ((v (fst y) - v (fst x)) * (v (fst y) - v (fst x))) with (a * a) in Q1 by (unfold a; lra).
  replace ((v (snd y) - v (snd x)) * (v (snd y) - v (snd x))) with (b * b) in Q2 by (unfold b; lra).
  set (N := a * a + b * b) in *. assert (N0 : 0 <= N) by (unfold N; lra).
  assert (D3 : bpow (emax - 2) = 2 * bpow (emax - 3)) by (rewrite <- bp; f_equal; lia).
  set (dr := fsub (fst y) (fst x)) in *. set (di := fsub (snd y) (snd x)) in *.
  assert (M : (1 - u) * (1 - u) * N <= v dr * v dr + v di * v di <= (1 + u) * (1 + u) * N) by (unfold N; lra).
  assert (W : (1 + u) * (1 + u) * N <= 2 * N) by (apply Rmult_le_compat_r; nra).
  destruct (square_sum dr di E8 Fa Fb) as [Fs S]; [lra|]. destruct (square_sum (fst err) (snd err) E8 F1 F2) as [Ft T]; [fold E; lra|].
  fold E in T. assert (HE : h <= u * E / 8).
  { apply Rle_trans with (u * bpow (5 - emax) / 8); [|apply Rmult_le_compat_r; [lra|]; apply Rmult_le_compat_l; lra].
    rewrite <- bpow_plus. replace (- prec + (5 - emax))%Z with (emin - 1 + 3)%Z by lia. rewrite bpow_plus. change (bpow 3) with 8. lra. }
  assert (H0 : 0 < h) by apply bpow_gt_0. assert (E0 : 0 < E) by (pose proof (bpow_gt_0 radix2 (5 - emax)); lra).
  unfold near_err_c. fold dr di. rewrite fle_spec by assumption.
  set (K := v dr * v dr + v di * v di) in *.
  assert (UE : 0 <= u * E) by (apply Rmult_le_pos; lra). assert (UUE : 0 <= u * (u * E) <= / 256 * (u * E)) by (split; [apply Rmult_le_pos; lra|apply Rmult_le_compat_r; lra]).
  assert (UN : 0 <= u * N) by (apply Rmult_le_pos; lra). assert (UUN : 0 <= u * (u * N) <= / 256 * (u * N)) by (split; [apply Rmult_le_pos; lra|apply Rmult_le_compat_r; lra]).
  assert (UH : 0 <= u * h <= / 256 * h) by (split; [apply Rmult_le_pos; lra|apply Rmult_le_compat_r; lra]).
  assert (T2 : (1 + u) * ((1 + u) * E + 2 * h) <= E + 2 * (u * E) + u * (u * E) + 2 * h + 2 * (u * h)) by lra.
  assert (T1 : E - 2 * (u * E) - 2 * h <= (1 - u) * ((1 - u) * E - 2 * h)) by lra.
  assert (K1 : N - 2 * (u * N) <= K) by lra. assert (K2 : K <= N + 2 * (u * N) + u * (u * N)) by lra.
  assert (UK1 : u * K <= u * (2 * N)) by (apply Rmult_le_compat_l; lra). assert (K0 : 0 <= K) by (assert (0 <= (1 - u) * (1 - u) * N) by (apply Rmult_le_pos; [nra|lra]); lra).
  assert (UK : 0 <= u * K) by (apply Rmult_le_pos; lra).
  assert (UUK : 0 <= u * (u * K) <= / 256 * (u * K)) by (split; [apply Rmult_le_pos; lra|apply Rmult_le_compat_r; lra]).
  assert (S1 : K - 2 * (u * K) - 2 * h <= (1 - u) * ((1 - u) * K - 2 * h)) by lra.
  assert (S2 : (1 + u) * ((1 + u) * K + 2 * h) <= K + 2 * (u * K) + u * (u * K) + 2 * h + 2 * (u * h)) by lra.
  assert (UK2 : u * K <= u * (N + 2 * (u * N) + u * (u * N))) by (apply Rmult_le_compat_l; lra).
  assert (U3 : 0 <= u * (u * (u * N)) <= / 256 * (u * (u * N))) by (split; [apply Rmult_le_pos; lra|apply Rmult_le_compat_r; lra]).
  split.
  - case Rle_bool_spec; [intros R _|discriminate].
    assert (C : N - 4 * (u * N) - 5 * (u * (u * N)) <= E + 3 * (u * E)) by lra.
    destruct (Rle_lt_dec N ((1 + 10 * u) * E)) as [G|G]; [exact G|exfalso].
    assert (C2 : (1 - 4 * u - 5 * (u * u)) * N <= E + 3 * (u * E)) by lra.
    assert (Z1 : 0 <= 1 - 4 * u - 5 * (u * u)) by nra.
    assert (C3 : (1 - 4 * u - 5 * (u * u)) * ((1 + 10 * u) * E) <= E + 3 * (u * E)) by (apply Rle_trans with (2 := C2); apply Rmult_le_compat_l; lra).
    assert (U3E : 0 <= u * (u * (u * E)) <= / 256 * (u * (u * E))) by (split; [apply Rmult_le_pos; lra|apply Rmult_le_compat_r; lra]).
    assert (PE : 0 < u * E) by (apply Rmult_lt_0_compat; lra). lra.
  - intros G. apply Rle_bool_true. assert (G2 : u * N <= u * ((1 - 10 * u) * E)) by (apply Rmult_le_compat_l; lra). lra.
Qed.
End Fmt.
