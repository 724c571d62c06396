(** Comparison up to a tolerance. *)
From Coq Require Import ZArith Reals Lra Lia Bool.
From Flocq Require Import Core Relative Plus_error IEEE754.BinarySingleNaN.
From Verif Require Import FloatModel FloatProofs1 FloatProofs2 NearModel.
Local Open Scope R_scope.

Section Fmt.
Context {prec emax : Z} {Hp : Prec_gt_0 prec} {Hx : Prec_lt_emax prec emax}.
Notation fl := (binary_float prec emax).
Notation emin := (3 - emax - prec)%Z.
Notation F := (generic_format radix2 (FLT_exp emin prec)).
Notation rnd := (round radix2 (FLT_exp emin prec) ZnearestE).
Notation bpow := (bpow radix2).
Notation v := (@B2R prec emax).

Lemma opp_fin (x : fl) : is_finite (Bopp x) = is_finite x. Proof. apply is_finite_Bopp. Qed.
Lemma v_lt (x : fl) : Rabs (v x) < bpow emax. Proof. apply abs_B2R_lt_emax. Qed.

(** The difference: finite and rounded, or infinite with the sign of the exact difference. *)
Lemma sub_cases (x y : fl) : is_finite x = true -> is_finite y = true ->
  (Rabs (rnd (v x - v y)) < bpow emax /\ is_finite (fsub x y) = true /\ v (fsub x y) = rnd (v x - v y)) \/
  (bpow emax <= Rabs (rnd (v x - v y)) /\ exists s, fsub x y = B754_infinity s).
Proof.
  intros A B. pose proof (Bminus_correct prec emax _ _ mode_NE x y A B) as H. unfold fsub.
  destruct (Rlt_bool_spec (Rabs (round radix2 (SpecFloat.fexp prec emax) (round_mode mode_NE) (v x - v y))) (bpow emax)) as [L|L].
  - left. destruct H as (V & Fi & _). split; [exact L|]. split; assumption.
  - right. split; [exact L|]. destruct H as (V & _). exists (Bsign x). revert V. generalize (Bminus mode_NE x y). intros z V.
    destruct z as [s|s| |s m ex p]; try discriminate V; cbn in V; [now inversion V].
Qed.
Lemma le_infinity (x : fl) s : is_finite x = true -> fle x (B754_infinity s) = negb s /\ fle (B754_infinity s) x = s.
Proof. destruct x as [a|a| |a m ex p]; try discriminate; intros _; destruct s, a; split; reflexivity. Qed.

(** What the comparison computes. *)
Theorem near_err_computes (x y err : fl) : is_finite x = true -> is_finite y = true -> is_finite err = true ->
  near_err x y err = true <-> Rabs (rnd (v x - v y)) <= v err.
Proof.
  intros A B C. unfold near_err. destruct (sub_cases x y A B) as [(L & Fi & V)|(L & s & E)].
  - rewrite !fle_spec by (assumption || (rewrite opp_fin; assumption)). rewrite B2R_Bopp, V, andb_true_iff.
    split.
    + intros [P Q]. apply Rabs_le. revert P Q. case Rle_bool_spec; [|discriminate]. case Rle_bool_spec; [|discriminate]. intros; lra.
    + intros P. apply Rabs_le_inv in P. rewrite !Rle_bool_true by lra. tauto.
  - rewrite E. destruct (le_infinity (Bopp err) s) as [P _]; [rewrite opp_fin; assumption|]. destruct (le_infinity err s C) as [_ Q].
    rewrite P, Q. pose proof (v_lt err) as W. apply Rabs_lt_inv in W. split.
    + destruct s; discriminate.
    + lra.
Qed.
(** The exact difference exceeds the rounded one by at most half a unit. *)
Lemma sub_relative (a b : R) : F a -> F b -> Rabs (a - b) <= (1 + bpow (- prec)) * Rabs (rnd (a - b)).
Proof.
  intros A B. destruct (FLT_plus_error_N_round_ex radix2 emin prec (fun x => negb (Z.even x)) a (- b)) as (d & D & E);
    [exact A|now apply generic_format_opp|].
  assert (U : u_ro radix2 prec = bpow (- prec)).
  { unfold u_ro. rewrite bpow_plus. change (bpow 1) with 2. lra. }
  rewrite U in D. unfold Rminus at 1. rewrite E at 1. rewrite Rabs_mult, Rmult_comm. apply Rmult_le_compat_r; [apply Rabs_pos|].
  apply Rabs_le. apply Rabs_le_inv in D. pose proof (bpow_gt_0 radix2 (- prec)). lra.
Qed.
Theorem near_err_complete (x y err : fl) : is_finite x = true -> is_finite y = true -> is_finite err = true ->
  Rabs (v x - v y) <= v err -> near_err x y err = true.
Proof.
  intros A B C H. apply near_err_computes; try assumption. pose proof (v_F err) as E. apply Rabs_le_inv in H. apply Rabs_le. split.
  - apply rnd_ge; [assumption..|now apply generic_format_opp|lra].
  - apply rnd_le; [assumption..|exact E|lra].
Qed.
Theorem near_err_sound (x y err : fl) : is_finite x = true -> is_finite y = true -> is_finite err = true ->
  near_err x y err = true -> Rabs (v x - v y) <= (1 + bpow (- prec)) * v err.
Proof.
  intros A B C H. apply near_err_computes in H; try assumption. eapply Rle_trans; [apply sub_relative; apply v_F|].
  apply Rmult_le_compat_l; [|exact H]. pose proof (bpow_gt_0 radix2 (- prec)). lra.
Qed.
(** Subtraction is antisymmetric up to the sign of zero. *)
Lemma not_nan_cases (x : fl) : is_finite x = true \/ x = B754_nan \/ exists s, x = B754_infinity s.
Proof. destruct x as [a|a| |a m ex p]; eauto. Qed.
Lemma le_sub_swap (x y err : fl) : fle (Bopp err) (fsub x y) = fle (fsub y x) err.
Proof.
  destruct (not_nan_cases x) as [A|[->|[s ->]]]; destruct (not_nan_cases y) as [B|[->|[t ->]]].
  - assert (Sw : rnd (v y - v x) = - rnd (v x - v y)) by (rewrite <- rnd_opp; f_equal; lra).
    pose proof (Bminus_correct prec emax _ _ mode_NE x y A B) as H. pose proof (Bminus_correct prec emax _ _ mode_NE y x B A) as H'.
    change (round radix2 (SpecFloat.fexp prec emax) (round_mode mode_NE) (v x - v y)) with (rnd (v x - v y)) in H.
    change (round radix2 (SpecFloat.fexp prec emax) (round_mode mode_NE) (v y - v x)) with (rnd (v y - v x)) in H'.
    rewrite Sw, Rabs_Ropp in H'. unfold fsub. destruct (Rlt_bool (Rabs (rnd (v x - v y))) (bpow emax)).
    + destruct H as (V & Fi & _). destruct H' as (V' & Fi' & _). destruct (not_nan_cases err) as [C|[->|[r ->]]].
      * rewrite !fle_spec by (assumption || (rewrite opp_fin; assumption)). rewrite B2R_Bopp, V, V'.
        case Rle_bool_spec; case Rle_bool_spec; trivial; intros; lra.
      * generalize (Bminus mode_NE x y) (Bminus mode_NE y x). intros p q. destruct q as [[|]|[|]| |[|] ? ? ?]; reflexivity.
      * change (Bopp (B754_infinity r : fl)) with (B754_infinity (negb r) : fl).
        rewrite (proj1 (le_infinity _ r Fi')), (proj2 (le_infinity _ (negb r) Fi)). reflexivity.
    + destruct H as (V & Sg). destruct H' as (V' & Sg').
      assert (E : forall (z : fl) s, B2SF z = binary_overflow prec emax mode_NE s -> z = B754_infinity s).
      { intros z s Ez. destruct z as [a|a| |a m ex p]; try discriminate Ez; cbn in Ez; now inversion Ez. }
      rewrite (E _ _ V), (E _ _ V'), Sg'. destruct err as [a|a| |a m ex p]; try destruct a; destruct (Bsign x); reflexivity.
  - destruct x as [a|a| |a m ex p]; try discriminate A; destruct (Bopp err) as [[|]|[|]| |[|] ? ? ?]; reflexivity.
  - destruct x as [a|a| |a m ex p]; try discriminate A; destruct err as [b|b| |b ? ? ?]; try destruct b; destruct t; reflexivity.
  - destruct y as [a|a| |a m ex p]; try discriminate B; destruct (Bopp err) as [[|]|[|]| |[|] ? ? ?]; reflexivity.
  - destruct (Bopp err) as [[|]|[|]| |[|] ? ? ?]; reflexivity.
  - destruct (Bopp err) as [[|]|[|]| |[|] ? ? ?]; reflexivity.
  - destruct y as [a|a| |a m ex p]; try discriminate B; destruct err as [b|b| |b ? ? ?]; try destruct b; destruct s; reflexivity.
  - destruct s, (Bopp err) as [[|]|[|]| |[|] ? ? ?]; reflexivity.
  - destruct s, t, err as [[|]|[|]| |[|] ? ? ?]; reflexivity.
Qed.
Theorem near_err_sym (x y err : fl) : near_err x y err = near_err y x err.
Proof. unfold near_err. rewrite !le_sub_swap. apply andb_comm. Qed.
Lemma near_nan (x err : fl) : near_err B754_nan x err = false.
Proof. unfold near_err. change (fsub (B754_nan : fl) x) with (B754_nan : fl). destruct (Bopp err) as [[|]|[|]| |[|] ? ? ?]; reflexivity. Qed.
Lemma near_inf (s : bool) (x err : fl) : is_finite err = true -> near_err (B754_infinity s) x err = false.
Proof.
  intros C. unfold near_err. assert (Co : is_finite (Bopp err) = true) by (rewrite opp_fin; exact C).
  assert (E : fsub (B754_infinity s : fl) x = B754_infinity s \/ fsub (B754_infinity s : fl) x = B754_nan)
    by (destruct x as [b|b| |b ? ? ?]; destruct s; try destruct b; cbn; auto).
  destruct E as [-> | ->].
  - rewrite (proj1 (le_infinity _ s Co)), (proj2 (le_infinity _ s C)). destruct s; reflexivity.
  - destruct (Bopp err) as [[|]|[|]| |[|] ? ? ?]; reflexivity.
Qed.
Theorem near_err_mono (x y e1 e2 : fl) : is_finite x = true -> is_finite y = true -> is_finite e1 = true -> is_finite e2 = true ->
  v e1 <= v e2 -> near_err x y e1 = true -> near_err x y e2 = true.
Proof. intros A B C D H. rewrite !near_err_computes by assumption. lra. Qed.

(** The default tolerance. *)
Lemma emax_2 : (2 <= emax)%Z. Proof. pose proof Hp. pose proof Hx. unfold Prec_gt_0, Prec_lt_emax in *. lia. Qed.
Lemma tolerance (k : Z) : (0 <= k <= 2 ^ prec)%Z ->
  v (fmul (of_Z k) epsilon) = IZR k * bpow (1 - prec) /\ is_finite (fmul (of_Z k) epsilon : fl) = true.
Proof.
  intros K. pose proof emax_2 as E2. assert (P : (0 < prec)%Z) by apply Hp. assert (PE : (prec < emax)%Z) by apply Hx.
  assert (K2 : 0 <= IZR k <= bpow prec) by (rewrite <- IZR_pow2 by lia; split; apply IZR_le; lia).
  assert (Hb : 0 < bpow (1 - prec)) by apply bpow_gt_0.
  destruct (of_Z_ok k) as [V1 F1].
  { rewrite Rabs_pos_eq by lra. apply Rle_trans with (bpow prec); [lra|apply bpow_le; lia]. }
  rewrite rnd_F in V1 by (replace (IZR k) with (IZR k * bpow 0) by (simpl; lra); apply F_grid; [exact Hp|lia|lia]).
  destruct (of_me_ok 1 (1 - prec)) as [V2 F2].
  { rewrite Rmult_1_l, Rabs_pos_eq by lra. apply bpow_le. lia. }
  rewrite rnd_F in V2 by (rewrite Rmult_1_l; apply F_bpow; [exact Hp|lia]). rewrite Rmult_1_l in V2.
  assert (M : IZR k * bpow (1 - prec) <= 2).
  { apply Rle_trans with (bpow prec * bpow (1 - prec)); [apply Rmult_le_compat_r; lra|]. rewrite <- bpow_plus.
    replace (prec + (1 - prec))%Z with 1%Z by lia. simpl. lra. }
  assert (B2 : 2 <= bpow (emax - 1)) by (apply Rle_trans with (bpow 1); [simpl; lra|apply bpow_le; lia]).
  unfold epsilon. destruct (fmul_ok (of_Z k) (of_me 1 (1 - prec)) F1 F2) as [V3 F3].
  { rewrite V1, V2, Rabs_pos_eq by (apply Rmult_le_pos; lra). lra. }
  split; [|exact F3]. rewrite V3, V1, V2. apply rnd_F. apply F_grid; [exact Hp|lia|lia].
Qed.
Lemma near_eps_err k (x y : fl) : near_eps k x y = near_err x y (fmul (of_Z k) epsilon). Proof. reflexivity. Qed.
(** Numbers from 4 on are equal or too far apart. *)
Theorem near_large (x y : fl) : (2 <= prec)%Z -> is_finite x = true -> is_finite y = true -> 4 <= Rabs (v x) -> 4 <= Rabs (v y) ->
  near_eps 2 x y = true -> v x = v y.
Proof.
  intros P2 A B X Y H. rewrite near_eps_err in H. assert (P : (0 < prec)%Z) by apply Hp. pose proof emax_2 as E2.
  destruct (tolerance 2) as [V Fi].
  { split; [lia|]. change 2%Z with (2 ^ 1)%Z at 1. apply Z.pow_le_mono_r; lia. }
  apply near_err_sound in H; try assumption. rewrite V in H.
  assert (R4 : 4 <> 0) by lra. assert (A4 : Rabs 4 = 4) by (apply Rabs_pos_eq; lra).
  destruct (grid_of_ge emin prec 4 (v x) R4 (v_F x)) as [k1 E1]; [rewrite A4; exact X|].
  destruct (grid_of_ge emin prec 4 (v y) R4 (v_F y)) as [k2 E3]; [rewrite A4; exact Y|].
  assert (C : cexp radix2 (FLT_exp emin prec) 4 = (3 - prec)%Z).
  { unfold cexp. change 4 with (bpow 2). rewrite mag_bpow. unfold FLT_exp. lia. }
  rewrite C in E1, E3. rewrite E1, E3. destruct (Z.eq_dec k1 k2) as [->|N]; [reflexivity|exfalso].
  rewrite E1, E3, <- Rmult_minus_distr_r, <- minus_IZR, Rabs_mult, (Rabs_pos_eq (bpow _)), <- abs_IZR in H by apply bpow_ge_0.
  assert (1 <= IZR (Z.abs (k1 - k2))) by (apply IZR_le; lia).
  replace (3 - prec)%Z with (2 + (1 - prec))%Z in H by lia. rewrite bpow_plus in H. change (bpow 2) with 4 in H.
  assert (Hb : 0 < bpow (1 - prec)) by apply bpow_gt_0. assert (U : bpow (- prec) <= / 4) by (apply Rle_trans with (bpow (-2)); [apply bpow_le; lia|simpl; lra]).
  assert (Q : 4 * bpow (1 - prec) <= (1 + / 4) * (2 * bpow (1 - prec))).
  { apply Rle_trans with (1 := Rmult_le_compat_r (4 * bpow (1 - prec)) 1 _ ltac:(lra) H0) || idtac.
    apply Rle_trans with (IZR (Z.abs (k1 - k2)) * (4 * bpow (1 - prec))); [rewrite <- (Rmult_1_l (4 * _)) at 1; apply Rmult_le_compat_r; lra|].
    apply Rle_trans with (1 := H). apply Rmult_le_compat_r; lra. }
  lra.
Qed.
Theorem near_small (x y : fl) : (2 <= prec)%Z -> is_finite x = true -> is_finite y = true -> Rabs (v x) <= bpow (1 - prec) -> Rabs (v y) <= bpow (1 - prec) ->
  near_eps 2 x y = true.
Proof.
  intros P2 A B X Y. rewrite near_eps_err. destruct (tolerance 2) as [V Fi].
  { split; [lia|]. change 2%Z with (2 ^ 1)%Z at 1. apply Z.pow_le_mono_r; lia. }
  apply near_err_complete; try assumption. rewrite V. apply Rabs_le_inv in X. apply Rabs_le_inv in Y. apply Rabs_le. lra.
Qed.
End Fmt.
