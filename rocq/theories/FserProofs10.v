(** The constants, and the theorems in terms of the specification. *)
From Coq Require Import ZArith Reals Lra Lia Bool Machin Ratan.
From Flocq Require Import Core IEEE754.BinarySingleNaN.
From Verif Require Import FloatModel FloatSpec FloatProofs1 FloatProofs2 FserModel FserSpec FserProofs1 FserProofs2 FserProofs3 FserProofs4 FserProofs5 FserProofs6 FserProofs7 FserProofs8 FserProofs9.
Local Open Scope R_scope.

Lemma PI_digits : 31415926535897932 / 10 ^ 16 <= PI <= 31415926535897933 / 10 ^ 16.
Proof. pose proof (PI_2_3_7_ineq 8) as H. unfold tg_alt, PI_2_3_7_tg, Ratan_seq in H. simpl in H. lra. Qed.
Fixpoint fz (n : nat) : Z := match n with O => 1%Z | S k => (Z.of_nat n + 1) * fz k end.
Lemma fz_pos n : (0 < fz n)%Z. Proof. induction n; cbn [fz]; lia. Qed.
Lemma ea_fz n : ea 1 n = / IZR (fz n).
Proof.
  induction n as [|n IH]; [unfold ea; simpl; lra |]. rewrite ea_step, IH. cbn [fz]. pose proof (fz_pos n). rewrite mult_IZR, !plus_IZR. replace (Z.of_nat (S n)) with (Z.of_nat n + 1)%Z by lia. rewrite plus_IZR.
  assert (0 <= IZR (Z.of_nat n)) by (apply IZR_le; lia). assert (0 < IZR (fz n)) by (apply IZR_lt; lia). field. lra.
Qed.
Lemma e_digits : 27182818284590452 / 10 ^ 16 <= exp 1 <= 27182818284590453 / 10 ^ 16.
Proof.
  pose proof (tail_bound (ea 1) (fun n => 1 / IZR (Z.of_nat n + 2)) (fun _ => 1) 0 1 ltac:(lra) ltac:(lra) ltac:(intros; lra)) as T. 
  specialize (T ltac:(intros i; pose proof (ratio 1 i ltac:(lra)); rewrite Rabs_pos_eq; lra) ltac:(intros i; apply ea_step) (exp 1 - 1) 19%nat (ea_lim 1)).
  apply Rabs_le_inv in T. cbn [psum] in T. rewrite !ea_fz in T.
  repeat match type of T with context [fz ?n] => let r := eval vm_compute in (fz n) in change (fz n) with r in T end.
  rewrite Rabs_pos_eq in T by lra. lra.
Qed.

Section Fmt.
Context {prec emax : Z} {Hp : Prec_gt_0 prec} {Hx : Prec_lt_emax prec emax}.
Notation fl := (binary_float prec emax).
Notation v := (@B2R prec emax).
Notation u := (bpow radix2 (- prec)).
Hypothesis Sup : supported prec emax.

Lemma e_const (e : fl) : best_constant prec (v e) (exp 1) -> Rabs (v e - exp 1) <= 3 / 4 * u * exp 1.
Proof. unfold best_constant, unit_error. intros H. pose proof e_digits. pose proof (bpow_gt_0 radix2 (- prec)). assert (u * (8 / 3) <= u * exp 1) by (apply Rmult_le_compat_l; lra). lra. Qed.
Lemma ev {A} (run : nat -> A) (N : nat) r : (forall fuel, (N <= fuel)%nat -> run fuel = r) -> eventually run r.
Proof. intros H. exists N. exact H. Qed.
Lemma ev_same {A} (run : nat -> fres A) r s : eventually run (FVal r) -> eventually run (FVal s) -> r = s.
Proof. intros [a A1] [b B]. specialize (A1 (max a b) (Nat.le_max_l _ _)). specialize (B (max a b) (Nat.le_max_r _ _)). congruence. Qed.

Theorem exp_spec (e x : fl) : is_finite e = true -> best_constant prec (v e) (exp 1) -> is_finite x = true ->
  Rabs (v x) <= 11 / 16 * IZR emax - 4 -> Rabs (v x) <= bpow radix2 (prec - 5) ->
  exists y, eventually (fun fuel => fexp fuel e x) (FVal y) /\ is_finite y = true /\ 0 < v y /\ Rabs (v y - exp (v x)) <= exp_accuracy prec (v x) * exp (v x).
Proof.
  intros Fe Ce Fx B1 B2. destruct Sup as (S1 & S2 & S3 & S4).
  destruct (fexp_ok S1 S2 S3 S4 e Fe (e_const e Ce) x Fx B1 B2) as (y & Fy & Ey & Ry). exists y. split; [exact (ev _ _ _ Ry) |]. split; [exact Fy |]. split; [| exact Ey].
  pose proof (u256 (prec := prec) ltac:(lia)) as U. pose proof (prec_u (prec := prec) ltac:(lia)) as PU. pose proof (exp_pos (v x)) as ex. apply Rabs_le_inv in Ey.
  assert (xa : Rabs (v x) * u <= / 32) by (apply Rle_trans with (bpow radix2 (prec - 5) * u); [apply Rmult_le_compat_r; lra |]; rewrite <- bpow_plus; replace (prec - 5 + - prec)%Z with (-5)%Z by lia; simpl; lra).
  assert (T : exp_tol (prec := prec) (v x) <= 9 / 10) by (unfold exp_tol; lra). assert (exp_tol (prec := prec) (v x) * exp (v x) <= 9 / 10 * exp (v x)) by (apply Rmult_le_compat_r; lra). lra.
Qed.
Theorem expm1_spec (e x : fl) : is_finite e = true -> best_constant prec (v e) (exp 1) -> is_finite x = true ->
  Rabs (v x) <= 11 / 16 * IZR emax - 4 -> Rabs (v x) <= bpow radix2 (prec - 5) ->
  exists y, eventually (fun fuel => fexpm1 fuel e x) (FVal y) /\ is_finite y = true /\
    Rabs (v y - (exp (v x) - 1)) <= expm1_accuracy prec (v x) * (exp (v x) + 1) /\
    (0 <= v x -> Rabs (v y - (exp (v x) - 1)) <= expm1_relative prec (v x) * (exp (v x) - 1)).
Proof.
  intros Fe Ce Fx B1 B2. destruct Sup as (S1 & S2 & S3 & S4).
  destruct (fexpm1_ok S1 S2 S3 S4 e Fe (e_const e Ce) x Fx B1 B2) as (y & Fy & Ey & Ry). exists y. split; [exact (ev _ _ _ Ry) |]. split; [exact Fy |]. split; [exact Ey |].
  intros P. pose proof (u256 (prec := prec) ltac:(lia)) as U. assert (8 <= IZR prec) by (apply IZR_le; lia). assert (pu0 : 0 <= IZR prec * u) by (apply Rmult_le_pos; lra).
  pose proof (Rabs_pos (v x)) as ax. assert (xu : 0 <= Rabs (v x) * u) by (apply Rmult_le_pos; lra). pose proof (exp_ineq1_le (v x)) as I.
  destruct (Rlt_le_dec (v x) 1) as [C|C].
  - destruct (fexpm1_unit S1 S2 S3 S4 e x Fx (conj P C)) as (y' & _ & Ey' & Ry'). assert (y' = y) by (apply (ev_same (fun fuel => fexpm1 fuel e x)); eapply ev; eassumption). subst y'.
    eapply Rle_trans; [exact Ey' |]. apply Rmult_le_compat; unfold expm1_error, expm1_relative, unit_error; lra.
  - eapply Rle_trans; [exact Ey |]. assert (E1 : exp 1 <= exp (v x)) by (apply exp_le_mono; lra). pose proof e_digits. set (X := exp (v x)) in *.
    apply Rle_trans with (expm1_accuracy prec (v x) * (22 / 10 * (X - 1))); [apply Rmult_le_compat_l; [unfold expm1_accuracy, unit_error; lra | lra] |].
    rewrite <- Rmult_assoc. apply Rmult_le_compat_r; [lra |]. unfold expm1_accuracy, expm1_relative, unit_error. lra.
Qed.
Lemma small_range (x : R) : Rabs x <= 5 / 2 -> Rabs x <= bpow radix2 (prec - 5) /\ Rabs x <= bpow radix2 62.
Proof. intros H. destruct Sup as (S1 & _). split; (apply Rle_trans with (bpow radix2 3); [simpl; lra | apply bpow_le; lia]). Qed.
Theorem sin_spec (pi x : fl) : is_finite pi = true -> best_constant prec (v pi) PI -> is_finite x = true ->
  Rabs (v x) <= bpow radix2 (prec - 5) -> Rabs (v x) <= bpow radix2 62 ->
  exists y, eventually (fun fuel => fsin fuel pi x) (FVal y) /\ is_finite y = true /\ Rabs (v y - sin (v x)) <= angle_accuracy prec (v x) /\
    (Rabs (v x) <= 5 / 2 -> Rabs (v y - sin (v x)) <= angle_accuracy_near prec) /\
    (Rabs (v x) <= 1 -> Rabs (v y - sin (v x)) <= sin_relative prec * Rabs (v x)).
Proof.
  intros Fpi Cpi Fx B1 B2. destruct Sup as (S1 & S2 & S3 & S4).
  destruct (fsin_ok S1 S2 S3 S4 pi Fpi Cpi x Fx B1 B2) as (y & Fy & Ey & Ry). exists y. split; [exact (ev _ _ _ Ry) |]. split; [exact Fy |]. split; [exact Ey |]. split; intros C.
  - destruct (fsin_near S1 S2 S3 S4 pi Fpi Cpi x Fx C) as (y' & _ & Ey' & Ry'). assert (y' = y) by (apply (ev_same (fun fuel => fsin fuel pi x)); eapply ev; eassumption). subst y'. exact Ey'.
  - destruct (fsin_rel S1 S2 S3 S4 pi Fpi Cpi x Fx C) as (y' & _ & Ey' & Ry'). assert (y' = y) by (apply (ev_same (fun fuel => fsin fuel pi x)); eapply ev; eassumption). subst y'. exact Ey'.
Qed.
Theorem cos_spec (pi x : fl) : is_finite pi = true -> best_constant prec (v pi) PI -> is_finite x = true ->
  Rabs (v x) <= bpow radix2 (prec - 5) -> Rabs (v x) <= bpow radix2 62 ->
  exists y, eventually (fun fuel => fcos fuel pi x) (FVal y) /\ is_finite y = true /\ Rabs (v y - cos (v x)) <= angle_accuracy prec (v x) /\
    (Rabs (v x) <= 5 / 2 -> Rabs (v y - cos (v x)) <= angle_accuracy_near prec).
Proof.
  intros Fpi Cpi Fx B1 B2. destruct Sup as (S1 & S2 & S3 & S4).
  destruct (fcos_ok S1 S2 S3 S4 pi Fpi Cpi x Fx B1 B2) as (y & Fy & Ey & Ry). exists y. split; [exact (ev _ _ _ Ry) |]. split; [exact Fy |]. split; [exact Ey |]. intros C.
  destruct (fcos_near S1 S2 S3 S4 pi Fpi Cpi x Fx C) as (y' & _ & Ey' & Ry'). assert (y' = y) by (apply (ev_same (fun fuel => fcos fuel pi x)); eapply ev; eassumption). subst y'. exact Ey'.
Qed.
End Fmt.
