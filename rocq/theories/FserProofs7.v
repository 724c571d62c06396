(** sin and cos of every argument that is not too large. *)
From Coq Require Import ZArith Reals Lra Lia Bool.
From Flocq Require Import Core Plus_error Relative IEEE754.BinarySingleNaN.
From Verif Require Import FloatModel FloatProofs1 FloatProofs2 FserModel FserProofs1 FserProofs2 FserProofs3 FserProofs6.
Local Open Scope R_scope.

Lemma sin_abs z : Rabs (sin z) <= Rabs z.
Proof.
  assert (P : forall z, 0 <= z -> Rabs (sin z) <= z).
  { clear z. intros z Hz. destruct (Req_dec z 0) as [->|N]; [rewrite sin_0, Rabs_R0; lra |]. pose proof (sin_lt_x z ltac:(lra)). apply Rabs_le. split; [| lra].
    destruct (Rle_lt_dec z PI) as [L|L]; [pose proof (sin_ge_0 z Hz L); lra |]. pose proof (SIN_bound z). pose proof PI2_3_2. pose proof PI_RGT_0. unfold PI2 in *. lra. }
  destruct (Rle_lt_dec 0 z) as [L|L]; [rewrite (Rabs_pos_eq z L); now apply P |]. rewrite (Rabs_left z L), <- Rabs_Ropp, <- sin_neg. apply P. lra.
Qed.
Lemma trig1 z : Rabs (cos z) <= 1 /\ Rabs (sin z) <= 1.
Proof. split; apply Rabs_le; [apply COS_bound | apply SIN_bound]. Qed.
Lemma sin_lip a b : Rabs (sin a - sin b) <= Rabs (a - b).
Proof.
  rewrite form4. rewrite !Rabs_mult, (Rabs_pos_eq 2) by lra. pose proof (sin_abs ((a - b) / 2)) as S. destruct (trig1 ((a + b) / 2)) as [C _]. pose proof (Rabs_pos (sin ((a - b) / 2))). pose proof (Rabs_pos (cos ((a + b) / 2))).
  unfold Rdiv in S at 2. rewrite Rabs_mult, (Rabs_pos_eq (/ 2)) in S by lra. assert (Rabs (cos ((a + b) / 2)) * Rabs (sin ((a - b) / 2)) <= 1 * (Rabs (a - b) * / 2)) by (apply Rmult_le_compat; lra). lra.
Qed.
Lemma cos_lip a b : Rabs (cos a - cos b) <= Rabs (a - b).
Proof.
  rewrite form2. rewrite !Rabs_mult. replace (Rabs (-2)) with 2 by (rewrite Rabs_left; lra). pose proof (sin_abs ((a - b) / 2)) as S. destruct (trig1 ((a + b) / 2)) as [_ C]. pose proof (Rabs_pos (sin ((a - b) / 2))). pose proof (Rabs_pos (sin ((a + b) / 2))).
  unfold Rdiv in S at 2. rewrite Rabs_mult, (Rabs_pos_eq (/ 2)) in S by lra. assert (Rabs (sin ((a - b) / 2)) * Rabs (sin ((a + b) / 2)) <= (Rabs (a - b) * / 2) * 1) by (apply Rmult_le_compat; lra). lra.
Qed.

Section Fmt.
Context {prec emax : Z} {Hp : Prec_gt_0 prec} {Hx : Prec_lt_emax prec emax}.
Notation fl := (binary_float prec emax).
Notation emin := (3 - emax - prec)%Z.
Notation fexp := (FLT_exp emin prec).
Notation F := (generic_format radix2 fexp).
Notation rnd := (round radix2 fexp ZnearestE).
Notation bpow := (bpow radix2).
Notation v := (@B2R prec emax).
Hypothesis (Hprec : (8 <= prec)%Z) (Hemax : (65 <= emax)%Z) (Hpx : (prec + 40 <= emax)%Z) (Hbig : (emax + prec <= 20000)%Z).
Notation u := (bpow (- prec)).
Notation h := (bpow (emin - 1)).
Local Notation N := (Z.to_nat (emax + prec + 33)).

Section X.
Variable x : fl.
Hypothesis (Fx : is_finite x = true) (Bx : Rabs (v x) <= 13 / 2).
Lemma x3' : Rabs (v x) <= bpow 3. Proof. simpl. lra. Qed.
(** ** First terms *)
Lemma cos_first : let T := fmul (fmul (of_me (-1) (-1)) x) x in is_finite T = true /\ Rabs (v T) <= bpow 7 /\ ap (5 * u) (8 * h) (ca (v x) 0) (v T).
Proof.
  cbv zeta. assert (Eh : IZR (-1) * bpow (-1) = - / 2) by (simpl; lra).
  destruct (of_me_ok (prec := prec) (emax := emax) (-1) (-1)) as [Vh Fh].
  { rewrite Eh, Rabs_Ropp, Rabs_pos_eq by lra. apply Rle_trans with (bpow 0); [simpl; lra | apply bpow_le; lia]. }
  assert (Gh : F (- / 2)) by (replace (- / 2) with (- bpow (-1)) by (simpl; lra); apply generic_format_opp, F_bpow; [exact Hp | lia]).
  rewrite Eh, rnd_F in Vh by exact Gh.
  destruct (mul_step (prec := prec) (emax := emax) (of_me (-1) (-1)) x (-1) 3 Fh Fx) as (F1 & V1 & B1); [rewrite Vh, Rabs_Ropp, Rabs_pos_eq by lra; simpl; lra | exact x3' | lia |].
  specialize (B1 2%Z ltac:(lia) ltac:(lia)).
  destruct (mul_step (prec := prec) (emax := emax) (fmul (of_me (-1) (-1)) x) x 2 3 F1 Fx B1 x3' ltac:(lia)) as (F2 & V2 & B2). split; [exact F2 |]. split; [apply B2; lia |].
  rewrite V2, V1, Vh. pose proof (u256 (prec := prec) ltac:(lia)) as U. pose proof (usq (prec := prec) ltac:(lia)) as U2. pose proof (h_pos (prec := prec) (emax := emax)) as Hh. pose proof (Rabs_pos (v x)).
  assert (U2h : u * h <= / 256 * h) by (apply Rmult_le_compat_r; lra).
  pose proof (ap_rnd (prec := prec) (emax := emax) 0 0 (- / 2 * v x) (- / 2 * v x) ltac:(lra) ltac:(lra) (ap_refl _)) as A1.
  apply (ap_weak _ _ u h) in A1; [| lra | lra]. apply (ap_mul (v x)) in A1. assert (h * Rabs (v x) <= h * (13 / 2)) by (apply Rmult_le_compat_l; lra).
  apply (ap_weak _ _ u (13 / 2 * h)) in A1; [| lra | lra].
  pose proof (ap_rnd (prec := prec) (emax := emax) u (13 / 2 * h) _ _ ltac:(lra) ltac:(lra) A1) as A2.
  apply (ap_weak _ _ (5 * u) (8 * h)) in A2; [| lra | lra]. replace (ca (v x) 0) with (- / 2 * v x * v x); [exact A2 |]. unfold ca. cbn. field.
Qed.
Lemma sin_first : let T := fdiv (fmul (fmul x x) x) (of_Z (-6)) in is_finite T = true /\ Rabs (v T) <= bpow 7 /\ ap (5 * u) (8 * h) (sa (v x) 0) (v T).
Proof.
  cbv zeta.
  destruct (mul_step (prec := prec) (emax := emax) x x 3 3 Fx Fx x3' x3' ltac:(lia)) as (F1 & V1 & B1). specialize (B1 6%Z ltac:(lia) ltac:(lia)).
  destruct (mul_step (prec := prec) (emax := emax) (fmul x x) x 6 3 F1 Fx B1 x3' ltac:(lia)) as (F2 & V2 & B2). specialize (B2 9%Z ltac:(lia) ltac:(lia)).
  destruct (div_step (prec := prec) (emax := emax) ltac:(lia) ltac:(lia) (fmul (fmul x x) x) (-6) 2 9 F2 B2 ltac:(lia) ltac:(split; [reflexivity || lia | lia]) ltac:(lia)) as (F3 & V3 & B3 & _).
  split; [exact F3 |]. split; [apply B3; lia |]. rewrite V3, V2, V1.
  replace (sa (v x) 0) with (v x * - (v x * v x / IZR 6)) by (unfold sa; cbn; field). apply (ap_three (prec := prec) (emax := emax) ltac:(lia) ltac:(lia) 6); [lia | exact Bx].
Qed.

Lemma sq_le c : Rabs (v x) <= c -> v x * v x <= c * c.
Proof. intros H. rewrite <- (Rabs_mult_self (v x)) || idtac. replace (v x * v x) with (Rabs (v x) * Rabs (v x)) by (rewrite <- Rabs_mult; apply Rabs_pos_eq, Rle_0_sqr). pose proof (Rabs_pos (v x)). apply Rmult_le_compat; lra. Qed.
Lemma ratio_le c (m : Z) k : v x * v x <= c -> IZR k <= IZR m -> 0 < IZR k -> v x * v x / IZR m <= c / IZR k.
Proof.
  intros A B C. pose proof (Rle_0_sqr (v x)) as S. unfold Rsqr in S. unfold Rdiv. apply Rmult_le_compat; [exact S | left; apply Rinv_0_lt_compat; lra | exact A | apply Rinv_le; lra].
Qed.
Definition near_tol : R := (25 * IZR prec + 241) * u.
Definition far_tol : R := (2400 * IZR prec + 194000) * u.

Lemma r1 i n : (3 <= i)%Z -> Rabs (v x) <= 5 / 2 -> (1 + 5 / 256) * (v x * v x / IZR (mm i n)) * 1 <= 5 / 8 * 1.
Proof.
  intros Hi B. pose proof (ratio_le (25 / 4) (mm i n) 12) as R. specialize (R ltac:(pose proof (sq_le (5 / 2) B); lra) ltac:(apply IZR_le; unfold mm; nia) ltac:(lra)). lra.
Qed.
Lemma prec_facts : 0 < u <= / 256 /\ u * u <= / 256 * u /\ IZR prec * u <= / 32 /\ 0 <= IZR prec * u.
Proof.
  split; [apply u256; lia |]. split; [apply usq; lia |]. split; [apply prec_u; lia |]. assert (8 <= IZR prec) by (apply IZR_le; lia). pose proof (bpow_ge_0 radix2 (- prec)). apply Rmult_le_pos; lra.
Qed.
Theorem cos_near : Rabs (v x) <= 5 / 2 -> exists y, is_finite y = true /\ Rabs (v y - cos (v x)) <= near_tol /\ forall fuel, (N <= fuel)%nat -> cos_series fuel x = FVal y.
Proof.
  intros B. destruct cos_first as (F0 & B0 & A0). destruct prec_facts as (U & U2 & PU & PP). destruct (small_Z (prec := prec) (emax := emax) ltac:(lia) ltac:(lia) 1 ltac:(lia)) as [V1 F1].
  destruct (sin_cos_error Hprec Hemax Hpx Hbig 3 x _ ltac:(lia) Fx Bx F0 B0 (of_Z 1) (ca (v x)) (fun _ => 1) 1 10 (25 / 8) (cos (v x) - 1)) as (y & Fy & Ey & Ry); auto; try lra.
  - rewrite V1, Rabs_pos_eq by lra. simpl. lra.
  - unfold ca. cbn. pose proof (sq_le (5 / 2) B) as S. replace (-1 * 1 * (v x * (v x * 1)) / (1 + 1)) with (- (v x * v x / 2)) by field. rewrite Rabs_Ropp, Rabs_pos_eq; [lra |]. pose proof (Rle_0_sqr (v x)) as S0. unfold Rsqr in S0. lra.
  - intros n. lra.
  - intros n. apply r1; [lia | exact B].
  - intros n. apply ca_step.
  - rewrite V1, Rabs_pos_eq by lra. lra.
  - apply ca_lim.
  - exists y. split; [exact Fy |]. split; [| exact Ry]. rewrite V1 in Ey. replace (1 + (cos (v x) - 1)) with (cos (v x)) in Ey by ring. eapply Rle_trans; [exact Ey |]. unfold near_tol. lra.
Qed.
Lemma cube_le c : Rabs (v x) <= c -> Rabs (sa (v x) 0) <= c * c * Rabs (v x) / 6.
Proof.
  intros B. unfold sa. cbn. replace (-1 * 1 * (v x * (v x * (v x * 1))) / (1 + 1 + 1 + 1 + 1 + 1)) with (- (v x * v x * v x / 6)) by field. rewrite Rabs_Ropp. unfold Rdiv. rewrite !Rabs_mult, (Rabs_pos_eq (/ 6)) by lra.
  pose proof (Rabs_pos (v x)). apply Rmult_le_compat_r; [lra |]. apply Rmult_le_compat_r; [lra |]. apply Rmult_le_compat; lra.
Qed.
Theorem sin_near : Rabs (v x) <= 5 / 2 -> exists y, is_finite y = true /\ Rabs (v y - sin (v x)) <= near_tol /\ forall fuel, (N <= fuel)%nat -> sin_series fuel x = FVal y.
Proof.
  intros B. destruct sin_first as (F0 & B0 & A0). destruct prec_facts as (U & U2 & PU & PP). pose proof (Rabs_pos (v x)).
  destruct (sin_cos_error Hprec Hemax Hpx Hbig 4 x _ ltac:(lia) Fx Bx F0 B0 x (sa (v x)) (fun _ => 1) 1 10 (21 / 8) (sin (v x) - v x)) as (y & Fy & Ey & Ry); auto; try lra.
  - eapply Rle_trans; [exact x3' |]. apply bpow_le. lia.
  - pose proof (cube_le (5 / 2) B). lra.
  - intros n. lra.
  - intros n. apply r1; [lia | exact B].
  - intros n. apply sa_step.
  - apply sa_lim.
  - exists y. split; [exact Fy |]. split; [| exact Ry]. replace (v x + (sin (v x) - v x)) with (sin (v x)) in Ey by ring. eapply Rle_trans; [exact Ey |]. unfold near_tol. lra.
Qed.

(** ** Up to 13/2 *)
Definition cw (n : nat) : R := match n with O => 17 | S O => 29 / 10 | S (S O) => 5 / 4 | _ => 1 end.
Definition sw (n : nat) : R := match n with O => 7 | S O => 7 / 4 | _ => 1 end.
Lemma cw_r n : (1 + 5 / 256) * (v x * v x / IZR (mm 3 n)) * cw (S n) <= 5 / 8 * cw n.
Proof.
  pose proof (sq_le _ Bx) as S. assert (R : forall k, IZR k <= IZR (mm 3 n) -> 0 < IZR k -> v x * v x / IZR (mm 3 n) <= 169 / 4 / IZR k) by (intros k A B; apply ratio_le; lra).
  destruct n as [|[|[|n]]]; cbn [cw].
  - specialize (R 12%Z ltac:(apply IZR_le; unfold mm; lia) ltac:(lra)). lra.
  - specialize (R 30%Z ltac:(apply IZR_le; unfold mm; lia) ltac:(lra)). lra.
  - specialize (R 56%Z ltac:(apply IZR_le; unfold mm; lia) ltac:(lra)). lra.
  - specialize (R 90%Z ltac:(apply IZR_le; unfold mm; nia) ltac:(lra)). lra.
Qed.
Lemma sw_r n : (1 + 5 / 256) * (v x * v x / IZR (mm 4 n)) * sw (S n) <= 5 / 8 * sw n.
Proof.
  pose proof (sq_le _ Bx) as S. assert (R : forall k, IZR k <= IZR (mm 4 n) -> 0 < IZR k -> v x * v x / IZR (mm 4 n) <= 169 / 4 / IZR k) by (intros k A B; apply ratio_le; lra).
  destruct n as [|[|n]]; cbn [sw].
  - specialize (R 20%Z ltac:(apply IZR_le; unfold mm; lia) ltac:(lra)). lra.
  - specialize (R 42%Z ltac:(apply IZR_le; unfold mm; lia) ltac:(lra)). lra.
  - specialize (R 72%Z ltac:(apply IZR_le; unfold mm; nia) ltac:(lra)). lra.
Qed.
Theorem cos_far : exists y, is_finite y = true /\ Rabs (v y - cos (v x)) <= far_tol /\ forall fuel, (N <= fuel)%nat -> cos_series fuel x = FVal y.
Proof.
  destruct cos_first as (F0 & B0 & A0). destruct prec_facts as (U & U2 & PU & PP). destruct (small_Z (prec := prec) (emax := emax) ltac:(lia) ltac:(lia) 1 ltac:(lia)) as [V1 F1].
  destruct (sin_cos_error Hprec Hemax Hpx Hbig 3 x _ ltac:(lia) Fx Bx F0 B0 (of_Z 1) (ca (v x)) cw 17 960 (17 * (169 / 8)) (cos (v x) - 1)) as (y & Fy & Ey & Ry); auto; try lra.
  - rewrite V1, Rabs_pos_eq by lra. simpl. lra.
  - unfold ca. cbn. pose proof (sq_le _ Bx) as S. replace (-1 * 1 * (v x * (v x * 1)) / (1 + 1)) with (- (v x * v x / 2)) by field. rewrite Rabs_Ropp, Rabs_pos_eq; [lra |]. pose proof (Rle_0_sqr (v x)) as S0. unfold Rsqr in S0. lra.
  - intros [|[|[|n]]]; cbn [cw]; lra.
  - apply cw_r.
  - intros n. apply ca_step.
  - rewrite V1, Rabs_pos_eq by lra. lra.
  - apply ca_lim.
  - exists y. split; [exact Fy |]. split; [| exact Ry]. rewrite V1 in Ey. replace (1 + (cos (v x) - 1)) with (cos (v x)) in Ey by ring. eapply Rle_trans; [exact Ey |]. unfold far_tol. lra.
Qed.
Theorem sin_far : exists y, is_finite y = true /\ Rabs (v y - sin (v x)) <= far_tol /\ forall fuel, (N <= fuel)%nat -> sin_series fuel x = FVal y.
Proof.
  destruct sin_first as (F0 & B0 & A0). destruct prec_facts as (U & U2 & PU & PP). pose proof (Rabs_pos (v x)).
  destruct (sin_cos_error Hprec Hemax Hpx Hbig 4 x _ ltac:(lia) Fx Bx F0 B0 x (sa (v x)) sw 7 870 (7 * 46) (sin (v x) - v x)) as (y & Fy & Ey & Ry); auto; try lra.
  - eapply Rle_trans; [exact x3' |]. apply bpow_le. lia.
  - pose proof (cube_le _ Bx). lra.
  - intros [|[|n]]; cbn [sw]; lra.
  - apply sw_r.
  - intros n. apply sa_step.
  - apply sa_lim.
  - exists y. split; [exact Fy |]. split; [| exact Ry]. replace (v x + (sin (v x) - v x)) with (sin (v x)) in Ey by ring. eapply Rle_trans; [exact Ey |]. unfold far_tol. lra.
Qed.

(** ** Sines of arguments up to 1, relative to the argument *)
Definition rel_tol : R := (5 * IZR prec + 18) * u.
Lemma sin_rel_big : Rabs (v x) <= 1 -> u / 4 <= Rabs (v x) ->
  exists y, is_finite y = true /\ Rabs (v y - sin (v x)) <= rel_tol * Rabs (v x) /\ forall fuel, (N <= fuel)%nat -> sin_series fuel x = FVal y.
Proof.
  intros B L. destruct sin_first as (F0 & B0 & A0). destruct prec_facts as (U & U2 & PU & PP). pose proof (Rabs_pos (v x)).
  set (X := Rabs (v x)) in *. assert (UX : u * u <= 4 * (u * X)) by (pose proof (Rmult_le_compat_l u (u / 4) X ltac:(lra) L); lra).
  assert (PUX : IZR prec * u * X <= / 32 * X) by (apply Rmult_le_compat_r; lra). assert (UX2 : u * X <= / 256 * X) by (apply Rmult_le_compat_r; lra). assert (UX3 : 0 <= u * X) by (apply Rmult_le_pos; lra). assert (0 <= IZR prec * u * X) by (apply Rmult_le_pos; lra).
  destruct (sin_cos_error Hprec Hemax Hpx Hbig 4 x _ ltac:(lia) Fx Bx F0 B0 x (sa (v x)) (fun _ => 1) 1 (2 * X) (X / 6) (sin (v x) - v x)) as (y & Fy & Ey & Ry); auto; try lra.
  - eapply Rle_trans; [exact x3' |]. apply bpow_le. lia.
  - pose proof (cube_le 1 B). fold X in H1. lra.
  - intros n. lra.
  - intros n. apply r1; [lia |]. fold X. lra.
  - intros n. apply sa_step.
  - fold X. lra.
  - apply sa_lim.
  - exists y. split; [exact Fy |]. split; [| exact Ry]. replace (v x + (sin (v x) - v x)) with (sin (v x)) in Ey by ring. eapply Rle_trans; [exact Ey |]. unfold rel_tol. lra.
Qed.
Lemma sin_tail : Rabs (v x) <= 1 -> Rabs (v x - sin (v x)) <= 8 / 3 * (v x * v x * Rabs (v x) / 6).
Proof.
  intros B. pose proof (tail_bound (sa (v x)) (fun n => - (v x * v x / IZR (mm 4 n))) (fun _ => 1) 0 1 ltac:(lra) ltac:(lra) ltac:(intros; lra)) as T.
  specialize (T ltac:(intros n; cbv beta; pose proof (r1 4 n ltac:(lia) ltac:(lra)); rewrite Rabs_Ropp, Rabs_pos_eq by (apply x2; lia); assert (0 <= v x * v x / IZR (mm 4 n)) by (apply x2; lia); lra) (sa_step (v x)) (sin (v x) - v x) 0%nat (sa_lim (v x))).
  cbn [psum] in T. rewrite Rminus_0_r in T. replace (v x - sin (v x)) with (- (sin (v x) - v x)) by ring. rewrite Rabs_Ropp. eapply Rle_trans; [exact T |].
  unfold sa. cbn. replace (-1 * 1 * (v x * (v x * (v x * 1))) / (1 + 1 + 1 + 1 + 1 + 1)) with (- (v x * v x * v x / 6)) by field. rewrite Rabs_Ropp. unfold Rdiv. rewrite Rabs_mult, Rabs_mult, (Rabs_pos_eq (/ 6)), (Rabs_pos_eq (v x * v x)) by (lra || apply Rle_0_sqr). lra.
Qed.
Lemma absorb_neg (y t : R) (k : Z) : F y -> y <> 0 -> bpow (k - 1) <= Rabs y -> (emin + 1 <= k - prec)%Z -> Rabs t <= bpow (k - prec - 3) -> rnd (y + t) = y.
Proof.
  intros Fy Ny Ly Hk Lt. destruct (Rlt_le_dec 0 y) as [P|P].
  - rewrite Rabs_pos_eq in Ly by lra. now apply (absorb y t k).
  - rewrite Rabs_left1 in Ly by lra. replace (y + t) with (- (- y + - t)) by ring. rewrite rnd_opp, (absorb (- y) (- t) k); [ring | now apply generic_format_opp | lra | exact Ly | exact Hk | now rewrite Rabs_Ropp].
Qed.
Lemma sin_small : v x <> 0 -> Rabs (v x) < u / 4 -> forall fuel, sin_series fuel x = FVal x.
Proof.
  intros Nx Sx fuel. destruct prec_facts as (U & U2 & PU & PP). destruct sin_first as (F0 & B0 & _).
  set (k := mag radix2 (v x) : Z).
  assert (K1 : bpow (k - 1) <= Rabs (v x) < bpow k) by (unfold k; destruct (mag radix2 (v x)) as (k' & K'); cbn; exact (K' Nx)).
  assert (K2 : (k <= - prec - 2)%Z).
  { assert (k - 1 < - prec - 2)%Z; [| lia]. apply (lt_bpow radix2). apply Rle_lt_trans with (Rabs (v x)); [apply K1 |]. replace (- prec - 2)%Z with (- prec + -2)%Z by lia. rewrite bpow_plus. simpl (bpow (-2)). lra. }
  destruct (mul_step (prec := prec) (emax := emax) x x k k Fx Fx ltac:(lra) ltac:(lra) ltac:(lia)) as (Fm & Vm & Bm).
  assert (S1 : rnd (v x + v (fdiv (fmul (fmul x x) x) (of_Z (-6)))) = v x).
  { destruct (Z_lt_le_dec (2 * k) emin) as [C|C].
    - assert (Z0 : v (fmul x x) = 0).
      { rewrite Vm. apply rnd_zero. rewrite Rabs_mult. apply Rlt_le_trans with (bpow (2 * k)); [| apply bpow_le; lia]. replace (2 * k)%Z with (k + k)%Z by lia. rewrite bpow_plus. pose proof (Rabs_pos (v x)). apply Rmult_le_0_lt_compat; lra. }
      destruct (mul_step (prec := prec) (emax := emax) (fmul x x) x k k Fm Fx ltac:(rewrite Z0, Rabs_R0; apply bpow_ge_0) ltac:(lra) ltac:(lia)) as (Fm2 & Vm2 & _).
      rewrite Z0, Rmult_0_l, round_0 in Vm2 by auto with typeclass_instances.
      destruct (div_step (prec := prec) (emax := emax) ltac:(lia) ltac:(lia) (fmul (fmul x x) x) (-6) 2 0 Fm2 ltac:(rewrite Vm2, Rabs_R0; apply bpow_ge_0) ltac:(lia) ltac:(split; lia) ltac:(lia)) as (_ & -> & _).
      rewrite Vm2. unfold Rdiv. rewrite Rmult_0_l, round_0, Rplus_0_r by auto with typeclass_instances. apply rnd_F, v_F.
    - apply (absorb_neg (v x) _ k); [apply v_F | exact Nx | apply K1 | lia |].
      specialize (Bm (2 * k)%Z ltac:(lia) ltac:(lia)).
      destruct (mul_step (prec := prec) (emax := emax) (fmul x x) x (2 * k) 0 Fm Fx Bm ltac:(simpl; lra) ltac:(lia)) as (Fm2 & Vm2 & Bm2). specialize (Bm2 (2 * k)%Z ltac:(lia) ltac:(lia)).
      destruct (div_step (prec := prec) (emax := emax) ltac:(lia) ltac:(lia) (fmul (fmul x x) x) (-6) 2 (2 * k) Fm2 Bm2 ltac:(lia) ltac:(split; lia) ltac:(lia)) as (_ & _ & B & _). apply B; lia. }
  destruct (fadd_ok x (fdiv (fmul (fmul x x) x) (of_Z (-6))) Fx F0) as [V2 F2].
  { eapply Rle_trans; [apply Rabs_triang |]. apply Rle_trans with (bpow 8); [| apply bpow_le; lia]. change (bpow 7) with 128 in B0. change (bpow 8) with 256. lra. }
  rewrite S1 in V2. unfold sin_series. destruct fuel; cbn [sin_cos_series]; (rewrite feq_spec by auto; rewrite Req_bool_true by auto; reflexivity).
Qed.
Theorem sin_rel : Rabs (v x) <= 1 -> v x <> 0 -> exists y, is_finite y = true /\ Rabs (v y - sin (v x)) <= rel_tol * Rabs (v x) /\ forall fuel, (N <= fuel)%nat -> sin_series fuel x = FVal y.
Proof.
  intros B Nx. destruct (Rlt_le_dec (Rabs (v x)) (u / 4)) as [C|C]; [| now apply sin_rel_big].
  exists x. split; [exact Fx |]. split; [| intros fuel _; now apply sin_small]. eapply Rle_trans; [now apply sin_tail |]. destruct prec_facts as (U & U2 & PU & PP). pose proof (Rabs_pos (v x)).
  replace (8 / 3 * (v x * v x * Rabs (v x) / 6)) with (4 / 9 * (v x * v x) * Rabs (v x)) by field. apply Rmult_le_compat_r; [lra |].
  pose proof (sq_le (u / 4) ltac:(lra)). unfold rel_tol. lra.
Qed.
End X.
End Fmt.
