(** * Proofs: remainders, powers, norms, range reduction and inverse trigonometric functions. *)
From Coq Require Import Reals ZArith List Lra Lia Psatz.
From Flocq Require Import Raux.
From Coquelicot Require Import Coquelicot.
From Verif Require Import MathModel MathSpec MathProofs MathProofs2 MathProofs3.
Local Open Scope R_scope.

(** ** The loop of sqrt. *)
Lemma newton_run_sound a : 0 < a -> forall fuel k r,
  newton_run a fuel (newton a (S k)) (newton a k) = Some r -> r = sqrt a.
Proof.
intro H.
assert (D : forall k, newton a (S k) = newton a k -> newton a (S k) = sqrt a).
{ intros k E. rewrite E. exact (newton_fix a H _ (newton_pos a H k) E). }
induction fuel as [|f IH]; intros k r; cbn [newton_run]; destruct (Req_EM_T (newton a (S k)) (newton a k)) as [E|N].
- intros [= <-]. exact (D k E).
- easy.
- intros [= <-]. exact (D k E).
- intro E. exact (IH (S k) r E).
Qed.

Lemma newton_loop_sound a fuel r : 0 < a -> newton_run a fuel (/ 2 * a) 0 = Some r -> r = sqrt a.
Proof.
intros H. destruct fuel as [|f]; cbn [newton_run]; (destruct (Req_EM_T (/ 2 * a) 0); [lra|]); [easy|].
intro E. apply (newton_run_sound a H f 0 r). exact E.
Qed.

(** ** fmod. *)
Lemma trunc_remainder x y : y <> 0 -> c_remainder x y (x - IZR (Ztrunc (x / y)) * y) (Ztrunc (x / y)).
Proof.
intro N. unfold c_remainder. assert (X : x = x / y * y) by (field; exact N). set (q := x / y) in *.
assert (M : 0 < y * y) by (destruct (Rtotal_order y 0) as [?|[?|?]]; nra || lra).
destruct (Rle_dec 0 q) as [P|P].
- destruct (Ztrunc_pos q P) as [[L U] Z]. assert (Z0 : 0 <= IZR (Ztrunc q)) by (apply IZR_le; exact Z).
  set (n := IZR (Ztrunc q)) in *. rewrite X.
  assert (D : q * y - n * y = (q - n) * y) by ring.
  split; [ring|]. rewrite D. split; [|split].
  + rewrite Rabs_mult, (Rabs_pos_eq (q - n)) by lra. assert (0 < Rabs y) by (apply Rabs_pos_lt; exact N). nra.
  + replace ((q - n) * y * (q * y)) with ((q - n) * q * (y * y)) by ring. apply Rmult_le_pos; [apply Rmult_le_pos|]; lra.
  + destruct (Req_dec n 0) as [E|E]; [left; rewrite E; ring|right].
    replace (n * y * (q * y)) with (n * q * (y * y)) by ring. apply Rmult_lt_0_compat; [|exact M]. nra.
- destruct (Ztrunc_neg q) as [[L U] Z]; [lra|]. assert (Z0 : IZR (Ztrunc q) <= 0) by (apply IZR_le; exact Z).
  set (n := IZR (Ztrunc q)) in *. rewrite X.
  assert (D : q * y - n * y = (q - n) * y) by ring.
  split; [ring|]. rewrite D. split; [|split].
  + rewrite Rabs_mult, (Rabs_left1 (q - n)) by lra. assert (0 < Rabs y) by (apply Rabs_pos_lt; exact N). nra.
  + replace ((q - n) * y * (q * y)) with ((n - q) * (- q) * (y * y)) by ring. apply Rmult_le_pos; [apply Rmult_le_pos|]; lra.
  + destruct (Req_dec n 0) as [E|E]; [left; rewrite E; ring|right].
    replace (n * y * (q * y)) with ((- n) * (- q) * (y * y)) by ring. apply Rmult_lt_0_compat; [|exact M]. nra.
Qed.

Lemma trunc_range q : IZR (- 2 ^ 63) <= q < IZR (2 ^ 63) -> (intmax_min <= Ztrunc q <= intmax_max)%Z.
Proof.
intros [L U]. unfold intmax_min, intmax_max. destruct (Rle_dec 0 q) as [P|P].
- destruct (Ztrunc_pos q P) as [[A B] Z]. assert (I : IZR (Ztrunc q) < IZR (2 ^ 63)) by lra. apply lt_IZR in I. lia.
- destruct (Ztrunc_neg q) as [[A B] Z]; [lra|]. assert (I : IZR (- 2 ^ 63) <= IZR (Ztrunc q)) by lra. apply le_IZR in I. lia.
Qed.

Lemma to_intmax_val q k : IZR (- 2 ^ 63) <= q < IZR (2 ^ 63) -> to_intmax q k = k (Ztrunc q).
Proof.
intro H. apply trunc_range in H. unfold to_intmax.
now rewrite (proj2 (Z.leb_le _ _) (proj1 H)), (proj2 (Z.leb_le _ _) (proj2 H)).
Qed.

Lemma fmod_val x y : y <> 0 -> IZR (- 2 ^ 63) <= x / y < IZR (2 ^ 63) ->
  fmod x y = Val (x - IZR (Ztrunc (x / y)) * y).
Proof.
intros N H. unfold fmod. destruct (Req_EM_T y 0); [easy|].
destruct (Req_EM_T x 0) as [->|X].
- f_equal. replace (0 / y) with (IZR 0) by (unfold Rdiv; ring). rewrite Ztrunc_IZR. ring.
- cbv zeta. destruct (Rlt_dec (x / y) low) as [L|L]; [unfold low in L; lra|].
  destruct (Rlt_dec high (x / y)) as [U|U]; [unfold high in U; lra|].
  now rewrite to_intmax_val.
Qed.

(** ** Whole turns. *)
Lemma sin_turn (n : Z) t : sin (t - IZR n * (PI * 2)) = sin t.
Proof.
assert (P : forall k u, sin (u + 2 * INR k * PI) = sin u) by (intros; apply sin_period).
destruct (Z.le_gt_cases 0 n) as [H|H].
- rewrite <- (Z2Nat.id n H), <- INR_IZR_INZ. rewrite <- (P (Z.to_nat n)). f_equal. ring.
- replace n with (- Z.of_nat (Z.to_nat (- n)))%Z by lia. rewrite opp_IZR, <- INR_IZR_INZ.
  rewrite <- (P (Z.to_nat (- n)) t). f_equal. ring.
Qed.
Lemma cos_turn (n : Z) t : cos (t - IZR n * (PI * 2)) = cos t.
Proof.
assert (P : forall k u, cos (u + 2 * INR k * PI) = cos u) by (intros; apply cos_period).
destruct (Z.le_gt_cases 0 n) as [H|H].
- rewrite <- (Z2Nat.id n H), <- INR_IZR_INZ. rewrite <- (P (Z.to_nat n)). f_equal. ring.
- replace n with (- Z.of_nat (Z.to_nat (- n)))%Z by lia. rewrite opp_IZR, <- INR_IZR_INZ.
  rewrite <- (P (Z.to_nat (- n)) t). f_equal. ring.
Qed.
Lemma turn_same n t : same_angle (t - IZR n * (PI * 2)) t.
Proof. split; [apply sin_turn|apply cos_turn]. Qed.
Lemma same_trans a b c : same_angle a b -> same_angle b c -> same_angle a c.
Proof. intros [H K] [H' K']. split; congruence. Qed.

Lemma pi2_pos : 0 < PI * 2.
Proof. pose proof PI_RGT_0. lra. Qed.
Lemma quot_pi2 theta c : (theta - PI * 2 * c) / (PI * 2) = theta / (PI * 2) - c.
Proof. pose proof pi2_pos. field. lra. Qed.

(** ** Range reduction. *)
Lemma double_while_val theta : forall fuel j, theta / (PI * 2) <= high + 2 ^ (j + fuel) ->
  exists k, double_while fuel (fun corr => gtb ((theta - corr) / (PI * 2)) high) (PI * 2 * 2 ^ j) = Some (PI * 2 * 2 ^ k) /\
    theta / (PI * 2) - 2 ^ k <= high /\ (k = j \/ exists i, k = S i /\ high < theta / (PI * 2) - 2 ^ i).
Proof.
induction fuel as [|f IH]; intros j H; cbn [double_while].
- rewrite quot_pi2, Nat.add_0_r in *.
  destruct (gtb (theta / (PI * 2) - 2 ^ j) high) eqn:G; [apply gtb_true in G; lra|apply gtb_false in G].
  exists j. split; [easy|]. split; [exact G|now left].
- rewrite quot_pi2.
  destruct (gtb (theta / (PI * 2) - 2 ^ j) high) eqn:G; [apply gtb_true in G|apply gtb_false in G].
  + destruct (IH (S j)) as (k & E & A & B); [replace (S j + f)%nat with (j + S f)%nat by lia; exact H|].
    exists k. replace (PI * 2 * 2 ^ j * 2) with (PI * 2 * 2 ^ S j) by (simpl; ring). split; [exact E|]. split; [exact A|].
    right. destruct B as [->|B]; [exists j; auto|exact B].
  + exists j. split; [easy|]. split; [exact G|now left].
Qed.

Lemma double_while_ext f g : (forall c, f c = g c) -> forall fuel c, double_while fuel f c = double_while fuel g c.
Proof. intro H. induction fuel as [|n IH]; intro c; cbn [double_while]; rewrite H; [easy|]. now rewrite IH. Qed.

Lemma high_pos : 1 <= high.
Proof. unfold high. apply IZR_le. lia. Qed.
Lemma low_high : low = - high.
Proof. unfold low, high. rewrite <- opp_IZR. f_equal. Qed.

(** What a reduced angle satisfies. *)
Definition reduced (theta : R) (o : out) : Prop :=
  o = UB \/ exists t, o = Val t /\ - (PI * 2) < t < PI * 2 /\ same_angle t theta.

Lemma pow2_IZR k : exists n : Z, 2 ^ k = IZR n.
Proof. exists (2 ^ Z.of_nat k)%Z. rewrite <- pow_IZR. reflexivity. Qed.

Lemma scale_done theta fuel : IZR (- 2 ^ 63) <= theta / (PI * 2) < IZR (2 ^ 63) ->
  exists t, scale_periodic (S fuel) theta = Some (Val t) /\ - (PI * 2) < t < PI * 2 /\ same_angle t theta.
Proof.
intro H. cbn [scale_periodic].
destruct (gtb theta (- (PI * 2)) && gtb (PI * 2) theta)%bool eqn:E.
- apply andb_prop in E as [E1 E2]. apply gtb_true in E1. apply gtb_true in E2. exists theta.
  split; [easy|]. split; [lra|]. now split.
- rewrite (proj2 (geb_true (theta / (PI * 2)) low)) by (unfold low; lra).
  rewrite (proj2 (geb_true high (theta / (PI * 2)))) by (unfold high; lra). cbn [andb].
  rewrite to_intmax_val by exact H. eexists. split; [reflexivity|]. split; [|apply turn_same].
  pose proof pi2_pos as P. destruct (trunc_remainder theta (PI * 2)) as (_ & A & _); [lra|].
  rewrite (Rabs_pos_eq (PI * 2)) in A by lra. apply Rabs_def2 in A. lra.
Qed.

Lemma scale_periodic_val n : forall theta K fuel, Rabs (theta / (PI * 2)) <= high * INR (S n) -> 
  Rabs (theta / (PI * 2)) <= 2 ^ K -> (S K + n <= fuel)%nat ->
  exists o, scale_periodic fuel theta = Some o /\ reduced theta o.
Proof.
pose proof pi2_pos as P. pose proof high_pos as HP.
induction n as [|n IH]; intros theta K fuel Hn HK Hf.
- change (INR 1) with 1 in Hn. rewrite Rmult_1_r in Hn. apply Rabs_le_between in Hn.
  destruct fuel as [|fuel]; [lia|].
  destruct (Req_dec (theta / (PI * 2)) high) as [Eq|Ne].
  + cbn [scale_periodic]. 
    assert (T : theta = high * (PI * 2)) by (rewrite <- Eq; field; lra).
    destruct (gtb theta (- (PI * 2)) && gtb (PI * 2) theta)%bool eqn:E.
    * eexists. split; [reflexivity|]. right. exists theta. apply andb_prop in E as [E1 E2].
      apply gtb_true in E1. apply gtb_true in E2. split; [easy|]. split; [lra|now split].
    * rewrite Eq, low_high. rewrite (proj2 (geb_true high (- high))) by lra. rewrite (proj2 (geb_true high high)) by lra.
      cbn [andb]. eexists. split; [reflexivity|]. left. unfold to_intmax, high. rewrite Ztrunc_IZR. reflexivity.
  + destruct (scale_done theta fuel) as (t & E & B); [unfold high in *; rewrite opp_IZR; lra|].
    exists (Val t). split; [exact E|]. right. exists t. tauto.
- destruct (Rle_dec (Rabs (theta / (PI * 2))) (high * INR (S n))) as [L|L]; [apply (IH theta K fuel); [exact L|exact HK|lia]|].
  destruct fuel as [|fuel]; [lia|].
  assert (H1 : 1 <= INR (S n)) by (change 1 with (INR 1); apply le_INR; lia).
  assert (big : high < Rabs (theta / (PI * 2))) by nra.
  assert (T1 : theta = theta / (PI * 2) * (PI * 2)) by (field; lra).
  assert (reduce : forall theta' k, theta' / (PI * 2) <= high + 2 ^ S K -> high < theta' / (PI * 2) ->
     theta' / (PI * 2) - 2 ^ k <= high -> (k = O \/ exists i, k = S i /\ high < theta' / (PI * 2) - 2 ^ i) ->
     Rabs ((theta' - PI * 2 * 2 ^ k) / (PI * 2)) <= theta' / (PI * 2) /\
     Rabs ((theta' - PI * 2 * 2 ^ k) / (PI * 2)) <= Rmax high (theta' / (PI * 2) - 2 * high)).
  { intros th k A B C D. rewrite quot_pi2. set (q := th / (PI * 2)) in *. unfold Rmax.
    destruct D as [->|(i & -> & D)].
    - simpl in *. assert (0 <= q - 1) by lra. rewrite Rabs_pos_eq by lra. destruct (Rle_dec high (q - 2 * high)); lra.
    - rewrite <- tech_pow_Rmult in *. destruct (Rle_dec 0 (q - 2 * 2 ^ i)) as [S1|S1].
      + rewrite Rabs_pos_eq by lra. destruct (Rle_dec high (q - 2 * high)); lra.
      + rewrite Rabs_left1 by lra. destruct (Rle_dec high (q - 2 * high)); lra. }
  assert (next : forall q' : R, q' <= Rmax high (Rabs (theta / (PI * 2)) - 2 * high) -> q' <= high * INR (S n)).
  { intro q'. rewrite (S_INR (S n)) in Hn. unfold Rmax. destruct (Rle_dec high (Rabs (theta / (PI * 2)) - 2 * high)); nra. }
  assert (KK : 2 ^ K <= 2 ^ S fuel) by (apply Rle_pow; [lra|lia]).
  cbn [scale_periodic].
  destruct (gtb theta (- (PI * 2)) && gtb (PI * 2) theta)%bool eqn:E.
  { exfalso. apply andb_prop in E as [E1 E2]. apply gtb_true in E1. apply gtb_true in E2.
    assert (Rabs (theta / (PI * 2)) < 1); [|lra].
    apply Rabs_def1; apply (Rmult_lt_reg_r (PI * 2)); lra. }
  destruct (geb (theta / (PI * 2)) low && geb high (theta / (PI * 2)))%bool eqn:E'.
  { exfalso. apply andb_prop in E' as [E1 E2]. apply geb_true in E1. apply geb_true in E2. rewrite low_high in E1.
    assert (Rabs (theta / (PI * 2)) <= high) by (apply Rabs_le; lra). lra. }
  destruct (gtb theta 0) eqn:G; [apply gtb_true in G|apply gtb_false in G].
  + assert (Q : 0 < theta / (PI * 2)) by (apply Rdiv_lt_0_compat; lra).
    rewrite (Rabs_pos_eq (theta / (PI * 2))) in * by lra.
    destruct (double_while_val theta (S fuel) 0) as (k & D & A & B); [rewrite Nat.add_0_l; lra|].
    rewrite pow_O, Rmult_1_r in D. rewrite D.
    destruct (reduce theta k) as [R1 R2]; [|exact big|exact A|exact B|].
    { assert (2 ^ K <= 2 ^ S K) by (apply Rle_pow; [lra|lia]). lra. }
    destruct (IH (theta - PI * 2 * 2 ^ k) K fuel) as (o & O & V); [apply next; exact R2|lra|lia|].
    exists o. split; [exact O|]. destruct V as [->|(t & -> & B1 & B2)]; [now left|right].
    exists t. split; [easy|]. split; [exact B1|]. eapply same_trans; [exact B2|].
    destruct (pow2_IZR k) as [z ->]. replace (PI * 2 * IZR z) with (IZR z * (PI * 2)) by ring. apply turn_same.
  + assert (N : theta / (PI * 2) = - (- theta / (PI * 2))) by (unfold Rdiv; ring).
    assert (Q : 0 <= - theta / (PI * 2)) by (apply Rmult_le_pos; [lra|apply Rlt_le, Rinv_0_lt_compat, P]).
    rewrite N, Rabs_Ropp, (Rabs_pos_eq (- theta / (PI * 2))) in * by lra.
    rewrite (double_while_ext _ (fun corr => gtb ((- theta - corr) / (PI * 2)) high)).
    2: { intro c. unfold gtb. rewrite low_high. replace ((- theta - c) / (PI * 2)) with (- ((theta + c) / (PI * 2))) by (unfold Rdiv; ring).
         destruct (Rlt_dec ((theta + c) / (PI * 2)) (- high)), (Rlt_dec high (- ((theta + c) / (PI * 2)))); try easy; lra. }
    destruct (double_while_val (- theta) (S fuel) 0) as (k & D & A & B); [rewrite Nat.add_0_l; lra|].
    rewrite pow_O, Rmult_1_r in D. rewrite D.
    destruct (reduce (- theta) k) as [R1 R2]; [|exact big|exact A|exact B|].
    { assert (2 ^ K <= 2 ^ S K) by (apply Rle_pow; [lra|lia]). lra. }
    assert (F : Rabs ((theta + PI * 2 * 2 ^ k) / (PI * 2)) = Rabs ((- theta - PI * 2 * 2 ^ k) / (PI * 2))).
    { rewrite <- (Rabs_Ropp ((theta + _) / _)). f_equal. unfold Rdiv. ring. }
    destruct (IH (theta + PI * 2 * 2 ^ k) K fuel) as (o & O & V); [rewrite F; apply next; exact R2|rewrite F; lra|lia|].
    exists o. split; [exact O|]. destruct V as [->|(t & -> & B1 & B2)]; [now left|right].
    exists t. split; [easy|]. split; [exact B1|]. eapply same_trans; [exact B2|].
    destruct (pow2_IZR k) as [z ->]. replace (theta + PI * 2 * IZR z) with (theta - IZR (- z) * (PI * 2)) by (rewrite opp_IZR; ring).
    apply turn_same.
Qed.

(** ** Norms. *)
Lemma abs_val a : abs_ a = Rabs a.
Proof. unfold abs_. destruct (Rlt_dec a 0); [rewrite Rabs_left|rewrite Rabs_pos_eq]; lra. Qed.

Lemma fold_max_ge l : forall m, m <= fold_left Rmax l m /\ (forall a, In a l -> a <= fold_left Rmax l m).
Proof.
induction l as [|b l IH]; intro m; simpl.
- split; [lra|easy].
- destruct (IH (Rmax m b)) as [A B]. split.
  + eapply Rle_trans; [apply (Rmax_l m b)|exact A].
  + intros a [->|H]; [eapply Rle_trans; [apply (Rmax_r m a)|exact A]|apply B, H].
Qed.

Lemma fold_squares m l : forall s, m <> 0 -> fold_left Rplus (map (fun a => (a / m) * (a / m)) l) s = s + sum_sq l / (m * m).
Proof.
induction l as [|a l IH]; intros s N; simpl.
- field. exact N.
- rewrite IH by exact N. field. exact N.
Qed.

Lemma sum_sq_nonneg l : 0 <= sum_sq l.
Proof. induction l as [|a l IH]; simpl; [lra|]. pose proof (Rle_0_sqr a). unfold Rsqr in *. lra. Qed.
Lemma sum_sq_zero l : (forall a, In a l -> a = 0) -> sum_sq l = 0.
Proof. induction l as [|a l IH]; simpl; intro H; [easy|]. rewrite (H a), IH; auto. ring. Qed.

Lemma hypot_val x l : hypot (x :: l) = Val (sqrt (sum_sq (x :: l))).
Proof.
destruct l as [|y l].
- cbn [hypot]. rewrite abs_val. f_equal. simpl. rewrite Rplus_0_r. symmetry. exact (sqrt_Rsqr_abs x).
- unfold hypot. remember (y :: l) as r eqn:Er. clear Er y l.
  destruct (fold_max_ge (map abs_ r) (abs_ x)) as [A B]. cbv zeta.
  set (m := fold_left Rmax (map abs_ r) (abs_ x)) in *.
  assert (M0 : 0 <= m) by (rewrite abs_val in A; pose proof (Rabs_pos x); lra).
  destruct (Req_EM_T m 0) as [Z|N].
  + rewrite Z. f_equal. rewrite sum_sq_zero; [now rewrite sqrt_0|].
    assert (W : forall a, Rabs a <= 0 -> a = 0) by (intros a H; pose proof (Rabs_pos a); apply Rcomplements.Rabs_eq_0; lra).
    intros a [<-|H]; apply W; rewrite <- abs_val; [lra|]. rewrite <- Z. apply B. now apply in_map.
  + rewrite fold_squares by exact N.
    replace (x / m * (x / m) + sum_sq r / (m * m)) with (sum_sq (x :: r) / (m * m)) by (simpl; field; exact N).
    assert (MM : 0 < m * m) by nra. pose proof (sum_sq_nonneg (x :: r)) as S.
    rewrite sqrt_val by (apply Rmult_le_pos; [exact S|apply Rlt_le, Rinv_0_lt_compat, MM]).
    cbn [bind]. f_equal. rewrite sqrt_div_alt by exact MM. rewrite sqrt_square by exact M0. field. exact N.
Qed.

(** ** Integer powers. *)
Lemma powerRZ_nz x n : x <> 0 -> powerRZ x n <> 0.
Proof. intro H. apply powerRZ_NOR. exact H. Qed.

Lemma pow_integral_pos lowest m : (lowest < 0)%Z -> forall x n fuel, x <> 0 -> (0 <= n < 2 ^ Z.of_nat m)%Z -> (2 * m + 1 <= fuel)%nat ->
  pow_integral lowest fuel x n = Some (Val (powerRZ x n)).
Proof.
intro L. induction m as [|m IH]; intros x n fuel X Hn Hf.
- destruct fuel as [|fuel]; [lia|]. now replace n with 0%Z by (simpl in Hn; lia).
- replace (2 ^ Z.of_nat (S m))%Z with (2 * 2 ^ Z.of_nat m)%Z in Hn by (rewrite Nat2Z.inj_succ, Z.pow_succ_r; lia).
  assert (XE : (if Req_EM_T x 0 then true else false) = false) by (destruct (Req_EM_T x 0); easy).
  assert (EV : forall y f, (0 < y < 2 * 2 ^ Z.of_nat m)%Z -> Z.rem y 2 <> 1%Z -> (2 * m + 2 <= f)%nat ->
    pow_integral lowest f x y = Some (Val (powerRZ x y))).
  { intros y f Hy Ey Hff. destruct f as [|f]; [lia|]. cbn [pow_integral]. rewrite XE.
    destruct (Z.eqb_spec y 0); [lia|]. destruct (Z.ltb_spec y 0); [lia|]. cbn [negb andb].
    destruct (Z.eqb_spec (Z.rem y 2) 1); [easy|]. destruct (Z.eqb_spec y lowest); [lia|].
    pose proof (rem_quot_even y ltac:(lia) Ey) as E.
    rewrite Z.rem_opp_l by lia.
    pose proof (Z.rem_bound_pos y 2 ltac:(lia) ltac:(lia)).
    destruct (Z.eqb_spec (- Z.rem y 2) 1); [lia|]. destruct (Req_EM_T x 0); [easy|].
    rewrite IH; [|exact X|lia|lia]. cbn [bind]. rewrite <- powerRZ_add by exact X. do 3 f_equal. lia. }
  destruct fuel as [|fuel]; [lia|].
  destruct (Z.eq_dec n 0) as [->|N0]; [reflexivity|].
  destruct (Z.eq_dec (Z.rem n 2) 1) as [O|O].
  + cbn [pow_integral]. rewrite XE. destruct (Z.eqb_spec n 0); [lia|]. destruct (Z.ltb_spec n 0); [lia|]. cbn [negb andb].
    rewrite O. cbn [Z.eqb Pos.eqb]. destruct (Req_EM_T x 0); [easy|].
    assert (E : pow_integral lowest fuel x (n - 1) = Some (Val (powerRZ x (n - 1)))).
    { destruct (Z.eq_dec n 1) as [->|N1]; [destruct fuel; [lia|reflexivity]|].
      pose proof (Z.quot_rem n 2 ltac:(lia)) as Q. apply EV; [lia| |lia].
      replace (n - 1)%Z with (2 * Z.quot n 2)%Z by lia. rewrite Z.mul_comm, Z.rem_mul; lia. }
    rewrite E. cbn [option_map bind]. do 2 f_equal. rewrite <- (powerRZ_1 x) at 1. rewrite <- powerRZ_add by exact X. f_equal. lia.
  + apply EV; [lia|exact O|lia].
Qed.

Lemma pow_integral_val lowest m x n fuel : (lowest < 0)%Z -> x <> 0 -> (lowest < n)%Z -> (Z.abs n < 2 ^ Z.of_nat m)%Z ->
  (2 * m + 2 <= fuel)%nat -> pow_integral lowest fuel x n = Some (Val (powerRZ x n)).
Proof.
intros L X Hl Hn Hf. destruct (Z.ltb_spec n 0) as [N|N]; [|apply (pow_integral_pos lowest m L); [exact X|lia|lia]].
destruct fuel as [|fuel]; [lia|]. cbn [pow_integral].
assert (XE : (if Req_EM_T x 0 then true else false) = false) by (destruct (Req_EM_T x 0); easy). rewrite XE.
destruct (Z.eqb_spec n 0); [lia|]. destruct (Z.ltb_spec n 0); [|lia]. cbn [negb andb].
destruct (Z.eqb_spec n lowest); [lia|].
rewrite (pow_integral_pos lowest m L); [|exact X|lia|lia]. cbn [option_map bind]. do 2 f_equal.
rewrite powerRZ_neg by exact X. rewrite powerRZ_inv by exact X. unfold Rdiv. rewrite Rmult_1_l, Rinv_inv. reflexivity.
Qed.

(** ** Inverse trigonometric functions. *)
Lemma invsq2_bounds : 0 < sqrt 2 * (1 / 2) < 1 /\ (sqrt 2 * (1 / 2)) * (sqrt 2 * (1 / 2)) = / 2.
Proof.
pose proof (sqrt_lt_R0 2 ltac:(lra)) as P. pose proof (sqrt_sqrt 2 ltac:(lra)) as S.
split; [|nra]. split; [lra|]. nra.
Qed.

Lemma asin_in x : Rabs x < 1 -> Rabs x <= sqrt 2 * (1 / 2) -> forall f, asin_impl (S f) x = Some (Val (asin x)).
Proof.
intros H1 H f. cbn [asin_impl]. pose proof invsq2_bounds as [B _].
apply Rabs_le_between in H.
rewrite (proj2 (geb_true x (- (sqrt 2 * (1 / 2))))) by lra. rewrite (proj2 (geb_true (sqrt 2 * (1 / 2)) x)) by lra. cbn [andb].
now rewrite asin_series_val.
Qed.

Lemma asin_sqrt_pos x : 0 <= x <= 1 -> asin (sqrt (1 - x * x)) = PI / 2 - asin x.
Proof.
intro H. change (x * x) with (x²). rewrite <- cos_asin by lra. rewrite <- sin_shift. apply asin_sin.
pose proof (asin_bound x) as B. assert (0 <= asin x); [|lra].
destruct (Rle_dec 0 (asin x)) as [L|L]; [exact L|exfalso].
assert (N : sin (asin x) < 0) by (apply sin_lt_0_var; pose proof PI_RGT_0; lra). rewrite sin_asin in N; lra.
Qed.

Lemma asin_opp_ x : -1 <= x <= 1 -> asin (- x) = - asin x.
Proof. intros _. apply asin_opp. Qed.

Lemma asin_val x : -1 <= x <= 1 -> asin_ x = Val (asin x).
Proof.
intro H. unfold asin_, run. pose proof invsq2_bounds as [B S].
destruct (Rle_dec (Rabs x) (sqrt 2 * (1 / 2))) as [L|L].
- rewrite asin_in; [easy| |exact L]. lra.
- assert (sq : -1 < x < 1 -> sqrt_ (1 - x * x) = Val (sqrt (1 - x * x)) /\ Rabs (sqrt (1 - x * x)) <= sqrt 2 * (1 / 2)).
  { intro K. split; [apply sqrt_val; nra|].
    rewrite Rabs_pos_eq by apply sqrt_pos. rewrite <- (sqrt_square (sqrt 2 * (1 / 2))) by lra. apply sqrt_le_1_alt. rewrite S.
    assert (/ 2 < x * x); [|lra]. rewrite <- S. replace (x * x) with (Rabs x * Rabs x) by (rewrite <- Rabs_mult; apply Rabs_pos_eq; nra).
    apply Rmult_le_0_lt_compat; lra. }
  change (asin_impl 2 x) with (asin_impl (Datatypes.S 1) x). remember 1%nat as f eqn:Ef. cbn [asin_impl].
  destruct (geb x (- (sqrt 2 * (1 / 2))) && geb (sqrt 2 * (1 / 2)) x)%bool eqn:E1.
  { exfalso. apply andb_prop in E1 as [A1 A2]. apply geb_true in A1. apply geb_true in A2. apply L. apply Rabs_le. lra. }
  destruct (gtb x (sqrt 2 * (1 / 2)) && gtb 1 x)%bool eqn:E2.
  { apply andb_prop in E2 as [A1 A2]. apply gtb_true in A1. apply gtb_true in A2. destruct sq as [-> Q]; [lra|].
    subst f. rewrite asin_in; [|lra|exact Q]. cbn [option_map bind]. f_equal. rewrite asin_sqrt_pos by lra. lra. }
  destruct (gtb x (-1) && gtb (- (sqrt 2 * (1 / 2))) x)%bool eqn:E3.
  { apply andb_prop in E3 as [A1 A2]. apply gtb_true in A1. apply gtb_true in A2. destruct sq as [-> Q]; [lra|].
    subst f. rewrite asin_in; [|lra|exact Q]. cbn [option_map bind]. f_equal.
    replace (x * x) with (- x * - x) by ring. rewrite asin_sqrt_pos by lra. rewrite asin_opp. lra. }
  destruct (Req_EM_T x 1) as [->|N1]; [f_equal; rewrite asin_1; lra|].
  destruct (Req_EM_T x (-1)) as [->|N2]; [f_equal; replace (-1) with (- (1)) by ring; rewrite asin_opp, asin_1; lra|].
  exfalso. apply Bool.andb_false_iff in E2, E3.
  rewrite !gtb_false in E2, E3. apply L. apply Rabs_le. destruct E2, E3; lra.
Qed.

Lemma asin_nan x : x < -1 \/ 1 < x -> asin_ x = NaN.
Proof.
intro H. unfold asin_, run. pose proof invsq2_bounds as [B S]. cbn [asin_impl].
destruct (geb x (- (sqrt 2 * (1 / 2))) && geb (sqrt 2 * (1 / 2)) x)%bool eqn:E1.
{ exfalso. apply andb_prop in E1 as [A1 A2]. apply geb_true in A1. apply geb_true in A2. lra. }
destruct (gtb x (sqrt 2 * (1 / 2)) && gtb 1 x)%bool eqn:E2.
{ exfalso. apply andb_prop in E2 as [A1 A2]. apply gtb_true in A1. apply gtb_true in A2. lra. }
destruct (gtb x (-1) && gtb (- (sqrt 2 * (1 / 2))) x)%bool eqn:E3.
{ exfalso. apply andb_prop in E3 as [A1 A2]. apply gtb_true in A1. apply gtb_true in A2. lra. }
destruct (Req_EM_T x 1); [lra|]. destruct (Req_EM_T x (-1)); [lra|]. reflexivity.
Qed.

Lemma atan_impl_val x : atan_impl x = Val (atan x).
Proof.
unfold atan_impl. assert (P : 0 < 1 + x * x) by (pose proof (Rle_0_sqr x); unfold Rsqr in *; lra).
rewrite sqrt_val by lra. cbn [bind].
assert (E : x / sqrt (1 + x * x) = sin (atan x)) by (rewrite sin_atan; reflexivity).
rewrite E, asin_val by (destruct (SIN_bound (atan x)); lra). f_equal. apply asin_sin. pose proof (atan_bound x). lra.
Qed.

(** The angle of a point on the right, and its rotation by half a turn. *)
Lemma angle_right a b : 0 < a -> angle_of a b (atan (b / a)).
Proof.
intro H. set (t := atan (b / a)). assert (C : 0 < cos t) by (apply cos_gt_0; unfold t; pose proof (atan_bound (b / a)); lra).
assert (T : sin t / cos t = b / a) by (fold (tan t); unfold t; apply tan_atan).
exists (a / cos t). split; [now apply Rdiv_lt_0_compat|]. split; [field; lra|].
replace (a / cos t * sin t) with (a * (sin t / cos t)) by (field; lra). rewrite T. field. lra.
Qed.
Lemma angle_left a b : a < 0 -> angle_of a b (atan (b / a) + PI) /\ angle_of a b (atan (b / a) - PI).
Proof.
intro H. destruct (angle_right (- a) (- b)) as (r & R & X & Y); [lra|].
replace (- b / - a) with (b / a) in * by (field; lra).
split; exists r; (split; [exact R|]).
- rewrite neg_cos, neg_sin. lra.
- replace (atan (b / a) - PI) with (- (PI - atan (b / a))) by ring.
  rewrite cos_neg, sin_neg, sin_PI_x. rewrite Rtrigo_facts.cos_pi_minus. lra.
Qed.
