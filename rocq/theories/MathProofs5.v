(** * Proofs: trigonometric, hyperbolic and inverse functions as called. *)
From Coq Require Import Reals ZArith List Lra Lia Psatz.
From Flocq Require Import Raux.
From Coquelicot Require Import Coquelicot.
From Verif Require Import MathModel MathSpec MathProofs MathProofs2 MathProofs3 MathProofs4.
Local Open Scope R_scope.

Lemma scale_total theta : exists N, forall fuel, (N <= fuel)%nat -> exists o, scale_periodic fuel theta = Some o /\ reduced theta o.
Proof.
destruct (pow2_unbounded (Rabs (theta / (PI * 2)))) as [k HK].
pose proof high_pos as HP.
assert (X : exists n, Rabs (theta / (PI * 2)) < INR n).
{ exists (Z.to_nat (up (Rabs (theta / (PI * 2))))). pose proof (archimed (Rabs (theta / (PI * 2)))) as [A _].
  pose proof (Rabs_pos (theta / (PI * 2))) as B. rewrite INR_IZR_INZ, Z2Nat.id; [lra|]. apply le_IZR. lra. }
destruct X as [n Hn].
exists (S (4 * S k) + n)%nat. intros fuel Hf. apply (scale_periodic_val n theta (4 * S k)); [|lra|exact Hf].
rewrite S_INR. pose proof (pos_INR n). nra.
Qed.

Lemma sin_reduced t : sin_cos_impl 4 t t (t * t * t / -6) = sin t.
Proof. apply sin_impl_val. Qed.
Lemma cos_reduced t : sin_cos_impl 3 t 1 (- (1 / 2) * t * t) = cos t.
Proof. rewrite cos_impl_val. ring. Qed.

Lemma sin_in_range theta fuel : IZR (- 2 ^ 63) <= theta / (PI * 2) < IZR (2 ^ 63) -> (1 <= fuel)%nat ->
  sin_ fuel theta = Some (Val (sin theta)).
Proof.
intros H F. destruct fuel as [|f]; [lia|]. destruct (scale_done theta f H) as (t & E & _ & S & _).
unfold sin_. rewrite E. cbn [option_map bind]. now rewrite sin_reduced, S.
Qed.
Lemma cos_in_range theta fuel : IZR (- 2 ^ 63) <= theta / (PI * 2) < IZR (2 ^ 63) -> (1 <= fuel)%nat ->
  cos_ fuel theta = Some (Val (cos theta)).
Proof.
intros H F. destruct fuel as [|f]; [lia|]. destruct (scale_done theta f H) as (t & E & _ & _ & S).
unfold cos_. rewrite E. cbn [option_map bind]. now rewrite cos_reduced, S.
Qed.
Lemma tan_in_range theta fuel : IZR (- 2 ^ 63) <= theta / (PI * 2) < IZR (2 ^ 63) -> (1 <= fuel)%nat -> cos theta <> 0 ->
  tan_ fuel theta = Some (Val (tan theta)).
Proof.
intros H F C. unfold tan_. destruct (Req_EM_T theta 0) as [->|N]; [now rewrite tan_0|].
rewrite sin_in_range, cos_in_range by assumption. cbn [bind]. unfold quot. destruct (Req_EM_T (cos theta) 0); easy.
Qed.

Lemma sinh_val x : exp_low < x < exp_high -> sinh_ x = Val (sinh x).
Proof.
intro H. unfold sinh_. destruct (Req_EM_T x 0) as [->|N]; [now rewrite sinh_0|].
rewrite exp_val by exact H. cbn [bind]. unfold sinh. rewrite exp_Ropp. f_equal. field. apply Rgt_not_eq, exp_pos.
Qed.
Lemma cosh_val x : exp_low < x < exp_high -> cosh_ x = Val (cosh x).
Proof.
intro H. unfold cosh_. rewrite exp_val by exact H. cbn [bind]. unfold cosh. rewrite exp_Ropp. f_equal. field. apply Rgt_not_eq, exp_pos.
Qed.
Lemma tanh_val x : exp_low < x < exp_high -> tanh_ x = Val (tanh x).
Proof.
intro H. unfold tanh_. destruct (Req_EM_T x 0) as [->|N]; [unfold tanh; rewrite sinh_0; f_equal; field; rewrite cosh_0; lra|].
rewrite exp_val by exact H. cbn [bind]. cbv zeta. unfold tanh, sinh, cosh. rewrite exp_Ropp. pose proof (exp_pos x). f_equal. field. nra.
Qed.

Lemma asinh_pos x : 0 < x + sqrt (x * x + 1).
Proof.
assert (H : Rabs x < sqrt (x * x + 1)).
{ rewrite <- sqrt_Rsqr_abs. apply sqrt_lt_1_alt. unfold Rsqr. split; [apply Rle_0_sqr|lra]. }
apply Rabs_def2 in H. lra.
Qed.
Lemma asinh_val x : exists y, sinh y = x /\ exists N, forall fuel, (N <= fuel)%nat -> asinh_ fuel x = Some (Val y).
Proof.
unfold asinh_. destruct (Req_EM_T x 0) as [->|Nx]; [exists 0; split; [apply sinh_0|exists O; easy]|].
assert (P : 0 <= x * x + 1) by (pose proof (Rle_0_sqr x); unfold Rsqr in *; lra). rewrite sqrt_val by exact P.
exists (ln (x + sqrt (x * x + 1))). split; [|apply log_val, asinh_pos].
pose proof (sinh_arcsinh x) as S. unfold arcsinh in S. replace (x ^ 2) with (x * x) in S by ring. exact S.
Qed.
Lemma acosh_val x : 1 <= x -> exists y, 0 <= y /\ cosh y = x /\ exists N, forall fuel, (N <= fuel)%nat -> acosh_ fuel x = Some (Val y).
Proof.
intro H. unfold acosh_. destruct (Req_EM_T x 1) as [->|Nx]; [exists 0; repeat split; [lra|apply cosh_0|exists O; easy]|].
destruct (Rlt_dec x 1); [lra|]. assert (P : 0 <= x * x - 1) by nra. rewrite sqrt_val by exact P.
pose proof (sqrt_sqrt _ P) as Q. pose proof (sqrt_pos (x * x - 1)) as Q0. set (s := sqrt (x * x - 1)) in *.
exists (ln (x + s)). split; [rewrite <- ln_1; destruct (Req_dec (x + s) 1) as [->|]; [lra|apply Rlt_le, ln_increasing; lra]|].
split; [|apply log_val; lra]. unfold cosh. rewrite exp_Ropp, exp_ln by lra.
assert (I : / (x + s) = x - s) by (apply (Rmult_eq_reg_l (x + s)); [rewrite Rinv_r by lra; nra|lra]). rewrite I. field.
Qed.
Lemma atanh_val x : -1 < x < 1 -> exists y, tanh y = x /\ exists N, forall fuel, (N <= fuel)%nat -> atanh_ fuel x = Some (Val y).
Proof.
intro H. unfold atanh_. 
destruct (gtb (-1) x) eqn:G1; [apply gtb_true in G1; lra|]. destruct (gtb x 1) eqn:G2; [apply gtb_true in G2; lra|]. cbn [orb].
destruct (Req_EM_T x 1); [lra|]. destruct (Req_EM_T x (-1)); [lra|].
destruct (Req_EM_T x 0) as [->|Nx]; [exists 0; split; [unfold tanh; rewrite sinh_0, cosh_0; field|exists O; easy]|].
assert (P : 0 < (1 + x) / (1 - x)) by (apply Rdiv_lt_0_compat; lra).
exists (1 / 2 * ln ((1 + x) / (1 - x))). split.
- set (y := 1 / 2 * ln ((1 + x) / (1 - x))).
  assert (E : exp y * exp y = (1 + x) / (1 - x)) by (rewrite <- exp_plus; replace (y + y) with (ln ((1 + x) / (1 - x))) by (unfold y; field); apply exp_ln, P).
  unfold tanh, sinh, cosh. rewrite exp_Ropp. pose proof (exp_pos y) as Y.
  transitivity ((exp y * exp y - 1) / (exp y * exp y + 1)); [field; nra|]. rewrite E. field. lra.
- destruct (log_val _ P) as [N L]. exists N. intros fuel F. now rewrite (L fuel F).
Qed.

Lemma pow_val x e : 0 < x -> exp_low < e * ln x < exp_high -> exists N, forall fuel, (N <= fuel)%nat -> pow_ fuel x e = Some (Val (Rpower x e)).
Proof.
intros H R. unfold pow_. destruct (Req_EM_T x 1) as [->|Nx].
- exists O. intros. unfold Rpower. now rewrite ln_1, Rmult_0_r, exp_0.
- rewrite (proj2 (gtb_true x 0) H). destruct (Req_EM_T e 1) as [->|Ne]; [exists O; intros; now rewrite Rpower_1|].
  destruct (log_val x H) as [N L]. exists N. intros fuel F. rewrite (L fuel F). cbn [option_map bind].
  rewrite exp_val by (rewrite Rmult_comm; exact R). unfold Rpower. do 3 f_equal. ring.
Qed.

Lemma acos_val x : -1 <= x <= 1 -> acos_ x = Val (acos x).
Proof.
intro H. unfold acos_. destruct (Req_EM_T x 1) as [->|N]; [now rewrite acos_1|].
rewrite asin_val by exact H. cbn [bind]. now rewrite acos_asin.
Qed.
Lemma atan_val x : atan_ x = Val (atan x).
Proof. unfold atan_. destruct (Req_EM_T x 0) as [->|N]; [now rewrite atan_0|]. apply atan_impl_val. Qed.

(** ** atan2. *)
Lemma plain_val x : plain (Val x) = Signed x (if Rlt_dec x 0 then true else false).
Proof. reflexivity. Qed.

Lemma div_signs a b : (a < 0 -> 0 < b -> b / a < 0) /\ (a < 0 -> b < 0 -> 0 < b / a) /\ (0 < a -> 0 < b -> 0 < b / a) /\ (0 < a -> b < 0 -> b / a < 0).
Proof.
assert (P : forall a b, 0 < a -> 0 < b -> 0 < b / a) by (intros; now apply Rdiv_lt_0_compat).
repeat split; intros.
- replace (b / a) with (- (b / - a)) by (field; lra). assert (0 < b / - a) by (apply P; lra). lra.
- replace (b / a) with (- b / - a) by (field; lra). apply P; lra.
- now apply P.
- replace (b / a) with (- (- b / a)) by (field; lra). assert (0 < - b / a) by (apply P; lra). lra.
Qed.
Lemma atan_pos x : 0 < x -> 0 < atan x.
Proof. intro. rewrite <- atan_0. now apply atan_increasing. Qed.
Lemma atan_neg x : x < 0 -> atan x < 0.
Proof. intro. rewrite <- atan_0. now apply atan_increasing. Qed.

Lemma atan2_val b nb a na : a <> 0 \/ b <> 0 -> exists t,
  atan2_impl (Fin b nb) (Fin a na) = Signed t (signbit (Fin b nb)) /\ angle_of a b t /\ - PI <= t <= PI /\
  (signbit (Fin b nb) = false -> 0 <= t) /\ (signbit (Fin b nb) = true -> t <= 0).
Proof.
intro NZ. pose proof PI_RGT_0 as PP. destruct (div_signs a b) as (D1 & D2 & D3 & D4). pose proof (atan_bound (b / a)) as AB.
unfold atan2_impl. destruct (gtb a 0) eqn:A; [apply gtb_true in A|apply gtb_false in A].
- exists (atan (b / a)). pose proof (angle_right a b A) as G. unfold atan_quot. destruct (Req_EM_T b 0) as [->|Nb].
  + replace (0 / a) with 0 by (field; lra). unfold copysign. cbn [signbit]. destruct (Rlt_dec 0 0); [lra|].
    replace (0 / a) with 0 in * by (field; lra). rewrite atan_0 in *.
    split; [destruct nb; f_equal; lra|]. split; [exact G|]. repeat split; intros; lra.
  + rewrite atan_impl_val, plain_val. cbn [signbit]. split; [|split; [exact G|split; [lra|]]].
    * f_equal. destruct (Rlt_dec b 0) as [B|B].
      -- destruct (Rlt_dec (atan (b / a)) 0) as [?|F]; [easy|]. exfalso. apply F, atan_neg, D4; lra.
      -- destruct (Rlt_dec 0 b); [|lra]. destruct (Rlt_dec (atan (b / a)) 0) as [F|?]; [|easy]. pose proof (atan_pos _ (D3 A r)). lra.
    * destruct (Rlt_dec b 0) as [B|B]; [|destruct (Rlt_dec 0 b) as [B'|B']; [|lra]]; split; try easy; intros _.
      -- apply Rlt_le, atan_neg, D4; lra.
      -- apply Rlt_le, atan_pos, D3; lra.
- destruct (gtb 0 a) eqn:A'; [apply gtb_true in A'|apply gtb_false in A'].
  + destruct (angle_left a b A') as [G1 G2].
    destruct (gtb b 0) eqn:B; [apply gtb_true in B|apply gtb_false in B].
    { rewrite atan_impl_val. cbn [bind]. rewrite plain_val. exists (atan (b / a) + PI). cbn [signbit].
      destruct (Rlt_dec b 0); [lra|]. destruct (Rlt_dec 0 b); [|lra].
      split; [destruct (Rlt_dec (atan (b / a) + PI) 0); [lra|easy]|]. split; [exact G1|].
      pose proof (atan_neg _ (D1 A' B)). repeat split; intros; try easy; lra. }
    destruct (gtb 0 b) eqn:B'; [apply gtb_true in B'|apply gtb_false in B'].
    { rewrite atan_impl_val. cbn [bind]. rewrite plain_val. exists (atan (b / a) - PI). cbn [signbit].
      destruct (Rlt_dec b 0); [|lra].
      split; [destruct (Rlt_dec (atan (b / a) - PI) 0); [easy|lra]|]. split; [exact G2|].
      pose proof (atan_pos _ (D2 A' B')). repeat split; intros; try easy; lra. }
    assert (E : b = 0) by lra. subst b. replace (0 / a) with 0 in * by (field; lra). rewrite atan_0 in *.
    unfold copysign. cbn [signbit]. destruct (Rlt_dec 0 0); [lra|]. destruct nb.
    * exists (- PI). split; [easy|]. replace (- PI) with (0 - PI) by ring. split; [exact G2|]. repeat split; intros; try easy; lra.
    * exists PI. split; [easy|]. replace PI with (0 + PI) by ring. split; [exact G1|]. repeat split; intros; try easy; lra.
  + assert (E : a = 0) by lra. subst a.
    destruct (gtb b 0) eqn:B; [apply gtb_true in B|apply gtb_false in B].
    { exists (PI / 2). rewrite plain_val. cbn [signbit]. destruct (Rlt_dec b 0); [lra|]. destruct (Rlt_dec 0 b); [|lra].
      split; [destruct (Rlt_dec (PI / 2) 0); [lra|easy]|]. split; [exists b; rewrite cos_PI2, sin_PI2; lra|]. repeat split; intros; try easy; lra. }
    destruct (gtb 0 b) eqn:B'; [apply gtb_true in B'|apply gtb_false in B'].
    { exists (- PI / 2). rewrite plain_val. cbn [signbit]. destruct (Rlt_dec b 0); [|lra].
      split; [destruct (Rlt_dec (- PI / 2) 0); [easy|lra]|].
      split; [exists (- b); replace (- PI / 2) with (- (PI / 2)) by field; rewrite cos_neg, sin_neg, cos_PI2, sin_PI2; lra|]. repeat split; intros; try easy; lra. }
    exfalso. destruct NZ; lra.
Qed.

Lemma atan2_zero nb na : atan2_impl (Fin 0 nb) (Fin 0 na) =
  match na, nb with
  | false, false => Signed 0 false | false, true => Signed (- 0) true
  | true, false => Signed PI false | true, true => Signed (- PI) true
  end.
Proof.
unfold atan2_impl. rewrite !(proj2 (gtb_false 0 0)) by lra. unfold copysign. cbn [signbit].
destruct (Rlt_dec 0 0); [lra|]. now destruct na, nb.
Qed.

(** ** atan2 with infinite arguments: limits of the finite values. *)
Definition value (o : out2) : R := match o with Signed t _ => t | Other _ => 0 end.

Lemma atan2_upper b nb a na : 0 < b -> value (atan2_impl (Fin b nb) (Fin a na)) = PI / 2 - atan (a / b).
Proof.
intro B. unfold atan2_impl.
destruct (gtb a 0) eqn:A; [apply gtb_true in A|apply gtb_false in A].
- unfold atan_quot. destruct (Req_EM_T b 0); [lra|]. rewrite atan_impl_val, plain_val. cbn [value].
  replace (a / b) with (/ (b / a)) by (field; lra). rewrite atan_inv by (apply Rdiv_lt_0_compat; lra). lra.
- rewrite (proj2 (gtb_true b 0) B).
  destruct (gtb 0 a) eqn:A'; [apply gtb_true in A'|apply gtb_false in A'].
  + rewrite atan_impl_val. cbn [bind]. rewrite plain_val. cbn [value].
    replace (a / b) with (- / (b / - a)) by (field; lra). rewrite atan_opp, atan_inv by (apply Rdiv_lt_0_compat; lra).
    replace (b / a) with (- (b / - a)) by (field; lra). rewrite atan_opp. lra.
  + assert (a = 0) by lra. subst a. rewrite plain_val. cbn [value]. replace (0 / b) with 0 by (field; lra). rewrite atan_0. lra.
Qed.
Lemma atan2_lower b nb a na : b < 0 -> value (atan2_impl (Fin b nb) (Fin a na)) = - PI / 2 - atan (a / b).
Proof.
intro B. unfold atan2_impl.
destruct (gtb a 0) eqn:A; [apply gtb_true in A|apply gtb_false in A].
- unfold atan_quot. destruct (Req_EM_T b 0); [lra|]. rewrite atan_impl_val, plain_val. cbn [value].
  replace (a / b) with (- / (- b / a)) by (field; lra). rewrite atan_opp, atan_inv by (apply Rdiv_lt_0_compat; lra).
  replace (b / a) with (- (- b / a)) by (field; lra). rewrite atan_opp. lra.
- rewrite (proj2 (gtb_false b 0)) by lra. rewrite (proj2 (gtb_true 0 b) B).
  destruct (gtb 0 a) eqn:A'; [apply gtb_true in A'|apply gtb_false in A'].
  + rewrite atan_impl_val. cbn [bind]. rewrite plain_val. cbn [value].
    replace (a / b) with (/ (b / a)) by (field; lra). rewrite atan_inv by (exact (proj1 (proj2 (div_signs a b)) A' B)). lra.
  + assert (a = 0) by lra. subst a. rewrite plain_val. cbn [value]. replace (0 / b) with 0 by (field; lra). rewrite atan_0. lra.
Qed.
Lemma atan2_right b nb a na : 0 < a -> value (atan2_impl (Fin b nb) (Fin a na)) = atan (b / a).
Proof.
intro A. unfold atan2_impl. rewrite (proj2 (gtb_true a 0) A). unfold atan_quot. destruct (Req_EM_T b 0) as [->|N].
- replace (0 / a) with 0 by (field; lra). rewrite atan_0. unfold copysign. destruct (signbit _); cbn [value]; lra.
- rewrite atan_impl_val. reflexivity.
Qed.
Lemma atan2_left b nb a na : a < 0 -> value (atan2_impl (Fin b nb) (Fin a na)) = atan (b / a) + (if signbit (Fin b nb) then - PI else PI).
Proof.
intro A. unfold atan2_impl. rewrite (proj2 (gtb_false a 0)) by lra. rewrite (proj2 (gtb_true 0 a) A).
unfold signbit. destruct (gtb b 0) eqn:B; [apply gtb_true in B|apply gtb_false in B].
- rewrite atan_impl_val. cbn [bind value plain]. destruct (Rlt_dec b 0); [lra|]. destruct (Rlt_dec 0 b); lra.
- destruct (gtb 0 b) eqn:B'; [apply gtb_true in B'|apply gtb_false in B'].
  + rewrite atan_impl_val. cbn [bind value plain]. destruct (Rlt_dec b 0); lra.
  + assert (b = 0) by lra. subst b. replace (0 / a) with 0 by (field; lra). rewrite atan_0. unfold copysign, signbit.
    destruct (Rlt_dec 0 0); [lra|]. destruct nb; cbn [value]; lra.
Qed.

Lemma atan_quot_lim c (x : Rbar) : x = p_infty \/ x = m_infty -> is_lim (fun u => atan (c / u)) x 0.
Proof.
intro X. assert (L : is_lim (fun u => c / u) x 0).
{ replace (Finite 0) with (Rbar_mult c 0) by (simpl; f_equal; ring). apply is_lim_scal_l.
  destruct X as [-> | ->].
  - apply (is_lim_inv (fun u => u) p_infty p_infty); [apply is_lim_id|easy].
  - apply (is_lim_inv (fun u => u) m_infty m_infty); [apply is_lim_id|easy]. }
rewrite <- atan_0. apply (is_lim_comp_continuous (fun u => c / u) atan x 0 L).
apply (ex_derive_continuous atan 0). exists (/ (1 + 0 ^ 2)). apply is_derive_Reals, derivable_pt_lim_atan.
Qed.

Lemma lim_shift c d x : x = p_infty \/ x = m_infty -> is_lim (fun u => d - atan (c / u)) x d.
Proof.
intro X. pose proof (is_lim_minus (fun _ => d) (fun u => atan (c / u)) x d 0 d (is_lim_const d x) (atan_quot_lim c x X)) as L.
apply L. simpl. unfold is_Rbar_minus, is_Rbar_plus. simpl. do 2 f_equal. ring.
Qed.
Lemma lim_shift_plus c d x : x = p_infty \/ x = m_infty -> is_lim (fun u => atan (c / u) + d) x d.
Proof.
intro X. pose proof (is_lim_plus (fun u => atan (c / u)) (fun _ => d) x 0 d d (atan_quot_lim c x X) (is_lim_const d x)) as L.
apply L. unfold is_Rbar_plus. simpl. do 2 f_equal. ring.
Qed.
