(** * Lemmas about scalars, functors and reductions for XprProofs.v. *)
From Coq Require Import Reals ZArith List Bool Lia Lra.
From Coquelicot Require Import Coquelicot.
From Verif Require Import XprEigen XprModel.
Import ListNotations.
Local Open Scope R_scope.

Lemma C0E : C0 = RtoC 0. Proof. reflexivity. Qed.
Lemma C1E : C1 = RtoC 1. Proof. reflexivity. Qed.

Lemma Ceqb_true z w : Ceqb z w = true <-> z = w.
Proof.
  destruct z as [a b], w as [c d]; unfold Ceqb; simpl.
  destruct (Req_EM_T a c) as [->|n]; [destruct (Req_EM_T b d) as [->|m]|]; split; intro H; try congruence; try reflexivity.
Qed.
Lemma Ceqb_refl z : Ceqb z z = true. Proof. now apply Ceqb_true. Qed.
Lemma Ceqb_false z w : Ceqb z w = false <-> z <> w.
Proof.
  rewrite <- Ceqb_true; destruct (Ceqb z w); split; intro H; try reflexivity; try discriminate; try (now intro); congruence.
Qed.
Lemma tob0 : tob C0 = false. Proof. unfold tob; now rewrite Ceqb_refl. Qed.
Lemma tob1 : tob C1 = true.
Proof. unfold tob. replace (Ceqb C1 C0) with false; [reflexivity|symmetry; apply Ceqb_false; intro H; injection H; lra]. Qed.
Lemma tob_ofb b : tob (ofb b) = b. Proof. destruct b; [apply tob1 | apply tob0]. Qed.
Lemma tob_false z : tob z = false <-> z = C0.
Proof. unfold tob; rewrite negb_false_iff; apply Ceqb_true. Qed.
Lemma tob_true z : tob z = true <-> z <> C0.
Proof. unfold tob; rewrite negb_true_iff; apply Ceqb_false. Qed.
Lemma Cconj_conj z : Cconj (Cconj z) = z.
Proof. destruct z; unfold Cconj; simpl; f_equal; ring. Qed.
Lemma Cconj_inj z w : Cconj z = Cconj w -> z = w.
Proof. intro H; rewrite <- (Cconj_conj z), H; apply Cconj_conj. Qed.
Lemma Cconj0 : Cconj C0 = C0. Proof. unfold Cconj, C0; simpl; f_equal; ring. Qed.
Lemma Cconj1 : Cconj C1 = C1. Proof. unfold Cconj, C1; simpl; f_equal; ring. Qed.
Lemma Cconj_ofb b : Cconj (ofb b) = ofb b. Proof. destruct b; [apply Cconj1 | apply Cconj0]. Qed.
Lemma Cconj_real x : Cconj (real_of x) = real_of x. Proof. unfold Cconj, real_of; simpl; f_equal; ring. Qed.
Lemma Cconj_id z : snd z = 0 -> Cconj z = z.
Proof. destruct z as [a b]; simpl; intros ->; unfold Cconj; simpl; f_equal; ring. Qed.
Lemma Cconj_id_inv z : Cconj z = z -> snd z = 0.
Proof. destruct z as [a b]; unfold Cconj; simpl; intro H; injection H; intros; lra. Qed.
Lemma Ceqb_conj z w : Ceqb (Cconj z) (Cconj w) = Ceqb z w.
Proof.
  apply eq_true_iff_eq; rewrite !Ceqb_true; split; [apply Cconj_inj | now intros ->].
Qed.
Lemma tob_conj z : tob (Cconj z) = tob z.
Proof. unfold tob; rewrite <- Cconj0 at 1; now rewrite Ceqb_conj. Qed.
Lemma real_eta z : snd z = 0 -> z = real_of (fst z).
Proof. destruct z as [a b]; simpl; intros ->; reflexivity. Qed.
Lemma Cmod_C0 : Cmod C0 = 0. Proof. unfold Cmod, C0; simpl; replace (0 * (0 * 1) + 0 * (0 * 1)) with 0 by ring; apply sqrt_0. Qed.
Lemma real0 : real_of 0 = C0. Proof. reflexivity. Qed.

Lemma Cmod_sq z : Cmod z * (Cmod z * 1) = fst z * fst z + snd z * snd z.
Proof.
  unfold Cmod. replace (sqrt (fst z ^ 2 + snd z ^ 2) * (sqrt (fst z ^ 2 + snd z ^ 2) * 1))
    with (sqrt (fst z ^ 2 + snd z ^ 2) * sqrt (fst z ^ 2 + snd z ^ 2)) by ring.
  rewrite sqrt_sqrt; [ring | apply Rplus_le_le_0_compat; apply pow2_ge_0].
Qed.

(** ** The operations on constants are the functors. *)
Lemma uop_ueval k u z : real_if k z -> uop k u z = ueval k u z.
Proof.
  intro Hz; destruct u; simpl; try reflexivity.
  - unfold tob; now rewrite negb_involutive.
  - rewrite Cmod_sq. destruct k; simpl in *; unfold Cmult, real_of; simpl; f_equal; rewrite ?Hz; ring.
  - unfold Cdiv; rewrite C1E; ring.
  - unfold Cmult, C1; destruct z; simpl; f_equal; ring.
  - unfold Cmult, C1; destruct z; simpl; f_equal; ring.
  - destruct t; try reflexivity; simpl; f_equal; unfold Rdiv; ring.
Qed.

Lemma Rltb_true x y : Rltb x y = true <-> x < y.
Proof. unfold Rltb; destruct (Rlt_dec x y); split; intros; (congruence || tauto). Qed.
Lemma Rltb_false x y : Rltb x y = false <-> y <= x.
Proof. unfold Rltb; destruct (Rlt_dec x y); split; intros; try congruence; lra. Qed.

Definition numext (b : bfun) : bool := match b with BNumEq | BNumNe => true | _ => false end.
Lemma bop_beval b x y :
  (bordered b = true -> snd x = 0 /\ snd y = 0) ->
  (numext b = true -> (x = C0 \/ x = C1) /\ (y = C0 \/ y = C1)) -> bop b x y = beval b x y.
Proof.
  intros Ho Hn; destruct b; simpl; try reflexivity.
  - destruct (tob x), (tob y); reflexivity.
  - destruct (Ho eq_refl) as [Hx Hy]. destruct (Rltb (fst y) (fst x)) eqn:E.
    + apply Rltb_true in E. rewrite Rmin_right by lra. now apply real_eta.
    + apply Rltb_false in E. rewrite Rmin_left by lra. now apply real_eta.
  - destruct (Ho eq_refl) as [Hx Hy]. destruct (Rltb (fst x) (fst y)) eqn:E.
    + apply Rltb_true in E. rewrite Rmax_right by lra. now apply real_eta.
    + apply Rltb_false in E. rewrite Rmax_left by lra. now apply real_eta.
  - f_equal; f_equal; ring.
  - destruct (Ho eq_refl) as [Hx Hy]. destruct x as [a a'], y as [c c']; simpl in *; subst.
    destruct (Rltb a c) eqn:E; unfold Cminus, Cplus, Copp, real_of; simpl; f_equal; try ring.
    + apply Rltb_true in E. rewrite Rabs_left by lra. ring.
    + apply Rltb_false in E. rewrite Rabs_right by lra. ring.
  - destruct (Hn eq_refl) as [[->| ->] [->| ->]]; rewrite ?Ceqb_refl, ?tob0, ?tob1; try reflexivity; simpl.
    + replace (Ceqb C0 C1) with false; [reflexivity|symmetry; apply Ceqb_false; intro H; injection H; lra].
    + replace (Ceqb C1 C0) with false; [reflexivity|symmetry; apply Ceqb_false; intro H; injection H; lra].
  - destruct (Hn eq_refl) as [[->| ->] [->| ->]]; rewrite ?Ceqb_refl, ?tob0, ?tob1; try reflexivity; simpl.
    + replace (Ceqb C0 C1) with false; [reflexivity|symmetry; apply Ceqb_false; intro H; injection H; lra].
    + replace (Ceqb C1 C0) with false; [reflexivity|symmetry; apply Ceqb_false; intro H; injection H; lra].
Qed.

(** ** Functors at zero. *)
Lemma asin_0 : asin 0 = 0.
Proof. rewrite <- sin_0 at 1. apply asin_sin; generalize PI_RGT_0; lra. Qed.
Lemma ueval0 k u : upt u = true -> ueval k u C0 = C0.
Proof.
  destruct u; simpl; try discriminate; intro H; try reflexivity.
  - unfold Copp, C0; simpl; f_equal; ring.
  - now rewrite Cmod_C0.
  - rewrite Cmod_C0; unfold real_of, C0; f_equal; ring.
  - apply Cconj0.
  - destruct k; unfold csqrt, real_of; simpl; rewrite ?sqrt_0; [reflexivity|].
    rewrite Cmod_C0; unfold C0; f_equal.
    + replace ((0 + 0) / 2) with 0 by lra; apply sqrt_0.
    + replace ((0 - 0) / 2) with 0 by lra; rewrite sqrt_0; ring.
  - unfold Cmult, C0, C1; simpl; f_equal; ring.
  - unfold Cmult, C0, C1; simpl; f_equal; ring.
  - destruct t; try discriminate; simpl; rewrite <- real0; f_equal.
    + rewrite exp_0; ring.
    + rewrite Rplus_0_r; apply ln_1.
    + apply sin_0.
    + apply tan_0.
    + apply asin_0.
    + apply atan_0.
    + unfold tanh; rewrite sinh_0; unfold Rdiv; ring.
    + unfold atanh; replace ((1 + 0) / (1 - 0)) with 1 by field; rewrite ln_1; lra.
    + apply sinh_0.
    + apply arcsinh_0.
Qed.
Lemma bsum0 b : bty b = Bsum -> beval b C0 C0 = C0.
Proof.
  destruct b; simpl; try discriminate; intros _; rewrite ?tob0, ?Ceqb_refl; try reflexivity.
  - unfold Cplus, C0; simpl; f_equal; ring.
  - unfold Cminus, Cplus, Copp, C0; simpl; f_equal; ring.
  - replace (Rltb 0 0) with false; [reflexivity|symmetry; apply Rltb_false; lra].
  - replace (Rltb 0 0) with false; [reflexivity|symmetry; apply Rltb_false; lra].
  - rewrite Rmin_left by lra; reflexivity.
  - rewrite Rmax_left by lra; reflexivity.
  - replace (0 * (0 * 1) + 0 * (0 * 1)) with 0 by ring; rewrite sqrt_0; reflexivity.
  - rewrite Rminus_0_r, Rabs_R0; reflexivity.
Qed.
Lemma bprod0 b z : bty b = Bproduct -> beval b C0 z = C0 /\ beval b z C0 = C0.
Proof.
  destruct b; simpl; try discriminate; intros _; rewrite ?tob0, ?andb_false_r; split; try reflexivity;
    destruct z; unfold Cmult, Cconj, C0; simpl; f_equal; ring.
Qed.

(** ** Conjugation. *)
Lemma cmod_conj z : Cmod (Cconj z) = Cmod z.
Proof. unfold Cmod, Cconj; simpl; f_equal; ring. Qed.
Lemma ueval_conj k u z :
  match u with UArg | USqrt => k = Kreal | UImag => k = Kreal | Uf _ => k = Kreal | _ => True end -> real_if k z ->
  ueval k u (Cconj z) = Cconj (ueval k u z).
Proof.
  intros Hu Hz.
  assert (D : k = Kreal -> ueval k u (Cconj z) = Cconj (ueval k u z)).
  { intros ->. simpl in Hz. rewrite (Cconj_id z Hz).
    symmetry; apply Cconj_id.
    destruct z as [a b]; simpl in Hz; subst b; destruct u; simpl; try reflexivity; try lra; rewrite ?Rmult_0_l; try lra.
    all: try (destruct (tob _); reflexivity); try (unfold Rdiv; ring). }
  destruct u; simpl in *; try (now apply D).
  all: try reflexivity.
  - now rewrite tob_conj, Cconj_ofb.
  - now rewrite cmod_conj, Cconj_real.
  - rewrite cmod_conj; symmetry; apply (Cconj_real (Cmod z ^ 2)).
  - now rewrite Cconj_real.
  - destruct z as [a b]; unfold Cinv, Cconj; simpl; f_equal; unfold Rdiv; [|]; replace (- b * (- b * 1)) with (b * (b * 1)) by ring; ring.
  - destruct z as [a b]; unfold Cmult, Cconj, C1; simpl; f_equal; ring.
  - destruct z as [a b]; unfold Cmult, Cconj, C1; simpl; f_equal; ring.
Qed.
Lemma Cinv_conj z : Cinv (Cconj z) = Cconj (Cinv z).
Proof. destruct z as [a b]; unfold Cinv, Cconj; simpl; f_equal; unfold Rdiv; [|]; replace (- b * (- b * 1)) with (b * (b * 1)) by ring; ring. Qed.
Lemma Cmult_conj' x y : Cmult (Cconj x) (Cconj y) = Cconj (Cmult x y).
Proof. unfold Cmult, Cconj; simpl; f_equal; ring. Qed.
Lemma beval_conj b x y :
  (bordered b = true -> snd x = 0 /\ snd y = 0) -> beval b (Cconj x) (Cconj y) = Cconj (beval b x y).
Proof.
  intro H.
  assert (D : bordered b = true -> beval b (Cconj x) (Cconj y) = Cconj (beval b x y)).
  { intro E. destruct (H E) as [Hx Hy]. rewrite (Cconj_id x Hx), (Cconj_id y Hy).
    symmetry. destruct b; try discriminate E; simpl; rewrite ?Cconj_ofb, ?Cconj_real; reflexivity. }
  destruct b; try (now apply D); simpl; rewrite ?tob_conj, ?Ceqb_conj, ?Cconj_ofb; try reflexivity.
  - unfold Cconj, Cplus; simpl; f_equal; ring.
  - unfold Cconj, Cminus, Cplus, Copp; simpl; f_equal; ring.
  - apply Cmult_conj'.
  - unfold Cdiv; rewrite Cinv_conj; apply Cmult_conj'.
  - rewrite Cmult_conj'; reflexivity.
  - destruct c; simpl; rewrite ?Ceqb_conj; reflexivity.
Qed.

(** ** Sums. *)
Lemma csum_zero {A} (f : A -> C) l : (forall a, In a l -> f a = C0) -> csum (map f l) = C0.
Proof.
  induction l as [|a l IH]; intro H; [reflexivity|]. simpl map. cbn [csum fold_right]. fold (csum (map f l)).
  rewrite IH by (intros b Hb; apply H; now right). rewrite (H a) by now left. unfold Cplus, C0; simpl; f_equal; ring.
Qed.
Lemma csum_const {A} (f : A -> C) l z : (forall a, In a l -> f a = z) -> csum (map f l) = Cmult (real_of (INR (length l))) z.
Proof.
  induction l as [|a l IH]; intro H.
  - simpl; unfold Cmult, C0; simpl; f_equal; ring.
  - simpl map. cbn [csum fold_right]. fold (csum (map f l)).
    rewrite IH by (intros b Hb; apply H; now right). rewrite (H a) by now left.
    cbn [length]. rewrite S_INR. unfold Cmult, Cplus, real_of; simpl; f_equal; ring.
Qed.
Lemma csum_single (f : nat -> C) l k :
  NoDup l -> In k l -> (forall a, In a l -> a <> k -> f a = C0) -> csum (map f l) = f k.
Proof.
  induction l as [|a l IH]; intros Hn Hi H; [easy|]. simpl map. cbn [csum fold_right]. fold (csum (map f l)).
  inversion Hn as [|? ? Hna Hnl]; subst. destruct Hi as [->|Hi].
  - rewrite csum_zero; [unfold Cplus, C0; destruct (f k); simpl; f_equal; ring|].
    intros b Hb; apply H; [now right|]. intros ->; contradiction.
  - rewrite IH; auto.
    + rewrite (H a); [unfold Cplus, C0; destruct (f k); simpl; f_equal; ring| now left |].
      intros ->; contradiction.
    + intros b Hb; apply H; now right.
Qed.
Lemma in_seq0 n k : In k (seq 0 n) <-> (k < n)%nat.
Proof. rewrite in_seq; lia. Qed.
