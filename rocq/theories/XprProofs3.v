(** * Proofs for C89, continued: selections, products, views and reshaping. *)
From Coq Require Import Reals ZArith List Bool Lia Lra.
From Coquelicot Require Import Coquelicot.
From Verif Require Import XprEigen XprModel XprSpec XprScalars XprProofs XprProofs2.
Import ListNotations.
Local Open Scope nat_scope.

(** ** Select. *)
Section Sel.
Variables (c x y : expr) (tc tx ty : traits).
Hypotheses (Sc : sound tc c) (Sx : sound tx x) (Sy : sound ty y) (W : wf (ESel c x y)).
Let e := ESel c x y.

(** A chosen operand has the same coefficients. *)
Lemma chosen_same z : constant tc = Some (true, z) ->
  exists x0 t0, (if tob z then tx else ty) = t0 /\ sound t0 x0 /\ wf x0 /\ rows x0 = rows x /\ cols x0 = cols x /\
  forall i j, i < rows x -> j < cols x -> coef e i j = coef x0 i j.
Proof.
  intro H. apply (constant_ok _ _ Sc) in H. destruct W as (Wc & Wx & Wy & R1 & C1' & R2 & C2).
  destruct (tob z) eqn:E.
  - exists x, tx. refine (conj eq_refl (conj Sx (conj Wx (conj eq_refl (conj eq_refl _))))). intros i j Hi Hj; simpl. rewrite H by lia. now rewrite E.
  - exists y, ty. refine (conj eq_refl (conj Sy (conj Wy (conj (eq_sym R2) (conj (eq_sym C2) _))))). intros i j Hi Hj; simpl. rewrite H by lia. now rewrite E.
Qed.
Lemma same_some p q fx z :
  (match p, q with Some (true, z), Some (true, w) => if Ceqb z w then p else None | _, _ => None end) = Some (fx, z) ->
  p = Some (true, z) /\ q = Some (true, z).
Proof.
  destruct p as [[[] u]|]; try discriminate. destruct q as [[[] v]|]; try discriminate.
  destruct (Ceqb u v) eqn:E; [|discriminate]. apply Ceqb_true in E; subst. intro H; injection H as <- <-. auto.
Qed.

Lemma sel_sound : sound (sel_traits tc tx ty (coef e 0 0) (kind_of e)) e.
Proof.
  pose proof W as (Wc & Wx & Wy & R1 & C1' & R2 & C2).
  assert (Tri : forall a, (match constant tc with
      | Some (true, z) => Some (if tob z then tx else ty) | _ => None end) <> None ->
      match (match constant tc with Some (true, z) => Some (if tob z then tx else ty) | _ => None end) with
      | Some t => triangular t a | None => false end = true -> shaped a e).
  { intros a _ H. destruct (constant tc) as [[[] z]|] eqn:E; try discriminate H.
    destruct (chosen_same z E) as (x0 & t0 & Et & S0 & W0 & Rr & Cc & Eq). rewrite Et in H.
    apply (triangular_ok _ _ S0) in H. intros i j Hi Hj O; simpl in Hi, Hj. rewrite Eq by assumption. apply H; congruence. }
  assert (Tri' : forall a,
      match (match constant tc with Some (true, z) => Some (if tob z then tx else ty) | _ => None end) with
      | Some t => triangular t a | None => false end = true -> shaped a e).
  { intros a H; apply Tri; [|exact H]. intro N; rewrite N in H; discriminate. }
  apply mk_sound; unfold sel_traits; fields; try reflexivity.
  - intros n H. simpl. unfold orelse in H.
    destruct (t_rows tc) eqn:A; [apply (s_rows _ _ Sc) in A; congruence|].
    destruct (t_rows tx) eqn:B; [apply (s_rows _ _ Sx) in B; congruence|]. apply (s_rows _ _ Sy) in H; congruence.
  - intros n H. simpl. unfold orelse in H.
    destruct (t_cols tc) eqn:A; [apply (s_cols _ _ Sc) in A; congruence|].
    destruct (t_cols tx) eqn:B; [apply (s_cols _ _ Sx) in B; congruence|]. apply (s_cols _ _ Sy) in H; congruence.
  - simpl; rewrite (s_nr _ _ Sc); exact R1.
  - simpl; rewrite (s_nc _ _ Sc); exact C1'.
  - intro H. simpl. apply orb_true_iff in H as [H|H]; [apply orb_true_iff in H as [H|H]|].
    + apply (square_ok _ _ Sc) in H; congruence.
    + now apply (square_ok _ _ Sx) in H.
    + apply (square_ok _ _ Sy) in H; congruence.
  - intros fx z H. destruct (constant tc) as [[[] u]|] eqn:E.
    + destruct (chosen_same u E) as (x0 & t0 & Et & S0 & W0 & Rr & Cc & Eq). rewrite Et in H.
      apply (constant_ok _ _ S0) in H. intros i j Hi Hj; simpl in Hi, Hj. rewrite Eq by assumption. apply H; congruence.
    + apply same_some in H as [Hx Hy]. apply (constant_ok _ _ Sx) in Hx. apply (constant_ok _ _ Sy) in Hy.
      intros i j Hi Hj; simpl in *. destruct (tob _); [apply Hx | apply Hy]; congruence.
    + apply same_some in H as [Hx Hy]. apply (constant_ok _ _ Sx) in Hx. apply (constant_ok _ _ Sy) in Hy.
      intros i j Hi Hj; simpl in *. destruct (tob _); [apply Hx | apply Hy]; congruence.
  - intros fx z H. destruct (constant tc) as [[[] u]|] eqn:E.
    + destruct (chosen_same u E) as (x0 & t0 & Et & S0 & W0 & Rr & Cc & Eq). rewrite Et in H.
      apply (constant_diag_ok _ _ S0) in H. intros i j Hi Hj; simpl in Hi, Hj. rewrite Eq by assumption. apply H; congruence.
    + apply same_some in H as [Hx Hy]. apply (constant_diag_ok _ _ Sx) in Hx. apply (constant_diag_ok _ _ Sy) in Hy.
      intros i j Hi Hj; simpl in *. destruct (tob _); [apply Hx | apply Hy]; congruence.
    + apply same_some in H as [Hx Hy]. apply (constant_diag_ok _ _ Sx) in Hx. apply (constant_diag_ok _ _ Sy) in Hy.
      intros i j Hi Hj; simpl in *. destruct (tob _); [apply Hx | apply Hy]; congruence.
  - apply Tri'.
  - intros _ _; apply Tri'.
  - intros _ _; apply Tri'.
  - intros H Q; simpl in Q.
    assert (Three : may_be_hermitian tc && may_be_hermitian tx && may_be_hermitian ty = true -> conj_symmetric e).
    { intro K. apply andb_true_iff in K as [K Ky]. apply andb_true_iff in K as [Kc Kx].
      apply (may_be_hermitian_ok _ _ Sc Wc) in Kc; [|congruence].
      apply (may_be_hermitian_ok _ _ Sx Wx) in Kx; [|congruence].
      apply (may_be_hermitian_ok _ _ Sy Wy) in Ky; [|congruence].
      intros i j Hi Hj; simpl in *. rewrite (Kc i j), tob_conj by lia.
      destruct (tob (coef c j i)); [apply Kx | apply Ky]; lia. }
    destruct (constant tc) as [[[] u]|] eqn:E; [|now apply Three|now apply Three].
    destruct (chosen_same u E) as (x0 & t0 & Et & S0 & W0 & Rr & Cc & Eq). rewrite Et in H.
    apply (may_be_hermitian_ok _ _ S0 W0) in H; [|congruence].
    intros i j Hi Hj; simpl in Hi, Hj. rewrite !Eq by lia. apply H; lia.
Qed.
End Sel.

(** ** Products. *)
Section Prod.
Variables (x y : expr) (tx ty : traits).
Hypotheses (Sx : sound tx x) (Sy : sound ty y) (W : wf (EProd x y)).
Let e := EProd x y.
Lemma Cm0l z : Cmult C0 z = C0. Proof. destruct z; unfold Cmult, C0; simpl; f_equal; ring. Qed.
Lemma Cm0r z : Cmult z C0 = C0. Proof. destruct z; unfold Cmult, C0; simpl; f_equal; ring. Qed.
Lemma prod_coef i j : coef e i j = csum (map (fun k => Cmult (coef x i k) (coef y k j)) (seq 0 (cols x))).
Proof. reflexivity. Qed.
Lemma inner : cols x = rows y. Proof. apply W. Qed.

Lemma prod_zero : zero tx = true \/ zero ty = true -> all_equal e C0.
Proof.
  intros Z i j Hi Hj; simpl in Hi, Hj. rewrite prod_coef. apply csum_zero. intros k Hk; apply in_seq0 in Hk.
  destruct Z as [Z|Z].
  - rewrite (zero_ok _ _ Sx Z) by assumption. apply Cm0l.
  - rewrite (zero_ok _ _ Sy Z); [apply Cm0r | rewrite <- inner; assumption | assumption].
Qed.
(** A constant-diagonal left (right) factor scales the components that it reaches. *)
Lemma prod_diag_l i j d : diag_equal x d -> i < rows x -> j < cols y ->
  coef e i j = if Nat.ltb i (cols x) then Cmult d (coef y i j) else C0.
Proof.
  intros D Hi Hj. rewrite prod_coef. destruct (Nat.ltb i (cols x)) eqn:E.
  - apply Nat.ltb_lt in E. rewrite (csum_single _ _ i); [now rewrite D, Nat.eqb_refl by assumption| apply seq_NoDup | now apply in_seq0 |].
    intros k Hk N; apply in_seq0 in Hk. rewrite D by assumption.
    apply Nat.eqb_neq in N. rewrite Nat.eqb_sym, N. apply Cm0l.
  - apply Nat.ltb_ge in E. apply csum_zero. intros k Hk; apply in_seq0 in Hk. rewrite D by assumption.
    assert (N : Nat.eqb i k = false) by (apply Nat.eqb_neq; lia). rewrite N; apply Cm0l.
Qed.
Lemma prod_diag_r i j d : diag_equal y d -> i < rows x -> j < cols y ->
  coef e i j = if Nat.ltb j (cols x) then Cmult (coef x i j) d else C0.
Proof.
  intros D Hi Hj. rewrite prod_coef. pose proof inner as In. destruct (Nat.ltb j (cols x)) eqn:E.
  - apply Nat.ltb_lt in E. rewrite (csum_single _ _ j); [rewrite D, Nat.eqb_refl by lia; reflexivity| apply seq_NoDup | now apply in_seq0 |].
    intros k Hk N; apply in_seq0 in Hk. rewrite D by lia.
    apply Nat.eqb_neq in N. rewrite N. apply Cm0r.
  - apply Nat.ltb_ge in E. apply csum_zero. intros k Hk; apply in_seq0 in Hk. rewrite D by lia.
    assert (N : Nat.eqb k j = false) by (apply Nat.eqb_neq; lia). rewrite N; apply Cm0r.
Qed.
Lemma prod_consts a b i j : all_equal x a -> all_equal y b -> i < rows x -> j < cols y ->
  coef e i j = Cmult (real_of (INR (cols x))) (Cmult a b).
Proof.
  intros A B Hi Hj. rewrite prod_coef. rewrite (csum_const _ _ (Cmult a b)); [now rewrite seq_length|].
  intros k Hk; apply in_seq0 in Hk. pose proof inner. now rewrite A, B by lia.
Qed.

Hypothesis Safe3 : is_some (constant_diag tx) = true -> is_some (constant_diag ty) = true ->
  Nat.min (rows x) (cols y) <= cols x \/ (zero tx || zero ty = true /\ 0 < cols x).
Hypothesis Safe : zero tx = false -> zero ty = false ->
  (is_some (constant_diag tx) = true -> is_some (constant ty) = true -> rows x <= cols x) /\
  (is_some (constant tx) = true -> is_some (constant_diag ty) = true -> cols y <= rows y) /\
  (rows x = cols y ->
   is_some (constant_diag tx) && may_be_hermitian ty || is_some (constant_diag ty) && may_be_hermitian tx = true ->
   rows x = cols x).

Lemma prod_const_ok fx z : prod_const tx ty = Some (fx, z) -> all_equal e z.
Proof.
  unfold prod_const. destruct (zero tx) eqn:Zx.
  { intro H. unfold constant in H; rewrite (zero_true _ Zx) in H. injection H as <- <-. apply prod_zero; auto. }
  destruct (zero ty) eqn:Zy.
  { intro H. unfold constant in H; rewrite (zero_true _ Zy) in H. injection H as <- <-. apply prod_zero; auto. }
  destruct (Safe eq_refl eq_refl) as (P1 & P2 & _).
  destruct (is_some (constant_diag tx) && is_some (constant ty)) eqn:E1.
  { apply andb_true_iff in E1 as [A B]. specialize (P1 A B). intro H.
    apply op2_some in H as (fa & a & fb & b & Ha & Hb & ->).
    apply (constant_diag_ok _ _ Sx) in Ha. apply (constant_ok _ _ Sy) in Hb.
    intros i j Hi Hj; simpl in Hi, Hj. rewrite (prod_diag_l i j a) by assumption.
    assert (L : i < cols x) by lia. pose proof inner. rewrite (proj2 (Nat.ltb_lt _ _) L). now rewrite Hb by lia. }
  destruct (is_some (constant tx) && is_some (constant_diag ty)) eqn:E2.
  { apply andb_true_iff in E2 as [A B]. specialize (P2 A B). intro H.
    apply op2_some in H as (fa & a & fb & b & Ha & Hb & ->).
    apply (constant_ok _ _ Sx) in Ha. apply (constant_diag_ok _ _ Sy) in Hb.
    intros i j Hi Hj; simpl in Hi, Hj. rewrite (prod_diag_r i j b) by assumption.
    assert (L : j < cols x) by (pose proof inner; lia). rewrite (proj2 (Nat.ltb_lt _ _) L). now rewrite Ha by lia. }
  assert (N : forall n, orelse (t_cols tx) (t_rows ty) = Some n -> n = cols x).
  { intros n. unfold orelse. destruct (t_cols tx) eqn:A; intro H.
    - apply (s_cols _ _ Sx) in A; congruence.
    - apply (s_rows _ _ Sy) in H. rewrite inner; congruence. }
  destruct (orelse (t_cols tx) (t_rows ty)) as [n|] eqn:O.
  - specialize (N n eq_refl). subst n. destruct (is_fixed (constant tx)); intro H.
    + apply op2_some in H as (fa & a & fb & b & Ha & Hb & ->).
      apply op2_some in Ha as (fc & c & fd & d & Hc & Hd & ->). injection Hc as <- <-.
      apply (constant_ok _ _ Sx) in Hd. apply (constant_ok _ _ Sy) in Hb.
      intros i j Hi Hj; simpl in Hi, Hj. rewrite (prod_consts d b) by assumption. ring.
    + apply op2_some in H as (fa & a & fb & b & Ha & Hb & ->).
      apply op2_some in Ha as (fc & c & fd & d & Hc & Hd & ->). injection Hc as <- <-.
      apply (constant_ok _ _ Sy) in Hd. apply (constant_ok _ _ Sx) in Hb.
      intros i j Hi Hj; simpl in Hi, Hj. rewrite (prod_consts b d) by assumption. ring.
  - intro H. apply op2_some in H as (fa & a & fb & b & Ha & Hb & ->). injection Ha as <- <-.
    apply op2_some in Hb as (fc & c & fd & d & Hc & Hd & ->).
    apply (constant_ok _ _ Sx) in Hc. apply (constant_ok _ _ Sy) in Hd.
    intros i j Hi Hj; simpl in Hi, Hj. rewrite (prod_consts c d) by assumption. now rewrite (s_nc _ _ Sx).
Qed.

Lemma prod_diag_ok fx z : op2 Cmult (constant_diag tx) (constant_diag ty) = Some (fx, z) -> diag_equal e z.
Proof.
  intro H. apply op2_some in H as (fa & a & fb & b & Ha & Hb & ->).
  assert (P : Nat.min (rows x) (cols y) <= cols x \/ (zero tx || zero ty = true /\ 0 < cols x))
    by (apply Safe3; [now rewrite Ha | now rewrite Hb]).
  apply (constant_diag_ok _ _ Sx) in Ha. apply (constant_diag_ok _ _ Sy) in Hb. pose proof inner as In.
  intros i j Hi Hj; simpl in Hi, Hj. destruct P as [P|[Z P]].
  - rewrite (prod_diag_l i j a) by assumption. destruct (Nat.ltb i (cols x)) eqn:E.
    + apply Nat.ltb_lt in E. rewrite Hb by lia. destruct (Nat.eqb i j); [reflexivity | apply Cm0r].
    + apply Nat.ltb_ge in E. assert (N : Nat.eqb i j = false) by (apply Nat.eqb_neq; lia). now rewrite N.
  - apply orb_true_iff in Z. assert (A : all_equal e C0) by now apply prod_zero.
    rewrite (all_equal_diag _ A) by assumption. destruct (Nat.eqb i j); [|reflexivity].
    destruct Z as [Z|Z]; symmetry.
    + apply (zero_ok _ _ Sx) in Z. assert (a = C0) as ->; [|apply Cm0l].
      rewrite <- (Z 0 0) by lia. now rewrite Ha by lia.
    + apply (zero_ok _ _ Sy) in Z. assert (b = C0) as ->; [|apply Cm0r].
      rewrite <- (Z 0 0) by lia. now rewrite Hb by lia.
Qed.

Lemma prod_tri a : triangular tx a = true -> triangular ty a = true -> shaped a e.
Proof.
  intros A B i j Hi Hj O; simpl in Hi, Hj. pose proof inner as In. rewrite prod_coef. apply csum_zero.
  intros k Hk; apply in_seq0 in Hk.
  assert (D : outside a i k \/ outside a k j) by (destruct a; simpl in *; lia).
  destruct D as [D|D].
  - rewrite (triangular_ok _ _ Sx a A) by assumption. apply Cm0l.
  - rewrite (triangular_ok _ _ Sy a B k j) by (assumption || lia). apply Cm0r.
Qed.

Lemma real_diag t x0 : sound t x0 -> wf x0 -> is_some (constant_diag t) = true -> not_complex (t_kind t) (constant_diag t) = true ->
  0 < rows x0 -> 0 < cols x0 -> exists d, diag_equal x0 d /\ snd d = 0%R.
Proof.
  intros S0 W0 D N Hr Hc. apply is_some_true in D as (fx & d & D). exists d.
  pose proof (constant_diag_ok _ _ S0 _ _ D) as E. split; [exact E|].
  apply (not_complex_real (t_kind t) _ fx d N D). rewrite (s_kind _ _ S0).
  replace d with (coef x0 0 0) by now rewrite E by assumption. now apply coef_kind.
Qed.
Lemma Cconj_scale d z : snd d = 0%R -> Cconj (Cmult d z) = Cmult d (Cconj z).
Proof. destruct d as [a b], z; simpl; intros ->; unfold Cmult, Cconj; simpl; f_equal; ring. Qed.

Lemma prod_sound : sound (prod_traits tx ty (coef e 0 0) (kind_of e)) e.
Proof.
  pose proof W as (Wx & Wy & In).
  assert (T : forall a, triangular tx a && triangular ty a = true -> shaped a e).
  { intros a H; apply andb_true_iff in H as [A B]. now apply prod_tri. }
  apply mk_sound; unfold prod_traits; fields; try reflexivity; try discriminate.
  - apply (s_rows _ _ Sx).
  - apply (s_cols _ _ Sy).
  - apply (s_nr _ _ Sx).
  - apply (s_nc _ _ Sy).
  - apply prod_const_ok.
  - apply prod_diag_ok.
  - apply T.
  - intros _ _; apply T.
  - intros _ _; apply T.
  - intros H Q; simpl in Q.
    destruct (zero tx || zero ty) eqn:Z.
    { apply orb_true_iff in Z. apply prod_zero in Z. intros i j Hi Hj; simpl in Hi, Hj. rewrite !Z by (simpl; lia). now rewrite Cconj0. }
    apply orb_false_iff in Z as [Zx Zy]. destruct (Safe Zx Zy) as (_ & _ & P4).
    assert (Sq : rows x = cols x).
    { apply P4; [exact Q|]. apply orb_true_iff in H. apply orb_true_iff.
      destruct H as [H|H]; apply andb_true_iff in H as [H M]; apply andb_true_iff in H as [H _];
        [left | right]; now rewrite H, M. }
    intros i j Hi Hj; simpl in Hi, Hj.
    apply orb_true_iff in H as [H|H]; apply andb_true_iff in H as [H M]; apply andb_true_iff in H as [H N].
    + destruct (real_diag tx x Sx Wx H N) as (d & D & Rd); [lia|lia|].
      apply (may_be_hermitian_ok _ _ Sy Wy) in M; [|congruence].
      rewrite (prod_diag_l i j d), (prod_diag_l j i d) by (assumption || lia).
      assert (L1 : Nat.ltb i (cols x) = true) by (apply Nat.ltb_lt; lia).
      assert (L2 : Nat.ltb j (cols x) = true) by (apply Nat.ltb_lt; lia).
      rewrite L1, L2, Cconj_scale, (M i j) by (assumption || lia). reflexivity.
    + destruct (real_diag ty y Sy Wy H N) as (d & D & Rd); [lia|lia|].
      apply (may_be_hermitian_ok _ _ Sx Wx) in M; [|congruence].
      rewrite (prod_diag_r i j d), (prod_diag_r j i d) by (assumption || lia).
      assert (L1 : Nat.ltb i (cols x) = true) by (apply Nat.ltb_lt; lia).
      assert (L2 : Nat.ltb j (cols x) = true) by (apply Nat.ltb_lt; lia).
      rewrite L1, L2, (Cmult_comm (coef x j i)), Cconj_scale, (M i j), Cmult_comm by (assumption || lia). reflexivity.
Qed.
End Prod.

(** ** Views of one operand. *)
Section View.
Variables (x : expr) (t : traits).
Hypotheses (S : sound t x) (W : wf x).

Lemma diag_const_ok k fx gx z : wf (EDiag k fx x) -> diag_const k fx t = Some (gx, z) -> all_equal (EDiag k fx x) z.
Proof.
  intros [_ [Kl Kh]] H i j Hi Hj; simpl in *.
  set (r := i + Z.to_nat (- k)). set (c := i + Z.to_nat k).
  assert (Hr : r < rows x) by (unfold r; lia). assert (Hc : c < cols x) by (unfold c; lia).
  unfold diag_const in H.
  assert (Off : k <> 0%Z -> Nat.eqb r c = false) by (intro N; apply Nat.eqb_neq; unfold r, c; lia).
  assert (On : k = 0%Z -> Nat.eqb r c = true) by (intro N; apply Nat.eqb_eq; unfold r, c; lia).
  assert (Z0 : zero t = true -> coef x r c = C0) by (intro Z; now apply (zero_ok _ _ S Z)).
  destruct (constant_diag t) as [[dx d]|] eqn:D.
  - pose proof (constant_diag_ok _ _ S _ _ D r c Hr Hc) as E.
    cbn [is_some andb] in H.
    destruct (Z.eqb k 0) eqn:K.
    + apply Z.eqb_eq in K. rewrite (On K) in E. subst k. destruct fx; cbn [andb] in H.
      * injection H as <- <-. exact E.
      * cbn [negb] in H. destruct (zero t) eqn:Zt.
        -- simpl in H. injection H as <- <-. now apply Z0.
        -- simpl in H. injection H as <- <-. exact E.
    + apply Z.eqb_neq in K. rewrite (Off K) in E. destruct fx; cbn [andb negb] in H.
      * destruct (zero t || _) eqn:Q in H.
        -- destruct (match Z.compare k 0 with Eq => false | _ => _ end) in H; [discriminate H|]. injection H as <- <-. exact E.
        -- now apply (constant_ok _ _ S) in H; rewrite H.
      * destruct (zero t || _) eqn:Q in H; [injection H as <- <-; exact E|].
        destruct (_ && _) in H; [|discriminate H]. injection H as <- <-. exact E.
  - cbn [is_some andb] in H. destruct (zero t) eqn:Zt.
    + cbn [orb] in H. destruct (fx && _) in H; [discriminate H|]. injection H as <- <-. now apply Z0.
    + cbn [orb] in H. now apply (constant_ok _ _ S) in H; rewrite H.
Qed.
Lemma diag_sound k fx : wf (EDiag k fx x) ->
  sound (diag_traits k fx t (coef (EDiag k fx x) 0 0) (rows (EDiag k fx x))) (EDiag k fx x).
Proof.
  intro Wd. apply mk_sound; unfold diag_traits; fields; try reflexivity; try discriminate.
  - apply (s_kind _ _ S).
  - intros n H. destruct (t_rows t) eqn:A; [|discriminate]. destruct (t_cols t) eqn:B; [|discriminate].
    destruct fx; [|discriminate]. apply (s_rows _ _ S) in A. apply (s_cols _ _ S) in B. simpl. congruence.
  - intros n H; injection H as <-; reflexivity.
  - intros gx z H. now apply diag_const_ok with gx.
Qed.

Lemma self_sound up : wf (ESelf up x) -> sound (self_traits t (coef (ESelf up x) 0 0)) (ESelf up x).
Proof.
  intros [_ Q].
  assert (Dg : diagonal t = true -> shaped Tdiag (ESelf up x)).
  { intro H. apply (diagonal_ok _ _ S) in H. intros i j Hi Hj O; simpl in *.
    destruct (if up then _ else _); [now apply H|]. rewrite (H j i) by (simpl; lia). apply Cconj0. }
  assert (Cst : forall z, all_equal x z -> snd z = 0%R -> all_equal (ESelf up x) z).
  { intros z A R i j Hi Hj; simpl in *. destruct (if up then _ else _); [apply A; lia|]. rewrite A by lia. now apply Cconj_id. }
  assert (Real : forall fx z, constant t = Some (fx, z) -> kind_of x = Kreal -> all_equal (ESelf up x) z).
  { intros fx z H K i j Hi Hj; simpl in Hi, Hj. pose proof H as H0. apply (constant_ok _ _ S) in H.
    apply Cst; try assumption. apply (const_conj x t S W fx); (assumption || lia). }
  apply mk_sound; unfold self_traits; fields; try reflexivity.
  - apply (s_kind _ _ S).
  - apply (s_rows _ _ S).
  - apply (s_cols _ _ S).
  - apply (s_nr _ _ S).
  - apply (s_nc _ _ S).
  - apply (square_ok _ _ S).
  - intros fx z H. rewrite (s_kind _ _ S) in H. destruct (kind_of x) eqn:K.
    + now apply (Real fx).
    + destruct (is_fixed (constant t)) eqn:F; [|discriminate H].
      destruct (not_complex Kcplx (constant t)) eqn:N; [|discriminate H]. simpl in H.
      apply Cst; [now apply (constant_ok _ _ S) in H|]. apply (not_complex_real Kcplx _ fx z N H I).
  - intros fx z H. apply (constant_diag_ok _ _ S) in H. intros i j Hi Hj; simpl in *.
    destruct (Nat.eqb i j) eqn:E.
    + apply Nat.eqb_eq in E; subst j. rewrite Nat.leb_refl. destruct up; rewrite H, Nat.eqb_refl by lia; reflexivity.
    + destruct (if up then _ else _); [rewrite H, E by lia; reflexivity|].
      rewrite H by lia. rewrite Nat.eqb_sym, E. apply Cconj0.
  - exact Dg.
  - intros _ _ H. apply shaped_le with Tdiag; [now apply Dg | reflexivity].
  - intros _ _ H. apply shaped_le with Tdiag; [now apply Dg | reflexivity].
  - intros H _ i j Hi Hj; simpl in Hi, Hj.
    (* the diagonal is real *)
    assert (Rd : i = j -> snd (coef x i i) = 0%R).
    { intros ->. rewrite (s_kind _ _ S) in H. destruct (kind_of x) eqn:K; [now apply coef_real|]. simpl in H.
      apply orb_true_iff in H as [H|H].
      - destruct (constant t) as [[fx z]|] eqn:E; [|discriminate H].
        pose proof (constant_ok _ _ S _ _ E j j) as A. rewrite A by lia.
        apply (not_complex_real Kcplx _ fx z H eq_refl I).
      - destruct (constant_diag t) as [[fx z]|] eqn:E; [|discriminate H].
        pose proof (constant_diag_ok _ _ S _ _ E j j) as A. rewrite A, Nat.eqb_refl by lia.
        apply (not_complex_real Kcplx _ fx z H eq_refl I). }
    simpl. destruct (Nat.eq_dec i j) as [E|E].
    + specialize (Rd E). subst j. rewrite Nat.leb_refl. destruct up; symmetry; now apply Cconj_id.
    + destruct up.
      * destruct (Nat.leb i j) eqn:L; [apply Nat.leb_le in L | apply Nat.leb_gt in L].
        -- assert (L2 : Nat.leb j i = false) by (apply Nat.leb_gt; lia). rewrite L2. symmetry; apply Cconj_conj.
        -- assert (L2 : Nat.leb j i = true) by (apply Nat.leb_le; lia). now rewrite L2.
      * destruct (Nat.leb j i) eqn:L; [apply Nat.leb_le in L | apply Nat.leb_gt in L].
        -- assert (L2 : Nat.leb i j = false) by (apply Nat.leb_gt; lia). rewrite L2. symmetry; apply Cconj_conj.
        -- assert (L2 : Nat.leb i j = true) by (apply Nat.leb_le; lia). now rewrite L2.
Qed.

Lemma tri_sound (up : bool) (m : diagmode) :
  (m = UnitDiag -> zero t = false) ->
  (m <> Plain -> is_some (constant_diag t) = true -> triangular t (if up then Tlower else Tupper) = true) ->
  sound (tri_traits up m t (coef (ETri up m x) 0 0)) (ETri up m x).
Proof.
  intros S1 S2.
  assert (Op : (if up then triangular t Tlower else triangular t Tupper) = triangular t (if up then Tlower else Tupper))
    by (destruct up; reflexivity).
  assert (Off : triangular t (if up then Tlower else Tupper) = true ->
      forall i j, i < rows x -> j < cols x -> i <> j -> coef (ETri up m x) i j = C0).
  { intros H i j Hi Hj N; simpl. assert (E : Nat.eqb i j = false) by now apply Nat.eqb_neq. rewrite E.
    pose proof (triangular_ok _ _ S _ H) as T. destruct up.
    - destruct (Nat.ltb i j) eqn:L; [|reflexivity]. apply Nat.ltb_lt in L. now apply T.
    - destruct (Nat.ltb j i) eqn:L; [|reflexivity]. apply Nat.ltb_lt in L. now apply T. }
  assert (Sh : shaped (tmul (if up then Tupper else Tlower) (triangle t)) (ETri up m x)).
  { intros i j Hi Hj O; simpl in Hi, Hj.
    assert (N : i <> j) by (destruct up, (triangle t); simpl in O; lia).
    simpl. assert (E : Nat.eqb i j = false) by now apply Nat.eqb_neq. rewrite E.
    destruct (if up then Nat.ltb i j else Nat.ltb j i) eqn:L; [|reflexivity].
    apply (s_tri _ _ S); try assumption.
    destruct up; apply Nat.ltb_lt in L; destruct (triangle t); simpl in *; lia. }
  apply mk_sound; unfold tri_traits; fields; try reflexivity.
  - apply (s_kind _ _ S).
  - apply (s_rows _ _ S).
  - apply (s_cols _ _ S).
  - apply (s_nr _ _ S).
  - apply (s_nc _ _ S).
  - apply (square_ok _ _ S).
  - intros fx z H. destruct (zero t || mode_is m ZeroDiag && diagonal t) eqn:E; [|discriminate H]. injection H as <- <-.
    apply orb_true_iff in E as [E|E].
    + pose proof (zero_ok _ _ S E) as Z. intros i j Hi Hj; simpl in *. rewrite !Z by assumption.
      destruct (Nat.eqb i j); [|now destruct (if up then Nat.ltb i j else Nat.ltb j i)].
      destruct m; try reflexivity. rewrite S1 in E by reflexivity; discriminate.
    + apply andb_true_iff in E as [M D]. apply (diagonal_ok _ _ S) in D. intros i j Hi Hj; simpl in *.
      destruct (Nat.eqb i j) eqn:E; [destruct m; try discriminate M; reflexivity|].
      apply Nat.eqb_neq in E. rewrite D by assumption. now destruct (if up then Nat.ltb i j else Nat.ltb j i).
  - intros fx z H. rewrite Op in H.
    set (op := triangular t (if up then Tlower else Tupper)) in *.
    destruct (mode_is m UnitDiag && op) eqn:E1.
    { apply andb_true_iff in E1 as [M D]. injection H as <- <-. intros i j Hi Hj; simpl in Hi, Hj.
      destruct (Nat.eqb i j) eqn:E; [|apply Off; try assumption; now apply Nat.eqb_neq].
      simpl; rewrite E. destruct m; try discriminate M; reflexivity. }
    destruct (mode_is m ZeroDiag && op) eqn:E2.
    { apply andb_true_iff in E2 as [M D]. injection H as <- <-. intros i j Hi Hj; simpl in Hi, Hj.
      destruct (Nat.eqb i j) eqn:E; [|apply Off; try assumption; now apply Nat.eqb_neq].
      simpl; rewrite E. destruct m; try discriminate M; reflexivity. }
    assert (M : m = Plain).
    { destruct m; [reflexivity| |]; exfalso; (assert (D : op = true) by (apply S2; [discriminate | now rewrite H]));
        rewrite D in *; discriminate. }
    subst m. apply (constant_diag_ok _ _ S) in H. intros i j Hi Hj; simpl in *. rewrite !H by assumption.
    destruct (Nat.eqb i j); [reflexivity | now destruct (if up then Nat.ltb i j else Nat.ltb j i)].
  - intro H. eapply shaped_le; [exact Sh | exact H].
  - intros _ _ H. eapply shaped_le; [exact Sh | exact H].
  - intros _ _ H. eapply shaped_le; [exact Sh | exact H].
  - intros H Q; simpl in Q. apply andb_true_iff in H as [D H].
    apply (diagonal_ok _ _ S) in D.
    intros i j Hi Hj; simpl in Hi, Hj.
    assert (Rd : i = j -> snd (coef x i i) = 0%R).
    { intros ->. rewrite (s_kind _ _ S) in H. destruct (kind_of x) eqn:K; [now apply coef_real|]. simpl in H.
      apply orb_true_iff in H as [H|H].
      - destruct (constant t) as [[fx z]|] eqn:E; [|discriminate H].
        pose proof (constant_ok _ _ S _ _ E j j) as A. rewrite A by lia.
        apply (not_complex_real Kcplx _ fx z H eq_refl I).
      - destruct (constant_diag t) as [[fx z]|] eqn:E; [|discriminate H].
        pose proof (constant_diag_ok _ _ S _ _ E j j) as A. rewrite A, Nat.eqb_refl by lia.
        apply (not_complex_real Kcplx _ fx z H eq_refl I). }
    simpl. rewrite (Nat.eqb_sym j i). destruct (Nat.eqb i j) eqn:E.
    + apply Nat.eqb_eq in E. specialize (Rd E). subst j.
      destruct m; simpl; symmetry; [now apply Cconj_id | apply Cconj1 | apply Cconj0].
    + apply Nat.eqb_neq in E. rewrite (D i j), (D j i) by (simpl; lia).
      replace (Cconj (if (if up then Nat.ltb j i else Nat.ltb i j) then C0 else C0)) with C0
        by (destruct (if up then Nat.ltb j i else Nat.ltb i j); symmetry; apply Cconj0).
      now destruct (if up then Nat.ltb i j else Nat.ltb j i).
Qed.

Lemma block_sound r c i0 j0 : wf (EBlock r c i0 j0 x) ->
  sound (block_traits r c t (coef (EBlock r c i0 j0 x) 0 0)) (EBlock r c i0 j0 x).
Proof.
  intros (_ & Br & Bc). apply mk_sound; unfold block_traits; fields; try reflexivity; try discriminate; try apply sdim_some.
  - apply (s_kind _ _ S).
  - intros fx z H. apply (constant_ok _ _ S) in H. intros i j Hi Hj; simpl in *. apply H; lia.
Qed.

Definition is_known (d : dim) (n : option nat) := fixed d && match n with Some m => Nat.eqb (size d) m | None => false end.
Lemma is_known_rows d : is_known d (t_rows t) = true -> fixed d = true /\ size d = rows x.
Proof.
  intro H; apply andb_true_iff in H as [A H]. destruct (t_rows t) eqn:E; [|discriminate].
  apply Nat.eqb_eq in H. apply (s_rows _ _ S) in E. split; congruence.
Qed.
Lemma is_known_cols d : is_known d (t_cols t) = true -> fixed d = true /\ size d = cols x.
Proof.
  intro H; apply andb_true_iff in H as [A H]. destruct (t_cols t) eqn:E; [|discriminate].
  apply Nat.eqb_eq in H. apply (s_cols _ _ S) in E. split; congruence.
Qed.
Section Reshape.
Variables r c : dim.
Hypothesis Wr : wf (EReshape r c x).
Lemma reshape_index i j : i < size r -> j < size c ->
  (i + j * size r) mod rows x < rows x /\ (i + j * size r) / rows x < cols x.
Proof.
  destruct Wr as [_ E]. intros Hi Hj.
  assert (B : i + j * size r < rows x * cols x) by (rewrite <- E; nia).
  assert (N : rows x <> 0) by nia. split; [now apply Nat.mod_upper_bound|]. now apply Nat.div_lt_upper_bound.
Qed.
Lemma reshape_same i j : i < size r -> j < size c -> size r = rows x ->
  (i + j * size r) mod rows x = i /\ (i + j * size r) / rows x = j.
Proof.
  intros Hi Hj E. rewrite E in *. assert (N : rows x <> 0) by lia.
  rewrite Nat.mod_add, Nat.div_add, Nat.mod_small, Nat.div_small by lia. lia.
Qed.
Lemma reshape_shape i j : i < size r -> j < size c -> is_known r (t_rows t) || is_known c (t_cols t) = true -> size r = rows x.
Proof.
  destruct Wr as [_ E]. intros Hi Hj H. apply orb_true_iff in H as [H|H].
  - now apply is_known_rows in H.
  - apply is_known_cols in H as [_ H]. nia.
Qed.
Lemma reshape_size d o n : size d * size o = rows x * cols x ->
  (if fixed d then Some (size d)
    else if negb (fixed o) || Nat.eqb (size o) 0 then None
    else if is_known o (t_rows t) && is_some (option_map (fun n => (true, real_of (INR n))) (t_cols t)) then t_cols t
    else if is_known o (t_cols t) && is_some (option_map (fun n => (true, real_of (INR n))) (t_rows t)) then t_rows t
    else match (match t_rows t, t_cols t with Some a, Some b => Some (a * b) | _, _ => None end) with
         | Some n => if Nat.eqb (n mod size o) 0 then Some (n / size o) else None | None => None end) = Some n ->
  size d = n.
Proof.
  intros E H. destruct (fixed d); [congruence|]. destruct (negb (fixed o) || Nat.eqb (size o) 0) eqn:Z; [discriminate H|].
  apply orb_false_iff in Z as [_ Z]. apply Nat.eqb_neq in Z.
  destruct (is_known o (t_rows t) && _) eqn:A.
  { apply andb_true_iff in A as [A _]. apply is_known_rows in A as [_ A]. apply (s_cols _ _ S) in H. nia. }
  clear A. destruct (is_known o (t_cols t) && _) eqn:A.
  { apply andb_true_iff in A as [A _]. apply is_known_cols in A as [_ A]. apply (s_rows _ _ S) in H. nia. }
  clear A. destruct (t_rows t) eqn:R; [|discriminate]. destruct (t_cols t) eqn:Cc; [|discriminate].
  apply (s_rows _ _ S) in R. apply (s_cols _ _ S) in Cc. destruct (Nat.eqb _ 0); [|discriminate]. injection H as <-.
  subst. rewrite <- E. now rewrite Nat.div_mul.
Qed.
Lemma reshape_sound :
  (may_be_hermitian t = true -> rows x = cols x \/ (is_some (t_const t) = true /\ kind_of x = Kreal)) ->
  sound (reshape_traits r c t (coef (EReshape r c x) 0 0)) (EReshape r c x).
Proof.
  intro S1. pose proof Wr as [_ E].
  assert (T : forall a, triangular t a && (is_known r (t_rows t) || is_known c (t_cols t)) = true -> shaped a (EReshape r c x)).
  { intros a H i j Hi Hj O; simpl in Hi, Hj. apply andb_true_iff in H as [H K].
    pose proof (reshape_shape i j Hi Hj K) as Q. destruct (reshape_index i j Hi Hj) as [A B].
    cbn [coef]. destruct (reshape_same i j Hi Hj Q) as [E1 E2]. rewrite E1 in *. rewrite E2 in *.
    now apply (triangular_ok _ _ S a H). }
  apply mk_sound; unfold reshape_traits; fields; try reflexivity; try discriminate.
  - apply (s_kind _ _ S).
  - intros n H. cbn [rows]. apply (reshape_size r c); [exact E | exact H].
  - intros n H. cbn [cols]. apply (reshape_size c r); [lia | exact H].
  - intros fx z H. apply (constant_ok _ _ S) in H. intros i j Hi Hj; simpl in Hi, Hj.
    destruct (reshape_index i j Hi Hj) as [A B]. cbn [coef]. now apply H.
  - intros fx z H. fold (is_known r (t_rows t)) in H. fold (is_known c (t_cols t)) in H.
    destruct (is_known r (t_rows t) || is_known c (t_cols t)) eqn:K; [|discriminate H].
    apply (constant_diag_ok _ _ S) in H. intros i j Hi Hj; simpl in Hi, Hj.
    pose proof (reshape_shape i j Hi Hj K) as Q. destruct (reshape_index i j Hi Hj) as [A B].
    cbn [coef]. destruct (reshape_same i j Hi Hj Q) as [E1 E2]. rewrite E1 in *. rewrite E2 in *. now apply H.
  - apply T.
  - intros _ _; apply T.
  - intros _ _; apply T.
  - intros H Q; simpl in Q. apply andb_true_iff in H as [H _].
    intros i j Hi Hj; simpl in Hi, Hj. destruct (reshape_index i j) as [A1 B1]; try lia.
    destruct (reshape_index j i) as [A2 B2]; try lia. cbn [coef].
    assert (N : rows x = cols x \/ rows x <> cols x) by lia. destruct N as [N|N].
    + assert (Q2 : size r = rows x) by nia.
      destruct (reshape_same i j) as [E1 E2]; try lia. destruct (reshape_same j i) as [E3 E4]; try lia.
      rewrite E1, E2, E3, E4 in *. now apply (may_be_hermitian_ok _ _ S W H N).
    + destruct (S1 H) as [|[Cc Kr]]; [contradiction|]. now apply (constant_conj x t S W Cc Kr).
Qed.
End Reshape.
End View.
