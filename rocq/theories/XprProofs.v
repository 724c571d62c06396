(** * Proofs for C89: the claims of each kind of expression follow from those of its parts. *)
From Coq Require Import Reals ZArith List Bool Lia Lra.
From Coquelicot Require Import Coquelicot.
From Verif Require Import XprEigen XprModel XprSpec XprScalars.
Import ListNotations.
Local Open Scope nat_scope.

(** ** Scalars of real expressions are real. *)
Lemma snd_csum l : (forall z, In z l -> snd z = 0%R) -> snd (csum l) = 0%R.
Proof.
  induction l as [|a l IH]; intro H; [reflexivity|]. cbn [csum fold_right]. fold (csum l). simpl.
  rewrite (H a) by now left. rewrite IH; [ring|]. intros z Hz; apply H; now right.
Qed.
Lemma snd_cprod l : (forall z, In z l -> snd z = 0%R) -> snd (fold_right Cmult C1 l) = 0%R.
Proof.
  induction l as [|a l IH]; intro H; [reflexivity|]. cbn [fold_right]. simpl.
  rewrite (H a) by now left. rewrite IH; [ring|]. intros z Hz; apply H; now right.
Qed.
Lemma snd_ofb b : snd (ofb b) = 0%R. Proof. destruct b; reflexivity. Qed.
Lemma ureal_real k u z : ureal u = true -> snd (ueval k u z) = 0%R.
Proof. destruct u; try discriminate; intros _; simpl; rewrite ?snd_ofb; reflexivity. Qed.
Lemma ueval_real u z : snd z = 0%R -> snd (ueval Kreal u z) = 0%R.
Proof.
  intro Hz; destruct z as [a b]; simpl in Hz; subst b; destruct u; simpl; rewrite ?snd_ofb; try reflexivity; try ring.
  unfold Rdiv; ring.
Qed.
Lemma breal_real b x y : breal b = true -> snd (beval b x y) = 0%R.
Proof. destruct b; try discriminate; intros _; simpl; rewrite ?snd_ofb; reflexivity. Qed.
Lemma beval_real b x y : snd x = 0%R -> snd y = 0%R -> snd (beval b x y) = 0%R.
Proof.
  intros Hx Hy; destruct x as [x1 x2], y as [y1 y2]; simpl in Hx, Hy; subst; destruct b; simpl; rewrite ?snd_ofb; try reflexivity; try ring.
  unfold Rdiv; ring.
Qed.
Lemma joined_real k1 k2 : (match k1 with Kreal => k2 | Kcplx => Kcplx end) = Kreal -> k1 = Kreal /\ k2 = Kreal.
Proof. destruct k1; [auto | discriminate]. Qed.

Lemma coef_real e : wf e -> kind_of e = Kreal -> forall i j, snd (coef e i j) = 0%R.
Proof.
  induction e as [k r c f|k r c z|k r c z|k r c|v IH|u e IH|b z e IH|b e IH z|b x IHx y IHy|e IH|e IH|e IH|rf cf e IH
    |d e IH|s IHs x IHx y IHy|x IHx y IHy|k fx e IH|up e IH|up m e IH|r c i0 j0 e IH|r c e IH|op h e IH|k d f];
    simpl; intros W K i j.
  - specialize (W i j); now rewrite K in W.
  - now rewrite K in W.
  - now rewrite K in W.
  - destruct (Nat.eqb i j); reflexivity.
  - destruct W as [W _]. destruct (Nat.eqb i j); [|reflexivity]. destruct (Nat.eqb (cols v) 1); now apply IH.
  - destruct W as [W _]. destruct (ureal u) eqn:E; [now apply ureal_real|].
    assert (Kx : kind_of e = Kreal) by (destruct u; congruence). rewrite Kx. apply ueval_real. now apply IH.
  - destruct W as [W [R _]]. destruct (breal b) eqn:E; [now apply breal_real|]. rewrite K in R.
    apply beval_real; [exact R | now apply IH].
  - destruct W as [W [R _]]. destruct (breal b) eqn:E; [now apply breal_real|]. rewrite K in R.
    apply beval_real; [now apply IH | exact R].
  - destruct W as [Wx [Wy _]]. destruct (breal b) eqn:E; [now apply breal_real|].
    apply joined_real in K as [Kx Ky]. apply beval_real; [now apply IHx | now apply IHy].
  - now apply IH.
  - now apply IH.
  - now apply IH.
  - now apply IH.
  - destruct d; now apply IH.
  - destruct W as [_ [Wx [Wy _]]]. apply joined_real in K as [Kx Ky].
    destruct (tob (coef s i j)); [now apply IHx | now apply IHy].
  - destruct W as [Wx [Wy _]]. apply joined_real in K as [Kx Ky]. apply snd_csum. intros z Hz.
    apply in_map_iff in Hz as [q [<- _]]. simpl. rewrite IHx, IHy by assumption. ring.
  - destruct W as [W _]; now apply IH.
  - destruct W as [W _]. destruct (if up then _ else _); [now apply IH|]. simpl. rewrite IH by assumption. ring.
  - destruct (Nat.eqb i j); [destruct m; simpl; try reflexivity; now apply IH|].
    destruct (if up then _ else _); [now apply IH | reflexivity].
  - destruct W as [W _]; now apply IH.
  - destruct W as [W _]; now apply IH.
  - destruct W as [W _]. destruct h; destruct op; simpl; rewrite ?snd_ofb; try reflexivity;
      try (apply snd_csum || apply snd_cprod); intros z Hz; apply in_map_iff in Hz as [q [<- _]]; now apply IH.
  - destruct W as [W _]. specialize (W i j); now rewrite K in W.
Qed.
Lemma coef_kind e i j : wf e -> real_if (kind_of e) (coef e i j).
Proof. intro W; destruct (kind_of e) eqn:K; simpl; [now apply coef_real | exact I]. Qed.

(** ** The invariant. *)
Record sound (t : traits) (e : expr) : Prop := mk_sound_ {
  s_kind : t_kind t = kind_of e;
  s_rows : forall n, t_rows t = Some n -> rows e = n;
  s_cols : forall n, t_cols t = Some n -> cols e = n;
  s_nr : t_nr t = rows e;
  s_nc : t_nc t = cols e;
  s_at : t_at t = coef e 0 0;
  s_sq : t_square t = true -> rows e = cols e;
  s_const : forall fx z, t_const t = Some (fx, z) -> all_equal e z;
  s_diag : forall fx z, t_diag t = Some (fx, z) -> diag_equal e z;
  s_tri : shaped (triangle t) e;
  s_herm : t_herm t = true -> rows e = cols e -> conj_symmetric e }.

Lemma is1_true o : is1 o = true -> o = Some 1.
Proof. destruct o as [n|]; simpl; [intro H; apply Nat.eqb_eq in H; now subst | discriminate]. Qed.
Lemma fixed_zero_true c : fixed_zero c = true -> c = Some (true, C0).
Proof. destruct c as [[[] z]|]; simpl; try discriminate. intro H; apply Ceqb_true in H; now subst. Qed.
Lemma zero_true t : zero t = true -> t_const t = Some (true, C0).
Proof. apply fixed_zero_true. Qed.
Lemma one_dim_true t : one_dim t = true -> t_rows t = Some 1 /\ t_cols t = Some 1.
Proof. intro H; apply andb_true_iff in H as [A B]; split; now apply is1_true. Qed.

Lemma all_equal_diag e : all_equal e C0 -> diag_equal e C0.
Proof. intros H i j Hi Hj; rewrite H by assumption; now destruct (Nat.eqb i j). Qed.
Lemma all_equal_shaped e t : all_equal e C0 -> shaped t e.
Proof. intros H i j Hi Hj _; now apply H. Qed.
Lemma diag_shaped e z : diag_equal e z -> shaped Tdiag e.
Proof. intros H i j Hi Hj N; rewrite H by assumption. simpl in N. apply Nat.eqb_neq in N; now rewrite N. Qed.
Lemma shaped_le e a b : shaped b e -> tmatch a b = true -> shaped a e.
Proof.
  intros H M i j Hi Hj O; apply H; try assumption. destruct a, b; simpl in *; try discriminate; try easy; lia.
Qed.
Lemma shaped_none e : shaped Tnone e. Proof. intros i j _ _ []. Qed.

Lemma mk_sound t e :
  t_kind t = kind_of e ->
  (forall n, t_rows t = Some n -> rows e = n) -> (forall n, t_cols t = Some n -> cols e = n) ->
  t_nr t = rows e -> t_nc t = cols e -> t_at t = coef e 0 0 -> (t_square t = true -> rows e = cols e) ->
  (forall fx z, t_const t = Some (fx, z) -> all_equal e z) ->
  (forall fx z, t_diag t = Some (fx, z) -> diag_equal e z) ->
  (t_tri t Tdiag = true -> shaped Tdiag e) ->
  (vector0 t = false -> vector1 t = false -> t_tri t Tlower = true -> shaped Tlower e) ->
  (vector0 t = false -> vector1 t = false -> t_tri t Tupper = true -> shaped Tupper e) ->
  (t_herm t = true -> rows e = cols e -> conj_symmetric e) -> sound t e.
Proof.
  intros Hk Hr Hc Hnr Hnc Hat Hsq Hconst Hdiag Td Tl Tu Hh.
  constructor; try assumption. unfold triangle.
  destruct (zero t) eqn:Z; [apply all_equal_shaped; apply zero_true in Z; eauto|].
  destruct (one_dim t) eqn:O.
  { apply one_dim_true in O as [A B]. apply Hr in A; apply Hc in B. intros i j Hi Hj N; simpl in N; lia. }
  destruct (t_tri t Tdiag); simpl; [auto|].
  destruct (vector0 t) eqn:V0.
  { apply is1_true, Hc in V0. intros i j Hi Hj N; simpl in N; lia. }
  destruct (vector1 t) eqn:V1.
  { apply is1_true, Hr in V1. intros i j Hi Hj N; simpl in N; lia. }
  destruct (t_tri t Tlower); [auto|]. destruct (t_tri t Tupper); [auto|]. apply shaped_none.
Qed.

Section Use.
Variables (t : traits) (e : expr).
Hypotheses (S : sound t e) (W : wf e).
Lemma constant_ok fx z : constant t = Some (fx, z) -> all_equal e z.
Proof.
  unfold constant; destruct (t_const t) as [[fx' z']|] eqn:E.
  - intro H; injection H as -> ->. now apply (s_const _ _ S) in E.
  - destruct (one_dim t) eqn:O; [|discriminate]. intro H; injection H as <- <-.
    apply one_dim_true in O as [A B]. apply (s_rows _ _ S) in A; apply (s_cols _ _ S) in B.
    intros i j Hi Hj. assert (i = 0) by lia; assert (j = 0) by lia; subst. symmetry; apply (s_at _ _ S).
Qed.
Lemma zero_ok : zero t = true -> all_equal e C0.
Proof. intro Z; apply zero_true in Z; now apply (s_const _ _ S) in Z. Qed.
Lemma constant_diag_ok fx z : constant_diag t = Some (fx, z) -> diag_equal e z.
Proof.
  unfold constant_diag; destruct (t_diag t) as [[fx' z']|] eqn:E.
  - intro H; injection H as -> ->. now apply (s_diag _ _ S) in E.
  - destruct (zero t) eqn:Z.
    + intro H. rewrite (zero_true _ Z) in H. injection H as <- <-. apply all_equal_diag, zero_ok, Z.
    + destruct (one_dim t) eqn:O; [|discriminate]. intro H; injection H as <- <-.
      apply one_dim_true in O as [A B]. apply (s_rows _ _ S) in A; apply (s_cols _ _ S) in B.
      intros i j Hi Hj. assert (i = 0) by lia; assert (j = 0) by lia; subst. symmetry; apply (s_at _ _ S).
Qed.
Lemma triangular_ok a : triangular t a = true -> shaped a e.
Proof. intro H; eapply shaped_le; [apply (s_tri _ _ S) | exact H]. Qed.
Lemma diagonal_ok : diagonal t = true -> shaped Tdiag e.
Proof. apply triangular_ok. Qed.
Lemma square_ok : square t = true -> rows e = cols e.
Proof.
  unfold square. destruct (t_square t) eqn:E; [intros _; now apply (s_sq _ _ S)|]. rewrite orb_false_r.
  unfold must_eq. destruct (t_rows t) as [n|] eqn:A; [|discriminate]. destruct (t_cols t) as [m|] eqn:B; [|discriminate].
  intro H; apply Nat.eqb_eq in H. apply (s_rows _ _ S) in A; apply (s_cols _ _ S) in B. congruence.
Qed.
Lemma herm_body_ok : herm_body t = true -> rows e = cols e -> conj_symmetric e.
Proof.
  unfold herm_body. destruct (t_herm t) eqn:E; [intros _ Q; now apply (s_herm _ _ S)|]. simpl.
  intros H Q. apply andb_true_iff in H as [H K]. rewrite (s_kind _ _ S) in K.
  destruct (kind_of e) eqn:Ke; [|discriminate].
  intros i j Hi Hj. rewrite (Cconj_id (coef e j i)) by now apply coef_real.
  apply orb_true_iff in H as [H|H].
  - destruct (constant t) as [[fx z]|] eqn:Ec; [|discriminate]. apply constant_ok in Ec.
    rewrite !Ec by lia; reflexivity.
  - apply diagonal_ok in H. destruct (Nat.eq_dec i j) as [->|N]; [reflexivity|]. rewrite !H by (simpl; lia); reflexivity.
Qed.
Lemma may_be_hermitian_ok : may_be_hermitian t = true -> rows e = cols e -> conj_symmetric e.
Proof. intro H; apply andb_true_iff in H as [_ H]; now apply herm_body_ok. Qed.
Lemma const_any c : constant t = Some c -> all_equal e (snd c).
Proof. destruct c; apply constant_ok. Qed.
Lemma diag_any c : constant_diag t = Some c -> diag_equal e (snd c).
Proof. destruct c; apply constant_diag_ok. Qed.
End Use.

Lemma op1_some f c fx z : op1 f c = Some (fx, z) -> exists w, c = Some (fx, w) /\ z = f w.
Proof. destruct c as [[fy w]|]; simpl; [|discriminate]. intro H; injection H as <- <-; eauto. Qed.
Lemma op2_some f c d fx z : op2 f c d = Some (fx, z) -> exists fa a fb b, c = Some (fa, a) /\ d = Some (fb, b) /\ z = f a b.
Proof.
  destruct c as [[fa a]|], d as [[fb b]|]; simpl; try discriminate. intro H; injection H as <- <-. eauto 10.
Qed.
Lemma is_some_true (c : claim) : is_some c = true -> exists fx z, c = Some (fx, z).
Proof. destruct c as [[fx z]|]; [eauto | discriminate]. Qed.

(** ** Triangle types. *)
Lemma tadd_ok x y (f : C -> C -> C) a b i j :
  f C0 C0 = C0 -> outside (tadd a b) i j -> (outside a i j -> x = C0) -> (outside b i j -> y = C0) -> f x y = C0.
Proof. intros F O Hx Hy. rewrite Hx, Hy; [exact F | |]; destruct a, b; simpl in *; try easy; lia. Qed.
Lemma tmul_ok x y (f : C -> C -> C) a b i j :
  (forall z, f C0 z = C0) -> (forall z, f z C0 = C0) -> outside (tmul a b) i j ->
  (outside a i j -> x = C0) -> (outside b i j -> y = C0) -> f x y = C0.
Proof.
  intros Fl Fr O Hx Hy.
  assert (D : outside a i j \/ outside b i j) by (destruct a, b; simpl in *; try easy; lia).
  destruct D as [D|D]; [rewrite (Hx D); apply Fl | rewrite (Hy D); apply Fr].
Qed.

(** ** Component-wise operations with two operands. *)
Section Bin.
Variables (b : bfun) (x y : expr) (tx ty : traits).
Hypotheses (Sx : sound tx x) (Sy : sound ty y) (W : wf (EBin b x y)).
Hypothesis Safe : bin_safe b (rows x) (cols x) tx ty (coef x) (coef y).
Let e := EBin b x y.

Lemma bin_in_range_y i j : i < rows x -> j < cols x -> i < rows y /\ j < cols y.
Proof. destruct W as [_ [_ [R [Cc _]]]]; lia. Qed.
Lemma bin_ordered i j : bordered b = true -> snd (coef x i j) = 0%R /\ snd (coef y i j) = 0%R.
Proof.
  intro B; destruct W as [Wx [Wy [_ [_ O]]]]. destruct (O B) as [Kx Ky]. split; now apply coef_real.
Qed.
Lemma bin_bop i j : i < rows x -> j < cols x -> bop b (coef x i j) (coef y i j) = beval b (coef x i j) (coef y i j).
Proof.
  intros Hi Hj; apply bop_beval; [apply bin_ordered|]. intro N. destruct Safe as [P _].
  destruct b; try discriminate; now apply P.
Qed.

(** Under the exclusions a zero operand of a sum is neutral. *)
Lemma sum_zero_l i j : bty b = Bsum -> match b with BOr | BMin | BMax => false | _ => true end = true ->
  zero tx = true -> i < rows x -> j < cols x -> beval b C0 (coef y i j) = coef y i j.
Proof.
  intros B N Z Hi Hj. destruct Safe as [_ P].
  destruct b; try discriminate; try (now apply (proj1 P)).
  simpl; destruct (coef y i j); unfold Cplus, C0; simpl; f_equal; ring.
Qed.
Lemma sum_zero_r i j : bty b = Bsum -> match b with BOr | BMin | BMax => false | _ => true end = true ->
  zero ty = true -> i < rows x -> j < cols x -> beval b (coef x i j) C0 = coef x i j.
Proof.
  intros B N Z Hi Hj. destruct Safe as [_ P].
  destruct b; try discriminate; try (now apply (proj2 P)).
  simpl; destruct (coef x i j); unfold Cplus, C0; simpl; f_equal; ring.
Qed.

Lemma op2_const_ok fx z : op2 (bop b) (constant tx) (constant ty) = Some (fx, z) -> all_equal e z.
Proof.
  intro H; apply op2_some in H as (fa & a & fb & c & Ha & Hc & ->). intros i j Hi Hj; simpl in Hi, Hj.
  apply (constant_ok _ _ Sx) in Ha. apply (constant_ok _ _ Sy) in Hc.
  destruct (bin_in_range_y _ _ Hi Hj) as [Yi Yj].
  rewrite <- (Ha i j Hi Hj), <- (Hc i j Yi Yj). symmetry. now apply bin_bop.
Qed.
Lemma op2_diag_ok fx z : bty b = Bsum -> op2 (bop b) (constant_diag tx) (constant_diag ty) = Some (fx, z) -> diag_equal e z.
Proof.
  intros B H; apply op2_some in H as (fa & a & fb & c & Ha & Hc & ->). intros i j Hi Hj; simpl in Hi, Hj.
  apply (constant_diag_ok _ _ Sx) in Ha. apply (constant_diag_ok _ _ Sy) in Hc.
  destruct (bin_in_range_y _ _ Hi Hj) as [Yi Yj]. simpl. rewrite <- (bin_bop i j) by assumption.
  rewrite (Ha i j Hi Hj), (Hc i j Yi Yj). destruct (Nat.eqb i j) eqn:E; [reflexivity|].
  generalize (bin_bop i j Hi Hj). rewrite (Ha i j Hi Hj), (Hc i j Yi Yj), E. intros ->. now apply bsum0.
Qed.

(** Logical or, on Booleans. *)
Lemma or_val u v : boolean u -> boolean v ->
  (u = C1 -> beval BOr u v = u) /\ (v = C1 -> beval BOr u v = v) /\ (u = C0 -> beval BOr u v = v) /\
  (v = C0 -> beval BOr u v = u).
Proof. intros [->| ->] [->| ->]; simpl; rewrite ?tob0, ?tob1; simpl; repeat split; intro; congruence. Qed.
Lemma not_one u : boolean u -> Ceqb u C1 = false -> u = C0.
Proof. intros [->| ->]; [reflexivity|]. now rewrite Ceqb_refl. Qed.
Lemma or_const_ok fx z : b = BOr -> or_const tx ty = Some (fx, z) -> all_equal e z.
Proof.
  intros Eb H i j Hi Hj; simpl in Hi, Hj. generalize Safe; rewrite Eb; intros [P _]. destruct (P i j Hi Hj) as [Bx By].
  destruct (bin_in_range_y _ _ Hi Hj) as [Yi Yj].
  destruct (or_val _ _ Bx By) as (V1 & V2 & V3 & V4). change (coef e i j) with (beval b (coef x i j) (coef y i j)); rewrite Eb.
  unfold or_const in H.
  destruct (constant ty) as [[fy w]|] eqn:Ey; [apply (constant_ok _ _ Sy) in Ey; specialize (Ey i j Yi Yj)|];
  (destruct (constant tx) as [[fx' v]|] eqn:Ex; [apply (constant_ok _ _ Sx) in Ex; specialize (Ex i j Hi Hj)|]);
  cbn [is_fixed] in H; try discriminate H.
  - destruct fy; [|destruct fx'; [|discriminate H]].
    + destruct (Ceqb w C1) eqn:Q; injection H as <- <-.
      * apply Ceqb_true in Q. rewrite <- Ey. apply V2. congruence.
      * rewrite <- Ex. apply V4. apply not_one; [assumption|congruence].
    + destruct (Ceqb v C1) eqn:Q; injection H as <- <-.
      * apply Ceqb_true in Q. rewrite <- Ex. apply V1. congruence.
      * rewrite <- Ey. apply V3. apply not_one; [assumption|congruence].
  - destruct fy; [|discriminate H]. destruct (Ceqb w C1) eqn:Q; [|discriminate H]. injection H as <- <-.
    apply Ceqb_true in Q. rewrite <- Ey. apply V2. congruence.
  - destruct fx'; [|discriminate H]. destruct (Ceqb v C1) eqn:Q; [|discriminate H]. injection H as <- <-.
    apply Ceqb_true in Q. rewrite <- Ex. apply V1. congruence.
Qed.
Lemma or_diag_ok fx z : b = BOr -> or_diag tx ty = Some (fx, z) -> diag_equal e z.
Proof.
  intros Eb H i j Hi Hj; simpl in Hi, Hj. generalize Safe; rewrite Eb; intros [P _]. destruct (P i j Hi Hj) as [Bx By].
  destruct (bin_in_range_y _ _ Hi Hj) as [Yi Yj].
  destruct (or_val _ _ Bx By) as (V1 & V2 & V3 & V4). change (coef e i j) with (beval b (coef x i j) (coef y i j)); rewrite Eb.
  assert (Or0 : beval BOr C0 C0 = C0) by (simpl; rewrite tob0; reflexivity).
  assert (L : forall w, (forall i j, i < rows y -> j < cols y -> coef y i j = if Nat.eqb i j then w else C0) ->
            (Ceqb w C1 && diagonal tx = true -> beval BOr (coef x i j) (coef y i j) = if Nat.eqb i j then w else C0) /\
            (Ceqb w C0 = true -> beval BOr (coef x i j) (coef y i j) = coef x i j)).
  { intros w Ey; specialize (Ey i j Yi Yj); split.
    - intro Q; apply andb_true_iff in Q as [Q D]. apply Ceqb_true in Q.
      destruct (Nat.eqb i j) eqn:E; [rewrite <- Ey; apply V2; congruence|].
      apply Nat.eqb_neq in E. rewrite (diagonal_ok _ _ Sx D i j Hi Hj E), Ey. exact Or0.
    - intro Q; apply Ceqb_true in Q. apply V4. rewrite Ey, Q. now destruct (Nat.eqb i j). }
  assert (R : forall w, (forall i j, i < rows x -> j < cols x -> coef x i j = if Nat.eqb i j then w else C0) ->
            (Ceqb w C1 && diagonal ty = true -> beval BOr (coef x i j) (coef y i j) = if Nat.eqb i j then w else C0) /\
            (Ceqb w C0 = true -> beval BOr (coef x i j) (coef y i j) = coef y i j)).
  { intros w Ex; specialize (Ex i j Hi Hj); split.
    - intro Q; apply andb_true_iff in Q as [Q D]. apply Ceqb_true in Q.
      destruct (Nat.eqb i j) eqn:E; [rewrite <- Ex; apply V1; congruence|].
      apply Nat.eqb_neq in E. rewrite (diagonal_ok _ _ Sy D i j Yi Yj E), Ex. exact Or0.
    - intro Q; apply Ceqb_true in Q. apply V3. rewrite Ex, Q. now destruct (Nat.eqb i j). }
  unfold or_diag in H.
  destruct (constant_diag ty) as [[fy w]|] eqn:Ey; [apply (constant_diag_ok _ _ Sy) in Ey|];
  (destruct (constant_diag tx) as [[fx' v]|] eqn:Ex; [apply (constant_diag_ok _ _ Sx) in Ex|]);
  cbn [is_fixed] in H; try discriminate H.
  - destruct fy; [|destruct fx'; [|discriminate H]].
    + destruct (L w Ey) as [La Lb]. destruct (Ceqb w C1 && diagonal tx) eqn:Q; [injection H as <- <-; now apply La|].
      destruct (Ceqb w C0) eqn:Q0; [|discriminate H]. injection H as <- <-. rewrite (Lb eq_refl). now apply Ex.
    + destruct (R v Ex) as [La Lb]. destruct (Ceqb v C1 && diagonal ty) eqn:Q; [injection H as <- <-; now apply La|].
      destruct (Ceqb v C0) eqn:Q0; [|discriminate H]. injection H as <- <-. rewrite (Lb eq_refl). now apply Ey.
  - destruct fy; [|discriminate H]. destruct (L w Ey) as [La Lb].
    destruct (Ceqb w C1 && diagonal tx) eqn:Q; [injection H as <- <-; now apply La|].
    destruct (Ceqb w C0); discriminate H.
  - destruct fx'; [|discriminate H]. destruct (R v Ex) as [La Lb].
    destruct (Ceqb v C1 && diagonal ty) eqn:Q; [injection H as <- <-; now apply La|].
    destruct (Ceqb v C0); discriminate H.
Qed.

(** Minimum and maximum. *)
Lemma mm_const_cases f below q :
  mm_const f below tx ty = Some q ->
  (exists c d, constant tx = Some (true, c) /\ constant_diag ty = Some (true, d) /\
     below (fst c) 0%R = true /\ below (fst c) (fst d) = true /\ q = (true, c)) \/
  (exists c d, constant ty = Some (true, c) /\ constant_diag tx = Some (true, d) /\
     below (fst c) 0%R = true /\ below (fst c) (fst d) = true /\ q = (true, c)) \/
  op2 (bop f) (constant tx) (constant ty) = Some q.
Proof.
  unfold mm_const.
  destruct (constant tx) as [[[] c1]|]; destruct (constant_diag ty) as [[[] d1]|];
  destruct (constant_diag tx) as [[[] d2]|]; destruct (constant ty) as [[[] c2]|]; intro H; auto;
  match type of H with (if ?a && ?b then _ else _) = _ => destruct a eqn:A; [destruct b eqn:B|]; try discriminate H end;
  injection H as <-; eauto 12.
Qed.
Lemma mm_diag_cases f below q :
  mm_diag f below tx ty = Some q ->
  (exists c d, constant tx = Some (true, c) /\ constant_diag ty = Some (true, d) /\
     below 0%R (fst c) = true /\ below (fst d) (fst c) = true /\ q = (true, d)) \/
  (exists c d, constant ty = Some (true, c) /\ constant_diag tx = Some (true, d) /\
     below 0%R (fst c) = true /\ below (fst d) (fst c) = true /\ q = (true, d)) \/
  op2 (bop f) (constant_diag tx) (constant_diag ty) = Some q.
Proof.
  unfold mm_diag.
  destruct (constant tx) as [[[] c1]|]; destruct (constant_diag ty) as [[[] d1]|];
  destruct (constant_diag tx) as [[[] d2]|]; destruct (constant ty) as [[[] c2]|]; intro H; auto;
  match type of H with (if ?a && ?b then _ else _) = _ => destruct a eqn:A; [destruct b eqn:B|]; try discriminate H end;
  injection H as <-; eauto 12.
Qed.
Definition selects (f : bfun) (below : R -> R -> bool) : Prop :=
  forall u v, snd u = 0%R -> snd v = 0%R -> below (fst u) (fst v) = true -> beval f u v = u /\ beval f v u = u.
Lemma selects_min : selects BMin Rltb.
Proof.
  intros u v Hu Hv H; apply Rltb_true in H; simpl. rewrite Rmin_left, Rmin_right by lra.
  split; symmetry; now apply real_eta.
Qed.
Lemma selects_max : selects BMax (fun p q => Rltb q p).
Proof.
  intros u v Hu Hv H; apply Rltb_true in H; simpl. rewrite Rmax_left, Rmax_right by lra.
  split; symmetry; now apply real_eta.
Qed.
Lemma mm_const_ok below fx z : bordered b = true -> selects b below ->
  mm_const b below tx ty = Some (fx, z) -> all_equal e z.
Proof.
  intros B Sel H. apply mm_const_cases in H as [(c & d & Ec & Ed & L1 & L2 & Q)|[(c & d & Ec & Ed & L1 & L2 & Q)|H]];
    [| |eapply op2_const_ok; eassumption];
  injection Q as -> ->; intros i j Hi Hj; simpl in Hi, Hj; destruct (bin_in_range_y _ _ Hi Hj) as [Yi Yj];
  destruct (bin_ordered i j B) as [Rx Ry];
  change (coef e i j) with (beval b (coef x i j) (coef y i j)).
  - apply (constant_ok _ _ Sx) in Ec. apply (constant_diag_ok _ _ Sy) in Ed.
    specialize (Ec i j Hi Hj). specialize (Ed i j Yi Yj).
    rewrite <- Ec. apply (Sel (coef x i j)); try assumption. rewrite Ec, Ed. destruct (Nat.eqb i j); assumption.
  - apply (constant_ok _ _ Sy) in Ec. apply (constant_diag_ok _ _ Sx) in Ed.
    specialize (Ec i j Yi Yj). specialize (Ed i j Hi Hj).
    rewrite <- Ec. apply (Sel (coef y i j)); try assumption. rewrite Ec, Ed. destruct (Nat.eqb i j); assumption.
Qed.
Lemma mm_diag_ok below fx z : bordered b = true -> bty b = Bsum -> selects b below ->
  mm_diag b below tx ty = Some (fx, z) -> diag_equal e z.
Proof.
  intros B T Sel H. apply mm_diag_cases in H as [(c & d & Ec & Ed & L1 & L2 & Q)|[(c & d & Ec & Ed & L1 & L2 & Q)|H]];
    [| |eapply op2_diag_ok; eassumption];
  injection Q as -> ->; intros i j Hi Hj; simpl in Hi, Hj; destruct (bin_in_range_y _ _ Hi Hj) as [Yi Yj];
  destruct (bin_ordered i j B) as [Rx Ry];
  change (coef e i j) with (beval b (coef x i j) (coef y i j)).
  - apply (constant_ok _ _ Sx) in Ec. apply (constant_diag_ok _ _ Sy) in Ed.
    specialize (Ec i j Hi Hj). specialize (Ed i j Yi Yj).
    rewrite <- Ed. apply (Sel (coef y i j)); try assumption. rewrite Ec, Ed. destruct (Nat.eqb i j); assumption.
  - apply (constant_ok _ _ Sy) in Ec. apply (constant_diag_ok _ _ Sx) in Ed.
    specialize (Ec i j Yi Yj). specialize (Ed i j Hi Hj).
    rewrite <- Ed. apply (Sel (coef x i j)); try assumption. rewrite Ec, Ed. destruct (Nat.eqb i j); assumption.
Qed.

Lemma bin_const_ok fx z : bin_const b tx ty = Some (fx, z) -> all_equal e z.
Proof.
  intro H.
  assert (D : {b = BOr} + {b = BMin} + {b = BMax} + {match b with BOr | BMin | BMax => false | _ => true end = true})
    by (destruct b; auto).
  destruct D as [[[E|E]|E]|N].
  - apply (or_const_ok fx); [exact E|]. generalize H; now rewrite E.
  - apply (mm_const_ok Rltb fx); [now rewrite E | rewrite E; apply selects_min | generalize H; now rewrite E].
  - apply (mm_const_ok (fun p q => Rltb q p) fx); [now rewrite E | rewrite E; apply selects_max | generalize H; now rewrite E].
  - assert (H' : match bty b with
      | Bsum => if zero tx then constant ty else if zero ty then constant tx else op2 (bop b) (constant tx) (constant ty)
      | Bproduct => if zero tx then constant tx else if zero ty then constant ty else op2 (bop b) (constant tx) (constant ty)
      | Bnormal => op2 (bop b) (constant tx) (constant ty) end = Some (fx, z)).
    { rewrite <- H. unfold bin_const. destruct b; try reflexivity; discriminate N. }
    clear H. destruct (bty b) eqn:T.
    + destruct (zero tx) eqn:Zx; [|destruct (zero ty) eqn:Zy; [|eapply op2_const_ok; eassumption]];
      intros i j Hi Hj; simpl in Hi, Hj; destruct (bin_in_range_y _ _ Hi Hj) as [Yi Yj];
      change (coef e i j) with (beval b (coef x i j) (coef y i j)).
      * rewrite (zero_ok _ _ Sx Zx i j Hi Hj), sum_zero_l by assumption. now apply (constant_ok _ _ Sy) in H'; apply H'.
      * rewrite (zero_ok _ _ Sy Zy i j Yi Yj), sum_zero_r by assumption. now apply (constant_ok _ _ Sx) in H'; apply H'.
    + destruct (zero tx) eqn:Zx; [|destruct (zero ty) eqn:Zy; [|eapply op2_const_ok; eassumption]];
      intros i j Hi Hj; simpl in Hi, Hj; destruct (bin_in_range_y _ _ Hi Hj) as [Yi Yj];
      change (coef e i j) with (beval b (coef x i j) (coef y i j)).
      * apply (constant_ok _ _ Sx) in H'. rewrite <- (H' i j Hi Hj), (zero_ok _ _ Sx Zx i j Hi Hj). now apply bprod0.
      * apply (constant_ok _ _ Sy) in H'. rewrite <- (H' i j Yi Yj), (zero_ok _ _ Sy Zy i j Yi Yj). now apply bprod0.
    + eapply op2_const_ok; eassumption.
Qed.

Lemma bin_prod_small i j : bty b = Bproduct -> is_some (constant tx) = true -> is_some (constant ty) = true ->
  zero tx = false -> zero ty = false -> i < rows x -> j < cols x -> i = 0 /\ j = 0.
Proof.
  intros T Cx Cy Zx Zy Hi Hj. destruct Safe as [_ P].
  assert (Q : rows x <= 1 /\ cols x <= 1) by (destruct b; try discriminate T; now apply P). lia.
Qed.
Lemma bin_diag_ok fx z : bin_diag b tx ty = Some (fx, z) -> diag_equal e z.
Proof.
  intro H.
  assert (D : {b = BOr} + {b = BMin} + {b = BMax} + {match b with BOr | BMin | BMax => false | _ => true end = true})
    by (destruct b; auto).
  destruct D as [[[E|E]|E]|N].
  - apply (or_diag_ok fx); [exact E|]. generalize H; now rewrite E.
  - apply (mm_diag_ok Rltb fx); [now rewrite E | now rewrite E | rewrite E; apply selects_min | generalize H; now rewrite E].
  - apply (mm_diag_ok (fun p q => Rltb q p) fx); [now rewrite E | now rewrite E | rewrite E; apply selects_max | generalize H; now rewrite E].
  - assert (H' : match bty b with
      | Bsum => if zero tx then constant_diag ty else if zero ty then constant_diag tx
                else op2 (bop b) (constant_diag tx) (constant_diag ty)
      | Bproduct => if zero tx then constant tx else if zero ty then constant ty
                    else op2 (bop b) (if is_some (constant tx) then constant tx else constant_diag tx)
                                     (if is_some (constant ty) then constant ty else constant_diag ty)
      | Bnormal => None end = Some (fx, z)).
    { rewrite <- H. unfold bin_diag. destruct b; try reflexivity; discriminate N. }
    clear H. destruct (bty b) eqn:T; [| |discriminate H'].
    + destruct (zero tx) eqn:Zx; [|destruct (zero ty) eqn:Zy; [|eapply op2_diag_ok; eassumption]];
      intros i j Hi Hj; simpl in Hi, Hj; destruct (bin_in_range_y _ _ Hi Hj) as [Yi Yj];
      change (coef e i j) with (beval b (coef x i j) (coef y i j)).
      * rewrite (zero_ok _ _ Sx Zx i j Hi Hj), sum_zero_l by assumption. now apply (constant_diag_ok _ _ Sy) in H'; apply H'.
      * rewrite (zero_ok _ _ Sy Zy i j Yi Yj), sum_zero_r by assumption. now apply (constant_diag_ok _ _ Sx) in H'; apply H'.
    + destruct (zero tx) eqn:Zx; [|destruct (zero ty) eqn:Zy].
      * assert (A : all_equal e C0).
        { intros i j Hi Hj; simpl in Hi, Hj. change (coef e i j) with (beval b (coef x i j) (coef y i j)).
          rewrite (zero_ok _ _ Sx Zx i j Hi Hj). now apply bprod0. }
        unfold constant in H'; rewrite (zero_true _ Zx) in H'; injection H' as <- <-. now apply all_equal_diag.
      * assert (A : all_equal e C0).
        { intros i j Hi Hj; simpl in Hi, Hj. destruct (bin_in_range_y _ _ Hi Hj) as [Yi Yj].
          change (coef e i j) with (beval b (coef x i j) (coef y i j)).
          rewrite (zero_ok _ _ Sy Zy i j Yi Yj). now apply bprod0. }
        unfold constant in H'; rewrite (zero_true _ Zy) in H'; injection H' as <- <-. now apply all_equal_diag.
      * apply op2_some in H' as (fa & a & fb & c & Ha & Hc & ->).
        intros i j Hi Hj; simpl in Hi, Hj. destruct (bin_in_range_y _ _ Hi Hj) as [Yi Yj].
        change (coef e i j) with (beval b (coef x i j) (coef y i j)).
        destruct (is_some (constant tx)) eqn:Cx, (is_some (constant ty)) eqn:Cy.
        -- destruct (bin_prod_small i j T Cx Cy Zx Zy Hi Hj) as [-> ->]. simpl.
           apply (constant_ok _ _ Sx) in Ha. apply (constant_ok _ _ Sy) in Hc.
           rewrite <- (Ha 0 0 Hi Hj), <- (Hc 0 0 Yi Yj). symmetry; now apply bin_bop.
        -- apply (constant_ok _ _ Sx) in Ha. apply (constant_diag_ok _ _ Sy) in Hc.
           rewrite <- bin_bop by assumption. rewrite (Ha i j Hi Hj), (Hc i j Yi Yj).
           destruct (Nat.eqb i j) eqn:E; [reflexivity|].
           generalize (bin_bop i j Hi Hj). rewrite (Ha i j Hi Hj), (Hc i j Yi Yj), E. intros ->. now apply bprod0.
        -- apply (constant_diag_ok _ _ Sx) in Ha. apply (constant_ok _ _ Sy) in Hc.
           rewrite <- bin_bop by assumption. rewrite (Ha i j Hi Hj), (Hc i j Yi Yj).
           destruct (Nat.eqb i j) eqn:E; [reflexivity|].
           generalize (bin_bop i j Hi Hj). rewrite (Ha i j Hi Hj), (Hc i j Yi Yj), E. intros ->. now apply bprod0.
        -- apply (constant_diag_ok _ _ Sx) in Ha. apply (constant_diag_ok _ _ Sy) in Hc.
           rewrite <- bin_bop by assumption. rewrite (Ha i j Hi Hj), (Hc i j Yi Yj).
           destruct (Nat.eqb i j) eqn:E; [reflexivity|].
           generalize (bin_bop i j Hi Hj). rewrite (Ha i j Hi Hj), (Hc i j Yi Yj), E. intros ->. now apply bprod0.
Qed.

Lemma bin_sound : sound (bin_traits b tx ty (coef e 0 0) (kind_of e)) e.
Proof.
  destruct W as (Wx & Wy & Er & Ec & _).
  assert (T : forall a, as_pred (match bty b with Bsum => tadd (triangle tx) (triangle ty)
      | Bproduct => tmul (triangle tx) (triangle ty) | Bnormal => Tnone end) a = true -> shaped a e).
  { intros a H. eapply shaped_le; [|exact H]. intros i j Hi Hj O; simpl in Hi, Hj.
    destruct (bin_in_range_y _ _ Hi Hj) as [Yi Yj]. change (coef e i j) with (beval b (coef x i j) (coef y i j)).
    destruct (bty b) eqn:E; [| |destruct O].
    - apply (tadd_ok _ _ _ _ _ i j (bsum0 b E) O); intro O'; [now apply (s_tri _ _ Sx) | now apply (s_tri _ _ Sy)].
    - apply (tmul_ok _ _ _ _ _ i j (fun z => proj1 (bprod0 b z E)) (fun z => proj2 (bprod0 b z E)) O); intro O';
        [now apply (s_tri _ _ Sx) | now apply (s_tri _ _ Sy)]. }
  apply mk_sound; cbn [bin_traits t_kind t_rows t_cols t_nr t_nc t_at t_square t_const t_diag t_tri t_herm]; try reflexivity.
  - intros n H. unfold orelse in H. simpl. destruct (t_rows tx) eqn:E; [now apply (s_rows _ _ Sx) in E; congruence|].
    apply (s_rows _ _ Sy) in H; congruence.
  - intros n H. unfold orelse in H. simpl. destruct (t_cols tx) eqn:E; [now apply (s_cols _ _ Sx) in E; congruence|].
    apply (s_cols _ _ Sy) in H; congruence.
  - apply (s_nr _ _ Sx).
  - apply (s_nc _ _ Sx).
  - intro H; apply orb_true_iff in H as [H|H]; [apply (square_ok _ _ Sx H)|]. apply (square_ok _ _ Sy) in H; simpl; congruence.
  - apply bin_const_ok.
  - apply bin_diag_ok.
  - apply T.
  - intros _ _; apply T.
  - intros _ _; apply T.
  - intros H Q; simpl in Q. apply andb_true_iff in H as [Hx Hy].
    apply (may_be_hermitian_ok _ _ Sx Wx) in Hx; [|exact Q]. apply (may_be_hermitian_ok _ _ Sy Wy) in Hy; [|congruence].
    intros i j Hi Hj; simpl in Hi, Hj. simpl. rewrite (Hx i j), (Hy i j) by lia. apply beval_conj.
    intro B; apply (bin_ordered j i B).
Qed.
End Bin.
