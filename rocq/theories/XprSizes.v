(** * Proofs for C89: the sizes in the type are true without exclusions. *)
From Coq Require Import Reals ZArith List Bool Lia.
From Coquelicot Require Import Coquelicot.
From Verif Require Import XprEigen XprModel XprSpec XprScalars.
Import ListNotations.
Local Open Scope nat_scope.

Record sized (t : traits) (e : expr) : Prop := {
  z_rows : forall n, t_rows t = Some n -> rows e = n;
  z_cols : forall n, t_cols t = Some n -> cols e = n;
  z_nr : t_nr t = rows e;
  z_nc : t_nc t = cols e;
  z_sq : t_square t = true -> rows e = cols e }.

Lemma sized_square t e : sized t e -> square t = true -> rows e = cols e.
Proof.
  intros S. unfold square. destruct (t_square t) eqn:E; [intros _; now apply (z_sq _ _ S)|]. rewrite orb_false_r.
  unfold must_eq. destruct (t_rows t) as [n|] eqn:A; [|discriminate]. destruct (t_cols t) as [m|] eqn:B; [|discriminate].
  intro H; apply Nat.eqb_eq in H. apply (z_rows _ _ S) in A; apply (z_cols _ _ S) in B. congruence.
Qed.
Lemma sdim_eq d n : sdim d = Some n -> size d = n.
Proof. unfold sdim; destruct (fixed d); congruence. Qed.
Lemma orelse_eq a b n k : orelse a b = Some n -> (forall m, a = Some m -> k = m) -> (forall m, b = Some m -> k = m) -> k = n.
Proof. unfold orelse; destruct a; intros H A B; [apply A; congruence | now apply B]. Qed.

Lemma sized_same t x e : sized t x -> rows e = rows x -> cols e = cols x ->
  forall t', t_rows t' = t_rows t -> t_cols t' = t_cols t -> t_nr t' = t_nr t -> t_nc t' = t_nc t ->
  t_square t' = square t -> sized t' e.
Proof.
  intros S Er Ec t' A B C D Q. constructor.
  - rewrite A, Er; apply (z_rows _ _ S).
  - rewrite B, Ec; apply (z_cols _ _ S).
  - rewrite C, Er; apply (z_nr _ _ S).
  - rewrite D, Ec; apply (z_nc _ _ S).
  - rewrite Q, Er, Ec; now apply sized_square.
Qed.

Lemma known_size (t : traits) x d n : sized t x -> (n = t_rows t /\ True \/ n = t_cols t /\ True) ->
  fixed d && match n with Some m => Nat.eqb (size d) m | None => false end = true ->
  (n = t_rows t -> size d = rows x) /\ (n = t_cols t -> size d = cols x).
Proof.
  intros S _ H; apply andb_true_iff in H as [_ H]. destruct n as [m|]; [|discriminate]. apply Nat.eqb_eq in H. split; intro E.
  - symmetry in E. apply (z_rows _ _ S) in E; congruence.
  - symmetry in E. apply (z_cols _ _ S) in E; congruence.
Qed.
Lemma reshaped_size t x d o n : sized t x -> size d * size o = rows x * cols x ->
  (if fixed d then Some (size d)
    else if negb (fixed o) || Nat.eqb (size o) 0 then None
    else if (fixed o && match t_rows t with Some m => Nat.eqb (size o) m | None => false end) &&
            is_some (option_map (fun n => (true, real_of (INR n))) (t_cols t)) then t_cols t
    else if (fixed o && match t_cols t with Some m => Nat.eqb (size o) m | None => false end) &&
            is_some (option_map (fun n => (true, real_of (INR n))) (t_rows t)) then t_rows t
    else match (match t_rows t, t_cols t with Some a, Some b => Some (a * b) | _, _ => None end) with
         | Some n => if Nat.eqb (n mod size o) 0 then Some (n / size o) else None | None => None end) = Some n ->
  size d = n.
Proof.
  intros S E H. destruct (fixed d); [congruence|]. destruct (negb (fixed o) || Nat.eqb (size o) 0) eqn:Z; [discriminate H|].
  apply orb_false_iff in Z as [_ Z]. apply Nat.eqb_neq in Z.
  destruct (fixed o && match t_rows t with Some m => Nat.eqb (size o) m | None => false end) eqn:A.
  { apply (known_size t x o (t_rows t) S) in A as [A _]; [|auto]. specialize (A eq_refl).
    destruct (t_cols t) eqn:Cc.
    - simpl in H. injection H as <-. apply (z_cols _ _ S) in Cc. nia.
    - simpl in H. rewrite andb_false_r in H. destruct (t_rows t); discriminate H. }
  cbn [andb] in H.
  destruct (fixed o && match t_cols t with Some m => Nat.eqb (size o) m | None => false end) eqn:B.
  { apply (known_size t x o (t_cols t) S) in B as [_ B]; [|auto]. specialize (B eq_refl).
    destruct (t_rows t) eqn:Rr.
    - simpl in H. injection H as <-. apply (z_rows _ _ S) in Rr. nia.
    - simpl in H. discriminate H. }
  cbn [andb] in H. destruct (t_rows t) eqn:R; [|discriminate]. destruct (t_cols t) eqn:Cc; [|discriminate].
  apply (z_rows _ _ S) in R. apply (z_cols _ _ S) in Cc. destruct (Nat.eqb _ 0); [|discriminate]. injection H as <-.
  subst. rewrite <- E. now rewrite Nat.div_mul.
Qed.

Lemma sized_all e : wf e -> sized (fst (analyse e)) e.
Proof.
  induction e as [k r c f|k r c z|k r c z|k r c|v IH|u e IH|b z e IH|b e IH z|b x IHx y IHy|e IH|e IH|e IH|rf cf e IH
    |d e IH|s IHs x IHx y IHy|x IHx y IHy|k fx e IH|up e IH|up m e IH|r c i0 j0 e IH|r c e IH|op h e IH|k n f]; intro W;
  cbn [analyse fst snd].
  1-4: constructor; simpl; (discriminate || reflexivity || apply sdim_eq).
  - destruct W as [W _]. specialize (IH W). constructor; unfold diagvec_traits; simpl; try reflexivity.
    + intros n H. destruct (t_rows (fst (analyse v))) eqn:A; [|discriminate]. destruct (t_cols (fst (analyse v))) eqn:B; [|discriminate].
      apply (z_rows _ _ IH) in A; apply (z_cols _ _ IH) in B. congruence.
    + intros n H. destruct (t_rows (fst (analyse v))) eqn:A; [|discriminate]. destruct (t_cols (fst (analyse v))) eqn:B; [|discriminate].
      apply (z_rows _ _ IH) in A; apply (z_cols _ _ IH) in B. congruence.
    + now rewrite (z_nr _ _ IH), (z_nc _ _ IH).
    + now rewrite (z_nr _ _ IH), (z_nc _ _ IH).
  - destruct W as [W _]. now apply (sized_same _ _ _ (IH W)).
  - destruct W as [W _]. now apply (sized_same _ _ _ (IH W)).
  - destruct W as [W _]. now apply (sized_same _ _ _ (IH W)).
  - destruct W as (Wx & Wy & Er & Ec & _). specialize (IHx Wx); specialize (IHy Wy).
    constructor; unfold bin_traits; simpl.
    + intros n H. eapply orelse_eq; [exact H | apply (z_rows _ _ IHx) | rewrite Er; apply (z_rows _ _ IHy)].
    + intros n H. eapply orelse_eq; [exact H | apply (z_cols _ _ IHx) | rewrite Ec; apply (z_cols _ _ IHy)].
    + apply (z_nr _ _ IHx).
    + apply (z_nc _ _ IHx).
    + intro H; apply orb_true_iff in H as [H|H]; [now apply (sized_square _ _ IHx)|]. apply (sized_square _ _ IHy) in H; congruence.
  - now apply (sized_same _ _ _ (IH W)).
  - now apply (sized_same _ _ _ (IH W)).
  - specialize (IH W). constructor; unfold trans_traits; simpl.
    + apply (z_cols _ _ IH).
    + apply (z_rows _ _ IH).
    + apply (z_nc _ _ IH).
    + apply (z_nr _ _ IH).
    + intro H; symmetry; now apply (sized_square _ _ IH).
  - specialize (IH W). constructor; unfold repl_traits; simpl; try discriminate.
    + intros n H. destruct (t_rows (fst (analyse e))) eqn:A; [|discriminate]. destruct (fixed rf); [|discriminate].
      injection H as <-. apply (z_rows _ _ IH) in A; congruence.
    + intros n H. destruct (t_cols (fst (analyse e))) eqn:A; [|discriminate]. destruct (fixed cf); [|discriminate].
      injection H as <-. apply (z_cols _ _ IH) in A; congruence.
    + now rewrite (z_nr _ _ IH).
    + now rewrite (z_nc _ _ IH).
  - now apply (sized_same _ _ _ (IH W)).
  - destruct W as (Ws & Wx & Wy & R1 & C1' & R2 & C2). specialize (IHs Ws); specialize (IHx Wx); specialize (IHy Wy).
    constructor; unfold sel_traits; simpl.
    + intros n H. eapply orelse_eq; [exact H | rewrite <- R1; apply (z_rows _ _ IHs)|].
      intros m H'. eapply orelse_eq; [exact H' | apply (z_rows _ _ IHx) | rewrite R2; apply (z_rows _ _ IHy)].
    + intros n H. eapply orelse_eq; [exact H | rewrite <- C1'; apply (z_cols _ _ IHs)|].
      intros m H'. eapply orelse_eq; [exact H' | apply (z_cols _ _ IHx) | rewrite C2; apply (z_cols _ _ IHy)].
    + rewrite <- R1; apply (z_nr _ _ IHs).
    + rewrite <- C1'; apply (z_nc _ _ IHs).
    + intro H; apply orb_true_iff in H as [H|H]; [apply orb_true_iff in H as [H|H]|].
      * apply (sized_square _ _ IHs) in H; congruence.
      * now apply (sized_square _ _ IHx).
      * apply (sized_square _ _ IHy) in H; congruence.
  - destruct W as (Wx & Wy & _). specialize (IHx Wx); specialize (IHy Wy). constructor; unfold prod_traits; simpl; try discriminate.
    + apply (z_rows _ _ IHx).
    + apply (z_cols _ _ IHy).
    + apply (z_nr _ _ IHx).
    + apply (z_nc _ _ IHy).
  - destruct W as (W & _). specialize (IH W). constructor; unfold diag_traits; simpl; try discriminate; try reflexivity.
    + intros n H. destruct (t_rows (fst (analyse e))) eqn:A; [|discriminate]. destruct (t_cols (fst (analyse e))) eqn:B; [|discriminate].
      destruct fx; [|discriminate]. apply (z_rows _ _ IH) in A; apply (z_cols _ _ IH) in B. congruence.
    + intros n H; congruence.
  - destruct W as [W _]. now apply (sized_same _ _ _ (IH W)).
  - now apply (sized_same _ _ _ (IH W)).
  - constructor; simpl; (discriminate || reflexivity || apply sdim_eq).
  - destruct W as [W E]. specialize (IH W). constructor; unfold reshape_traits; cbn [t_rows t_cols t_nr t_nc t_square rows cols];
      try discriminate; try reflexivity.
    + intros n H. apply (reshaped_size _ _ r c n IH E H).
    + intros n H. apply (reshaped_size _ _ c r n IH); [lia | exact H].
  - destruct W as (W & _). specialize (IH W). constructor; unfold redux_traits; simpl; try discriminate.
    + intros n H. destruct h; [now apply (z_rows _ _ IH) | congruence].
    + intros n H. destruct h; [congruence | now apply (z_cols _ _ IH)].
    + destruct h; [apply (z_nr _ _ IH) | reflexivity].
    + destruct h; [reflexivity | apply (z_nc _ _ IH)].
  - constructor; simpl; (discriminate || reflexivity || apply sdim_eq).
Qed.
