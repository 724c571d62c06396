From Coq Require Import List Arith Bool Lia.
From Verif Require Import StlModel StlSpec StlProofs WriteModel WriteSpec.
Import ListNotations.

(** * Copying *)

Section Copying.
Variable V : Type.
Variable zero : V.
Variables conj re : V -> V.

Lemma update_length (st : list V) o x : length (update st o x) = length st.
Proof. revert o. induction st as [|y r IH]; intros [|o]; simpl; auto. Qed.

Lemma update_same (st : list V) o x : o < length st -> nth_error (update st o x) o = Some x.
Proof.
  revert o. induction st as [|y r IH]; intros [|o] H; simpl in *; try lia; auto.
  apply IH. lia.
Qed.

Lemma update_other (st : list V) o x o' :
  o' <> o -> nth_error (update st o x) o' = nth_error st o'.
Proof.
  revert o o'. induction st as [|y r IH]; intros [|o] [|o'] H; simpl; auto; try lia.
Qed.

Lemma elem_ext (v : view V) : forall x y, (forall k, x k = y k) ->
  elem zero conj re v x = elem zero conj re v y.
Proof.
  induction v; intros x y H; cbn [elem]; auto.
  - f_equal. unfold col_major. apply sum_over_ext. intros; now rewrite H.
  - f_equal. unfold row_major. apply sum_over_ext. intros; now rewrite H.
  - f_equal. unfold strided_at. apply sum_over_ext. intros; now rewrite H.
  - rewrite !H. destruct (_ =? _); auto.
  - apply IHv. intros [|k]; auto.
  - rewrite !H, (IHv x y H). reflexivity.
  - rewrite !H, (IHv x y H).
    rewrite (IHv (fun k => x (swap 0 1 k)) (fun k => y (swap 0 1 k))); auto.
  - f_equal. auto.
Qed.

Variable m : mapping.
Variable source : list V -> view V.

Definition step (l : list nat) (st : list V) : outcome (list V) :=
  copy_tensor_elements zero conj re m source [] l st.

Fixpoint steps (L : list (list nat)) (st : list V) : outcome (list V) :=
  match L with
  | [] => Done st
  | l :: r => bind (step l st) (steps r)
  end.

Fixpoint all_indices (es j : list nat) : list (list nat) :=
  match es with
  | [] => [j]
  | e :: es' => flat_map (fun i => all_indices es' (j ++ [i])) (seq 0 e)
  end.

Lemma steps_app L L' st : steps (L ++ L') st = bind (steps L st) (steps L').
Proof.
  revert st. induction L as [|l r IH]; intros st; simpl; auto.
  destruct (step l st); simpl; auto.
Qed.

Lemma copy_steps es : forall j st,
  copy_tensor_elements zero conj re m source es j st = steps (all_indices es j) st.
Proof.
  induction es as [|e es IH]; intros j st.
  - cbn [all_indices steps]. fold (step j st). destruct (step j st); reflexivity.
  - cbn [copy_tensor_elements all_indices]. generalize (seq 0 e). intros is. revert st.
    induction is as [|i r IHr]; intros st; cbn [for_each flat_map]; [reflexivity|].
    rewrite steps_app, IH. destruct (steps (all_indices es (j ++ [i])) st); simpl; auto.
Qed.

Lemma all_indices_in es : forall j l,
  In l (all_indices es j) <->
  exists q, l = j ++ q /\ length q = length es /\ forall k, k < length es -> nth k q 0 < nth k es 0.
Proof.
  induction es as [|e es IH]; intros j l; cbn [all_indices].
  - split.
    + intros [E|[]]. exists []. subst l. rewrite app_nil_r. simpl. repeat split; auto. intros; lia.
    + intros (q & E & Q & _). destruct q; [|discriminate]. rewrite app_nil_r in E. now left.
  - rewrite in_flat_map. split.
    + intros (i & I & H). apply in_seq in I. apply IH in H. destruct H as (q & E & Q & B).
      exists (i :: q). subst l. rewrite <- app_assoc. simpl. repeat split; auto.
      intros [|k] K; [lia|]. apply B. lia.
    + intros (q & E & Q & B). destruct q as [|i q]; [discriminate|].
      exists i. split.
      * apply in_seq. specialize (B 0). simpl in B. lia.
      * apply IH. exists q. subst l. rewrite <- app_assoc. simpl in Q. repeat split; auto.
        intros k K. apply (B (S k)). simpl. lia.
Qed.

Lemma NoDup_app_disjoint {A} (l l' : list A) :
  NoDup l -> NoDup l' -> (forall x, In x l -> ~ In x l') -> NoDup (l ++ l').
Proof.
  induction l as [|a l IH]; intros N N' D; simpl; auto.
  inversion N; subst. constructor.
  - rewrite in_app_iff. intros [H|H]; [tauto|]. apply (D a); simpl; auto.
  - apply IH; auto. intros x X. apply D. now right.
Qed.

Lemma all_indices_nodup es : forall j, NoDup (all_indices es j).
Proof.
  induction es as [|e es IH]; intros j; cbn [all_indices].
  - constructor; [intros []|constructor].
  - assert (N := seq_NoDup e 0). revert N. generalize (seq 0 e). intros is N.
    induction is as [|i r IHr]; [constructor|]. inversion N; subst. cbn [flat_map].
    apply NoDup_app_disjoint; auto.
    intros x X Y. apply in_flat_map in Y. destruct Y as (i' & I & Y).
    apply all_indices_in in X, Y. destruct X as (q & E & _), Y as (q' & E' & _).
    subst x. rewrite <- !app_assoc in E'. apply app_inv_head in E'. simpl in E'.
    inversion E'; subst. tauto.
Qed.

Let sl (l : list nat) : nat := m_call m (firstn (rank m) l).

Variable st0 : list V.
Hypothesis sources : same_size_source m source (length st0).
Hypothesis inplace : componentwise_source zero conj re m source (length st0).
Hypothesis inj : injective_map m.
Hypothesis fit : fits_in m (length st0).

Definition index_of (l : list nat) : nat -> nat := fun k => nth k l 0.

Definition good_index (l : list nat) : Prop :=
  length l = rank m /\ in_extents m (index_of l).

Lemma index_list l n : length l = n -> indices (index_of l) n = l.
Proof.
  intros E. subst n. apply nth_ext with (d := 0) (d' := 0); [apply indices_length|].
  intros k K. rewrite indices_length in K. now rewrite indices_nth.
Qed.

Lemma sl_slot l : good_index l -> sl l = slot m (index_of l).
Proof.
  intros [L E]. unfold sl, slot. rewrite index_list by assumption. now rewrite firstn_all2 by lia.
Qed.

Lemma step_ok l st :
  good_index l -> length st = length st0 ->
  (forall o, o = sl l \/ ~ is_slot m o -> nth_error st o = nth_error st0 o) ->
  step l st = Done (update st (sl l) (elem zero conj re (source st0) (index_of l))).
Proof.
  intros G L H. assert (G' := G). destruct G' as [GL GE].
  destruct (sources st L) as (B & Rd & Rk & Sh).
  unfold step. cbn [copy_tensor_elements].
  rewrite <- (index_list l (rank m) GL) at 1.
  rewrite read_ok; auto.
  - fold (sl l). rewrite sl_slot in * by assumption.
    destruct (Nat.ltb_spec (slot m (index_of l)) (length st)) as [_|N].
    + f_equal. f_equal. apply inplace; auto.
    + specialize (fit _ GE). lia.
  - intros k. rewrite Sh. apply GE.
Qed.

Lemma steps_ok L : forall st,
  NoDup L -> (forall l, In l L -> good_index l) ->
  length st = length st0 ->
  (forall l, In l L -> nth_error st (sl l) = nth_error st0 (sl l)) ->
  (forall o, ~ is_slot m o -> nth_error st o = nth_error st0 o) ->
  exists st', steps L st = Done st' /\ length st' = length st0 /\
    (forall l, In l L ->
       nth_error st' (sl l) = Some (elem zero conj re (source st0) (index_of l))) /\
    (forall o, (forall l, In l L -> sl l <> o) -> nth_error st' o = nth_error st o).
Proof.
  induction L as [|l r IH]; intros st N G E A B; cbn [steps].
  - exists st. repeat split; auto. intros l [].
  - inversion N; subst.
    assert (Gl : good_index l) by (apply G; now left).
    rewrite step_ok; auto.
    2:{ intros o [O|O]; [subst o; apply A; now left|auto]. }
    cbn [bind].
    set (st1 := update st (sl l) (elem zero conj re (source st0) (index_of l))).
    assert (D : forall l', In l' r -> sl l' <> sl l).
    { intros l' I Q. assert (Gl' : good_index l') by (apply G; now right).
      rewrite !sl_slot in Q by assumption.
      assert (l' = l); [|subst; tauto].
      assert (QQ := inj _ _ (proj2 Gl') (proj2 Gl) Q).
      apply nth_ext with (d := 0) (d' := 0); [destruct Gl, Gl'; lia|].
      intros k _. apply QQ. }
    destruct (IH st1) as (st' & S1 & S2 & S3 & S4); auto.
    + intros l' I. apply G. now right.
    + unfold st1. now rewrite update_length.
    + intros l' I. unfold st1. rewrite update_other; [apply A; now right|auto].
    + intros o O. unfold st1. rewrite update_other; [now apply B|].
      intros Q. apply O. exists (index_of l). split; [apply Gl|]. now rewrite <- sl_slot.
    + exists st'. split; [assumption|]. split; [assumption|]. split.
      * intros l' [I|I]; [|now apply S3]. subst l'.
        rewrite S4 by assumption. unfold st1. apply update_same.
        rewrite E, sl_slot by assumption. apply fit, Gl.
      * intros o O. rewrite S4 by (intros; apply O; now right).
        unfold st1. apply update_other. intros Q. apply (O l); [now left|auto].
Qed.

Theorem copy_ok :
  exists st', copy_from zero conj re m source st0 = Done st' /\
    holds_copy zero conj re m (source st0) st0 st'.
Proof.
  destruct (sources st0 eq_refl) as (B & Rd & Rk & Sh).
  unfold copy_from. rewrite copy_steps.
  set (L := all_indices _ []).
  assert (GI : forall l, In l L <-> good_index l).
  { intros l. unfold L. rewrite all_indices_in, map_length, seq_length. split.
    - intros (q & E & Q & H). simpl in E. subst q. split; [assumption|].
      intros k. unfold index_of. destruct (Nat.lt_ge_cases k (rank m)) as [K|K].
      + specialize (H k K).
        rewrite (nth_indep (map _ _)) with (d' := extent (map_of (source st0)) 0) in H
          by (now rewrite map_length, seq_length).
        rewrite map_nth, seq_nth in H by assumption. simpl in H.
        rewrite shape_extent, Sh in H by assumption. assumption.
      + rewrite nth_overflow by lia. unfold extent. rewrite dim_at_beyond; [lia|assumption].
    - intros (Q & H). exists l. split; [reflexivity|]. split; [assumption|].
      intros k K. rewrite (nth_indep (map _ _)) with (d' := extent (map_of (source st0)) 0)
        by (now rewrite map_length, seq_length).
      rewrite map_nth, seq_nth by assumption. simpl.
      rewrite shape_extent, Sh by assumption. apply H. }
  destruct (steps_ok L st0) as (st' & S1 & S2 & S3 & S4); auto.
  - apply all_indices_nodup.
  - intros l. apply GI.
  - exists st'. split; [assumption|]. split; [assumption|]. split.
    + intros i I.
      set (l := indices i (rank m)).
      assert (J : forall k, index_of l k = i k).
      { intros k. unfold index_of, l. destruct (Nat.lt_ge_cases k (rank m)) as [K|K].
        - now apply indices_nth.
        - rewrite nth_overflow by (now rewrite indices_length).
          specialize (I k). unfold extent in I. rewrite dim_at_beyond in I by assumption. lia. }
      assert (G : good_index l).
      { split; [apply indices_length|]. intros k. rewrite J. apply I. }
      assert (E : sl l = slot m i).
      { rewrite sl_slot by assumption. unfold slot. f_equal. apply indices_ext. auto. }
      rewrite <- E. rewrite S3 by (now apply GI). f_equal.
      apply elem_ext, J.
    + intros o O. apply S4. intros l I Q. apply O.
      apply GI in I. exists (index_of l). split; [apply I|]. now rewrite <- sl_slot.
Qed.

End Copying.
