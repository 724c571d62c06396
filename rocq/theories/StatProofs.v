(** Proofs about the statistical-space adapters. *)
From Coq Require Import Reals List Arith Bool Lia.
From Verif Require Import PatModel PatSpec StatModel StatSpec.
From Verif Require PatProperties.
Import ListNotations.

(** ** Extents *)
Lemma trim_get e i : get_extent (trim e) i = get_extent e i.
Proof.
  revert i. induction e as [|x e IH]; intros i; [reflexivity |]. cbn [trim].
  assert (K : forall i, get_extent (x :: trim e) i = get_extent (x :: e) i) by (intros [|k]; [reflexivity | exact (IH k)]).
  destruct (trim e) as [|y t] eqn:E; [| apply K].
  destruct (known x && (len x =? 1)) eqn:O; [| apply K].
  rewrite <- K. unfold get_extent. apply andb_prop in O as [_ O]. apply Nat.eqb_eq in O.
  destruct i as [|[|i]]; cbn; congruence.
Qed.
Lemma get_extent_over e i : length e <= i -> get_extent e i = 1.
Proof. intros H. unfold get_extent. now rewrite nth_overflow. Qed.
Lemma index_extent o i : get_index_extent o i = get_extent (o_ext o) i.
Proof.
  unfold get_index_extent. destruct (Nat.ltb_spec i (index_count o)) as [H|H]; [reflexivity |].
  rewrite <- trim_get. now rewrite get_extent_over.
Qed.

(** Column-major offset with extents and indices as functions. *)
Fixpoint off (E J : nat -> nat) (n : nat) : nat :=
  match n with O => 0 | S n' => J 0 + E 0 * off (fun k => E (S k)) (fun k => J (S k)) n' end.
Fixpoint prodE (E : nat -> nat) (n : nat) : nat := match n with O => 1 | S n' => prodE E n' * E n' end.
Lemma off_ext E E' J J' n : (forall k, k < n -> E k = E' k) -> (forall k, k < n -> J k = J' k) -> off E J n = off E' J' n.
Proof.
  revert E E' J J'. induction n as [|n IH]; intros E E' J J' HE HJ; [reflexivity |]. cbn [off].
  rewrite HE, HJ by lia. f_equal. f_equal. apply IH; intros k Hk; [apply HE | apply HJ]; lia.
Qed.
Lemma off_zero E J n : (forall k, k < n -> J k = 0) -> off E J n = 0.
Proof. revert E J. induction n as [|n IH]; intros E J H; [reflexivity |]. cbn [off]. rewrite H, IH; [lia | intros; apply H; lia | lia]. Qed.
Lemma off_more E J n m : (forall k, n <= k -> J k = 0) -> off E J (n + m) = off E J n.
Proof.
  revert E J. induction n as [|n IH]; intros E J H; [cbn; apply off_zero; intros; apply H; lia |].
  cbn [Nat.add off]. rewrite IH; [reflexivity | intros; apply H; lia].
Qed.
Lemma prodE_S E n : prodE E (S n) = E 0 * prodE (fun k => E (S k)) n.
Proof. revert E. induction n as [|n IH]; intros E; [cbn; lia |]. cbn [prodE] in *. rewrite IH. lia. Qed.
Lemma off_last E J n : off E J (S n) = off E J n + prodE E n * J n.
Proof.
  revert E J. induction n as [|n IH]; intros E J; [cbn; lia |].
  change (off E J (S (S n))) with (J 0 + E 0 * off (fun k => E (S k)) (fun k => J (S k)) (S n)). rewrite IH.
  change (off E J (S n)) with (J 0 + E 0 * off (fun k => E (S k)) (fun k => J (S k)) n). rewrite prodE_S. lia.
Qed.
Lemma off_bound E J n : (forall k, k < n -> J k < E k) -> off E J n < prodE E n.
Proof.
  revert E J. induction n as [|n IH]; intros E J H; [cbn; lia |]. rewrite off_last. cbn [prodE].
  assert (A := IH E J (fun k Hk => H k (Nat.lt_lt_succ_r _ _ Hk))). assert (B := H n (Nat.lt_succ_diag_r n)). nia.
Qed.
Lemma layout_off e : forall i n, length e <= n -> (forall k, length e <= k -> nth k i 0 = 0) ->
  layout_left e (firstn (length e) i) = off (get_extent e) (fun k => nth k i 0) n.
Proof.
  induction e as [|x e IH]; intros i n L Z.
  - cbn. symmetry. apply off_zero. intros k _. apply Z. cbn; lia.
  - destruct n as [|n]; [cbn in L; lia |]. destruct i as [|k i].
    + cbn [length firstn layout_left]. symmetry. apply off_zero. now intros [|k].
    + cbn [length firstn layout_left off nth]. change (get_extent (x :: e) 0) with (len x). rewrite (IH i n); [reflexivity | cbn in L; lia |].
      intros m Hm. apply (Z (S m)). cbn. lia.
Qed.

(** ** Writing *)
Lemma set_nth_length {A} (l : list A) n x : length (set_nth l n x) = length l.
Proof. revert n. induction l as [|y l IH]; intros [|n]; cbn; congruence. Qed.
Lemma set_nth_same {A} (l : list A) n x : n < length l -> nth_error (set_nth l n x) n = Some x.
Proof. revert n. induction l as [|y l IH]; intros [|n] H; cbn in *; try lia; [reflexivity |]. apply IH. lia. Qed.
Lemma set_nth_other {A} (l : list A) n m x : n <> m -> nth_error (set_nth l n x) m = nth_error l m.
Proof. revert n m. induction l as [|y l IH]; intros [|n] [|m] H; cbn; try reflexivity; try lia. apply IH. lia. Qed.

Lemma copy_ok l : forall w w', copy l w = Ret w' ->
  w_pos w' = w_pos w + length l /\ length (w_store w') = length (w_store w) /\
  (forall m, m < w_pos w \/ w_pos w + length l <= m -> nth_error (w_store w') m = nth_error (w_store w) m) /\
  (forall m, m < length l -> nth_error (w_store w') (w_pos w + m) = Some (Some (nth m l 0%R))).
Proof.
  induction l as [|x l IH]; intros w w' H; cbn [copy length] in *.
  - injection H as <-. repeat split; intros; lia.
  - destruct (Nat.ltb_spec (w_pos w) (length (w_store w))) as [L|L]; [| discriminate].
    apply IH in H as (A & B & C & D). cbn [w_pos w_store] in *. rewrite set_nth_length in B.
    repeat split; [lia | exact B | |].
    + intros m Hm. rewrite C by lia. apply set_nth_other. lia.
    + intros [|m] Hm.
      * rewrite C by lia. rewrite Nat.add_0_r. now apply set_nth_same.
      * replace (w_pos w + S m) with (S (w_pos w) + m) by lia. rewrite D by lia. reflexivity.
Qed.
Lemma copy_total l : forall w, w_pos w + length l <= length (w_store w) -> exists w', copy l w = Ret w'.
Proof.
  induction l as [|x l IH]; intros w H; cbn [copy length] in *; [eauto |].
  destruct (Nat.ltb_spec (w_pos w) (length (w_store w))) as [L|L]; [| lia].
  apply IH. cbn [w_pos w_store]. rewrite set_nth_length. lia.
Qed.
Lemma copy_overflow l : forall w, w_pos w <= length (w_store w) -> length (w_store w) < w_pos w + length l -> copy l w = Undef.
Proof.
  induction l as [|x l IH]; intros w L H; cbn [copy length] in *; [lia |].
  destruct (Nat.ltb_spec (w_pos w) (length (w_store w))) as [M|M]; [| reflexivity].
  apply IH; cbn [w_pos w_store]; rewrite set_nth_length; lia.
Qed.
Lemma bind_ret {A B} (m : res A) (f : A -> res B) y : bind m f = Ret y -> exists x, m = Ret x /\ f x = Ret y.
Proof. destruct m; cbn; try discriminate. eauto. Qed.
Lemma nth_app_cons (l : list nat) (x : nat) n : length l <= n -> forall r, nth n (l ++ x :: r) 0 = nth (n - length l) (x :: r) 0.
Proof. intros H r. now rewrite app_nth2. Qed.

Section Fill.
Variable conv : list sr -> res (list R).
Variable o : object.
Variable s : nat.                                     (* rows of the result *)
Hypothesis conv_len : forall v c, conv v = Ret c -> length c = s.
Let E (k : nat) : nat := get_extent (o_ext o) (S k).
Definition good (k : list nat) : Prop := forall m, m < length k -> nth m k 0 < E m.

Lemma fill_ok i : forall j w w', fill_store conv o i j w = Ret w' ->
  w_pos w' = w_pos w + s * prodE E i /\ length (w_store w') = length (w_store w) /\
  (forall m, m < w_pos w \/ w_pos w + s * prodE E i <= m -> nth_error (w_store w') m = nth_error (w_store w) m) /\
  (forall k, length k = i -> good k -> exists c, conv (range_of o (k ++ j)) = Ret c /\
     forall m, m < s -> nth_error (w_store w') (w_pos w + (m + s * off E (fun q => nth q k 0) i)) = Some (Some (nth m c 0%R))).
Proof.
  induction i as [|i IH]; intros j w w' H; cbn [fill_store] in H.
  - apply bind_ret in H as (c & Hc & H). apply copy_ok in H as (A & B & C & D). rewrite (conv_len _ _ Hc) in *. cbn [prodE off].
    rewrite Nat.mul_1_r. repeat split; try assumption.
    intros k Lk _. destruct k; [| discriminate]. exists c. split; [exact Hc |]. intros m Hm. rewrite Nat.mul_0_r, Nat.add_0_r. now apply D.
  - rewrite index_extent in H. change (get_extent (o_ext o) (S i)) with (E i) in H.
    enough (G : forall n w', for_each n (fun k => fill_store conv o i (k :: j)) w = Ret w' ->
      w_pos w' = w_pos w + s * (prodE E i * n) /\ length (w_store w') = length (w_store w) /\
      (forall m, m < w_pos w \/ w_pos w + s * (prodE E i * n) <= m -> nth_error (w_store w') m = nth_error (w_store w) m) /\
      (forall k x, length k = i -> good k -> x < n -> exists c, conv (range_of o (k ++ x :: j)) = Ret c /\
         forall m, m < s -> nth_error (w_store w') (w_pos w + (m + s * (off E (fun q => nth q k 0) i + prodE E i * x))) = Some (Some (nth m c 0%R)))).
    { apply G in H as (A & B & C & D). cbn [prodE]. repeat split; try assumption.
      intros k Lk Gk. destruct (exists_last (l := k)) as (k' & x & ->); [now destruct k |]. rewrite app_length in Lk. cbn in Lk.
      assert (L' : length k' = i) by lia.
      destruct (D k' x L') as (c & Hc & Hr).
      { intros m Hm. specialize (Gk m). rewrite app_length, app_nth1 in Gk by exact Hm. apply Gk. lia. }
      { specialize (Gk i). rewrite app_length, nth_app_cons, L', Nat.sub_diag in Gk by lia. apply Gk. cbn. lia. }
      exists c. split; [now rewrite <- app_assoc |]. intros m Hm. rewrite off_last. rewrite nth_app_cons, L', Nat.sub_diag by lia. cbn [nth].
      rewrite (off_ext E E _ (fun q => nth q k' 0)); [now apply Hr | reflexivity |]. intros q Hq. now rewrite app_nth1 by lia. }
    clear w' H. intros n. induction n as [|n IHn]; intros w' H; cbn [for_each] in H.
    + injection H as <-. rewrite Nat.mul_0_r, Nat.mul_0_r. repeat split; try lia; intros; lia.
    + apply bind_ret in H as (w1 & H1 & H2). apply IHn in H1 as (A1 & B1 & C1 & D1). apply IH in H2 as (A2 & B2 & C2 & D2).
      assert (X : s * (prodE E i * S n) = s * (prodE E i * n) + s * prodE E i) by lia.
      repeat split; [lia | congruence | |].
      * intros m Hm. rewrite C2, C1 by lia. reflexivity.
      * intros k x Lk Gk Hx. destruct (Nat.eq_dec x n) as [->|Ne].
        -- destruct (D2 k Lk Gk) as (c & Hc & Hr). exists c. split; [exact Hc |]. intros m Hm. rewrite <- (Hr m Hm). f_equal. rewrite A1. lia.
        -- destruct (D1 k x Lk Gk ltac:(lia)) as (c & Hc & Hr). exists c. split; [exact Hc |]. intros m Hm. rewrite C2; [now apply Hr |].
           left. rewrite A1.
           assert (O : off E (fun q => nth q k 0) i < prodE E i) by (apply off_bound; intros q Hq; apply Gk; lia). nia.
Qed.

Lemma fill_total i : forall j w, (forall k, length k = i -> good k -> exists c, conv (range_of o (k ++ j)) = Ret c) ->
  w_pos w + s * prodE E i <= length (w_store w) -> exists w', fill_store conv o i j w = Ret w'.
Proof.
  induction i as [|i IH]; intros j w G L; cbn [fill_store].
  - destruct (G []) as (c & Hc); [reflexivity | intros m Hm; cbn in Hm; lia |]. cbn [app] in Hc. rewrite Hc. cbn [bind]. apply copy_total.
    rewrite (conv_len _ _ Hc). cbn in L. lia.
  - rewrite index_extent. change (get_extent (o_ext o) (S i)) with (E i).
    enough (X : forall n, n <= E i -> exists w', for_each n (fun k => fill_store conv o i (k :: j)) w = Ret w') by (apply X; lia).
    intros n. induction n as [|n IHn]; intros Hn; cbn [for_each]; [eauto |].
    destruct (IHn ltac:(lia)) as (w1 & H1). rewrite H1. cbn [bind].
    assert (P : w_pos w1 = w_pos w + s * (prodE E i * n) /\ length (w_store w1) = length (w_store w)).
    { clear - H1 conv_len. revert w1 H1. induction n as [|n IHn]; intros w1 H1; cbn [for_each] in H1; [injection H1 as <-; lia |].
      apply bind_ret in H1 as (w2 & H2 & H3). apply IHn in H2 as [A B]. apply fill_ok in H3 as (C & D & _). split; [lia | congruence]. }
    apply IH.
    + intros k Lk Gk. destruct (G (k ++ [n])) as (c & Hc).
      * rewrite app_length. cbn. lia.
      * intros m Hm. rewrite app_length in Hm. cbn in Hm. destruct (Nat.eq_dec m i) as [->|Ne].
        -- rewrite nth_app_cons, Lk, Nat.sub_diag by lia. cbn. lia.
        -- rewrite app_nth1 by lia. apply Gk. lia.
      * exists c. now rewrite <- app_assoc in Hc.
    + destruct P as [P1 P2]. rewrite P1, P2. cbn [prodE] in L.
      assert (Y : prodE E i * n + prodE E i <= prodE E i * E i) by nia. nia.
Qed.
End Fill.

(** ** The adapters *)
Lemma nth_first (l : list nat) n m : m < n -> nth m (firstn n l) 0 = nth m l 0.
Proof.
  revert n m. induction l as [|x l IH]; intros [|n] [|m] H; cbn; try lia; try reflexivity. apply IH. lia.
Qed.
Lemma range_column o j k : length (o_ext o) <= S (length k) -> (forall m, m < pred (length (o_ext o)) -> nth m k 0 = nth m j 0) ->
  length (o_ext o) <= S (length j) -> range_of o k = column o (get_extent (o_ext o) 0) j.
Proof.
  intros Lk Ag Lj. unfold range_of, column. rewrite index_extent. apply map_ext. intros i. unfold access, rank. f_equal.
  remember (length (o_ext o)) as r. clear Heqr. destruct r as [|r]; [reflexivity |]. cbn [firstn]. f_equal. cbn [pred] in Ag.
  apply (nth_ext _ _ 0 0); [rewrite !firstn_length; lia |]. intros m Hm. rewrite firstn_length in Hm.
  rewrite !nth_first by lia. apply Ag; lia.
Qed.
Lemma nth_map_seq (f : nat -> nat) n m : m < n -> nth m (map f (seq 0 n)) 0 = f m.
Proof. intros H. rewrite (nth_indep _ 0 (f 0)) by (rewrite map_length, seq_length; exact H). rewrite map_nth, seq_nth by exact H. reflexivity. Qed.

Section Adapter.
Variable conv : list sr -> res (list R).
Variable o : object.
Variable s : nat.
Hypothesis conv_len : forall v c, conv v = Ret c -> length c = s.
Variable dimension : list desc -> nat.
Variable e : list extent.
Hypothesis e_0 : get_extent e 0 = s.
Hypothesis e_S : forall k, get_extent e (S k) = get_extent (o_ext o) (S k).
Hypothesis ok : accepted o = true.

Lemma rank_ok : length (o_ext o) <= S (index_count o).
Proof. unfold accepted in ok. apply andb_prop in ok as [_ H]. now apply Nat.leb_le in H. Qed.

Lemma adapter_read st i j : store_init dimension conv o = Ret st -> column_index (o_ext o) j -> i < s ->
  exists c, conv (column o (get_extent (o_ext o) 0) j) = Ret c /\ read_store st (layout_left e (firstn (length e) (i :: j))) = Ret (nth i c 0%R).
Proof.
  intros H [Lj Bj] Hi. unfold store_init in H. apply bind_ret in H as (w & H & W). injection W as <-.
  apply (fill_ok conv o s conv_len) in H as (_ & _ & _ & D). set (c := index_count o) in *.
  set (k := map (fun m => nth m j 0) (seq 0 c)). assert (Lk : length k = c) by (unfold k; now rewrite map_length, seq_length).
  assert (Nk : forall m, m < c -> nth m k 0 = nth m j 0) by (intros m Hm; now apply (nth_map_seq (fun m => nth m j 0))).
  destruct (D k Lk) as (x & Hx & Hr).
  { intros m Hm. rewrite Nk by lia. apply Bj. }
  exists x. rewrite app_nil_r in Hx. rewrite (range_column o j k) in Hx.
  - split; [exact Hx |]. specialize (Hr i Hi). cbn [w_pos Nat.add] in Hr. unfold read_store.
    assert (Zj : forall m, c <= m -> nth m j 0 = 0).
    { intros m Hm. specialize (Bj m). fold (get_extent (o_ext o) (S m)) in Bj. rewrite <- trim_get, get_extent_over in Bj by (unfold c, index_count in Hm; lia). lia. }
    rewrite (layout_off e (i :: j) (S (c + length e))).
    + cbn [off nth]. rewrite e_0. rewrite (off_more _ _ c (length e) Zj).
      rewrite (off_ext _ (fun q => get_extent (o_ext o) (S q)) _ (fun q => nth q k 0)); [| intros; apply e_S | intros m Hm; symmetry; now apply Nk].
      now rewrite Hr.
    + lia.
    + intros m Hm. destruct m as [|m]; cbn [nth].
      * assert (s = 1) by (rewrite <- e_0; now apply get_extent_over). lia.
      * specialize (Bj m). fold (get_extent (o_ext o) (S m)) in Bj. rewrite <- e_S, get_extent_over in Bj by exact Hm. lia.
  - rewrite Lk. apply rank_ok.
  - intros m Hm. apply Nk. assert (R := rank_ok). fold c in R. lia.
  - exact Lj.
Qed.

Lemma adapter_total : (forall v, length v = get_extent (o_ext o) 0 -> exists c, conv v = Ret c) ->
  s * prodE (fun k => get_extent (o_ext o) (S k)) (index_count o) <= length (new_store dimension o) ->
  exists st, store_init dimension conv o = Ret st.
Proof.
  intros T L. unfold store_init.
  destruct (fill_total conv o s conv_len (index_count o) [] (Writer (new_store dimension o) 0)) as (w & ->); [| exact L | cbn; eauto].
  intros k _ _. apply T. unfold range_of. now rewrite map_length, seq_length, index_extent.
Qed.
End Adapter.

Lemma fold_mul (f : nat -> nat) l a : fold_left (fun s i => s * f i) l a = a * fold_left (fun s i => s * f i) l 1.
Proof. revert a. induction l as [|x l IH]; intros a; cbn [fold_left]; [lia |]. rewrite IH, (IH (1 * f x)). lia. Qed.
Lemma fold_prod f n : fold_left (fun s i => s * f i) (seq 0 n) 1 = prodE f n.
Proof. induction n as [|n IH]; [reflexivity |]. rewrite seq_S, fold_left_app. cbn [fold_left prodE]. now rewrite IH. Qed.
Lemma prodE_le E F n : (forall k, k < n -> E k <= F k) -> prodE E n <= prodE F n.
Proof. induction n as [|n IH]; intros H; cbn [prodE]; [lia |]. apply Nat.mul_le_mono; [apply IH; intros; apply H; lia | apply H; lia]. Qed.
Lemma prodE_eq E F n : (forall k, k < n -> E k = F k) -> prodE E n = prodE F n.
Proof. induction n as [|n IH]; intros H; cbn [prodE]; [reflexivity |]. rewrite IH, H; auto. Qed.

Lemma fold_add (f : desc -> nat) l a : fold_left (fun s d => s + f d) l a = a + fold_left (fun s d => s + f d) l 0.
Proof. revert a. induction l as [|x l IH]; intros a; cbn [fold_left]; [lia |]. rewrite IH, (IH (0 + f x)). lia. Qed.
Lemma stat_ge1 d : dim d <= stat_dim d.
Proof. induction d; cbn; lia. Qed.
Lemma stat_ge ds : get_dimension ds <= get_stat_dimension ds.
Proof.
  unfold get_dimension, get_stat_dimension. induction ds as [|d ds IH]; cbn [fold_left]; [lia |].
  rewrite (fold_add dim), (fold_add stat_dim). pose proof (stat_ge1 d). lia.
Qed.
Lemma euclid_eq1 d : is_euclid d = true -> dim d = stat_dim d.
Proof. induction d; cbn; try discriminate; auto. Qed.
Lemma euclid_fold l a : fold_left (fun a d => a && is_euclid d)%bool l a = true -> a = true /\ forall d, In d l -> is_euclid d = true.
Proof.
  revert a. induction l as [|x l IH]; intros a H; cbn [fold_left] in H; [split; [exact H | intros d []] |].
  apply IH in H as [H1 H2]. apply andb_prop in H1 as [H0 H1]. split; [exact H0 |]. intros d [->|H]; auto.
Qed.
Lemma euclid_eq ds : get_is_euclidean ds = true -> get_dimension ds = get_stat_dimension ds.
Proof.
  intros H. apply euclid_fold in H as [_ H]. unfold get_dimension, get_stat_dimension. induction ds as [|d ds IH]; cbn [fold_left]; [reflexivity |].
  rewrite (fold_add dim), (fold_add stat_dim), IH by (intros x Hx; apply H; now right). now rewrite (euclid_eq1 d) by (apply H; now left).
Qed.

Lemma dims_get p k : get_extent (dims p) k = get_dimension (descs (get_pattern p k)).
Proof.
  unfold dims. rewrite trim_get. unfold get_extent, get_pattern. revert k.
  induction p as [|q p IH]; intros [|k]; cbn [map nth]; try reflexivity. apply IH.
Qed.
Lemma stat_patterns_S p k : get_extent (to_stat_patterns p) (S k) = get_dimension (descs (get_pattern p (S k))).
Proof.
  unfold to_stat_patterns. destruct (forallb _ p); [apply dims_get |]. rewrite trim_get. destruct p as [|q p]; [now destruct k |].
  change (get_extent (map (fun q => Extent (get_dimension (descs q)) (fixedp q)) p) k = get_dimension (descs (get_pattern p k))).
  rewrite <- dims_get. unfold dims. now rewrite trim_get.
Qed.
Lemma stat_patterns_0 p : get_extent (to_stat_patterns p) 0 = get_stat_dimension (descs (get_pattern p 0)).
Proof.
  unfold to_stat_patterns. destruct (forallb _ p) eqn:F; [| now rewrite trim_get]. rewrite dims_get. destruct p as [|q p]; [reflexivity |].
  cbn [forallb] in F. apply andb_prop in F as [F _]. now apply euclid_eq.
Qed.

Lemma to_len ds v c : to_stat ds v = Ret c -> length c = get_stat_dimension ds.
Proof. apply (PatProperties.conversion_lengths false ds v c). Qed.
Lemma from_len fast ds v c : from_stat fast ds v = Ret c -> length c = get_dimension ds.
Proof. apply (PatProperties.conversion_lengths fast ds v c). Qed.

(** ** to_stat_space *)
Lemma to_adapter_inv o a : to_stat_adapter o = Some (Ret a) ->
  accepted o = true /\ store_init get_stat_dimension (to_stat (rows (o_pat o))) o = Ret (a_store a) /\ a_ext a = to_stat_patterns (o_pat o).
Proof.
  unfold to_stat_adapter. destruct (accepted o); [| discriminate]. intros H. injection H as H. apply bind_ret in H as (st & H & A).
  injection A as <-. now repeat split.
Qed.
Theorem to_stat_columns o a i j : has_shape (o_ext o) (o_pat o) -> to_stat_adapter o = Some (Ret a) -> column_index (o_ext o) j ->
  i < get_stat_dimension (rows (o_pat o)) ->
  exists c, to_stat (rows (o_pat o)) (column o (get_dimension (rows (o_pat o))) j) = Ret c /\ read a (i :: j) = Ret (nth i c 0%R).
Proof.
  intros Sh H C Hi. apply to_adapter_inv in H as (A & H & X).
  destruct (adapter_read _ o (get_stat_dimension (rows (o_pat o))) (to_len _) get_stat_dimension (a_ext a)) with (4 := H) (5 := C) (6 := Hi) as (c & Hc & Hr).
  - rewrite X. apply stat_patterns_0.
  - intros k. rewrite X, stat_patterns_S. symmetry. apply Sh.
  - exact A.
  - exists c. split; [| exact Hr]. rewrite <- Hc. f_equal. f_equal. symmetry. apply Sh.
Qed.
Lemma static_fixed o : static o -> store_fixed o = true.
Proof.
  intros Sh. unfold store_fixed. apply forallb_forall. intros i Hi. apply Sh.
Qed.
Theorem to_stat_returns o : has_shape (o_ext o) (o_pat o) -> accepted o = true -> static o ->
  (0 < index_count o \/ get_stat_dimension (rows (o_pat o)) <= 1) -> exists a, to_stat_adapter o = Some (Ret a).
Proof.
  intros Sh A F K. unfold to_stat_adapter. rewrite A. change (descs (get_pattern (o_pat o) 0)) with (rows (o_pat o)).
  destruct (adapter_total (to_stat (rows (o_pat o))) o (get_stat_dimension (rows (o_pat o))) (to_len _) get_stat_dimension) as (st & ->).
  - intros v Lv. apply PatProperties.to_stat_total. rewrite Lv. apply Sh.
  - unfold new_store. rewrite repeat_length, (static_fixed o F). unfold store_size. rewrite fold_prod.
    destruct (index_count o) as [|c] eqn:E; [cbn; lia |]. rewrite (prodE_S (fun i => get_stat_dimension _)).
    apply Nat.mul_le_mono; [apply Nat.le_refl |].
    assert (Z : get_extent (o_ext o) (S c) = 1) by (rewrite <- trim_get; apply get_extent_over; unfold index_count in E; lia).
    cbn [prodE]. rewrite Z, Nat.mul_1_r. apply prodE_le. intros k _. unfold get_extent. rewrite Sh. apply stat_ge.
  - cbn. eauto.
Qed.
Theorem to_stat_overflow o : has_shape (o_ext o) (o_pat o) -> accepted o = true -> index_count o = 0 ->
  1 < get_stat_dimension (rows (o_pat o)) -> to_stat_adapter o = Some Undef.
Proof.
  intros Sh A Z K. unfold to_stat_adapter. rewrite A. unfold store_init. rewrite Z. cbn [fill_store].
  destruct (PatProperties.to_stat_total (rows (o_pat o)) (range_of o [])) as (c & Hc).
  { unfold range_of. rewrite map_length, seq_length, index_extent. apply Sh. }
  change (descs (get_pattern (o_pat o) 0)) with (rows (o_pat o)). rewrite Hc. cbn [bind].
  rewrite copy_overflow; [reflexivity | cbn; lia |]. cbn [w_pos w_store]. unfold new_store. rewrite repeat_length.
  rewrite (to_len _ _ _ Hc). assert (store_size get_stat_dimension o = 1) as -> by (unfold store_size; now rewrite Z).
  destruct (store_fixed o); lia.
Qed.

Lemma fill_dynamic conv o s (L : forall v c, conv v = Ret c -> length c = s) (T : forall v, length v = get_extent (o_ext o) 0 -> exists c, conv v = Ret c) : 0 < s ->
  forall i j, (forall k, k < i -> 0 < get_extent (o_ext o) (S k)) -> fill_store conv o i j (Writer [] 0) = Undef.
Proof.
  intros P. induction i as [|i IH]; intros j H; cbn [fill_store].
  - destruct (T (range_of o j)) as (c & Hc); [unfold range_of; now rewrite map_length, seq_length, index_extent |]. rewrite Hc. cbn [bind].
    apply copy_overflow; cbn; [lia |]. rewrite (L _ _ Hc). lia.
  - rewrite index_extent. destruct (get_extent (o_ext o) (S i)) as [|n] eqn:E; [specialize (H i); lia |]. clear E.
    induction n as [|n IHn]; cbn [for_each bind]; [apply IH; intros; apply H; lia |]. cbn [for_each] in IHn. now rewrite IHn.
Qed.
Theorem to_stat_dynamic o : has_shape (o_ext o) (o_pat o) -> accepted o = true -> store_fixed o = false ->
  (exists j, column_index (o_ext o) j) -> 0 < get_stat_dimension (rows (o_pat o)) -> to_stat_adapter o = Some Undef.
Proof.
  intros Sh A F (j & _ & J) P. unfold to_stat_adapter. rewrite A. change (descs (get_pattern (o_pat o) 0)) with (rows (o_pat o)). unfold store_init, new_store. rewrite F.
  rewrite (fill_dynamic _ _ (get_stat_dimension (rows (o_pat o))) (to_len _)); [reflexivity | | exact P |].
  - intros v Lv. apply PatProperties.to_stat_total. rewrite Lv. apply Sh.
  - intros k _. specialize (J k). unfold get_extent. lia.
Qed.

(** ** from_stat_space *)
Theorem from_stat_columns fast o p a i j : stat_shape o p -> from_stat_adapter fast o p = Some (Ret a) -> column_index (o_ext o) j ->
  i < get_dimension (rows p) ->
  exists c, from_stat fast (rows p) (column o (get_stat_dimension (rows p)) j) = Ret c /\ read a (i :: j) = Ret (nth i c 0%R).
Proof.
  intros [S0 S1] H C Hi. unfold from_stat_adapter in H. destruct (accepted o) eqn:A; [| discriminate]. injection H as H.
  apply bind_ret in H as (st & H & X). injection X as <-.
  destruct (adapter_read _ o (get_dimension (rows p)) (from_len fast _) get_dimension (dims p)) with (4 := H) (5 := C) (6 := Hi) as (c & Hc & Hr).
  - apply dims_get.
  - intros k. rewrite dims_get. symmetry. apply S1.
  - exact A.
  - exists c. split; [| exact Hr]. rewrite <- Hc. unfold get_extent. now rewrite S0.
Qed.
Theorem from_stat_returns fast o p : stat_shape o p -> has_shape (o_ext o) (o_pat o) -> accepted o = true -> static o ->
  exists a, from_stat_adapter fast o p = Some (Ret a).
Proof.
  intros [S0 S1] Sh A F. unfold from_stat_adapter. rewrite A. change (descs (get_pattern p 0)) with (rows p).
  destruct (adapter_total (from_stat fast (rows p)) o (get_dimension (rows p)) (from_len fast _) get_dimension) as (st & ->).
  - intros v Lv. apply PatProperties.from_stat_total. rewrite Lv. exact S0.
  - unfold new_store. rewrite repeat_length, (static_fixed o F). unfold store_size. rewrite fold_prod.
    rewrite (prodE_eq (fun i => get_dimension (descs (get_pattern (o_pat o) i))) (get_extent (o_ext o))) by (intros k _; symmetry; apply Sh).
    assert (D : get_dimension (rows p) <= get_extent (o_ext o) 0) by (unfold get_extent; rewrite S0; apply stat_ge).
    assert (Z : get_extent (o_ext o) (index_count o) = 1) by (rewrite <- trim_get; apply get_extent_over; unfold index_count; lia).
    destruct (index_count o) as [|c]; [cbn; lia |]. rewrite (prodE_S (get_extent (o_ext o))). apply Nat.mul_le_mono; [exact D |].
    cbn [prodE]. rewrite Z. lia.
  - cbn. eauto.
Qed.
Theorem from_stat_dynamic fast o p : stat_shape o p -> accepted o = true -> store_fixed o = false ->
  (exists j, column_index (o_ext o) j) -> 0 < get_dimension (rows p) -> from_stat_adapter fast o p = Some Undef.
Proof.
  intros [S0 S1] A F (j & _ & J) P. unfold from_stat_adapter. rewrite A. change (descs (get_pattern p 0)) with (rows p). unfold store_init, new_store. rewrite F.
  rewrite (fill_dynamic _ _ (get_dimension (rows p)) (from_len fast _)); [reflexivity | | exact P |].
  - intros v Lv. apply PatProperties.from_stat_total. rewrite Lv. exact S0.
  - intros k _. specialize (J k). unfold get_extent. lia.
Qed.
(** ** There and back *)
Lemma trim_len e : length (trim e) <= length e.
Proof. induction e as [|x e IH]; cbn [trim]; [lia |]. destruct (trim e); [destruct (known x && _) |]; cbn in *; lia. Qed.
Lemma trim_known e : (forall i, known (nth i e (Extent 1 true)) = true) -> forall i, known (nth i (trim e) (Extent 1 true)) = true.
Proof.
  induction e as [|x e IH]; intros H i; cbn [trim]; [destruct i; reflexivity |].
  assert (H' := fun i => H (S i)). specialize (IH H'). specialize (H 0). cbn [nth] in H.
  destruct (trim e) as [|y t]; [destruct (known x && _); destruct i as [|[|i]]; auto; exact H |]. destruct i as [|i]; [exact H | apply IH].
Qed.
Lemma trim_idem e : trim (trim e) = trim e.
Proof.
  induction e as [|x e IH]; cbn [trim]; [reflexivity |]. destruct (trim e) as [|y t] eqn:E.
  - destruct (known x && (len x =? 1)) eqn:F; cbn [trim]; [reflexivity | now rewrite F].
  - cbn [trim] in IH |- *. now rewrite IH.
Qed.
Lemma map_known (p : list pattern) : (forall i, fixedp (nth i p one_pattern) = true) ->
  forall i, known (nth i (map (fun q => Extent (get_dimension (descs q)) (fixedp q)) p) (Extent 1 true)) = true.
Proof. induction p as [|q p IH]; intros H [|i]; cbn; auto. - exact (H 0). - apply IH. intros k. exact (H (S k)). Qed.
Lemma stat_patterns_known p : (forall i, fixedp (nth i p one_pattern) = true) ->
  forall i, known (nth i (to_stat_patterns p) (Extent 1 true)) = true.
Proof.
  intros H. unfold to_stat_patterns. destruct (forallb _ p); apply trim_known; [now apply map_known |].
  intros [|i]; [exact (H 0) |]. cbn [nth]. apply map_known. intros k. destruct p as [|q p]; [now destruct k | exact (H (S k))].
Qed.
Lemma stat_patterns_len p : length (to_stat_patterns p) <= length p.
Proof.
  unfold to_stat_patterns, dims. destruct p as [|q p]; [cbn; lia |].
  destruct (forallb _ _); (eapply Nat.le_trans; [apply trim_len |]); cbn [length tl]; rewrite ?map_length; cbn; lia.
Qed.
Lemma stat_patterns_trim p : trim (to_stat_patterns p) = to_stat_patterns p.
Proof. unfold to_stat_patterns, dims. destruct (forallb _ p); apply trim_idem. Qed.

Lemma plain_shape e : has_shape e (map plain e).
Proof. intros i. revert i. induction e as [|x e IH]; intros [|i]; cbn; auto. Qed.
Lemma plain_static e : (forall i, known (nth i e (Extent 1 true)) = true) -> forall i, fixedp (nth i (map plain e) one_pattern) = true.
Proof. induction e as [|x e IH]; intros H [|i]; cbn; auto. - exact (H 0). - apply IH. intros k. exact (H (S k)). Qed.

Theorem wrap_columns fast z o i j w : has_shape (o_ext o) (o_pat o) -> accepted o = true -> static o ->
  (0 < index_count o \/ get_stat_dimension (rows (o_pat o)) <= 1) -> column_index (o_ext o) j -> length (o_pat o) <= S (length j) ->
  i < get_dimension (rows (o_pat o)) -> Forall valid (rows (o_pat o)) -> (fast = true -> Forall limits_not_pi (rows (o_pat o))) ->
  wrap (rows (o_pat o)) (column o (get_dimension (rows (o_pat o))) j) = Ret w ->
  exists a b w', to_stat_adapter o = Some (Ret a) /\ from_stat_adapter fast (view z a) (o_pat o) = Some (Ret b) /\
    read b (i :: j) = Ret (nth i w' 0%R) /\ same_coords (rows (o_pat o)) w' w.
Proof.
  intros Sh A F K C Lj Hi V Fast W. destruct (to_stat_returns o Sh A F K) as (a & Ha).
  destruct (to_adapter_inv o a Ha) as (_ & _ & X).
  assert (Xp : a_pat a = map plain (a_ext a)).
  { unfold to_stat_adapter in Ha. rewrite A in Ha. injection Ha as Ha. apply bind_ret in Ha as (st & _ & Ha). now injection Ha as <-. }
  assert (SS : stat_shape (view z a) (o_pat o)).
  { split; cbn [view o_ext]; rewrite X; [apply stat_patterns_0 | intros k; apply stat_patterns_S]. }
  destruct C as [C0 C1].
  assert (La : length (a_ext a) <= S (length j)) by (rewrite X; pose proof (stat_patterns_len (o_pat o)); lia).
  assert (CV : column_index (o_ext (view z a)) j).
  { split; cbn [view o_ext]; [exact La |]. intros k. specialize (C1 k). destruct SS as [_ SS]. cbn [view o_ext] in SS. rewrite SS, <- Sh. exact C1. }
  assert (AV : accepted (view z a) = true).
  { unfold accepted, rank, index_count. cbn [view o_ext]. rewrite X, stat_patterns_trim, firstn_all. apply andb_true_intro. split; [| apply Nat.leb_le; lia].
    apply forallb_forall. intros y Hy. apply (In_nth _ _ (Extent 1 true)) in Hy as (n & Hn & <-). apply Bool.negb_true_iff, Bool.andb_false_iff. right.
    apply Nat.eqb_neq. rewrite <- X. destruct n as [|n].
    - pose proof (proj1 SS) as S0. cbn [view o_ext] in S0. rewrite S0. pose proof (stat_ge (rows (o_pat o))). lia.
    - pose proof (proj2 CV n) as S1. cbn [view o_ext] in S1. lia. }
  assert (FV : static (view z a)).
  { intros n. cbn [view o_pat]. rewrite Xp. apply plain_static. rewrite X. apply stat_patterns_known. exact F. }
  assert (SV : has_shape (o_ext (view z a)) (o_pat (view z a))) by (cbn [view o_ext o_pat]; rewrite Xp; apply plain_shape).
  destruct (from_stat_returns fast (view z a) (o_pat o) SS SV AV FV) as (b & Hb).
  destruct (from_stat_columns fast (view z a) (o_pat o) b i j SS Hb CV Hi) as (c & Hc & Hr).
  destruct (PatProperties.to_stat_total (rows (o_pat o)) (column o (get_dimension (rows (o_pat o))) j)) as (t & Ht).
  { unfold column. now rewrite map_length, seq_length. }
  destruct (PatProperties.from_to_is_wrap fast _ _ w t (column (view z a) (get_stat_dimension (rows (o_pat o))) j) V Fast W Ht) as (w' & Hw & Hs).
  { unfold column. rewrite map_map. cbn [view o_get sv o_ext].
    assert (Lt := to_len _ _ _ Ht). apply (nth_ext _ _ 0%R 0%R); [now rewrite map_length, seq_length |]. intros n Hn. rewrite map_length, seq_length in Hn.
    rewrite (nth_indep _ 0%R ((fun x => match read a (firstn (length (a_ext a)) (x :: j)) with Ret y => y | _ => 0%R end) 0)) by (now rewrite map_length, seq_length).
    rewrite (map_nth (fun x => match read a (firstn (length (a_ext a)) (x :: j)) with Ret y => y | _ => 0%R end)), seq_nth by exact Hn. cbn [Nat.add].
    destruct (to_stat_columns o a n j Sh Ha (conj C0 C1) Hn) as (c' & Hc' & Hr'). rewrite Ht in Hc'. injection Hc' as <-.
    assert (read a (firstn (length (a_ext a)) (n :: j)) = read a (n :: j)) as ->.
    { unfold read. now rewrite firstn_firstn, Nat.min_id. }
    now rewrite Hr'. }
  rewrite Hw in Hc. injection Hc as <-. now exists a, b, w'.
Qed.

(** ** Copies *)
Lemma put_same {A} (d : A) l n x : nth n (put d l n x) d = x.
Proof. revert l. induction n as [|n IH]; intros [|y l]; cbn; auto. Qed.
Lemma put_other {A} (d : A) l n m x : m <> n -> nth m (put d l n x) d = nth m l d.
Proof.
  revert l m. induction n as [|n IH]; intros [|y l] [|m] H; cbn; auto; try congruence; try (now destruct m); rewrite ?IH by congruence; auto; now destruct m.
Qed.
Lemma put_len {A} (d : A) l n x : n < length l -> length (put d l n x) = length l.
Proof. revert l. induction n as [|n IH]; intros [|y l] H; cbn in *; try lia. rewrite IH; lia. Qed.
Lemma nth_len {A} (l : list (option A)) n x : nth n l None = Some x -> n < length l.
Proof. intros H. destruct (Nat.lt_ge_cases n (length l)); [assumption |]. rewrite nth_overflow in H by assumption. discriminate. Qed.
Lemma nth_snoc_old {A} (l : list (option A)) n x y : nth n l None = Some x -> nth n (l ++ [y]) None = Some x.
Proof. intros H. rewrite app_nth1; [exact H | now apply nth_len in H]. Qed.
Lemma nth_snoc_new {A} (l : list (option A)) y : nth (length l) (l ++ [y]) None = y.
Proof. rewrite app_nth2, Nat.sub_diag by lia. reflexivity. Qed.

Definition agree (h : world) (f : nat -> option contents) : Prop :=
  forall x, match variable h x, f x with
            | None, None => True
            | Some v, Some c => i_ext v = fst c /\ buffer h (i_buffer v) = Some (snd c) /\ buffer h (i_pointer v) = Some (snd c)
            | _, _ => False
            end.
Lemma agree_read h f x i : agree h f -> read_variable h x i = value_read f x i.
Proof.
  intros H. specialize (H x). unfold read_variable, value_read. destruct (variable h x) as [v|], (f x) as [[e s]|]; try contradiction; [| reflexivity].
  destruct H as (E & _ & B). cbn in E, B. rewrite B, E. reflexivity.
Qed.
Lemma run_inv (P : world -> (nat -> option contents) -> Prop) (good : operation -> Prop) :
  (forall h f op h', P h f -> good op -> step h op = Ret h' -> P h' (value_step f op)) ->
  forall ops h f h', P h f -> Forall good ops -> run h ops = Ret h' -> P h' (fold_left value_step ops f).
Proof.
  intros S ops. induction ops as [|op ops IH]; intros h f h' H G R; cbn in *; [congruence |].
  apply bind_ret in R as (h1 & R1 & R). inversion G; subst. apply (IH h1); auto. eapply S; eauto.
Qed.

Lemma step_no_changes h f op h' : agree h f -> no_changes op -> step h op = Ret h' -> agree h' (value_step f op).
Proof.
  intros A G. assert (New : forall x v s e b', variable h x = None ->
    (forall b, buffer h b = Some s -> b = b' -> True) ->
    v = Instance (length (buffers h)) b' e -> nth b' (buffers h ++ [Some s]) None = Some s ->
    agree (World (buffers h ++ [Some s]) (put None (variables h) x (Some v))) (assign f x (Some (e, s)))).
  { intros x v s e b' Vx _ -> B y. unfold variable, buffer, assign. cbn [buffers variables]. destruct (Nat.eqb_spec y x) as [->|N].
    - rewrite put_same. cbn [i_ext i_buffer i_pointer fst snd]. split; [reflexivity |]. split; [apply nth_snoc_new | exact B].
    - rewrite put_other by exact N. specialize (A y). unfold variable, buffer in A. destruct (nth y (variables h) None) as [u|]; destruct (f y) as [c|]; auto.
      destruct A as (E & A1 & A2). auto using nth_snoc_old. }
  destruct op as [x a | y x | y x | y x | x | x i v]; cbn [no_changes]; intros; try contradiction; cbn [step value_step] in *.
  - destruct (variable h x) eqn:Vx; [discriminate |]. injection H as <-. apply New with (b' := length (buffers h)); auto. apply nth_snoc_new.
  - destruct (variable h y) eqn:Vy; [discriminate |]. destruct (variable h x) as [v|] eqn:Vx; [| discriminate].
    pose proof (A x) as Ax. rewrite Vx in Ax. destruct (f x) as [[e s]|]; [| contradiction]. destruct Ax as (E & B1 & B2). cbn in E, B1, B2. rewrite B1 in H. injection H as <-.
    apply New with (b' := i_pointer v); auto; [now rewrite E | now apply nth_snoc_old].
  - destruct (variable h y) eqn:Vy; [discriminate |]. destruct (variable h x) as [v|] eqn:Vx; [| discriminate].
    pose proof (A x) as Ax. rewrite Vx in Ax. destruct (f x) as [[e s]|]; [| contradiction]. destruct Ax as (E & B1 & B2). cbn in E, B1, B2. rewrite B1 in H. injection H as <-.
    apply New with (b' := i_pointer v); auto; [now rewrite E | now apply nth_snoc_old].
Qed.

Definition separate (h : world) : Prop :=
  forall x v, variable h x = Some v -> i_buffer v = i_pointer v /\ forall y u, variable h y = Some u -> i_buffer u = i_buffer v -> y = x.
Lemma step_no_copies h f op h' : agree h f /\ separate h -> no_copies op -> step h op = Ret h' -> agree h' (value_step f op) /\ separate h'.
Proof.
  intros [A S] G H. destruct op as [x a | y x | y x | y x | x | x i r]; try contradiction; cbn [step value_step] in *.
  - destruct (variable h x) eqn:Vx; [discriminate |]. injection H as <-.
    assert (Old : forall y u, variable h y = Some u -> i_buffer u <> length (buffers h)).
    { intros y u Hu. specialize (A y). rewrite Hu in A. destruct (f y) as [c|]; [| contradiction]. destruct A as (_ & A & _). apply nth_len in A. lia. }
    split.
    + intros y. unfold assign, variable, buffer. cbn. destruct (Nat.eqb_spec y x) as [->|N].
      * rewrite put_same. cbn. split; [reflexivity |]. split; apply nth_snoc_new.
      * rewrite put_other by exact N. specialize (A y). unfold variable, buffer in A. destruct (nth y (variables h) None) as [u|]; destruct (f y) as [c|]; auto.
        destruct A as (E & A1 & A2). auto using nth_snoc_old.
    + intros y v Hv. unfold variable in Hv. cbn in Hv. destruct (Nat.eq_dec y x) as [->|N].
      * rewrite put_same in Hv. injection Hv as <-. cbn. split; [reflexivity |]. intros z u Hu. unfold variable in Hu. cbn in Hu.
        destruct (Nat.eq_dec z x) as [->|N]; [reflexivity |]. rewrite put_other in Hu by exact N. intros E. now apply Old in Hu.
      * rewrite put_other in Hv by exact N. split; [now apply (S y) |]. intros z u Hu E. unfold variable in Hu. cbn in Hu.
        destruct (Nat.eq_dec z x) as [->|N']; [rewrite put_same in Hu; injection Hu as <-; cbn in E; symmetry in E; now apply Old in Hv |].
        rewrite put_other in Hu by exact N'. now apply (proj2 (S y v Hv) z u).
  - destruct (variable h x) as [v|] eqn:Vx; [| discriminate]. injection H as <-. split.
    + intros y. unfold assign, variable, buffer. cbn. destruct (Nat.eqb_spec y x) as [->|N]; [now rewrite put_same |].
      rewrite put_other by exact N. pose proof (A y) as Ay. unfold variable, buffer in Ay. destruct (nth y (variables h) None) as [u|] eqn:Vy; destruct (f y) as [c|]; auto.
      destruct Ay as (E & A1 & A2). destruct (S y u Vy) as [P D]. assert (i_buffer u <> i_buffer v) by (intros Eb; apply N; symmetry; now apply (D x v)).
      rewrite !put_other by congruence. auto.
    + intros y u Hu. unfold variable in Hu. cbn in Hu. destruct (Nat.eq_dec y x) as [->|N]; [rewrite put_same in Hu; discriminate |].
      rewrite put_other in Hu by exact N. split; [now apply (S y) |]. intros z w Hw E. unfold variable in Hw. cbn in Hw.
      destruct (Nat.eq_dec z x) as [->|N']; [rewrite put_same in Hw; discriminate |]. rewrite put_other in Hw by exact N'. now apply (proj2 (S y u Hu) z w).
  - destruct (variable h x) as [v|] eqn:Vx; [| discriminate]. pose proof (A x) as Ax. rewrite Vx in Ax. destruct (f x) as [[e s]|] eqn:Fx; [| contradiction].
    destruct Ax as (E & B1 & B2). cbn in E, B1, B2. rewrite B2 in H. destruct (_ <? length s); [| discriminate]. injection H as <-. destruct (S x v Vx) as [Px Dx]. split.
    + intros y. unfold assign, variable, buffer. cbn. destruct (Nat.eqb_spec y x) as [->|N].
      * unfold variable in Vx. rewrite Vx, Px, put_same. cbn. now rewrite E.
      * pose proof (A y) as Ay. unfold variable, buffer in Ay. destruct (nth y (variables h) None) as [u|] eqn:Vy; destruct (f y) as [c|]; auto.
        destruct Ay as (E' & A1 & A2). destruct (S y u Vy) as [P D]. assert (i_buffer u <> i_buffer v) by (intros Eb; apply N; now apply (Dx y u)).
        rewrite !put_other by congruence. auto.
    + intros y u Hu. exact (S y u Hu).
Qed.

Lemma agree_empty : agree empty_world (fun _ => None).
Proof. intros x. unfold variable. cbn. destruct x; exact I. Qed.
Theorem no_copies_values ops h x i : Forall no_copies ops -> run empty_world ops = Ret h -> read_variable h x i = value_read (value_run ops) x i.
Proof.
  intros G R. apply agree_read. apply (run_inv (fun h f => agree h f /\ separate h) no_copies step_no_copies ops empty_world _ h); auto.
  split; [apply agree_empty |]. intros y v Hv. unfold variable in Hv. cbn in Hv. destruct y; discriminate.
Qed.
Theorem no_changes_values ops h x i : Forall no_changes ops -> run empty_world ops = Ret h -> read_variable h x i = value_read (value_run ops) x i.
Proof. intros G R. apply agree_read. apply (run_inv agree no_changes step_no_changes ops empty_world _ h); auto using agree_empty. Qed.
(** ** The functions *)
Lemma component_same o i j : component (Same o) (i :: j) = Ret (nth i (map sv (column o (S i) j)) 0%R).
Proof.
  cbn [component]. unfold column, access, rank. f_equal. rewrite map_map.
  rewrite (nth_indep _ 0%R (sv (o_get o (firstn (length (o_ext o)) (0 :: j))))) by (rewrite map_length, seq_length; lia).
  rewrite (map_nth (fun x => sv (o_get o (firstn (length (o_ext o)) (x :: j)))) (seq 0 (S i)) 0 i), seq_nth by lia. reflexivity.
Qed.
Lemma column_nth o n i j : i < n -> nth i (map sv (column o n j)) 0%R = sv (o_get o (firstn (length (o_ext o)) (i :: j))).
Proof.
  intros H. unfold column. rewrite map_map.
  rewrite (nth_indep _ 0%R (sv (o_get o (firstn (length (o_ext o)) (0 :: j))))) by (now rewrite map_length, seq_length).
  rewrite (map_nth (fun x => sv (o_get o (firstn (length (o_ext o)) (x :: j)))) (seq 0 n) 0 i), seq_nth by lia. reflexivity.
Qed.
Theorem to_stat_space_columns o r i j : has_shape (o_ext o) (o_pat o) -> to_stat_space o = Some (Ret r) -> column_index (o_ext o) j ->
  i < get_stat_dimension (rows (o_pat o)) ->
  exists c, to_stat (rows (o_pat o)) (column o (get_dimension (rows (o_pat o))) j) = Ret c /\ component r (i :: j) = Ret (nth i c 0%R).
Proof.
  intros Sh H C Hi. unfold to_stat_space in H. change (descs (get_pattern (o_pat o) 0)) with (rows (o_pat o)) in H.
  destruct (get_is_euclidean (rows (o_pat o))) eqn:E.
  - injection H as <-. destruct (PatProperties.euclidean_transparent false (rows (o_pat o)) (column o (get_dimension (rows (o_pat o))) j) E) as (D & T & _).
    { unfold column. now rewrite map_length, seq_length. }
    exists (values (column o (get_dimension (rows (o_pat o))) j)). split; [exact T |]. unfold values. rewrite column_nth by lia. reflexivity.
  - destruct (to_stat_adapter o) as [[a| | |]|] eqn:A; try discriminate. injection H as <-. exact (to_stat_columns o a i j Sh A C Hi).
Qed.
Lemma all_euclid p : forallb (fun q => get_is_euclidean (descs q)) p = true -> get_is_euclidean (rows p) = true.
Proof. destruct p as [|q p]; [reflexivity |]. cbn [forallb]. intros H. now apply andb_prop in H as [H _]. Qed.
Theorem from_stat_space_columns fast o p r i j : stat_shape o p -> from_stat_space fast o p = Some (Ret r) -> column_index (o_ext o) j ->
  i < get_dimension (rows p) ->
  exists c, from_stat fast (rows p) (column o (get_stat_dimension (rows p)) j) = Ret c /\ component r (i :: j) = Ret (nth i c 0%R).
Proof.
  intros Sh H C Hi. unfold from_stat_space in H. destruct (forallb _ p) eqn:E.
  - injection H as <-. apply all_euclid in E. pose proof (euclid_eq _ E) as D.
    destruct (PatProperties.euclidean_transparent fast (rows p) (column o (get_stat_dimension (rows p)) j) E) as (_ & _ & T & _).
    { unfold column. now rewrite map_length, seq_length. }
    exists (values (column o (get_stat_dimension (rows p)) j)). split; [exact T |]. unfold values. rewrite column_nth by lia. reflexivity.
  - destruct (from_stat_adapter fast o p) as [[a| | |]|] eqn:A; try discriminate. injection H as <-. exact (from_stat_columns fast o p a i j Sh A C Hi).
Qed.
Theorem wrap_angles_columns fast z o i j w : has_shape (o_ext o) (o_pat o) -> accepted o = true -> static o ->
  (0 < index_count o \/ get_stat_dimension (rows (o_pat o)) <= 1) -> column_index (o_ext o) j -> length (o_pat o) <= S (length j) ->
  i < get_dimension (rows (o_pat o)) -> Forall valid (rows (o_pat o)) -> (fast = true -> Forall limits_not_pi (rows (o_pat o))) ->
  wrap (rows (o_pat o)) (column o (get_dimension (rows (o_pat o))) j) = Ret w ->
  exists r w', wrap_angles fast z o = Some (Ret r) /\ component r (i :: j) = Ret (nth i w' 0%R) /\ same_coords (rows (o_pat o)) w' w.
Proof.
  intros Sh A F K C Lj Hi V Fast W. unfold wrap_angles, to_stat_space. change (descs (get_pattern (o_pat o) 0)) with (rows (o_pat o)).
  destruct (get_is_euclidean (rows (o_pat o))) eqn:E.
  - destruct (PatProperties.euclidean_transparent fast (rows (o_pat o)) (column o (get_dimension (rows (o_pat o))) j) E) as (D & T & B & W').
    { unfold column. now rewrite map_length, seq_length. }
    exists (Same o), (values (column o (get_dimension (rows (o_pat o))) j)). split; [reflexivity |]. split; [unfold values; now rewrite column_nth |].
    destruct (PatProperties.from_to_is_wrap fast _ _ w _ (column o (get_dimension (rows (o_pat o))) j) V Fast W T) as (w' & Hw & Hs); [reflexivity |].
    rewrite B in Hw. injection Hw as <-. exact Hs.
  - destruct (wrap_columns fast z o i j w Sh A F K C Lj Hi V Fast W) as (a & b & w' & Ha & Hb & Hr & Hs). rewrite Ha. cbn [option_map bind].
    unfold from_stat_space. destruct (forallb _ (o_pat o)) eqn:E'; [apply all_euclid in E'; congruence |]. rewrite Hb. cbn. now exists (View b), w'.
Qed.

Lemma trim_dynamic e i : known (nth i e (Extent 1 true)) = false -> i < length (trim e).
Proof.
  revert i. induction e as [|x e IH]; intros i H; [destruct i; discriminate |]. cbn [trim]. destruct i as [|i].
  - cbn in H. destruct (trim e); [| cbn; lia]. rewrite H. cbn. lia.
  - apply IH in H. destruct (trim e); cbn in *; lia.
Qed.
Lemma dynamic_store o : dynamic o -> store_fixed o = false.
Proof.
  intros (i & K & F). apply Bool.not_true_is_false. intros H. unfold store_fixed in H. rewrite forallb_forall in H.
  specialize (H i). unfold get_pattern in H. fold one_pattern in F. rewrite F in H. discriminate H. apply in_seq. split; [lia |]. apply trim_dynamic in K. exact K.
Qed.
