(** * Properties of collections: C65, C66, C67, C77

    Vocabulary in CollSpec.v, model in CollModel.v. *)
From Coq Require Import List ZArith Lia.
From Verif Require Import CollModel CollSpec CollProofs.
Import ListNotations.
Local Open Scope nat_scope.

(** ** C65 collection views obey list laws

    Every object that can be built from tuples, arrays and vectors with
    [all], [concat], [slice], [replicate], [generate] ([iota]), [repeat] and
    [reverse], nested in any way the adaptors allow, offers exactly the
    elements of the list it stands for: by its size, by [get<i>], and - when
    it is a range - by run-time index, by iterators and by a loop over it. *)
Theorem collection_views : forall (A : Type) (e : expr A),
  allowed e -> offers (eval e) (denote e).
Proof. exact views_ok. Qed.
Print Assumptions collection_views.

(** A nested expression: three kinds of source, both kinds of concatenation, a
    dynamic slice of a replicated view. *)
Definition sample : expr nat :=
  EConcat
    [ EVector [7; 8];
      ESlice (EReplicate (EConcat [ETuple [1; 2]; EAll (EReverse (EArray [3; 4; 5]))]) 2 true)
        3 false (Some (4, false));
      EIota 10 3 true ].

Example collection_views_case :
  allowed sample /\ viter (eval sample) = true /\
  denote sample = [7; 8; 4; 3; 1; 2; 10; 11; 12] /\
  walk (eval sample) 10 (vbegin (eval sample)) = Some [7; 8; 4; 3; 1; 2; 10; 11; 12].
Proof.
  split; [|repeat split].
  cbn. repeat split; try discriminate; auto; try lia; try (now left; repeat constructor);
    try (now right; repeat constructor).
Qed.

(** Two neighbouring slices, concatenated, give the collection back. *)
Theorem complementary_slices : forall (A : Type) (e : expr A) n,
  allowed e -> viter (eval e) = true -> n <= vsize (eval e) ->
  offers (eval (EConcat [ESlice e 0 true (Some (n, false)); ESlice e n false None])) (denote e).
Proof.
  intros A e n ha hi hn.
  pose proof (collection_views A (EConcat [ESlice e 0 true (Some (n, false)); ESlice e n false None])) as H.
  cbn [denote map concat skipn] in H. rewrite app_nil_r, firstn_skipn in H. apply H.
  cbn [allowed map]. repeat split; trivial; try discriminate; auto.
  left. repeat constructor; cbn; trivial.
  destruct (_ && _)%bool; trivial.
Qed.
Print Assumptions complementary_slices.

Example complementary_slices_case :
  walk (eval (EConcat [ESlice (EVector [1; 2; 3; 4]) 0 true (Some (3, false));
                       ESlice (EVector [1; 2; 3; 4]) 3 false None])) 9 0 = Some [1; 2; 3; 4].
Proof. reflexivity. Qed.

(** Slicing a concatenation at the sizes of the operands gives the operands. *)
Theorem slice_of_concat : forall (A : Type) (a b : expr A),
  allowed a -> allowed b -> viter (eval a) = true -> viter (eval b) = true ->
  let c := EConcat [a; b] in
  offers (eval (ESlice c 0 true (Some (vsize (eval a), false)))) (denote a) /\
  offers (eval (ESlice c (vsize (eval a)) false None)) (denote b).
Proof.
  intros A a b ha hb ia ib c.
  destruct (collection_views A a ha) as [[sa _] _].
  destruct (collection_views A b hb) as [[sb _] _].
  assert (hc : allowed c).
  { unfold c. cbn [allowed map]. repeat split; trivial; try discriminate.
    left. repeat constructor; trivial. }
  assert (ic : viter (eval c) = true).
  { unfold c. cbn [eval map concat_v]. destruct (forallb _ _); reflexivity. }
  destruct (collection_views A c hc) as [[sc _] _].
  assert (L : length (denote c) = length (denote a) + length (denote b)).
  { unfold c. cbn. now rewrite !app_length, Nat.add_0_r. }
  split.
  - pose proof (collection_views A (ESlice c 0 true (Some (vsize (eval a), false)))) as H.
    replace (denote a) with (denote (ESlice c 0 true (Some (vsize (eval a), false)))).
    + apply H. cbn [allowed]. split; [exact hc|]. split; [left; exact ic|]. lia.
    + unfold c. cbn [denote map concat skipn]. rewrite sa, firstn_app, Nat.sub_diag, firstn_all.
      now rewrite app_nil_r.
  - pose proof (collection_views A (ESlice c (vsize (eval a)) false None)) as H.
    replace (denote b) with (denote (ESlice c (vsize (eval a)) false None)).
    + apply H. cbn [allowed]. split; [exact hc|]. split; [left; exact ic|]. lia.
    + unfold c. cbn [denote map concat]. rewrite sa, skipn_app, Nat.sub_diag, skipn_all.
      cbn. now rewrite app_nil_r.
Qed.
Print Assumptions slice_of_concat.

Example slice_of_concat_case :
  let c := EConcat [EVector [1; 2; 3]; EAll (ETuple [4; 5])] in
  walk (eval (ESlice c 3 false None)) 9 3 = Some [4; 5].
Proof. reflexivity. Qed.

(** Replicating twice multiplies the factors; slicing twice adds the offsets;
    reversing twice changes nothing. *)
Theorem nested_views : forall (A : Type) (e : expr A),
  allowed e -> viter (eval e) = true ->
  (forall m n, offers (eval (EReplicate (EReplicate e m false) n false)) (denote (EReplicate e (m * n) false))) /\
  (forall o p k n, o + k <= vsize (eval e) -> p + n <= k ->
     offers (eval (ESlice (ESlice e o false (Some (k, false))) p false (Some (n, false))))
            (denote (ESlice e (o + p) false (Some (n, false))))) /\
  (vfixed (eval e) = true -> vhasget (eval e) = true ->
     offers (eval (EReverse (EReverse e))) (denote e)).
Proof.
  intros A e ha hi. destruct (collection_views A e ha) as [[se _] _]. split; [|split].
  - intros m n.
    pose proof (collection_views A (EReplicate (EReplicate e m false) n false)) as H.
    replace (denote (EReplicate e (m * n) false))
      with (denote (EReplicate (EReplicate e m false) n false)).
    + apply H. cbn [allowed]. repeat split; trivial; left; trivial.
    + cbn [denote]. clear. rewrite Nat.mul_comm. induction n; cbn; [reflexivity|].
      now rewrite IHn, repeat_app, concat_app.
  - intros o p k n h1 h2.
    pose proof (collection_views A (ESlice (ESlice e o false (Some (k, false))) p false (Some (n, false)))) as H.
    replace (denote (ESlice e (o + p) false (Some (n, false))))
      with (denote (ESlice (ESlice e o false (Some (k, false))) p false (Some (n, false)))).
    + apply H. cbn [allowed].
      assert (E : eval (ESlice e o false (Some (k, false))) = slice_v (eval e) o false (Some (k, false))).
      { cbn [eval slice]. rewrite Bool.andb_false_r. reflexivity. }
      rewrite E. cbn [slice_v viter vsize]. repeat split; trivial; left; trivial.
    + cbn [denote]. apply list_eq_nth.
      * rewrite ?firstn_length, ?skipn_length, ?firstn_length, ?skipn_length. lia.
      * intros i hl. rewrite ?firstn_length, ?skipn_length, ?firstn_length, ?skipn_length in hl.
        rewrite !nth_error_firstn_lt, !nth_error_skipn by lia.
        rewrite nth_error_firstn_lt, nth_error_skipn by lia. f_equal. lia.
  - intros hf hg. pose proof (collection_views A (EReverse (EReverse e))) as H.
    cbn [denote] in H. rewrite rev_involutive in H. apply H. cbn [allowed]. auto.
Qed.
Print Assumptions nested_views.

Example nested_views_case :
  walk (eval (ESlice (ESlice (EArray [1; 2; 3; 4; 5; 6]) 1 false (Some (4, false))) 1 false (Some (2, false)))) 9 2
  = Some [3; 4].
Proof. reflexivity. Qed.

(** Flattening a nested tuple gives its leaves from left to right, none of
    them tuple-like. *)
Theorem flatten_leaves : forall (A : Type) (t : ttree A), tuple_flatten t = map TLeaf (leaves t).
Proof. exact flatten_ok. Qed.
Print Assumptions flatten_leaves.

Example flatten_leaves_case :
  tuple_flatten (TNode [TLeaf 1; TNode [TLeaf 2; TNode [TLeaf 3; TLeaf 4]; TNode []]; TLeaf 5])
  = map TLeaf [1; 2; 3; 4; 5].
Proof. reflexivity. Qed.

(** ** C66 lexicographical comparison is the list order

    Whichever of the three implementations is selected, the answer is the
    lexicographic one, also when one of the sequences is infinite. *)
Theorem lex_compare_spec : forall (A : Type) (cmp : A -> A -> option comparison) common (l r : side A),
  skind l <> KUnbounded \/ skind r <> KUnbounded ->
  exists c, lex_compare cmp common l r = Some c /\
    forall c', lex_result cmp (seq_of l) (seq_of r) c' <-> c' = c.
Proof.
  intros A cmp common l r h.
  destruct (lex_compare_ok A cmp common l r) as (c & h1 & h2).
  { unfold sized. destruct h as [h|h]; [left|right]; destruct (skind _); congruence. }
  exists c. split; [exact h1|]. intros c'. split.
  - intros h3. eapply lex_result_unique; eassumption.
  - intros ->. exact h2.
Qed.
Print Assumptions lex_compare_spec.

Definition nat_cmp (x y : nat) : option comparison := Some (Nat.compare x y).
Lemma nat_order : order_cmp nat_cmp.
Proof.
  unfold nat_cmp. split; intros.
  - now rewrite Nat.compare_refl.
  - injection H as H. now apply Nat.compare_eq in H.
  - cbn. now rewrite <- Nat.compare_antisym.
  - injection H as H; injection H0 as H0. f_equal.
    apply Nat.compare_lt_iff in H, H0. apply Nat.compare_lt_iff. lia.
Qed.

Example lex_compare_spec_case :
  lex_compare nat_cmp false (mk_side (KFixed 2) (fun i => i)) (mk_side KUnbounded (fun i => i)) = Some (Some Lt) /\
  lex_compare nat_cmp false (mk_side (KDyn 3) (fun i => 2 * i)) (mk_side KUnbounded (fun i => i)) = Some (Some Gt) /\
  lex_compare nat_cmp true (side_of 0 (eval sample)) (side_of 0 (eval sample)) = Some (Some Eq).
Proof. repeat split. Qed.

(** Swapping the arguments reverses the answer; the answer is "equivalent"
    exactly for equal sequences; "less" is transitive.  (The three calls may
    use different implementations.) *)
Theorem lex_compare_order : forall (A : Type) (cmp : A -> A -> option comparison),
  order_cmp cmp ->
  (forall b b' (l r : side A), skind l <> KUnbounded \/ skind r <> KUnbounded ->
     lex_compare cmp b r l = option_map (option_map CompOpp) (lex_compare cmp b' l r)) /\
  (forall b (l r : side A), skind l <> KUnbounded \/ skind r <> KUnbounded ->
     (lex_compare cmp b l r = Some (Some Eq) <->
      exists n, bound (seq_of l) = Some n /\ bound (seq_of r) = Some n /\
        forall i, i < n -> selem l i = selem r i)) /\
  (forall b b' b'' (l m r : side A), skind l <> KUnbounded -> skind m <> KUnbounded ->
     lex_compare cmp b l m = Some (Some Lt) -> lex_compare cmp b' m r = Some (Some Lt) ->
     lex_compare cmp b'' l r = Some (Some Lt)).
Proof.
  intros A cmp o. split; [|split].
  - intros b b' l r h.
    destruct (lex_compare_spec A cmp b' l r h) as (c & -> & hc).
    destruct (lex_compare_spec A cmp b r l) as (d & -> & hd); [tauto|]. cbn. f_equal.
    symmetry. apply hd. apply lex_flip; [exact o|]. now apply hc.
  - intros b l r h. destruct (lex_compare_spec A cmp b l r h) as (c & -> & hc).
    rewrite <- (lex_eq A cmp o (seq_of l) (seq_of r)). rewrite hc. split; congruence.
  - intros b b' b'' l m r hl hm h1 h2.
    destruct (lex_compare_spec A cmp b l m ltac:(tauto)) as (c & e1 & hc).
    destruct (lex_compare_spec A cmp b' m r ltac:(tauto)) as (d & e2 & hd).
    destruct (lex_compare_spec A cmp b'' l r ltac:(tauto)) as (x & -> & hx). f_equal.
    symmetry. apply hx. eapply lex_trans; [exact o|apply hc|apply hd]; congruence.
Qed.
Print Assumptions lex_compare_order.

(** For two views, it is the order of the lists they stand for. *)
Theorem lex_compare_views : forall (A : Type) (cmp : A -> A -> option comparison) (d : A) common (a b : expr A),
  allowed a -> allowed b ->
  exists c, lex_compare cmp common (side_of d (eval a)) (side_of d (eval b)) = Some c /\
    lex_result cmp (mk_seq (Some (length (denote a))) (fun i => nth i (denote a) d))
                   (mk_seq (Some (length (denote b))) (fun i => nth i (denote b) d)) c.
Proof.
  intros A cmp d common a b ha hb.
  destruct (lex_compare_spec A cmp common (side_of d (eval a)) (side_of d (eval b))) as (c & h1 & h2).
  { left. unfold side_of. cbn. destruct (vfixed _); discriminate. }
  exists c. split; [exact h1|]. destruct (proj2 (h2 c) eq_refl) as (k & hk & ck).
  destruct (collection_views A a ha) as [[sa ga] _]. destruct (collection_views A b hb) as [[sb gb] _].
  assert (Ba : bound (seq_of (side_of d (eval a))) = Some (length (denote a))).
  { unfold seq_of, side_of. cbn. destruct (vfixed _); now rewrite sa. }
  assert (Bb : bound (seq_of (side_of d (eval b))) = Some (length (denote b))).
  { unfold seq_of, side_of. cbn. destruct (vfixed _); now rewrite sb. }
  assert (Ea : forall i, i < length (denote a) -> selem (side_of d (eval a)) i = nth i (denote a) d).
  { intros i hi. unfold side_of. cbn. rewrite ga by trivial. now rewrite (nth_error_nth' _ d) by trivial. }
  assert (Eb : forall i, i < length (denote b) -> selem (side_of d (eval b)) i = nth i (denote b) d).
  { intros i hi. unfold side_of. cbn. rewrite gb by trivial. now rewrite (nth_error_nth' _ d) by trivial. }
  unfold has, ends in *. cbn [item] in *. rewrite Ba, Bb in *. cbn [seq_of item] in *. exists k. cbn [bound item]. split.
  - intros j hj. destruct (hk j hj) as (p & q & r). unfold has. cbn. repeat split; trivial.
    rewrite <- Ea, <- Eb by trivial. exact r.
  - destruct ck as [ck|[ck|[ck|(p & q & r & s)]]]; auto.
    do 3 right. repeat split; trivial. now rewrite <- Ea, <- Eb by trivial.
Qed.
Print Assumptions lex_compare_views.

Example lex_compare_views_case :
  lex_compare nat_cmp true (side_of 0 (eval sample)) (side_of 0 (eval (EVector [7; 8; 5]))) = Some (Some Lt).
Proof. reflexivity. Qed.

(** ** C67 compare_indices is sound

    It holds exactly when every place that exists in both collections
    satisfies the comparison.  (The tail of the longer one is ignored, as the
    documentation says.) *)
Theorem compare_indices_spec : forall (A : Type) (cmp : A -> A -> option comparison)
    (comp : option comparison -> bool) (l r : side A),
  skind l <> KUnbounded \/ skind r <> KUnbounded ->
  exists b, compare_indices cmp comp l r = Some b /\
    (b = true <-> forall i, has (seq_of l) i -> has (seq_of r) i ->
                    comp (cmp (selem l i) (selem r i)) = true).
Proof.
  intros A cmp comp l r h. apply compare_indices_ok.
  unfold sized. destruct h as [h|h]; [left|right]; destruct (skind _); congruence.
Qed.
Print Assumptions compare_indices_spec.

Definition is_eq (c : option comparison) : bool := match c with Some Eq => true | _ => false end.
Definition is_lteq (c : option comparison) : bool := match c with Some Gt | None => false | _ => true end.

Example compare_indices_spec_case :
  compare_indices nat_cmp is_eq (mk_side (KFixed 2) (fun i => i)) (mk_side (KDyn 5) (fun i => i)) = Some true /\
  compare_indices nat_cmp is_eq (mk_side (KFixed 4) (fun i => i)) (mk_side (KDyn 3) (fun i => i / 2)) = Some false /\
  compare_indices nat_cmp is_lteq (mk_side (KDyn 4) (fun i => i)) (mk_side KUnbounded (fun i => 2 * i)) = Some true.
Proof. repeat split. Qed.

(** ** C77 a transposed pattern collection reads the same by every access

    By [get<i>] and by iterating it is the collection with the two entries
    exchanged (and at least [b + 1] entries).  Missing: a run-time index. *)
Theorem transposed_patterns_partial : forall (A : Type) (d : A) (e : expr A) a b,
  allowed e -> a < b ->
  offers_get (transpose_v d (eval e) a b) (swapped d (denote e) a b) /\
  (viter (eval e) = true ->
     forall fuel, Nat.max (length (denote e)) (b + 1) < fuel ->
     walk (transpose_v d (eval e) a b) fuel (vbegin (transpose_v d (eval e) a b))
       = Some (swapped d (denote e) a b)).
Proof.
  intros A d e a b ha _. pose proof (collection_views A e ha) as H. split.
  - now apply transpose_get.
  - intros hi fuel hf. now apply transpose_walk.
Qed.
Print Assumptions transposed_patterns_partial.

Example transposed_patterns_case :
  walk (transpose_v 1 (eval (EVector [4; 5; 6])) 0 1) 9 0 = Some [5; 4; 6] /\
  walk (transpose_v 1 (eval (EVector [4])) 0 2) 9 0 = Some [1; 1; 4].
Proof. split; reflexivity. Qed.

(** A run-time index is added after the exchange instead of before it:
    [begin()[n]], and with it [get_element(v, n)] and [get_pattern(v, n)], read
    entry [b + n] of the original.  For a 4-by-5 object, entry 0 of the
    transposed collection is right and entry 1 is the one-dimensional default
    instead of 4. *)
Theorem transposed_index_refuted :
  (forall (A : Type) (d : A) (e : expr A) b n, allowed e -> viter (eval e) = true ->
     get_dyn (transpose_v d (eval e) 0 b) n = Some (nth (b + n) (denote e) d)) /\
  (exists (e : expr nat) n,
     allowed e /\ n < 2 /\ get_dyn (transpose_v 1 (eval e) 0 1) n <> nth_error (swapped 1 (denote e) 0 1) n).
Proof.
  split.
  - intros A d e b n ha hi. apply transpose_dyn; [now apply collection_views|exact hi].
  - exists (EArray [4; 5]), 1. cbn. repeat split; [lia|discriminate].
Qed.
Print Assumptions transposed_index_refuted.
