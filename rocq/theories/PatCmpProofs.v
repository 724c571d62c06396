(** * Proofs about the comparison of patterns *)
From Coq Require Import List ZArith Bool Lia.
From Verif Require Import CollSpec PatCmpModel PatCmpSpec.
Import ListNotations.
Local Open Scope nat_scope.

Definition token_eqb (x y : token) : bool :=
  match x, y with
  | Axis, Axis => true
  | Code a, Code b => Z.eqb a b
  | _, _ => false
  end.

Lemma token_eqb_eq x y : token_eqb x y = true <-> x = y.
Proof.
  destruct x, y; cbn; try (split; [discriminate|congruence]); [tauto|].
  rewrite Z.eqb_eq. split; congruence.
Qed.

(** The prefix order on finite lists, computed. *)
Fixpoint cmp_tokens (s t : list token) : ordering :=
  match s, t with
  | [], [] => Some Eq
  | [], _ :: _ => Some Lt
  | _ :: _, [] => Some Gt
  | x :: s', y :: t' => if token_eqb x y then cmp_tokens s' t' else None
  end.

Lemma has_fin (l : list token) i : has (finite_seq l) i <-> i < length l.
Proof. unfold has, finite_seq. cbn. tauto. Qed.
Opaque has.

Lemma prefix_cons x y s t :
  prefix (finite_seq (x :: s)) (finite_seq (y :: t)) <-> x = y /\ prefix (finite_seq s) (finite_seq t).
Proof.
  unfold prefix. split.
  - intros h. split.
    + destruct (h 0) as [_ e]; [apply has_fin; cbn; lia|]. exact e.
    + intros i hi. apply has_fin in hi. destruct (h (S i)) as [h1 h2]; [apply has_fin; cbn; lia|].
      apply has_fin in h1. cbn in h1, h2. split; [apply has_fin; lia|exact h2].
  - intros [-> h] i hi. apply has_fin in hi. cbn in hi. destruct i.
    + split; [apply has_fin; cbn; lia|reflexivity].
    + destruct (h i) as [h1 h2]; [apply has_fin; lia|]. apply has_fin in h1.
      split; [apply has_fin; cbn; lia|exact h2].
Qed.

Lemma prefix_nil t : prefix (finite_seq []) t.
Proof. intros i hi. apply has_fin in hi. cbn in hi. lia. Qed.

Lemma not_prefix_nil x s : ~ prefix (finite_seq (x :: s)) (finite_seq []).
Proof.
  intros h. destruct (h 0) as [h1 _]; [apply has_fin; cbn; lia|]. apply has_fin in h1. cbn in h1. lia.
Qed.

Lemma cmp_tokens_ok s : forall t, prefix_answer (cmp_tokens s t) (finite_seq s) (finite_seq t).
Proof.
  induction s as [|x s IH]; intros [|y t]; cbn [cmp_tokens].
  - split; apply prefix_nil.
  - split; [apply prefix_nil|apply not_prefix_nil].
  - split; [apply not_prefix_nil|apply prefix_nil].
  - destruct (token_eqb x y) eqn:E.
    + apply token_eqb_eq in E. subst y. specialize (IH t).
      destruct (cmp_tokens s t) as [[]|]; cbn in *; rewrite !prefix_cons; tauto.
    + assert (x <> y) by (intros h; apply token_eqb_eq in h; congruence).
      cbn. rewrite !prefix_cons. split; intros [h _]; congruence.
Qed.

(** The specification leaves one answer. *)
Lemma prefix_answer_unique r r' s t : prefix_answer r s t -> prefix_answer r' s t -> r = r'.
Proof. destruct r as [[]|], r' as [[]|]; cbn; tauto. Qed.

(** ** Banks *)
Lemma cmp_axes_code m n h k s t :
  cmp_tokens (repeat Axis m ++ Code h :: s) (repeat Axis n ++ Code k :: t) =
  if (m =? n) && (h =? k)%Z then cmp_tokens s t else None.
Proof.
  revert n. induction m; intros [|n]; cbn; try reflexivity. apply IHm.
Qed.

Lemma cmp_axes_nil_r m n h s :
  cmp_tokens (repeat Axis m ++ Code h :: s) (repeat Axis n) = if n <=? m then Some Gt else None.
Proof. revert n. induction m; intros [|n]; cbn; try reflexivity. apply IHm. Qed.

Lemma cmp_axes_nil_l m n h s :
  cmp_tokens (repeat Axis m) (repeat Axis n ++ Code h :: s) = if m <=? n then Some Lt else None.
Proof. revert n. induction m; intros [|n]; cbn; try reflexivity. apply IHm. Qed.

Lemma cmp_axes m n : cmp_tokens (repeat Axis m) (repeat Axis n) = Some (Nat.compare m n).
Proof. revert n. induction m; intros [|n]; cbn; try reflexivity. apply IHm. Qed.

Lemma tokens_cons x l : tokens (x :: l) = tokens1 (the_desc x) ++ tokens l.
Proof. reflexivity. Qed.

Lemma euclid_tokens x : euclidean x = true -> tokens1 (the_desc x) = repeat Axis (dim x).
Proof. unfold euclidean, dim. destruct (the_desc x); cbn; congruence || reflexivity. Qed.

Lemma coord_tokens x : euclidean x = false -> tokens1 (the_desc x) = [Code (code x)].
Proof. unfold euclidean, code. destruct (the_desc x); cbn; congruence || reflexivity. Qed.

Lemma bank_step x n l : euclidean x = true ->
  repeat Axis n ++ tokens (x :: l) = repeat Axis (n + dim x) ++ tokens l.
Proof. intros h. rewrite tokens_cons, euclid_tokens, repeat_app, app_assoc; trivial. Qed.

Lemma compare_impl_ok fuel : forall a b m n, length a + length b < fuel ->
  compare_impl fuel a b m n = cmp_tokens (repeat Axis m ++ tokens a) (repeat Axis n ++ tokens b).
Proof.
  induction fuel; intros a b m n hf; [lia|]. cbn [compare_impl].
  destruct a as [|x a], b as [|y b].
  - cbn. rewrite !app_nil_r. symmetry. apply cmp_axes.
  - destruct (euclidean y) eqn:Ey.
    + rewrite IHfuel by (cbn in *; lia). now rewrite bank_step.
    + rewrite tokens_cons, coord_tokens by trivial. cbn [tokens map concat]. rewrite app_nil_r.
      cbn [app]. symmetry. apply cmp_axes_nil_l.
  - destruct (euclidean x) eqn:Ex.
    + rewrite IHfuel by (cbn in *; lia). now rewrite bank_step.
    + rewrite tokens_cons, coord_tokens by trivial. cbn [tokens map concat]. rewrite app_nil_r.
      cbn [app]. symmetry. apply cmp_axes_nil_r.
  - destruct (euclidean x) eqn:Ex, (euclidean y) eqn:Ey; cbn [orb].
    + rewrite IHfuel by (cbn in *; lia). rewrite (bank_step x), (bank_step y) by trivial. reflexivity.
    + rewrite IHfuel by (cbn in *; lia). rewrite (bank_step x) by trivial. reflexivity.
    + rewrite IHfuel by (cbn in *; lia). rewrite (bank_step y) by trivial. reflexivity.
    + rewrite !tokens_cons, !coord_tokens by trivial. cbn [app]. rewrite cmp_axes_code.
      rewrite andb_comm.
      destruct ((m =? n) && (code x =? code y)%Z); [|reflexivity].
      rewrite IHfuel by (cbn in *; lia). reflexivity.
Qed.

Lemma compare_fixed_impl fuel : forall a b m n, open_kinds a -> open_kinds b ->
  compare_fixed fuel a b m n = compare_impl fuel a b m n.
Proof.
  assert (K : forall x, (is_euclidean (the_desc x) = true -> in_any x = false) ->
     static_euclidean x = euclidean x).
  { intros x h. unfold static_euclidean, euclidean. destruct (is_euclidean (the_desc x)).
    - now rewrite h.
    - apply andb_false_r. }
  induction fuel; intros a b m n ha hb; [reflexivity|]. cbn [compare_fixed compare_impl].
  destruct a as [|x a], b as [|y b]; trivial.
  - inversion hb; subst. rewrite K by trivial. rewrite IHfuel by trivial. reflexivity.
  - inversion ha; subst. rewrite K by trivial. rewrite IHfuel by trivial. reflexivity.
  - inversion ha; inversion hb; subst. rewrite !K by trivial.
    destruct (euclidean x), (euclidean y); cbn [orb]; rewrite IHfuel by trivial; trivial.
    rewrite andb_comm. reflexivity.
Qed.

(** ** Sized collections *)
Lemma static_tokens l : forallb static_euclidean l = true -> tokens l = repeat Axis (total_dim l).
Proof.
  induction l as [|x l IH]; intros h; [reflexivity|]. cbn [forallb] in h.
  apply andb_true_iff in h. destruct h as [h1 h2]. rewrite tokens_cons, IH by trivial.
  unfold static_euclidean in h1. apply andb_true_iff in h1. destruct h1 as [_ h1].
  rewrite euclid_tokens by exact h1. cbn [total_dim fold_right]. rewrite repeat_app. reflexivity.
Qed.

Definition is_coll (p : pattern) : bool := match p with PFix _ | PDyn _ _ => true | _ => false end.

Lemma static_pattern_tokens p : is_coll p = true -> well_typed p -> static_euclidean_pattern p = true ->
  tokens (items p) = repeat Axis (total_dim (items p)).
Proof.
  destruct p as [x|l|b l|x]; cbn; try discriminate; intros _ hw hs.
  - now apply static_tokens.
  - subst b. apply static_tokens. apply forallb_forall. now apply Forall_forall.
Qed.

Lemma void_cmp (a b : list held) : no_void a b -> length a = 0 -> 
  cmp_tokens (tokens a) (tokens b) = if length b =? 0 then Some Eq else Some Lt.
Proof.
  intros [h _] ha. destruct a; [|discriminate]. specialize (h eq_refl). cbn [tokens map concat].
  destruct b as [|y b]; [reflexivity|]. destruct h as [|h]; [discriminate|].
  destruct (tokens (y :: b)); [congruence|]. reflexivity.
Qed.

Lemma void_cmp_r (a b : list held) : no_void a b -> length b = 0 ->
  cmp_tokens (tokens a) (tokens b) = if length a =? 0 then Some Eq else Some Gt.
Proof.
  intros [_ h] hb. destruct b; [|discriminate]. specialize (h eq_refl). cbn [tokens map concat].
  destruct a as [|y a]; [reflexivity|]. destruct h as [|h]; [discriminate|].
  destruct (tokens (y :: a)); [congruence|]. reflexivity.
Qed.

Lemma compare_sized_ok a b :
  is_coll a = true -> is_coll b = true -> well_typed a -> well_typed b ->
  (constant_size a = true -> constant_size b = true -> open_kinds (items a) /\ open_kinds (items b)) ->
  no_void (items a) (items b) ->
  compare_sized a b = cmp_tokens (tokens (items a)) (tokens (items b)).
Proof.
  intros ca cb wa wb hk hv. unfold compare_sized.
  destruct (static_euclidean_pattern a && static_euclidean_pattern b) eqn:S.
  - apply andb_true_iff in S. destruct S as [s1 s2].
    rewrite !static_pattern_tokens by trivial. symmetry. apply cmp_axes.
  - clear S.
    assert (I : compare_impl (enough (items a) (items b)) (items a) (items b) 0 0 =
      cmp_tokens (tokens (items a)) (tokens (items b))).
    { rewrite compare_impl_ok by (unfold enough; lia). reflexivity. }
    assert (A0 := void_cmp _ _ hv). assert (B0 := void_cmp_r _ _ hv).
    destruct (length (items a) =? 0) eqn:Ea; destruct (length (items b) =? 0) eqn:Eb;
      [apply Nat.eqb_eq in Ea, Eb|apply Nat.eqb_eq in Ea|apply Nat.eqb_eq in Eb|].
    + rewrite A0, Ea, Eb by trivial. destruct a as [| | |]; try discriminate ca; destruct b; try discriminate cb; reflexivity.
    + rewrite A0 by trivial. rewrite Ea.
      destruct (length (items b)) eqn:Lb; [discriminate|].
      destruct a as [| | |]; try discriminate ca; destruct b; try discriminate cb; reflexivity.
    + rewrite B0 by trivial. rewrite Eb.
      destruct (length (items a)) eqn:La; [discriminate|].
      destruct a as [| | |]; try discriminate ca; destruct b; try discriminate cb; reflexivity.
    + destruct a as [| | |]; try discriminate ca; destruct b; try discriminate cb; cbn [orb]; trivial.
      destruct (hk eq_refl eq_refl). rewrite compare_fixed_impl by trivial. exact I.
Qed.

(** ** Unbounded collections of coordinates *)
Lemma tokens_repeat_coord x n : euclidean x = false -> tokens (repeat x n) = repeat (Code (code x)) n.
Proof.
  intros h. induction n; [reflexivity|]. cbn [repeat]. rewrite tokens_cons, coord_tokens, IHn by trivial. reflexivity.
Qed.

Lemma expand_inf x : euclidean x = false ->
  expand (PInf x) = mk_seq None (fun i => nth (i mod 1) [Code (code x)] Axis).
Proof. intros h. cbn. rewrite coord_tokens by trivial. reflexivity. Qed.

Lemma inf_item x i : euclidean x = false -> CollSpec.item (expand (PInf x)) i = Code (code x).
Proof. intros h. rewrite expand_inf by trivial. cbn [CollSpec.item]. now rewrite Nat.mod_1_r. Qed.

Lemma inf_has x i : euclidean x = false -> has (expand (PInf x)) i.
Proof. intros h. rewrite expand_inf by trivial. exact I. Qed.

Fixpoint coords (l : list token) : nat :=
  match l with [] => 0 | Axis :: r => coords r | Code _ :: r => S (coords r) end.

Lemma coords_app s t : coords (s ++ t) = coords s + coords t.
Proof. induction s as [|[|h] s IH]; cbn; lia. Qed.

Lemma coords_tokens l : coords (tokens l) <= length l.
Proof.
  induction l as [|x l IH]; [cbn; lia|]. rewrite tokens_cons, coords_app. cbn [length].
  destruct (euclidean x) eqn:E.
  - rewrite euclid_tokens by trivial. replace (coords (repeat Axis (dim x))) with 0; [lia|].
    induction (dim x); cbn; lia.
  - rewrite coord_tokens by trivial. cbn. lia.
Qed.

Lemma nth_repeat_code c n i : i < n -> nth i (repeat (Code c) n) Axis = Code c.
Proof. revert i. induction n; intros i h; [lia|]. destruct i; cbn; [reflexivity|]. apply IHn. lia. Qed.

(** A prefix of a sequence of coordinates is as long as it has coordinates. *)
Lemma prefix_code_len c n s : prefix (finite_seq (repeat (Code c) n)) (finite_seq s) -> n <= coords s.
Proof.
  revert s. induction n; intros s h; [lia|]. destruct s as [|y s].
  - exfalso. exact (not_prefix_nil _ _ h).
  - cbn [repeat] in h. apply prefix_cons in h. destruct h as [<- h]. cbn. apply IHn in h. lia.
Qed.

(** Replacing the infinite sequence by enough copies keeps the answer. *)
Lemma inf_cut x l r : euclidean x = false ->
  prefix_answer r (finite_seq (repeat (Code (code x)) (S (length l)))) (finite_seq (tokens l)) ->
  prefix_answer r (expand (PInf x)) (finite_seq (tokens l)).
Proof.
  intros h.
  assert (N : ~ prefix (finite_seq (repeat (Code (code x)) (S (length l)))) (finite_seq (tokens l))).
  { intros p. apply prefix_code_len in p. pose proof (coords_tokens l). lia. }
  assert (N' : ~ prefix (expand (PInf x)) (finite_seq (tokens l))).
  { intros p. apply N. intros i hi. destruct (p i (inf_has x i h)) as [p1 p2].
    split; [exact p1|]. rewrite inf_item in p2 by trivial. rewrite <- p2.
    apply has_fin in hi. rewrite repeat_length in hi. apply nth_repeat_code. exact hi. }
  assert (P : prefix (finite_seq (tokens l)) (finite_seq (repeat (Code (code x)) (S (length l)))) <->
              prefix (finite_seq (tokens l)) (expand (PInf x))).
  { split; intros p i hi; destruct (p i hi) as [p1 p2].
    - split; [now apply inf_has|]. rewrite inf_item by trivial. rewrite p2.
      apply nth_repeat_code. apply has_fin in p1. rewrite repeat_length in p1. exact p1.
    - assert (L : length (tokens l) <= length l).
      { (* all tokens are coordinates *)
        assert (A : forall j, j < length (tokens l) -> nth j (tokens l) Axis = Code (code x)).
        { intros j hj. destruct (p j) as [_ q]; [now apply has_fin|]. rewrite inf_item in q by trivial. exact q. }
        rewrite <- (coords_tokens l). clear - A. revert A. generalize (tokens l) as s.
        induction s as [|y s IH]; intros A; [cbn; lia|].
        pose proof (A 0 ltac:(cbn; lia)) as A0. cbn in A0. subst y. cbn.
        assert (length s <= coords s); [|lia]. apply IH. intros j hj. apply (A (S j)). cbn. lia. }
      apply has_fin in hi.
      split; [apply has_fin; rewrite repeat_length; lia|]. rewrite p2, inf_item by trivial.
      symmetry. apply nth_repeat_code. lia. }
  destruct r as [[]|]; cbn [prefix_answer]; rewrite <- ?P; tauto.
Qed.

Lemma prefix_answer_flip r s t : prefix_answer r s t -> prefix_answer (option_map CompOpp r) t s.
Proof. destruct r as [[]|]; cbn; tauto. Qed.

Lemma items_as p : items (as_collection p) = items p.
Proof. destruct p; reflexivity. Qed.

Lemma as_collection_coll p : (forall x, p <> PInf x) -> is_coll (as_collection p) = true.
Proof. destruct p; cbn; trivial. intros h. now destruct (h x). Qed.

Lemma as_typed p : well_typed p -> well_typed (as_collection p).
Proof. destruct p; trivial. Qed.

Lemma as_constant p : constant_size (as_collection p) = constant_size p.
Proof. destruct p; reflexivity. Qed.

Lemma not_zero x : euclidean x = false -> constant_zero x = false.
Proof.
  unfold euclidean, constant_zero, dim. destruct (the_desc x); cbn; intros; try discriminate; now rewrite andb_false_r.
Qed.

Lemma cut_ok x p : euclidean x = false ->
  is_coll (cut x p) = true /\ well_typed (cut x p) /\ items (cut x p) = repeat x (S (length (items p))) /\
  open_kinds (items (cut x p)).
Proof.
  intros h. assert (S : static_euclidean x = false).
  { unfold static_euclidean. unfold euclidean in h. rewrite h. apply andb_false_r. }
  assert (O : open_kinds (repeat x (Datatypes.S (length (items p))))).
  { apply Forall_forall. intros y hy. apply repeat_spec in hy. subst y. unfold euclidean in h. congruence. }
  unfold cut. destruct p as [y|l|b l|y]; cbn [items is_coll well_typed]; repeat split; trivial; rewrite S;
    cbn [well_typed]; apply Forall_forall; intros y' hy; apply repeat_spec in hy; now subst y'.
Qed.

Lemma void_right (a b : list held) : (a = [] -> b = [] \/ tokens b <> []) -> b <> [] -> no_void a b.
Proof. intros h hb. split; [exact h|congruence]. Qed.

Theorem compare_ok a b : well_typed a -> well_typed b -> regular a b ->
  prefix_answer (compare_three_way a b) (expand a) (expand b).
Proof.
  intros wa wb hr.
  assert (SZ : forall a b, (forall x, a <> PInf x) -> (forall x, b <> PInf x) -> well_typed a -> well_typed b ->
    (constant_size a = true -> constant_size b = true -> open_kinds (items a) /\ open_kinds (items b)) ->
    no_void (items a) (items b) ->
    prefix_answer (compare_sized (as_collection a) (as_collection b))
      (finite_seq (tokens (items a))) (finite_seq (tokens (items b)))).
  { intros p q hp hq wp wq hk hv. rewrite compare_sized_ok; rewrite ?items_as, ?as_constant; trivial;
      auto using as_collection_coll, as_typed. apply cmp_tokens_ok. }
  assert (INF : forall x p, (forall y, p <> PInf y) -> well_typed p -> euclidean x = false ->
     (constant_size p = true -> open_kinds (items p)) ->
     prefix_answer (compare_sized (cut x p) (as_collection p)) (expand (PInf x)) (finite_seq (tokens (items p))) /\
     prefix_answer (compare_sized (as_collection p) (cut x p)) (finite_seq (tokens (items p))) (expand (PInf x))).
  { intros x p hp wp hx hk. destruct (cut_ok x p hx) as (c1 & c2 & c3 & c4).
    assert (T : tokens (items (cut x p)) = repeat (Code (code x)) (S (length (items p)))).
    { rewrite c3. now apply tokens_repeat_coord. }
    assert (NV : items (cut x p) <> []) by (rewrite c3; discriminate).
    assert (NT : tokens (items (cut x p)) <> []) by (rewrite T; discriminate).
    split.
    - apply inf_cut; [exact hx|]. rewrite <- T. rewrite compare_sized_ok.
      + rewrite items_as. apply cmp_tokens_ok.
      + exact c1.
      + now apply as_collection_coll.
      + exact c2.
      + now apply as_typed.
      + rewrite as_constant, items_as. auto.
      + rewrite items_as. split; [congruence|auto].
    - apply (prefix_answer_flip (option_map CompOpp (compare_sized (as_collection p) (cut x p))) (expand (PInf x))) ||
      idtac.
      assert (F : prefix_answer (option_map CompOpp (compare_sized (as_collection p) (cut x p)))
         (expand (PInf x)) (finite_seq (tokens (items p)))).
      { apply inf_cut; [exact hx|]. rewrite <- T. apply prefix_answer_flip. rewrite compare_sized_ok.
        + rewrite items_as. apply cmp_tokens_ok.
        + now apply as_collection_coll.
        + exact c1.
        + now apply as_typed.
        + exact c2.
        + rewrite as_constant, items_as. auto.
        + rewrite items_as. split; [auto|congruence]. }
      apply prefix_answer_flip in F.
      destruct (compare_sized (as_collection p) (cut x p)) as [[]|]; exact F. }
  destruct a as [x|la|ea la|x], b as [y|lb|eb lb|y]; cbn [regular] in hr; cbn [compare_three_way].
  - (* two descriptors *)
    cbn [expand items tokens map concat]. rewrite !app_nil_r. unfold compare_desc.
    destruct (euclidean x) eqn:Ex, (euclidean y) eqn:Ey; cbn [andb].
    + rewrite !euclid_tokens by trivial. unfold nat_order. rewrite <- cmp_axes. apply cmp_tokens_ok.
    + unfold euclidean in Ex, Ey. destruct hr as [hr|(h1 & h2 & h3)]; [congruence|].
      unfold code. destruct (Z.eqb_spec (hash (the_desc x)) (hash (the_desc y))) as [e|_]; [congruence|].
      rewrite euclid_tokens, coord_tokens by trivial. fold (dim x) in h1.
      destruct (dim x) as [|n] eqn:Dx; [lia|].
      exact (cmp_tokens_ok (repeat Axis (S n)) [Code (code y)]).
    + unfold euclidean in Ex, Ey. destruct hr as [hr|(h1 & h2 & h3)]; [congruence|].
      unfold code. destruct (Z.eqb_spec (hash (the_desc x)) (hash (the_desc y))) as [e|_]; [congruence|].
      rewrite (euclid_tokens y), coord_tokens by trivial. fold (dim y) in h2.
      destruct (dim y) as [|n] eqn:Dy; [lia|].
      exact (cmp_tokens_ok [Code (code x)] (repeat Axis (S n))).
    + rewrite !coord_tokens by trivial.
      exact (cmp_tokens_ok [Code (code x)] [Code (code y)]).
  - destruct hr as [h1 h2]. apply (SZ (PDesc x) (PFix lb)); trivial; discriminate.
  - destruct hr as [h1 h2]. apply (SZ (PDesc x) (PDyn eb lb)); trivial; discriminate.
  - destruct hr as [h1 h2]. rewrite not_zero by exact h1.
    apply (INF y (PDesc x)); trivial; discriminate.
  - destruct hr as [h1 h2]. apply (SZ (PFix la) (PDesc y)); trivial; discriminate.
  - destruct hr as [h1 h2]. apply (SZ (PFix la) (PFix lb)); trivial; discriminate.
  - destruct hr as [h1 h2]. apply (SZ (PFix la) (PDyn eb lb)); trivial; discriminate.
  - destruct hr as [h1 h2]. rewrite not_zero by exact h1.
    apply (INF y (PFix la)); trivial; discriminate.
  - destruct hr as [h1 h2]. apply (SZ (PDyn ea la) (PDesc y)); trivial; discriminate.
  - destruct hr as [h1 h2]. apply (SZ (PDyn ea la) (PFix lb)); trivial; discriminate.
  - destruct hr as [h1 h2]. apply (SZ (PDyn ea la) (PDyn eb lb)); trivial; discriminate.
  - destruct hr as [h1 h2]. rewrite not_zero by exact h1.
    apply (INF y (PDyn ea la)); trivial; discriminate.
  - destruct hr as [h1 h2]. rewrite not_zero by exact h1.
    apply (INF x (PDesc y)); trivial; discriminate.
  - destruct hr as [h1 h2]. rewrite not_zero by exact h1.
    apply (INF x (PFix lb)); trivial; discriminate.
  - destruct hr as [h1 h2]. rewrite not_zero by exact h1.
    apply (INF x (PDyn eb lb)); trivial; discriminate.
  - destruct hr as (h1 & h2 & h3 & h4 & h5 & h6). unfold compare_unbounded.
    rewrite !not_zero by trivial. rewrite h3, h4, h5, h6. cbn [negb andb].
    assert (Q : forall c d, euclidean c = false -> euclidean d = false ->
      (prefix (expand (PInf c)) (expand (PInf d)) <-> code c = code d)).
    { intros c d hc hd. split.
      - intros p. destruct (p 0 (inf_has c 0 hc)) as [_ q]. rewrite !inf_item in q by trivial. congruence.
      - intros e i _. split; [now apply inf_has|]. rewrite !inf_item by trivial. congruence. }
    destruct (Z.eqb_spec (code x) (code y)) as [e|e]; cbn [prefix_answer]; rewrite !Q by trivial; split; congruence.
Qed.

(** ** Facts that hold for all patterns *)

Lemma nat_order_flip m n : nat_order n m = option_map CompOpp (nat_order m n).
Proof. unfold nat_order. cbn. now rewrite <- Nat.compare_antisym. Qed.

Lemma compare_fixed_flip fuel : forall a b m n,
  compare_fixed fuel b a n m = option_map CompOpp (compare_fixed fuel a b m n).
Proof.
  induction fuel; intros a b m n; [reflexivity|]. cbn [compare_fixed].
  destruct a as [|x a], b as [|y b].
  - apply nat_order_flip.
  - destruct (static_euclidean y); [apply IHfuel|]. destruct (m <=? n); reflexivity.
  - destruct (static_euclidean x); [apply IHfuel|]. destruct (n <=? m); reflexivity.
  - destruct (static_euclidean x), (static_euclidean y); try apply IHfuel.
    rewrite (Nat.eqb_sym n m), (Z.eqb_sym (code y)).
    destruct ((m =? n) && (code x =? code y)%Z); [apply IHfuel|reflexivity].
Qed.

Lemma compare_impl_flip fuel : forall a b m n,
  compare_impl fuel b a n m = option_map CompOpp (compare_impl fuel a b m n).
Proof.
  induction fuel; intros a b m n; [reflexivity|]. cbn [compare_impl].
  destruct a as [|x a], b as [|y b].
  - apply nat_order_flip.
  - destruct (euclidean y); [apply IHfuel|]. destruct (m <=? n); reflexivity.
  - destruct (euclidean x); [apply IHfuel|]. destruct (n <=? m); reflexivity.
  - rewrite orb_comm. destruct (euclidean x || euclidean y); [apply IHfuel|].
    rewrite (Nat.eqb_sym n m), (Z.eqb_sym (code y)).
    destruct ((code x =? code y)%Z && (m =? n)); [apply IHfuel|reflexivity].
Qed.

Lemma enough_sym a b : enough b a = enough a b.
Proof. unfold enough. f_equal. lia. Qed.

Lemma compare_sized_flip a b : compare_sized b a = option_map CompOpp (compare_sized a b).
Proof.
  unfold compare_sized. rewrite andb_comm.
  destruct (static_euclidean_pattern a && static_euclidean_pattern b); [apply nat_order_flip|].
  rewrite (enough_sym (items a) (items b)).
  destruct a as [x|la|ea la|x], b as [y|lb|eb lb|y]; cbn [items];
    repeat match goal with
    | |- context [length ?l =? 0] => destruct (length l) eqn:?; cbn [Nat.eqb orb]
    end; try reflexivity; try (apply nat_order_flip);
    try (apply compare_fixed_flip); try (apply compare_impl_flip).
Qed.

Theorem compare_flip a b : compare_three_way b a = option_map CompOpp (compare_three_way a b).
Proof.
  assert (D : forall x y, compare_desc y x = option_map CompOpp (compare_desc x y)).
  { intros x y. unfold compare_desc. rewrite andb_comm, (Z.eqb_sym (code y)).
    destruct (euclidean x && euclidean y); [apply nat_order_flip|].
    destruct (code x =? code y)%Z; reflexivity. }
  destruct a as [x|la|ea la|x], b as [y|lb|eb lb|y]; cbn [compare_three_way];
    try apply D; try apply compare_sized_flip;
    try (destruct (constant_zero _); apply compare_sized_flip).
  unfold compare_unbounded.
  destruct (constant_zero x), (constant_zero y); try reflexivity; try apply compare_sized_flip.
  rewrite andb_comm, (Z.eqb_sym (code y)).
  destruct (negb (in_any x) && constant x && (negb (in_any y) && constant y)); [|reflexivity].
  destruct (code x =? code y)%Z; reflexivity.
Qed.

Lemma compare_fixed_refl fuel : forall l n, length l < fuel -> compare_fixed fuel l l n n = Some Eq.
Proof.
  induction fuel; intros l n h; [lia|]. cbn [compare_fixed]. destruct l as [|x l].
  - unfold nat_order. now rewrite Nat.compare_refl.
  - cbn in h. destruct (static_euclidean x).
    + apply IHfuel. lia.
    + rewrite Nat.eqb_refl, Z.eqb_refl. apply IHfuel. lia.
Qed.

Lemma compare_impl_refl fuel : forall l n, length l < fuel -> compare_impl fuel l l n n = Some Eq.
Proof.
  induction fuel; intros l n h; [lia|]. cbn [compare_impl]. destruct l as [|x l].
  - unfold nat_order. now rewrite Nat.compare_refl.
  - cbn in h. destruct (euclidean x); cbn [orb].
    + apply IHfuel. lia.
    + rewrite Nat.eqb_refl, Z.eqb_refl. apply IHfuel. lia.
Qed.

Theorem compare_refl p : (forall x, p <> PInf x) -> compare_three_way p p = Some Eq.
Proof.
  intros hp.
  assert (S : forall q, is_coll q = true -> compare_sized q q = Some Eq).
  { intros q hq. unfold compare_sized.
    destruct (static_euclidean_pattern q && static_euclidean_pattern q); [unfold nat_order; now rewrite Nat.compare_refl|].
    destruct q as [x|l|e l|x]; try discriminate; cbn [items];
      destruct (length l =? 0) eqn:E; cbn [orb]; try reflexivity.
    - unfold nat_order; now rewrite Nat.compare_refl.
    - apply compare_fixed_refl. unfold enough. lia.
    - apply compare_impl_refl. unfold enough. lia. }
  destruct p as [x|l|e l|x]; cbn [compare_three_way].
  - unfold compare_desc. rewrite Z.eqb_refl. unfold nat_order. rewrite Nat.compare_refl.
    destruct (euclidean x && euclidean x); reflexivity.
  - now apply S.
  - now apply S.
  - now destruct (hp x).
Qed.

Lemma prefix_trans s t u : prefix s t -> prefix t u -> prefix s u.
Proof. intros h k i hi. destruct (h i hi) as [h1 h2]. destruct (k i h1) as [k1 k2]. split; congruence. Qed.

(** ** Pattern collections *)
Lemma nth_nil (i : nat) : nth i (@nil pattern) one_dim = one_dim.
Proof. destruct i; reflexivity. Qed.

Lemma a_tail_ok comp l : a_tail comp l = true <->
  forall i, i < length l -> compare comp (nth i l one_dim) one_dim = true.
Proof.
  induction l as [|x l IH]; cbn [a_tail]; [split; [intros _ i hi; cbn in hi; lia|trivial]|].
  rewrite andb_true_iff, IH. split.
  - intros [h1 h2] [|i] hi; [exact h1|]. apply h2. cbn in hi. lia.
  - intros h. split; [apply (h 0); cbn; lia|]. intros i hi. apply (h (S i)). cbn. lia.
Qed.

Lemma b_tail_ok comp l : b_tail comp l = true <->
  forall i, i < length l -> compare comp one_dim (nth i l one_dim) = true.
Proof.
  induction l as [|x l IH]; cbn [b_tail]; [split; [intros _ i hi; cbn in hi; lia|trivial]|].
  rewrite andb_true_iff, IH. split.
  - intros [h1 h2] [|i] hi; [exact h1|]. apply h2. cbn in hi. lia.
  - intros h. split; [apply (h 0); cbn; lia|]. intros i hi. apply (h (S i)). cbn. lia.
Qed.

Lemma iter_ok comp a : forall b, collections_iter comp a b = true <->
  forall i, i < Nat.max (length a) (length b) ->
    compare comp (nth i a one_dim) (nth i b one_dim) = true.
Proof.
  induction a as [|x a IH]; intros [|y b].
  - cbn. split; [intros _ i hi; lia|trivial].
  - cbn [collections_iter]. rewrite b_tail_ok. cbn [length Nat.max]. split; intros h i hi; specialize (h i hi); revert h; rewrite nth_nil; trivial.
  - cbn [collections_iter]. rewrite a_tail_ok. cbn [length]. rewrite Nat.max_0_r.
    split; intros h i hi; specialize (h i hi); revert h; rewrite nth_nil; trivial.
  - cbn [collections_iter]. rewrite andb_true_iff, IH. split.
    + intros [h1 h2] [|i] hi; [exact h1|]. apply h2. cbn in hi. lia.
    + intros h. split; [apply (h 0); cbn; lia|]. intros i hi. apply (h (S i)). cbn. lia.
Qed.

Lemma a_tail_forallb comp l : a_tail comp l = forallb (fun x => compare comp x one_dim) l.
Proof. induction l; cbn; congruence. Qed.

Lemma b_tail_forallb comp l : b_tail comp l = forallb (fun y => compare comp one_dim y) l.
Proof. induction l; cbn; congruence. Qed.

Lemma loop_iter comp a : forall b, collections_loop comp a b = collections_iter comp a b.
Proof.
  unfold collections_loop. induction a as [|x a IH]; intros [|y b].
  - reflexivity.
  - cbn [common_loop collections_iter forallb]. now rewrite b_tail_forallb.
  - cbn [common_loop collections_iter]. rewrite a_tail_forallb. cbn [forallb].
    destruct (compare comp x one_dim && forallb _ a); reflexivity.
  - cbn [common_loop collections_iter]. destruct (compare comp x y); [|reflexivity]. cbn [andb]. apply IH.
Qed.

Lemma collections_ok comp dyn a b : compare_pattern_collections comp dyn a b = true <->
  forall i, i < Nat.max (length a) (length b) ->
    compare comp (nth i a one_dim) (nth i b one_dim) = true.
Proof. unfold compare_pattern_collections. destruct dyn; rewrite ?loop_iter; apply iter_ok. Qed.

Lemma same_prefix s t : same s t <-> prefix s t /\ prefix t s.
Proof.
  split.
  - intros h. split; intros i hi; destruct (h i) as [h1 h2].
    + split; [now apply h1|now apply h2].
    + apply h1 in hi. split; [exact hi|symmetry; now apply h2].
  - intros [h k] i. split; [split; intros hi; [now apply h|now apply k]|]. intros hi. now apply h.
Qed.

Lemma plain_regular a b : plain a -> plain b -> regular a b.
Proof.
  destruct a as [x|la|ea la|x], b as [y|lb|eb lb|y]; cbn [plain regular]; try tauto;
    intros [h1 h2] [k1 k2]; (split; [tauto|split; intros; cbn [items] in *; tauto]).
Qed.

Lemma place_nth l i : place l i = nth i l one_dim.
Proof.
  unfold place. destruct (Nat.ltb_spec i (length l)); [reflexivity|]. now rewrite nth_overflow.
Qed.

Lemma collections_place comp dyn a b : compare_pattern_collections comp dyn a b = true <->
  forall i, i < Nat.max (length a) (length b) -> compare comp (place a i) (place b i) = true.
Proof.
  rewrite collections_ok. split; intros h i hi; specialize (h i hi); rewrite ?place_nth in *; exact h.
Qed.

Lemma one_one comp : comp (Some Eq) = true -> compare comp one_dim one_dim = true.
Proof. trivial. Qed.

Lemma collections_place_all comp dyn a b : comp (Some Eq) = true ->
  compare_pattern_collections comp dyn a b = true <->
  forall i, compare comp (place a i) (place b i) = true.
Proof.
  intros hc. rewrite collections_place. split; [|auto]. intros h i.
  destruct (Nat.lt_ge_cases i (Nat.max (length a) (length b))) as [hi|hi]; [auto|].
  rewrite !place_nth, !nth_overflow by lia. now apply one_one.
Qed.

Lemma place_pad a k i : place (a ++ repeat one_dim k) i = place a i.
Proof.
  rewrite !place_nth. destruct (Nat.lt_ge_cases i (length a)).
  - now rewrite app_nth1.
  - rewrite app_nth2, (nth_overflow a) by lia. generalize (i - length a) as j. clear.
    induction k; intros [|j]; cbn; trivial.
Qed.

(** The hash code of an inclination with a small limit. *)
Definition incl_ok (n : nat) : bool :=
  (inclination_hash (Z.of_nat n) =? 0x8CE6267E341642F7 + 256 * Z.of_nat n * Z.of_nat n)%Z.

Lemma incl_table : forallb incl_ok (seq 0 4097) = true.
Proof. vm_compute. reflexivity. Qed.

Lemma incl_value d : (0 <= d <= 4096)%Z -> inclination_hash d = (0x8CE6267E341642F7 + 256 * d * d)%Z.
Proof.
  intros h. pose proof (proj1 (forallb_forall _ _) incl_table (Z.to_nat d)) as t.
  assert (i : In (Z.to_nat d) (seq 0 4097)) by (apply in_seq; lia).
  apply t in i. unfold incl_ok in i. rewrite Z2Nat.id in i by lia. now apply Z.eqb_eq in i.
Qed.
