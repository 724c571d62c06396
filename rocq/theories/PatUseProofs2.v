From Coq Require Import List ZArith Bool Lia.
From Verif Require Import PatCmpModel PatCmpSpec PatCmpProofs PatStaticModel PatStaticSpec PatStaticProofs PatUseModel PatUseSpec PatUseProofs.
Import ListNotations.
Local Open Scope nat_scope.

(** ** Descriptors *)
Lemma same_desc_eq x y : the_desc x = the_desc y -> desc_compare cmp_eq x y = true.
Proof.
  intro e. unfold desc_compare, compare. cbn. unfold compare_desc, euclidean, code, dim. rewrite e.
  rewrite Z.eqb_refl. destruct (is_euclidean (the_desc y)); trivial. cbn. unfold nat_order. now rewrite Nat.compare_refl.
Qed.

Lemma desc_eq_same l x y : no_clash l -> In (the_desc x) l -> In (the_desc y) l ->
  desc_compare cmp_eq x y = true -> the_desc x = the_desc y.
Proof.
  intros c hx hy. unfold desc_compare, compare. cbn. unfold compare_desc, euclidean, code, dim.
  destruct (is_euclidean (the_desc x) && is_euclidean (the_desc y)) eqn:q.
  - apply andb_prop in q as [a b]. destruct (the_desc x), (the_desc y); try discriminate. cbn. unfold nat_order.
    destruct (Nat.compare_spec n n0); try discriminate. now subst.
  - destruct (Z.eqb_spec (hash (the_desc x)) (hash (the_desc y))); [|discriminate]. intros _. now apply c.
Qed.

Lemma neq_not_eq x y : desc_compare cmp_neq x y = negb (desc_compare cmp_eq x y).
Proof. unfold desc_compare, compare. destruct (compare_three_way _ _) as [[| |]|]; reflexivity. Qed.

Lemma euclid_one d : is_euclidean d = true -> dimension d = 1 -> d = Dim 1.
Proof. destruct d; cbn; try discriminate. intros _ ->. reflexivity. Qed.

Lemma elt_zero e x : of_elt e x -> elt_dim e = 0%Z -> dimension (the_desc x) = 0.
Proof. destruct e; cbn; intros h z; try discriminate. subst x. cbn. lia. Qed.

Lemma elt_one e : elt_dim e = 1%Z -> exists d, e = Known d /\ dimension d = 1.
Proof. destruct e as [d| |]; cbn; intro h; try discriminate. exists d. split; trivial. lia. Qed.

Lemma elt_euclid e x : of_elt e x -> elt_euclidean e = true -> is_euclidean (the_desc x) = true.
Proof.
  destruct e; cbn; intros h z; try discriminate.
  - now subst x.
  - destruct h as [n ->]. reflexivity.
Qed.

Lemma items_typed t p : of_type t p -> Forall (fun x => exists e, In e (elts t) /\ of_elt e x) (items p).
Proof.
  destruct t as [e|l|e], p as [x|xs|b xs|x]; cbn; try contradiction.
  - intro h. repeat constructor. exists e. split; trivial. now left.
  - intro h. induction h as [|e x l xs he _ IH]; constructor.
    + exists e. split; trivial. now left.
    + revert IH. apply Forall_impl. intros y (f & hf & hy). exists f. split; trivial. now right.
  - intros [_ h]. revert h. apply Forall_impl. intros y hy. exists e. split; trivial. now left.
Qed.

Lemma type_euclid_items t p : of_type t p -> type_euclidean t = true ->
  Forall (fun x => is_euclidean (the_desc x) = true) (items p).
Proof.
  intros h e. pose proof (items_typed t p h) as k. revert k. apply Forall_impl. intros x (f & hf & hx).
  apply (elt_euclid f); trivial. destruct t as [g|l|g]; cbn in *.
  - destruct hf as [<-|[]]. exact e.
  - rewrite forallb_forall in e. now apply e.
  - destruct hf as [<-|[]]. exact e.
Qed.

(** ** Common types *)
Lemma iter_known : forall fuel l d, common_iter fuel l = Some (Known d) -> Forall (fun e => e = Known d \/ elt_dim e = 0%Z) l.
Proof.
  induction fuel as [|k IH]; intros l d; [discriminate|]. destruct l as [|x [|y r]]; cbn [common_iter].
  - discriminate.
  - intros [= ->]. repeat constructor.
  - destruct (Z.eqb_spec (elt_dim x) 0) as [hx|hx], (Z.eqb_spec (elt_dim y) 0) as [hy|hy]; cbn [andb]; intro e; apply IH in e.
    + constructor; [now right|]. constructor; [now right|]. exact e.
    + constructor; [now right|]. exact e.
    + inversion e as [|? ? h1 h2]; subst. constructor; [exact h1|]. constructor; [now right|]. exact h2.
    + inversion e as [|? ? h hr]; subst. destruct h as [h|h].
      * apply common_elt_known in h as [-> ->]. constructor; [now left|]. constructor; [now left|]. exact hr.
      * exfalso. destruct x as [a| |], y as [b| |]; cbn in h; try discriminate; try (apply hx; reflexivity).
        { destruct (desc_eq_dec a b); [apply hx; exact h|]. destruct (_ && _); discriminate. }
        { destruct (is_euclidean a); discriminate. }
        { destruct (is_euclidean b); discriminate. }
Qed.

Lemma common_nonzero x y : elt_dim x <> 0%Z -> elt_dim y <> 0%Z -> elt_dim (common_elt x y) <> 0%Z.
Proof.
  destruct x as [a| |], y as [b| |]; cbn; intros hx hy; try discriminate.
  - destruct (desc_eq_dec a b); trivial. destruct (_ && _); discriminate.
  - destruct (is_euclidean a); discriminate.
  - destruct (is_euclidean b); discriminate.
Qed.

Lemma iter_fold : forall fuel l x, length l < fuel -> Forall (fun e => elt_dim e <> 0%Z) (x :: l) ->
  common_iter fuel (x :: l) = Some (fold_left common_elt l x).
Proof.
  induction fuel as [|k IH]; intros l x h f; [lia|]. destruct l as [|y r]; [reflexivity|].
  inversion f as [|? ? fx f']; subst. inversion f' as [|? ? fy f'']; subst.
  cbn [common_iter fold_left]. apply Z.eqb_neq in fx as ex. apply Z.eqb_neq in fy as ey. rewrite ex, ey. cbn [andb].
  apply IH; [cbn in h; lia|]. constructor; trivial. now apply common_nonzero.
Qed.

Lemma fold_euclid l : forall x, elt_euclidean (fold_left common_elt l x) = forallb elt_euclidean (x :: l).
Proof.
  induction l as [|y r IH]; intros x; [cbn; now rewrite andb_true_r|]. cbn [fold_left]. rewrite IH. cbn.
  replace (elt_euclidean (common_elt x y)) with (elt_euclidean x && elt_euclidean y); [now rewrite andb_assoc|].
  destruct x as [a| |], y as [b| |]; cbn; trivial.
  - destruct (desc_eq_dec a b) as [->|]; [cbn; now rewrite andb_diag|]. destruct (is_euclidean a && is_euclidean b); reflexivity.
  - destruct (is_euclidean a); reflexivity.
  - now rewrite andb_false_r.
  - destruct (is_euclidean b); reflexivity.
Qed.

Lemma fold_known l : forall x d, fold_left common_elt l x = Known d -> Forall (fun e => e = Known d) (x :: l).
Proof.
  induction l as [|y r IH]; intros x d e; [cbn in e; subst x; repeat constructor|].
  cbn [fold_left] in e. apply IH in e. inversion e as [|? ? h hr]; subst.
  apply common_elt_known in h as [-> ->]. repeat constructor; trivial.
Qed.

Definition kin (k : desc) (e : elt) : Prop := e = Known k \/ e = AnyDesc.

Lemma common_kin k x y : kin k x -> kin k y -> kin k (common_elt x y).
Proof.
  intros [->| ->] [->| ->]; cbn; try (now right). destruct (desc_eq_dec k k); [now left|contradiction].
Qed.

Lemma fold_kin k l : forall x, Forall (kin k) (x :: l) -> kin k (fold_left common_elt l x).
Proof.
  induction l as [|y r IH]; intros x f; inversion f as [|? ? fx f']; subst; [exact fx|].
  inversion f' as [|? ? fy f'']; subst. cbn [fold_left]. apply IH. constructor; trivial. now apply common_kin.
Qed.

(** ** get_uniform_pattern_component *)
Lemma adjacent_same l : no_clash (map the_desc l) -> no_adjacent (desc_compare cmp_neq) l = true ->
  forall x r, l = x :: r -> Forall (fun y => the_desc y = the_desc x) r.
Proof.
  induction l as [|a l IH]; intros c h x r e; [discriminate|]. injection e as -> ->.
  destruct r as [|y s]; [constructor|]. cbn [no_adjacent] in h. apply andb_prop in h as [h1 h2].
  rewrite neq_not_eq, negb_involutive in h1.
  assert (E : the_desc x = the_desc y).
  { apply (desc_eq_same (map the_desc (x :: y :: s))); trivial; [now left|right; now left]. }
  constructor; [now symmetry|].
  assert (c' : no_clash (map the_desc (y :: s))).
  { intros u v hu hv. apply c; now right. }
  pose proof (IH c' h2 y s eq_refl) as k. revert k. apply Forall_impl. intros z hz. congruence.
Qed.

Lemma same_adjacent k l : Forall (fun y => the_desc y = k) l -> no_adjacent (desc_compare cmp_neq) l = true.
Proof.
  induction 1 as [|x l hx h IH]; trivial. destruct l as [|y r]; trivial.
  change (negb (desc_compare cmp_neq x y) && no_adjacent (desc_compare cmp_neq) (y :: r) = true).
  rewrite IH, neq_not_eq, negb_involutive, andb_true_r.
  inversion h as [|? ? hy _]; subst. apply same_desc_eq. now symmetry.
Qed.

Lemma uniform_euclid p : Forall (fun x => is_euclidean (the_desc x) = true) (items p) -> uniform_by (Dim 1) p.
Proof.
  intro h. split; trivial. revert h. apply Forall_impl. intros x hx. right. right. now split.
Qed.

Lemma euclid_forall l : forallb euclidean l = true -> Forall (fun x => is_euclidean (the_desc x) = true) l.
Proof. intro h. rewrite forallb_forall in h. now apply Forall_forall. Qed.

Lemma common_desc_known t p d : of_type t p -> type_euclidean t = false -> common_descriptor t = Some (Known d) ->
  Forall (fun x => dimension (the_desc x) = 0 \/ the_desc x = d) (items p).
Proof.
  intros h e. unfold common_descriptor. rewrite e. intro c.
  pose proof (items_typed t p h) as k. revert k. apply Forall_impl. intros x (f & hf & hx).
  destruct t as [g|l|g]; cbn in hf.
  - destruct hf as [<-|[]]. injection c as ->. cbn in hx. subst x. now right.
  - apply iter_known in c. rewrite Forall_forall in c. destruct (c f hf) as [->|z].
    + cbn in hx. subst x. now right.
    + left. now apply (elt_zero f).
  - destruct hf as [<-|[]]. injection c as ->. cbn in hx. subst x. now right.
Qed.

Lemma known_uniform p d : dimension d = 1 -> Forall (fun x => dimension (the_desc x) = 0 \/ the_desc x = d) (items p) ->
  uniform_by d p.
Proof. intros h f. split; trivial. revert f. apply Forall_impl. intros x [a|a]; [now left|right; now left]. Qed.

Lemma all_same_uniform x r p : items p = x :: r -> Forall (fun y => the_desc y = the_desc x) r ->
  dimension (the_desc x) = 1 -> uniform_by (the_desc x) p.
Proof.
  intros e f h. split; trivial. rewrite e. constructor; [right; now left|].
  revert f. apply Forall_impl. intros y hy. right. now left.
Qed.

Lemma get_uniform_sound t p c : of_type t p -> no_clash (descs p) -> get_uniform_component t p = Some c ->
  dimension c = 1 -> uniform_by c p.
Proof.
  intros h nc. unfold get_uniform_component. destruct (type_euclidean t) eqn:e.
  - intros [= <-] _. apply uniform_euclid. now apply (type_euclid_items t).
  - assert (TUP : forall d, equal_tuple_elements (items p) = Some d -> dimension d = 1 -> uniform_by d p).
    { intros d. unfold equal_tuple_elements. destruct (items p) as [|x r] eqn:i; [discriminate|].
      destruct (forallb (desc_compare cmp_eq x) r) eqn:a; [|discriminate]. intros [= <-] h1.
      apply (all_same_uniform x r p); trivial. rewrite forallb_forall in a. apply Forall_forall. intros y hy.
      symmetry. apply (desc_eq_same (descs p)); trivial; [| |now apply a].
      - unfold descs. rewrite i. now left.
      - unfold descs. rewrite i. right. now apply in_map. }
    destruct t as [f|l|f].
    + destruct (Z.eqb_spec (elt_dim f) 1) as [q|q]; [|discriminate]. apply elt_one in q as (d & -> & hd).
      destruct p as [x|xs|b xs|x]; cbn in h; try contradiction. subst x. cbn. intros [= <-] _.
      apply known_uniform; trivial. constructor; [now right|constructor].
    + destruct (common_descriptor (STup l)) as [g|] eqn:cd; [|discriminate].
      destruct (Z.eqb_spec (elt_dim g) 1) as [q|q].
      * apply elt_one in q as (d & -> & hd). intros [= <-] _. apply known_uniform; trivial.
        now apply (common_desc_known (STup l)).
      * destruct (negb (elt_dim g =? dyn)%Z); [discriminate|]. apply TUP.
    + destruct (common_descriptor (SVec f)) as [g|] eqn:cd; [|discriminate].
      destruct (Z.eqb_spec (elt_dim g) 1) as [q|q].
      * apply elt_one in q as (d & -> & hd). intros [= <-] _. apply known_uniform; trivial.
        now apply (common_desc_known (SVec f)).
      * destruct (negb (elt_dim g =? dyn)%Z); [discriminate|].
        destruct (forallb euclidean (items p)) eqn:ae.
        { intros [= <-] _. apply uniform_euclid. now apply euclid_forall. }
        destruct (no_adjacent (desc_compare cmp_neq) (items p)) eqn:na; [|discriminate].
        destruct (items p) as [|x r] eqn:i; [discriminate|]. intros [= <-] h1.
        apply (all_same_uniform x r p); trivial. apply (adjacent_same (x :: r)); trivial.
        unfold descs in nc. rewrite i in nc. exact nc.
Qed.

(** The converse. *)
Lemma uniform_item k p x : uniform_by k p -> no_zero p -> In x (items p) ->
  the_desc x = k \/ (is_euclidean (the_desc x) = true /\ k = Dim 1).
Proof.
  intros [hk f] nz i. unfold no_zero in nz. rewrite Forall_forall in f, nz. destruct (f x i) as [z|[z|[a b]]].
  - now elim (nz x i).
  - now left.
  - right. split; trivial. now apply euclid_one.
Qed.

Lemma uniform_coord k p : uniform_by k p -> no_zero p ->
  Exists (fun x => is_euclidean (the_desc x) = false) (items p) ->
  is_euclidean k = false /\ Forall (fun x => the_desc x = k) (items p).
Proof.
  intros u nz ex. rewrite Exists_exists in ex. destruct ex as (x & hx & ex).
  assert (K : is_euclidean k = false).
  { destruct (uniform_item k p x u nz hx) as [<-|[a _]]; congruence. }
  split; trivial. apply Forall_forall. intros y hy.
  destruct (uniform_item k p y u nz hy) as [?|[_ ->]]; trivial. discriminate.
Qed.

Lemma tuple_kin k l xs : is_euclidean k = false -> Forall2 of_elt l xs -> Forall (fun x => the_desc x = k) xs -> Forall (kin k) l.
Proof.
  intros hk h. induction h as [|e x l xs he _ IH]; intro f; constructor; inversion f as [|? ? fx fr]; subst; auto.
  destruct e as [d| |]; cbn in he.
  - subst x. now left.
  - destruct he as [n ->]. discriminate.
  - now right.
Qed.

Lemma kin_nonzero k e : dimension k = 1 -> kin k e -> elt_dim e <> 0%Z.
Proof. intros h [->| ->]; cbn; [lia|discriminate]. Qed.

Lemma not_all_euclid l : forallb euclidean l = false -> Exists (fun x => is_euclidean (the_desc x) = false) l.
Proof.
  induction l as [|x l IH]; [discriminate|]. cbn. unfold euclidean at 1.
  destruct (is_euclidean (the_desc x)) eqn:e; cbn; intro h; [right; now apply IH|now left].
Qed.

Lemma get_uniform_complete t p : of_type t p -> no_zero p -> items p <> [] -> telling t p ->
  get_uniform_component t p = None -> ~ uniform p.
Proof.
  intros h nz ne tl g [k u]. pose proof (proj1 u) as k1.
  unfold get_uniform_component in g. destruct (type_euclidean t) eqn:e; [discriminate|].
  destruct t as [f|l|f].
  - destruct p as [x|xs|b xs|x]; cbn in h; try contradiction. cbn in tl, e.
    destruct f as [d| |]; cbn in e; try discriminate; [|congruence]. cbn in h. subst x.
    destruct (uniform_item k _ (mk_held false true d) u nz (or_introl eq_refl)) as [q|[q _]]; cbn in q; [|congruence].
    subst d. cbn in g. rewrite k1 in g. discriminate.
  - destruct p as [x|xs|b xs|x]; cbn in h; try contradiction. cbn in tl, e.
    destruct tl as [tl|tl]; [congruence|]. destruct (uniform_coord k _ u nz tl) as [hk fk]. cbn in fk.
    pose proof (tuple_kin k l xs hk h fk) as kk.
    destruct l as [|a l]; [discriminate|].
    assert (FZ : Forall (fun e => elt_dim e <> 0%Z) (a :: l)).
    { revert kk. apply Forall_impl. intros z. now apply kin_nonzero. }
    unfold common_descriptor in g. cbn [type_euclidean] in g. rewrite e in g.
    rewrite (iter_fold (S (length (a :: l))) l a) in g by (trivial; cbn; lia).
    destruct (fold_kin k l a kk) as [q|q]; rewrite q in g.
    + cbn in g. rewrite k1 in g. discriminate.
    + cbn in g. unfold equal_tuple_elements in g. destruct xs as [|x r]; [now apply ne|].
      inversion fk as [|? ? fx fr]; subst.
      replace (forallb (desc_compare cmp_eq x) r) with true in g; [discriminate|]. symmetry.
      apply forallb_forall. rewrite Forall_forall in fr. intros y hy. apply same_desc_eq. symmetry. now apply fr.
  - destruct p as [x|xs|b xs|x]; cbn in h; try contradiction. cbn in e. destruct h as [_ h].
    unfold common_descriptor in g. cbn [type_euclidean] in g. rewrite e in g.
    destruct xs as [|x r]; [now apply ne|]. destruct f as [d| |]; try discriminate.
    + inversion h as [|? ? hx _]; subst. cbn in hx.
      destruct (uniform_item k _ x u nz (or_introl eq_refl)) as [q|[q _]]; rewrite hx in q; cbn in q, e; [|congruence].
      subst d. cbn in g. rewrite k1 in g. discriminate.
    + cbn [elt_dim] in g. change (dyn =? 1)%Z with false in g. rewrite Z.eqb_refl in g. cbn [negb items] in g.
      destruct (forallb euclidean (x :: r)) eqn:ae; [discriminate|].
      pose proof (not_all_euclid _ ae) as ex. destruct (uniform_coord k _ u nz ex) as [hk fk]. cbn [items] in fk.
      rewrite (same_adjacent k _ fk) in g. discriminate.
Qed.

(** ** The concept *)
Lemma uniform_guaranteed t p : of_type t p -> uniform_pattern false t = true -> uniform p.
Proof.
  intros h. unfold uniform_pattern. destruct (type_euclidean t) eqn:e; cbn [orb].
  - intros _. exists (Dim 1). apply uniform_euclid. now apply (type_euclid_items t).
  - destruct (common_descriptor t) as [c|] eqn:cd; [|discriminate]. intro q. apply Z.eqb_eq in q.
    apply elt_one in q as (d & -> & hd). exists d. apply known_uniform; trivial. now apply (common_desc_known t).
Qed.

Lemma elt_kin k p e x : uniform_by k p -> no_zero p -> In x (items p) -> of_elt e x -> kin k (common_one e).
Proof.
  intros u nz i he. unfold common_one. destruct (elt_euclidean e) eqn:ee.
  - pose proof (elt_euclid e x he ee) as ex. left. f_equal.
    destruct (uniform_item k p x u nz i) as [<-|[_ ->]]; trivial. symmetry. apply euclid_one; trivial. exact (proj1 u).
  - destruct e as [d| |]; try discriminate; [|now right]. cbn in he. subst x. left. f_equal.
    destruct (uniform_item k p _ u nz i) as [q|[q _]]; cbn in q, ee; [exact q|]. rewrite q in ee. discriminate.
Qed.

Lemma fits_kin k e : dimension k = 1 -> kin k e -> fits [e].
Proof. intros h [->| ->]; unfold fits; [rewrite cd_known|]; cbn; rewrite ?h; reflexivity. Qed.

Lemma kin_permitted k c a : dimension k = 1 -> kin k c -> kin k a -> compares_with cmp_eq true (SDesc c) (SDesc a) = true.
Proof.
  intros hk hc ha. destruct (compares_with cmp_eq true (SDesc c) (SDesc a)) eqn:e; trivial. exfalso.
  assert (T : tame (SDesc c) (SDesc a)).
  { unfold tame. cbn [elts]. split; [now apply (fits_kin k)|]. split; [now apply (fits_kin k)|]. split; [exact I|].
    assert (k <> Dim 0) by (intros ->; discriminate).
    destruct hc as [->| ->], ha as [->| ->]; cbn; auto. }
  assert (V : forall e, kin k e -> exists x, of_elt e x /\ the_desc x = k).
  { intros f [->| ->]; [exists (mk_held false true k)|exists (mk_held true false k)]; cbn; split; trivial. now exists k. }
  destruct (V c hc) as (x & hx & ex), (V a ha) as (y & hy & ey).
  pose proof (none_sound is_eq _ _ (or_introl eq_refl) T e (PDesc x) (PDesc y) hx hy) as q.
  pose proof (same_desc_eq x y ltac:(congruence)) as w. change (is_eq (compare_three_way (PDesc x) (PDesc y)) = true) in w. congruence.
Qed.

Lemma kin_dim k e : dimension k = 1 -> kin k e -> negb (elt_dim e =? dyn)%Z && negb (elt_dim e =? 1)%Z = false.
Proof. intros h [->| ->]; cbn; [now rewrite h|reflexivity]. Qed.

Lemma hetero_kin k l : dimension k = 1 -> Forall (fun e => kin k (common_one e)) l -> forall c, kin k c -> hetero_impl c l = false.
Proof.
  intros hk. induction 1 as [|e l he _ IH]; intros c hc; trivial. cbn [hetero_impl].
  rewrite (kin_dim k _ hk he), (kin_permitted k c _ hk hc he). cbn [negb orb].
  destruct (_ && _); apply IH; trivial.
Qed.

Lemma uniform_permitted t p : of_type t p -> no_zero p -> items p <> [] -> uniform_pattern true t = false -> ~ uniform p.
Proof.
  intros h nz ne g [k u]. pose proof (proj1 u) as k1. unfold uniform_pattern in g. apply negb_false_iff in g.
  destruct t as [f|l|f]; destruct p as [x|xs|b xs|x]; cbn in h; try contradiction.
  - cbn in g. apply andb_prop in g as [g g1]. apply andb_prop in g as [g0 gd].
    destruct f as [d| |]; try discriminate. cbn in h, g0. subst x.
    destruct (uniform_item k _ _ u nz (or_introl eq_refl)) as [q|[q _]]; cbn in q.
    + subst d. cbn in g1. rewrite k1 in g1. discriminate.
    + rewrite q in g0. discriminate.
  - destruct l as [|e [|e' r]]; try discriminate. cbn [heterogeneous] in g.
    assert (K : Forall (fun e => kin k (common_one e)) (e :: e' :: r)).
    { assert (W : forall l ys, Forall2 of_elt l ys -> (forall x, In x ys -> In x xs) -> Forall (fun e => kin k (common_one e)) l).
      { intros l ys w. induction w as [|f y l ys hf _ IH]; intros s; constructor.
        - apply (elt_kin k (PFix xs) f y); trivial. apply s. now left.
        - apply IH. intros z hz. apply s. now right. }
      exact (W _ _ h (fun x i => i)). }
    inversion K as [|? ? K0 K1]; subst. rewrite (hetero_kin k _ k1 K1 _ K0) in g. discriminate.
  - destruct xs as [|x r]; [now apply ne|]. destruct h as [_ h]. inversion h as [|? ? hx _]; subst.
    cbn [heterogeneous] in g. unfold common_descriptor in g. cbn [type_euclidean] in g.
    pose proof (elt_kin k (PDyn b (x :: r)) f x u nz (or_introl eq_refl) hx) as w. unfold common_one in w.
    destruct (elt_euclidean f); rewrite (kin_dim k _ k1 w) in g; discriminate.
Qed.

(** ** is_uniform_pattern_component_of *)
Lemma coord_dim d : is_euclidean d = false -> dimension d = 1 \/ dimension d = 2 \/ dimension d = 3.
Proof. destruct d; cbn; try discriminate; auto. Qed.

Lemma coord_tup d : is_euclidean d = false -> tup_dim [Known d] = Z.of_nat (dimension d).
Proof. intro h. unfold tup_dim. cbn. destruct (coord_dim d h) as [->|[->| ->]]; reflexivity. Qed.

Lemma coord_elt d : is_euclidean d = false -> (elt_dim (Known d) =? 0)%Z = false /\ (elt_dim (Known d) =? dyn)%Z = false.
Proof. intro h. cbn. destruct (coord_dim d h) as [->|[->| ->]]; split; reflexivity. Qed.

Lemma cw_eq_coord e d : is_euclidean d = false -> compares_with cmp_eq false (SDesc e) (SDesc (Known d)) = true ->
  exists a, e = Known a /\ is_euclidean a = false /\ hash a = hash d.
Proof.
  intros hd c. cbn [compares_with] in c. unfold cw_tup in c. rewrite (coord_tup d hd) in c.
  assert (z : (Z.of_nat (dimension d) =? 0)%Z = false) by (destruct (coord_dim d hd) as [->|[->| ->]]; reflexivity).
  rewrite z, andb_false_r in c. cbn [length Nat.eqb andb Nat.add] in c.
  destruct e as [a| |].
  - destruct (is_euclidean a) eqn:ha.
    + exfalso. cbn [cw_iter elt_euclidean] in c. rewrite ha, hd in c. cbn [andb] in c.
      destruct (coord_elt d hd) as [_ q]. rewrite q in c. cbn [negb cmp_eq andb orb] in c.
      destruct ((inc_bank 0 (elt_dim (Known a)) =? dyn)%Z || (0 =? dyn)%Z); [discriminate|].
      destruct (_ <=? _)%Z; discriminate.
    + exists a. repeat split; trivial. cbn [cw_iter elt_euclidean] in c. rewrite ha, hd in c. cbn [andb] in c.
      change (0 =? dyn)%Z with false in c. cbn [orb negb Z.eqb same_descriptors different_descriptors] in c.
      destruct (Z.eqb_spec (hash a) (hash d)); trivial. discriminate.
  - exfalso. cbn [cw_iter elt_euclidean] in c. rewrite hd in c. cbn [andb] in c.
    destruct (coord_elt d hd) as [_ q]. rewrite q in c. cbn [negb cmp_eq andb orb] in c.
    destruct ((inc_bank 0 (elt_dim DynDim) =? dyn)%Z || (0 =? dyn)%Z); [discriminate|].
    destruct (_ <=? _)%Z; discriminate.
  - exfalso. cbn [cw_iter elt_euclidean] in c. rewrite hd in c. cbn [andb] in c.
    change (0 =? dyn)%Z with false in c. cbn in c. discriminate.
Qed.

Lemma cw_eq_any e : compares_with cmp_eq false (SDesc e) (SDesc AnyDesc) = false.
Proof.
  cbn [compares_with]. unfold cw_tup. change (tup_dim [AnyDesc]) with dyn. change (dyn =? 0)%Z with false.
  rewrite andb_false_r. cbn [length Nat.eqb andb Nat.add].
  destruct e as [a| |]; cbn [cw_iter elt_euclidean].
  - destruct (is_euclidean a); cbn [andb].
    + change (elt_dim AnyDesc) with dyn. rewrite Z.eqb_refl. cbn [negb andb orb].
      destruct (_ || _); trivial. destruct (_ <=? _)%Z; reflexivity.
    + reflexivity.
  - reflexivity.
  - reflexivity.
Qed.

Lemma cw_neq_coord e d : is_euclidean d = false -> compares_with cmp_neq false (SDesc e) (SDesc (Known d)) = true ->
  forall x, of_elt e x -> the_desc x <> d.
Proof.
  intros hd c x hx k. cbn [compares_with] in c. unfold cw_tup in c. rewrite (coord_tup d hd) in c.
  assert (z : (Z.of_nat (dimension d) =? 0)%Z = false) by (destruct (coord_dim d hd) as [->|[->| ->]]; reflexivity).
  rewrite z, andb_false_r in c. cbn [length Nat.eqb andb Nat.add] in c.
  destruct e as [a| |]; cbn in hx.
  - subst x. cbn in k. subst a. cbn [cw_iter elt_euclidean] in c. rewrite hd in c. cbn [andb] in c.
    change (0 =? dyn)%Z with false in c. cbn [orb negb Z.eqb same_descriptors] in c. rewrite Z.eqb_refl in c. discriminate.
  - destruct hx as [n ->]. cbn in k. subst d. discriminate.
  - cbn [cw_iter elt_euclidean] in c. rewrite hd in c. cbn [andb] in c.
    change (0 =? dyn)%Z with false in c. cbn in c. discriminate.
Qed.

Lemma cw_neq_any e : compares_with cmp_neq false (SDesc e) (SDesc AnyDesc) = true ->
  forall x, of_elt e x -> dimension (the_desc x) <> 1.
Proof.
  cbn [compares_with]. unfold cw_tup. change (tup_dim [AnyDesc]) with dyn. change (dyn =? 0)%Z with false.
  rewrite andb_false_r. cbn [length Nat.eqb andb Nat.add].
  destruct e as [a| |]; cbn [cw_iter elt_euclidean].
  - destruct (is_euclidean a) eqn:ha; cbn [andb].
    + change (elt_dim AnyDesc) with dyn. rewrite Z.eqb_refl. cbn [negb andb orb].
      intros c x hx k. cbn in hx. subst x. cbn in k. rewrite (euclid_one a ha k) in c. cbn in c. discriminate.
    + cbn. discriminate.
  - cbn. discriminate.
  - cbn. discriminate.
Qed.

(** The common descriptor of a type that is not Euclidean. *)
Lemma common_case t p : of_type t p -> no_zero p -> items p <> [] -> type_euclidean t = false ->
  exists c, common_descriptor t = Some c /\
    (c = AnyDesc \/ exists d, c = Known d /\ is_euclidean d = false /\ Forall (fun x => the_desc x = d) (items p)).
Proof.
  intros h nz ne e.
  assert (NZ : forall d, common_descriptor t = Some (Known d) -> Forall (fun x => the_desc x = d) (items p)).
  { intros d q. pose proof (common_desc_known t p d h e q) as f. unfold no_zero in nz. rewrite Forall_forall in f, nz |- *.
    intros x hx. destruct (f x hx); trivial. now elim (nz x hx). }
  assert (D : forall c, common_descriptor t = Some c -> elt_euclidean c = false ->
    exists c, common_descriptor t = Some c /\
    (c = AnyDesc \/ exists d, c = Known d /\ is_euclidean d = false /\ Forall (fun x => the_desc x = d) (items p))).
  { intros c q ec. exists c. split; trivial. destruct c as [d| |]; cbn in ec; try discriminate; [|now left].
    right. exists d. repeat split; trivial. now apply NZ. }
  unfold common_descriptor in *. rewrite e in *. destruct t as [f|l|f].
  - now apply (D f).
  - destruct p as [x|xs|b xs|x]; cbn in h; try contradiction. destruct l as [|a l]; [discriminate|].
    assert (FZ : Forall (fun e => elt_dim e <> 0%Z) (a :: l)).
    { unfold no_zero in nz. cbn in nz. clear -h nz. revert nz. induction h as [|f y m ys hf _ IH]; intro nz; constructor;
        inversion nz as [|? ? n0 n1]; subst; auto. intro z. apply n0. now apply (elt_zero f). }
    apply (D (fold_left common_elt l a)).
    + apply iter_fold; trivial. cbn. lia.
    + rewrite fold_euclid. exact e.
  - now apply (D f).
Qed.

Lemma component_ok e x t b : of_elt e x -> of_type t b -> no_zero b -> items b <> [] ->
  no_clash (Dim 1 :: the_desc x :: descs b) ->
  is_component_of e x t b = true <-> uniform_by (the_desc x) b.
Proof.
  intros he h nz ne nc. unfold is_component_of.
  destruct (uniform_pattern true t) eqn:up; cbn [negb].
  2: { split; [discriminate|]. intro u. elim (uniform_permitted t b h nz ne up). now exists (the_desc x). }
  assert (IN : forall y, In y (items b) -> In (the_desc y) (Dim 1 :: the_desc x :: descs b)).
  { intros y hy. right. right. now apply in_map. }
  assert (EQ : forall y, In y (items b) -> desc_compare cmp_eq x y = true <-> the_desc x = the_desc y).
  { intros y hy. split; [|apply same_desc_eq]. apply (desc_eq_same _ x y nc); [right; now left|now apply IN]. }
  assert (EU : Forall (fun y => is_euclidean (the_desc y) = true) (items b) ->
     uniform_by (the_desc x) b <-> the_desc x = Dim 1).
  { intro f. split.
    - intro u. destruct (items b) as [|y r] eqn:i; [congruence|].
      assert (hy : In y (items b)) by (rewrite i; now left).
      destruct (uniform_item (the_desc x) b y u nz hy) as [q|[_ q]]; trivial.
      rewrite Forall_forall in f. specialize (f y (or_introl eq_refl)). rewrite q in f. apply euclid_one; trivial. exact (proj1 u).
    - intros ->. now apply uniform_euclid. }
  destruct (type_euclidean t) eqn:te.
  { rewrite (EU (type_euclid_items t b h te)). split.
    - apply (desc_eq_same _ x (mk_held false true (Dim 1)) nc); [right; now left|now left].
    - intro q. now apply same_desc_eq. }
  destruct (common_case t b h nz ne te) as (c & -> & hc).
  destruct (compares_with cmp_eq false (SDesc e) (SDesc c)) eqn:g.
  { destruct hc as [->|(d & -> & hd & fd)]; [rewrite cw_eq_any in g; discriminate|].
    apply cw_eq_coord in g as (a & -> & ha & hh); trivial. cbn in he. subst x. unfold dim. cbn [the_desc] in *.
    destruct (items b) as [|y r] eqn:i; [congruence|]. inversion fd as [|? ? fy fr]; subst y.
    assert (E : a = the_desc x).
    { apply nc; [right; now left|apply IN; now left|congruence]. }
    rewrite Nat.eqb_eq. split.
    - intro q. split; trivial. rewrite i, E. constructor; [right; now left|]. revert fr. apply Forall_impl. intros z hz. right. left. congruence.
    - intro u. exact (proj1 u). }
  assert (ALL : forall d, Forall (fun x => the_desc x = d) (items b) -> is_euclidean d = false ->
     uniform_by (the_desc x) b -> the_desc x = d).
  { intros d fd hd u. destruct (items b) as [|y r] eqn:i; [congruence|].
    assert (hy : In y (items b)) by (rewrite i; now left). inversion fd as [|? ? fy _]; subst.
    destruct (uniform_item (the_desc x) b y u nz hy) as [q|[q _]]; congruence. }
  destruct (compares_with cmp_neq false (SDesc e) (SDesc c)) eqn:g2; cbn [orb].
  { split; [discriminate|]. intro u. exfalso. destruct hc as [->|(d & -> & hd & fd)].
    - apply (cw_neq_any e g2 x he). exact (proj1 u).
    - apply (cw_neq_coord e d hd g2 x he). now apply ALL. }
  destruct (negb (elt_dim c =? dyn)%Z && negb (elt_dim c =? 1)%Z) eqn:g3.
  { split; [discriminate|]. intro u. exfalso. destruct hc as [->|(d & -> & hd & fd)]; [discriminate|].
    apply andb_prop in g3 as [_ g3]. apply negb_true_iff, Z.eqb_neq in g3. apply g3. cbn.
    rewrite <- (ALL d fd hd u). rewrite (proj1 u). reflexivity. }
  unfold dim at 1. destruct (Nat.eqb_spec (dimension (the_desc x)) 1) as [d1|d1]; cbn [negb].
  2: { split; [discriminate|]. intro u. elim d1. exact (proj1 u). }
  destruct (forallb euclidean (items b)) eqn:ae.
  { rewrite (EU (euclid_forall _ ae)). unfold euclidean. split.
    - intro q. now apply euclid_one.
    - intros ->. reflexivity. }
  assert (LOOP : forallb (fun y => (dim y =? 0) || (euclidean y && euclidean x) || desc_compare cmp_eq x y) (items b) = true <->
     uniform_by (the_desc x) b).
  { rewrite forallb_forall. unfold uniform_by. rewrite Forall_forall. split.
    - intro f. split; trivial. intros y hy. specialize (f y hy). apply orb_prop in f as [f|f].
      + apply orb_prop in f as [f|f].
        * left. now apply Nat.eqb_eq in f.
        * right. right. now apply andb_prop in f.
      + right. left. symmetry. now apply EQ.
    - intros [_ f] y hy. destruct (f y hy) as [q|[q|[q q']]].
      + unfold dim. rewrite q. reflexivity.
      + symmetry in q. apply (EQ y hy) in q. rewrite q. apply orb_true_r.
      + unfold euclidean. rewrite q, q'. cbn. now rewrite orb_true_r. }
  destruct b as [y|xs|bb xs|y]; try exact LOOP.
  rewrite (EQ y) by (now left). cbn in ae. rewrite andb_true_r in ae. unfold euclidean in ae. split.
  - intro q. split; trivial. constructor; [right; left; now symmetry|constructor].
  - intro u. destruct (uniform_item (the_desc x) (PDesc y) y u nz (or_introl eq_refl)) as [q|[q _]]; congruence.
Qed.
