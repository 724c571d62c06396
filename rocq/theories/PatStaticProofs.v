(** * Proofs about comparisons by the compiler *)
From Coq Require Import List ZArith Bool Lia.
From Verif Require Import PatCmpModel PatCmpSpec PatCmpProofs PatStaticModel PatStaticSpec.
Import ListNotations.
Local Open Scope Z_scope.

Lemma dyn_val : dyn = 2 ^ 64 - 1. Proof. reflexivity. Qed.

Lemma two64_val : two64 = dyn + 1. Proof. reflexivity. Qed.

Lemma dyn_pos : 0 < dyn. Proof. reflexivity. Qed.

Lemma elt_static e x : of_elt e x -> static_euclidean x = elt_euclidean e.
Proof.
  destruct e; cbn.
  - intros ->. reflexivity.
  - intros [n ->]. reflexivity.
  - intros [d ->]. reflexivity.
Qed.

Lemma constant_dims_nonneg l : 0 <= constant_dims l.
Proof. induction l as [|[d| |] l IH]; cbn [constant_dims fold_right] in *; try fold (constant_dims l) in *; lia. Qed.

Lemma cd_known d l : constant_dims (Known d :: l) = Z.of_nat (dimension d) + constant_dims l.
Proof. reflexivity. Qed.

(** A bank as the compiler sees it, and its value at run time. *)
Definition bank_ok (z : Z) (n : nat) (l : list elt) : Prop :=
  z = dyn \/ (z = Z.of_nat n /\ z + constant_dims l < dyn).

Lemma bank_step_ok z n e l x : elt_euclidean e = true -> of_elt e x ->
  bank_ok z n (e :: l) -> bank_ok (inc_bank z (elt_dim e)) (n + dim x) l.
Proof.
  intros he hx [->|[-> h]]; unfold inc_bank; [left; now rewrite Z.eqb_refl|].
  pose proof (constant_dims_nonneg l) as p.
  destruct e as [d| |]; cbn [elt_dim]; [|left; now rewrite Z.eqb_refl, orb_true_r|discriminate he].
  cbn in hx. subst x. unfold dim. cbn [the_desc].
  cbn [constant_dims fold_right] in h. fold (constant_dims l) in h.
  right. rewrite (proj2 (Z.eqb_neq _ _)), (proj2 (Z.eqb_neq _ _)) by lia. cbn [orb].
  rewrite Z.mod_small by (rewrite two64_val; lia). lia.
Qed.

(** The second bank: the plain addition is right when descriptors are apart. *)
Definition next_ok (z : Z) (l : list elt) : Prop :=
  match l with
  | y :: _ => elt_euclidean y = true -> z <> dyn /\ (y = DynDim -> z = 0)
  | [] => True
  end.

Lemma plain_step z n e l : elt_euclidean e = true -> bank_ok z n (e :: l) -> next_ok z (e :: l) ->
  (z + elt_dim e) mod two64 = inc_bank z (elt_dim e).
Proof.
  intros he hb hn. cbn in hn. specialize (hn he). destruct hn as [h1 h2].
  destruct hb as [hb|[hz hb]]; [contradiction|]. unfold inc_bank. rewrite (proj2 (Z.eqb_neq _ _)) by exact h1.
  destruct e as [d| |]; [|rewrite h2 by reflexivity|discriminate he]; cbn [elt_dim orb].
  - cbn [constant_dims fold_right] in hb. fold (constant_dims l) in hb. pose proof (constant_dims_nonneg l).
    rewrite (proj2 (Z.eqb_neq _ _)) by lia. reflexivity.
  - rewrite Z.eqb_refl. reflexivity.
Qed.

Lemma next_step z e l : elt_euclidean e = true -> apart (e :: l) -> bank_ok z 0 (e :: l) \/ next_ok z (e :: l) ->
  next_ok z (e :: l) -> (exists n, bank_ok z n (e :: l)) -> next_ok (inc_bank z (elt_dim e)) l.
Proof.
  intros he ha _ hn [n hb]. destruct l as [|y l]; [exact I|]. intros hy.
  destruct ha as [ha _]. destruct (ha he hy) as [e1 e2]. split; [|congruence].
  destruct (hn he) as [h1 _]. destruct hb as [|[hz hb]]; [contradiction|].
  destruct e as [d| |]; [|congruence|discriminate he]. unfold inc_bank. cbn [elt_dim].
  rewrite cd_known in hb. pose proof (constant_dims_nonneg (y :: l)).
  rewrite (proj2 (Z.eqb_neq _ _)), (proj2 (Z.eqb_neq _ _)) by lia. cbn [orb].
  rewrite Z.mod_small by (rewrite two64_val; lia). lia.
Qed.

Lemma apart_tl e l : apart (e :: l) -> apart l.
Proof. destruct l; [intros _; exact I|]. intros [_ h]. exact h. Qed.

Lemma zero_bank l : fits l -> bank_ok 0 0 l.
Proof. intros h. right. split; [reflexivity|]. unfold fits in h. rewrite dyn_val. lia. Qed.

Lemma fits_tl e l : fits (e :: l) -> fits l.
Proof. unfold fits. destruct e; cbn [constant_dims fold_right]; fold (constant_dims l); lia. Qed.

Lemma zero_next l : next_ok 0 l.
Proof. destruct l; [exact I|]. intros _. split; [pose proof dyn_pos; lia|reflexivity]. Qed.

(** What the comparison needs. *)
Definition good_all (comp : ordering -> bool) : Prop :=
  comp None = true -> comp (Some Lt) = true /\ comp (Some Gt) = true.
Definition good_none (comp : ordering -> bool) : Prop :=
  (comp (Some Eq) = false -> comp None = false -> comp (Some Lt) = false /\ comp (Some Gt) = false) /\
  (comp (Some Eq) = true -> comp None = false).

Lemma size_nat m n : size_order (Z.of_nat m) (Z.of_nat n) = nat_order m n.
Proof. unfold size_order, nat_order. now rewrite Nat2Z.inj_compare. Qed.

Lemma of_nat_eqb m n : (Z.of_nat m =? Z.of_nat n) = (m =? n)%nat.
Proof. destruct (Nat.eqb_spec m n); [subst; apply Z.eqb_refl|apply Z.eqb_neq; lia]. Qed.

Lemma of_nat_leb m n : (Z.of_nat m <=? Z.of_nat n) = (m <=? n)%nat.
Proof. destruct (Nat.leb_spec m n); [apply Z.leb_le|apply Z.leb_gt]; lia. Qed.

Lemma known_dim_small d l : fits (Known d :: l) -> Z.of_nat (dimension d) <> dyn.
Proof.
  unfold fits. cbn [constant_dims fold_right]. fold (constant_dims l). pose proof (constant_dims_nonneg l).
  rewrite dyn_val. lia.
Qed.

Lemma bank_dyn z n l : bank_ok z n l -> (z =? dyn) = false -> z = Z.of_nat n.
Proof. intros [->|[h _]] e; [now rewrite Z.eqb_refl in e|exact h]. Qed.

Lemma same_codes x y a b : of_elt x a -> of_elt y b -> same_descriptors x y = true -> code a = code b.
Proof.
  destruct x, y; try discriminate. cbn. intros -> -> h. now apply Z.eqb_eq in h.
Qed.

Lemma different_codes x y a b : of_elt x a -> of_elt y b -> different_descriptors x y = true ->
  (code a =? code b) = false.
Proof.
  destruct x, y; try discriminate. cbn. intros -> -> h. now apply negb_true_iff in h.
Qed.

(** ** Guaranteed comparisons of tuples *)
Section Iter.
Variable comp : ordering -> bool.

Definition Inv (a b : list elt) (xs ys : list held) (za zb : Z) (m n : nat) : Prop :=
  Forall2 of_elt a xs /\ Forall2 of_elt b ys /\ fits a /\ fits b /\
  bank_ok za m a /\ bank_ok zb n b /\ apart b /\ next_ok zb b.

Lemma inv_zero a b xs ys : Forall2 of_elt a xs -> Forall2 of_elt b ys -> fits a -> fits b -> apart b ->
  Inv a b xs ys 0 0 0 0.
Proof. intros. repeat split; trivial; auto using zero_bank, zero_next. Qed.

Lemma inv_a e x a b xs ys za zb m n : elt_euclidean e = true ->
  Inv (e :: a) b (x :: xs) ys za zb m n -> Inv a b xs ys (inc_bank za (elt_dim e)) zb (m + dim x) n.
Proof.
  intros he (h1 & h2 & h3 & h4 & h5 & h6 & h7 & h8). inversion h1; subst.
  repeat split; eauto using fits_tl, bank_step_ok.
Qed.

Lemma inv_b e y a b xs ys za zb m n : elt_euclidean e = true ->
  Inv a (e :: b) xs (y :: ys) za zb m n -> Inv a b xs ys za (inc_bank zb (elt_dim e)) m (n + dim y).
Proof.
  intros he (h1 & h2 & h3 & h4 & h5 & h6 & h7 & h8). inversion h2; subst.
  repeat split; eauto using fits_tl, bank_step_ok, apart_tl.
  eapply next_step; eauto.
Qed.

Lemma inv_plain e a b xs ys za zb m n : elt_euclidean e = true ->
  Inv a (e :: b) xs ys za zb m n -> (zb + elt_dim e) mod two64 = inc_bank zb (elt_dim e).
Proof. intros he (h1 & h2 & h3 & h4 & h5 & h6 & h7 & h8). eapply plain_step; eauto. Qed.

Lemma inv_both x y a b p q xs ys za zb m n : Inv (x :: a) (y :: b) (p :: xs) (q :: ys) za zb m n ->
  Inv a b xs ys 0 0 0 0.
Proof.
  intros (h1 & h2 & h3 & h4 & h5 & h6 & h7 & h8). inversion h1; inversion h2; subst.
  apply inv_zero; eauto using fits_tl, apart_tl.
Qed.

Lemma cmp_lt (m n : nat) : (m < n)%nat -> Nat.compare m n = Lt. Proof. apply Nat.compare_lt_iff. Qed.

Lemma guaranteed_iter : good_all comp -> forall k a b xs ys za zb m n, Inv a b xs ys za zb m n ->
  cw_iter k comp false a b za zb = true -> comp (compare_fixed k xs ys m n) = true.
Proof.
  intros G. induction k as [|k IH]; intros a b xs ys za zb m n I; [discriminate|].
  cbn [cw_iter compare_fixed].
  assert (I' := I). destruct I' as (h1 & h2 & h3 & h4 & h5 & h6 & h7 & h8).
  destruct h1 as [|ai x a xs hx h1], h2 as [|bi y b ys hy h2].
  - destruct (za =? dyn) eqn:ea.
    + cbn [negb andb].
      apply Z.eqb_eq in ea. subst za.
      replace (dyn =? 0) with false by reflexivity.
      destruct (zb =? 0) eqn:e0; [|destruct (zb =? dyn); discriminate].
      apply Z.eqb_eq in e0. subst zb. destruct h6 as [h6|[h6 _]]; [discriminate h6|].
      assert (n = 0%nat) by lia. subst n. unfold nat_order. cbn [do_comps forallb]. rewrite !andb_true_iff.
      intros (c1 & c2 & _). destruct m; [exact c2|exact c1].
    + destruct (zb =? dyn) eqn:eb.
      * cbn [negb andb orb]. destruct (za =? 0) eqn:e0.
        -- rewrite (bank_dyn _ _ _ h5 ea) in *. apply Z.eqb_eq in e0. assert (m = 0%nat) by lia. subst m.
           cbn [do_comps forallb]. rewrite !andb_true_iff. intros (c1 & c2 & _).
           unfold nat_order. destruct n; [exact c2|exact c1].
        -- destruct (zb =? 0) eqn:e1; [|discriminate]. apply Z.eqb_eq in eb. rewrite eb in e1. discriminate.
      * cbn [negb andb]. rewrite (bank_dyn _ _ _ h5 ea), (bank_dyn _ _ _ h6 eb), size_nat. trivial.
  - rewrite (elt_static _ _ hy). destruct (elt_euclidean bi) eqn:eb.
    + intros h. eapply IH; [|exact h]. now apply inv_b with (1 := eb) (2 := I).
    + destruct (za =? dyn) eqn:da; [|destruct (zb =? dyn) eqn:db]; cbn [orb].
      * rewrite orb_false_r, andb_true_iff. intros [_ c]. destruct (G c).
        destruct (m <=? n)%nat; trivial.
      * rewrite orb_false_r, andb_true_iff. intros [_ c]. destruct (G c).
        destruct (m <=? n)%nat; trivial.
      * rewrite (bank_dyn _ _ _ h5 da), (bank_dyn _ _ _ h6 db), of_nat_leb.
        destruct (m <=? n)%nat; trivial. destruct (elt_dim bi =? dyn); trivial. discriminate.
  - rewrite (elt_static _ _ hx). destruct (elt_euclidean ai) eqn:eb.
    + intros h. eapply IH; [|exact h]. now apply inv_a with (1 := eb) (2 := I).
    + destruct (za =? dyn) eqn:da; [|destruct (zb =? dyn) eqn:db]; cbn [orb].
      * rewrite orb_false_r, andb_true_iff. intros [_ c]. destruct (G c).
        destruct (n <=? m)%nat; trivial.
      * rewrite orb_false_r, andb_true_iff. intros [_ c]. destruct (G c).
        destruct (n <=? m)%nat; trivial.
      * rewrite (bank_dyn _ _ _ h5 da), (bank_dyn _ _ _ h6 db), of_nat_leb.
        destruct (n <=? m)%nat; trivial. destruct (elt_dim ai =? dyn); trivial. discriminate.
  - rewrite (elt_static _ _ hx), (elt_static _ _ hy).
    destruct (elt_euclidean ai) eqn:ea, (elt_euclidean bi) eqn:eb; cbn [andb].
    + intros h. rewrite (inv_plain _ _ _ _ _ _ _ _ _ eb I) in h. eapply IH; [|exact h].
      apply inv_a with (1 := ea). now apply inv_b with (1 := eb).
    + intros h. eapply IH; [|exact h]. now apply inv_a with (1 := ea).
    + intros h. eapply IH; [|exact h]. now apply inv_b with (1 := eb).
    + destruct (za =? dyn) eqn:da; [discriminate|]. destruct (zb =? dyn) eqn:db; [discriminate|]. cbn [orb].
      rewrite (bank_dyn _ _ _ h5 da), (bank_dyn _ _ _ h6 db), of_nat_eqb.
      destruct (m =? n)%nat; cbn [negb andb]; [|trivial].
      destruct (same_descriptors ai bi) eqn:sd.
      { rewrite (same_codes _ _ _ _ hx hy sd), Z.eqb_refl. intros h. eapply IH; [|exact h].
        eapply inv_both; eauto. }
      destruct (different_descriptors ai bi) eqn:dd.
      { rewrite (different_codes _ _ _ _ hx hy dd). trivial. }
      destruct (comp (Some Eq)) eqn:c1; [discriminate|].
      destruct (comp None) eqn:c2.
      { cbn [orb]. intros h. destruct (code x =? code y); [|exact c2]. eapply IH; [|exact h].
        eapply inv_both; eauto. }
      destruct (comp (Some Lt)); discriminate.
Qed.

(** ** Comparisons that are not permitted *)
Lemma permitted_iter : good_none comp -> forall k a b xs ys za zb m n, Inv a b xs ys za zb m n ->
  (length a + length b < k)%nat ->
  cw_iter k comp true a b za zb = false -> comp (compare_fixed k xs ys m n) = false.
Proof.
  intros [G1 G2]. induction k as [|k IH]; intros a b xs ys za zb m n I hk; [lia|].
  cbn [cw_iter compare_fixed].
  assert (I' := I). destruct I' as (h1 & h2 & h3 & h4 & h5 & h6 & h7 & h8).
  destruct h1 as [|ai x a xs hx h1], h2 as [|bi y b ys hy h2]; cbn [length] in hk.
  - destruct (za =? dyn) eqn:ea.
    + cbn [negb andb orb].
      apply Z.eqb_eq in ea. subst za.
      replace (dyn =? 0) with false by reflexivity.
      destruct (zb =? 0) eqn:e0.
      * apply Z.eqb_eq in e0. subst zb. destruct h6 as [h6|[h6 _]]; [discriminate h6|].
        assert (n = 0%nat) by lia. subst n. unfold nat_order. cbn [do_comps existsb]. rewrite !orb_false_iff.
        intros (c1 & c2 & _). destruct m; [exact c2|exact c1].
      * destruct (zb =? dyn); [discriminate|]. cbn [negb do_comps existsb orb andb].
        rewrite !orb_false_iff. intros (c1 & c2 & c3 & _). unfold nat_order. now destruct (m ?= n)%nat.
    + destruct (zb =? dyn) eqn:eb.
      * cbn [negb andb orb]. destruct (za =? 0) eqn:e0.
        -- rewrite (bank_dyn _ _ _ h5 ea) in *. apply Z.eqb_eq in e0. assert (m = 0%nat) by lia. subst m.
           cbn [do_comps existsb]. rewrite !orb_false_iff. intros (c1 & c2 & _).
           unfold nat_order. destruct n; [exact c2|exact c1].
        -- destruct (zb =? 0) eqn:e1; [apply Z.eqb_eq in eb; rewrite eb in e1; discriminate|].
           cbn [do_comps existsb]. rewrite !orb_false_iff. intros (c1 & c2 & c3 & _). unfold nat_order.
           now destruct (m ?= n)%nat.
      * cbn [negb andb]. rewrite (bank_dyn _ _ _ h5 ea), (bank_dyn _ _ _ h6 eb), size_nat. trivial.
  - rewrite (elt_static _ _ hy). destruct (elt_euclidean bi) eqn:eb.
    + intros h. eapply IH; [| |exact h]; [now apply inv_b with (1 := eb) (2 := I)|cbn; lia].
    + destruct (za =? dyn) eqn:da; [|destruct (zb =? dyn) eqn:db]; cbn [orb].
      * destruct (elt_dim bi =? dyn) eqn:de; cbn [negb andb orb]; [discriminate|].
        rewrite orb_false_iff. intros [c1 c2]. destruct (m <=? n)%nat; trivial.
      * destruct (elt_dim bi =? dyn) eqn:de; cbn [negb andb orb]; [discriminate|].
        rewrite orb_false_iff. intros [c1 c2]. destruct (m <=? n)%nat; trivial.
      * rewrite (bank_dyn _ _ _ h5 da), (bank_dyn _ _ _ h6 db), of_nat_leb.
        destruct (m <=? n)%nat; trivial. destruct (elt_dim bi =? dyn); trivial.
        cbn [do_comps existsb andb]. rewrite !orb_false_iff. tauto.
  - rewrite (elt_static _ _ hx). destruct (elt_euclidean ai) eqn:eb.
    + intros h. eapply IH; [| |exact h]; [now apply inv_a with (1 := eb) (2 := I)|cbn; lia].
    + destruct (za =? dyn) eqn:da; [|destruct (zb =? dyn) eqn:db]; cbn [orb].
      * destruct (elt_dim ai =? dyn) eqn:de; cbn [negb andb orb]; [discriminate|].
        rewrite orb_false_iff. intros [c1 c2]. destruct (n <=? m)%nat; trivial.
      * destruct (elt_dim ai =? dyn) eqn:de; cbn [negb andb orb]; [discriminate|].
        rewrite orb_false_iff. intros [c1 c2]. destruct (n <=? m)%nat; trivial.
      * rewrite (bank_dyn _ _ _ h5 da), (bank_dyn _ _ _ h6 db), of_nat_leb.
        destruct (n <=? m)%nat; trivial. destruct (elt_dim ai =? dyn); trivial.
        cbn [do_comps existsb andb]. rewrite !orb_false_iff. tauto.
  - rewrite (elt_static _ _ hx), (elt_static _ _ hy).
    assert (R : comp (Some Eq) = false -> comp None = false -> forall o, comp o = false).
    { intros c1 c2. destruct (G1 c1 c2). intros [[]|]; trivial. }
    destruct (elt_euclidean ai) eqn:ea, (elt_euclidean bi) eqn:eb; cbn [andb].
    + intros h. rewrite (inv_plain _ _ _ _ _ _ _ _ _ eb I) in h. eapply IH; [| |exact h]; [|lia].
      apply inv_a with (1 := ea). now apply inv_b with (1 := eb).
    + intros h. eapply IH; [| |exact h]; [now apply inv_a with (1 := ea)|cbn; lia].
    + intros h. eapply IH; [| |exact h]; [now apply inv_b with (1 := eb)|cbn; lia].
    + destruct ((za =? dyn) || (zb =? dyn)) eqn:da.
      { cbn [andb do_comps existsb]. rewrite !orb_false_iff. intros (c1 & c2 & _). now apply R. }
      apply orb_false_iff in da. destruct da as [da db].
      rewrite (bank_dyn _ _ _ h5 da), (bank_dyn _ _ _ h6 db), of_nat_eqb.
      destruct (m =? n)%nat; cbn [negb andb]; [|trivial].
      assert (I2 := inv_both _ _ _ _ _ _ _ _ _ _ _ _ I).
      destruct (same_descriptors ai bi) eqn:sd.
      { rewrite (same_codes _ _ _ _ hx hy sd), Z.eqb_refl. intros h. eapply IH; [| |exact h]; trivial; lia. }
      destruct (different_descriptors ai bi) eqn:dd.
      { rewrite (different_codes _ _ _ _ hx hy dd). trivial. }
      destruct (comp (Some Eq)) eqn:c1.
      { intros h. destruct (code x =? code y); [|auto]. eapply IH; [| |exact h]; trivial; lia. }
      destruct (comp None) eqn:c2; [discriminate|]. intros _. now apply R.
Qed.

(** ** Tuples of constants *)
Lemma known_fits_iter : forall k a b xs ys za zb m n perm, Inv a b xs ys za zb m n ->
  forallb known a = true -> forallb known b = true -> za <> dyn -> zb <> dyn ->
  (length a + length b < k)%nat ->
  cw_iter k comp perm a b za zb = comp (compare_fixed k xs ys m n).
Proof.
  induction k as [|k IH]; intros a b xs ys za zb m n perm I ka kb da db hk; [lia|].
  assert (KD : forall z n e l, known e = true -> bank_ok z n (e :: l) -> z <> dyn ->
    elt_dim e <> dyn /\ inc_bank z (elt_dim e) <> dyn).
  { intros z n0 [d| |] l; try discriminate. cbn [elt_dim known]. intros _ [hb|[-> hb]] hz; [contradiction|].
    cbn [constant_dims fold_right] in hb. fold (constant_dims l) in hb. pose proof (constant_dims_nonneg l).
    assert (Z.of_nat (dimension d) <> dyn) by lia. split; trivial. unfold inc_bank.
    rewrite (proj2 (Z.eqb_neq _ _)), (proj2 (Z.eqb_neq _ _)) by lia. cbn [orb].
    rewrite Z.mod_small by (rewrite two64_val; lia). lia. }
  assert (da' := proj2 (Z.eqb_neq _ _) da). assert (db' := proj2 (Z.eqb_neq _ _) db).
  cbn [cw_iter compare_fixed].
  assert (I' := I). destruct I' as (h1 & h2 & h3 & h4 & h5 & h6 & h7 & h8).
  destruct h1 as [|ai x a xs hx h1], h2 as [|bi y b ys hy h2]; cbn [length forallb] in *.
  - rewrite da', db'. cbn [negb andb]. now rewrite (bank_dyn _ _ _ h5 da'), (bank_dyn _ _ _ h6 db'), size_nat.
  - apply andb_true_iff in kb. destruct kb as [kb kb'].
    destruct (KD _ _ _ _ kb h6 db) as [d1 d2].
    rewrite (elt_static _ _ hy). destruct (elt_euclidean bi) eqn:eb.
    + apply IH; trivial; [|cbn; lia]. now apply inv_b with (1 := eb) (2 := I).
    + rewrite da', db', (proj2 (Z.eqb_neq _ _) d1). cbn [orb].
      rewrite (bank_dyn _ _ _ h5 da'), (bank_dyn _ _ _ h6 db'), of_nat_leb. now destruct (m <=? n)%nat.
  - apply andb_true_iff in ka. destruct ka as [ka ka'].
    destruct (KD _ _ _ _ ka h5 da) as [d1 d2].
    rewrite (elt_static _ _ hx). destruct (elt_euclidean ai) eqn:eb.
    + apply IH; trivial; [|cbn; lia]. now apply inv_a with (1 := eb) (2 := I).
    + rewrite da', db', (proj2 (Z.eqb_neq _ _) d1). cbn [orb].
      rewrite (bank_dyn _ _ _ h5 da'), (bank_dyn _ _ _ h6 db'), of_nat_leb. now destruct (n <=? m)%nat.
  - assert (ka2 := ka). assert (kb2 := kb).
    apply andb_true_iff in ka. destruct ka as [ka ka'].
    apply andb_true_iff in kb. destruct kb as [kb kb'].
    destruct (KD _ _ _ _ ka h5 da) as [d1 d2]. destruct (KD _ _ _ _ kb h6 db) as [d3 d4].
    rewrite (elt_static _ _ hx), (elt_static _ _ hy).
    destruct (elt_euclidean ai) eqn:ea, (elt_euclidean bi) eqn:eb; cbn [andb].
    + rewrite (inv_plain _ _ _ _ _ _ _ _ _ eb I). apply IH; trivial; [|lia].
      apply inv_a with (1 := ea). now apply inv_b with (1 := eb).
    + apply IH; trivial; [|cbn; lia]. now apply inv_a with (1 := ea).
    + apply IH; trivial; [|cbn; lia]. now apply inv_b with (1 := eb).
    + rewrite da', db'. cbn [orb].
      rewrite (bank_dyn _ _ _ h5 da'), (bank_dyn _ _ _ h6 db'), of_nat_eqb.
      destruct (m =? n)%nat; cbn [negb andb]; [|trivial].
      assert (I2 := inv_both _ _ _ _ _ _ _ _ _ _ _ _ I).
      destruct ai as [p| |]; try discriminate. destruct bi as [q| |]; try discriminate.
      cbn in hx, hy. subst x y. unfold code. cbn [same_descriptors different_descriptors the_desc].
      destruct (hash p =? hash q); cbn [negb]; trivial.
      apply IH; trivial; pose proof dyn_pos; lia.
Qed.
End Iter.

(** ** The run-time comparison of two tuples *)
Lemma fixed_static k : forall xs ys m n, (length xs + length ys < k)%nat ->
  forallb static_euclidean xs = true -> forallb static_euclidean ys = true ->
  compare_fixed k xs ys m n = nat_order (m + total_dim xs) (n + total_dim ys).
Proof.
  induction k as [|k IH]; intros xs ys m n hk hx hy; [lia|].
  cbn [compare_fixed].
  destruct xs as [|x xs], ys as [|y ys]; cbn [forallb length total_dim fold_right] in *.
  - now rewrite !Nat.add_0_r.
  - apply andb_true_iff in hy. destruct hy as [e hy]. rewrite e, IH by (trivial; cbn; lia).
    unfold total_dim; cbn [fold_right]; f_equal; lia.
  - apply andb_true_iff in hx. destruct hx as [e hx]. rewrite e, IH by (trivial; cbn; lia).
    unfold total_dim; cbn [fold_right]; f_equal; lia.
  - apply andb_true_iff in hx. destruct hx as [e hx]. apply andb_true_iff in hy. destruct hy as [e2 hy].
    rewrite e, e2, IH by (trivial; cbn; lia). unfold total_dim; cbn [fold_right]; f_equal; lia.
Qed.

Lemma fixed_nil_l k : forall ys n, (length ys < k)%nat -> forallb static_euclidean ys = false ->
  compare_fixed k [] ys 0 n = Some Lt.
Proof.
  induction k as [|k IH]; intros ys n hk h; [lia|]. destruct ys as [|y ys]; [discriminate|].
  cbn [compare_fixed forallb length] in *. destruct (static_euclidean y); [apply IH; trivial; lia|]. reflexivity.
Qed.

Lemma fixed_nil_r k : forall xs n, (length xs < k)%nat -> forallb static_euclidean xs = false ->
  compare_fixed k xs [] n 0 = Some Gt.
Proof.
  induction k as [|k IH]; intros ys n hk h; [lia|]. destruct ys as [|y ys]; [discriminate|].
  cbn [compare_fixed forallb length] in *. destruct (static_euclidean y); [apply IH; trivial; lia|]. reflexivity.
Qed.

Lemma sized_fixed xs ys : compare_sized (PFix xs) (PFix ys) = compare_fixed (enough xs ys) xs ys 0 0.
Proof.
  unfold compare_sized. cbn [static_euclidean_pattern items].
  destruct (forallb static_euclidean xs) eqn:ex, (forallb static_euclidean ys) eqn:ey; cbn [andb].
  - rewrite fixed_static by (trivial; unfold enough; lia). reflexivity.
  - destruct xs as [|x xs], ys as [|y ys]; try discriminate ey; trivial.
    cbn [length Nat.eqb orb nat_order]. rewrite fixed_nil_l; [reflexivity|unfold enough; cbn; lia|trivial].
  - destruct xs as [|x xs], ys as [|y ys]; try discriminate ex; trivial.
    cbn [length Nat.eqb orb nat_order]. rewrite fixed_nil_r; [reflexivity|unfold enough; cbn; lia|trivial].
  - destruct xs as [|x xs], ys as [|y ys]; try discriminate ex; try discriminate ey. reflexivity.
Qed.

(** Tuples of constant dimension zero. *)
Lemma tup_dim_known l : fits l -> forallb known l = true -> tup_dim l = constant_dims l.
Proof.
  intros hf hk. unfold tup_dim. rewrite hk. induction l as [|[d| |] l IH]; try discriminate hk; [reflexivity|].
  cbn [fold_right constant_dims elt_dim]. fold (constant_dims l). rewrite (IH (fits_tl _ _ hf) hk).
  unfold fits in hf. cbn [constant_dims fold_right] in hf. fold (constant_dims l) in hf. pose proof (constant_dims_nonneg l).
  apply Z.mod_small. rewrite two64_val, dyn_val. lia.
Qed.

Lemma tup_dim_zero l : fits l -> tup_dim l = 0 -> Forall (fun e => e = Known (Dim 0)) l.
Proof.
  intros hf h. destruct (forallb known l) eqn:k; [|unfold tup_dim in h; rewrite k in h; discriminate h].
  rewrite tup_dim_known in h by trivial. clear hf. induction l as [|[d| |] l IH]; try discriminate k; [constructor|].
  cbn [constant_dims fold_right] in h. fold (constant_dims l) in h. pose proof (constant_dims_nonneg l).
  constructor; [|apply IH; trivial; lia]. destruct d as [n| | | | |]; cbn [dimension] in h; try lia.
  destruct n; [reflexivity|lia].
Qed.

Lemma zero_items l xs : Forall (fun e => e = Known (Dim 0)) l -> Forall2 of_elt l xs ->
  forallb static_euclidean xs = true /\ total_dim xs = 0%nat.
Proof.
  intros h k. induction k as [|e x l xs hx k IH]; [split; reflexivity|].
  inversion h; subst. destruct IH as [i1 i2]; trivial. cbn in hx. subst x. split; [exact i1|exact i2].
Qed.

Lemma zero_zero t u xs ys : fits t -> fits u -> tup_dim t = 0 -> tup_dim u = 0 ->
  Forall2 of_elt t xs -> Forall2 of_elt u ys -> compare_fixed (enough xs ys) xs ys 0 0 = Some Eq.
Proof.
  intros ft fu ht hu hx hy.
  destruct (zero_items _ _ (tup_dim_zero _ ft ht) hx). destruct (zero_items _ _ (tup_dim_zero _ fu hu) hy).
  rewrite fixed_static by (trivial; unfold enough; lia). now rewrite H0, H2.
Qed.

Lemma tup_empty (t u : list elt) xs ys : (length t =? 0)%nat && (length u =? 0)%nat = true ->
  Forall2 of_elt t xs -> Forall2 of_elt u ys -> compare_fixed (enough xs ys) xs ys 0 0 = Some Eq.
Proof.
  destruct t; [|discriminate]. destruct u; [|discriminate]. intros _ h k. inversion h; inversion k. reflexivity.
Qed.

Lemma forall2_len (t : list elt) xs : Forall2 of_elt t xs -> length t = length xs.
Proof. intros h. induction h; cbn; auto. Qed.

Lemma enough_len (t u : list elt) xs ys : Forall2 of_elt t xs -> Forall2 of_elt u ys ->
  S (length t + length u) = enough xs ys.
Proof. intros h k. unfold enough. now rewrite (forall2_len _ _ h), (forall2_len _ _ k). Qed.

Lemma tup_guaranteed comp t u xs ys : good_all comp -> fits t -> fits u -> apart u ->
  Forall2 of_elt t xs -> Forall2 of_elt u ys -> cw_tup comp false t u = true ->
  comp (compare_sized (PFix xs) (PFix ys)) = true.
Proof.
  intros g ft fu au hx hy. rewrite sized_fixed. unfold cw_tup.
  destruct ((tup_dim t =? 0) && (tup_dim u =? 0)) eqn:z.
  { apply andb_true_iff in z. destruct z as [z1 z2]. apply Z.eqb_eq in z1, z2.
    now rewrite (zero_zero t u) by trivial. }
  destruct ((length t =? 0)%nat && (length u =? 0)%nat) eqn:l; [now rewrite (tup_empty t u) by trivial|].
  rewrite (enough_len _ _ _ _ hx hy). apply guaranteed_iter; trivial. now apply inv_zero.
Qed.

Lemma tup_permitted comp t u xs ys : good_none comp -> fits t -> fits u -> apart u ->
  Forall2 of_elt t xs -> Forall2 of_elt u ys -> cw_tup comp true t u = false ->
  comp (compare_sized (PFix xs) (PFix ys)) = false.
Proof.
  intros g ft fu au hx hy. rewrite sized_fixed. unfold cw_tup.
  destruct ((tup_dim t =? 0) && (tup_dim u =? 0)) eqn:z.
  { apply andb_true_iff in z. destruct z as [z1 z2]. apply Z.eqb_eq in z1, z2.
    now rewrite (zero_zero t u) by trivial. }
  destruct ((length t =? 0)%nat && (length u =? 0)%nat) eqn:l; [now rewrite (tup_empty t u) by trivial|].
  rewrite <- (enough_len _ _ _ _ hx hy). apply permitted_iter; trivial; [now apply inv_zero|lia].
Qed.

Lemma tup_known comp perm t u xs ys : fits t -> fits u -> forallb known t = true -> forallb known u = true ->
  Forall2 of_elt t xs -> Forall2 of_elt u ys ->
  cw_tup comp perm t u = comp (compare_sized (PFix xs) (PFix ys)).
Proof.
  intros ft fu kt ku hx hy. rewrite sized_fixed. unfold cw_tup.
  destruct ((tup_dim t =? 0) && (tup_dim u =? 0)) eqn:z.
  { apply andb_true_iff in z. destruct z as [z1 z2]. apply Z.eqb_eq in z1, z2.
    now rewrite (zero_zero t u) by trivial. }
  destruct ((length t =? 0)%nat && (length u =? 0)%nat) eqn:l; [now rewrite (tup_empty t u) by trivial|].
  rewrite <- (enough_len _ _ _ _ hx hy). apply known_fits_iter; trivial; try (pose proof dyn_pos; lia).
  apply inv_zero; trivial.
  clear - ku. induction u as [|[d| |] u IH]; try discriminate ku; [exact I|].
  destruct u as [|y u]; [exact I|]. split; [|now apply IH]. intros _ _. split; [discriminate|].
  cbn in ku. now destruct y.
Qed.

(** ** The standard comparisons *)
Lemma standard_good comp : standard comp -> good_all comp.
Proof.
  unfold standard, good_all. cbn. intros h. repeat (destruct h as [<-|h]; [cbn; auto; discriminate|]). destruct h.
Qed.

Lemma not_strict_good comp : not_strict comp -> good_none comp.
Proof.
  unfold not_strict, good_none. cbn. intros h.
  repeat (destruct h as [<-|h]; [cbn; split; intros; try discriminate; auto|]). destruct h.
Qed.

Lemma not_strict_standard comp : not_strict comp -> standard comp.
Proof. unfold not_strict, standard. cbn. tauto. Qed.

(** ** Two descriptors *)
Lemma desc_equal x y : euclidean x = true -> euclidean y = true ->
  compare_desc x y = compare_sized (PFix [mk_held false true (the_desc x)]) (PFix [mk_held false true (the_desc y)]).
Proof.
  intros hx hy. unfold compare_desc, compare_sized, euclidean, static_euclidean in *. cbn [static_euclidean_pattern items forallb length].
  unfold static_euclidean. cbn [in_any the_desc negb andb total_dim fold_right].
  rewrite hx, hy. cbn [andb]. unfold dim, total_dim. cbn [fold_right the_desc]. now rewrite !Nat.add_0_r.
Qed.

Lemma desc_coord x y : euclidean x = false -> euclidean y = false ->
  compare_desc x y = compare_sized (PFix [x]) (PFix [y]).
Proof.
  intros hx hy. unfold compare_desc. rewrite hx. cbn [andb]. rewrite sized_fixed. cbn [enough length Nat.add compare_fixed].
  unfold static_euclidean, euclidean in *. rewrite hx, hy, !andb_false_r. cbn [Nat.eqb andb]. now destruct (code x =? code y).
Qed.

Lemma one2 e x : of_elt e x -> Forall2 of_elt [e] [x].
Proof. intros h. repeat constructor. exact h. Qed.

(** Where the run-time comparison of two descriptors agrees with that of two
    tuples of one. *)
Lemma desc_sized d e x y : descriptors_ok d e -> d <> AnyDesc -> e <> AnyDesc -> of_elt d x -> of_elt e y ->
  compare_desc x y = compare_sized (PFix [x]) (PFix [y]).
Proof.
  intros ok nd ne hx hy.
  assert (EE : static_euclidean x = true -> static_euclidean y = true ->
    compare_desc x y = compare_sized (PFix [x]) (PFix [y])).
  { intros h k. assert (h' := h). assert (k' := k). unfold static_euclidean in h', k'. apply andb_true_iff in h', k'.
    destruct h' as [_ h'], k' as [_ k'].
    rewrite desc_equal by trivial. unfold compare_sized. cbn [static_euclidean_pattern items forallb].
    rewrite h, k. unfold static_euclidean. cbn [in_any the_desc negb]. rewrite h', k'. reflexivity. }
  destruct d as [a| |]; [| |contradiction]; destruct e as [b| |]; try contradiction; cbn in ok, hx, hy.
  - subst x y. destruct (is_euclidean a) eqn:ea, (is_euclidean b) eqn:eb.
    + apply EE; cbn; rewrite ?ea, ?eb; reflexivity.
    + destruct ok as [ok|(h1 & h2 & h3)]; [discriminate|].
      unfold compare_desc, euclidean. cbn [the_desc]. rewrite ea, eb. cbn [andb]. unfold code. cbn [the_desc].
      apply Z.eqb_neq in h3. rewrite h3. rewrite sized_fixed. cbn [enough length Nat.add compare_fixed].
      unfold static_euclidean. cbn [in_any the_desc negb]. rewrite ea, eb. cbn [andb Nat.add].
      unfold dim. cbn [the_desc]. destruct (dimension a); [lia|]. reflexivity.
    + destruct ok as [ok|(h1 & h2 & h3)]; [discriminate|].
      unfold compare_desc, euclidean. cbn [the_desc]. rewrite ea, eb. cbn [andb]. unfold code. cbn [the_desc].
      apply Z.eqb_neq in h3. rewrite h3. rewrite sized_fixed. cbn [enough length Nat.add compare_fixed].
      unfold static_euclidean. cbn [in_any the_desc negb]. rewrite ea, eb. cbn [andb Nat.add].
      unfold dim. cbn [the_desc]. destruct (dimension b); [lia|]. reflexivity.
    + apply desc_coord; unfold euclidean; cbn; trivial.
  - destruct hy as [n ->]. subst x. apply EE; cbn; rewrite ?ok; reflexivity.
  - destruct hx as [n ->]. subst y. apply EE; cbn; rewrite ?ok; reflexivity.
  - destruct hx as [n ->], hy as [q ->]. apply EE; reflexivity.
Qed.

(** A descriptor in an [Any] against a descriptor: nothing is guaranteed, and
    every comparison that is not strict is permitted unless it fails. *)
Lemma std_eq_none comp : standard comp -> comp (Some Eq) = true \/ comp None = true \/ comp = is_lt \/ comp = is_gt.
Proof.
  unfold standard. cbn. intros h.
  repeat (destruct h as [<-|h]; [cbn; auto|]). destruct h.
Qed.

Lemma any_descriptor comp d e : standard comp -> d = AnyDesc \/ e = AnyDesc -> descriptors_ok d e ->
  fits [d] -> fits [e] -> cw_tup comp false [d] [e] = false /\ (not_strict comp -> cw_tup comp true [d] [e] = true).
Proof.
  intros st ha ok fd fe.
  assert (P : 0 < dyn) by reflexivity.
  assert (Z1 : forall a l, elt_euclidean (Known a) = true -> a <> Dim 0 -> fits (Known a :: l) ->
    (0 < Z.of_nat (dimension a) < dyn)).
  { intros a l. unfold fits. rewrite cd_known. pose proof (constant_dims_nonneg l).
    destruct a as [n| | | | |]; cbn; try discriminate. intros _ hn h. destruct n; [congruence|]. lia. }
  assert (N : not_strict comp -> comp (Some Eq) = true \/ comp None = true).
  { unfold not_strict. cbn. intros h. repeat (destruct h as [<-|h]; [cbn; auto|]). destruct h. }
  assert (NE : comp (Some Eq) = true -> comp None = false).
  { revert st. unfold standard. cbn. intros h. repeat (destruct h as [<-|h]; [cbn; auto; discriminate|]). destruct h. }
  assert (TA : tup_dim [AnyDesc] = dyn) by reflexivity.
  unfold cw_tup. cbn [length Nat.eqb andb].
  assert (C : (tup_dim [d] =? 0) && (tup_dim [e] =? 0) = false).
  { destruct ha as [->| ->]; [reflexivity|]. apply andb_false_r. }
  rewrite C. clear C. cbn [Nat.add]. cbn [cw_iter].
  destruct d as [a| |], e as [b| |]; try (destruct ha; discriminate); cbn in ok.
  - destruct (elt_euclidean (Known a)) eqn:ea; cbn [elt_euclidean andb].
    + destruct (Z1 _ _ ea ok fd) as [z1 z2].
      assert (ib : inc_bank 0 (elt_dim (Known a)) = Z.of_nat (dimension a)).
      { unfold inc_bank. cbn [elt_dim]. rewrite (proj2 (Z.eqb_neq 0 dyn)), (proj2 (Z.eqb_neq _ dyn)) by lia.
        cbn [orb]. rewrite Z.add_0_l. apply Z.mod_small. rewrite two64_val. lia. }
      cbn [elt_euclidean] in ea. rewrite ?ea. cbn [andb]. rewrite ib.
      rewrite (proj2 (Z.eqb_neq _ dyn)) by lia. cbn [orb]. replace (0 =? dyn) with false by reflexivity. cbn [orb].
      rewrite (proj2 (Z.leb_gt _ 0)) by lia. cbn [elt_dim]. rewrite Z.eqb_refl. cbn [andb].
      split; [reflexivity|]. intros ns. cbn [do_comps existsb].
      destruct (N ns) as [-> | ->]; rewrite ?orb_true_r; reflexivity.
    + cbn [elt_euclidean] in ea. rewrite ?ea. cbn [andb]. replace (0 =? dyn) with false by reflexivity.
      cbn [orb Z.eqb negb same_descriptors different_descriptors].
      replace (0 =? dyn) with false by reflexivity. cbn [negb andb].
      destruct (comp (Some Eq)) eqn:c1.
      { split; [reflexivity|]. intros ns. cbn. exact c1. }
      destruct (comp None) eqn:c2.
      { split; [|reflexivity]. cbn. exact c1. }
      split; [destruct (comp (Some Lt)); reflexivity|]. intros ns. destruct (N ns); congruence.
  - cbn [elt_euclidean andb elt_dim]. replace (inc_bank 0 dyn) with dyn by reflexivity. rewrite Z.eqb_refl.
    cbn [orb negb andb]. split; [reflexivity|]. reflexivity.
  - destruct (elt_euclidean (Known b)) eqn:eb; cbn [elt_euclidean andb].
    + destruct (Z1 _ _ eb ok fe) as [z1 z2].
      assert (ib : inc_bank 0 (elt_dim (Known b)) = Z.of_nat (dimension b)).
      { unfold inc_bank. cbn [elt_dim]. rewrite (proj2 (Z.eqb_neq 0 dyn)), (proj2 (Z.eqb_neq _ dyn)) by lia.
        cbn [orb]. rewrite Z.add_0_l. apply Z.mod_small. rewrite two64_val. lia. }
      cbn [elt_euclidean] in eb. rewrite ?eb. rewrite ib.
      rewrite (proj2 (Z.eqb_neq (Z.of_nat (dimension b)) dyn)) by lia. cbn [orb]. replace (0 =? dyn) with false by reflexivity. cbn [orb].
      rewrite (proj2 (Z.leb_gt _ 0)) by lia. cbn [elt_dim]. rewrite Z.eqb_refl. cbn [andb].
      split; [reflexivity|]. intros ns. cbn [do_comps existsb].
      destruct (N ns) as [-> | ->]; rewrite ?orb_true_r; reflexivity.
    + cbn [elt_euclidean] in eb. rewrite ?eb. replace (0 =? dyn) with false by reflexivity.
      cbn [orb Z.eqb negb same_descriptors different_descriptors].
      destruct (comp (Some Eq)) eqn:c1.
      { split; [reflexivity|]. intros ns. cbn. exact c1. }
      destruct (comp None) eqn:c2.
      { split; [|reflexivity]. cbn. exact c1. }
      split; [destruct (comp (Some Lt)); reflexivity|]. intros ns. destruct (N ns); congruence.
  - cbn [elt_euclidean andb elt_dim]. replace (inc_bank 0 dyn) with dyn by reflexivity. rewrite Z.eqb_refl.
    cbn [orb negb andb]. rewrite orb_true_r. split; reflexivity.
  - cbn [elt_euclidean andb]. replace (0 =? dyn) with false by reflexivity.
    cbn [orb Z.eqb negb same_descriptors different_descriptors].
    destruct (comp (Some Eq)) eqn:c1.
    { split; [reflexivity|]. intros ns. cbn. exact c1. }
    destruct (comp None) eqn:c2.
    { split; [|reflexivity]. cbn. exact c1. }
    split; [destruct (comp (Some Lt)); reflexivity|]. intros ns. destruct (N ns); congruence.
Qed.

(** ** A tuple and a collection of run-time size *)
Lemma cmp_eq_tokens s : forall t, cmp_tokens s t = Some Eq -> s = t.
Proof.
  intros t h. pose proof (cmp_tokens_ok s t) as p. rewrite h in p. cbn in p. destruct p as [p q].
  revert t h p q. induction s as [|x s IH]; intros [|y t] h p q; trivial.
  - exfalso. now apply not_prefix_nil in q.
  - exfalso. now apply not_prefix_nil in p.
  - cbn [cmp_tokens] in h. destruct (token_eqb x y) eqn:e; [|discriminate h].
    apply token_eqb_eq in e. subst y. f_equal.
    pose proof (cmp_tokens_ok s t) as r. rewrite h in r. destruct r. now apply IH.
Qed.

Lemma cmp_tokens_refl s : cmp_tokens s s = Some Eq.
Proof.
  induction s as [|x s IH]; [reflexivity|]. cbn [cmp_tokens].
  replace (token_eqb x x) with true by (symmetry; now apply token_eqb_eq). exact IH.
Qed.

Lemma cmp_lt_tokens s : forall t, cmp_tokens s t = Some Lt -> exists r, t = s ++ r.
Proof.
  induction s as [|x s IH]; intros t h; [now exists t|]. destruct t as [|y t]; [discriminate h|].
  cbn [cmp_tokens] in h. destruct (token_eqb x y) eqn:e; [|discriminate h].
  apply token_eqb_eq in e. subst y. destruct (IH _ h) as [r ->]. now exists r.
Qed.

Lemma known_items t xs : forallb known t = true -> Forall2 of_elt t xs ->
  open_kinds xs /\ (nonzero t -> xs = [] \/ tokens xs <> []).
Proof.
  intros k h. split.
  - clear - k h. induction h as [|e x t xs hx h IH]; [constructor|]. cbn in k. apply andb_true_iff in k.
    destruct k as [k1 k2]. constructor; [|now apply IH]. destruct e; try discriminate k1. cbn in hx. subst x. reflexivity.
  - intros nz. destruct h as [|e x t xs hx h]; [now left|]. right. rewrite tokens_cons.
    cbn in k. apply andb_true_iff in k. destruct k as [k1 _]. destruct e as [d| |]; try discriminate k1.
    cbn in hx. subst x. cbn [the_desc]. destruct d as [n| | | | |]; cbn; try discriminate.
    destruct n; [|discriminate]. exfalso. apply nz. now left.
Qed.

Lemma rep_items d ys : Forall (of_elt (Known d)) ys -> ys = repeat (mk_held false true d) (length ys).
Proof. intros h. induction h as [|x ys hx h IH]; [reflexivity|]. cbn. cbn in hx. now rewrite hx, <- IH. Qed.

Lemma rep_of d n : Forall2 of_elt (repeat (Known d) n) (repeat (mk_held false true d) n).
Proof. induction n; constructor; trivial. reflexivity. Qed.

Lemma rep_known d n : forallb known (repeat (Known d) n) = true.
Proof. induction n; trivial. Qed.

Lemma typed_dyn e ys : Forall (of_elt e) ys -> well_typed (PDyn (elt_euclidean e) ys).
Proof.
  intros h. cbn. destruct (elt_euclidean e) eqn:ee; (eapply Forall_impl; [|exact h]);
    intros x hx; now rewrite (elt_static _ _ hx).
Qed.

Lemma vec_tokens t d xs ys : forallb known t = true -> nonzero t -> d <> Dim 0 ->
  Forall2 of_elt t xs -> Forall (of_elt (Known d)) ys ->
  compare_sized (PFix xs) (PDyn (is_euclidean d) ys) = cmp_tokens (tokens xs) (tokens ys).
Proof.
  intros kt nz nd hx hy. apply compare_sized_ok; trivial; cbn [items].
  - exact I.
  - exact (typed_dyn (Known d) ys hy).
  - discriminate.
  - assert (TY : ys = [] \/ tokens ys <> []).
    { destruct hy as [|y ys h hy]; [now left|]. right. rewrite tokens_cons. cbn in h. subst y. cbn [the_desc].
      destruct d as [n| | | | |]; cbn; try discriminate. destruct n; [congruence|discriminate]. }
    destruct (known_items _ _ kt hx) as [_ K]. split; intros _; auto.
Qed.

Lemma rep_tokens t d n xs : forallb known t = true ->
  Forall2 of_elt t xs -> nonzero t -> d <> Dim 0 ->
  compare_sized (PFix xs) (PFix (repeat (mk_held false true d) n)) =
  cmp_tokens (tokens xs) (tokens (repeat (mk_held false true d) n)).
Proof.
  intros kt hx nz nd.
  apply compare_sized_ok; trivial; cbn [items]; try exact I.
  - intros _ _. split; [now apply (known_items t)|].
    apply (known_items (repeat (Known d) n)); auto using rep_known, rep_of.
  - destruct (known_items _ _ kt hx) as [_ K].
    destruct (known_items _ _ (rep_known d n) (rep_of d n)) as [_ K2].
    split; intros _; auto. apply K2. intros h. apply repeat_spec in h. congruence.
Qed.

Lemma tokens_rep d n : tokens (repeat (mk_held false true d) n) = concat (repeat (tokens1 d) n).
Proof. unfold tokens. f_equal. induction n; cbn; congruence. Qed.

Lemma in_tokens_rep d n c : In c (tokens (repeat (mk_held false true d) n)) ->
  if is_euclidean d then c = Axis else c = Code (hash d).
Proof.
  rewrite tokens_rep. intros h. apply in_concat in h. destruct h as (l & h1 & h2).
  apply repeat_spec in h1. subst l. destruct d; cbn in *; try (destruct h2 as [<-|[]]; reflexivity).
  now apply repeat_spec in h2.
Qed.

(** A tuple of nonzero constants that starts a repetition of one descriptor,
    not both Euclidean, is the repetition. *)
Lemma starts_repetition t xs d k r : forallb known t = true -> nonzero t ->
  forallb elt_euclidean t && is_euclidean d = false -> Forall2 of_elt t xs ->
  tokens (repeat (mk_held false true d) k) = tokens xs ++ r ->
  tokens xs = tokens (repeat (mk_held false true d) (length t)).
Proof.
  intros kt nz ne hx h.
  assert (A : forall c, In c (tokens xs) -> if is_euclidean d then c = Axis else c = Code (hash d)).
  { intros c hc. apply (in_tokens_rep d k). rewrite h. apply in_or_app. now left. }
  clear h k r. destruct (is_euclidean d) eqn:ed.
  - exfalso. rewrite andb_true_r in ne. clear nz ed.
    induction hx as [|e x t xs he hx IH]; [discriminate|]. cbn [forallb] in *.
    apply andb_true_iff in kt. destruct kt as [k1 k2]. rewrite tokens_cons in A.
    destruct (elt_euclidean e) eqn:ee.
    + apply IH; trivial. intros c hc. apply A. apply in_or_app. now right.
    + destruct e as [q| |]; try discriminate k1. cbn in he, ee. subst x.
      assert (Q : In (Code (hash q)) (tokens1 q)) by (destruct q; try discriminate ee; now left).
      specialize (A (Code (hash q))). cbn in A. rewrite in_app_iff in A. discriminate (A (or_introl Q)).
  - clear ne. assert (TD : tokens1 d = [Code (hash d)]) by (destruct d; try discriminate ed; reflexivity).
    rewrite tokens_rep, TD. clear TD.
    induction hx as [|e x t xs he hx IH]; [reflexivity|]. cbn [forallb] in *.
    apply andb_true_iff in kt. destruct kt as [k1 k2]. rewrite tokens_cons in *. cbn [length repeat concat].
    rewrite IH; trivial.
    + f_equal. destruct e as [q| |]; try discriminate k1. cbn in he. subst x. cbn [the_desc] in *.
      destruct (is_euclidean q) eqn:eq.
      * destruct q as [n| | | | |]; try discriminate eq.
        destruct n; [exfalso; apply nz; now left|]. exfalso.
        assert (Q : Axis = Code (hash d)) by (apply A; now left). discriminate Q.
      * assert (TQ : tokens1 q = [Code (hash q)]) by (destruct q; try discriminate eq; reflexivity).
        rewrite TQ in *. f_equal. apply A. now left.
    + intros q. apply nz. now right.
    + intros c hc. apply A. apply in_or_app. now right.
Qed.

Lemma euclid_tokens_dims t xs : fits t -> forallb known t = true -> forallb elt_euclidean t = true -> Forall2 of_elt t xs ->
  exists m, tokens xs = repeat Axis m /\ tup_dim t = Z.of_nat m.
Proof.
  intros ft kt et hx. rewrite tup_dim_known by trivial. clear ft.
  induction hx as [|e x t xs he hx IH]; [now exists 0%nat|]. cbn [forallb] in *.
  apply andb_true_iff in kt, et. destruct kt as [k1 k2], et as [e1 e2].
  destruct (IH k2 e2) as (m & h1 & h2). destruct e as [q| |]; try discriminate k1. cbn in he. subst x.
  destruct q as [n| | | | |]; try discriminate e1. exists (n + m)%nat. split.
  - rewrite tokens_cons, h1. cbn. now rewrite repeat_app.
  - rewrite cd_known, h2. cbn. lia.
Qed.

Lemma euclid_rep n k : tokens (repeat (mk_held false true (Dim n)) k) = repeat Axis (k * n).
Proof.
  rewrite tokens_rep. induction k; [reflexivity|]. cbn [repeat concat]. rewrite IHk.
  cbn [tokens1 Nat.mul]. now rewrite repeat_app.
Qed.

Lemma flat_nonzero t : nonzero t -> fits t -> tup_dim t = 0 -> t = [].
Proof.
  intros nz ft h. apply tup_dim_zero in h; trivial. destruct h as [|e l -> h]; trivial. exfalso. apply nz. now left.
Qed.

Lemma tup_dim_not_dyn t : fits t -> (tup_dim t =? dyn) = negb (forallb known t).
Proof.
  intros ft. destruct (forallb known t) eqn:k; cbn [negb].
  - rewrite tup_dim_known by trivial. apply Z.eqb_neq. unfold fits in ft. rewrite dyn_val. lia.
  - unfold tup_dim. rewrite k. apply Z.eqb_refl.
Qed.

Lemma elt_dim_not_dyn e : fits [e] -> (elt_dim e =? dyn) = negb (known e).
Proof.
  intros ft. destruct e as [d| |]; cbn [known negb elt_dim]; try apply Z.eqb_refl.
  apply Z.eqb_neq. unfold fits in ft. rewrite cd_known in ft. cbn [constant_dims fold_right] in ft. rewrite dyn_val. lia.
Qed.

Lemma elt_dim_nonzero e : nonzero [e] -> (elt_dim e =? 0) = false.
Proof.
  intros nz. destruct e as [d| |]; trivial. cbn [elt_dim]. apply Z.eqb_neq.
  destruct d as [n| | | | |]; cbn [dimension]; try lia. destruct n; [exfalso; apply nz; now left|lia].
Qed.

Lemma nonzero_dim d : nonzero [Known d] -> d <> Dim 0.
Proof. intros nz ->. apply nz. now left. Qed.

Lemma known_apart u : forallb known u = true -> apart u.
Proof.
  intros ku. induction u as [|[d| |] u IH]; try discriminate ku; [exact I|].
  destruct u as [|y u]; [exact I|]. split; [|now apply IH]. intros _ _. split; [discriminate|].
  cbn in ku. now destruct y.
Qed.

Section Vec.
Variables (comp : ordering -> bool) (t : list elt) (e : elt) (xs ys : list held).
Hypothesis ft : fits t.
Hypothesis fe : fits [e].
Hypothesis fr : fits (repeat e (length t)).
Hypothesis nt : nonzero t.
Hypothesis ne : nonzero [e].
Hypothesis hx : Forall2 of_elt t xs.
Hypothesis hy : Forall (of_elt e) ys.

Let result := compare_sized (PFix xs) (PDyn (elt_euclidean e) ys).

Lemma empty_result : t = [] -> result = Some Eq \/ result = Some Lt.
Proof.
  intros e0. unfold result. subst t. inversion hx; subst. clear hx.
  unfold compare_sized. cbn [static_euclidean_pattern items forallb andb].
  destruct (elt_euclidean e) eqn:ee.
  - unfold nat_order. cbn [total_dim fold_right]. fold (total_dim ys). destruct (total_dim ys); auto.
  - cbn [length Nat.eqb]. destruct (length ys =? 0)%nat; auto.
Qed.

Lemma known_result d : e = Known d -> forallb known t = true ->
  result = cmp_tokens (tokens xs) (tokens (repeat (mk_held false true d) (length ys))).
Proof.
  intros ed kt. unfold result. subst e. cbn [elt_euclidean].
  rewrite (vec_tokens t d) by (trivial; now apply nonzero_dim). now rewrite <- rep_items.
Qed.

(** Both Euclidean: never unordered, and equivalent only if it divides. *)
Lemma euclid_result d : e = Known d -> forallb known t = true -> forallb elt_euclidean t && elt_euclidean e = true ->
  exists c, result = Some c /\ (c = Eq -> tup_dim t mod elt_dim e = 0).
Proof.
  intros ed kt ee. rewrite (known_result d) by trivial. apply andb_true_iff in ee. destruct ee as [e1 e2].
  subst e. destruct d as [n| | | | |]; try discriminate e2.
  destruct (euclid_tokens_dims t xs) as (m & h1 & h2); trivial.
  rewrite h1, euclid_rep, cmp_axes. eexists. split; [reflexivity|]. intros c. apply Nat.compare_eq_iff in c.
  rewrite h2, c. cbn [elt_dim dimension]. rewrite Nat2Z.inj_mul. apply Z_mod_mult.
Qed.

(** Otherwise a tuple that starts the collection is the repetition. *)
Lemma start_result d : e = Known d -> forallb known t = true -> forallb elt_euclidean t && elt_euclidean e = false ->
  result = Some Eq \/ result = Some Lt ->
  compare_sized (PFix xs) (PFix (repeat (mk_held false true d) (length t))) = Some Eq.
Proof.
  intros ed kt ee h. rewrite (known_result d) in h by trivial.
  assert (nd : d <> Dim 0) by (subst e; now apply nonzero_dim).
  rewrite (rep_tokens t) by trivial.
  assert (P : exists r, tokens (repeat (mk_held false true d) (length ys)) = tokens xs ++ r).
  { destruct h as [h|h]; [apply cmp_eq_tokens in h; exists []; now rewrite app_nil_r|now apply cmp_lt_tokens]. }
  destruct P as [r hr]. subst e.
  rewrite <- (starts_repetition t xs d (length ys) r) by trivial. apply cmp_tokens_refl.
Qed.

Lemma tup_vec_guaranteed : good_all comp -> cw_tup_vec comp false t e = true -> comp result = true.
Proof.
  intros g. unfold cw_tup_vec. unfold vec_dim. rewrite elt_dim_nonzero by trivial.
  replace (dyn =? 0) with false by reflexivity. rewrite andb_false_r.
  destruct (tup_dim t =? 0) eqn:t0.
  { apply Z.eqb_eq in t0. apply flat_nonzero in t0; trivial. cbn [negb do_comps forallb].
    rewrite !andb_true_iff. intros (c1 & c2 & _). now destruct (empty_result t0) as [-> | ->]. }
  rewrite tup_dim_not_dyn, elt_dim_not_dyn by trivial. rewrite !negb_involutive.
  destruct (forallb known t) eqn:kt; cbn [andb]; [|discriminate].
  destruct (known e) eqn:ke; [|discriminate].
  assert (D : exists d, e = Known d) by (destruct e as [d| |]; [now exists d|discriminate|discriminate]).
  destruct D as [d ed].
  destruct (forallb elt_euclidean t && elt_euclidean e) eqn:ee.
  - destruct (euclid_result d ed kt ee) as (c & hc & h).
    destruct (comp None) eqn:cn.
    + cbn [orb]. rewrite negb_true_iff. intros h1. apply Z.eqb_neq in h1. rewrite hc.
      destruct (g cn). destruct c; trivial. now destruct (h1 (h eq_refl)).
    + destruct (do_comps comp false [Some Lt; Some Gt]); [discriminate|]. destruct (comp (Some Eq)); discriminate.
  - destruct (comp None) eqn:cn.
    + cbn [orb]. intros h. destruct (g cn) as [g1 g2].
      assert (hr : comp (compare_sized (PFix xs) (PFix (repeat (mk_held false true d) (length t)))) = true).
      { apply (tup_guaranteed comp t (repeat e (length t))); trivial.
        - rewrite ed. apply known_apart, rep_known.
        - rewrite ed. apply rep_of. }
      destruct result as [[]|] eqn:er; trivial.
      rewrite (start_result d) in hr; auto.
    + destruct (comp (Some Gt)); [discriminate|]. destruct (comp (Some Lt)); discriminate.
Qed.

Lemma tup_vec_permitted : cw_tup_vec comp true t e = false -> comp result = false.
Proof.
  unfold cw_tup_vec. unfold vec_dim. rewrite elt_dim_nonzero by trivial.
  replace (dyn =? 0) with false by reflexivity. rewrite andb_false_r.
  destruct (tup_dim t =? 0) eqn:t0.
  { apply Z.eqb_eq in t0. apply flat_nonzero in t0; trivial. cbn [negb do_comps existsb].
    rewrite !orb_false_iff. intros (c1 & c2 & _). now destruct (empty_result t0) as [-> | ->]. }
  rewrite tup_dim_not_dyn, elt_dim_not_dyn by trivial. rewrite !negb_involutive.
  destruct (forallb known t) eqn:kt; cbn [andb]; [|discriminate].
  destruct (known e) eqn:ke; [|discriminate].
  assert (D : exists d, e = Known d) by (destruct e as [d| |]; [now exists d|discriminate|discriminate]).
  destruct D as [d ed].
  destruct (forallb elt_euclidean t && elt_euclidean e) eqn:ee.
  - destruct (euclid_result d ed kt ee) as (c & hc & h). rewrite hc.
    destruct (comp None) eqn:cn; [discriminate|].
    destruct (do_comps comp false [Some Lt; Some Gt]) eqn:dc; [discriminate|].
    destruct (comp (Some Eq)) eqn:ce; [|discriminate]. intros hm. apply Z.eqb_neq in hm.
    cbn [do_comps existsb] in dc. rewrite !orb_false_iff in dc. destruct dc as (d1 & d2 & _).
    destruct c; trivial. now destruct (hm (h eq_refl)).
  - destruct (comp None) eqn:cn; [discriminate|].
    destruct (comp (Some Gt)) eqn:cg; [discriminate|].
    assert (AP : apart (repeat e (length t))) by (rewrite ed; apply known_apart, rep_known).
    assert (RO : Forall2 of_elt (repeat e (length t)) (repeat (mk_held false true d) (length t)))
      by (rewrite ed; apply rep_of).
    destruct (comp (Some Lt)) eqn:cl; intros h.
    + assert (hr : std_is_eq (compare_sized (PFix xs) (PFix (repeat (mk_held false true d) (length t)))) = false).
      { apply (tup_permitted std_is_eq t (repeat e (length t))); trivial.
        split; cbn; intros; try discriminate; auto. }
      destruct result as [[]|] eqn:er; trivial; rewrite (start_result d) in hr; auto; discriminate hr.
    + assert (hr : comp (compare_sized (PFix xs) (PFix (repeat (mk_held false true d) (length t)))) = false).
      { apply (tup_permitted comp t (repeat e (length t))); trivial.
        split; auto. }
      destruct result as [[]|] eqn:er; trivial. rewrite (start_result d) in hr; auto.
Qed.
End Vec.

(** ** The mirror image *)
Definition flipc (comp : ordering -> bool) (o : ordering) : bool := comp (option_map CompOpp o).

Lemma flip_good comp : good_all comp -> good_all (flipc comp).
Proof. intros g h. destruct (g h). split; assumption. Qed.

Lemma do_comps_swap comp b x y : do_comps comp b [x; y] = do_comps comp b [y; x].
Proof.
  destruct b; cbn; rewrite ?andb_true_r, ?orb_false_r; [apply andb_comm|apply orb_comm].
Qed.

Lemma tup_flip comp perm t u : fits t -> fits u -> forallb known t = true -> forallb known u = true ->
  cw_tup comp perm u t = cw_tup (flipc comp) perm t u.
Proof.
  intros ft fu kt ku.
  assert (K : forall l, forallb known l = true -> exists xs, Forall2 of_elt l xs).
  { induction l as [|[d| |] l IH]; intros k; try discriminate k; [exists []; constructor|].
    destruct (IH k) as [xs h]. exists (mk_held false true d :: xs). constructor; [reflexivity|exact h]. }
  destruct (K t kt) as [xs hx], (K u ku) as [ys hy].
  rewrite (tup_known comp perm u t ys xs), (tup_known (flipc comp) perm t u xs ys) by trivial.
  unfold flipc. now rewrite <- compare_sized_flip.
Qed.

Lemma vec_tup_flip comp perm e t : fits t -> fits [e] -> fits (repeat e (length t)) ->
  cw_vec_tup comp perm e t = cw_tup_vec (flipc comp) perm t e.
Proof.
  intros ft fe fr. unfold cw_vec_tup, cw_tup_vec.
  rewrite (andb_comm (vec_dim e =? 0)). destruct ((tup_dim t =? 0) && (vec_dim e =? 0)); [reflexivity|].
  destruct (tup_dim t =? 0); [reflexivity|]. destruct (elt_dim e =? 0); [reflexivity|].
  rewrite (andb_comm (negb (elt_dim e =? dyn))).
  rewrite tup_dim_not_dyn, elt_dim_not_dyn by trivial. rewrite !negb_involutive.
  destruct (forallb known t) eqn:kt; cbn [andb]; [|reflexivity]. destruct (known e) eqn:ke; [|reflexivity].
  assert (kr : forallb known (repeat e (length t)) = true).
  { destruct e as [d| |]; try discriminate ke. apply rep_known. }
  rewrite (andb_comm (elt_euclidean e)).
  rewrite (tup_flip comp perm t (repeat e (length t))), (tup_flip std_is_eq perm t (repeat e (length t))) by trivial.
  assert (Q : cw_tup (flipc std_is_eq) perm t (repeat e (length t)) = cw_tup std_is_eq perm t (repeat e (length t))).
  { assert (K : forall l, forallb known l = true -> exists xs, Forall2 of_elt l xs).
    { induction l as [|[d| |] l IH]; intros k; try discriminate k; [exists []; constructor|].
      destruct (IH k) as [xs h]. exists (mk_held false true d :: xs). constructor; [reflexivity|exact h]. }
    destruct (K t kt) as [xs hx], (K _ kr) as [ys hy].
    rewrite (tup_known _ perm t _ xs ys), (tup_known std_is_eq perm t _ xs ys) by trivial.
    unfold flipc. now destruct (compare_sized (PFix xs) (PFix ys)) as [[]|]. }
  rewrite Q. change (flipc comp None) with (comp None). change (flipc comp (Some Eq)) with (comp (Some Eq)).
  change (flipc comp (Some Gt)) with (comp (Some Lt)). change (flipc comp (Some Lt)) with (comp (Some Gt)).
  change (do_comps (flipc comp) false [Some Lt; Some Gt]) with (do_comps comp false [Some Gt; Some Lt]).
  now rewrite (do_comps_swap comp false (Some Gt)).
Qed.

(** ** All pairs of types *)
Lemma vec_vec comp dt du : nonzero [dt] -> nonzero [du] -> forall perm, cw_vec comp perm dt du = perm.
Proof.
  intros nt nu perm. unfold cw_vec, vec_dim. rewrite !elt_dim_nonzero by trivial. reflexivity.
Qed.

Lemma all_sound comp t u : standard comp -> tame t u -> compares_with comp false t u = true ->
  holds_for_all comp t u.
Proof.
  intros st (ft & fu & au & tm) h a b ha hb.
  pose proof (standard_good _ st) as g.
  destruct t as [x|l|x], a as [p|xs|b0 xs|p]; try (now destruct ha);
    destruct u as [y|m|y], b as [q|ys|b1 ys|q]; try (now destruct hb); cbn [elts of_type compares_with] in *;
    cbn [compare_three_way as_collection].
  - assert (D : (x = AnyDesc \/ y = AnyDesc) \/ (x <> AnyDesc /\ y <> AnyDesc)).
    { destruct x; destruct y; auto; right; split; discriminate. }
    destruct D as [D|[D1 D2]].
    + destruct (any_descriptor comp x y st D tm ft fu) as [e _]. congruence.
    + rewrite (desc_sized x y) by trivial. apply (tup_guaranteed comp [x] [y]); trivial; now apply one2.
  - apply (tup_guaranteed comp [x] m); trivial. now apply one2.
  - destruct hb as [-> hb]. destruct tm as (n1 & n2 & fr).
    apply (tup_vec_guaranteed comp [x] y [p] ys); trivial. now apply one2.
  - apply (tup_guaranteed comp l [y]); trivial. now apply one2.
  - apply (tup_guaranteed comp l m); trivial.
  - destruct hb as [-> hb]. destruct tm as (n1 & n2 & fr).
    apply (tup_vec_guaranteed comp l y xs ys); trivial.
  - destruct ha as [-> ha]. destruct tm as (n1 & n2 & fr).
    rewrite vec_tup_flip in h by trivial.
    rewrite compare_sized_flip.
    apply (tup_vec_guaranteed (flipc comp) [y] x [q] xs); trivial; [now apply one2|now apply flip_good].
  - destruct ha as [-> ha]. destruct tm as (n1 & n2 & fr).
    rewrite vec_tup_flip in h by trivial.
    rewrite compare_sized_flip.
    apply (tup_vec_guaranteed (flipc comp) m x ys xs); trivial. now apply flip_good.
  - destruct tm as [n1 n2]. rewrite vec_vec in h by trivial. discriminate h.
Qed.

Lemma none_sound comp t u : not_strict comp -> tame t u -> compares_with comp true t u = false ->
  holds_for_none comp t u.
Proof.
  intros ns (ft & fu & au & tm) h a b ha hb.
  pose proof (not_strict_good _ ns) as g.
  destruct t as [x|l|x], a as [p|xs|b0 xs|p]; try (now destruct ha);
    destruct u as [y|m|y], b as [q|ys|b1 ys|q]; try (now destruct hb); cbn [elts of_type compares_with] in *;
    cbn [compare_three_way as_collection].
  - assert (D : (x = AnyDesc \/ y = AnyDesc) \/ (x <> AnyDesc /\ y <> AnyDesc)).
    { destruct x; destruct y; auto; right; split; discriminate. }
    destruct D as [D|[D1 D2]].
    + destruct (any_descriptor comp x y (not_strict_standard _ ns) D tm ft fu) as [_ e]. specialize (e ns). congruence.
    + rewrite (desc_sized x y) by trivial. apply (tup_permitted comp [x] [y]); trivial; now apply one2.
  - apply (tup_permitted comp [x] m); trivial. now apply one2.
  - destruct hb as [-> hb]. destruct tm as (n1 & n2 & fr).
    apply (tup_vec_permitted comp [x] y [p] ys); trivial. now apply one2.
  - apply (tup_permitted comp l [y]); trivial. now apply one2.
  - apply (tup_permitted comp l m); trivial.
  - destruct hb as [-> hb]. destruct tm as (n1 & n2 & fr).
    apply (tup_vec_permitted comp l y xs ys); trivial.
  - destruct ha as [-> ha]. destruct tm as (n1 & n2 & fr).
    rewrite vec_tup_flip in h by trivial.
    rewrite compare_sized_flip.
    apply (tup_vec_permitted (flipc comp) [y] x [q] xs); trivial. now apply one2.
  - destruct ha as [-> ha]. destruct tm as (n1 & n2 & fr).
    rewrite vec_tup_flip in h by trivial.
    rewrite compare_sized_flip.
    apply (tup_vec_permitted (flipc comp) m x ys xs); trivial.
  - destruct tm as [n1 n2]. rewrite vec_vec in h by trivial. discriminate h.
Qed.

(** The only pair of types with a collection of run-time size or constants. *)
Lemma strict_sound comp t u : standard comp -> tame t u ->
  (match t, u with SVec _, _ | _, SVec _ => True | _, _ => False end) ->
  compares_with comp true t u = false -> holds_for_none comp t u.
Proof.
  intros st (ft & fu & au & tm) hv h a b ha hb.
  destruct t as [x|l|x], a as [p|xs|b0 xs|p]; try (now destruct ha);
    destruct u as [y|m|y], b as [q|ys|b1 ys|q]; try (now destruct hb); try (now destruct hv); cbn [elts of_type compares_with] in *;
    cbn [compare_three_way as_collection].
  - destruct hb as [-> hb]. destruct tm as (n1 & n2 & fr).
    apply (tup_vec_permitted comp [x] y [p] ys); trivial. now apply one2.
  - destruct hb as [-> hb]. destruct tm as (n1 & n2 & fr).
    apply (tup_vec_permitted comp l y xs ys); trivial.
  - destruct ha as [-> ha]. destruct tm as (n1 & n2 & fr).
    rewrite vec_tup_flip in h by trivial.
    rewrite compare_sized_flip.
    apply (tup_vec_permitted (flipc comp) [y] x [q] xs); trivial. now apply one2.
  - destruct ha as [-> ha]. destruct tm as (n1 & n2 & fr).
    rewrite vec_tup_flip in h by trivial.
    rewrite compare_sized_flip.
    apply (tup_vec_permitted (flipc comp) m x ys xs); trivial.
  - destruct tm as [n1 n2]. rewrite vec_vec in h by trivial. discriminate h.
Qed.

(** ** Collections of patterns *)
Lemma tame_sone : tame sone sone.
Proof. repeat split; try reflexivity. left. reflexivity. Qed.

Lemma ccw_iter_nth comp perm : forall t u, ccw_iter comp perm t u = true <->
  forall i, (i < Nat.max (length t) (length u))%nat -> compares_with comp perm (nth i t sone) (nth i u sone) = true.
Proof.
  assert (T : forall p l, (forallb (fun x => compares_with comp perm x p) l = true <->
    forall i, (i < length l)%nat -> compares_with comp perm (nth i l sone) p = true)).
  { intros p. induction l as [|x l IH]; cbn [forallb length].
    - split; trivial. intros _ i hi. lia.
    - rewrite andb_true_iff, IH. split.
      + intros [h1 h2] [|i] hi; [exact h1|apply h2; lia].
      + intros h. split; [apply (h 0%nat); lia|]. intros i hi. apply (h (S i)). lia. }
  assert (U : forall p l, (forallb (fun x => compares_with comp perm p x) l = true <->
    forall i, (i < length l)%nat -> compares_with comp perm p (nth i l sone) = true)).
  { intros p. induction l as [|x l IH]; cbn [forallb length].
    - split; trivial. intros _ i hi. lia.
    - rewrite andb_true_iff, IH. split.
      + intros [h1 h2] [|i] hi; [exact h1|apply h2; lia].
      + intros h. split; [apply (h 0%nat); lia|]. intros i hi. apply (h (S i)). lia. }
  induction t as [|x t IH]; intros [|y u].
  - cbn. split; trivial. intros _ i hi. lia.
  - cbn [ccw_iter]. unfold ccw_iter_U. rewrite U. cbn [length Nat.max].
    split; intros h i hi; specialize (h i hi); destruct i; exact h.
  - cbn [ccw_iter]. unfold ccw_iter_T. rewrite T. cbn [length Nat.max].
    split; intros h i hi; specialize (h i hi); destruct i; exact h.
  - cbn [ccw_iter]. rewrite andb_true_iff, IH. cbn [length Nat.max]. split.
    + intros [h1 h2] [|i] hi; [exact h1|apply h2; lia].
    + intros h. split; [apply (h 0%nat); lia|]. intros i hi. apply (h (S i)). lia.
Qed.

Lemma of_type_nth t a i : Forall2 of_type t a -> of_type (nth i t sone) (nth i a one_dim).
Proof.
  intros h. revert i. induction h as [|x p t a hx h IH]; intros [|i]; cbn [nth]; trivial; reflexivity.
Qed.

Lemma forall2_nth (t : list spat) a : Forall2 of_type t a -> length t = length a.
Proof. intros h. induction h; cbn; auto. Qed.

Lemma forallb_nth_false {A} (f : A -> bool) l d : forallb f l = false -> exists i, (i < length l)%nat /\ f (nth i l d) = false.
Proof.
  induction l as [|x l IH]; [discriminate|]. cbn. intros h. apply andb_false_iff in h. destruct h as [h|h].
  - exists 0%nat. split; [lia|exact h].
  - destruct (IH h) as (i & h1 & h2). exists (S i). split; [lia|exact h2].
Qed.

Lemma forallb_nth_true {A} (f : A -> bool) l d i : forallb f l = true -> (i < length l)%nat -> f (nth i l d) = true.
Proof. intros h hi. rewrite forallb_forall in h. apply h. now apply nth_In. Qed.

(** What collection_compares_with says about the places. *)
Lemma ccw_places comp perm ta tb a b : of_collection ta a -> of_collection tb b -> comparable_sizes ta tb a b ->
  (collection_compares_with comp perm ta tb = true ->
   forall i, (i < Nat.max (length a) (length b))%nat -> compares_with comp perm (type_at ta i) (type_at tb i) = true) /\
  (collection_compares_with comp perm ta tb = false ->
   exists i, (i < Nat.max (length a) (length b))%nat /\ compares_with comp perm (type_at ta i) (type_at tb i) = false).
Proof.
  intros ha hb hs. destruct ta as [t|p], tb as [u|q]; cbn [of_collection comparable_sizes collection_compares_with type_at] in *.
  - rewrite <- (forall2_nth _ _ ha), <- (forall2_nth _ _ hb). fold sone. split.
    + intros h. now apply ccw_iter_nth.
    + intros h. destruct (existsb (fun i => negb (compares_with comp perm (nth i t sone) (nth i u sone)))
         (seq 0 (Nat.max (length t) (length u)))) eqn:ex.
      * apply existsb_exists in ex. destruct ex as (i & h1 & h2). apply in_seq in h1. apply negb_true_iff in h2.
        exists i. split; [lia|exact h2].
      * assert (C : ccw_iter comp perm t u = true); [|congruence]. apply ccw_iter_nth. intros i hi.
        destruct (compares_with comp perm (nth i t sone) (nth i u sone)) eqn:e; trivial.
        assert (Q : existsb (fun i => negb (compares_with comp perm (nth i t sone) (nth i u sone)))
         (seq 0 (Nat.max (length t) (length u))) = true); [|congruence].
        apply existsb_exists. exists i. split; [apply in_seq; lia|now rewrite e].
  - rewrite <- hs, Nat.max_id, <- (forall2_nth _ _ ha). fold sone. unfold ccw_iter_T. split.
    + intros h i hi. now apply (forallb_nth_true (fun x => compares_with comp perm x q)).
    + intros h. now apply (forallb_nth_false (fun x => compares_with comp perm x q)).
  - rewrite hs, Nat.max_id, <- (forall2_nth _ _ hb). fold sone. unfold ccw_iter_U. split.
    + intros h i hi. now apply (forallb_nth_true (fun x => compares_with comp perm p x)).
    + intros h. now apply (forallb_nth_false (fun x => compares_with comp perm p x)).
  - destruct hs as [hs hn]. split; [trivial|]. intros h. exists 0%nat. split; [|exact h].
    destruct a; [congruence|]. cbn [length]. lia.
Qed.

Lemma of_type_at ta a b tb i : of_collection ta a -> of_collection tb b -> comparable_sizes ta tb a b ->
  (i < Nat.max (length a) (length b))%nat ->
  of_type (type_at ta i) (nth i a one_dim) /\ of_type (type_at tb i) (nth i b one_dim).
Proof.
  assert (F : forall q (l : list pattern) i, Forall (of_type q) l -> (i < length l)%nat -> of_type q (nth i l one_dim)).
  { intros q l j h hj. rewrite Forall_forall in h. apply h. now apply nth_In. }
  intros ha hb hs hi. destruct ta as [t|p], tb as [u|q]; cbn [of_collection comparable_sizes type_at] in *; fold sone.
  - split; now apply of_type_nth.
  - rewrite hs, Nat.max_id in hi. split; [now apply of_type_nth|now apply F].
  - split; [apply F; trivial; lia|now apply of_type_nth].
  - destruct hs as [hs _]. split; apply F; trivial; lia.
Qed.

Lemma collections_sound comp ta tb a b : not_strict comp ->
  (forall i, (i < Nat.max (length a) (length b))%nat -> tame (type_at ta i) (type_at tb i)) ->
  of_collection ta a -> of_collection tb b -> comparable_sizes ta tb a b ->
  (compare_collections comp ta tb a b = true <->
   forall i, (i < Nat.max (length a) (length b))%nat -> compare comp (place a i) (place b i) = true).
Proof.
  intros ns tm ha hb hs. unfold compare_collections.
  destruct (ccw_places comp false ta tb a b ha hb hs) as [G _].
  destruct (ccw_places comp true ta tb a b ha hb hs) as [_ P].
  destruct (collection_compares_with comp false ta tb).
  - split; trivial. intros _ i hi. rewrite !place_nth.
    destruct (of_type_at ta a b tb i ha hb hs hi) as [h1 h2].
    apply (all_sound comp _ _ (not_strict_standard _ ns) (tm i hi) (G eq_refl i hi)); trivial.
  - destruct (collection_compares_with comp true ta tb); cbn [negb].
    + apply collections_place.
    + split; [discriminate|]. intros h. destruct (P eq_refl) as (i & hi & e). specialize (h i hi).
      rewrite !place_nth in h.
      destruct (of_type_at ta a b tb i ha hb hs hi) as [h1 h2].
      assert (N := none_sound comp _ _ ns (tm i hi) e _ _ h1 h2). unfold compare in h. congruence.
Qed.

(** ** Sizes *)
Lemma sizes_sound comp t u m n : of_size t m -> of_size u n ->
  (size_compares_with comp false t u = true -> comp (order_sizes m n) = true) /\
  (size_compares_with comp true t u = false -> comp (order_sizes m n) = false).
Proof.
  assert (A : forall b l, (do_comps comp (negb false) [Some b; Some Eq] = true -> comp (Some b) = true /\ comp (Some Eq) = true) /\
    (do_comps comp (negb true) [Some b; Some Eq] = l -> l = false -> comp (Some b) = false /\ comp (Some Eq) = false)).
  { intros b l. cbn [do_comps negb forallb existsb]. rewrite !andb_true_iff. split; [tauto|].
    intros <-. rewrite !orb_false_iff. tauto. }
  intros ht hu. destruct t as [i| |], u as [j| |]; cbn [of_size] in ht, hu;
    repeat match goal with h : exists _, _ |- _ => destruct h as [? h] end; subst m n;
    cbn [size_compares_with order_sizes];
    try (split; intros h; (exact h || discriminate h)).
  - destruct i; cbn [Nat.eqb]; [|split; discriminate]. destruct (A Lt false) as [A1 A2].
    split; intros h; [destruct (A1 h)|destruct (A2 h eq_refl)]; destruct x; assumption.
  - destruct j; cbn [Nat.eqb]; [|split; discriminate]. destruct (A Gt false) as [A1 A2].
    split; intros h; [destruct (A1 h)|destruct (A2 h eq_refl)]; destruct x; assumption.
Qed.
