From Coq Require Import List ZArith Bool Lia.
From Verif Require Import PatCmpModel PatCmpSpec PatCmpProofs PatStaticModel PatStaticSpec PatStaticProofs PatUseModel PatUseSpec.
Import ListNotations.
Local Open Scope nat_scope.

(** ** strip_1D_tail *)
Definition one_eq (x : pattern) : Prop := compare_three_way x one_axis = Some Eq.

Lemma compare_eq_one x : compare cmp_eq x one_dim = true <-> one_eq x.
Proof.
  unfold compare, one_eq, one_axis, one_dim. destruct (compare_three_way _ _) as [[| |]|]; split; (discriminate || reflexivity).
Qed.

Lemma compare_neq_one x : compare cmp_neq x one_dim = false <-> one_eq x.
Proof.
  unfold compare, one_eq, one_axis, one_dim. destruct (compare_three_way _ _) as [[| |]|]; split; (discriminate || reflexivity).
Qed.

(** [i] places are kept. *)
Definition kept (p : list pattern) (i : nat) : Prop :=
  i <= length p /\ Forall one_eq (skipn i p) /\ (i = 0 \/ ~ one_eq (nth (i - 1) p one_dim)).

Lemma skipn_nth_cons {A} (d : A) : forall p i, i < length p -> skipn i p = nth i p d :: skipn (S i) p.
Proof. induction p as [|x p IH]; intros [|i] h; cbn in *; try lia; trivial. apply IH. lia. Qed.

Lemma last_firstn {A} (d : A) : forall p i, i < length p -> last (firstn (S i) p) d = nth i p d.
Proof.
  induction p as [|x p IH]; intros i h; cbn in h; [lia|].
  destruct i as [|i]; [reflexivity|].
  change (last (x :: firstn (S i) p) d = nth i p d).
  destruct p as [|y q]; [cbn in h; lia|].
  rewrite <- IH by lia. reflexivity.
Qed.

Lemma kept_stripped p i : kept p i -> stripped p (firstn i p).
Proof.
  intros (h & f & e). exists (skipn i p). split; [symmetry; apply firstn_skipn|]. split; [exact f|].
  destruct i as [|i]; [now left|]. right. rewrite last_firstn by lia.
  destruct e as [e|e]; [lia|]. replace (S i - 1) with i in e by lia. exact e.
Qed.

Lemma strip_dynamic_kept p : forall i, i <= length p -> Forall one_eq (skipn i p) ->
  stripped p (strip_dynamic_fixed p i).
Proof.
  induction i as [|j IH]; intros h f.
  - apply (kept_stripped p 0). repeat split; trivial. now left.
  - cbn [strip_dynamic_fixed]. destruct (compare cmp_eq (nth j p one_dim) one_dim) eqn:e.
    + apply IH; [lia|]. rewrite (skipn_nth_cons one_dim) by lia. constructor; trivial. now apply compare_eq_one.
    + apply kept_stripped. repeat split; trivial. right. replace (S j - 1) with j by lia.
      intro k. apply compare_eq_one in k. congruence.
Qed.

Lemma strip_loop_kept p : forall i, i <= length p -> Forall one_eq (skipn i p) -> kept p (strip_loop p i).
Proof.
  induction i as [|j IH]; intros h f.
  - repeat split; trivial. now left.
  - cbn [strip_loop]. destruct (compare cmp_neq (nth j p one_dim) one_dim) eqn:e.
    + repeat split; trivial. right. replace (S j - 1) with j by lia.
      intro k. apply compare_neq_one in k. congruence.
    + apply IH; [lia|]. rewrite (skipn_nth_cons one_dim) by lia. constructor; trivial. now apply compare_neq_one.
Qed.

(** Guaranteed and permitted equivalence with one axis. *)
Lemma cmp_eq_std : cmp_eq = is_eq. Proof. reflexivity. Qed.

Definition sane (t : spat) : Prop :=
  fits (elts t) /\ (forall d, t = SDesc (Known d) -> is_euclidean d = false -> hash d <> 1%Z).

Lemma total_zero e : elt_dim e = 0%Z -> forall l, Forall (of_elt e) l -> total_dim l = 0.
Proof.
  intros h. induction 1 as [|x l hx _ IH]; trivial. change (dim x + total_dim l = 0). rewrite IH.
  destruct e; cbn in hx, h.
  - subst x. unfold dim. cbn. lia.
  - discriminate.
  - discriminate.
Qed.

Lemma fits_one : fits [Known (Dim 1)]. Proof. reflexivity. Qed.

Lemma sane_tame t : sane t -> (match t with SVec e => elt_dim e <> 0%Z | _ => True end) -> tame t sone.
Proof.
  intros [f h] n. unfold tame, sone. cbn [elts]. repeat split; trivial.
  destruct t as [e|l|e]; trivial.
  - destruct e as [d| |]; cbn; trivial.
    + destruct (is_euclidean d) eqn:q; [now left|]. right. repeat split; [|lia|].
      * destruct d; cbn in *; (discriminate || lia).
      * exact (h d eq_refl q).
    + discriminate.
  - repeat split; trivial.
    + intros [k|[]]. subst e. apply n. reflexivity.
    + intros [k|[]]. discriminate.
Qed.

Lemma one_type_all t x : sane t -> of_type t x -> compares_with cmp_eq false t sone = true -> one_eq x.
Proof.
  intros h ht c.
  assert (K : (match t with SVec e => elt_dim e <> 0%Z | _ => True end) -> one_eq x).
  { intro n. pose proof (all_sound is_eq t sone (or_introl eq_refl) (sane_tame t h n) c x one_axis ht eq_refl) as q.
    unfold one_eq. destruct (compare_three_way x one_axis) as [[| |]|]; (discriminate || reflexivity). }
  destruct t as [e|l|e]; try (apply K; trivial; fail).
  destruct (Z.eq_dec (elt_dim e) 0) as [z|z]; [|now apply K].
  exfalso. cbn in c. unfold cw_vec_tup in c. unfold vec_dim in c. rewrite z in c. cbn in c. discriminate.
Qed.

Lemma one_type_none t x : sane t -> of_type t x -> compares_with cmp_eq true t sone = false -> ~ one_eq x.
Proof.
  intros h ht c.
  assert (K : (match t with SVec e => elt_dim e <> 0%Z | _ => True end) -> ~ one_eq x).
  { intros n k. pose proof (none_sound is_eq t sone (or_introl eq_refl) (sane_tame t h n) c x one_axis ht eq_refl) as q.
    unfold one_eq in k. rewrite k in q. discriminate. }
  destruct t as [e|l|e]; try (apply K; trivial; fail).
  destruct (Z.eq_dec (elt_dim e) 0) as [z|z]; [|now apply K].
  destruct x as [|?|b xs|]; cbn in ht; try contradiction. destruct ht as [hb hx].
  unfold one_eq, one_axis. cbn. unfold compare_sized. cbn.
  assert (eb : b = true).
  { subst b. destruct e as [d| |]; cbn in z |- *; trivial; try discriminate.
    destruct d; cbn in z |- *; trivial; lia. }
  rewrite eb. cbn. fold (total_dim xs). rewrite (total_zero e z xs hx). unfold nat_order. cbn. discriminate.
Qed.

Lemma of_ucol_elt u p i : of_ucol u p -> i < length p -> of_type (col_elt u i) (nth i p one_dim).
Proof.
  destruct u as [ts|t n|t]; cbn; intros h l.
  - revert i l. induction h as [|a b ts p hab _ IH]; intros [|i] l; cbn in *; try lia; trivial. apply IH. lia.
  - destruct h as [_ h]. rewrite Forall_forall in h. apply h, nth_In, l.
  - rewrite Forall_forall in h. apply h, nth_In, l.
Qed.

Lemma of_ucol_in u p i : of_ucol u p -> i < length p -> In (col_elt u i) (elt_types u).
Proof.
  destruct u as [ts|t n|t]; cbn; intros h l; try (now left).
  apply nth_In. assert (K : length ts = length p) by (clear -h; induction h; cbn; congruence). lia.
Qed.

Lemma of_ucol_size u p n : of_ucol u p -> col_size u = Fixed n -> length p = n.
Proof.
  destruct u as [ts|t m|t]; cbn; intros h e; inversion e; subst.
  - clear e. induction h; cbn; congruence.
  - exact (proj1 h).
Qed.

Lemma strip_fixed_kept u p : of_ucol u p -> (forall i, i < length p -> sane (col_elt u i)) ->
  forall i, i <= length p -> Forall one_eq (skipn i p) -> stripped p (strip_fixed u p i).
Proof.
  intros hu hs. induction i as [|j IH]; intros h f.
  - apply (kept_stripped p 0). repeat split; trivial. now left.
  - cbn [strip_fixed]. destruct (compares_with cmp_eq false (col_elt u j) sone) eqn:e.
    + apply IH; [lia|]. rewrite (skipn_nth_cons one_dim) by lia. constructor; trivial.
      apply (one_type_all (col_elt u j)); trivial; [apply hs; lia|apply of_ucol_elt; trivial; lia].
    + destruct (compares_with cmp_eq true (col_elt u j) sone) eqn:g.
      * now apply strip_dynamic_kept.
      * apply kept_stripped. repeat split; trivial. right. replace (S j - 1) with j by lia.
        apply (one_type_none (col_elt u j)); trivial; [apply hs; lia|apply of_ucol_elt; trivial; lia].
Qed.

Lemma col_sane u p : of_ucol u p -> col_fits u -> no_code_one u -> forall i, i < length p -> sane (col_elt u i).
Proof.
  intros h f n i l. pose proof (of_ucol_in u p i h l) as q. split.
  - unfold col_fits in f. rewrite Forall_forall in f. now apply f.
  - intros d e. apply n. now rewrite <- e.
Qed.

Lemma strip_ok u p : of_ucol u p -> col_fits u -> no_code_one u -> stripped p (strip_1D_tail u p).
Proof.
  intros h f n. unfold strip_1D_tail. destruct (col_size u) as [k| |] eqn:e.
  - rewrite <- (of_ucol_size u p k h e). apply strip_fixed_kept; trivial; [now apply col_sane|].
    rewrite skipn_all. constructor.
  - apply kept_stripped, strip_loop_kept; trivial. rewrite skipn_all. constructor.
  - apply kept_stripped, strip_loop_kept; trivial. rewrite skipn_all. constructor.
Qed.

Lemma stripped_unique p l m : stripped p l -> stripped p m -> l = m.
Proof.
  intros (r & e & f & g) (s & e' & f' & g').
  assert (W : forall l m r s : list pattern, p = l ++ r -> p = m ++ s -> Forall one_eq r ->
     (m = [] \/ compare_three_way (last m one_axis) one_axis <> Some Eq) -> length m <= length l).
  { clear. intros l m r s e e' f g. destruct (le_lt_dec (length m) (length l)) as [?|q]; trivial. exfalso.
    destruct g as [g|g]; [subst m; cbn in q; lia|].
    destruct (exists_last (l := m)) as [m' [x k]]; [intro; subst m; cbn in q; lia|].
    subst m. rewrite last_last in g. apply g. rewrite app_length in q. cbn in q.
    rewrite Forall_forall in f. apply f.
    rewrite e, <- app_assoc in e'. clear g f e. revert m' e' q. induction l as [|y l IH]; intros m' e' q.
    - cbn in e'. subst r. apply in_or_app. right. now left.
    - destruct m' as [|z m']; [cbn in q; lia|]. cbn in e'. injection e' as _ e'. apply (IH m'); trivial. cbn in q. lia. }
  pose proof (W l m r s e e' f g') as A. pose proof (W m l s r e' e f' g) as B.
  assert (L : length l = length m) by lia. clear -e e' L. rewrite e in e'. clear e.
  revert m e' L. induction l as [|x l IH]; intros [|y m] e' L; cbn in *; try lia; trivial.
  injection e' as -> e'. f_equal. apply IH; trivial. lia.
Qed.

(** ** Largest and smallest *)
Lemma total_extent l : total_dim l = list_sum (map (fun x => dimension (the_desc x)) l).
Proof. induction l as [|x l IH]; trivial. cbn. f_equal. exact IH. Qed.

Lemma pat_dim_extent p : pat_dim p = extent p.
Proof. exact (total_extent (items p)). Qed.

Lemma nth_app_l {A} (p q : list A) d i : i < length p -> nth i (p ++ q) d = nth i p d.
Proof. now apply app_nth1. Qed.

Definition ext (p : list pattern) j := extent (nth j p one_axis).

Lemma snoc_largest p x i : first_largest p i -> 
  first_largest (p ++ [x]) (if ext p i <? extent x then length p else i).
Proof.
  unfold first_largest, ext. intros (h & a & b). rewrite app_length. cbn [length].
  destruct (Nat.ltb_spec (extent (nth i p one_axis)) (extent x)) as [q|q].
  - assert (E : nth (length p) (p ++ [x]) one_axis = x) by (rewrite app_nth2, Nat.sub_diag by lia; trivial).
    rewrite E. repeat split; [lia| |].
    + intros j l. destruct (Nat.eq_dec j (length p)) as [->|k]; [rewrite E; lia|].
      rewrite app_nth1 by lia. specialize (a j). lia.
    + intros j l. rewrite app_nth1 by lia. specialize (a j). lia.
  - assert (E : nth i (p ++ [x]) one_axis = nth i p one_axis) by (apply app_nth1; lia).
    rewrite E. repeat split; [lia| |].
    + intros j l. destruct (Nat.eq_dec j (length p)) as [->|k].
      * rewrite app_nth2, Nat.sub_diag by lia. exact q.
      * rewrite app_nth1 by lia. apply a. lia.
    + intros j l. rewrite app_nth1 by lia. now apply b.
Qed.

Lemma snoc_smallest p x i : first_smallest p i ->
  first_smallest (p ++ [x]) (if extent x <? ext p i then length p else i).
Proof.
  unfold first_smallest, ext. intros (h & a & b). rewrite app_length. cbn [length].
  destruct (Nat.ltb_spec (extent x) (extent (nth i p one_axis))) as [q|q].
  - assert (E : nth (length p) (p ++ [x]) one_axis = x) by (rewrite app_nth2, Nat.sub_diag by lia; trivial).
    rewrite E. repeat split; [lia| |].
    + intros j l. destruct (Nat.eq_dec j (length p)) as [->|k]; [rewrite E; lia|].
      rewrite app_nth1 by lia. specialize (a j). lia.
    + intros j l. rewrite app_nth1 by lia. specialize (a j). lia.
  - assert (E : nth i (p ++ [x]) one_axis = nth i p one_axis) by (apply app_nth1; lia).
    rewrite E. repeat split; [lia| |].
    + intros j l. destruct (Nat.eq_dec j (length p)) as [->|k].
      * rewrite app_nth2, Nat.sub_diag by lia. exact q.
      * rewrite app_nth1 by lia. apply a. lia.
    + intros j l. rewrite app_nth1 by lia. now apply b.
Qed.

Lemma largest_loop q : forall p i, first_largest p i ->
  first_largest (p ++ q) (largest_fixed q (length p) i (ext p i)).
Proof.
  induction q as [|x q IH]; intros p i h; cbn [largest_fixed].
  - now rewrite app_nil_r.
  - pose proof (snoc_largest p x i h) as k. rewrite pat_dim_extent.
    replace (p ++ x :: q) with ((p ++ [x]) ++ q) by (rewrite <- app_assoc; reflexivity).
    destruct (ext p i <? extent x).
    + specialize (IH (p ++ [x]) _ k). rewrite app_length in IH. cbn [length] in IH.
      rewrite Nat.add_1_r in IH. unfold ext in IH. rewrite app_nth2, Nat.sub_diag in IH by lia. exact IH.
    + specialize (IH (p ++ [x]) _ k). rewrite app_length in IH. cbn [length] in IH.
      rewrite Nat.add_1_r in IH. unfold ext in IH. rewrite app_nth1 in IH by apply h. exact IH.
Qed.

Lemma smallest_loop q : forall p i, first_smallest p i ->
  first_smallest (p ++ q) (smallest_fixed q (length p) i (Z.of_nat (ext p i))).
Proof.
  induction q as [|x q IH]; intros p i h; cbn [smallest_fixed].
  - now rewrite app_nil_r.
  - pose proof (snoc_smallest p x i h) as k. rewrite pat_dim_extent.
    replace (p ++ x :: q) with ((p ++ [x]) ++ q) by (rewrite <- app_assoc; reflexivity).
    replace (Z.of_nat (extent x) <? Z.of_nat (ext p i))%Z with (extent x <? ext p i)
      by (destruct (Nat.ltb_spec (extent x) (ext p i)), (Z.ltb_spec (Z.of_nat (extent x)) (Z.of_nat (ext p i))); trivial; lia).
    destruct (extent x <? ext p i).
    + specialize (IH (p ++ [x]) _ k). rewrite app_length in IH. cbn [length] in IH.
      rewrite Nat.add_1_r in IH. unfold ext in IH. rewrite app_nth2, Nat.sub_diag in IH by lia. exact IH.
    + specialize (IH (p ++ [x]) _ k). rewrite app_length in IH. cbn [length] in IH.
      rewrite Nat.add_1_r in IH. unfold ext in IH. rewrite app_nth1 in IH by apply h. exact IH.
Qed.

Lemma max_loop q : forall p i, first_largest p i ->
  first_largest (p ++ q) (element_loop (fun best x => pat_dim best <? pat_dim x) q (length p) (nth i p one_axis) i).
Proof.
  induction q as [|x q IH]; intros p i h; cbn [element_loop].
  - now rewrite app_nil_r.
  - pose proof (snoc_largest p x i h) as k. rewrite !pat_dim_extent.
    replace (p ++ x :: q) with ((p ++ [x]) ++ q) by (rewrite <- app_assoc; reflexivity).
    change (extent (nth i p one_axis)) with (ext p i).
    destruct (ext p i <? extent x).
    + specialize (IH (p ++ [x]) _ k). rewrite app_length in IH. cbn [length] in IH.
      rewrite Nat.add_1_r in IH. rewrite app_nth2, Nat.sub_diag in IH by lia. exact IH.
    + specialize (IH (p ++ [x]) _ k). rewrite app_length in IH. cbn [length] in IH.
      rewrite Nat.add_1_r in IH. rewrite app_nth1 in IH by apply h. exact IH.
Qed.

Lemma min_loop q : forall p i, first_smallest p i ->
  first_smallest (p ++ q) (element_loop (fun best x => pat_dim x <? pat_dim best) q (length p) (nth i p one_axis) i).
Proof.
  induction q as [|x q IH]; intros p i h; cbn [element_loop].
  - now rewrite app_nil_r.
  - pose proof (snoc_smallest p x i h) as k. rewrite !pat_dim_extent.
    replace (p ++ x :: q) with ((p ++ [x]) ++ q) by (rewrite <- app_assoc; reflexivity).
    change (extent (nth i p one_axis)) with (ext p i).
    destruct (extent x <? ext p i).
    + specialize (IH (p ++ [x]) _ k). rewrite app_length in IH. cbn [length] in IH.
      rewrite Nat.add_1_r in IH. rewrite app_nth2, Nat.sub_diag in IH by lia. exact IH.
    + specialize (IH (p ++ [x]) _ k). rewrite app_length in IH. cbn [length] in IH.
      rewrite Nat.add_1_r in IH. rewrite app_nth1 in IH by apply h. exact IH.
Qed.

Lemma single_largest x : first_largest [x] 0.
Proof. repeat split; cbn; try lia; intros [|j] h; cbn in *; lia. Qed.
Lemma single_smallest x : first_smallest [x] 0.
Proof. repeat split; cbn; try lia; intros [|j] h; cbn in *; lia. Qed.

Lemma largest_ok u p : p <> [] -> first_largest p (largest_pattern u p).
Proof.
  destruct p as [|x r]; [congruence|]. intros _.
  assert (A : first_largest (x :: r) (largest_fixed (x :: r) 0 0 0)).
  { cbn [largest_fixed]. rewrite pat_dim_extent.
    pose proof (largest_loop r [x] 0 (single_largest x)) as k. unfold ext in k. cbn [nth length app] in k.
    destruct (Nat.ltb_spec 0 (extent x)) as [q|q]; [exact k|].
    replace (extent x) with 0 in k by lia. exact k. }
  pose proof (max_loop r [x] 0 (single_largest x)) as B. cbn [nth length app] in B.
  unfold largest_pattern. destruct (col_size u); trivial.
Qed.

Lemma smallest_ok u p : p <> [] -> Forall (fun x => (Z.of_nat (extent x) < 2 ^ 64 - 1)%Z) p ->
  first_smallest p (smallest_pattern u p).
Proof.
  destruct p as [|x r]; [congruence|]. intros _ f. inversion f as [|? ? fx _]; subst.
  assert (A : first_smallest (x :: r) (smallest_fixed (x :: r) 0 0 dyn)).
  { cbn [smallest_fixed]. rewrite pat_dim_extent.
    pose proof (smallest_loop r [x] 0 (single_smallest x)) as k. unfold ext in k. cbn [nth length app] in k.
    rewrite dyn_val. destruct (Z.ltb_spec (Z.of_nat (extent x)) (2 ^ 64 - 1)) as [q|q]; [exact k|lia]. }
  pose proof (min_loop r [x] 0 (single_smallest x)) as B. cbn [nth length app] in B.
  unfold smallest_pattern. destruct (col_size u); trivial.
Qed.

(** ** Dimensions *)
Lemma sum_known l xs : forallb known l = true -> Forall2 of_elt l xs ->
  constant_dims l = Z.of_nat (list_sum (map (fun x => dimension (the_desc x)) xs)).
Proof.
  intros k h. induction h as [|e x l xs he _ IH]; trivial. cbn in k. apply andb_prop in k as [ke kl].
  destruct e as [d| |]; try discriminate. cbn in he. subst x. rewrite cd_known, (IH kl).
  change (list_sum (map (fun x => dimension (the_desc x)) (mk_held false true d :: xs))) with
    (dimension d + list_sum (map (fun x => dimension (the_desc x)) xs)). lia.
Qed.

Lemma static_dim_ok t x n : fits (elts t) -> of_type t x -> static_dim t = Fixed n -> extent x = n.
Proof.
  unfold static_dim. intros f h e. destruct (spat_dim t =? dyn)%Z eqn:q; [discriminate|]. injection e as <-.
  destruct t as [e|l|e], x as [x|xs|b xs|x]; cbn in h; try contradiction; cbn [spat_dim elts] in *.
  - destruct e as [d| |]; cbn in q; try discriminate. cbn in h. subst x. unfold extent. cbn.
    rewrite Nat2Z.id. lia.
  - rewrite (tup_dim_not_dyn l f) in q. apply negb_false_iff in q. rewrite (tup_dim_known l f q), (sum_known l xs q h).
    now rewrite Nat2Z.id.
  - unfold vec_dim in *. destruct (elt_dim e =? 0)%Z eqn:z; [|discriminate]. apply Z.eqb_eq in z.
    destruct h as [_ h]. rewrite <- pat_dim_extent. exact (total_zero e z xs h).
Qed.

Lemma static_dim_not t : static_dim t <> Unbounded.
Proof. unfold static_dim. destruct (spat_dim t =? dyn)%Z; discriminate. Qed.

Lemma dim_at_extent p i : dim_at p i = extent_at p i.
Proof.
  unfold dim_at, extent_at. destruct (Nat.ltb_spec i (length p)) as [h|h].
  - rewrite (nth_error_nth' p one_dim h). apply pat_dim_extent.
  - now rewrite (proj2 (nth_error_None p i) h).
Qed.

Lemma extent_at_in p i : i < length p -> extent_at p i = extent (nth i p one_dim).
Proof. intro h. unfold extent_at. now rewrite (nth_error_nth' p one_dim h). Qed.

Lemma extent_at_out p i : length p <= i -> extent_at p i = 1.
Proof. intro h. unfold extent_at. now rewrite (proj2 (nth_error_None p i) h). Qed.

Lemma col_elt_fits u p i : of_ucol u p -> col_fits u -> i < length p -> fits (elts (col_elt u i)).
Proof.
  intros h f l. unfold col_fits in f. rewrite Forall_forall in f. apply f. now apply (of_ucol_in u p).
Qed.

Lemma static_at_ok u p i n : of_ucol u p -> col_fits u -> static_dim_at u i = Fixed n -> extent_at p i = n.
Proof.
  intros h f e. unfold static_dim_at in e. destruct (col_size u) as [k| |] eqn:q; try discriminate.
  pose proof (of_ucol_size u p k h q) as l. destruct (Nat.ltb_spec i k) as [m|m].
  - rewrite extent_at_in by lia. apply (static_dim_ok (col_elt u i)); trivial.
    + apply (col_elt_fits u p); trivial. lia.
    + apply of_ucol_elt; trivial. lia.
  - injection e as <-. apply extent_at_out. lia.
Qed.

Lemma static_at_not u i : static_dim_at u i <> Unbounded.
Proof.
  unfold static_dim_at. destruct (col_size u); try discriminate. destruct (i <? n); [apply static_dim_not|discriminate].
Qed.

Lemma fixed_eq a b : a <> Unbounded -> size_compares_with cmp_eq false a b = true -> exists m, a = Fixed m /\ b = Fixed m.
Proof.
  intros h e. destruct a as [m| |], b as [n| |]; cbn in e; try discriminate; try congruence.
  - exists m. destruct (Nat.compare_spec m n); try discriminate. now subst n.
  - destruct (m =? 0); discriminate.
  - destruct (n =? 0); discriminate.
Qed.

Section Same.
Variables (u : ucol) (p : list pattern).
Hypothesis hu : of_ucol u p.
Hypothesis hf : col_fits u.

Lemma impl_step c i : same_dimension_impl u p (S (S c)) i =
  let tail := same_dimension_impl u p (S c) (S i) in
  if size_compares_with cmp_eq false (static_dim_at u i) (fst tail) then (static_dim_at u i, Some (dim_at p i))
  else match snd tail with
       | Some v => if v =? dim_at p i then (Dynamic, Some (dim_at p i)) else (Dynamic, None)
       | None => (Dynamic, None)
       end.
Proof. reflexivity. Qed.

Lemma impl_fixed : forall c i m, fst (same_dimension_impl u p c i) = Fixed m -> snd (same_dimension_impl u p c i) = Some m.
Proof.
  intros c i m.
  assert (K : fst (static_dim_at u i, dim_at p i) = Fixed m -> dim_at p i = m).
  { cbn. intro e. rewrite dim_at_extent. now apply (static_at_ok u). }
  destruct c as [|[|c]]; cbn [same_dimension_impl]; try (cbn; intro e; now rewrite K).
  destruct (size_compares_with _ _ _ _).
  - cbn. intro e. now rewrite K.
  - destruct (snd _); [destruct (_ =? _)|]; cbn; discriminate.
Qed.

Lemma impl_not : forall c i, fst (same_dimension_impl u p c i) <> Unbounded.
Proof.
  intros c i. destruct c as [|[|c]]; cbn [same_dimension_impl]; try apply static_at_not.
  destruct (size_compares_with _ _ _ _); [apply static_at_not|].
  destruct (snd _); [destruct (_ =? _)|]; cbn; discriminate.
Qed.

Lemma impl_ok : forall c i d, 0 < c ->
  snd (same_dimension_impl u p c i) = Some d <-> (forall j, i <= j < i + c -> extent_at p j = d).
Proof.
  induction c as [|c IH]; intros i d hc; [lia|].
  destruct c as [|c].
  - cbn. rewrite dim_at_extent. split.
    + intros e j hj. injection e as <-. f_equal. lia.
    + intros e. f_equal. apply e. lia.
  - rewrite impl_step. cbv zeta.
    specialize (IH (S i)).
    pose proof (fun v => IH v ltac:(lia)) as IH'. clear IH.
    pose proof (impl_fixed (S c) (S i)) as F.
    destruct (same_dimension_impl u p (S c) (S i)) as [ts tv]. cbn [fst snd] in *.
    destruct (size_compares_with cmp_eq false (static_dim_at u i) ts) eqn:q.
    + apply fixed_eq in q as [m [a b]]; [|apply static_at_not]. cbn [snd]. rewrite dim_at_extent.
      pose proof (static_at_ok u p i m hu hf a) as em. specialize (F m b). rewrite em. split.
      * intros e j hj. injection e as <-. destruct (Nat.eq_dec j i) as [->|]; trivial. apply (IH' m); trivial. lia.
      * intros e. f_equal. rewrite <- em. apply e. lia.
    + destruct tv as [v|]; cbn [snd].
      * rewrite dim_at_extent. destruct (Nat.eqb_spec v (extent_at p i)) as [k|k].
        { split.
          - intros e j hj. injection e as <-. destruct (Nat.eq_dec j i) as [->|]; trivial. rewrite <- k.
            apply (proj1 (IH' v) eq_refl). lia.
          - intros e. cbn. f_equal. apply e. lia. }
        { split; [discriminate|]. intro e. exfalso. apply k. rewrite (e i) by lia.
          assert (Some v = Some d) as [=]; trivial. apply IH'. intros j hj. apply e. lia. }
      * split; [discriminate|]. intro e. exfalso.
        assert (None = Some d) by (apply IH'; intros j hj; apply e; lia). discriminate.
Qed.
End Same.

Lemma loop_ok p d : forall c i, same_dimension_loop p d c i = Some d <-> (forall j, i <= j < i + c -> extent_at p j = d).
Proof.
  induction c as [|c IH]; intros i; cbn.
  - split; trivial. intros _ j h. lia.
  - rewrite dim_at_extent. destruct (Nat.eqb_spec (extent_at p i) d) as [e|e].
    + rewrite IH. split; intros h j hj; [destruct (Nat.eq_dec j i) as [->|]; trivial|]; apply h; lia.
    + split; [discriminate|]. intro h. exfalso. apply e, h. lia.
Qed.

Lemma loop_val p d : forall c i v, same_dimension_loop p d c i = Some v -> v = d.
Proof.
  induction c as [|c IH]; intros i v; cbn; [congruence|]. destruct (_ =? d); [apply IH|discriminate].
Qed.

(** The common type of a tuple. *)
Lemma fold_none ts : fold_left common_spat ts None = None.
Proof. induction ts; trivial. Qed.

Lemma common_elt_known x y d : common_elt x y = Known d -> x = Known d /\ y = Known d.
Proof.
  destruct x as [a| |], y as [b| |]; cbn; try discriminate.
  - destruct (desc_eq_dec a b); [|destruct (_ && _); discriminate]. intros [= <-]. now subst b.
  - destruct (is_euclidean a); discriminate.
  - destruct (is_euclidean b); discriminate.
Qed.

Lemma common_spat_static a b t d : common_spat (Some a) b = Some t -> static_dim t = Fixed d ->
  static_dim a = Fixed d /\ static_dim b = Fixed d.
Proof.
  intros e h.
  assert (K : (if spat_eq_dec a b then Some a else None) = Some t -> static_dim a = Fixed d /\ static_dim b = Fixed d).
  { destruct (spat_eq_dec a b); [|discriminate]. intros [= <-]. subst b. now split. }
  destruct a as [x| |]; [|apply K; destruct b; exact e|apply K; destruct b; exact e].
  destruct b as [y| |]; [|apply K; exact e|apply K; exact e].
  cbn in e. injection e as <-.
  destruct (common_elt x y) as [c| |] eqn:q.
  - apply common_elt_known in q as [-> ->]. now split.
  - cbn in h. discriminate.
  - cbn in h. discriminate.
Qed.

Lemma common_fold ts : forall a t d, fold_left common_spat ts (Some a) = Some t -> static_dim t = Fixed d ->
  forall i, i <= length ts -> static_dim (nth i (a :: ts) sone) = Fixed d.
Proof.
  induction ts as [|b ts IH]; intros a t d e h i hi.
  - cbn in *. injection e as <-. replace i with 0 by lia. exact h.
  - cbn [fold_left] in e. destruct (common_spat (Some a) b) as [c|] eqn:q; [|rewrite fold_none in e; discriminate].
    pose proof (IH c t d e h) as J. pose proof (J 0 (Nat.le_0_l _)) as J0. cbn in J0.
    destruct (common_spat_static a b c d q J0) as [ha hb].
    destruct i as [|[|i]]; trivial. cbn in hi. specialize (J (S i) ltac:(lia)). exact J.
Qed.

Lemma fixed_common_ok u p d i : of_ucol u p -> col_fits u -> fixed_common u = Some d -> i < length p -> extent_at p i = d.
Proof.
  intros h f e l. rewrite extent_at_in by trivial.
  apply (static_dim_ok (col_elt u i)); [now apply (col_elt_fits u p)|now apply of_ucol_elt|].
  unfold fixed_common in e. destruct (common_collection u) as [t|] eqn:q; [|discriminate].
  destruct (static_dim t) as [n| |] eqn:s; try discriminate. injection e as ->.
  destruct u as [ts|t' n|t']; cbn in q |- *.
  - destruct ts as [|a ts]; [discriminate|]. refine (common_fold ts a t d q s i _).
    cbn in h. pose proof (of_ucol_size (UTup (a :: ts)) p _ h eq_refl) as k. cbn in k. lia.
  - injection q as <-. exact s.
  - injection q as <-. exact s.
Qed.

Lemma lteq_size n u : 0 < n -> size_compares_with cmp_lteq false (Fixed n) (col_size u) = true ->
  exists k, col_size u = Fixed k /\ n <= k.
Proof.
  intros h e. destruct (col_size u) as [k| |] eqn:q; cbn in e.
  - exists k. split; trivial. destruct (Nat.compare_spec n k); (discriminate || lia).
  - destruct n; [lia|]. discriminate.
  - destruct u; discriminate.
Qed.

Lemma compared_places u p N n : of_ucol u p -> compared u N = Fixed n -> n = places N p.
Proof.
  intros h e. unfold compared in e. destruct N as [k|]; cbn.
  - now injection e.
  - symmetry. now apply (of_ucol_size u).
Qed.

Lemma common_dimension_ok N u p d : of_ucol u p -> col_fits u -> 0 < places N p ->
  get_common_dimension N u p = Some d <-> (forall i, i < places N p -> extent_at p i = d).
Proof.
  intros h f n0. unfold get_common_dimension. destruct (compared u N) as [n| |] eqn:q.
  - pose proof (compared_places u p N n h q) as en. rewrite <- en in *.
    assert (I : snd (same_dimension_impl u p n 0) = Some d <-> (forall i, i < n -> extent_at p i = d)).
    { rewrite (impl_ok u p h f n 0 d n0). split; intros g i hi; apply g; lia. }
    destruct (fixed_common u) as [k|] eqn:c; [|exact I].
    destruct (size_compares_with cmp_lteq false (Fixed n) (col_size u)) eqn:s; [|exact I].
    apply lteq_size in s as [m [em lm]]; trivial. pose proof (of_ucol_size u p m h em) as lp.
    pose proof (fun i l => fixed_common_ok u p k i h f c l) as K. split.
    + intros [= <-] i hi. apply K. lia.
    + intros g. f_equal. rewrite <- (K 0) by lia. apply g. lia.
  - assert (en : places N p = length p) by (unfold compared in q; destruct N; [discriminate|reflexivity]).
    rewrite en in *. rewrite dim_at_extent. split.
    + intros e. pose proof (loop_val _ _ _ _ _ e) as ->. rewrite loop_ok in e. intros i hi.
      destruct i as [|i]; trivial. apply e. lia.
    + intros g. rewrite (g 0) by lia. apply loop_ok. intros j hj. apply g. lia.
  - unfold compared in q. destruct N; [discriminate|]. destruct u; discriminate.
Qed.

Lemma dims_from_ok comp p n d : compare_dims_from comp p n d = true <->
  (forall i, i < n -> comp (Some (Nat.compare (extent_at p i) d)) = true).
Proof.
  unfold compare_dims_from. rewrite forallb_forall. split.
  - intros h i hi. rewrite <- dim_at_extent. apply h. apply in_seq. lia.
  - intros h i hi. rewrite dim_at_extent. apply h. apply in_seq in hi. lia.
Qed.

Lemma compare_dimension_ok comp N u p d : of_ucol u p -> col_fits u -> 0 < places N p ->
  compare_with_dimension comp N u p d = true <->
  (forall i, i < places N p -> comp (Some (Nat.compare (extent_at p i) d)) = true).
Proof.
  intros h f n0. unfold compare_with_dimension. destruct (compared u N) as [n| |] eqn:q.
  - pose proof (compared_places u p N n h q) as en. rewrite <- en in *.
    destruct (fixed_common u) as [k|] eqn:c; [|apply dims_from_ok].
    destruct (size_compares_with cmp_lteq false (Fixed n) (col_size u)) eqn:s; [|apply dims_from_ok].
    apply lteq_size in s as [m [em lm]]; trivial. pose proof (of_ucol_size u p m h em) as lp.
    pose proof (fun i l => fixed_common_ok u p k i h f c l) as K. split.
    + intros e i hi. rewrite K by lia. exact e.
    + intros g. specialize (g 0 n0). rewrite K in g by lia. exact g.
  - assert (en : places N p = length p) by (unfold compared in q; destruct N; [discriminate|reflexivity]).
    rewrite en. apply dims_from_ok.
  - unfold compared in q. destruct N; [discriminate|]. destruct u; discriminate.
Qed.

(** The concepts. *)
Lemma size_dim_sound comp perm s d k : s <> Unbounded -> (forall m, s = Fixed m -> k = m) ->
  size_compares_with comp perm s (Fixed d) = negb perm ->
  comp (Some (Nat.compare k d)) = negb perm.
Proof.
  intros hs hk e.
  assert (o : of_size s (Some k)).
  { destruct s as [m| |]; cbn; [now rewrite (hk m)|now exists k|congruence]. }
  pose proof (sizes_sound comp s (Fixed d) (Some k) (Some d) o eq_refl) as [A B]. cbn [order_sizes] in *.
  destruct perm; cbn in *; [apply B|apply A]; exact e.
Qed.

Lemma static_common u p i : of_ucol u p -> col_fits u -> i < length p -> col_size u = Dynamic ->
  forall t, common_collection u = Some t -> forall m, static_dim t = Fixed m -> extent_at p i = m.
Proof.
  intros h f l c t ct m s. destruct u as [|a n|a]; cbn in c; try discriminate. cbn in ct. injection ct as <-.
  rewrite extent_at_in by trivial. apply (static_dim_ok a); trivial.
  - exact (col_elt_fits (UVec a) p i h f l).
  - exact (of_ucol_elt (UVec a) p i h l).
Qed.

Lemma concept_compare_all comp N u p d : of_ucol u p -> col_fits u -> within N u p ->
  patterns_compare_with_dimension comp N false u d = true ->
  forall i, i < places N p -> comp (Some (Nat.compare (extent_at p i) d)) = true.
Proof.
  intros h f w e i hi. unfold patterns_compare_with_dimension in e. destruct (col_size u) as [k| |] eqn:q.
  - rewrite forallb_forall in e. apply (size_dim_sound comp false (static_dim_at u i)).
    + apply static_at_not.
    + intros m. now apply static_at_ok.
    + apply e, in_seq. unfold places in hi. destruct N as [n|]; [lia|]. rewrite (of_ucol_size u p k h q) in hi. lia.
  - destruct (common_collection u) as [t|] eqn:c; [|discriminate].
    apply (size_dim_sound comp false (static_dim t)); trivial; [apply static_dim_not|].
    intros m s. apply (static_common u p i h f) with t; trivial.
    destruct u; try discriminate. unfold within, places in *. destruct N; lia.
  - destruct u; discriminate.
Qed.

Lemma concept_compare_none comp N u p d : of_ucol u p -> col_fits u -> within N u p -> 0 < places N p ->
  patterns_compare_with_dimension comp N true u d = false ->
  exists i, i < places N p /\ comp (Some (Nat.compare (extent_at p i) d)) = false.
Proof.
  intros h f w n0 e. unfold patterns_compare_with_dimension in e. destruct (col_size u) as [k| |] eqn:q.
  - assert (exists i, In i (seq 0 (match N with Some n => n | None => k end)) /\
        size_compares_with comp true (static_dim_at u i) (Fixed d) = false) as (i & hi & ci).
    { revert e. generalize (seq 0 (match N with Some n => n | None => k end)) as l. induction l as [|a l IH]; [discriminate|].
      cbn. destruct (size_compares_with comp true (static_dim_at u a) (Fixed d)) eqn:z; cbn.
      - intro e. destruct (IH e) as (i & hi & ci). exists i. split; trivial. now right.
      - intros _. exists a. split; trivial. now left. }
    exists i. apply in_seq in hi. split.
    + unfold places. destruct N as [n|]; [lia|]. rewrite (of_ucol_size u p k h q). lia.
    + apply (size_dim_sound comp true (static_dim_at u i)); trivial; [apply static_at_not|].
      intros m. now apply static_at_ok.
  - destruct (common_collection u) as [t|] eqn:c; [|discriminate].
    exists 0. split; trivial. apply (size_dim_sound comp true (static_dim t)); trivial; [apply static_dim_not|].
    intros m s. apply (static_common u p 0 h f) with t; trivial.
    destruct u; try discriminate. unfold within, places in *. destruct N; lia.
  - destruct u; discriminate.
Qed.

Lemma best_not u c : forall i, best_dim u c i <> Unbounded.
Proof.
  induction c as [|c IH]; intros i; cbn; [discriminate|]. destruct (static_dim_at u i); try apply IH. discriminate.
Qed.

Lemma best_at u c : forall i m, best_dim u c i = Fixed m -> exists j, i <= j < i + c /\ static_dim_at u j = Fixed m.
Proof.
  induction c as [|c IH]; intros i m; cbn; [discriminate|].
  destruct (static_dim_at u i) as [n| |] eqn:q.
  - intros [= <-]. exists i. split; trivial. lia.
  - intro e. destruct (IH _ _ e) as (j & hj & ej). exists j. split; trivial. lia.
  - intro e. destruct (IH _ _ e) as (j & hj & ej). exists j. split; trivial. lia.
Qed.

Lemma concept_same_all N u p : of_ucol u p -> col_fits u -> within N u p -> 
  patterns_have_same_dimension N false u = true ->
  forall i j, i < places N p -> j < places N p -> extent_at p i = extent_at p j.
Proof.
  intros h f w e i j hi hj. unfold patterns_have_same_dimension in e.
  assert (L2 : match N with Some n => n <? 2 | None => false end = true -> extent_at p i = extent_at p j).
  { unfold places in *. destruct N as [n|]; [|discriminate]. intro k. apply Nat.ltb_lt in k. f_equal. lia. }
  destruct (col_size u) as [k| |] eqn:q.
  - apply orb_prop in e as [e|e]; [now apply L2|]. rewrite forallb_forall in e.
    set (n := match N with Some n => n | None => k end) in *.
    assert (en : places N p = n) by (unfold places, n; destruct N; trivial; now apply (of_ucol_size u)).
    rewrite en in *.
    assert (K : forall i, i < n -> exists m, static_dim_at u i = Fixed m /\ best_dim u n 0 = Fixed m).
    { intros l hl. apply fixed_eq; [apply static_at_not|]. apply e, in_seq. lia. }
    destruct (K i hi) as (m & a & b), (K j hj) as (m' & a' & b'). rewrite b in b'. injection b' as <-.
    rewrite (static_at_ok u p i m h f a), (static_at_ok u p j m h f a'). reflexivity.
  - apply orb_prop in e as [e|e]; [|discriminate]. apply orb_prop in e as [e|e]; [now apply L2|].
    destruct (fixed_common u) as [d|] eqn:c; [|discriminate].
    assert (lp : places N p <= length p) by (destruct u; try discriminate; unfold within, places in *; destruct N; lia).
    rewrite !(fixed_common_ok u p d) by (trivial; lia). reflexivity.
  - destruct u; discriminate.
Qed.

Lemma concept_same_none N u p : of_ucol u p -> col_fits u ->
  patterns_have_same_dimension N true u = false ->
  exists i j, i < places N p /\ j < places N p /\ extent_at p i <> extent_at p j.
Proof.
  intros h f e. unfold patterns_have_same_dimension in e. destruct (col_size u) as [k| |] eqn:q.
  - apply orb_false_iff in e as [_ e].
    set (n := match N with Some n => n | None => k end) in *.
    assert (en : places N p = n) by (unfold places, n; destruct N; trivial; now apply (of_ucol_size u)).
    rewrite en.
    assert (exists i, In i (seq 0 n) /\ size_compares_with cmp_eq true (static_dim_at u i) (best_dim u n 0) = false) as (i & hi & ci).
    { revert e. generalize (best_dim u n 0) as b. generalize (seq 0 n) as l. intros l b. induction l as [|a l IH]; [discriminate|].
      cbn. destruct (size_compares_with cmp_eq true (static_dim_at u a) b) eqn:z; cbn.
      - intro e. destruct (IH e) as (i & hi & ci). exists i. split; trivial. now right.
      - intros _. exists a. split; trivial. now left. }
    apply in_seq in hi. pose proof (static_at_not u i) as n1. pose proof (best_not u n 0) as n2.
    pose proof (static_at_ok u p i) as S.
    destruct (best_dim u n 0) as [b| |] eqn:eb; [|destruct (static_dim_at u i) as [a| |]; cbn in ci; try congruence; destruct (a =? 0); discriminate|congruence].
    apply best_at in eb as (j & hj & ej). pose proof (static_at_ok u p j b h f ej) as E.
    exists i, j. repeat split; try lia. rewrite E.
    intro k'. pose proof (size_dim_sound cmp_eq true (static_dim_at u i) b (extent_at p i) n1 (fun m z => S m h f z) ci) as F.
    rewrite k', Nat.compare_refl in F. discriminate.
  - rewrite orb_true_r in e. discriminate.
  - destruct u; discriminate.
Qed.
