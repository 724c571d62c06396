(** * Proofs about collections, their views and comparisons *)
From Coq Require Import List ZArith Bool Lia.
From Verif Require Import CollModel CollSpec.
Import ListNotations.
Local Open Scope nat_scope.

Arguments Nat.ltb : simpl never.
Arguments Nat.leb : simpl never.
Arguments Nat.eqb : simpl never.
Arguments Nat.modulo : simpl never.
Arguments Z.ltb : simpl never.
Arguments Z.leb : simpl never.
Arguments Z.eqb : simpl never.

Ltac zb := repeat match goal with
  | |- context [Z.ltb ?a ?b] => destruct (Z.ltb_spec a b); try lia
  | |- context [Z.leb ?a ?b] => destruct (Z.leb_spec a b); try lia
  | |- context [Z.eqb ?a ?b] => destruct (Z.eqb_spec a b); try lia
  | |- context [Nat.ltb ?a ?b] => destruct (Nat.ltb_spec a b); try lia
  | |- context [Nat.leb ?a ?b] => destruct (Nat.leb_spec a b); try lia
  | |- context [Nat.eqb ?a ?b] => destruct (Nat.eqb_spec a b); try lia
  end; cbn [andb orb negb].

Section Lists.
Variable A : Type.

Lemma nth_error_firstn_lt : forall n (l : list A) i, i < n -> nth_error (firstn n l) i = nth_error l i.
Proof.
  induction n; intros l i H; [lia|]. destruct l; [destruct i; reflexivity|].
  destruct i; cbn; [reflexivity|]. apply IHn. lia.
Qed.

Lemma nth_error_skipn : forall n (l : list A) i, nth_error (skipn n l) i = nth_error l (n + i).
Proof.
  induction n; intros l i; [reflexivity|]. destruct l; [destruct i; reflexivity|]. cbn. apply IHn.
Qed.

Lemma nth_error_rev : forall (l : list A) i, i < length l ->
  nth_error (rev l) i = nth_error l (length l - i - 1).
Proof.
  intros l i H. destruct l as [|d l']; [cbn in H; lia|].
  rewrite (nth_error_nth' (rev (d :: l')) d) by (rewrite rev_length; lia).
  rewrite rev_nth by lia.
  rewrite (nth_error_nth' (d :: l') d) by lia. do 2 f_equal. lia.
Qed.

Lemma length_concat_repeat : forall k (l : list A), length (concat (repeat l k)) = length l * k.
Proof. induction k; intros l; cbn; [lia|]. rewrite app_length, IHk. lia. Qed.

Lemma nth_error_concat_repeat : forall k (l : list A) i, i < length l * k ->
  nth_error (concat (repeat l k)) i = nth_error l (i mod length l).
Proof.
  induction k; intros l i H; [lia|]. cbn.
  destruct (Nat.lt_ge_cases i (length l)) as [h|h].
  - rewrite nth_error_app1 by lia. rewrite Nat.mod_small by lia. reflexivity.
  - rewrite nth_error_app2 by lia. rewrite IHk by lia. f_equal.
    replace i with ((i - length l) + 1 * length l) at 2 by lia.
    rewrite Nat.mod_add by lia. reflexivity.
Qed.

Lemma nth_error_repeat_lt : forall n (a : A) i, i < n -> nth_error (repeat a n) i = Some a.
Proof. induction n; intros a i H; [lia|]. destruct i; cbn; [reflexivity|]. apply IHn. lia. Qed.

Lemma list_eq_nth : forall (l m : list A), length l = length m ->
  (forall i, i < length l -> nth_error l i = nth_error m i) -> l = m.
Proof.
  induction l; intros m hl h; destruct m; cbn in hl; try lia; [reflexivity|].
  f_equal.
  - specialize (h 0 ltac:(cbn; lia)). cbn in h. congruence.
  - apply IHl; [lia|]. intros i hi. apply (h (S i)). cbn. lia.
Qed.
End Lists.
Arguments nth_error_firstn_lt {A}. Arguments nth_error_skipn {A}. Arguments nth_error_rev {A}.
Arguments nth_error_concat_repeat {A}. Arguments list_eq_nth {A}.

Section Views.
Variable A : Type.
Implicit Types (v : view A) (l : list A).

(** Reading all elements is enough for the walk. *)
Lemma walk_of v l :
  (vend v = vbegin v + Z.of_nat (length l))%Z ->
  (forall k, k < length l -> vderef v (vbegin v + Z.of_nat k)%Z = nth_error l k) ->
  forall fuel, length l < fuel -> walk v fuel (vbegin v) = Some l.
Proof.
  intros he hd.
  assert (G : forall n k fuel, k + n = length l -> n < fuel ->
    walk v fuel (vbegin v + Z.of_nat k) = Some (skipn k l)).
  { induction n; intros k fuel hk hf; (destruct fuel; [lia|]); cbn [walk]; rewrite he.
    - zb. f_equal. symmetry. apply skipn_all2. lia.
    - zb. rewrite hd by lia.
      destruct (nth_error l k) eqn:E; [|apply nth_error_None in E; lia].
      replace (vbegin v + Z.of_nat k + 1)%Z with (vbegin v + Z.of_nat (S k))%Z by lia.
      rewrite IHn by lia. cbn. f_equal. clear - E. revert l E.
      induction k; intros l E; destruct l; cbn in *; try discriminate; [congruence|]. now apply IHk. }
  intros fuel hf. specialize (G (length l) 0 fuel ltac:(lia) hf). cbn in G.
  rewrite Z.add_0_r in G. exact G.
Qed.

(** A range is right when its size, its [*it], its [it[n]] and [it - n] are. *)
Lemma range_intro v l :
  (vend v = vbegin v + Z.of_nat (length l))%Z ->
  (forall k, k < length l -> vderef v (vbegin v + Z.of_nat k)%Z = nth_error l k) ->
  (forall k n, k <= length l -> (0 <= Z.of_nat k + n < Z.of_nat (length l))%Z ->
     vsub v (vbegin v + Z.of_nat k)%Z n = nth_error l (Z.to_nat (Z.of_nat k + n))) ->
  (forall k n, (k <= length l)%nat -> (0 <= Z.of_nat k - n <= Z.of_nat (length l))%Z ->
     vminus v (vbegin v + Z.of_nat k)%Z n = Some (vbegin v + Z.of_nat k - n)%Z) ->
  offers_range v l.
Proof.
  intros he hd hs hm. repeat split; trivial.
  - intros i hi. unfold get_dyn. specialize (hs 0 (Z.of_nat i) ltac:(lia) ltac:(lia)).
    cbn [Z.of_nat] in hs. rewrite Z.add_0_r in hs. rewrite hs. f_equal. lia.
  - now apply walk_of.
Qed.

(** Position-based iterators starting at 0. *)
Lemma range_entry v l (entry : Z -> option A) :
  vbegin v = 0%Z -> vend v = Z.of_nat (length l) ->
  (forall p, vderef v p = entry p) -> (forall p n, vsub v p n = entry (p + n)%Z) ->
  vminus v = minus_checked \/ vminus v = minus_unchecked ->
  (forall k, k < length l -> entry (Z.of_nat k) = nth_error l k) ->
  offers_range v l.
Proof.
  intros hb he hd hs hm h. apply range_intro; rewrite ?hb, ?he.
  - lia.
  - intros k hk. rewrite hd. rewrite Z.add_0_l. now apply h.
  - intros k n _ hn. rewrite hs. rewrite Z.add_0_l.
    replace (Z.of_nat k + n)%Z with (Z.of_nat (Z.to_nat (Z.of_nat k + n))) by lia.
    rewrite h by lia. f_equal. lia.
  - intros k n _ hn. destruct hm as [-> | ->]; unfold minus_checked, minus_unchecked; zb; reflexivity.
Qed.

Lemma at_pos_nat l k : at_pos l (Z.of_nat k) = nth_error l k.
Proof. unfold at_pos. zb. f_equal. lia. Qed.

Lemma tuple_ok l : offers (tuple_v l) l.
Proof. split; [split; reflexivity|]. cbn. discriminate. Qed.

Lemma array_ok l : offers (array_v l) l.
Proof.
  split; [split; reflexivity|]. intros _.
  apply range_entry with (entry := at_pos l); try reflexivity; [now right|].
  intros k _. apply at_pos_nat.
Qed.

Lemma vector_ok l : offers (vector_v l) l.
Proof.
  split.
  - split; [reflexivity|]. intros i hi. unfold get_fixed. cbn. apply at_pos_nat.
  - intros _. apply range_entry with (entry := at_pos l); try reflexivity; [now right|].
    intros k _. apply at_pos_nat.
Qed.

Lemma from_tuple_ok v l : offers_get v l -> offers (from_tuple_v v) l.
Proof.
  intros [hs hg]. split.
  - split; [exact hs|]. intros i hi. unfold get_fixed. cbn. now apply hg.
  - intros _. eapply range_entry; try reflexivity; [cbn; now rewrite hs | now left |].
    intros k hk. cbn. rewrite hs. zb. rewrite Nat2Z.id. now apply hg.
Qed.

Lemma from_range_ok v l : viter v = true -> offers v l -> offers (from_range_v v) l.
Proof.
  intros hi [[hs hg] hr]. split.
  - split; [exact hs|]. intros i h. unfold get_fixed. cbn. now apply hg.
  - intros _. destruct (hr hi) as (h1 & h2 & h3 & h4 & h5 & h6).
    apply range_intro; cbn; trivial.
Qed.

Lemma all_ok v l : offers v l -> offers (all_v v) l.
Proof.
  intros h. unfold all_v. destruct (viter v) eqn:E.
  - now apply from_range_ok.
  - apply from_tuple_ok, h.
Qed.

Lemma total_eq (vs : list (view A)) (ls : list (list A)) n :
  Forall2 (fun v l => vsize v = length l) vs ls ->
  fold_left (fun n v => n + vsize v) vs n = n + length (concat ls).
Proof.
  intros H. revert n. induction H; intros n; cbn; [lia|].
  rewrite IHForall2, app_length. lia.
Qed.

Lemma concat_indices_ok (vs : list (view A)) (ls : list (list A)) i :
  Forall2 (@offers_get A) vs ls -> i < length (concat ls) ->
  (let (e, ix) := concat_indices i (map vsize vs) in
   match nth_error vs e with Some v => get_fixed v ix | None => None end) = nth_error (concat ls) i.
Proof.
  intros H. revert i. induction H as [|v l vs ls [hs hg] H IH]; intros i hi; [cbn in hi; lia|].
  cbn [map concat_indices concat] in *. rewrite hs. rewrite app_length in hi.
  destruct (Nat.ltb_spec i (length l)).
  - cbn. rewrite nth_error_app1 by lia. now apply hg.
  - specialize (IH (i - length l) ltac:(lia)).
    destruct (concat_indices (i - length l) (map vsize vs)) as [a b].
    cbn. rewrite nth_error_app2 by lia. exact IH.
Qed.

Lemma concat_tuple_ok vs ls : Forall2 (@offers_get A) vs ls -> offers_get (concat_tuple_v vs) (concat ls).
Proof.
  intros H.
  assert (T : fold_left (fun n v => n + vsize v) vs 0 = length (concat ls)).
  { rewrite (total_eq vs ls); [lia|]. clear - H. induction H; constructor; [apply H|]; trivial. }
  split; [exact T|]. intros i hi. unfold get_fixed. cbn. rewrite T. zb.
  now apply concat_indices_ok.
Qed.

Lemma concat_range_at_ok (vs : list (view A)) (ls : list (list A)) k :
  Forall2 (fun v l => offers_get v l /\ offers_range v l) vs ls -> k < length (concat ls) ->
  concat_range_at vs (Z.of_nat k) = nth_error (concat ls) k.
Proof.
  intros H. revert k. induction H as [|v l vs ls [[hs hg] hr] H IH]; intros k hk; [cbn in hk; lia|].
  cbn [concat_range_at concat] in *. rewrite app_length in hk. rewrite hs.
  destruct hr as (_ & _ & _ & hd & _).
  destruct (Z.ltb_spec (Z.of_nat k) (Z.of_nat (length l))).
  - rewrite hd by lia. now rewrite nth_error_app1 by lia.
  - rewrite nth_error_app2 by lia. rewrite <- IH by lia. f_equal. lia.
Qed.

Lemma concat_range_ok vs ls :
  Forall2 (fun v l => offers_get v l /\ offers_range v l) vs ls ->
  offers (concat_range_v vs) (concat ls).
Proof.
  intros H.
  assert (T : fold_left (fun n v => n + vsize v) vs 0 = length (concat ls)).
  { rewrite (total_eq vs ls); [lia|]. clear - H. induction H; constructor; [apply H|]; trivial. }
  assert (E : forall k, k < length (concat ls) ->
    (if (0 <=? Z.of_nat k)%Z then concat_range_at vs (Z.of_nat k) else None) = nth_error (concat ls) k).
  { intros k hk. zb. now apply concat_range_at_ok. }
  split.
  - split; [exact T|]. intros i hi. unfold get_fixed. cbn. apply (E i hi).
  - intros _. eapply range_entry; try reflexivity; [cbn; now rewrite T | now right | exact E].
Qed.

Lemma slice_ok v l o f x :
  offers v l -> (viter v = true \/ f = true) ->
  match x with Some (n, _) => o + n <= length l | None => o <= length l end ->
  offers (slice_v v o f x)
    (match x with Some (n, _) => firstn n (skipn o l) | None => skipn o l end).
Proof.
  intros [[hs hg] hr] hi hx.
  set (m := match x with Some (n, _) => firstn n (skipn o l) | None => skipn o l end).
  assert (hm : length m = match x with Some (n, _) => n | None => length l - o end).
  { unfold m. destruct x as [[n ff]|]; rewrite ?firstn_length, skipn_length; lia. }
  assert (hlen : o + length m <= length l) by (rewrite hm; destruct x as [[n ff]|]; lia).
  assert (hn : forall i, i < length m -> nth_error m i = nth_error l (o + i)).
  { intros i h. unfold m in *. destruct x as [[n ff]|].
    - rewrite nth_error_firstn_lt by lia. apply nth_error_skipn.
    - apply nth_error_skipn. }
  split.
  - split; [cbn; rewrite hm, hs; reflexivity|].
    intros i h. unfold get_fixed at 1. cbn. rewrite hn by trivial.
    destruct f; [apply hg; lia|]. destruct hi as [hi|]; [|discriminate].
    destruct (hr hi) as (hd & _). apply hd. lia.
  - intros hv. cbn in hv. destruct (hr hv) as (h1 & h2 & h3 & h4 & h5 & h6).
    apply range_intro; cbn.
    + destruct x as [[n ff]|]; [rewrite hm; lia|]. rewrite h2. rewrite hm. lia.
    + intros k hk. rewrite hn by trivial. rewrite <- h4 by lia. f_equal. lia.
    + intros k n hk hn'. rewrite hn by lia.
      replace (vbegin v + Z.of_nat o + Z.of_nat k)%Z with (vbegin v + Z.of_nat (o + k))%Z by lia.
      rewrite h5 by lia. f_equal. lia.
    + intros k n hk hn'.
      replace (vbegin v + Z.of_nat o + Z.of_nat k)%Z with (vbegin v + Z.of_nat (o + k))%Z by lia.
      apply h6; lia.
Qed.

Lemma replicate_ok v l k f :
  offers v l -> (viter v = true \/ vfixed v = true) ->
  offers (replicate_v v k f) (concat (repeat l k)).
Proof.
  intros [[hs hg] hr] hi.
  assert (hl := length_concat_repeat A k l).
  split.
  - split; [cbn; lia|]. intros i h. rewrite hl in h.
    assert (l <> []) by (intros ->; cbn in h; lia).
    assert (0 < length l) by (destruct l; [congruence|cbn; lia]).
    unfold get_fixed at 1. cbn. rewrite hs. zb.
    rewrite nth_error_concat_repeat by lia.
    assert (i mod length l < length l) by (apply Nat.mod_upper_bound; lia).
    destruct (vfixed v); [now apply hg|].
    destruct hi as [hi|]; [|discriminate]. destruct (hr hi) as (hd & _). now apply hd.
  - intros hv. cbn in hv. destruct (hr hv) as (h1 & _).
    eapply range_entry; try reflexivity; [cbn; rewrite hl, hs; reflexivity | now right |].
    intros p hp. cbn. rewrite hl in hp.
    assert (l <> []) by (intros ->; cbn in hp; lia).
    assert (0 < length l) by (destruct l; [congruence|cbn; lia]).
    rewrite hs. zb. rewrite Nat2Z.id.
    rewrite nth_error_concat_repeat by lia. apply h1. apply Nat.mod_upper_bound. lia.
Qed.

Lemma generate_ok (g : nat -> A) n x : offers (generate_v g n x) (map g (seq 0 n)).
Proof.
  assert (E : forall k, k < n -> nth_error (map g (seq 0 n)) k = Some (g k)).
  { intros k hk. rewrite nth_error_map.
    rewrite (nth_error_nth' (seq 0 n) 0) by (rewrite seq_length; lia).
    rewrite seq_nth by lia. reflexivity. }
  split.
  - split; [cbn; now rewrite map_length, seq_length|].
    intros i hi. rewrite map_length, seq_length in hi. rewrite E by lia. reflexivity.
  - intros _. eapply range_entry; try reflexivity; [cbn; now rewrite map_length, seq_length | now left |].
    intros k hk. rewrite map_length, seq_length in hk. rewrite E by lia. cbn. zb. now rewrite Nat2Z.id.
Qed.

Lemma repeat_ok (a : A) n x : offers (repeat_v a n x) (repeat a n).
Proof.
  unfold repeat_v. destruct x.
  - apply from_tuple_ok. split; [cbn; now rewrite repeat_length|].
    intros i hi. rewrite repeat_length in hi. unfold get_fixed. cbn. zb.
    now rewrite nth_error_repeat_lt.
  - split.
    + split; [cbn; now rewrite repeat_length|].
      intros i hi. rewrite repeat_length in hi. unfold get_fixed. cbn. zb.
      now rewrite nth_error_repeat_lt.
    + intros _. eapply range_entry; try reflexivity; [cbn; now rewrite repeat_length | now right |].
      intros k hk. rewrite repeat_length in hk. cbn. zb. now rewrite nth_error_repeat_lt.
Qed.

Lemma reverse_ok v l : offers_get v l -> offers (reverse_v v) (rev l).
Proof.
  intros [hs hg]. split; [|cbn; discriminate].
  split; [cbn; now rewrite rev_length|].
  intros i hi. rewrite rev_length in hi. unfold get_fixed at 1. cbn. rewrite hs. zb.
  rewrite nth_error_rev by lia. apply hg. lia.
Qed.

Lemma concat_ok vs ls :
  vs <> [] -> Forall2 (@offers A) vs ls ->
  (Forall (fun v => viter v = true) vs \/ Forall (fun v => vfixed v = true /\ vhasget v = true) vs) ->
  offers (concat_v vs) (concat ls).
Proof.
  intros hne H hk. unfold concat_v.
  destruct vs as [|v1 vs1]; [congruence|].
  destruct vs1 as [|v2 vs2].
  { inversion H as [|? l1 ? ls1 h1 h2]; subst. inversion h2; subst. cbn. now rewrite app_nil_r. }
  assert (Hg : Forall2 (@offers_get A) (v1 :: v2 :: vs2) ls).
  { clear - H. induction H; constructor; trivial. apply H. }
  destruct (forallb _ _) eqn:E.
  - apply from_tuple_ok, concat_tuple_ok, Hg.
  - destruct hk as [hk|hk].
    + apply concat_range_ok. clear - H hk. induction H; constructor.
      * inversion hk; subst. destruct H as [? hr]. auto.
      * apply IHForall2. now inversion hk.
    + exfalso. rewrite <- not_true_iff_false in E. apply E. apply forallb_forall.
      rewrite Forall_forall in hk. intros x hx. destruct (hk x hx) as [-> ->]. reflexivity.
Qed.

(** Induction that also reaches the operands of a concatenation. *)
Section Ind.
Variable P : expr A -> Prop.
Hypothesis h1 : forall l, P (ETuple l).
Hypothesis h2 : forall l, P (EArray l).
Hypothesis h3 : forall l, P (EVector l).
Hypothesis h4 : forall e, P e -> P (EAll e).
Hypothesis h5 : forall es, Forall P es -> P (EConcat es).
Hypothesis h6 : forall e o f x, P e -> P (ESlice e o f x).
Hypothesis h7 : forall e k f, P e -> P (EReplicate e k f).
Hypothesis h8 : forall f n x, P (EGenerate f n x).
Hypothesis h9 : forall a n x, P (ERepeat a n x).
Hypothesis h10 : forall e, P e -> P (EReverse e).
Fixpoint expr_all_ind (e : expr A) : P e :=
  match e with
  | ETuple l => h1 l | EArray l => h2 l | EVector l => h3 l
  | EAll e => h4 e (expr_all_ind e)
  | EConcat es => h5 es ((fix go es : Forall P es :=
      match es with [] => Forall_nil P | e :: r => Forall_cons e (expr_all_ind e) (go r) end) es)
  | ESlice e o f x => h6 e o f x (expr_all_ind e)
  | EReplicate e k f => h7 e k f (expr_all_ind e)
  | EGenerate f n x => h8 f n x
  | ERepeat a n x => h9 a n x
  | EReverse e => h10 e (expr_all_ind e)
  end.
End Ind.

Theorem views_ok (e : expr A) : allowed e -> offers (eval e) (denote e).
Proof.
  induction e using expr_all_ind; cbn [allowed eval denote].
  - intros _. apply tuple_ok.
  - intros _. apply array_ok.
  - intros _. apply vector_ok.
  - intros h. apply all_ok, IHe, h.
  - intros (hne & ha & hk). apply concat_ok; trivial.
    + destruct es; [congruence|discriminate].
    + clear hne hk. induction H as [|e es He H IH]; cbn; constructor.
      * apply He, ha.
      * apply IH, ha.
  - intros (ha & hi & hx). specialize (IHe ha). destruct IHe as [[hs hg] hr].
    rewrite hs in hx.
    assert (S : offers (slice_v (eval e) o f x)
      (match x with Some (n, _) => firstn n (skipn o (denote e)) | None => skipn o (denote e) end)).
    { apply slice_ok; trivial; [split; [split|]; trivial|]. destruct hi as [hi|[hi _]]; auto. }
    unfold slice. destruct x as [[n ff]|]; [|exact S].
    destruct (viter (eval e) && f && (o =? 0) && vfixed (eval e) && ff && (n =? vsize (eval e))) eqn:E; [|exact S].
    rewrite !andb_true_iff in E. destruct E as (((((_ & _) & Eo) & _) & _) & En).
    apply Nat.eqb_eq in Eo, En. subst o n. rewrite hs. cbn [skipn]. rewrite firstn_all.
    split; [split|]; trivial.
  - intros [ha hi]. apply replicate_ok; auto.
  - intros _. apply generate_ok.
  - intros _. apply repeat_ok.
  - intros (ha & _ & _). apply reverse_ok. now apply IHe.
Qed.

(** ** Transposed pattern collections *)

Lemma get_pattern_ok d v l ifix i :
  offers v l -> (ifix = true \/ viter v = true) ->
  get_pattern d v ifix (Z.of_nat i) = Some (nth i l d).
Proof.
  intros [[hs hg] hr] hi. unfold get_pattern. rewrite hs. zb; rewrite ?Nat2Z.id.
  - assert (G : nth_error l i = Some (nth i l d)) by (apply nth_error_nth'; lia).
    destruct ifix.
    + rewrite hg by lia. exact G.
    + destruct hi as [|hi]; [discriminate|]. destruct (hr hi) as (hd & _).
      rewrite hd by lia. exact G.
  - now rewrite nth_overflow by lia.
Qed.

Lemma swap_index_nat a b i :
  swap_index (Z.of_nat a) (Z.of_nat b) (Z.of_nat i) =
  Z.of_nat (if i =? a then b else if i =? b then a else i).
Proof. unfold swap_index. zb; reflexivity. Qed.

Lemma swapped_length d l a b : length (swapped d l a b) = Nat.max (length l) (b + 1).
Proof. unfold swapped. now rewrite map_length, seq_length. Qed.

Lemma nth_error_swapped d l a b i : i < Nat.max (length l) (b + 1) ->
  nth_error (swapped d l a b) i = Some (nth (if i =? a then b else if i =? b then a else i) l d).
Proof.
  intros h. unfold swapped. rewrite nth_error_map.
  rewrite (nth_error_nth' _ 0) by (rewrite seq_length; lia). rewrite seq_nth by lia. reflexivity.
Qed.

Lemma transpose_get d v l a b : offers v l -> offers_get (transpose_v d v a b) (swapped d l a b).
Proof.
  intros h. split.
  - rewrite swapped_length. cbn. destruct h as [[hs _] _]. now rewrite hs.
  - intros i hi. rewrite swapped_length in hi. rewrite nth_error_swapped by trivial.
    unfold get_fixed. cbn [transpose_v vhasget vget]. rewrite swap_index_nat.
    apply get_pattern_ok; auto.
Qed.

Lemma transpose_deref d v l a b : offers v l -> viter v = true ->
  forall k, k < Nat.max (length l) (b + 1) ->
  vderef (transpose_v d v a b) (Z.of_nat k) = nth_error (swapped d l a b) k.
Proof.
  intros h hi k hk. rewrite nth_error_swapped by trivial. cbn [transpose_v vderef].
  rewrite swap_index_nat. apply get_pattern_ok; auto.
Qed.

Lemma transpose_walk d v l a b fuel : offers v l -> viter v = true ->
  Nat.max (length l) (b + 1) < fuel ->
  walk (transpose_v d v a b) fuel 0 = Some (swapped d l a b).
Proof.
  intros h hi hf.
  apply (walk_of (transpose_v d v a b)); cbn [transpose_v vend vbegin]; rewrite ?swapped_length.
  - destruct h as [[hs _] _]. rewrite hs. reflexivity.
  - intros k hk. rewrite Z.add_0_l. now apply transpose_deref.
  - exact hf.
Qed.

(** What [begin()[n]] of a transposed collection really reads: element
    [b + n] of the original when [a] is 0. *)
Lemma transpose_dyn d v l b n : offers v l -> viter v = true ->
  get_dyn (transpose_v d v 0 b) n = Some (nth (b + n) l d).
Proof.
  intros h hi. unfold get_dyn. cbn [transpose_v vsub vbegin].
  replace (swap_index (Z.of_nat 0) (Z.of_nat b) 0 + Z.of_nat n)%Z with (Z.of_nat (b + n)).
  - apply get_pattern_ok; auto.
  - unfold swap_index. rewrite Z.eqb_refl. lia.
Qed.

(** ** Flattening *)
Section TInd.
Variable P : ttree A -> Prop.
Hypothesis hl : forall a, P (TLeaf a).
Hypothesis hn : forall ts : list (ttree A), Forall P ts -> P (TNode ts).
Fixpoint ttree_all_ind (t : ttree A) : P t :=
  match t with
  | TLeaf a => hl a
  | TNode ts => hn ts ((fix go (ts : list (ttree A)) : Forall P ts :=
      match ts with [] => Forall_nil P | x :: r => Forall_cons x (ttree_all_ind x) (go r) end) ts)
  end.
End TInd.

Lemma leaves_only (ts : list (ttree A)) :
  existsb is_node ts = false -> ts = map TLeaf (concat (map leaves ts)).
Proof.
  induction ts as [|t ts IH]; intros h; [reflexivity|]. cbn in h.
  apply orb_false_iff in h. destruct h as [h1 h2]. destruct t; [|discriminate].
  cbn. f_equal. now apply IH.
Qed.

Lemma flatten_ok (t : ttree A) : tuple_flatten t = map TLeaf (leaves t).
Proof.
  induction t using ttree_all_ind; [reflexivity|]. cbn [tuple_flatten leaves].
  destruct (existsb is_node ts) eqn:E.
  - rewrite concat_map, map_map. f_equal. clear E. induction H; cbn; f_equal; trivial.
  - now apply leaves_only.
Qed.

End Views.

(** ** Comparison *)
Section Cmp.
Variable A : Type.
Variable cmp : A -> A -> option comparison.
Implicit Types l r : side A.

Definition sized (s : side A) : bool :=
  match skind s with KUnbounded => false | _ => true end.

Definition within (s : side A) (i : nat) : Prop :=
  match skind s with KFixed n | KDyn n => i <= n | KUnbounded => True end.

Lemma at_end_ends (s : side A) i : at_end s i = true <-> ends (seq_of s) i.
Proof.
  unfold at_end, ends, seq_of. cbn. destruct (skind s); rewrite ?Nat.eqb_eq;
    (split; intros h; [congruence || discriminate | inversion h; reflexivity || discriminate]).
Qed.

Lemma not_end_has (s : side A) i : within s i -> at_end s i = false -> has (seq_of s) i /\ within s (S i).
Proof.
  unfold at_end, has, seq_of, within. cbn. destruct (skind s); rewrite ?Nat.eqb_neq; intros; split; trivial; lia.
Qed.

(** The three versions are the same function. *)
Lemma std_loop fuel : forall i l r, std_lex cmp fuel i l r = loop_lex cmp fuel i l r.
Proof.
  induction fuel; intros i l r; [reflexivity|]. cbn.
  destruct (at_end l i), (at_end r i); cbn; try reflexivity.
  destruct (cmp _ _) as [[]|]; trivial.
Qed.

Lemma end_split (s : side A) i : at_end s i = exhausted_fixed s i || exhausted_dyn s i.
Proof. unfold at_end, exhausted_fixed, exhausted_dyn. destruct (skind s); now rewrite ?orb_false_r. Qed.

Lemma end_exclusive (s : side A) i : exhausted_fixed s i = true -> exhausted_dyn s i = false.
Proof. unfold exhausted_fixed, exhausted_dyn. destruct (skind s); congruence. Qed.

Definition is_fixed (s : side A) : bool := match skind s with KFixed _ => true | _ => false end.

Lemma fixed_std fuel : forall i l r, is_fixed l || is_fixed r = true ->
  fixed_lex cmp fuel i l r = std_lex cmp fuel i l r.
Proof.
  induction fuel; intros i l r hf; [reflexivity|]. cbn [fixed_lex std_lex]. rewrite !end_split.
  specialize (IHfuel (S i) l r hf).
  destruct (exhausted_fixed l i) eqn:E1, (exhausted_fixed r i) eqn:E2; cbn;
    rewrite ?(end_exclusive _ _ E1), ?(end_exclusive _ _ E2); try reflexivity.
  destruct (exhausted_dyn l i) eqn:D1, (exhausted_dyn r i) eqn:D2; try reflexivity.
  - exfalso. unfold is_fixed, exhausted_dyn in *. destruct (skind l), (skind r); discriminate.
  - rewrite IHfuel. reflexivity.
Qed.

Lemma std_lex_ok fuel : forall i l r,
  (forall j, j < i -> has (seq_of l) j /\ has (seq_of r) j /\ cmp (selem l j) (selem r j) = Some Eq) ->
  within l i -> within r i ->
  (sized l = true /\ known_size l < i + fuel \/ sized r = true /\ known_size r < i + fuel) ->
  exists c, std_lex cmp fuel i l r = Some c /\ lex_result cmp (seq_of l) (seq_of r) c.
Proof.
  induction fuel; intros i l r hp wl wr hf.
  - exfalso. unfold within, sized, known_size in *. destruct (skind l), (skind r);
      destruct hf as [[? ?]|[? ?]]; try discriminate; lia.
  - cbn [std_lex].
    destruct (at_end l i) eqn:El, (at_end r i) eqn:Er.
    + eexists; split; [reflexivity|]. exists i. split; [exact hp|]. left.
      rewrite <- !at_end_ends. auto.
    + destruct (not_end_has r i wr Er). eexists; split; [reflexivity|]. exists i. split; [exact hp|].
      right; left. rewrite <- at_end_ends. auto.
    + destruct (not_end_has l i wl El). eexists; split; [reflexivity|]. exists i. split; [exact hp|].
      right; right; left. rewrite <- at_end_ends. auto.
    + destruct (not_end_has l i wl El) as [hl wl']. destruct (not_end_has r i wr Er) as [hr wr'].
      destruct (cmp (selem l i) (selem r i)) as [[]|] eqn:Ec.
      * apply IHfuel; trivial.
        -- intros j hj. destruct (Nat.eq_dec j i) as [->|]; [auto|]. apply hp. lia.
        -- replace (S i + fuel) with (i + S fuel) by lia. exact hf.
      * eexists; split; [reflexivity|]. exists i. split; [exact hp|]. do 3 right.
        cbn. rewrite Ec. repeat split; trivial. discriminate.
      * eexists; split; [reflexivity|]. exists i. split; [exact hp|]. do 3 right.
        cbn. rewrite Ec. repeat split; trivial. discriminate.
      * eexists; split; [reflexivity|]. exists i. split; [exact hp|]. do 3 right.
        cbn. rewrite Ec. repeat split; trivial. discriminate.
Qed.

Lemma lex_compare_ok common l r : sized l = true \/ sized r = true ->
  exists c, lex_compare cmp common l r = Some c /\ lex_result cmp (seq_of l) (seq_of r) c.
Proof.
  intros hs.
  assert (G : exists c, std_lex cmp (S (Nat.max (known_size l) (known_size r))) 0 l r = Some c
    /\ lex_result cmp (seq_of l) (seq_of r) c).
  { apply std_lex_ok.
    - intros j hj; lia.
    - unfold within. destruct (skind l); lia || exact I.
    - unfold within. destruct (skind r); lia || exact I.
    - destruct hs as [hs|hs]; [left|right]; (split; [exact hs|lia]). }
  unfold lex_compare.
  destruct (is_fixed l || is_fixed r) eqn:F.
  - rewrite <- fixed_std in G by exact F. unfold is_fixed in F.
    destruct (skind l), (skind r); try discriminate F; exact G.
  - unfold is_fixed in F.
    assert (H : exists c, (if common then std_lex cmp (S (Nat.max (known_size l) (known_size r))) 0 l r
       else loop_lex cmp (S (Nat.max (known_size l) (known_size r))) 0 l r) = Some c /\
       lex_result cmp (seq_of l) (seq_of r) c).
    { destruct common; rewrite <- ?std_loop; exact G. }
    destruct (skind l), (skind r); try discriminate F; exact H.
Qed.

(** The specification determines the answer. *)
Lemma ends_has (s : sequence A) i j : ends s i -> has s j -> j < i.
Proof. unfold ends, has. intros ->. trivial. Qed.

Lemma lex_result_unique (s t : sequence A) c d :
  lex_result cmp s t c -> lex_result cmp s t d -> c = d.
Proof.
  intros (k & hk & ck) (m & hm & cm).
  assert (k = m).
  { destruct (Nat.lt_trichotomy k m) as [h|[h|h]]; trivial; exfalso.
    - destruct (hm k h) as (h1 & h2 & h3).
      destruct ck as [(e1 & _)|[(e1 & _)|[(_ & e1 & _)|(_ & _ & e1 & e2)]]].
      + pose proof (ends_has _ _ _ e1 h1); lia.
      + pose proof (ends_has _ _ _ e1 h1); lia.
      + pose proof (ends_has _ _ _ e1 h2); lia.
      + congruence.
    - destruct (hk m h) as (h1 & h2 & h3).
      destruct cm as [(e1 & _)|[(e1 & _)|[(_ & e1 & _)|(_ & _ & e1 & e2)]]].
      + pose proof (ends_has _ _ _ e1 h1); lia.
      + pose proof (ends_has _ _ _ e1 h1); lia.
      + pose proof (ends_has _ _ _ e1 h2); lia.
      + congruence. }
  subst m.
  destruct ck as [(a1 & a2 & a3)|[(a1 & a2 & a3)|[(a1 & a2 & a3)|(a1 & a2 & a3 & a4)]]],
           cm as [(b1 & b2 & b3)|[(b1 & b2 & b3)|[(b1 & b2 & b3)|(b1 & b2 & b3 & b4)]]];
    subst; trivial;
    match goal with
    | H1 : ends ?s k, H2 : has ?s k |- _ => pose proof (ends_has _ _ _ H1 H2); lia
    end.
Qed.

Hypothesis ord : order_cmp cmp.

Lemma lex_flip (s t : sequence A) c :
  lex_result cmp s t c -> lex_result cmp t s (option_map CompOpp c).
Proof.
  intros (k & hk & ck). exists k. split.
  - intros j hj. destruct (hk j hj) as (h1 & h2 & h3). repeat split; trivial.
    rewrite (cmp_flip _ ord), h3. reflexivity.
  - destruct ck as [(a1 & a2 & a3)|[(a1 & a2 & a3)|[(a1 & a2 & a3)|(a1 & a2 & a3 & a4)]]]; subst; cbn.
    + left; auto.
    + right; right; left; auto.
    + right; left; auto.
    + do 3 right. repeat split; trivial.
      * symmetry. apply (cmp_flip _ ord).
      * destruct (cmp _ _) as [[]|]; cbn; congruence.
Qed.

Lemma lex_eq (s t : sequence A) :
  lex_result cmp s t (Some Eq) <->
  exists n, bound s = Some n /\ bound t = Some n /\ forall j, j < n -> item s j = item t j.
Proof.
  split.
  - intros (k & hk & ck).
    destruct ck as [(a1 & a2 & a3)|[(a1 & a2 & a3)|[(a1 & a2 & a3)|(a1 & a2 & a3 & a4)]]];
      try discriminate; try congruence.
    exists k. repeat split; trivial. intros j hj. apply (cmp_eq _ ord). now apply hk.
  - intros (n & h1 & h2 & h3). exists n. split.
    + intros j hj. unfold has. rewrite h1, h2. repeat split; trivial. rewrite h3 by trivial. apply (cmp_refl _ ord).
    + left. auto.
Qed.

Lemma cmp_eq_l x y z : cmp x y = Some Eq -> cmp x z = cmp y z.
Proof. intros h. now rewrite (cmp_eq _ ord _ _ h). Qed.

Lemma lex_trans (s t u : sequence A) :
  lex_result cmp s t (Some Lt) -> lex_result cmp t u (Some Lt) -> lex_result cmp s u (Some Lt).
Proof.
  intros (k & hk & ck) (m & hm & cm).
  exists (Nat.min k m). split.
  - intros j hj. destruct (hk j ltac:(lia)) as (h1 & h2 & h3), (hm j ltac:(lia)) as (g1 & g2 & g3).
    repeat split; trivial. rewrite (cmp_eq _ ord _ _ h3). exact g3.
  - destruct ck as [(a1 & a2 & a3)|[(a1 & a2 & a3)|[(a1 & a2 & a3)|(a1 & a2 & a3 & a4)]]]; try discriminate;
    destruct cm as [(b1 & b2 & b3)|[(b1 & b2 & b3)|[(b1 & b2 & b3)|(b1 & b2 & b3 & b4)]]]; try discriminate.
    + (* s ends at k, t ends at m: k < m *)
      pose proof (ends_has _ _ _ b1 a2). rewrite Nat.min_l by lia. right; left.
      repeat split; trivial. destruct (hm k ltac:(lia)) as (_ & h & _). exact h.
    + (* s ends at k; t and u differ at m *)
      destruct (Nat.lt_ge_cases m k) as [h|h].
      * rewrite Nat.min_r by lia. destruct (hk m h) as (h1 & h2 & h3).
        do 3 right. repeat split; trivial; try discriminate.
        rewrite (cmp_eq _ ord _ _ h3). exact b3.
      * rewrite Nat.min_l by lia. right; left. repeat split; trivial.
        destruct (Nat.eq_dec k m) as [->|]; [trivial|]. destruct (hm k ltac:(lia)) as (_ & g & _). exact g.
    + (* s and t differ at k; t ends at m *)
      pose proof (ends_has _ _ _ b1 a2). rewrite Nat.min_l by lia. do 3 right.
      destruct (hm k ltac:(lia)) as (g1 & g2 & g3). repeat split; trivial; try discriminate.
      rewrite <- (cmp_eq _ ord _ _ g3). exact a3.
    + destruct (Nat.lt_trichotomy k m) as [h|[h|h]].
      * rewrite Nat.min_l by lia. destruct (hm k h) as (g1 & g2 & g3). do 3 right.
        repeat split; trivial; try discriminate. rewrite <- (cmp_eq _ ord _ _ g3). exact a3.
      * subst m. rewrite Nat.min_l by lia. do 3 right. repeat split; trivial; try discriminate.
        symmetry. eapply (cmp_trans _ ord); symmetry; eassumption.
      * rewrite Nat.min_r by lia. destruct (hk m h) as (g1 & g2 & g3). do 3 right.
        repeat split; trivial; try discriminate. rewrite (cmp_eq _ ord _ _ g3). exact b3.
Qed.
End Cmp.

Section Indices.
Variable A : Type.
Variable cmp : A -> A -> option comparison.
Variable comp : option comparison -> bool.
Implicit Types l r : side A.

Definition pair_ok l r i : bool := comp (cmp (selem l i) (selem r i)).

Lemma loop_ok n : forall i l r, compare_indices_loop cmp comp n i l r = true <->
  forall j, i <= j < i + n -> pair_ok l r j = true.
Proof.
  induction n; intros i l r; cbn.
  - split; [intros _ j hj; lia | trivial].
  - fold (pair_ok l r i). destruct (pair_ok l r i) eqn:E.
    + rewrite IHn. split; intros h j hj.
      * destruct (Nat.eq_dec j i) as [->|]; [exact E|]. apply h. lia.
      * apply h. lia.
    + split; [discriminate|]. intros h. rewrite <- E. apply h. lia.
Qed.

Definition kind_ok (sz : size_kind) (fsz : nat) : Prop :=
  match sz with KFixed n => n = fsz | KDyn n => n <= fsz | KUnbounded => False end.
Definition kind_size (sz : size_kind) : nat :=
  match sz with KFixed n | KDyn n => n | KUnbounded => 0 end.

Lemma fixed_ok fuel : forall i l r fsz sz, kind_ok sz fsz -> i <= fsz -> fsz < i + fuel ->
  exists b, compare_indices_fixed cmp comp fuel fsz i l r sz = Some b /\
    (b = true <-> forall j, i <= j < kind_size sz -> pair_ok l r j = true).
Proof.
  induction fuel; intros i l r fsz sz hk hi hf; [lia|].
  cbn [compare_indices_fixed]. fold (pair_ok l r i).
  destruct sz as [n|n|]; cbn in hk; try contradiction; cbn [kind_size].
  - destruct (Nat.ltb_spec i n).
    + destruct (IHfuel (S i) l r fsz (KFixed n) hk ltac:(lia) ltac:(lia)) as (b & -> & hb). cbn.
      eexists; split; [reflexivity|]. rewrite andb_true_iff, hb. cbn. split.
      * intros [h1 h2] j hj. destruct (Nat.eq_dec j i) as [->|]; [trivial|]. apply h2. lia.
      * intros h. split; [apply h; lia|]. intros j hj. apply h. lia.
    + eexists; split; [reflexivity|]. split; [intros _ j hj; lia | trivial].
  - destruct (Nat.leb_spec fsz i).
    { eexists; split; [reflexivity|]. split; [intros _ j hj; lia | trivial]. }
    destruct (Nat.ltb_spec i n).
    + destruct (pair_ok l r i) eqn:E.
      * destruct (IHfuel (S i) l r fsz (KDyn n) hk ltac:(lia) ltac:(lia)) as (b & -> & hb). cbn.
        eexists; split; [reflexivity|]. rewrite hb. cbn. split.
        -- intros h j hj. destruct (Nat.eq_dec j i) as [->|]; [trivial|]. apply h. lia.
        -- intros h j hj. apply h. lia.
      * eexists; split; [reflexivity|]. split; [discriminate|]. intros h. rewrite <- E. apply h. lia.
    + eexists; split; [reflexivity|]. split; [intros _ j hj; lia | trivial].
Qed.

Lemma has_both l r i : sized A l = true \/ sized A r = true ->
  (has (seq_of l) i /\ has (seq_of r) i) <-> i < kind_size (get_min_size l r).
Proof.
  unfold sized, has, seq_of, get_min_size. cbn.
  destruct (skind l), (skind r); cbn; intros [h|h]; try discriminate; intuition lia.
Qed.

Lemma compare_indices_ok l r : sized A l = true \/ sized A r = true ->
  exists b, compare_indices cmp comp l r = Some b /\
    (b = true <-> forall i, has (seq_of l) i -> has (seq_of r) i -> pair_ok l r i = true).
Proof.
  intros hs. unfold compare_indices.
  assert (E : (forall i, has (seq_of l) i -> has (seq_of r) i -> pair_ok l r i = true) <->
    (forall j, 0 <= j < kind_size (get_min_size l r) -> pair_ok l r j = true)).
  { split; intros h i.
    - intros [_ hi]. apply (has_both l r i hs) in hi. now apply h.
    - intros h1 h2. apply h. split; [lia|]. now apply (has_both l r i hs). }
  destruct (get_fixed_size l r) as [fsz|] eqn:F.
  - destruct (fixed_ok (S fsz) 0 l r fsz (get_min_size l r)) as (b & hb & hi); [|lia|lia|].
    + unfold get_fixed_size, get_min_size, kind_ok in *.
      destruct (skind l), (skind r); try discriminate; inversion F; subst; cbn; lia.
    + exists b. split; [exact hb|]. rewrite hi. now rewrite E.
  - assert (K : exists n, get_min_size l r = KDyn n).
    { unfold get_fixed_size, get_min_size, sized in *.
      destruct (skind l), (skind r); try discriminate; destruct hs; try discriminate; eauto. }
    destruct K as [n K]. rewrite K. eexists; split; [reflexivity|]. rewrite loop_ok.
    rewrite E, K. cbn. reflexivity.
Qed.
End Indices.
