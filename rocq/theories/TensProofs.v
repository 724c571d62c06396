(** * Proofs for C110: tensor components. *)
From Coq Require Import List Bool Arith Lia.
From Verif Require Import XprEigen XprModel TensModel TensSpec.
Import ListNotations.
Local Open Scope nat_scope.

Lemma range_length i ds : in_range i ds -> length i = length ds.
Proof. induction 1; cbn; congruence. Qed.

Lemma make_ix_same n i : length i = n -> make_ix_array n i = Got i.
Proof.
  revert i; induction n as [|n IH]; intros [|k i] H; cbn in *; try discriminate; [reflexivity|].
  rewrite IH by lia; reflexivity.
Qed.
Lemma make_ix_many n i : n < length i -> make_ix_array n i = TooMany.
Proof.
  revert i; induction n as [|n IH]; intros [|k i] H; cbn in *; try lia; [reflexivity|].
  rewrite IH by lia; reflexivity.
Qed.
Lemma make_ix_few n i : length i < n -> make_ix_array n i = NotEnough.
Proof.
  revert i; induction n as [|n IH]; intros [|k i] H; cbn in *; try lia; [reflexivity|].
  rewrite IH by lia; reflexivity.
Qed.

(** ** Offsets. *)
Lemma offset_left_lt ds i : in_range i ds -> offset_left ds i < product ds.
Proof. induction 1 as [|k d i ds H R IH]; cbn [offset_left product fold_right]; [lia|]. fold (product ds). nia. Qed.
Lemma offset_left_inj ds i j : in_range i ds -> in_range j ds -> offset_left ds i = offset_left ds j -> i = j.
Proof.
  intro R; revert j; induction R as [|k d i ds H R IH]; intros j S E; inversion S as [|k' d' j' ds' H' S']; subst; [reflexivity|].
  cbn in E.
  assert (Q : offset_left ds i = offset_left ds j' /\ k = k').
  { assert (offset_left ds i = offset_left ds j'); [|split; nia].
    destruct (Nat.lt_trichotomy (offset_left ds i) (offset_left ds j')) as [L|[->|L]]; [nia|reflexivity|nia]. }
  destruct Q as [Q ->]; f_equal; auto.
Qed.
Lemma offset_right_from_eq acc ds i : in_range i ds -> offset_right_from acc ds i = acc * product ds + place_right ds i.
Proof.
  intro R; revert acc; induction R as [|k d i ds H R IH]; intro acc; cbn [offset_right_from product fold_right place_right]; [lia|].
  fold (product ds); rewrite IH; nia.
Qed.
Lemma place_right_lt ds i : in_range i ds -> place_right ds i < product ds.
Proof. induction 1 as [|k d i ds H R IH]; cbn [place_right product fold_right]; [lia|]. fold (product ds). nia. Qed.
Lemma place_right_inj ds i j : in_range i ds -> in_range j ds -> place_right ds i = place_right ds j -> i = j.
Proof.
  intro R; revert j; induction R as [|k d i ds H R IH]; intros j S E; inversion S as [|k' d' j' ds' H' S']; subst; [reflexivity|].
  cbn in E. pose proof (place_right_lt _ _ R); pose proof (place_right_lt _ _ S').
  assert (Q : k = k' /\ place_right ds i = place_right ds j').
  { assert (k = k'); [|split; nia]. destruct (Nat.lt_trichotomy k k') as [L|[->|L]]; [nia|reflexivity|nia]. }
  destruct Q as [-> Q]; f_equal; auto.
Qed.
Lemma place_left_eq s ds i : in_range i ds -> place_left s ds i = s * offset_left ds i.
Proof.
  intro R; revert s; induction R as [|k d i ds H R IH]; intro s; cbn; [lia|]. rewrite IH; nia.
Qed.

Lemma offset_place {A} (t : storage A) i : in_range i (s_dims t) ->
  offset t i = if s_right t then place_right (s_dims t) i else place_left 1 (s_dims t) i.
Proof.
  intro R; unfold offset; destruct (s_right t); [rewrite offset_right_from_eq by assumption; lia|].
  rewrite place_left_eq by assumption; lia.
Qed.
Lemma offset_lt {A} (t : storage A) i : in_range i (s_dims t) -> offset t i < product (s_dims t).
Proof.
  intro R; rewrite offset_place by assumption; destruct (s_right t); [now apply place_right_lt|].
  rewrite place_left_eq by assumption; rewrite Nat.mul_1_l; now apply offset_left_lt.
Qed.
Lemma offset_inj {A} (t : storage A) i j : in_range i (s_dims t) -> in_range j (s_dims t) ->
  offset t i = offset t j -> i = j.
Proof.
  intros R S; rewrite !offset_place by assumption; destruct (s_right t); [now apply place_right_inj|].
  rewrite !place_left_eq by assumption; rewrite !Nat.mul_1_l; now apply offset_left_inj.
Qed.

(** ** Arrays. *)
Lemma replace_length {A} (l : list A) n v : n < length l -> length (replace l n v) = length l.
Proof. intro H; unfold replace; rewrite app_length; cbn [length]; rewrite firstn_length, skipn_length; lia. Qed.
Lemma replace_same {A} (l : list A) n v : n < length l -> nth_error (replace l n v) n = Some v.
Proof.
  intro H; unfold replace; rewrite nth_error_app2; rewrite firstn_length; [|lia].
  replace (n - Nat.min n (length l)) with 0 by lia; reflexivity.
Qed.
Lemma replace_other {A} (l : list A) n v m : n < length l -> m <> n -> nth_error (replace l n v) m = nth_error l m.
Proof.
  revert n m; induction l as [|a l IH]; intros n m H D; cbn in H; [lia|].
  destruct n as [|n]; destruct m as [|m]; try lia; try reflexivity.
  change (nth_error (replace l n v) m = nth_error l m); apply IH; lia.
Qed.

(** ** Access. *)
Lemma get_in_range {A} (t : storage A) i : in_range i (s_dims t) ->
  get_component t i = match nth_error (s_data t) (offset t i) with Some v => Got v | None => Beyond end.
Proof. intro R; unfold get_component; rewrite make_ix_same by now apply range_length. reflexivity. Qed.
Lemma set_in_range {A} (t : storage A) v i : proper t -> in_range i (s_dims t) ->
  set_component t v i = Got (mkstorage (s_dims t) (s_right t) (replace (s_data t) (offset t i) v)).
Proof.
  intros P R; unfold set_component; rewrite make_ix_same by now apply range_length.
  pose proof (offset_lt t i R) as L; rewrite <- P in L; apply Nat.ltb_lt in L; now rewrite L.
Qed.
Lemma get_total {A} (t : storage A) i : proper t -> in_range i (s_dims t) -> exists v, get_component t i = Got v.
Proof.
  intros P R; rewrite get_in_range by assumption.
  destruct (nth_error (s_data t) (offset t i)) as [v|] eqn:E; [eauto|].
  apply nth_error_None in E; pose proof (offset_lt t i R); unfold proper in P; lia.
Qed.

(** Every element of the array is a component. *)
Lemma left_onto ds n : n < product ds -> exists i, in_range i ds /\ offset_left ds i = n.
Proof.
  revert n; induction ds as [|d ds IH]; intros n H; cbn in H.
  - exists []; split; [constructor|cbn; lia].
  - fold (product ds) in H. assert (d <> 0) by (intros ->; lia).
    destruct (IH (n / d)) as [i [R E]]; [apply Nat.div_lt_upper_bound; lia|].
    exists (n mod d :: i); split; [constructor; [now apply Nat.mod_upper_bound|assumption]|].
    cbn; rewrite E; pose proof (Nat.div_mod n d); lia.
Qed.
Lemma right_onto ds n : n < product ds -> exists i, in_range i ds /\ place_right ds i = n.
Proof.
  revert n; induction ds as [|d ds IH]; intros n H; cbn in H.
  - exists []; split; [constructor|cbn; lia].
  - fold (product ds) in H. assert (product ds <> 0) by (intros E; rewrite E in H; lia).
    destruct (IH (n mod product ds)) as [i [R E]]; [now apply Nat.mod_upper_bound|].
    exists (n / product ds :: i); split; [constructor; [apply Nat.div_lt_upper_bound; lia|assumption]|].
    cbn; rewrite E; pose proof (Nat.div_mod n (product ds)); lia.
Qed.
Lemma offset_onto {A} (t : storage A) n : proper t -> n < length (s_data t) ->
  exists i, in_range i (s_dims t) /\ offset t i = n.
Proof.
  intros P H; rewrite P in H. destruct (s_right t) eqn:E.
  - destruct (right_onto _ _ H) as [i [R Q]]; exists i; split; [assumption|]; rewrite offset_place, E by assumption; assumption.
  - destruct (left_onto _ _ H) as [i [R Q]]; exists i; split; [assumption|]; unfold offset; rewrite E; assumption.
Qed.
