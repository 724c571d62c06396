From Coq Require Import List Arith Bool Lia.
From Verif Require Import StlModel WriteModel WriteSpec.
Import ListNotations.

Ltac decide_bools :=
  repeat match goal with
  | |- context [?a <? ?b] => destruct (Nat.ltb_spec a b); try lia
  | |- context [?a <=? ?b] => destruct (Nat.leb_spec a b); try lia
  | |- context [?a =? ?b] => destruct (Nat.eqb_spec a b); try lia
  end; cbn [andb orb negb].

(** * Lists of values and blocks *)

Section Lists.
Variable V : Type.
Variable d : V.
Variable chk : bool.
Variables R C : nat.

Definition inside (r h c w i j : nat) : bool :=
  (r <=? i) && (i <? r + h) && (c <=? j) && (j <? c + w).

Lemma check_ok {A} ok (o : outcome A) : ok = true -> check chk ok o = o.
Proof. intros E. unfold check. rewrite E. now rewrite andb_false_r. Qed.

(** An item put at the current position. *)
Lemma put_item (it : item V) m r c :
  0 < b_rows (as_block it) -> 0 < b_cols (as_block it) ->
  r + b_rows (as_block it) <= R -> c + b_cols (as_block it) <= C ->
  exists m',
    match it with Scalar x => put R C m r c x | Matrix b => put_block R C m r c b end = Done m' /\
    forall i j, m' i j =
      if inside r (b_rows (as_block it)) c (b_cols (as_block it)) i j
      then b_at (as_block it) (i - r) (j - c) else m i j.
Proof.
  intros H1 H2 H3 H4. destruct it as [x|b]; cbn [as_block b_rows b_cols b_at] in *.
  - unfold put. decide_bools. eexists. split; [reflexivity|]. intros i j. unfold inside.
    cbv beta. decide_bools; reflexivity.
  - unfold put_block.
    destruct (Nat.eqb_spec (b_rows b) 0); [lia|]. destruct (Nat.eqb_spec (b_cols b) 0); [lia|].
    cbn [orb]. destruct (Nat.leb_spec (r + b_rows b) R); [|lia].
    destruct (Nat.leb_spec (c + b_cols b) C); [|lia]. cbn [andb].
    eexists. split; [reflexivity|]. intros i j. reflexivity.
Qed.

Lemma start_ok (it : item V) m :
  0 < b_rows (as_block it) -> 0 < b_cols (as_block it) ->
  b_rows (as_block it) <= R -> b_cols (as_block it) <= C ->
  exists s, comma_start chk R C m it = Done s /\
    c_row s = 0 /\ c_col s = b_cols (as_block it) /\ c_rows s = b_rows (as_block it) /\
    forall i j, c_m s i j =
      if inside 0 (b_rows (as_block it)) 0 (b_cols (as_block it)) i j
      then b_at (as_block it) (i - 0) (j - 0) else m i j.
Proof.
  intros H1 H2 H3 H4.
  destruct (put_item it m 0 0 H1 H2) as (m' & P & Q); try (simpl; lia).
  destruct it as [x|b]; cbn [as_block b_rows b_cols b_at] in *; unfold comma_start;
    (rewrite check_ok; [|decide_bools; reflexivity]); rewrite P; cbn [bind];
    eexists; (split; [reflexivity|]); cbn [c_m c_row c_col c_rows]; auto.
Qed.

Lemma next_same_row (it : item V) s :
  0 < b_rows (as_block it) -> 0 < b_cols (as_block it) ->
  c_rows s = b_rows (as_block it) ->
  c_row s + c_rows s <= R -> c_col s + b_cols (as_block it) <= C ->
  exists s', comma_next chk R C s it = Done s' /\
    c_row s' = c_row s /\ c_col s' = c_col s + b_cols (as_block it) /\ c_rows s' = c_rows s /\
    forall i j, c_m s' i j =
      if inside (c_row s) (c_rows s) (c_col s) (b_cols (as_block it)) i j
      then b_at (as_block it) (i - c_row s) (j - c_col s) else c_m s i j.
Proof.
  intros H1 H2 E H3 H4. rewrite E in *.
  destruct (put_item it (c_m s) (c_row s) (c_col s) H1 H2 H3 H4) as (m' & P & Q).
  destruct it as [x|b]; cbn [as_block b_rows b_cols b_at] in *; unfold comma_next.
  - destruct (Nat.eqb_spec (c_col s) C); [lia|].
    rewrite check_ok by (decide_bools; reflexivity).
    rewrite check_ok by (rewrite E; reflexivity). rewrite P. cbn [bind].
    eexists. split; [reflexivity|]. cbn [c_m c_row c_col c_rows]. repeat split; auto; lia.
  - destruct (Nat.eqb_spec (c_col s) C); [lia|]. cbn [andb].
    rewrite check_ok by (destruct (Nat.leb_spec (c_col s + b_cols b) C); [reflexivity|lia]).
    rewrite check_ok by (rewrite E; apply Nat.eqb_refl). rewrite P. cbn [bind].
    eexists. split; [reflexivity|]. cbn [c_m c_row c_col c_rows]. repeat split; auto.
Qed.

Lemma next_new_row (it : item V) s :
  0 < b_rows (as_block it) -> 0 < b_cols (as_block it) ->
  c_col s = C ->
  c_row s + c_rows s + b_rows (as_block it) <= R -> b_cols (as_block it) <= C ->
  exists s', comma_next chk R C s it = Done s' /\
    c_row s' = c_row s + c_rows s /\ c_col s' = b_cols (as_block it) /\
    c_rows s' = b_rows (as_block it) /\
    forall i j, c_m s' i j =
      if inside (c_row s + c_rows s) (b_rows (as_block it)) 0 (b_cols (as_block it)) i j
      then b_at (as_block it) (i - (c_row s + c_rows s)) (j - 0) else c_m s i j.
Proof.
  intros H1 H2 E H3 H4.
  destruct (put_item it (c_m s) (c_row s + c_rows s) 0 H1 H2 H3 H4) as (m' & P & Q).
  destruct it as [x|b]; cbn [as_block b_rows b_cols b_at] in *; unfold comma_next.
  - rewrite E, Nat.eqb_refl. cbn [c_m c_row c_col c_rows].
    rewrite check_ok by (decide_bools; reflexivity).
    rewrite check_ok by (decide_bools; reflexivity).
    rewrite check_ok by reflexivity. rewrite P. cbn [bind].
    eexists. split; [reflexivity|]. cbn [c_m c_row c_col c_rows]. repeat split; auto; lia.
  - rewrite E, Nat.eqb_refl. destruct (Nat.eqb_spec (b_cols b) 0); [lia|].
    cbn [negb orb andb c_m c_row c_col c_rows].
    rewrite check_ok by (destruct (Nat.leb_spec (c_row s + c_rows s + b_rows b) R); [reflexivity|lia]).
    rewrite check_ok by (destruct (Nat.leb_spec (0 + b_cols b) C); [reflexivity|lia]).
    rewrite check_ok by (apply Nat.eqb_refl). rewrite P. cbn [bind].
    eexists. split; [reflexivity|]. cbn [c_m c_row c_col c_rows]. repeat split; auto.
Qed.

(** The rest of a row. *)
Lemma rest_of_row (bs : list (item V)) : forall s,
  (forall it, In it bs -> b_rows (as_block it) = c_rows s /\ 0 < b_rows (as_block it) /\
                          0 < b_cols (as_block it)) ->
  c_row s + c_rows s <= R -> c_col s + width bs = C ->
  exists s', comma_list chk R C s bs = Done s' /\
    c_row s' = c_row s /\ c_col s' = C /\ c_rows s' = c_rows s /\
    forall i j, c_m s' i j =
      if inside (c_row s) (c_rows s) (c_col s) (width bs) i j
      then beside d bs (i - c_row s) (j - c_col s) else c_m s i j.
Proof.
  induction bs as [|it r IH]; intros s G HR HC.
  - exists s. cbn [comma_list]. unfold width in *. simpl in *. repeat split; auto; try lia.
    intros i j. unfold inside. decide_bools; reflexivity.
  - cbn [comma_list].
    assert (W : width (it :: r) = b_cols (as_block it) + width r) by reflexivity.
    destruct (G it (or_introl eq_refl)) as (G1 & G2 & G3).
    destruct (next_same_row it s) as (s1 & P & P1 & P2 & P3 & P4); auto; [lia|].
    rewrite P. cbn [bind].
    destruct (IH s1) as (s' & Q & Q1 & Q2 & Q3 & Q4).
    + intros it' I. rewrite P3. apply G. now right.
    + lia.
    + lia.
    + exists s'. split; [assumption|]. repeat split; try lia.
      intros i j. rewrite Q4, P4, P1, P2, P3, W. cbn [beside]. unfold inside.
      generalize (b_cols (as_block it)) (width r) (c_rows s) (c_row s) (c_col s). intros.
      destruct (Nat.leb_spec n2 i), (Nat.ltb_spec i (n2 + n1)); cbn [andb]; auto.
      destruct (Nat.leb_spec (n3 + n) j), (Nat.ltb_spec j (n3 + n + n0)),
        (Nat.leb_spec n3 j), (Nat.ltb_spec j (n3 + n)), (Nat.ltb_spec j (n3 + (n + n0))),
        (Nat.ltb_spec (j - n3) n); try lia; cbn [andb]; auto.
      f_equal. lia.
Qed.

(** A row from its first item on. *)
Lemma full_row (row : list (item V)) s :
  good_row C row -> c_col s = C -> c_row s + c_rows s + height row <= R ->
  exists s', comma_list chk R C s row = Done s' /\
    c_row s' = c_row s + c_rows s /\ c_col s' = C /\ c_rows s' = height row /\
    forall i j, c_m s' i j =
      if inside (c_row s + c_rows s) (height row) 0 C i j
      then beside d row (i - (c_row s + c_rows s)) j else c_m s i j.
Proof.
  intros (N & W & G) E H. destruct row as [|it r]; [congruence|].
  destruct (G it (or_introl eq_refl)) as (G1 & G2 & G3).
  assert (W' : width (it :: r) = b_cols (as_block it) + width r) by reflexivity.
  cbn [comma_list height] in *.
  destruct (next_new_row it s) as (s1 & P & P1 & P2 & P3 & P4); auto; [lia|].
  rewrite P. cbn [bind].
  destruct (rest_of_row r s1) as (s' & Q & Q1 & Q2 & Q3 & Q4).
  - intros it' I. rewrite P3. apply G. now right.
  - lia.
  - lia.
  - exists s'. split; [assumption|]. repeat split; try lia.
    intros i j. rewrite Q4, P4, P1, P2, P3. cbn [beside]. unfold inside.
    assert (C = b_cols (as_block it) + width r) as -> by lia.
    generalize (b_cols (as_block it)) (width r) (b_rows (as_block it)) (c_row s + c_rows s). intros.
    destruct (Nat.leb_spec n2 i), (Nat.ltb_spec i (n2 + n1)); cbn [andb]; auto.
    destruct (Nat.leb_spec n j), (Nat.ltb_spec j (n + n0)),
      (Nat.leb_spec 0 j), (Nat.ltb_spec j (0 + n)), (Nat.ltb_spec j (0 + (n + n0))),
      (Nat.ltb_spec j n); try lia; cbn [andb]; auto.
    f_equal. lia.
Qed.

Lemma list_app (a b : list (item V)) : forall s,
  comma_list chk R C s (a ++ b) = bind (comma_list chk R C s a) (fun s' => comma_list chk R C s' b).
Proof.
  induction a as [|it r IH]; intros s; cbn [comma_list app bind]; auto.
  destruct (comma_next chk R C s it); cbn [bind]; auto.
Qed.

Lemma all_rows (rows : list (list (item V))) : forall s,
  (forall row, In row rows -> good_row C row) -> c_col s = C ->
  c_row s + c_rows s + list_sum (map height rows) = R ->
  exists s', comma_list chk R C s (concat rows) = Done s' /\
    c_row s' + c_rows s' = R /\ c_col s' = C /\
    forall i j, c_m s' i j =
      if inside (c_row s + c_rows s) (list_sum (map height rows)) 0 C i j
      then below d rows (i - (c_row s + c_rows s)) j else c_m s i j.
Proof.
  induction rows as [|row r IH]; intros s G E H; cbn [concat].
  - exists s. cbn [comma_list]. simpl in H. repeat split; auto; try lia.
    intros i j. unfold inside. simpl. decide_bools; reflexivity.
  - rewrite list_app.
    assert (W : list_sum (map height (row :: r)) = height row + list_sum (map height r)) by reflexivity.
    destruct (full_row row s) as (s1 & P & P1 & P2 & P3 & P4); auto.
    { apply G. now left. } { lia. }
    rewrite P. cbn [bind].
    destruct (IH s1) as (s' & Q & Q1 & Q2 & Q3); auto.
    { intros row' I. apply G. now right. } { lia. }
    exists s'. split; [assumption|]. repeat split; auto.
    intros i j. rewrite Q3, P4, P1, P3, W. cbn [below]. unfold inside.
    generalize (c_row s + c_rows s) (height row) (list_sum (map height r)). intros.
    destruct (Nat.leb_spec 0 j), (Nat.ltb_spec j (0 + C)); try lia;
      rewrite ?andb_true_r, ?andb_false_r; cbn [andb]; auto.
    destruct (Nat.leb_spec (n + n0) i), (Nat.ltb_spec i (n + n0 + n1)),
      (Nat.leb_spec n i), (Nat.ltb_spec i (n + n0)), (Nat.ltb_spec i (n + (n0 + n1))),
      (Nat.ltb_spec (i - n) n0); try lia; cbn [andb]; auto.
    f_equal. lia.
Qed.

(** The whole list: start and continue. *)
Lemma tiled_list (rows : list (list (item V))) m it rest :
  tiles R C rows -> concat rows = it :: rest ->
  exists s s', comma_start chk R C m it = Done s /\
    comma_list chk R C s rest = Done s' /\
    comma_finished chk R C s' = Done (c_m s') /\
    forall i j, i < R -> j < C -> c_m s' i j = below d rows i j.
Proof.
  intros (N & G & H) E. destruct rows as [|row rows]; [congruence|].
  destruct (G row (or_introl eq_refl)) as (N1 & W1 & G1).
  destruct row as [|it0 row]; [congruence|]. cbn [concat app] in E. inversion E; subst it0 rest.
  assert (W' : width (it :: row) = b_cols (as_block it) + width row) by reflexivity.
  destruct (G1 it (or_introl eq_refl)) as (A1 & A2 & A3).
  assert (W : list_sum (map height ((it :: row) :: rows)) =
              b_rows (as_block it) + list_sum (map height rows)) by reflexivity.
  destruct (start_ok it m) as (s & P & P1 & P2 & P3 & P4); auto; try lia.
  destruct (rest_of_row row s) as (s1 & Q & Q1 & Q2 & Q3 & Q4).
  { intros it' I. rewrite P3. apply G1. now right. } { lia. } { lia. }
  destruct (all_rows rows s1) as (s2 & T & T1 & T2 & T3).
  { intros row' I. apply G. now right. } { assumption. } { lia. }
  exists s, s2. split; [assumption|]. split.
  { rewrite list_app, Q. cbn [bind]. assumption. }
  split.
  { unfold comma_finished. apply check_ok. rewrite T1, T2, !Nat.eqb_refl. reflexivity. }
  intros i j I J. rewrite T3, Q4, P4, Q1, Q3, P1, P2, P3. cbn [below beside height].
  unfold inside. rewrite W in H. revert H W1. rewrite W'.
  generalize (b_rows (as_block it)) (b_cols (as_block it)) (width row) (list_sum (map height rows)).
  intros h w w' h' H W1.
  destruct (Nat.ltb_spec i h).
  - destruct (Nat.leb_spec (0 + h) i); [lia|]. cbn [andb].
    destruct (Nat.leb_spec 0 i); [|lia]. destruct (Nat.ltb_spec i (0 + h)); [|lia]. cbn [andb].
    destruct (Nat.ltb_spec j w).
    + destruct (Nat.leb_spec w j); [lia|]. cbn [andb].
      destruct (Nat.leb_spec 0 j); [|lia]. destruct (Nat.ltb_spec j (0 + w)); [|lia]. cbn [andb].
      f_equal; lia.
    + destruct (Nat.leb_spec w j); [|lia]. destruct (Nat.ltb_spec j (w + w')); [|lia]. cbn [andb].
      f_equal; lia.
  - destruct (Nat.leb_spec (0 + h) i); [|lia]. destruct (Nat.ltb_spec i (0 + h + h')); [|lia].
    destruct (Nat.leb_spec 0 j); [|lia]. destruct (Nat.ltb_spec j (0 + C)); [|lia]. cbn [andb].
    f_equal; lia.
Qed.

(** ** Scalars *)

Definition at_count (s : comma V) (k : nat) : Prop :=
  c_row s * C + c_col s = k /\ 1 <= c_col s <= C /\ c_row s < R /\ c_rows s = 1.

Lemma next_scalar s k x :
  at_count s k -> k < R * C ->
  exists s', comma_next chk R C s (Scalar x) = Done s' /\ at_count s' (S k) /\
    forall i j, j < C -> c_m s' i j = if i * C + j =? k then x else c_m s i j.
Proof.
  intros (A & B & D & E) H. destruct (Nat.eq_dec (c_col s) C) as [F|F].
  - destruct (next_new_row (Scalar x) s) as (s' & P & P1 & P2 & P3 & P4); simpl; try lia.
    { assert (c_row s + 1 <> R) by (intros ?; nia). lia. }
    simpl in *. exists s'. split; [assumption|]. split.
    { unfold at_count. rewrite P1, P2, P3, E. repeat split; nia. }
    intros i j J. rewrite P4. unfold inside. rewrite E.
    destruct (Nat.eqb_spec (i * C + j) k) as [Q|Q].
    + assert (i = c_row s + 1 /\ j = 0) as [-> ->]
        by (assert (i = c_row s + 1) by nia; subst; split; nia).
      decide_bools; reflexivity.
    + decide_bools; auto. exfalso. apply Q. assert (i = c_row s + 1) by lia. assert (j = 0) by lia.
      subst i j. nia.
  - destruct (next_same_row (Scalar x) s) as (s' & P & P1 & P2 & P3 & P4); simpl; try lia.
    simpl in *. exists s'. split; [assumption|]. split.
    { unfold at_count. rewrite P1, P2, P3. repeat split; lia. }
    intros i j J. rewrite P4. unfold inside. rewrite E.
    destruct (Nat.eqb_spec (i * C + j) k) as [Q|Q].
    + assert (i = c_row s) by nia. subst i. assert (j = c_col s) by lia. subst j.
      decide_bools; reflexivity.
    + decide_bools; auto. exfalso. apply Q. assert (i = c_row s) by lia. assert (j = c_col s) by lia.
      subst i j. lia.
Qed.

Lemma next_too_many s x :
  at_count s (R * C) ->
  comma_next chk R C s (Scalar x) = if chk then Stopped else Undefined.
Proof.
  intros (A & B & D & E). assert (F : c_row s + 1 = R /\ c_col s = C) by nia. destruct F as [F G].
  unfold comma_next. rewrite G, Nat.eqb_refl, E, F. cbn [c_m c_row c_col c_rows].
  rewrite Nat.ltb_irrefl. unfold check. destruct chk; cbn [andb negb]; [reflexivity|].
  unfold put. rewrite Nat.ltb_irrefl. reflexivity.
Qed.

Lemma scalars_ok xs : forall s k,
  at_count s k -> k + length xs <= R * C ->
  exists s', comma_list chk R C s (map Scalar xs) = Done s' /\ at_count s' (k + length xs) /\
    forall i j, j < C -> c_m s' i j =
      if (k <=? i * C + j) && (i * C + j <? k + length xs) then nth (i * C + j - k) xs d
      else c_m s i j.
Proof.
  induction xs as [|x r IH]; intros s k A H; cbn [map comma_list length] in *.
  - exists s. rewrite Nat.add_0_r. repeat split; try apply A.
    intros i j J. decide_bools; reflexivity.
  - destruct (next_scalar s k x A) as (s1 & P & P1 & P2); [lia|]. rewrite P. cbn [bind].
    destruct (IH s1 (S k) P1) as (s' & Q & Q1 & Q2); [lia|].
    exists s'. split; [assumption|]. split; [now replace (k + S (length r)) with (S k + length r) by lia|].
    intros i j J. rewrite Q2, P2 by assumption.
    generalize (i * C + j). intros p.
    destruct (Nat.leb_spec (S k) p), (Nat.ltb_spec p (S k + length r)), (Nat.leb_spec k p),
      (Nat.ltb_spec p (k + S (length r))), (Nat.eqb_spec p k); try lia; cbn [andb]; auto.
    + replace (p - k) with (S (p - S k)) by lia. reflexivity.
    + subst p. rewrite Nat.sub_diag. reflexivity.
Qed.

Lemma scalars_too_many xs : forall s k,
  at_count s k -> k <= R * C < k + length xs ->
  comma_list chk R C s (map Scalar xs) = if chk then Stopped else Undefined.
Proof.
  induction xs as [|x r IH]; intros s k A H; cbn [map comma_list length] in *; [lia|].
  destruct (Nat.eq_dec k (R * C)) as [E|E].
  - subst k. rewrite next_too_many by assumption. destruct chk; reflexivity.
  - destruct (next_scalar s k x A) as (s1 & P & P1 & P2); [lia|]. rewrite P. cbn [bind].
    apply (IH s1 (S k) P1). lia.
Qed.

Lemma start_scalar m x :
  0 < R -> 0 < C ->
  exists s, comma_start chk R C m (Scalar x) = Done s /\ at_count s 1 /\
    forall i j, j < C -> c_m s i j = if i * C + j =? 0 then x else m i j.
Proof.
  intros H1 H2.
  destruct (start_ok (Scalar x) m) as (s & P & P1 & P2 & P3 & P4); simpl; try lia.
  simpl in *. exists s. split; [assumption|]. split; [unfold at_count; lia|].
  intros i j J. rewrite P4. unfold inside.
  destruct (Nat.eqb_spec (i * C + j) 0) as [Q|Q].
  - assert (i = 0) by nia. assert (j = 0) by nia. subst. decide_bools; reflexivity.
  - decide_bools; auto.
Qed.

Theorem values_ok (m : mat V) (xs : list V) :
  0 < R -> 0 < C -> xs <> [] -> length xs = R * C ->
  exists m', comma_statement chk R C m (map Scalar xs) = Done m' /\
    forall i j, i < R -> j < C -> m' i j = nth (i * C + j) xs d.
Proof.
  intros H1 H2 N L. destruct xs as [|x r]; [congruence|]. cbn [map comma_statement].
  destruct (start_scalar m x H1 H2) as (s & P & P1 & P2). rewrite P. cbn [bind].
  simpl in L. destruct (scalars_ok r s 1 P1) as (s' & Q & Q1 & Q2); [lia|]. rewrite Q. cbn [bind].
  unfold comma_finished. destruct Q1 as (A & B & D & E).
  assert (c_row s' + 1 = R /\ c_col s' = C) as [F G] by nia.
  rewrite check_ok by (rewrite E, F, G, !Nat.eqb_refl; reflexivity).
  eexists. split; [reflexivity|]. intros i j I J. rewrite Q2, P2 by assumption.
  assert (i * C + j < R * C) by nia. revert H. generalize (i * C + j). intros p H.
  destruct (Nat.leb_spec 1 p), (Nat.ltb_spec p (1 + length r)), (Nat.eqb_spec p 0);
    try lia; cbn [andb].
  - destruct p; [lia|]. simpl. f_equal. lia.
  - subst p. reflexivity.
Qed.

Theorem values_too_few (m : mat V) (xs : list V) :
  0 < R -> 0 < C -> xs <> [] -> length xs < R * C ->
  if chk then comma_statement chk R C m (map Scalar xs) = Stopped
  else exists m', comma_statement chk R C m (map Scalar xs) = Done m' /\
    forall i j, i < R -> j < C -> m' i j = nth (i * C + j) xs (m i j).
Proof.
  intros H1 H2 N L. destruct xs as [|x r]; [congruence|]. cbn [map comma_statement].
  destruct (start_scalar m x H1 H2) as (s & P & P1 & P2). rewrite P. cbn [bind].
  simpl in L. destruct (scalars_ok r s 1 P1) as (s' & Q & Q1 & Q2); [lia|]. rewrite Q. cbn [bind].
  unfold comma_finished. destruct Q1 as (A & B & D & E). unfold check.
  destruct chk; cbn [andb].
  - rewrite E. destruct (Nat.eqb_spec (c_row s' + 1) R), (Nat.eqb_spec C 0),
      (Nat.eqb_spec (c_col s') C); cbn [orb andb negb]; auto; try lia.
  - eexists. split; [reflexivity|]. intros i j I J. rewrite Q2, P2 by assumption.
    generalize (i * C + j). intros p.
    destruct (Nat.leb_spec 1 p), (Nat.ltb_spec p (1 + length r)), (Nat.eqb_spec p 0);
      try lia; cbn [andb].
    + destruct p; [lia|]. simpl. rewrite Nat.sub_0_r. apply nth_indep. lia.
    + rewrite nth_overflow; [reflexivity|simpl; lia].
    + subst p. reflexivity.
Qed.

Theorem values_too_many (m : mat V) (xs : list V) :
  0 < R -> 0 < C -> R * C < length xs ->
  comma_statement chk R C m (map Scalar xs) = if chk then Stopped else Undefined.
Proof.
  intros H1 H2 L. destruct xs as [|x r]; [simpl in L; lia|]. cbn [map comma_statement].
  destruct (start_scalar m x H1 H2) as (s & P & P1 & P2). rewrite P. cbn [bind].
  simpl in L. rewrite (scalars_too_many r s 1 P1); [destruct chk; reflexivity|nia].
Qed.

End Lists.

(** ** Programs of one or more statements *)

Section Programs.
Variable V : Type.
Variable d : V.

Lemma program_plain chk R C m rows first later it rest :
  tiles R C rows -> first = it :: rest -> first ++ concat later = concat rows ->
  exists m', comma_program Plain chk R C m first later = Done m' /\
    same_on R C m' (below (V := V) d rows).
Proof.
  intros T E F. subst first. cbn [app] in F.
  destruct (tiled_list V d chk R C rows m it (rest ++ concat later) T (eq_sym F))
    as (s & s' & P & Q & W & X).
  exists (c_m s'). cbn [comma_program]. rewrite P. cbn [bind].
  rewrite list_app in Q. destruct (comma_list chk R C s rest) as [s1| |]; cbn [bind] in *;
    try discriminate. rewrite Q. cbn [bind]. split; auto.
Qed.

Lemma program_mean wrap chk R C m rows first later it rest :
  on_columns R wrap ->
  tiles R C rows -> first = it :: rest -> rest = [] \/ later = [] ->
  first ++ concat later = concat rows ->
  exists m', comma_program (MeanOf wrap) chk R C m first later = Done m' /\
    same_on R C m' (wrap_columns wrap (below (V := V) d rows)).
Proof.
  intros O T E S F. subst first. cbn [app] in F.
  destruct (tiled_list V d chk R C rows m it (rest ++ concat later) T (eq_sym F))
    as (s & s' & P & Q & W & X).
  exists (wrap_columns wrap (c_m s')). cbn [comma_program]. rewrite P. cbn [bind].
  rewrite list_app in Q. destruct (comma_list chk R C s rest) as [s1| |]; cbn [bind] in *;
    try discriminate. split.
  - destruct S as [->| ->]; [destruct later|destruct rest]; cbn [concat] in *; rewrite Q; cbn [bind];
      rewrite W; reflexivity.
  - intros i j I J. unfold wrap_columns. apply O; auto.
Qed.

Lemma program_held r c scratch convert chk R C m rows first later it rest :
  (forall a b, same_on r c a b -> same_on R C (convert a) (convert b)) ->
  tiles r c rows -> first = it :: rest -> rest = [] \/ later = [] ->
  first ++ concat later = concat rows ->
  exists m', comma_program (Held r c scratch convert) chk R C m first later = Done m' /\
    same_on R C m' (convert (below (V := V) d rows)).
Proof.
  intros O T E S F. subst first. cbn [app] in F.
  destruct (tiled_list V d chk r c rows scratch it (rest ++ concat later) T (eq_sym F))
    as (s & s' & P & Q & W & X).
  exists (convert (c_m s')). cbn [comma_program]. rewrite P. cbn [bind].
  rewrite list_app in Q. destruct (comma_list chk r c s rest) as [s1| |]; cbn [bind] in *;
    try discriminate. split.
  - destruct S as [->| ->]; [destruct later|destruct rest]; cbn [concat] in *; rewrite Q; cbn [bind];
      rewrite W; reflexivity.
  - apply O. intros i j I J. apply X; auto.
Qed.

End Programs.

(** ** fill_components *)

Section Fill.
Variable V : Type.
Variable d : V.

Lemma may_hold_right e0 e1 n :
  n = dim e0 * dim e1 -> 0 < n -> may_hold_components [e0; e1] n = true.
Proof.
  intros E N. unfold may_hold_components. cbn [map prod fold_right].
  destruct (Nat.eqb_spec n 0); [lia|].
  set (a := if fixed e0 then dim e0 else 1). set (b := if fixed e1 then dim e1 else 1).
  assert (Q : exists q, n = q * (a * (b * 1))).
  { unfold a, b. destruct (fixed e0), (fixed e1);
      [exists 1|exists (dim e1)|exists (dim e0)|exists n]; nia. }
  destruct Q as (q & Q).
  destruct (Nat.eqb_spec (a * (b * 1)) 0) as [Z|Z]; [nia|].
  rewrite Q, Nat.mod_mul by assumption. reflexivity.
Qed.

Lemma fill_ok chk l e0 e1 m xs :
  length xs = dim e0 * dim e1 -> xs <> [] ->
  exists m', fill_components chk l e0 e1 m xs = Some (Done m') /\
    forall i j, i < dim e0 -> j < dim e1 ->
      m' i j = nth (match l with LayoutRight => i * dim e1 + j | LayoutLeft => j * dim e0 + i end) xs d.
Proof.
  intros L N. assert (P : 0 < length xs) by (destruct xs; [congruence|simpl; lia]).
  unfold fill_components. rewrite may_hold_right by auto.
  destruct xs as [|x r]; [congruence|].
  assert (0 < dim e0 /\ 0 < dim e1) as [H0 H1] by nia.
  destruct l.
  - destruct (values_ok V d chk (dim e1) (dim e0) (fun i j => m j i) (x :: r))
      as (m' & Q & W); auto; [lia|].
    rewrite Q. cbn [bind]. exists (fun i j => m' j i). split; [reflexivity|].
    intros i j I J. now apply W.
  - destruct (values_ok V d chk (dim e0) (dim e1) m (x :: r)) as (m' & Q & W); auto.
    rewrite Q. exists m'. split; [reflexivity|]. exact W.
Qed.

Lemma fill_accepts chk l e0 e1 m (xs : list V) :
  fixed e0 = true -> fixed e1 = true -> xs <> [] ->
  fill_components chk l e0 e1 m xs <> None ->
  exists q, 0 < q /\ length xs = q * (dim e0 * dim e1).
Proof.
  intros F0 F1 N H. unfold fill_components in H.
  destruct (may_hold_components [e0; e1] (length xs)) eqn:E; [|congruence].
  unfold may_hold_components in E. cbn [map prod fold_right] in E. rewrite F0, F1 in E.
  assert (P : length xs <> 0) by (destruct xs; [congruence|simpl; lia]).
  destruct (Nat.eqb_spec (length xs) 0); [lia|].
  rewrite Nat.mul_1_r in E.
  destruct (Nat.eqb_spec (dim e0 * dim e1) 0) as [Z|Z]; [discriminate|].
  apply Nat.eqb_eq in E. apply Nat.mod_divides in E; [|assumption]. destruct E as (q & E).
  exists q. split; nia.
Qed.

End Fill.

(** * set_triangle *)

Section Triangles.
Variable V : Type.
Variable zero : V.
Variables conj re : V -> V.
Variables R C : nat.

Lemma set_diagonals b : forall n k (m : mat V),
  k + n <= R -> R <= C ->
  exists m', set_components R C b (seq k n) m = Done m' /\
    forall i j, m' i j = if (i =? j) && (k <=? i) && (i <? k + n) then b i j else m i j.
Proof.
  induction n as [|n IH]; intros k m H1 H2; cbn [seq set_components].
  - exists m. split; [reflexivity|]. intros i j.
    destruct (Nat.leb_spec k i), (Nat.ltb_spec i (k + 0)); try lia; rewrite ?andb_false_r; reflexivity.
  - unfold set_diagonal_component, put.
    destruct (Nat.ltb_spec k R); [|lia]. destruct (Nat.ltb_spec k C); [|lia]. cbn [andb bind].
    match goal with |- context [set_components R C b _ ?f] => set (m1 := f) end.
    destruct (IH (S k) m1) as (m' & P & Q); [lia|lia|].
    exists m'. split; [assumption|]. intros i j. rewrite Q. unfold m1.
    destruct (Nat.eqb_spec i j), (Nat.leb_spec (S k) i), (Nat.ltb_spec i (S k + n)),
      (Nat.leb_spec k i), (Nat.ltb_spec i (k + S n)), (Nat.eqb_spec i k), (Nat.eqb_spec j k);
      try lia; cbn [andb]; auto.
Qed.

Definition mirrored (t : tri) (a : target V) (i j : nat) : bool :=
  hermitian_outside a && on_triangle t j i.

Theorem set_triangle_ok t b : forall a,
  settable R C t a ->
  (has_hermitian a = true -> forall i, re (b i i) = b i i) ->
  exists a', set_triangle conj R C t a b = Done a' /\
    hermitian_outside a' = hermitian_outside a /\
    forall i j, i < R -> j < C ->
      component zero conj re a' i j =
        if on_triangle t i j then b i j
        else if mirrored t a i j then conj (b j i)
        else component zero conj re a i j.
Proof.
  induction a as [m|m|s a IH|s a IH|v]; intros S H; cbn [settable set_triangle] in *.
  - eexists. split; [reflexivity|]. split; [reflexivity|]. intros i j I J. cbn [component].
    unfold set_native, mirrored. cbn [hermitian_outside andb].
    destruct (Nat.ltb_spec i R); [|lia]. destruct (Nat.ltb_spec j C); [|lia].
    rewrite !andb_true_r. reflexivity.
  - destruct S as [-> RC]. cbn [generic_iterations].
    destruct (set_diagonals b R 0 m) as (m' & P & Q); [lia|assumption|].
    rewrite P. cbn [bind]. eexists. split; [reflexivity|]. split; [reflexivity|].
    intros i j I J. cbn [component]. rewrite Q. unfold mirrored.
    cbn [hermitian_outside on_triangle andb].
    destruct (Nat.leb_spec 0 i); [|lia]. destruct (Nat.ltb_spec i (0 + R)); [|lia].
    rewrite !andb_true_r. reflexivity.
  - destruct S as [S1 S2]. destruct (IH S2) as (a' & P & _ & Q); [exact H|].
    rewrite P. cbn [bind]. eexists. split; [reflexivity|]. split; [reflexivity|].
    intros i j I J. cbn [component]. rewrite Q by assumption. unfold mirrored.
    cbn [hermitian_outside andb].
    destruct (on_triangle s i j) eqn:Os.
    + destruct (on_triangle t i j) eqn:Ot; auto.
      destruct (hermitian_outside a && on_triangle t j i) eqn:M; auto.
      (* inside a triangle, mirrored: only the diagonal could be both *)
      exfalso. apply andb_prop in M. destruct M as [_ M].
      destruct S1 as [->| ->]; [congruence|].
      cbn [on_triangle] in *. apply Nat.eqb_eq in M. apply Nat.eqb_neq in Ot. lia.
    + destruct (on_triangle t i j) eqn:Ot; auto.
      exfalso. destruct S1 as [->| ->]; [congruence|].
      cbn [on_triangle] in Ot. apply Nat.eqb_eq in Ot. subst j.
      destruct s; cbn [on_triangle] in Os;
        [apply Nat.leb_gt in Os|apply Nat.leb_gt in Os|apply Nat.eqb_neq in Os]; lia.
  - destruct S as (S0 & S1 & S2 & S3).
    assert (Op : opposite t s = false) by (destruct S1 as [->| ->]; destruct s; reflexivity).
    rewrite Op.
    assert (Hr : forall i, re (b i i) = b i i) by (apply H; reflexivity).
    destruct (IH S3) as (a' & P & _ & Q); [auto|].
    rewrite P. cbn [bind]. eexists. split; [reflexivity|]. split; [reflexivity|].
    intros i j I J. cbn [component]. unfold mirrored. cbn [hermitian_outside andb].
    assert (Di : forall k, on_triangle t k k = true)
      by (intros k; destruct t; cbn [on_triangle]; rewrite ?Nat.leb_refl, ?Nat.eqb_refl; reflexivity).
    destruct (Nat.eqb_spec i j) as [E|E].
    + subst j. rewrite Di. rewrite Q by lia. rewrite Di. apply Hr.
    + destruct (on_triangle s i j) eqn:Os.
      * rewrite Q by assumption.
        destruct (on_triangle t i j) eqn:Ot; auto.
        assert (Oji : on_triangle t j i = false).
        { destruct S1 as [->| ->]; [congruence|]. cbn [on_triangle]. apply Nat.eqb_neq. lia. }
        unfold mirrored. rewrite Oji, andb_false_r. reflexivity.
      * rewrite Q by lia.
        assert (Osji : on_triangle s j i = true).
        { destruct s; cbn [on_triangle] in *; [|apply Nat.leb_gt in Os; apply Nat.leb_le; lia|congruence].
          apply Nat.leb_gt in Os. apply Nat.leb_le. lia. }
        destruct S1 as [->| ->].
        -- rewrite Os, Osji. reflexivity.
        -- assert (N : (j =? i) = false) by (apply Nat.eqb_neq; lia).
           assert (N' : (i =? j) = false) by (apply Nat.eqb_neq; lia).
           unfold mirrored. cbn [on_triangle]. rewrite N, N', andb_false_r. reflexivity.
  - subst t. eexists. split; [reflexivity|]. split; [reflexivity|].
    intros i j I J. unfold mirrored. cbn [component hermitian_outside on_triangle andb].
    destruct (Nat.eqb_spec i j); [subst|]; reflexivity.
Qed.

End Triangles.
