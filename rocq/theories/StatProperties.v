(** Properties of the statistical-space adapters. *)
From Coq Require Import Reals List Arith Bool Lia Lra.
From Verif Require Import PatModel PatSpec PatExamples StatModel StatSpec.
From Verif Require PatProperties StatProofs.
Import ListNotations.

(** A matrix of eight rows (an angle, a distance, spherical coordinates, two numbers, an inclination) and three columns. *)
Definition ex_o : object :=
  Object [Extent 8 true; Extent 3 true] [Pattern ex_ds true; Pattern [Dim 3] true] (fun i => nth (hd 0 i) ex_v (pos 0)).
Lemma ex_shape : has_shape (o_ext ex_o) (o_pat ex_o).
Proof. intros [|[|[|i]]]; reflexivity. Qed.
Lemma ex_static : static ex_o.
Proof. intros [|[|[|i]]]; reflexivity. Qed.
Lemma ex_index : column_index (o_ext ex_o) [2].
Proof. split; [cbn; lia |]. intros [|[|k]]; cbn; lia. Qed.
Lemma ex_column : column ex_o 8 [2] = ex_v.
Proof. reflexivity. Qed.

(** C90: what to_stat_space returns has, in each column, the statistical-space coordinates of that column. *)
Theorem to_stat_space_columns : forall o r i j,
  has_shape (o_ext o) (o_pat o) -> to_stat_space o = Some (Ret r) -> column_index (o_ext o) j ->
  i < get_stat_dimension (rows (o_pat o)) ->
  exists c, to_stat (rows (o_pat o)) (column o (get_dimension (rows (o_pat o))) j) = Ret c /\
    component r (i :: j) = Ret (nth i c 0%R).
Proof. exact StatProofs.to_stat_space_columns. Qed.
Print Assumptions to_stat_space_columns.

(** C90: what from_stat_space returns has, in each column, the coordinates of that column. *)
Theorem from_stat_space_columns : forall fast o p r i j,
  stat_shape o p -> from_stat_space fast o p = Some (Ret r) -> column_index (o_ext o) j -> i < get_dimension (rows p) ->
  exists c, from_stat fast (rows p) (column o (get_stat_dimension (rows p)) j) = Ret c /\
    component r (i :: j) = Ret (nth i c 0%R).
Proof. exact StatProofs.from_stat_space_columns. Qed.
Print Assumptions from_stat_space_columns.

(** C90: to_stat_space returns for objects of sizes known at compile time, if the rank is at most one more than the number of
    indices, and unless all dimensions are one and the statistical dimension is more. *)
Theorem to_stat_space_returns_partial : forall o,
  has_shape (o_ext o) (o_pat o) -> accepted o = true -> static o ->
  (0 < index_count o \/ get_stat_dimension (rows (o_pat o)) <= 1) -> exists a, to_stat_adapter o = Some (Ret a).
Proof. exact StatProofs.to_stat_returns. Qed.
Print Assumptions to_stat_space_returns_partial.
Theorem from_stat_space_returns_partial : forall fast o p,
  stat_shape o p -> has_shape (o_ext o) (o_pat o) -> accepted o = true -> static o ->
  exists a, from_stat_adapter fast o p = Some (Ret a).
Proof. exact StatProofs.from_stat_returns. Qed.
Print Assumptions from_stat_space_returns_partial.

Example to_stat_space_columns_ex : exists a c, to_stat_space ex_o = Some (Ret (View a)) /\ to_stat ex_ds ex_v = Ret c /\
  component (View a) [10; 2] = Ret (nth 10 c 0%R).
Proof.
  destruct (to_stat_space_returns_partial ex_o ex_shape eq_refl ex_static (or_introl Nat.lt_0_2)) as (a & A).
  assert (T : to_stat_space ex_o = Some (Ret (View a))).
  { unfold to_stat_space. change (get_is_euclidean (descs (get_pattern (o_pat ex_o) 0))) with false. cbn iota. now rewrite A. }
  destruct (to_stat_space_columns ex_o (View a) 10 [2] ex_shape T ex_index) as (c & C & Rd); [cbn; lia |].
  exists a, c. auto.
Qed.

Definition ex_stat : object :=
  Object [Extent 11 true; Extent 3 true] [Pattern [Dim 11] true; Pattern [Dim 3] true] (fun i => nth (hd 0 i) ex_s (pos 0)).
Definition ex_p : list pattern := [Pattern ex_ds true; Pattern [Dim 3] true].
Example from_stat_space_columns_ex : exists a c, from_stat_space false ex_stat ex_p = Some (Ret (View a)) /\
  from_stat false ex_ds ex_s = Ret c /\ component (View a) [7; 2] = Ret (nth 7 c 0%R).
Proof.
  assert (S : stat_shape ex_stat ex_p) by (split; [reflexivity |]; intros [|[|k]]; reflexivity).
  destruct (from_stat_space_returns_partial false ex_stat ex_p S) as (a & A).
  - intros [|[|[|i]]]; reflexivity.
  - reflexivity.
  - intros [|[|[|i]]]; reflexivity.
  - assert (T : from_stat_space false ex_stat ex_p = Some (Ret (View a))).
    { unfold from_stat_space. change (forallb (fun q => get_is_euclidean (descs q)) ex_p) with false. cbn iota. now rewrite A. }
    destruct (from_stat_space_columns false ex_stat ex_p (View a) 7 [2] S T) as (c & C & Rd).
    + split; [cbn; lia |]. intros [|[|k]]; cbn; lia.
    + cbn. lia.
    + exists a, c. auto.
Qed.

(** C90: wrap_angles wraps each column. *)
Theorem wrap_angles_columns_partial : forall fast z o i j w,
  has_shape (o_ext o) (o_pat o) -> accepted o = true -> static o ->
  (0 < index_count o \/ get_stat_dimension (rows (o_pat o)) <= 1) ->
  column_index (o_ext o) j -> length (o_pat o) <= S (length j) -> i < get_dimension (rows (o_pat o)) ->
  Forall valid (rows (o_pat o)) -> (fast = true -> Forall limits_not_pi (rows (o_pat o))) ->
  wrap (rows (o_pat o)) (column o (get_dimension (rows (o_pat o))) j) = Ret w ->
  exists r w', wrap_angles fast z o = Some (Ret r) /\ component r (i :: j) = Ret (nth i w' 0%R) /\
    same_coords (rows (o_pat o)) w' w.
Proof. exact StatProofs.wrap_angles_columns. Qed.
Print Assumptions wrap_angles_columns_partial.
Example wrap_angles_columns_ex : exists r w', wrap_angles false (fun _ => false) ex_o = Some (Ret r) /\
  component r [7; 2] = Ret (nth 7 w' 0%R) /\ same_coords ex_ds w' ex_w.
Proof.
  apply (wrap_angles_columns_partial false (fun _ => false) ex_o 7 [2] ex_w ex_shape eq_refl ex_static (or_introl Nat.lt_0_2) ex_index).
  - cbn. lia.
  - cbn. lia.
  - exact ex_valid.
  - discriminate.
  - exact ex_wrap.
Qed.

(** C90, refuted: a single angle (all dimensions one) has two components in statistical space, written to a store of one. *)
Theorem to_stat_space_single_refuted : forall o,
  has_shape (o_ext o) (o_pat o) -> accepted o = true -> index_count o = 0 -> 1 < get_stat_dimension (rows (o_pat o)) ->
  to_stat_adapter o = Some Undef.
Proof. exact StatProofs.to_stat_overflow. Qed.
Print Assumptions to_stat_space_single_refuted.
Definition one_angle : object :=
  Object [Extent 1 true; Extent 1 true] [Pattern [Ang (-180) 180] true; Pattern [Dim 1] true] (fun _ => pos 90).
Definition one_angle1 : object := Object [Extent 1 true] [Pattern [Ang (-180) 180] true] (fun _ => pos 90).
Example to_stat_space_single_ex : static one_angle1 /\ to_stat_space one_angle1 = Some Undef.
Proof.
  split; [intros [|[|i]]; reflexivity |]. unfold to_stat_space. change (get_is_euclidean _) with false. cbn iota.
  rewrite to_stat_space_single_refuted; [reflexivity | intros [|[|i]]; reflexivity | reflexivity | reflexivity | cbn; lia].
Qed.

(** C90, refuted: for an object with a size known only at run time, the vector is written beyond its end. *)
Theorem to_stat_space_dynamic_refuted : forall o,
  has_shape (o_ext o) (o_pat o) -> accepted o = true -> dynamic o -> (exists j, column_index (o_ext o) j) ->
  0 < get_stat_dimension (rows (o_pat o)) -> to_stat_adapter o = Some Undef.
Proof. intros o S A D. apply StatProofs.to_stat_dynamic; auto. now apply StatProofs.dynamic_store. Qed.
Print Assumptions to_stat_space_dynamic_refuted.
Theorem from_stat_space_dynamic_refuted : forall fast o p,
  stat_shape o p -> accepted o = true -> dynamic o -> (exists j, column_index (o_ext o) j) -> 0 < get_dimension (rows p) ->
  from_stat_adapter fast o p = Some Undef.
Proof. intros fast o p S A D. apply StatProofs.from_stat_dynamic; auto. now apply StatProofs.dynamic_store. Qed.
Print Assumptions from_stat_space_dynamic_refuted.
Definition dyn_angles (n : nat) : object :=
  Object [Extent 1 true; Extent n false] [Pattern [Ang (-180) 180] true; Pattern [Dim n] false] (fun _ => pos 90).
Example to_stat_space_dynamic_ex : forall n, 0 < n -> to_stat_space (dyn_angles n) = Some Undef.
Proof.
  intros n H. unfold to_stat_space. change (get_is_euclidean _) with false. cbn iota. rewrite to_stat_space_dynamic_refuted; [reflexivity | | | | |].
  - intros [|[|[|i]]]; reflexivity.
  - reflexivity.
  - exists 1. split; reflexivity.
  - exists [0]. split; [cbn; lia |]. intros [|[|k]]; cbn; lia.
  - cbn. lia.
Qed.
Definition dyn_stat (n : nat) : object :=
  Object [Extent 2 true; Extent n false] [Pattern [Dim 2] true; Pattern [Dim n] false] (fun _ => pos 1).
Example from_stat_space_dynamic_ex : forall n, 0 < n -> from_stat_space false (dyn_stat n) (o_pat (dyn_angles n)) = Some Undef.
Proof.
  intros n H. unfold from_stat_space. change (forallb _ (o_pat (dyn_angles n))) with false. cbn iota.
  rewrite from_stat_space_dynamic_refuted; [reflexivity | | | | |].
  - split; [reflexivity |]. intros [|[|k]]; reflexivity.
  - reflexivity.
  - exists 1. split; reflexivity.
  - exists [0]. split; [cbn; lia |]. intros [|[|k]]; cbn; lia.
  - cbn. lia.
Qed.

(** C90, refuted: a column of angles in an object of rank three (and a single angle of rank two) is not accepted. *)
Theorem to_stat_space_rank_refuted : forall n, n <> 0 -> exists o,
  o_ext o = [Extent n true; Extent 1 true; Extent 1 true] /\ has_shape (o_ext o) (o_pat o) /\ static o /\ to_stat_space o = None.
Proof.
  intros n H. exists (Object [Extent n true; Extent 1 true; Extent 1 true] [Pattern (repeat (Ang (-180) 180) n) true] (fun _ => pos 90)).
  assert (D : forall k a, fold_left (fun s d => s + dim d) (repeat (Ang (-180) 180) k) a = a + k).
  { induction k as [|k IH]; intros a; cbn; [lia |]. rewrite IH. cbn. lia. }
  split; [reflexivity |]. split; [intros [|[|[|[|i]]]]; cbn; try reflexivity; unfold get_dimension; now rewrite D |].
  split; [intros [|[|i]]; reflexivity |]. unfold to_stat_space, to_stat_adapter, accepted, index_count, rank. cbn [o_ext o_pat get_pattern nth descs trim known len andb Nat.eqb].
  assert (get_is_euclidean (repeat (Ang (-180) 180) n) = false) as ->.
  { destruct n; [congruence |]. unfold get_is_euclidean. cbn. clear. induction n; cbn; auto. }
  destruct n as [|[|n]]; [congruence | reflexivity | reflexivity].
Qed.
Print Assumptions to_stat_space_rank_refuted.
Example to_stat_space_rank_ex : to_stat_space one_angle = None.
Proof. reflexivity. Qed.

(** ** Copies *)

(** C91: while no view is copied, moved or assigned, every variable has its own value, through any history. *)
Theorem views_without_copies_partial : forall ops h x i,
  Forall no_copies ops -> run empty_world ops = Ret h -> read_variable h x i = value_read (value_run ops) x i.
Proof. exact StatProofs.no_copies_values. Qed.
Print Assumptions views_without_copies_partial.

(** C91: while no view is destroyed, assigned or written to, copies and copies of copies have the value of the original. *)
Theorem copies_without_changes_partial : forall ops h x i,
  Forall no_changes ops -> run empty_world ops = Ret h -> read_variable h x i = value_read (value_run ops) x i.
Proof. exact StatProofs.no_changes_values. Qed.
Print Assumptions copies_without_changes_partial.

Definition ex_a (x y : R) : adapter := Adapter [Extent 2 true] [Pattern [Dim 2] true] [Some x; Some y].
Example views_without_copies_ex : forall a b c d : R, exists h,
  let ops := [Construct 0 (ex_a a b); Construct 1 (ex_a b a); Write 0 [1] c; Destroy 1; Write 0 [0] d] in
  Forall no_copies ops /\ run empty_world ops = Ret h /\ read_variable h 0 [0] = Ret d /\ read_variable h 0 [1] = Ret c.
Proof. intros a b c d. eexists. cbn zeta. split; [repeat constructor |]. split; [reflexivity |]. split; reflexivity. Qed.
Example copies_without_changes_ex : forall a b : R, exists h,
  let ops := [Construct 0 (ex_a a b); Copy 1 0; Move 2 1; Copy 3 2] in
  Forall no_changes ops /\ run empty_world ops = Ret h /\ read_variable h 3 [1] = Ret b.
Proof. intros a b. eexists. cbn zeta. split; [repeat constructor |]. split; reflexivity. Qed.

(** C91, refuted: a copy of a view cannot be read after the original is gone; nor can a view moved from a temporary. *)
Theorem copy_outlives_refuted : forall a : adapter, exists h,
  run empty_world [Construct 0 a; Copy 1 0; Destroy 0] = Ret h /\ (forall i, read_variable h 1 i = Undef) /\
  value_run [Construct 0 a; Copy 1 0; Destroy 0] 1 = Some (a_ext a, a_store a).
Proof. intros a. eexists. split; [reflexivity |]. split; reflexivity. Qed.
Print Assumptions copy_outlives_refuted.
Theorem move_outlives_refuted : forall a : adapter, exists h,
  run empty_world [Construct 0 a; Move 1 0; Destroy 0] = Ret h /\ (forall i, read_variable h 1 i = Undef) /\
  value_run [Construct 0 a; Move 1 0; Destroy 0] 1 = Some (a_ext a, a_store a).
Proof. intros a. eexists. split; [reflexivity |]. split; reflexivity. Qed.
Print Assumptions move_outlives_refuted.

(** C91, refuted: writing to a copy changes the original; after an assignment the target is not its own. *)
Theorem write_to_copy_refuted : forall x y v : R, exists h,
  run empty_world [Construct 0 (ex_a x y); Copy 1 0; Write 1 [0] v] = Ret h /\
  read_variable h 0 [0] = Ret v /\ value_read (value_run [Construct 0 (ex_a x y); Copy 1 0; Write 1 [0] v]) 0 [0] = Ret x.
Proof. intros x y v. eexists. split; [reflexivity |]. split; reflexivity. Qed.
Print Assumptions write_to_copy_refuted.
Theorem assignment_refuted : forall x y x' y' : R, exists h h',
  run empty_world [Construct 0 (ex_a x y); Construct 1 (ex_a x' y'); Assign 1 0; Destroy 0] = Ret h /\ read_variable h 1 [0] = Undef /\
  run empty_world [Construct 0 (ex_a x y); Construct 1 (ex_a x' y'); Copy 2 1; Assign 1 0] = Ret h' /\ read_variable h' 2 [0] = Ret x /\
  value_read (value_run [Construct 0 (ex_a x y); Construct 1 (ex_a x' y'); Copy 2 1; Assign 1 0]) 2 [0] = Ret x'.
Proof. intros x y x' y'. eexists. eexists. split; [reflexivity |]. split; [reflexivity |]. split; [reflexivity |]. split; reflexivity. Qed.
Print Assumptions assignment_refuted.
