(** Proofs for AdaptProperties.v: the functions return what they say. *)
From Coq Require Import List Arith Bool Lia.
From Verif Require Import StlModel StlSpec StlProofs AdaptModel AdaptSpec AdaptProofs.
Import ListNotations.

Lemma to_extents_get p k : get_pattern (to_extents p) k = get_pattern p k.
Proof.
  revert k. induction p as [|e p IH]; intros k; [reflexivity|]. cbn [to_extents].
  destruct (to_extents p) as [|e' q] eqn:E.
  - assert (N : forall k, get_pattern p k = Ext 1 true).
    { intros j. rewrite <- IH. unfold get_pattern. now destruct j. }
    destruct (fixed e && (dim e =? 1)) eqn:F.
    + destruct k as [|k]; unfold get_pattern in *; cbn.
      * apply andb_true_iff in F. destruct F as [A B]. apply Nat.eqb_eq in B. destruct e; cbn in *. now subst.
      * symmetry. apply N.
    + destruct k as [|k]; [reflexivity|]. unfold get_pattern in *. cbn. rewrite N. now destruct k.
  - destruct k as [|k]; [reflexivity|]. apply (IH k).
Qed.

Lemma to_extents_length p : length (to_extents p) <= length p.
Proof.
  induction p as [|e p IH]; cbn; [lia|]. destruct (to_extents p); [destruct (fixed e && _); cbn; lia|cbn in *; lia].
Qed.

Lemma static_same_get p q : static_same p q = true -> forall k, static_equal (get_pattern p k) (get_pattern q k) = true.
Proof.
  unfold static_same. rewrite forallb_places. intros H k.
  destruct (Nat.lt_ge_cases k (max (length p) (length q))); [auto|].
  rewrite !get_pattern_beyond by lia. reflexivity.
Qed.

Lemma static_equal_dim e f : static_equal e f = true -> dim e = dim f.
Proof. unfold static_equal. rewrite !andb_true_iff. intros [_ H]. now apply Nat.eqb_eq. Qed.

Lemma static_same_dim p q k : static_same p q = true -> dim_at p k = dim_at q k.
Proof. intros H. apply static_equal_dim. now apply static_same_get. Qed.

(** Patterns that are all one at compile time. *)
Lemma static_one p : static_same (to_extents p) [Ext 1 true] = true -> forall k, dim1 p k false = true.
Proof.
  intros H k. pose proof (static_same_get _ _ H k) as E. rewrite to_extents_get in E.
  unfold dim1. unfold static_equal in E. rewrite !andb_true_iff in E. destruct E as [[-> _] E].
  destruct k as [|[|k]]; exact E.
Qed.

Section Functions.
Variable V : Type.
Variable zero : V.
Variables conj re : V -> V.
Variables isz isr : V -> bool.
Hypothesis laws : scalar_laws V zero conj re isz isr.

Notation traits := (traits zero conj re isz isr).
Notation tri_of := (triangle_type_of isz).
Notation el := (elem zero conj re).
Notation ok := (ok zero conj re isz isr).
Notation gives := (gives zero conj re isz isr).
Notation attach := (attach_patterns zero conj re isz isr).
Notation mkc := (make_constant zero conj re isz isr).
Notation mkd := (make_constant_diagonal zero conj re isz isr).
Notation diag := (diagonal_of zero conj re isz isr).
Notation todiag := (to_diagonal zero conj re isz isr).
Notation conjf := (conjugate_fuel zero conj re isz isr).
Notation trans := (transpose zero conj re isz isr).
Notation ctrans := (conjugate_transpose zero conj re isz isr).

Lemma ok_pats o : ok o -> forall k, dim_at (c_pats (traits o)) k = shape (forget o) k.
Proof. intros K. apply (i_pats _ _ _ _ _ _ (inv_all _ _ _ _ _ _ laws o K)). Qed.

Lemma gives_ext r s a s' a' :
  gives r s a -> (forall k, s k = s' k) -> (forall i, within s' i -> a i = a' i) -> gives r s' a'.
Proof.
  intros (A & B & C) S E. repeat split.
  - intros k. now rewrite A.
  - intros k. now rewrite B.
  - intros i W. rewrite C; [now apply E|]. intros k. rewrite S. apply W.
Qed.

Lemma gives_self o : ok o -> gives o (shape (forget o)) (el (forget o)).
Proof. intros K. repeat split; [now apply ok_pats]. Qed.

Lemma forget_attach o p : forget (attach o p) = forget o.
Proof.
  induction o; cbn [attach_patterns]; destruct (static_same _ p); try reflexivity. exact IHo.
Qed.

Lemma pats_attach o p k : dim_at (c_pats (traits (attach o p))) k = dim_at p k.
Proof.
  induction o; cbn [attach_patterns]; destruct (static_same _ p) eqn:S; try reflexivity;
    try (now apply static_same_dim). exact IHo.
Qed.

Lemma tri_const cx kn c p : c_tri (traits (OConst cx kn c p)) = None.
Proof. reflexivity. Qed.

Lemma ok_mkc cx kn c p : (cx = false -> conj c = c) -> ok (mkc cx kn c p).
Proof.
  intros R. unfold make_constant. cbn [attach_patterns]. destruct (static_same _ p); [exact R|].
  cbn [AdaptSpec.ok forget shape]. repeat split.
  - exact R.
  - intros k. now rewrite to_extents_dim.
  - cbn. generalize (to_extents_length p). lia.
  - right. right. right. intros k. change (fixed (get_pattern p k) = fixed (get_pattern (to_extents p) k)). now rewrite to_extents_get.
Qed.

Lemma gives_mkc cx kn c p : gives (mkc cx kn c p) (dim_at p) (fun _ => c).
Proof.
  unfold make_constant. repeat split.
  - intros k. rewrite forget_attach. cbn. apply to_extents_dim.
  - intros k. apply pats_attach.
  - intros i W. rewrite forget_attach. reflexivity.
Qed.

(** *** diagonal_of *)

Lemma double_in o i : within (shape (VDiagonalOf (forget o))) i -> in_shape (V:=V) (forget o) (doubled i).
Proof. intros W. exact (diagonal_of_in V (forget o) i W). Qed.

Lemma gives_diag o : ok o ->
  gives (diag o) (shape (VDiagonalOf (forget o))) (fun i => el (forget o) (doubled i)).
Proof.
  intros K. pose proof (inv_all _ _ _ _ _ _ laws o K) as I.
  assert (P : forall k, dim_at (pat_diagonal_of (c_pats (traits o))) k = shape (VDiagonalOf (forget o)) k).
  { intros k. rewrite pat_diagonal_of_dim. cbn. destruct k; now rewrite ?(i_pats _ _ _ _ _ _ I). }
  unfold diagonal_of. destruct (constant_object _ _ || constant_diagonal_object _ _) eqn:C.
  - eapply gives_ext; [apply gives_mkc|exact P|]. intros i W.
    symmetry. apply (value_on_diagonal _ _ _ _ _ _ laws _ _ I); [assumption|now apply double_in|reflexivity].
  - split; [reflexivity|split; [exact P|reflexivity]].
Qed.

Lemma ok_diag o : ok o -> no_triangle_of_constants isz (traits o) -> ok (diag o).
Proof.
  intros K N. pose proof (inv_all _ _ _ _ _ _ laws o K) as I.
  unfold diagonal_of. destruct (constant_object _ _ || constant_diagonal_object _ _) eqn:C.
  - apply ok_mkc. intros R. now apply (plain_value _ _ _ _ isz _ _ I).
  - split; assumption.
Qed.

(** *** to_diagonal *)

Lemma gives_todiag o p : ok o -> (forall k, shape (forget o) k = dim_at (pat_diagonal_of p) k) ->
  gives (todiag o p) (dim_at p) (fun i => if i 0 =? i 1 then el (forget o) (dropped i) else zero).
Proof.
  intros K S. pose proof (inv_all _ _ _ _ _ _ laws o K) as I.
  unfold to_diagonal. destruct (one_dimensional (traits o) && static_same (to_extents p) [Ext 1 true]) eqn:O;
    [|destruct (is_zero isz (traits o)) eqn:Z].
  - apply andb_true_iff in O. destruct O as [O P]. pose proof (static_one p P) as D.
    assert (D1 : forall k, dim_at p k = 1) by (intros k; now apply dim1_dim).
    assert (O1 := one_true _ _ _ _ _ _ I O).
    repeat split.
    + intros k. rewrite forget_attach, D1. apply O1.
    + intros k. apply pats_attach.
    + intros i W. assert (N : forall k, i k = 0) by (intros k; specialize (W k); rewrite D1 in W; lia).
      rewrite forget_attach, !N. cbn [Nat.eqb]. apply elem_ext. intros k. unfold dropped. now rewrite !N.
  - eapply gives_ext; [apply gives_mkc|reflexivity|]. intros i W. cbn beta.
    destruct (Nat.eqb_spec (i 0) (i 1)) as [E|E]; [|reflexivity].
    symmetry. apply (zero_true _ _ _ _ _ _ laws _ _ I Z). intros k. rewrite S, pat_diagonal_of_dim. unfold dropped.
    destruct k as [|k]; [|apply W]. generalize (W 0) (W 1). lia.
  - repeat split. 
Qed.

Lemma ok_todiag o p : ok o -> (forall k, shape (forget o) k = dim_at (pat_diagonal_of p) k) ->
  one_dimensional (traits o) && static_same (to_extents p) [Ext 1 true] = false -> ok (todiag o p).
Proof.
  intros K S O. unfold to_diagonal. rewrite O. destruct (is_zero _ _).
  - apply ok_mkc. intros _. apply (conj0 _ _ _ _ _ _ laws).
  - split; assumption.
Qed.

Lemma to_extents_diag_dim p k : dim_at (pat_diagonal_of (to_extents p)) k = dim_at (pat_diagonal_of p) k.
Proof. rewrite !pat_diagonal_of_dim. destruct k; now rewrite !to_extents_dim. Qed.

Lemma gives_mkd cx kn c p : (cx = false -> conj c = c) ->
  gives (mkd cx kn c p) (dim_at p) (fun i => if i 0 =? i 1 then c else zero).
Proof.
  intros R. unfold make_constant_diagonal. set (n := mkc cx kn c _).
  destruct (gives_mkc cx kn c (pat_diagonal_of (to_extents p))) as (A & B & C). fold n in A, B, C.
  assert (S : forall k, shape (forget n) k = dim_at (pat_diagonal_of p) k).
  { intros k. rewrite A. apply to_extents_diag_dim. }
  eapply gives_ext; [apply gives_todiag; [now apply ok_mkc|exact S]|reflexivity|].
  intros i W. cbn beta. destruct (Nat.eqb_spec (i 0) (i 1)) as [E|E]; [|reflexivity].
  apply C. intros k. rewrite to_extents_diag_dim, pat_diagonal_of_dim. unfold dropped.
  destruct k as [|k]; [|apply W]. generalize (W 0) (W 1). lia.
Qed.

Lemma to_extents_ones p : (forall k, dim1 p k false = true) -> to_extents p = [].
Proof.
  induction p as [|e p IH]; intros H; [reflexivity|]. cbn. rewrite IH.
  - specialize (H 0). unfold dim1, get_pattern in H. cbn in H. destruct (fixed e); [now rewrite H|discriminate].
  - intros k. apply (H (S k)).
Qed.

Lemma ok_mkd cx kn c p : (cx = false -> conj c = c) -> ok (mkd cx kn c p).
Proof.
  intros R. unfold make_constant_diagonal. set (n := mkc cx kn c _).
  destruct (gives_mkc cx kn c (pat_diagonal_of (to_extents p))) as (A & B & C). fold n in A, B, C.
  destruct (one_dimensional (traits n) && static_same (to_extents p) [Ext 1 true]) eqn:O.
  - unfold to_diagonal. rewrite O. apply andb_true_iff in O. destruct O as [O P].
    assert (E : to_extents p = []) by (now apply to_extents_ones, static_one).
    subst n. rewrite E. unfold make_constant. cbn [pat_diagonal_of to_extents attach_patterns].
    replace (static_same _ []) with true by reflexivity. cbn [attach_patterns].
    replace (static_same _ p) with true; [exact R|]. symmetry.
    unfold static_same. apply forallb_places. intros k _.
    rewrite <- (to_extents_get p), E. unfold get_pattern. cbn. now destruct k.
  - apply ok_todiag; [now apply ok_mkc| |exact O]. intros k. rewrite A. apply to_extents_diag_dim.
Qed.

(** *** conjugate *)

Lemma diagonal_no_triangle c : constant_diagonal_object isz c = false -> diagonal_matrix isz c = true ->
  c_get (V:=V) c = None.
Proof.
  unfold constant_diagonal_object. intros H D. rewrite D in H. destruct (c_get c); [discriminate|reflexivity].
Qed.

Lemma diag_again o p : ok o -> constant_object isz (traits o) = false ->
  static_same (to_extents (c_pats (traits o))) [Ext 1 true] = true -> p.
Proof.
  intros K C S. exfalso. revert C. apply eq_true_false_abs. unfold constant_object. rewrite !orb_true_iff. right.
  unfold one_dimensional. apply orb_true_iff. left. now apply all_dim1, static_one.
Qed.

Lemma real_get o : ok o -> real_constant isz isr (traits o) = true ->
  forall i, within (shape (forget o)) i -> conj (el (forget o) i) = el (forget o) i.
Proof.
  intros K R i W. pose proof (inv_all _ _ _ _ _ _ laws o K) as I.
  pose proof (real_value _ _ _ _ _ _ laws _ _ I R) as RV.
  unfold real_constant in R. apply andb_true_iff in R. destruct R as [R _]. apply orb_true_iff in R.
  destruct R as [R|R].
  - now rewrite (constant_true _ _ _ _ _ _ laws _ _ I R i W).
  - rewrite (diagonal_true _ _ _ _ _ _ laws _ _ I R i W). destruct (_ =? _); [exact RV|apply (conj0 _ _ _ _ _ _ laws)].
Qed.

Lemma diag_round o : ok o -> diagonal_matrix isz (traits o) = true ->
  forall i, within (shape (forget o)) i ->
  el (forget o) i = (if i 0 =? i 1 then el (forget o) (doubled (dropped i)) else zero).
Proof.
  intros K D i W. pose proof (inv_all _ _ _ _ _ _ laws o K) as I.
  assert (T : tri_of (traits o) = Some Diagonal).
  { unfold diagonal_matrix, triangular_matrix in D. now destruct (tri_of (traits o)) as [[]|]. }
  destruct (Nat.eqb_spec (i 0) (i 1)) as [E|E].
  - apply elem_ext. intros [|[|k]]; unfold doubled, dropped; congruence.
  - apply (tri_true _ _ _ _ _ _ laws _ _ I i W). rewrite T. exact E.
Qed.

Lemma diag_of_pats o r a : gives r (shape (VDiagonalOf (forget o))) a -> ok o ->
  forall p, (forall k, dim_at p k = shape (forget o) k) ->
  forall k, shape (forget r) k = dim_at (pat_diagonal_of p) k.
Proof.
  intros (A & _ & _) K p P k. rewrite A, pat_diagonal_of_dim. cbn. destruct k; now rewrite !P.
Qed.

Lemma doubled_dropped_in o i : within (shape (forget o)) i -> i 0 = i 1 ->
  within (shape (VDiagonalOf (V:=V) (forget o))) (dropped i).
Proof.
  intros W E [|k]; cbn; unfold dropped; [|apply W]. generalize (W 0) (W 1). lia.
Qed.

Lemma ok_conj_last o : ok o -> no_triangle_of_constants isz (traits o) ->
  constant_object isz (traits o) = false -> constant_diagonal_object isz (traits o) = false -> ok (OConj o).
Proof.
  intros K N C D. split; [exact K|]. intros kn x G.
  assert (c_get (traits o) <> None) by (rewrite G; discriminate).
  specialize (N H). rewrite C, D in N. discriminate.
Qed.

Lemma conj_fuel_both n : forall o, ok o ->
  gives (conjf n o) (shape (forget o)) (fun i => conj (el (forget o) i)) /\
  (no_triangle_of_constants isz (traits o) -> ok (conjf n o)).
Proof.
  induction n as [|n IH]; intros o K; pose proof (inv_all _ _ _ _ _ _ laws o K) as I;
    cbn [conjugate_fuel];
    (destruct (negb (c_complex (traits o)) || real_constant isz isr (traits o)) eqn:R;
     [split; [|tauto]; eapply gives_ext; [now apply gives_self|reflexivity|]; intros i W; symmetry;
      apply orb_true_iff in R; destruct R as [R|R];
      [apply (i_real _ _ _ _ _ _ I); [now destruct (c_complex (traits o))|exact W]|now apply real_get]|]);
    (assert (CX : c_complex (traits o) = true) by (destruct (c_complex (traits o)); [reflexivity|discriminate]));
    (destruct (constant_object isz (traits o)) eqn:C;
     [split; [|intros _; apply ok_mkc; congruence];
      eapply gives_ext; [apply gives_mkc|intros k; now apply ok_pats|]; intros i W;
      now rewrite (constant_true _ _ _ _ _ _ laws _ _ I C i W)|]);
    (destruct (constant_diagonal_object isz (traits o)) eqn:D;
     [split; [|intros _; apply ok_mkd; congruence];
      eapply gives_ext; [apply gives_mkd; congruence|intros k; now apply ok_pats|]; intros i W;
      rewrite (diagonal_true _ _ _ _ _ _ laws _ _ I D i W); destruct (_ =? _); [reflexivity|symmetry; apply (conj0 _ _ _ _ _ _ laws)]|]);
    (destruct (diagonal_matrix isz (traits o)) eqn:M;
     [|split; [split; [reflexivity|split; [exact (ok_pats o K)|reflexivity]]|
               intros N; now apply ok_conj_last]]).
  - split; [split; [reflexivity|split; [exact (ok_pats o K)|reflexivity]]|intros N; now apply ok_conj_last].
  - assert (N : no_triangle_of_constants isz (traits o)).
    { intros G. now rewrite (diagonal_no_triangle _ D M) in G. }
    pose proof (gives_diag o K) as GD. pose proof (ok_diag o K N) as KD.
    destruct (IH (diag o) KD) as [G1 K1].
    assert (G2 : gives (conjf n (diag o)) (shape (VDiagonalOf (forget o))) (fun i => conj (el (forget o) (doubled i)))).
    { eapply gives_ext; [exact G1|exact (proj1 GD)|]. intros i W. cbn beta. now rewrite (proj2 (proj2 GD) i W). }
    assert (ND : no_triangle_of_constants isz (traits (diag o))).
    { unfold diagonal_of. rewrite C, D. cbn. intros G. now rewrite (diagonal_no_triangle _ D M) in G. }
    pose proof (diag_of_pats o _ _ G2 K _ (ok_pats o K)) as S.
    split.
    + eapply gives_ext; [apply gives_todiag; [now apply K1|exact S]|intros k; now apply ok_pats|].
      intros i W. cbn beta. rewrite (diag_round o K M i W).
      destruct (Nat.eqb_spec (i 0) (i 1)) as [E|E]; [|symmetry; apply (conj0 _ _ _ _ _ _ laws)].
      apply G2. now apply doubled_dropped_in.
    + intros _. apply ok_todiag; [now apply K1|exact S|].
      destruct (static_same _ _) eqn:O; [|now rewrite andb_false_r].
      now apply (diag_again o _ K C O).
Qed.

(** The recursion of conjugate never goes deeper than the diagonal of a diagonal. *)
Lemma conjugate_fuel_enough n o : ok o -> conjf (S n) o = conjugate zero conj re isz isr o.
Proof.
  intros K. unfold conjugate. cbn [conjugate_fuel].
  destruct (_ || _); [reflexivity|].
  destruct (constant_object isz (traits o)) eqn:C; [reflexivity|].
  destruct (constant_diagonal_object isz (traits o)) eqn:D; [reflexivity|].
  destruct (diagonal_matrix isz (traits o)) eqn:M; [|reflexivity]. f_equal.
  unfold diagonal_of. rewrite C, D. cbn [orb].
  destruct n as [|n]; [reflexivity|]. cbn [conjugate_fuel].
  destruct (_ || _); [reflexivity|].
  destruct (constant_object isz (traits (ODiag o))) eqn:C2; [reflexivity|].
  destruct (constant_diagonal_object isz (traits (ODiag o))) eqn:D2; [reflexivity|].
  destruct (diagonal_matrix isz (traits (ODiag o))) eqn:M2; [|reflexivity].
  exfalso. unfold diagonal_matrix, triangular_matrix in M2.
  assert (T : tri_of (traits (ODiag o)) = Some Diagonal) by (now destruct (tri_of (traits (ODiag o))) as [[]|]).
  unfold constant_object in C2. rewrite !orb_false_iff in C2. destruct C2 as [[[_ _] Z] O].
  destruct (tri_cases _ isz (traits (ODiag o))) as [[E Q]|[[E Q]|[[E Q]|[E Q]]]]; rewrite T in E; try discriminate.
  destruct Q as [Q|[Q|Q]]; [congruence|congruence|discriminate].
Qed.

(** *** transpose *)

Lemma same_index_shape o a b : ok o -> same_index a b (traits o) = true ->
  forall k, shape (forget o) (swap a b k) = shape (forget o) k.
Proof.
  intros K S k. unfold same_index in S. apply static_equal_dim in S.
  change (dim_at (c_pats (traits o)) a = dim_at (c_pats (traits o)) b) in S. rewrite !ok_pats in S by assumption.
  unfold swap. destruct (Nat.eqb_spec k a); [congruence|]. destruct (Nat.eqb_spec k b); congruence.
Qed.

Lemma exchanged_in o a b i : within (fun k => shape (V:=V) (forget o) (swap a b k)) i -> in_shape (forget o) (exchanged a b i).
Proof. intros W k. unfold exchanged. specialize (W (swap a b k)). cbn in W. now rewrite swap_invol in W. Qed.

Lemma trans_pats o a b : ok o -> a < b -> forall k, dim_at (pat_transpose a b (c_pats (traits o))) k = shape (forget o) (swap a b k).
Proof. intros K L k. rewrite pat_transpose_dim by assumption. now apply ok_pats. Qed.

Lemma trans_both a b o : ok o -> a < b -> plain_for zero conj re isz isr b o ->
  gives (trans a b o) (fun k => shape (forget o) (swap a b k)) (fun i => el (forget o) (exchanged a b i)) /\
  (b = 1 -> no_triangle_of_constants isz (traits o) -> ok (trans a b o)).
Proof.
  intros K L P. pose proof (inv_all _ _ _ _ _ _ laws o K) as I. unfold transpose.
  destruct (same_index a b (traits o) &&
    (constant_object isz (traits o) ||
     ((b =? 1) && (diagonal_matrix isz (traits o) || (hermitian_matrix isz isr (traits o) && negb (c_complex (traits o))))))) eqn:B1.
  { split; [|auto]. apply andb_true_iff in B1. destruct B1 as [S B].
    pose proof (same_index_shape o a b K S) as SH.
    eapply gives_ext; [now apply gives_self|intros k; symmetry; apply SH|]. intros i W.
    pose proof (exchanged_in o a b i W) as WE.
    assert (WI : in_shape (forget o) i) by (intros k; rewrite <- SH; apply W).
    apply orb_true_iff in B. destruct B as [C|B].
    - now rewrite (constant_true _ _ _ _ _ _ laws _ _ I C i WI), (constant_true _ _ _ _ _ _ laws _ _ I C _ WE).
    - apply andb_true_iff in B. destruct B as [B1 B]. apply Nat.eqb_eq in B1. subst b.
      assert (a = 0) by lia. subst a. apply orb_true_iff in B. destruct B as [M|H].
      + rewrite (diag_round o K M i WI), (diag_round o K M _ WE). unfold exchanged at 1 2. cbn [swap Nat.eqb].
        rewrite (Nat.eqb_sym (i 1)). destruct (Nat.eqb_spec (i 0) (i 1)) as [E|E]; [|reflexivity].
        apply elem_ext. intros [|[|k]]; unfold doubled, dropped, exchanged; cbn; congruence.
      + apply andb_true_iff in H. destruct H as [H R].
        destruct (hermitian_true _ _ _ _ _ _ laws _ _ I H) as [_ A]. rewrite (A i WI).
        apply (i_real _ _ _ _ _ _ I); [now destruct (c_complex (traits o))|exact WE]. }
  destruct (constant_object isz (traits o)) eqn:C.
  { split.
    - eapply gives_ext; [apply gives_mkc|now apply trans_pats|]. intros i W.
      symmetry. apply (constant_true _ _ _ _ _ _ laws _ _ I C). now apply exchanged_in.
    - intros _ _. apply ok_mkc. intros R. apply (plain_value _ _ _ _ isz _ _ I R). now rewrite C. }
  destruct P as [->|[P|(P1 & P2 & P3)]]; [|congruence|].
  2: { rewrite P1, P2, P3. cbn [andb]. split; [|intros; subst b].
       - repeat split. intros k. now apply trans_pats.
       - cbn. repeat split; auto. }
  assert (a = 0) by lia. subst a.
  destruct (constant_diagonal_object isz (traits o)) eqn:D.
  { assert (PV : c_complex (traits o) = false -> conj (snd (constant_value (traits o))) = snd (constant_value (traits o))).
    { intros R. apply (plain_value _ _ _ _ isz _ _ I R). now rewrite C, D. }
    split.
    - eapply gives_ext; [now apply gives_mkd|now apply trans_pats|]. intros i W. cbn beta.
      rewrite (diagonal_true _ _ _ _ _ _ laws _ _ I D); [|now apply exchanged_in].
      unfold exchanged. cbn [swap Nat.eqb]. now rewrite Nat.eqb_sym.
    - intros _ _. now apply ok_mkd. }
  destruct (hermitian_matrix isz isr (traits o) && same_index 0 1 (traits o)) eqn:H.
  { apply andb_true_iff in H. destruct H as [H S]. pose proof (same_index_shape o 0 1 K S) as SH.
    destruct (conj_fuel_both 1 o K) as [G KK]. split; [|auto].
    eapply gives_ext; [exact G|intros k; symmetry; apply SH|]. intros i W.
    destruct (hermitian_true _ _ _ _ _ _ laws _ _ I H) as [_ A].
    rewrite (A (exchanged 0 1 i)) by (now apply exchanged_in). f_equal. apply elem_ext.
    intros k. unfold swapped, exchanged. now rewrite swap_invol. }
  destruct (diagonal_matrix isz (traits o)) eqn:M.
  { assert (N : no_triangle_of_constants isz (traits o)).
    { intros G. now rewrite (diagonal_no_triangle _ D M) in G. }
    pose proof (gives_diag o K) as GD. pose proof (ok_diag o K N) as KD.
    assert (S : forall k, shape (forget (diag o)) k = dim_at (pat_diagonal_of (pat_transpose 0 1 (c_pats (traits o)))) k).
    { intros k. destruct GD as (A & _ & _). rewrite A, pat_diagonal_of_dim, !(trans_pats o 0 1 K L). cbn.
      destruct k; [apply Nat.min_comm|]. rewrite (trans_pats o 0 1 K L). reflexivity. }
    split.
    - eapply gives_ext; [apply gives_todiag; [exact KD|exact S]|now apply trans_pats|]. intros i W. cbn beta.
      pose proof (exchanged_in o 0 1 i W) as WE. rewrite (diag_round o K M _ WE).
      unfold exchanged at 1 2. cbn [swap Nat.eqb]. rewrite (Nat.eqb_sym (i 1)).
      destruct (Nat.eqb_spec (i 0) (i 1)) as [E|E]; [|reflexivity].
      destruct GD as (_ & _ & A). rewrite A.
      + apply elem_ext. intros [|[|k]]; unfold doubled, dropped, exchanged; cbn; congruence.
      + intros [|k]; cbn; unfold dropped.
        * generalize (W 0) (W 1). cbn. lia.
        * apply (W (Datatypes.S (Datatypes.S k))).
    - intros _ _. apply ok_todiag; [exact KD|exact S|].
      destruct (static_same _ _) eqn:O; [|now rewrite andb_false_r]. exfalso.
      apply (diag_again o False K C). unfold static_same. apply forallb_places. intros k _.
      rewrite to_extents_get. pose proof (static_one _ O) as D1.
      assert (F : forall j, get_pattern (c_pats (traits o)) j = Ext 1 true).
      { intros j. specialize (D1 (swap 0 1 j)). unfold dim1 in D1. rewrite pat_transpose_get, swap_invol in D1 by lia.
        destruct (get_pattern (c_pats (traits o)) j) as [d []]; cbn in D1; [|discriminate].
        apply Nat.eqb_eq in D1. now subst. }
      rewrite F. now destruct k as [|[|k]]. }
  split.
  - repeat split. intros k. now apply trans_pats.
  - intros _ _. repeat split; auto.
Qed.

(** *** conjugate_transpose *)

Lemma trans_last o : ok o -> constant_object isz (traits o) = false ->
  constant_diagonal_object isz (traits o) = false -> diagonal_matrix isz (traits o) = false ->
  hermitian_matrix isz isr (traits o) && same_index 0 1 (traits o) = false ->
  trans 0 1 o = OTrans 0 1 o.
Proof.
  intros K C D M H. unfold transpose. rewrite C, D, M, H. cbn [orb Nat.eqb andb].
  destruct (same_index 0 1 (traits o)); [|reflexivity]. rewrite andb_true_r in H. now rewrite H.
Qed.

Lemma ctrans_both a b o : ok o -> a < b -> plain_for zero conj re isz isr b o ->
  b = 1 \/ constant_object isz (traits o) = true \/ c_complex (traits o) = false ->
  gives (ctrans a b o) (fun k => shape (forget o) (swap a b k)) (fun i => conj (el (forget o) (exchanged a b i))) /\
  (b = 1 -> no_triangle_of_constants isz (traits o) -> ok (ctrans a b o)).
Proof.
  intros K L P Q. pose proof (inv_all _ _ _ _ _ _ laws o K) as I.
  destruct (trans_both a b o K L P) as [GT KT].
  unfold conjugate_transpose.
  destruct (hermitian_matrix isz isr (traits o) && same_index a b (traits o)) eqn:B1.
  { split; [|auto]. apply andb_true_iff in B1. destruct B1 as [H S].
    pose proof (same_index_shape o a b K S) as SH.
    eapply gives_ext; [now apply gives_self|intros k; symmetry; apply SH|]. intros i W.
    pose proof (exchanged_in o a b i W) as WE.
    assert (WI : in_shape (forget o) i) by (intros k; rewrite <- SH; apply W).
    destruct (hermitian_true _ _ _ _ _ _ laws _ _ I H) as [Q2 A].
    destruct (constant_object isz (traits o)) eqn:C.
    - rewrite (A i WI), (constant_true _ _ _ _ _ _ laws _ _ I C _ WE).
      now rewrite (constant_true _ _ _ _ _ _ laws _ _ I C _ (swapped_in _ _ _ Q2 WI)).
    - destruct P as [->|[P|(_ & P & _)]]; [|congruence|congruence].
      assert (a = 0) by lia. subst a. exact (A i WI). }
  destruct (negb (c_complex (traits o)) || real_constant isz isr (traits o)) eqn:R.
  { split; [|exact KT]. eapply gives_ext; [exact GT|reflexivity|]. intros i W. cbn beta.
    pose proof (exchanged_in o a b i W) as WE. symmetry. apply orb_true_iff in R. destruct R as [R|R].
    - apply (i_real _ _ _ _ _ _ I); [now destruct (c_complex (traits o))|exact WE].
    - now apply real_get. }
  assert (CX : c_complex (traits o) = true) by (destruct (c_complex (traits o)); [reflexivity|discriminate]).
  destruct (constant_object isz (traits o)) eqn:C.
  { split; [|intros _ _; apply ok_mkc; congruence].
    eapply gives_ext; [apply gives_mkc|now apply trans_pats|]. intros i W. cbn beta.
    now rewrite (constant_true _ _ _ _ _ _ laws _ _ I C _ (exchanged_in o a b i W)). }
  destruct Q as [->|[Q|Q]]; [|congruence|congruence]. assert (a = 0) by lia. subst a.
  destruct (constant_diagonal_object isz (traits o)) eqn:D.
  { split; [|intros _ _; apply ok_mkd; congruence].
    eapply gives_ext; [apply gives_mkd; congruence|now apply trans_pats|]. intros i W. cbn beta.
    rewrite (diagonal_true _ _ _ _ _ _ laws _ _ I D _ (exchanged_in o 0 1 i W)).
    unfold exchanged. cbn [swap Nat.eqb]. rewrite (Nat.eqb_sym (i 1)).
    destruct (i 0 =? i 1); [reflexivity|symmetry; apply (conj0 _ _ _ _ _ _ laws)]. }
  destruct (diagonal_matrix isz (traits o)) eqn:M.
  { assert (N : no_triangle_of_constants isz (traits o)).
    { intros G. now rewrite (diagonal_no_triangle _ D M) in G. }
    pose proof (gives_diag o K) as GD. pose proof (ok_diag o K N) as KD.
    assert (ND : no_triangle_of_constants isz (traits (diag o))).
    { unfold diagonal_of. rewrite C, D. cbn. intros G. now rewrite (diagonal_no_triangle _ D M) in G. }
    destruct (conj_fuel_both 1 (diag o) KD) as [G1 K1]. specialize (K1 ND).
    assert (G2 : gives (conjf 1 (diag o)) (shape (VDiagonalOf (forget o))) (fun i => conj (el (forget o) (doubled i)))).
    { eapply gives_ext; [exact G1|exact (proj1 GD)|]. intros i W. cbn beta. now rewrite (proj2 (proj2 GD) i W). }
    assert (SH : forall k, shape (forget (conjf 1 (diag o))) k = dim_at (pat_diagonal_of (pat_transpose 0 1 (c_pats (traits o)))) k).
    { intros k. destruct G2 as (A & _ & _). rewrite A, pat_diagonal_of_dim, !(trans_pats o 0 1 K L). cbn.
      destruct k; [apply Nat.min_comm|]. rewrite (trans_pats o 0 1 K L). reflexivity. }
    split.
    - eapply gives_ext; [apply gives_todiag; [exact K1|exact SH]|now apply trans_pats|]. intros i W. cbn beta.
      pose proof (exchanged_in o 0 1 i W) as WE. rewrite (diag_round o K M _ WE).
      unfold exchanged at 1 2. cbn [swap Nat.eqb]. rewrite (Nat.eqb_sym (i 1)).
      destruct (Nat.eqb_spec (i 0) (i 1)) as [E|E]; [|symmetry; apply (conj0 _ _ _ _ _ _ laws)].
      change (conjugate zero conj re isz isr (diag o)) with (conjf 1 (diag o)).
      destruct G2 as (_ & _ & A). rewrite A.
      + f_equal. apply elem_ext. intros [|[|k]]; unfold doubled, dropped, exchanged; cbn; congruence.
      + intros [|k]; cbn; unfold dropped.
        * generalize (W 0) (W 1). cbn. lia.
        * apply (W (S (S k))).
    - intros _ _. apply ok_todiag; [exact K1|exact SH|].
      destruct (static_same _ _) eqn:O; [|now rewrite andb_false_r]. exfalso.
      apply (diag_again o False K C). unfold static_same. apply forallb_places. intros k _.
      rewrite to_extents_get. pose proof (static_one _ O) as D1.
      assert (F : forall j, get_pattern (c_pats (traits o)) j = Ext 1 true).
      { intros j. specialize (D1 (swap 0 1 j)). unfold dim1 in D1. rewrite pat_transpose_get, swap_invol in D1 by lia.
        destruct (get_pattern (c_pats (traits o)) j) as [d []]; cbn in D1; [|discriminate].
        apply Nat.eqb_eq in D1. now subst. }
      rewrite F. now destruct k as [|[|k]]. }
  assert (KO : ok (OTrans 0 1 o)) by (repeat split; auto).
  rewrite (trans_last o K C D M B1). destruct (conj_fuel_both 1 (OTrans 0 1 o) KO) as [G KC]. split.
  - exact G.
  - intros _ N. apply KC. intros G2. exfalso. specialize (N G2). rewrite C, D in N. discriminate.
Qed.

(** *** to_triangular, to_hermitian, attach_patterns, to_diagonal without a pattern *)

Lemma gives_tri t o : ok o ->
  gives (to_triangular zero conj re isz isr t o) (shape (forget o)) (el (VTriangular t (forget o))) /\
  ok (to_triangular zero conj re isz isr t o).
Proof.
  intros K. pose proof (inv_all _ _ _ _ _ _ laws o K) as I. unfold to_triangular.
  destruct (triangular_matrix isz (traits o) t) eqn:T.
  - split; [|exact K]. eapply gives_ext; [now apply gives_self|reflexivity|]. intros i W.
    pose proof (tri_true _ _ _ _ _ _ laws _ _ I i W) as A. unfold triangular_matrix in T.
    destruct t; cbn [elem]; [destruct (Nat.leb_spec (i 1) (i 0))|destruct (Nat.leb_spec (i 0) (i 1))|destruct (Nat.eqb_spec (i 0) (i 1))];
      try reflexivity; apply A; destruct (tri_of (traits o)) as [[]|]; try discriminate; cbn; lia.
  - split; [|exact K]. split; [reflexivity|split; [exact (ok_pats o K)|reflexivity]].
Qed.

Lemma gives_herm t o : ok o -> t <> Diagonal -> shape (forget o) 0 = shape (forget o) 1 ->
  gives (to_hermitian zero conj re isz isr t o) (shape (forget o)) (el (VHermitian t (forget o))) /\
  ok (to_hermitian zero conj re isz isr t o).
Proof.
  intros K TD S. pose proof (inv_all _ _ _ _ _ _ laws o K) as I. unfold to_hermitian.
  destruct (hermitian_matrix isz isr (traits o)) eqn:H.
  - split; [|exact K]. eapply gives_ext; [now apply gives_self|reflexivity|]. intros i W.
    destruct (hermitian_true _ _ _ _ _ _ laws _ _ I H) as [_ A]. cbn [elem].
    destruct (Nat.eqb_spec (i 0) (i 1)) as [E|E].
    + symmetry. apply (re_real _ _ _ _ _ _ laws). rewrite (A i W) at 2. f_equal. apply elem_ext.
      intros k. unfold swapped, swap. destruct (Nat.eqb_spec k 0); [congruence|]. destruct (Nat.eqb_spec k 1); congruence.
    + destruct (match t with Upper => _ | _ => _ end); [reflexivity|]. exact (A i W).
  - split; [|repeat split; auto]. split; [reflexivity|split; [exact (ok_pats o K)|reflexivity]].
Qed.

Lemma gives_attach o p : ok o -> (forall k, dim_at p k = shape (forget o) k) ->
  gives (attach o p) (shape (forget o)) (el (forget o)).
Proof.
  intros K S. split; [|split].
  - intros k. now rewrite forget_attach.
  - intros k. now rewrite pats_attach.
  - intros i W. now rewrite forget_attach.
Qed.

Lemma pat_to_diagonal_doubled p k : dim_at (pat_to_diagonal p) k = doubled (dim_at p) k.
Proof. destruct p as [|e p]; destruct k as [|k]; try reflexivity. unfold doubled, dim_at, get_pattern. cbn. now destruct k. Qed.

Lemma todiag_square_both o : ok o ->
  gives (to_diagonal_square zero conj re isz isr o) (doubled (shape (forget o)))
    (fun i => if i 0 =? i 1 then el (forget o) (dropped i) else zero).
Proof.
  intros K. unfold to_diagonal_square. eapply gives_ext; [apply gives_todiag|intros k|reflexivity].
  - exact K.
  - intros k. rewrite pat_diagonal_of_dim, !pat_to_diagonal_doubled. destruct k as [|k]; cbn; rewrite ?pat_to_diagonal_doubled;
      cbn; rewrite ok_pats by exact K; lia.
  - rewrite pat_to_diagonal_doubled. destruct k; cbn; now apply ok_pats.
Qed.

End Functions.
