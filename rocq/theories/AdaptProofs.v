(** Proofs for AdaptProperties.v: what the traits say is true of the components. *)
From Coq Require Import List Arith Bool Lia.
From Verif Require Import StlModel StlSpec StlProofs AdaptModel AdaptSpec.
Import ListNotations.

Lemma get_pattern_beyond p k : length p <= k -> get_pattern p k = Ext 1 true.
Proof. intros L. unfold get_pattern. now apply nth_overflow. Qed.

Lemma dim1_dim p k : dim1 p k false = true -> dim_at p k = 1.
Proof. unfold dim1, dim_at. destruct (fixed (get_pattern p k)); [apply Nat.eqb_eq|discriminate]. Qed.

Lemma dim1_beyond p k b : length p <= k -> dim1 p k b = true.
Proof. intros L. unfold dim1. now rewrite get_pattern_beyond. Qed.

Lemma forallb_places (f : nat -> bool) n :
  forallb f (seq 0 n) = true <-> forall k, k < n -> f k = true.
Proof.
  rewrite forallb_forall. split; intros H k L; apply H; [|apply in_seq in L; lia].
  apply in_seq. lia.
Qed.

Lemma all_dim1 p : forallb (fun k => dim1 p k false) (seq 0 (length p)) = true <-> forall k, dim1 p k false = true.
Proof.
  rewrite forallb_places. split; [|auto]. intros H k.
  destruct (Nat.lt_ge_cases k (length p)); [auto|now apply dim1_beyond].
Qed.

Lemma best_dim_in p c i d : best_dim p c i = Some d -> exists k, i <= k < i + c /\ fixed (get_pattern p k) = true /\ dim_at p k = d.
Proof.
  revert i. induction c as [|c IH]; intros i; cbn; [discriminate|].
  destruct (fixed (get_pattern p i)) eqn:F.
  - intros E. injection E as <-. exists i. unfold dim_at. repeat split; auto; lia.
  - intros E. destruct (IH _ E) as (k & L & ? & ?). exists k. repeat split; auto; lia.
Qed.

Lemma same_dims_true p n : same_dims p n false = true -> forall k, k < n -> dim_at p k = dim_at p 0.
Proof.
  unfold same_dims. rewrite forallb_places. intros H.
  destruct (best_dim p n 0) as [d|].
  - assert (A : forall k, k < n -> dim_at p k = d).
    { intros k L. generalize (H k L). unfold dim_at. destruct (fixed (get_pattern p k)); [apply Nat.eqb_eq|discriminate]. }
    intros k L. rewrite !A; lia.
  - intros k L. generalize (H k L). discriminate.
Qed.

Lemma same_dims_false p n : same_dims p n true = false -> ~ forall k, k < n -> dim_at p k = dim_at p 0.
Proof.
  unfold same_dims. intros H A. revert H. apply eq_true_false_abs. apply forallb_places. intros k L.
  destruct (best_dim p n 0) as [d|] eqn:B; [|reflexivity].
  destruct (best_dim_in _ _ _ _ B) as (j & Lj & _ & <-).
  destruct (fixed (get_pattern p k)); [|reflexivity].
  apply Nat.eqb_eq. change (dim_at p k = dim_at p j). rewrite (A k L), (A j); [reflexivity|lia].
Qed.

Lemma swap01_lt2 k : 2 <= k -> swap 0 1 k = k.
Proof. intros L. unfold swap. destruct (k =? 0) eqn:A, (k =? 1) eqn:B; try apply Nat.eqb_eq in A; try apply Nat.eqb_eq in B; lia. Qed.

Lemma tmul_outside a b i : ~ inside (tmul a b) i -> ~ inside a i \/ ~ inside b i.
Proof. destruct a as [[]|], b as [[]|]; cbn; try tauto; try lia. Qed.

Lemma tmul_inside a b i : inside (tmul a b) i -> inside a i /\ inside b i.
Proof. destruct a as [[]|], b as [[]|]; cbn; try tauto; try lia. Qed.

Lemma inside_swapped t i : inside (tflip t) i <-> inside t (swapped i).
Proof. destruct t as [[]|]; unfold swapped; cbn; try tauto; try lia. Qed.

Lemma inside_diag t i : i 0 = i 1 -> inside t i.
Proof. destruct t as [[]|]; cbn; try tauto; lia. Qed.

Lemma inside_dec t i : inside t i \/ ~ inside t i.
Proof. destruct t as [[]|]; cbn; try tauto; try lia. Qed.

Lemma pat_transpose_get a b p k : a < b -> get_pattern (pat_transpose a b p) k = get_pattern p (swap a b k).
Proof.
  intros L. unfold pat_transpose, get_pattern at 1.
  destruct (Nat.lt_ge_cases k (max (length p) (b + 1))) as [K|K].
  - rewrite nth_indep with (d' := get_pattern p (swap_index a b 0)) by (now rewrite map_length, seq_length).
    rewrite (map_nth (fun k => get_pattern p (swap_index a b k))), seq_nth by assumption. now rewrite swap_index_eq.
  - rewrite nth_overflow by (now rewrite map_length, seq_length). symmetry.
    unfold swap. destruct (k =? a) eqn:A; [apply Nat.eqb_eq in A; lia|].
    destruct (k =? b) eqn:B; [apply Nat.eqb_eq in B; lia|]. apply get_pattern_beyond. lia.
Qed.

Section Proofs.
Variable V : Type.
Variable zero : V.
Variables conj re : V -> V.
Variables isz isr : V -> bool.
Hypothesis laws : scalar_laws V zero conj re isz isr.

Notation traits := (traits zero conj re isz isr).
Notation tri_of := (triangle_type_of isz).
Notation el := (elem zero conj re).
Notation ok := (ok zero conj re isz isr).

Lemma conj0 : conj zero = zero. Proof using laws. exact (proj1 laws). Qed.
Lemma conjconj x : conj (conj x) = x. Proof using laws. now destruct laws as (_ & _ & A & _). Qed.
Lemma conjre x : conj (re x) = re x. Proof using laws. now destruct laws as (_ & _ & _ & A & _). Qed.
Lemma re_real x : conj x = x -> re x = x. Proof using laws. destruct laws as (_ & _ & _ & _ & A & _). apply A. Qed.
Lemma iszE x : isz x = true -> x = zero. Proof using laws. destruct laws as (_ & _ & _ & _ & _ & A & _). apply A. Qed.
Lemma isrE x : isr x = true -> conj x = x. Proof using laws. destruct laws as (_ & _ & _ & _ & _ & _ & A). apply A. Qed.

Record inv (c : claims V) (v : view V) : Prop :=
  { i_pats : forall k, dim_at (c_pats c) k = shape v k;
    i_get : forall kn x, c_get c = Some (kn, x) -> forall i, in_shape v i -> inside (c_tri c) i -> el v i = x;
    i_tri : forall i, in_shape v i -> ~ inside (c_tri c) i -> el v i = zero;
    i_elem : forall x, c_elem c = Some x -> c_get c = Some (true, x) /\ forall i, in_shape v i -> el v i = x;
    i_vec0 : c_get c <> None -> vector c 0 = true -> c_tri c <> Some Upper;
    i_vec1 : c_get c <> None -> vector c 1 = true -> c_tri c <> Some Lower;
    i_square : forall f n, c_square c = Some f -> 2 <= n -> f n false = true -> is_square (shape v) n;
    i_nosquare : forall f n, c_square c = Some f -> 2 <= n -> f n true = false -> ~ is_square (shape v) n;
    i_one : forall f, c_square c = Some f -> length (c_pats c) = 1 -> f 1 false = true -> shape v 0 = 1;
    i_real : c_complex c = false -> forall i, in_shape v i -> conj (el v i) = el v i;
    i_realget : forall kn x, c_complex c = false -> c_get c = Some (kn, x) -> conj x = x;
    i_herm : c_herm c = true -> is_hermitian conj (shape v) (el v);
    i_first : c_first c = el v zeros }.

Section Derived.
Variables (c : claims V) (v : view V).
Hypothesis I : inv c v.

Lemma vector_dims n : vector c n = true <-> forall k, k <> n -> dim1 (c_pats c) k false = true.
Proof.
  unfold vector. rewrite forallb_places. split; intros H k L.
  - destruct (Nat.lt_ge_cases k (length (c_pats c))) as [K|K]; [|now apply dim1_beyond].
    generalize (H k K). destruct (Nat.eqb_spec n k); [congruence|auto].
  - destruct (Nat.eqb_spec n k); [reflexivity|]. apply H. congruence.
Qed.

Lemma vector_true n : vector c n = true -> is_vector (shape v) n.
Proof. rewrite vector_dims. intros H k L. rewrite <- (i_pats _ _ I). apply dim1_dim. auto. Qed.

Lemma square_true n : 2 <= n -> square_shaped c n false = true -> is_square (shape v) n.
Proof.
  intros L. unfold square_shaped. destruct (Nat.eqb_spec n 1); [lia|]. cbn [negb andb orb].
  intros H. apply andb_true_iff in H. destruct H as [_ H]. destruct (c_square c) as [f|] eqn:F.
  - now apply (i_square _ _ I f).
  - intros k K. rewrite <- !(i_pats _ _ I). now apply (same_dims_true _ n).
Qed.

Lemma square_false n : 2 <= n -> square_shaped c n true = false -> ~ is_square (shape v) n.
Proof.
  intros L. unfold square_shaped. destruct (Nat.eqb_spec n 1); [lia|].
  destruct (Nat.ltb_spec 0 n) as [L0|L0]; [|lia]. cbn [negb andb orb].
  destruct (c_square c) as [f|] eqn:F.
  - now apply (i_nosquare _ _ I f).
  - intros H A. apply (same_dims_false _ _ H). intros k K. rewrite !(i_pats _ _ I). now apply A.
Qed.

Lemma one_square : length (c_pats c) = 1 -> square_shaped c 1 false = true -> shape v 0 = 1.
Proof.
  intros L. unfold square_shaped. cbn [Nat.ltb Nat.leb Nat.eqb andb negb].
  intros H. apply orb_true_iff in H. destruct H as [H|H].
  - rewrite <- (i_pats _ _ I). now apply dim1_dim.
  - destruct (c_square c) as [f|] eqn:F; [|discriminate]. now apply (i_one _ _ I f).
Qed.

Lemma one_true : one_dimensional c = true -> is_one_dimensional (shape v).
Proof.
  unfold one_dimensional. intros H. apply orb_true_iff in H. destruct H as [H|H].
  - intros k. rewrite <- (i_pats _ _ I). apply dim1_dim. revert k. now apply all_dim1.
  - apply andb_true_iff in H. destruct H as [SQ O].
    assert (B : forall k, length (c_pats c) <= k -> shape v k = 1).
    { intros k K. rewrite <- (i_pats _ _ I). unfold dim_at. now rewrite get_pattern_beyond. }
    destruct (length (c_pats c)) as [|[|n]] eqn:L.
    + discriminate.
    + intros [|k]; [now apply one_square|apply B; lia].
    + apply orb_true_iff in O. destruct O as [O|O]; [discriminate|].
      apply existsb_exists in O. destruct O as (j & J & D). apply in_seq in J.
      assert (Q : is_square (shape v) (S (S n))) by (apply square_true; [lia|assumption]).
      apply dim1_dim in D. rewrite (i_pats _ _ I) in D.
      intros k. destruct (Nat.lt_ge_cases k (S (S n))) as [K|K]; [|now apply B].
      rewrite (Q k K), <- (Q j); [assumption|lia].
Qed.

Lemma zeros_in : is_one_dimensional (shape v) -> in_shape v zeros.
Proof. intros O k. rewrite O. unfold zeros. lia. Qed.

Lemma one_zero i : is_one_dimensional (shape v) -> in_shape v i -> forall k, i k = 0.
Proof. intros O W k. specialize (W k). rewrite O in W. lia. Qed.

Lemma diag_get kn x i : c_get c = Some (kn, x) -> in_shape v i -> i 0 = i 1 -> el v i = x.
Proof. intros G W D. apply (i_get _ _ I kn x G i W). now apply inside_diag. Qed.

Lemma zero_true : is_zero isz c = true -> forall i, in_shape v i -> el v i = zero.
Proof.
  unfold is_zero. intros H i W. apply orb_true_iff in H. destruct H as [H|H].
  - destruct (c_get c) as [[[] x]|] eqn:G; try discriminate. apply iszE in H. subst x.
    destruct (inside_dec (c_tri c) i) as [T|T]; [now apply (i_get _ _ I true zero)|now apply (i_tri _ _ I)].
  - destruct (c_elem c) as [x|] eqn:E; [|discriminate]. apply iszE in H. subst x.
    now apply (i_elem _ _ I zero).
Qed.

Lemma is_diag_true t : is_diag t = true -> t = Some Diagonal.
Proof. destruct t as [[]|]; easy. Qed.

(** The triangle type: how it comes about. *)
Lemma tri_cases :
  (tri_of c = Some Diagonal /\
     (is_zero isz c = true \/ one_dimensional c = true \/ c_tri c = Some Diagonal)) \/
  (tri_of c = Some Lower /\ vector c 0 = true /\ c_tri c <> Some Diagonal) \/
  (tri_of c = Some Upper /\ vector c 0 = false /\ vector c 1 = true /\ c_tri c <> Some Diagonal) \/
  (tri_of c = c_tri c /\ vector c 0 = false /\ vector c 1 = false /\ c_tri c <> Some Diagonal).
Proof.
  unfold triangle_type_of.
  destruct (is_zero isz c) eqn:Z; [now left; auto|].
  destruct (one_dimensional c) eqn:O; [now left; auto|].
  destruct (is_diag (c_tri c)) eqn:D; [left; split; auto; right; right; now apply is_diag_true|].
  cbn [orb]. right.
  assert (ND : c_tri c <> Some Diagonal) by (intros E; rewrite E in D; discriminate).
  destruct (vector c 0); [left; auto|]. destruct (vector c 1); [right; left; auto|right; right; auto].
Qed.

Lemma both_vectors : vector c 0 = true -> vector c 1 = true -> one_dimensional c = true.
Proof.
  intros A B. unfold one_dimensional. apply orb_true_iff. left. apply all_dim1.
  intros [|k]; [apply (proj1 (vector_dims 1) B); lia|apply (proj1 (vector_dims 0) A); lia].
Qed.

Lemma vec_shape0 i : vector c 0 = true -> in_shape v i -> i 1 = 0.
Proof. intros H W. specialize (W 1). rewrite (vector_true 0 H 1) in W; lia. Qed.

Lemma vec_shape1 i : vector c 1 = true -> in_shape v i -> i 0 = 0.
Proof. intros H W. specialize (W 0). rewrite (vector_true 1 H 0) in W; lia. Qed.

Lemma tri_true i : in_shape v i -> ~ inside (tri_of c) i -> el v i = zero.
Proof.
  intros W. destruct tri_cases as [[E C]|[[E C]|[[E C]|[E C]]]]; rewrite E.
  - destruct C as [C|[C|C]]; intros T.
    + now apply zero_true.
    + exfalso. apply T. cbn. now rewrite !(one_zero i (one_true C) W).
    + apply (i_tri _ _ I); [assumption|now rewrite C].
  - intros T. exfalso. apply T. cbn. rewrite (vec_shape0 i); [lia|tauto|assumption].
  - intros T. exfalso. apply T. cbn. rewrite (vec_shape1 i); [lia|tauto|assumption].
  - now apply (i_tri _ _ I).
Qed.

(** Inside the triangle the constant can be read. *)
Lemma tri_get kn x i : c_get c = Some (kn, x) -> in_shape v i -> inside (tri_of c) i -> el v i = x.
Proof.
  intros G W. assert (N : c_get c <> None) by (rewrite G; discriminate).
  destruct tri_cases as [[E C]|[[E C]|[[E C]|[E C]]]]; rewrite E; intros T.
  - now apply (diag_get kn).
  - apply (i_get _ _ I kn x G i W). destruct (c_tri c) as [[]|] eqn:Q; cbn; cbn in T; try lia.
    + now destruct (i_vec0 _ _ I N (proj1 C)).
    + tauto.
  - apply (i_get _ _ I kn x G i W). destruct (c_tri c) as [[]|] eqn:Q; cbn; cbn in T; try lia.
    + now destruct (i_vec1 _ _ I N (proj1 (proj2 C))).
    + tauto.
  - now apply (i_get _ _ I kn x G i W).
Qed.

Lemma first_true i : is_one_dimensional (shape v) -> in_shape v i -> el v i = c_first c.
Proof.
  intros O W. rewrite (i_first _ _ I). apply elem_ext. intros k. rewrite (one_zero i O W k). reflexivity.
Qed.

Lemma zero_value kn x : is_zero isz c = true -> c_get c = Some (kn, x) -> x = zero.
Proof.
  unfold is_zero. intros H G. apply orb_true_iff in H. destruct H as [H|H].
  - rewrite G in H. destruct kn; [now apply iszE|discriminate].
  - destruct (c_elem c) as [y|] eqn:E; [|discriminate]. destruct (i_elem _ _ I y E) as [GG _].
    rewrite GG in G. injection G as <- <-. now apply iszE.
Qed.

Lemma zero_none : is_zero isz c = true -> c_get c <> None.
Proof.
  unfold is_zero. intros H. apply orb_true_iff in H. destruct H as [H|H].
  - destruct (c_get c); discriminate.
  - destruct (c_elem c) as [y|] eqn:E; [|discriminate]. destruct (i_elem _ _ I y E) as [-> _]. discriminate.
Qed.

Lemma no_get : c_get c = None -> c_elem c = None /\ is_zero isz c = false.
Proof.
  intros G. split.
  - destruct (c_elem c) as [y|] eqn:E; [|reflexivity]. destruct (i_elem _ _ I y E). congruence.
  - destruct (is_zero isz c) eqn:Z; [|reflexivity]. now destruct (zero_none Z).
Qed.

Lemma constant_true : constant_object isz c = true -> is_constant (shape v) (el v) (snd (constant_value c)).
Proof.
  unfold constant_object, constant_value. intros H i W.
  destruct (c_get c) as [[kn x]|] eqn:G.
  - cbn [snd]. rewrite !orb_true_iff in H. destruct H as [[[H|H]|H]|H].
    + destruct (inside_dec (tri_of c) i) as [T|T]; [now apply (tri_get kn)|].
      destruct (tri_of c) as [[]|] eqn:E; cbn in T, H; try discriminate.
      * rewrite (vec_shape0 i) in T; [lia|tauto|assumption].
      * rewrite (vec_shape1 i) in T; [lia|tauto|assumption].
      * tauto.
    + destruct (c_elem c) as [y|] eqn:E; [|discriminate].
      destruct (i_elem _ _ I y E) as [GG A]. rewrite GG in G. injection G as <- <-. now apply A.
    + rewrite (zero_value kn x H G). now apply zero_true.
    + apply (diag_get kn); auto. now rewrite !(one_zero i (one_true H) W).
  - destruct (no_get G) as [E Z]. rewrite E, Z in *. cbn in H |- *.
    apply first_true; [now apply one_true|assumption].
Qed.

Lemma diagonal_true : constant_diagonal_object isz c = true -> is_constant_diagonal zero (shape v) (el v) (snd (constant_value c)).
Proof.
  unfold constant_diagonal_object, constant_value, diagonal_matrix, triangular_matrix. intros H i W.
  destruct (c_get c) as [[kn x]|] eqn:G.
  - cbn [snd]. rewrite !orb_true_iff in H. destruct (Nat.eqb_spec (i 0) (i 1)) as [D|D].
    + now apply (diag_get kn).
    + destruct H as [[H|H]|H].
      * apply tri_true; [assumption|]. now destruct (tri_of c) as [[]|].
      * now apply zero_true.
      * destruct D. now rewrite !(one_zero i (one_true H) W).
  - destruct (no_get G) as [E Z]. rewrite E, Z in *. cbn in H |- *.
    rewrite !(one_zero i (one_true H) W). cbn. apply first_true; [now apply one_true|assumption].
Qed.

(** On the diagonal the constant can be read whichever of the two it is. *)
Lemma value_on_diagonal i :
  constant_object isz c || constant_diagonal_object isz c = true -> in_shape v i -> i 0 = i 1 ->
  el v i = snd (constant_value c).
Proof.
  intros H W D. apply orb_true_iff in H. destruct H as [H|H]; [now apply constant_true|].
  rewrite (diagonal_true H i W). now rewrite D, Nat.eqb_refl.
Qed.

Lemma real_true : real_elements isr c = true -> forall i, in_shape v i -> conj (el v i) = el v i.
Proof.
  unfold real_elements. intros H i W. apply orb_true_iff in H. destruct H as [H|H].
  - apply (i_real _ _ I); [|assumption]. now destruct (c_complex c).
  - destruct (c_elem c) as [x|] eqn:E; [|discriminate]. destruct (i_elem _ _ I x E) as [_ A].
    rewrite (A i W). now apply isrE.
Qed.

Lemma swapped_in i : is_square (shape v) 2 -> in_shape v i -> in_shape v (swapped i).
Proof.
  intros Q W [|[|k]]; unfold swapped; cbn.
  - rewrite <- (Q 1) by lia. apply W.
  - rewrite (Q 1) by lia. apply W.
  - apply W.
Qed.

Lemma hermitian_true : hermitian_matrix isz isr c = true -> is_hermitian conj (shape v) (el v).
Proof.
  unfold hermitian_matrix. intros H. apply andb_true_iff in H. destruct H as [SQ H].
  apply square_true in SQ; [|lia]. apply orb_true_iff in H. destruct H as [H|H]; [now apply (i_herm _ _ I)|].
  apply andb_true_iff in H. destruct H as [H R]. split; [assumption|]. intros i W.
  pose proof (swapped_in i SQ W) as W'.
  rewrite (real_true R _ W'). apply orb_true_iff in H. destruct H as [H|H].
  - now rewrite (constant_true H i W), (constant_true H _ W').
  - assert (D : tri_of c = Some Diagonal).
    { unfold diagonal_matrix, triangular_matrix in H. now destruct (tri_of c) as [[]|]. }
    destruct (Nat.eq_dec (i 0) (i 1)) as [E|E].
    + apply elem_ext. intros [|[|k]]; unfold swapped; cbn; auto.
    + rewrite !tri_true; try assumption; try reflexivity; rewrite D; cbn; [unfold swapped; cbn|]; lia.
Qed.

Lemma real_value : real_constant isz isr c = true -> conj (snd (constant_value c)) = snd (constant_value c).
Proof.
  unfold real_constant, constant_value. intros H. apply andb_true_iff in H. destruct H as [_ H].
  destruct (c_get c) as [[kn x]|] eqn:G.
  - cbn in H |- *. apply andb_true_iff in H. destruct H as [_ H]. apply orb_true_iff in H. destruct H as [H|H].
    + apply (i_realget _ _ I kn); [|assumption]. now destruct (c_complex c).
    + now apply isrE.
  - destruct (no_get G) as [E Z]. rewrite E in H. discriminate.
Qed.

Lemma plain_value : c_complex c = false ->
  constant_object isz c || constant_diagonal_object isz c = true ->
  conj (snd (constant_value c)) = snd (constant_value c).
Proof.
  intros R H. unfold constant_value.
  destruct (c_get c) as [[kn x]|] eqn:G; [now apply (i_realget _ _ I kn)|].
  destruct (no_get G) as [E Z]. rewrite E. cbn.
  assert (O : one_dimensional c = true).
  { unfold constant_object, constant_diagonal_object in H. rewrite G, E, Z in H. cbn in H.
    now destruct (one_dimensional c). }
  rewrite (i_first _ _ I). apply (i_real _ _ I R). now apply zeros_in, one_true.
Qed.

End Derived.

(** ** Each adapter keeps the claims true *)

Lemma inv_dense cx v : ok (ODense cx v) -> inv (traits (ODense cx v)) v.
Proof.
  intros [D R]. split; cbn; try discriminate; try tauto; try reflexivity.
  - intros k. destruct v; try contradiction; reflexivity.
Qed.

Lemma inv_const cx kn x p : ok (OConst cx kn x p) -> inv (traits (OConst cx kn x p)) (VConstant x p).
Proof.
  intros R. split; cbn; try discriminate; try tauto; try reflexivity.
  - intros ? ? E. now injection E.
  - intros y. destruct kn; [|discriminate]. intros E. injection E as <-. auto.
  - intros H i _. now apply R.
  - intros k y H E. injection E as _ <-. now apply R.
Qed.

Lemma inv_todiag o p :
  ok (OToDiag o p) -> inv (traits o) (forget o) -> inv (traits (OToDiag o p)) (forget (OToDiag o p)).
Proof.
  intros [_ SH] I.
  assert (IN : forall i, in_shape (forget (OToDiag o p)) i -> i 0 = i 1 -> in_shape (forget o) (fun k => i (S k))).
  { intros i W D k. rewrite SH, pat_diagonal_of_dim. specialize (W k) as W0. cbn in W0.
    destruct k as [|k]; [|apply (W (S (S k)))].
    generalize (W 0) (W 1). cbn. lia. }
  split; cbn [AdaptModel.traits c_pats c_get c_tri c_elem c_square c_complex c_herm c_first forget];
    try discriminate; try reflexivity.
  - intros kn x G i W T. cbn in T |- *. rewrite T, Nat.eqb_refl.
    destruct (constant_object isz (traits o)) eqn:C; [|discriminate].
    injection G as G. rewrite (constant_true _ _ I C _ (IN i W T)). now rewrite G.
  - intros i W T. cbn in T |- *. destruct (Nat.eqb_spec (i 0) (i 1)); [contradiction|reflexivity].
  - intros R i W. cbn. destruct (Nat.eqb_spec (i 0) (i 1)) as [D|D]; [|apply conj0].
    apply (i_real _ _ I R). now apply IN.
  - intros kn x R G. destruct (constant_object isz (traits o)) eqn:C; [|discriminate].
    injection G as G. pose proof (plain_value _ _ I R) as P. rewrite C, G in P. now apply P.
Qed.

Lemma inv_diag o : ok (ODiag o) -> inv (traits o) (forget o) -> inv (traits (ODiag o)) (forget (ODiag o)).
Proof.
  intros [_ N] I.
  split; cbn [AdaptModel.traits c_pats c_get c_tri c_elem c_square c_complex c_herm c_first forget];
    try discriminate; try reflexivity.
  - intros k. rewrite pat_diagonal_of_dim. cbn. destruct k; now rewrite ?(i_pats _ _ I).
  - intros kn x G i W _. cbn. destruct (c_get (traits o)) eqn:GG; [|discriminate]. injection G as G.
    pose proof (value_on_diagonal _ _ I (diag_index i)) as P. rewrite G in P. apply P.
    + apply N. now rewrite GG.
    + now apply diagonal_of_in.
    + reflexivity.
  - intros i _ T. now destruct T.
  - intros x E. destruct (i_elem _ _ I x E) as [G A]. split.
    + unfold constant_value. now rewrite G.
    + intros i W. cbn. apply (A (diag_index i)). now apply diagonal_of_in.
  - intros R i W. cbn. apply (i_real _ _ I R (diag_index i)). now apply diagonal_of_in.
  - intros kn x R G. destruct (c_get (traits o)) eqn:GG; [|discriminate]. injection G as G.
    pose proof (plain_value _ _ I R) as P. rewrite G in P. apply P. apply N. now rewrite GG.
Qed.

Lemma same_vector (c d : claims V) n : c_pats c = c_pats d -> vector c n = vector d n.
Proof. unfold vector. now intros ->. Qed.

Lemma vec_upper c v : inv c v -> vector c 0 = true -> tri_of c = Some Lower \/ tri_of c = Some Diagonal.
Proof.
  intros I H. destruct (tri_cases c) as [[E C]|[[E C]|[[E C]|[E C]]]]; try tauto; destruct C; congruence.
Qed.

Lemma vec_lower c v : inv c v -> vector c 1 = true -> tri_of c = Some Upper \/ tri_of c = Some Diagonal.
Proof.
  intros I H. destruct (tri_cases c) as [[E C]|[[E C]|[[E C]|[E C]]]]; try tauto.
  - right. unfold triangle_type_of. rewrite (both_vectors c (proj1 C) H). now rewrite orb_true_r.
  - destruct C as (? & ? & ?). congruence.
Qed.

Lemma inv_tri t o : ok (OTri t o) -> inv (traits o) (forget o) -> inv (traits (OTri t o)) (forget (OTri t o)).
Proof.
  intros _ I.
  assert (EL : forall i, (inside (Some t) i -> el (forget (OTri t o)) i = el (forget o) i) /\
                         (~ inside (Some t) i -> el (forget (OTri t o)) i = zero)).
  { intros i. destruct t; cbn.
    - destruct (Nat.leb_spec (i 1) (i 0)); split; auto; lia.
    - destruct (Nat.leb_spec (i 0) (i 1)); split; auto; lia.
    - destruct (Nat.eqb_spec (i 0) (i 1)); split; auto; lia. }
  split; cbn [AdaptModel.traits c_pats c_get c_tri c_elem c_square c_complex c_herm c_first];
    try discriminate; try reflexivity.
  - apply I.
  - intros kn x G i W T. apply tmul_inside in T. destruct T as [T1 T2].
    rewrite (proj1 (EL i) T1). now apply (tri_get _ _ I kn).
  - intros i W T. destruct (inside_dec (Some t) i) as [T1|T1]; [|now apply EL].
    rewrite (proj1 (EL i) T1). apply (tri_true _ _ I); [assumption|].
    apply tmul_outside in T. tauto.
  - intros N H. rewrite (same_vector _ (traits o)) in H by reflexivity.
    destruct (vec_upper _ _ I H) as [-> | ->]; now destruct t.
  - intros N H. rewrite (same_vector _ (traits o)) in H by reflexivity.
    destruct (vec_lower _ _ I H) as [-> | ->]; now destruct t.
  - intros f n F L H. injection F as <-. now apply (square_true _ _ I).
  - intros f n F L H. injection F as <-. now apply (square_false _ _ I).
  - intros f F L H. injection F as <-. now apply (one_square _ _ I).
  - intros R i W. destruct (inside_dec (Some t) i) as [T1|T1].
    + rewrite (proj1 (EL i) T1). now apply (i_real _ _ I).
    + rewrite (proj2 (EL i) T1). apply conj0.
  - apply I.
Qed.

Lemma inv_herm t o : ok (OHerm t o) -> inv (traits o) (forget o) -> inv (traits (OHerm t o)) (forget (OHerm t o)).
Proof.
  intros (_ & TD & SQ) I.
  assert (Q : is_square (shape (forget o)) 2) by (intros [|[|k]] L; [reflexivity|now symmetry|lia]).
  pose proof (fun i => swapped_in (forget o) i Q) as SW.
  assert (EL : forall i,
    (i 0 = i 1 /\ el (forget (OHerm t o)) i = re (el (forget o) i)) \/
    (i 0 <> i 1 /\ inside (Some t) i /\ el (forget (OHerm t o)) i = el (forget o) i) \/
    (i 0 <> i 1 /\ inside (Some t) (swapped i) /\ el (forget (OHerm t o)) i = conj (el (forget o) (swapped i)))).
  { intros i. cbn [forget elem]. destruct (Nat.eqb_spec (i 0) (i 1)); [now left|].
    destruct t; [| |now destruct TD].
    - destruct (Nat.ltb_spec (i 1) (i 0)); [right; left|right; right]; repeat split; auto; try (unfold swapped; cbn; lia).
    - destruct (Nat.ltb_spec (i 0) (i 1)); [right; left|right; right]; repeat split; auto; try (unfold swapped; cbn; lia). }
  assert (DZ : is_diag (tmul (tri_of (traits o)) (Some t)) = true ->
               forall i, in_shape (forget o) i -> i 0 <> i 1 -> inside (Some t) i -> el (forget o) i = zero).
  { intros D i W NE T. apply (tri_true _ _ I); [assumption|].
    destruct (tri_of (traits o)) as [[]|], t; cbn in *; try discriminate; try lia; now destruct TD. }
  split; cbn [AdaptModel.traits c_pats c_get c_tri c_elem c_square c_complex c_herm c_first];
    try discriminate; try reflexivity.
  - apply I.
  - intros kn x G i W T. destruct (real_constant isz isr (traits o)) eqn:RC; [|discriminate].
    injection G as G. pose proof (real_value _ _ I RC) as RV. rewrite G in RV. cbn in RV.
    assert (K : constant_object isz (traits o) || constant_diagonal_object isz (traits o) = true).
    { unfold real_constant in RC. apply andb_true_iff in RC. apply RC. }
    destruct (Nat.eq_dec (i 0) (i 1)) as [E|E].
    + destruct (EL i) as [[_ ->]|[[? _]|[? _]]]; [|contradiction|contradiction].
      rewrite (value_on_diagonal _ _ I i K W E), G. now apply re_real.
    + assert (ND : is_diag (tmul (tri_of (traits o)) (Some t)) = false).
      { destruct (is_diag _); [|reflexivity]. cbn in T. contradiction. }
      assert (C : constant_object isz (traits o) = true).
      { destruct (constant_object isz (traits o)); [reflexivity|]. cbn in K. exfalso. revert ND.
        apply eq_true_false_abs.
        unfold constant_diagonal_object in K. rewrite !orb_true_iff in K.
        assert (TT : tri_of (traits o) = Some Diagonal).
        { destruct K as [[K|K]|K].
          - apply andb_true_iff in K. destruct K as [_ K]. unfold diagonal_matrix, triangular_matrix in K.
            now destruct (tri_of (traits o)) as [[]|].
          - unfold triangle_type_of. now rewrite K.
          - unfold triangle_type_of. rewrite K. now rewrite orb_true_r. }
        rewrite TT. now destruct t. }
      destruct (EL i) as [[? _]|[[_ [_ ->]]|[_ [_ ->]]]]; [contradiction| |].
      * now rewrite (constant_true _ _ I C i W), G.
      * now rewrite (constant_true _ _ I C _ (SW i W)), G.
  - intros i W T. destruct (is_diag (tmul (tri_of (traits o)) (Some t))) eqn:D; [|now destruct T].
    cbn in T. destruct (EL i) as [[? _]|[[_ [S ->]]|[_ [S ->]]]]; [contradiction| |].
    + now apply DZ.
    + rewrite DZ; auto using conj0.
  - destruct (is_diag _); discriminate.
  - destruct (is_diag _); discriminate.
  - intros f n F L H. injection F as <-. destruct (Nat.leb_spec n 2) as [N|N].
    + replace n with 2 by lia. exact Q.
    + now apply (square_true _ _ I).
  - intros f n F L H. injection F as <-. destruct (Nat.leb_spec n 2) as [N|N]; [discriminate|].
    now apply (square_false _ _ I).
  - intros f F L H. cbn. rewrite SQ, <- (i_pats _ _ I). unfold dim_at. rewrite get_pattern_beyond; [reflexivity|lia].
  - intros R i W. destruct (EL i) as [[_ ->]|[[_ [_ ->]]|[_ [_ ->]]]].
    + apply conjre.
    + now apply (i_real _ _ I).
    + f_equal. apply (i_real _ _ I R). now apply SW.
  - intros kn x R G. destruct (real_constant isz isr (traits o)) eqn:RC; [|discriminate].
    injection G as G. pose proof (real_value _ _ I RC) as RV. now rewrite G in RV.
  - intros _. split; [exact Q|]. intros i W.
    assert (SS : el (forget o) (swapped (swapped i)) = el (forget o) i).
    { apply elem_ext. intros k. unfold swapped. now rewrite swap_invol. }
    assert (SE : i 0 = i 1 -> el (forget o) (swapped i) = el (forget o) i).
    { intros E. apply elem_ext. intros [|[|k]]; unfold swapped; cbn; auto. }
    destruct (EL i) as [[E ->]|[[E [T ->]]|[E [T ->]]]];
      destruct (EL (swapped i)) as [[E' ->]|[[E' [T' ->]]|[E' [T' ->]]]];
      unfold swapped in E'; cbn in E'; try (exfalso; lia).
    + rewrite SE by assumption. now rewrite conjre.
    + exfalso. destruct t; unfold swapped in T'; cbn in T, T'; lia.
    + rewrite SS, conjconj. reflexivity.
    + reflexivity.
    + exfalso. destruct t; unfold swapped in T, T'; cbn in T, T'; lia.
Qed.

Lemma swap_in a b (v : view V) i : in_shape (VTranspose a b v) i -> in_shape v (fun k => i (swap a b k)).
Proof. intros W k. specialize (W (swap a b k)). cbn in W. now rewrite swap_invol in W. Qed.

Lemma square_swap (s : nat -> nat) a b n : a < n -> b < n -> is_square s n <-> is_square (fun k => s (swap a b k)) n.
Proof.
  intros A B.
  assert (S : forall k, k < n -> swap a b k < n).
  { intros k L. unfold swap. destruct (k =? a); [assumption|]. now destruct (k =? b). }
  split; intros Q k L.
  - rewrite (Q (swap a b k)), (Q (swap a b 0)); auto. apply S. lia.
  - rewrite <- (swap_invol a b k), <- (swap_invol a b 0).
    rewrite (Q (swap a b k)); [|auto]. symmetry. apply (Q (swap a b 0)). apply S. lia.
Qed.

Lemma vector_trans o n : n < 2 -> vector (traits (OTrans 0 1 o)) n = vector (traits o) (1 - n).
Proof.
  intros L. apply eq_true_iff_eq. rewrite !vector_dims. cbn [AdaptModel.traits c_pats].
  assert (G : forall k, dim1 (pat_transpose 0 1 (c_pats (traits o))) k false = dim1 (c_pats (traits o)) (swap 0 1 k) false).
  { intros k. unfold dim1. now rewrite pat_transpose_get by lia. }
  split; intros H k K.
  - specialize (H (swap 0 1 k)). rewrite G, swap_invol in H. apply H.
    intros E. apply K. destruct n as [|[|n]]; [| |lia]; destruct k as [|[|k]]; cbn in E; lia.
  - rewrite G. apply H. intros E. apply K. destruct n as [|[|n]]; [| |lia]; destruct k as [|[|k]]; cbn in E; lia.
Qed.

Lemma tri_upper_trans c v : inv c v -> tri_of c = Some Lower -> vector c 1 = true -> False.
Proof. intros I T H. destruct (vec_lower _ _ I H); congruence. Qed.

Lemma tri_lower_trans c v : inv c v -> tri_of c = Some Upper -> vector c 0 = true -> False.
Proof. intros I T H. destruct (vec_upper _ _ I H); congruence. Qed.

Lemma inv_trans a b o : ok (OTrans a b o) -> inv (traits o) (forget o) -> inv (traits (OTrans a b o)) (forget (OTrans a b o)).
Proof.
  intros (_ & AB & CASE) I.
  split; cbn [AdaptModel.traits c_pats c_get c_tri c_elem c_square c_complex c_herm c_first forget];
    try discriminate; try reflexivity.
  - intros k. rewrite pat_transpose_dim by assumption. cbn. apply I.
  - intros kn x G i W T. cbn. apply (tri_get _ _ I kn x); [assumption|now apply swap_in|].
    destruct CASE as [->|[-> _]]; [|exact Logic.I]. assert (a = 0) by lia. subst a.
    now apply inside_swapped.
  - intros i W T. cbn. apply (tri_true _ _ I); [now apply swap_in|].
    destruct CASE as [->|[C _]]; [|rewrite C in T; now destruct T]. assert (a = 0) by lia. subst a.
    intros N. apply T. now apply inside_swapped.
  - intros x E. destruct (i_elem _ _ I x E) as [G A]. split; [assumption|].
    intros i W. cbn. apply A. now apply swap_in.
  - intros N H E. destruct CASE as [->|[C _]]; [|rewrite C in E; discriminate]. assert (a = 0) by lia. subst a.
    change (vector (traits (OTrans 0 1 o)) 0 = true) in H.
    rewrite vector_trans in H by lia. apply (tri_upper_trans _ _ I); [|exact H].
    now destruct (tri_of (traits o)) as [[]|].
  - intros N H E. destruct CASE as [->|[C _]]; [|rewrite C in E; discriminate]. assert (a = 0) by lia. subst a.
    change (vector (traits (OTrans 0 1 o)) 1 = true) in H.
    rewrite vector_trans in H by lia. apply (tri_lower_trans _ _ I); [|exact H].
    now destruct (tri_of (traits o)) as [[]|].
  - intros f n F L H. injection F as <-.
    assert (B : b < n).
    { destruct CASE as [->|(_ & _ & C)]; [lia|]. destruct (Nat.lt_ge_cases b n); [assumption|].
      destruct (C n) as [C1 _]; [lia|]. congruence. }
    apply (square_swap (shape (forget o))); [lia|lia|]. now apply (square_true _ _ I).
  - intros f n F L H. injection F as <-.
    assert (B : b < n).
    { destruct CASE as [->|(_ & _ & C)]; [lia|]. destruct (Nat.lt_ge_cases b n); [assumption|].
      destruct (C n) as [_ C2]; [lia|]. congruence. }
    intros Q. apply (square_swap (shape (forget o))) in Q; [|lia|lia]. now apply (square_false _ _ I n).
  - intros f F L. exfalso. unfold pat_transpose in L. rewrite map_length, seq_length in L. lia.
  - intros R i W. cbn. apply (i_real _ _ I R). now apply swap_in.
  - apply I.
  - intros H. destruct CASE as [->|(_ & C & _)]; [|congruence]. assert (a = 0) by lia. subst a.
    destruct (hermitian_true _ _ I H) as [Q A]. split.
    + now apply (square_swap (shape (forget o))); try lia.
    + intros i W. cbn. rewrite (A (fun k => i (swap 0 1 k))); [|now apply swap_in].
      reflexivity.
Qed.

Lemma inv_conj o : ok (OConj o) -> inv (traits o) (forget o) -> inv (traits (OConj o)) (forget (OConj o)).
Proof.
  intros (_ & G0) I.
  split; cbn [AdaptModel.traits c_pats c_get c_tri c_elem c_square c_complex c_herm c_first forget];
    try discriminate; try reflexivity.
  - apply I.
  - intros kn x G i W T. cbn. rewrite (tri_get _ _ I kn x i G W T). now apply (G0 kn).
  - intros i W T. cbn. rewrite (tri_true _ _ I i W T). apply conj0.
  - intros N H. rewrite (same_vector _ (traits o)) in H by reflexivity.
    destruct (vec_upper _ _ I H) as [-> | ->]; discriminate.
  - intros N H. rewrite (same_vector _ (traits o)) in H by reflexivity.
    destruct (vec_lower _ _ I H) as [-> | ->]; discriminate.
  - intros f n F L H. injection F as <-. now apply (square_true _ _ I).
  - intros f n F L H. injection F as <-. now apply (square_false _ _ I).
  - intros f F L H. injection F as <-. now apply (one_square _ _ I).
  - intros R i W. cbn. f_equal. now apply (i_real _ _ I R).
  - apply I.
  - intros H. destruct (hermitian_true _ _ I H) as [Q A]. split; [assumption|].
    intros i W. cbn. f_equal. now apply A.
Qed.

Lemma inv_pat p o : ok (OPat p o) -> inv (traits o) (forget o) -> inv (traits (OPat p o)) (forget (OPat p o)).
Proof.
  intros (_ & D & L1 & F0) I.
  assert (VEC : c_get (traits o) <> None -> tri_of (traits o) <> None -> tri_of (traits o) <> Some Diagonal ->
                forall n, vector (traits (OPat p o)) n = true -> vector (traits o) n = true).
  { intros A B C n. rewrite !vector_dims. cbn [AdaptModel.traits c_pats].
    destruct F0 as [F|[F|[F|F]]]; try contradiction. intros H k K. specialize (H k K). unfold dim1 in *.
    rewrite <- F. destruct (fixed (get_pattern p k)); [|discriminate].
    change (dim_at p k =? 1 = true) in H. change (dim_at (c_pats (traits o)) k =? 1 = true).
    now rewrite (i_pats _ _ I), <- D. }
  split; cbn [AdaptModel.traits c_pats c_get c_tri c_elem c_square c_complex c_herm c_first forget];
    try discriminate; try reflexivity.
  - exact D.
  - intros kn x G i W T. now apply (tri_get _ _ I kn).
  - apply (tri_true _ _ I).
  - apply I.
  - intros N H E. apply VEC in H; try congruence. now apply (tri_lower_trans _ _ I).
  - intros N H E. apply VEC in H; try congruence. now apply (tri_upper_trans _ _ I).
  - intros f n F L H. injection F as <-. now apply (square_true _ _ I).
  - intros f n F L H. injection F as <-. now apply (square_false _ _ I).
  - intros f F L H. injection F as <-. destruct L1 as [L1|L1]; [contradiction|].
    destruct (c_pats (traits o)) as [|e [|]] eqn:P; [| |cbn in L1; lia].
    + rewrite <- (i_pats _ _ I), P. reflexivity.
    + apply (one_square _ _ I); [now rewrite P|assumption].
  - apply I.
  - apply I.
  - intros H. now apply (hermitian_true _ _ I).
Qed.

Theorem inv_all o : ok o -> inv (traits o) (forget o).
Proof.
  induction o; intros K.
  - now apply inv_dense.
  - now apply inv_const.
  - apply inv_todiag; [exact K|apply IHo, K].
  - apply inv_diag; [exact K|apply IHo, K].
  - apply inv_tri; [exact K|apply IHo, K].
  - apply inv_herm; [exact K|apply IHo, K].
  - apply inv_trans; [exact K|apply IHo, K].
  - apply inv_conj; [exact K|apply IHo, K].
  - apply inv_pat; [exact K|apply IHo, K].
Qed.

End Proofs.
