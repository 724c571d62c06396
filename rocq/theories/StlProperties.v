(** Layouts, accessors and views: what a user relies on (C59-C64, C76). *)
From Coq Require Import List Arith Bool ZArith Lia.
From Verif Require Import StlModel StlSpec StlProofs StlProofs2.
Import ListNotations.

(** Concrete objects used below.  Elements are Gaussian integers, so that conjugation is
    visible. *)
Definition cx : Type := Z * Z.
Definition cconj (x : cx) : cx := (fst x, - snd x)%Z.
Definition cre (x : cx) : cx := (fst x, 0%Z).
Definition cz : cx := (0, 0)%Z.
Definition r (x : nat) : cx := (Z.of_nat x, 0%Z).
Definition st (n : nat) : ext := Ext n true.      (* static extent *)
Definition dy (n : nat) : ext := Ext n false.     (* dynamic extent *)
Definition cread := read cz cconj cre.
Definition celem := elem cz cconj cre.
Definition at2 (i j : nat) (k : nat) : nat := match k with 0 => i | 1 => j | _ => 0 end.

Lemma at2_in (v : view cx) i j :
  i < shape v 0 -> j < shape v 1 -> (forall k, 0 < shape v (S (S k))) -> in_shape v (at2 i j).
Proof. intros A B C [|[|k]]; [exact A|exact B|apply C]. Qed.

(** A 3 x 3 complex matrix with row-major dynamic storage, its upper hermitian view, the
    transpose of that, and a diagonal matrix from the diagonal. *)
Definition dat : list cx := [(1,1);(2,2);(3,3);(4,4);(5,5);(6,6);(7,7);(8,8);(9,9)]%Z.
Definition m33 : view cx := VRight [dy 3; dy 3] dat.
Definition h33 : view cx := VHermitian Upper m33.
Definition t33 : view cx := VTranspose 0 1 h33.
Definition d33 : view cx := VToDiagonal (VDiagonalOf t33) [dy 3; dy 3].

Lemma beyond33 : forall k, 0 < dim_at [dy 3; dy 3] (S (S k)).
Proof. intros [|k]; cbn; auto with arith. Qed.

Example d33_ok : buildable d33 /\ readable d33 /\ fits d33.
Proof.
  split; [|split].
  - cbn. repeat split; try (cbn; lia || auto with arith); try discriminate.
  - cbn. tauto.
  - cbn. split; [tauto|]. left. lia.
Qed.

(** * C59 Every in-range index tuple maps below required_span_size. *)
Theorem layout_span_partial :
  forall (V : Type) (zero : V) (v : view V) (i : nat -> nat),
  buildable v -> readable v -> fits v -> in_shape v i ->
  m_call (map_of v) (indices i (rank (map_of v))) < m_span (map_of v).
Proof. exact spans. Qed.
Print Assumptions layout_span_partial.

Example layout_span_case :
  in_shape d33 (at2 2 2) /\
  m_call (map_of d33) (indices (at2 2 2) 2) < m_span (map_of d33) /\
  m_call (map_of d33) (indices (at2 0 2) 2) < m_span (map_of d33).
Proof.
  split; [|split; cbn; lia].
  apply at2_in; [cbn; lia|cbn; lia|exact beyond33].
Qed.

(** make_identity_matrix of 2 rows: the zeros lie outside the span. *)
Definition id2 : view cx := VToDiagonal (VConstant (r 1) [st 2]) [st 2; st 2].

Theorem identity_span_refuted :
  buildable id2 /\ readable id2 /\ in_shape id2 (at2 1 0) /\
  m_call (map_of id2) (indices (at2 1 0) 2) = 1 /\ m_span (map_of id2) = 1.
Proof.
  split; [|split; [cbn; tauto|split; [|split; reflexivity]]].
  - cbn. repeat split; [|lia]. intros [|k]; [reflexivity|]. cbn. now destruct k.
  - apply at2_in; [cbn; lia|cbn; lia|]. intros [|k]; cbn; lia.
Qed.
Print Assumptions identity_span_refuted.

(** A lower-triangular view of a 2 x 3 matrix: the upper right element lies outside. *)
Definition l23 : view cx :=
  VTriangular Lower (VRight [st 2; st 3] (map r [1;2;3;4;5;6])).

Theorem wide_triangle_span_refuted :
  buildable l23 /\ readable l23 /\ in_shape l23 (at2 0 2) /\
  m_call (map_of l23) (indices (at2 0 2) 2) = m_span (map_of l23).
Proof.
  split; [cbn; lia|split; [cbn; tauto|split; [|reflexivity]]].
  apply at2_in; [cbn; lia|cbn; lia|]. intros [|k]; cbn; lia.
Qed.
Print Assumptions wide_triangle_span_refuted.

(** * C60 The claims of a mapping about itself. *)
Theorem unique_claim_partial :
  forall (V : Type) (zero : V) (v : view V),
  buildable v -> fits v -> readable v -> unique_side v ->
  m_unique (map_of v) = true -> injective_map (map_of v).
Proof. exact unique_sound. Qed.
Print Assumptions unique_claim_partial.

Theorem exhaustive_claim_partial :
  forall (V : Type) (v : view V),
  buildable v -> exhaustive_side v -> m_exhaustive (map_of v) = true -> onto_span (map_of v).
Proof. exact exhaustive_sound. Qed.
Print Assumptions exhaustive_claim_partial.

Theorem strided_claim_partial :
  forall (V : Type) (v : view V),
  buildable v -> strided_side v -> m_strided (map_of v) = true -> strided_map (map_of v).
Proof. exact strided_sound. Qed.
Print Assumptions strided_claim_partial.

(** The diagonal of the transpose of a padded column-major 3 x 3 matrix (column stride 4). *)
Definition s33 : view cx := VTranspose 0 1 (VStride [dy 3; dy 3] [1; 4] (map r (seq 0 11))).
Example claims_case :
  buildable (VDiagonalOf s33) /\ fits (VDiagonalOf s33) /\ readable (VDiagonalOf s33) /\
  unique_side (VDiagonalOf s33) /\ strided_side (VDiagonalOf s33) /\
  m_unique (map_of (VDiagonalOf s33)) = true /\ m_strided (map_of (VDiagonalOf s33)) = true /\
  m_stride (map_of (VDiagonalOf s33)) 0 = Some 5.
Proof.
  split; [|split; [cbn; tauto|split; [cbn; tauto|split; [|split; [|now repeat split]]]]].
  - cbn. repeat split; try lia.
  - cbn. split; [reflexivity|]. exists [0; 1]. split; [|split; [|split]].
    + intro k. cbn. lia.
    + repeat constructor; cbn; intuition discriminate.
    + intros [|[|k]] H; cbn in *; lia.
    + intros [|x [|y pre]] a b post E; try discriminate.
      * injection E as <- <- _. cbn. lia.
      * destruct pre; discriminate.
  - cbn. lia.
Qed.

Definition dg3 : view cx := VToDiagonal (VLeft [dy 3] (map r [1;2;3])) [dy 3; dy 3].
Example exhaustive_case :
  buildable dg3 /\ exhaustive_side dg3 /\ m_exhaustive (map_of dg3) = true /\ m_span (map_of dg3) = 4.
Proof.
  split; [|split; [|split; reflexivity]].
  - cbn. repeat split; try lia. intros [|k]; [reflexivity|]. cbn. now destruct k.
  - cbn. split; [tauto|]. right. exists (at2 0 1). split; [|cbn; lia].
    apply at2_in; [cbn; lia|cbn; lia|exact beyond33].
Qed.

(** Claims that are false.  A diagonal view with extents (2,1,2) claims to be unique. *)
Definition u212 : view cx := VToDiagonal (VLeft [dy 1; dy 2] [r 1; r 2]) [dy 2; dy 1; dy 2].
Definition at3 (i j l : nat) (k : nat) : nat := match k with 0 => i | 1 => j | 2 => l | _ => 0 end.
Theorem to_diagonal_unique_refuted :
  buildable u212 /\ fits u212 /\ readable u212 /\ m_unique (map_of u212) = true /\
  ~ injective_map (map_of u212).
Proof.
  split; [|split; [|split; [cbn; tauto|split; [reflexivity|]]]].
  - cbn. repeat split; try lia. intros [|[|k]]; reflexivity.
  - cbn. split; [tauto|]. left. lia.
  - intro I. specialize (I (at3 1 0 0) (at3 1 0 1)).
    assert (X : at3 1 0 0 2 = at3 1 0 1 2).
    { apply I; [| |reflexivity]; intros [|[|[|k]]]; cbn; try lia; destruct k; cbn; lia. }
    discriminate.
Qed.
Print Assumptions to_diagonal_unique_refuted.

(** A diagonal view with extents (1,1,5) claims to be exhaustive, but has no off-diagonal
    element to fill the extra slot. *)
Definition x115 : view cx := VToDiagonal (VLeft [dy 1; dy 5] (map r [1;2;3;4;5])) [dy 1; dy 1; dy 5].
Theorem to_diagonal_exhaustive_refuted :
  buildable x115 /\ m_exhaustive (map_of x115) = true /\ ~ onto_span (map_of x115).
Proof.
  split; [|split; [reflexivity|]].
  - cbn. repeat split; try lia. intros [|[|k]]; reflexivity.
  - intro O. destruct (O 5) as (i & Hi & E); [cbn; lia|].
    assert (H0 := Hi 0). assert (H1 := Hi 1). assert (H2 := Hi 2). cbn in H0, H1, H2.
    assert (E0 : i 0 = 0) by lia. assert (E1 : i 1 = 0) by lia.
    cbn in E. rewrite E0, E1 in E. cbn in E. lia.
Qed.
Print Assumptions to_diagonal_exhaustive_refuted.

(** A triangular view of a 2 x 2 matrix claims to be strided. *)
Definition l22 : view cx := VTriangular Lower (VRight [dy 2; dy 2] (map r [1;2;3;4])).
Theorem triangle_strided_refuted :
  buildable l22 /\ fits l22 /\ readable l22 /\ m_strided (map_of l22) = true /\
  ~ strided_map (map_of l22).
Proof.
  split; [cbn; lia|split; [cbn; lia|split; [cbn; tauto|split; [reflexivity|]]]].
  intros (s & Hs & Hc). assert (S0 := Hs 0 ltac:(cbn; lia)). cbn in S0. injection S0 as S0.
  specialize (Hc (at2 1 0)). cbn in Hc. rewrite <- S0 in Hc.
  assert (X : in_extents (map_of l22) (at2 1 0)) by (intros [|[|[|k]]]; cbn; lia).
  specialize (Hc X). lia.
Qed.
Print Assumptions triangle_strided_refuted.

(** A triangular view of a 1 x 1 matrix claims to be exhaustive but spans three slots. *)
Definition l11 : view cx := VTriangular Lower (VRight [dy 1; dy 1] [r 1]).
Theorem triangle_exhaustive_refuted :
  buildable l11 /\ m_exhaustive (map_of l11) = true /\ ~ onto_span (map_of l11).
Proof.
  split; [cbn; lia|split; [reflexivity|]].
  intro O. destruct (O 1) as (i & Hi & E); [cbn; lia|].
  assert (H0 := Hi 0). assert (H1 := Hi 1). cbn in H0, H1.
  assert (E0 : i 0 = 0) by lia. assert (E1 : i 1 = 0) by lia.
  cbn in E. rewrite E0, E1 in E. cbn in E. lia.
Qed.
Print Assumptions triangle_exhaustive_refuted.

(** The diagonals of a stack of two 2 x 2 matrices: stride(1) is that of the wrong rank. *)
Definition g222 : view cx := VDiagonalOf (VLeft [dy 2; dy 2; dy 2] (map r (seq 0 8))).
Theorem diagonal_of_stride_refuted :
  buildable g222 /\ fits g222 /\ readable g222 /\ m_strided (map_of g222) = true /\
  ~ strided_map (map_of g222).
Proof.
  split; [cbn; lia|split; [cbn; tauto|split; [cbn; tauto|split; [reflexivity|]]]].
  intros (s & Hs & Hc). assert (S1 := Hs 1 ltac:(cbn; lia)). cbn in S1. injection S1 as S1.
  specialize (Hc (at2 0 1)). cbn in Hc. rewrite <- S1 in Hc.
  assert (X : in_extents (map_of g222) (at2 0 1)) by (intros [|[|[|k]]]; cbn; lia).
  specialize (Hc X). lia.
Qed.
Print Assumptions diagonal_of_stride_refuted.

(** * C61, C62 Views read the right element. *)
Section Reading.
Variable V : Type.
Variable zero : V.
Variables conj re : V -> V.
Notation read := (read zero conj re).

(** Any composition of views reads the element its meaning assigns to the index. *)
Theorem view_read_partial :
  forall (v : view V) i n,
  buildable v -> readable v -> in_shape v i -> rank (map_of v) <= n ->
  read v (indices i n) = Some (elem zero conj re v i).
Proof. intros v i n B R H Hn. now apply read_ok. Qed.

(** Adapter by adapter, in terms of reads alone. *)
Theorem to_diagonal_read_partial :
  forall v p i n,
  buildable (VToDiagonal v p) -> readable v -> fits v -> in_shape (VToDiagonal v p) i ->
  rank (map_of v) <= n -> length (to_extents p) <= n ->
  read (VToDiagonal v p) (indices i n) =
  if i 0 =? i 1 then read v (indices (fun k => i (S k)) n) else Some zero.
Proof.
  intros v p i n B R F H Hn Hp. rewrite read_ok; [|exact B|exact (Logic.conj F R)|exact H|exact Hp].
  cbn [elem]. destruct (Nat.eqb_spec (i 0) (i 1)) as [E|E]; [|reflexivity].
  rewrite read_ok; [reflexivity|apply B|exact R|now apply (to_diagonal_in V v p)|exact Hn].
Qed.

Theorem diagonal_of_read_partial :
  forall v i n,
  buildable (VDiagonalOf v) -> readable v -> in_shape (VDiagonalOf v) i ->
  rank (map_of v) <= S n -> rank (map_of (VDiagonalOf v)) <= n ->
  read (VDiagonalOf v) (indices i n) =
  read v (i 0 :: indices i n).
Proof.
  intros v i n B R H Hn Hd. rewrite read_ok; [|exact B|exact R|exact H|exact Hd].
  replace (i 0 :: indices i n) with (indices (diag_index i) (S n)) by now rewrite indices_S.
  rewrite read_ok; [reflexivity|apply B|exact R|now apply diagonal_of_in|exact Hn].
Qed.

(** diagonal_of (to_diagonal v) reads like v. *)
Theorem diagonal_of_to_diagonal_partial :
  forall v p i n,
  buildable (VDiagonalOf (VToDiagonal v p)) -> readable v -> fits v ->
  in_shape v i -> rank (map_of v) <= n ->
  rank (map_of (VDiagonalOf (VToDiagonal v p))) <= n ->
  read (VDiagonalOf (VToDiagonal v p)) (indices i n) = read v (indices i n).
Proof.
  intros v p i n B R F H Hn Hd.
  assert (H' : in_shape (VDiagonalOf (VToDiagonal v p)) i).
  { intro k. destruct B as [B _]. cbn [buildable] in B. destruct B as (_ & Hs & _).
    specialize (H k). rewrite Hs in H. destruct k; exact H. }
  rewrite read_ok; [|exact B|exact (Logic.conj F R)|exact H'|exact Hd].
  cbn [elem Nat.eqb]. rewrite Nat.eqb_refl.
  rewrite read_ok; [|apply B|exact R|exact H|exact Hn].
  reflexivity.
Qed.

Theorem transpose_read_partial :
  forall a b v i n,
  buildable (VTranspose a b v) -> readable v -> in_shape (VTranspose a b v) i ->
  rank (map_of v) <= n -> rank (map_of (VTranspose a b v)) <= n ->
  read (VTranspose a b v) (indices i n) = read v (indices (fun k => i (swap a b k)) n).
Proof.
  intros a b v i n B R H Hn Ht. rewrite read_ok; [|exact B|exact R|exact H|exact Ht].
  rewrite read_ok; [reflexivity|apply B|exact R| |exact Hn].
  intro k. assert (Hk := H (swap a b k)). cbn [shape] in Hk. now rewrite swap_invol in Hk.
Qed.

Theorem transpose_twice_partial :
  forall a b v i n,
  buildable (VTranspose a b (VTranspose a b v)) -> readable v -> in_shape v i ->
  rank (map_of v) <= n -> rank (map_of (VTranspose a b (VTranspose a b v))) <= n ->
  read (VTranspose a b (VTranspose a b v)) (indices i n) = read v (indices i n).
Proof.
  intros a b v i n B R H Hn Ht. rewrite read_ok; [|exact B|exact R| |exact Ht].
  - rewrite read_ok; [|apply B|exact R|exact H|exact Hn].
    cbn [elem]. f_equal. apply elem_ext. intro k. now rewrite swap_invol.
  - intro k. cbn [shape]. rewrite swap_invol. apply H.
Qed.

Theorem triangular_read_partial :
  forall t v i n,
  buildable v -> readable v -> fits v -> in_shape v i -> rank (map_of v) <= n ->
  read (VTriangular t v) (indices i n) =
  if match t with Lower => i 1 <=? i 0 | Upper => i 0 <=? i 1 | Diagonal => i 0 =? i 1 end
  then read v (indices i n) else Some zero.
Proof.
  intros t v i n B R F H Hn. rewrite read_ok; [|exact B|exact (Logic.conj F R)|exact H|exact Hn].
  rewrite (read_ok V zero conj re v) by assumption. cbn [elem].
  destruct t; [destruct (i 1 <=? i 0)|destruct (i 0 <=? i 1)|destruct (i 0 =? i 1)]; reflexivity.
Qed.

(** The value and the symmetry of a hermitian view. *)
Theorem hermitian_read_partial :
  forall t v i n,
  buildable (VHermitian t v) -> readable v -> fits v -> in_shape v i -> rank (map_of v) <= n ->
  read (VHermitian t v) (indices i n) =
  if i 0 =? i 1 then option_map re (read v (indices i n))
  else if match t with Upper => i 0 <? i 1 | _ => i 1 <? i 0 end then read v (indices i n)
  else option_map conj (read v (indices (fun k => i (swap 0 1 k)) n)).
Proof.
  intros t v i n B R F H Hn. rewrite read_ok; [|exact B|exact (Logic.conj F R)|exact H|exact Hn].
  assert (B' := B). destruct B as (Bv & D & Sq).
  rewrite (read_ok V zero conj re v) by assumption.
  rewrite (read_ok V zero conj re v); [|assumption|assumption| |assumption].
  - cbn [elem]. destruct (i 0 =? i 1); [reflexivity|].
    destruct (match t with Upper => i 0 <? i 1 | _ => i 1 <? i 0 end); reflexivity.
  - intro k. destruct k as [|[|k]]; cbn [swap Nat.eqb].
    + rewrite Sq. apply H.
    + rewrite <- Sq. apply H.
    + apply H.
Qed.

Theorem hermitian_symmetric_partial :
  (forall x, conj (conj x) = x) -> (forall x, conj (re x) = re x) ->
  forall t v i n,
  buildable (VHermitian t v) -> readable v -> fits v -> in_shape v i -> rank (map_of v) <= n ->
  read (VHermitian t v) (indices (fun k => i (swap 0 1 k)) n) =
  option_map conj (read (VHermitian t v) (indices i n)).
Proof.
  intros CC CR t v i n B R F H Hn.
  assert (Hs : in_shape v (fun k => i (swap 0 1 k))).
  { destruct B as (Bv & D & Sq). intro k. destruct k as [|[|k]]; cbn [swap Nat.eqb].
    - rewrite Sq. apply H.
    - rewrite <- Sq. apply H.
    - apply H. }
  rewrite !read_ok; try assumption; try exact (Logic.conj F R).
  cbn [option_map]. f_equal. cbn [elem swap Nat.eqb].
  assert (X : elem zero conj re v (fun k => i (swap 0 1 (swap 0 1 k))) = elem zero conj re v i).
  { apply elem_ext. intro k. now rewrite swap_invol. }
  destruct (Nat.eqb_spec (i 0) (i 1)) as [E|E].
  - rewrite E, Nat.eqb_refl. rewrite CR. f_equal. apply elem_ext.
    intros [|[|k]]; cbn [swap Nat.eqb]; auto.
  - rewrite (proj2 (Nat.eqb_neq (i 1) (i 0))) by auto.
    change (elem zero conj re v (fun k => i (swap 0 1 (swap 0 1 k)))) with
           (elem zero conj re v (fun k => (fun k => i (swap 0 1 k)) (swap 0 1 k))) in X.
    cbn beta in X.
    destruct t.
    + destruct (Nat.ltb_spec (i 0) (i 1)), (Nat.ltb_spec (i 1) (i 0)); try lia.
      * rewrite CC. reflexivity.
      * now rewrite X.
    + destruct (Nat.ltb_spec (i 0) (i 1)), (Nat.ltb_spec (i 1) (i 0)); try lia.
      * now rewrite X.
      * rewrite CC. reflexivity.
    + now destruct B as (_ & D & _).
Qed.
End Reading.
Print Assumptions view_read_partial.
Print Assumptions to_diagonal_read_partial.
Print Assumptions diagonal_of_read_partial.
Print Assumptions diagonal_of_to_diagonal_partial.
Print Assumptions transpose_read_partial.
Print Assumptions transpose_twice_partial.
Print Assumptions triangular_read_partial.
Print Assumptions hermitian_read_partial.
Print Assumptions hermitian_symmetric_partial.

Example reading_case :
  in_shape d33 (at2 1 1) /\
  cread h33 [2; 0] = Some (3, -3)%Z /\ cread h33 [0; 2] = Some (3, 3)%Z /\
  cread t33 [2; 0] = Some (3, 3)%Z /\ cread h33 [1; 1] = Some (5, 0)%Z /\
  cread d33 [1; 1] = Some (5, 0)%Z /\ cread d33 [1; 2] = Some cz /\
  cread (VTriangular Lower m33) [2; 1] = Some (8, 8)%Z /\
  cread (VTriangular Lower m33) [1; 2] = Some cz /\
  cread (VDiagonalOf d33) [2] = Some (9, 0)%Z.
Proof.
  split; [apply at2_in; [cbn; lia|cbn; lia|exact beyond33]|]. now repeat split.
Qed.

(** to_hermitian of a diagonal matrix with constant diagonal c reads conj(c) below the
    diagonal instead of zero: the zeros of the diagonal matrix lie outside its span. *)
Definition hid2 : view cx :=
  VHermitian Lower (VToDiagonal (VConstant (2, 3)%Z [st 2]) [st 2; st 2]).
Theorem hermitian_of_constant_diagonal_refuted :
  buildable hid2 /\ in_shape hid2 (at2 1 0) /\
  cread hid2 [1; 0] = Some (2, -3)%Z /\ celem hid2 (at2 1 0) = cz.
Proof.
  split; [|split; [|split; reflexivity]].
  - cbn. repeat split; try lia; try discriminate. intros [|k]; [reflexivity|]. cbn. now destruct k.
  - apply at2_in; [cbn; lia|cbn; lia|]. intros [|k]; cbn; lia.
Qed.
Print Assumptions hermitian_of_constant_diagonal_refuted.

(** A lower-triangular view of a transposed (ranks 0 and 2) lower-triangular view of a
    2 x 3 x 3 array: an element of the array is read where there should be a zero. *)
Definition l233 : view cx :=
  VTriangular Lower (VTranspose 0 2 (VTriangular Lower (VRight [st 2; st 3; st 3] (map r (seq 1 18))))).
Theorem nested_triangle_refuted :
  buildable l233 /\
  exists i j k, i < 3 /\ j < 3 /\ k < 2 /\
    cread l233 [i; j; k] <> Some (celem l233 (at3 i j k)).
Proof.
  split; [cbn; repeat split; try lia; discriminate|].
  exists 2, 2, 0. repeat split; try lia. vm_compute. discriminate.
Qed.
Print Assumptions nested_triangle_refuted.

(** * C63 Packed triangles. *)
Theorem packed_triangle_square :
  forall large n, packs_triangle (packed_call large n n) (packed_span large n n) n n.
Proof. intros [|] n; [now apply large_packs|apply small_packs]. Qed.
Print Assumptions packed_triangle_square.

Theorem packed_triangle_wide_large :
  forall e0 e1, e0 <= e1 ->
  packs_triangle (packed_call true e0 e1) (packed_span true e0 e1) e0 e1.
Proof. intros e0 e1. apply large_packs. Qed.
Print Assumptions packed_triangle_wide_large.

Example packed_case :
  packed_span true 3 3 = 6 /\ packed_call true 3 3 2 1 = 4 /\ packed_call false 3 3 2 1 = 4 /\
  packed_call true 2 4 1 3 = 6 /\ packed_span true 2 4 = 7.
Proof. now repeat split. Qed.

(** Rectangles of the other kinds: two elements share a slot, an element has no slot, and a
    mapping that calls itself unique is not. *)
Theorem packed_triangle_tall_refuted :
  packed_call true 3 2 2 0 = packed_call true 3 2 1 1 /\
  packed_call false 2 4 0 2 = packed_span false 2 4 /\
  packed_unique 1 3 = true /\ packed_call false 1 3 0 1 = packed_call false 1 3 0 2.
Proof. now repeat split. Qed.
Print Assumptions packed_triangle_tall_refuted.

(** * C64 access(offset(p,i),j) = access(p,i+j). *)
Theorem offset_law_partial :
  forall V (zero : V) conj re a p i j q,
  plain a -> offset a p i = Some q ->
  access zero conj re a q j = access zero conj re a p (i + j).
Proof. exact plain_offset. Qed.
Print Assumptions offset_law_partial.

(** Of the partitioned accessors, that of a diagonal matrix keeps the law in its zero partition. *)
Theorem offset_law_zeros_partial :
  forall V (zero : V) conj re a h po i j q,
  offset (AToDiagonal a) (HPartition h po) i = Some q -> po <= i + j ->
  access zero conj re (AToDiagonal a) q j = Some zero /\
  access zero conj re (AToDiagonal a) (HPartition h po) (i + j) = Some zero.
Proof.
  intros V zero conj re a h po i j q E H. cbn [offset access] in *.
  assert (B : (i + j <? po) = false) by now apply Nat.ltb_ge. rewrite B. split; [|reflexivity].
  destruct (Nat.eqb_spec i 0) as [->|_].
  - injection E as <-. cbn [offset access] in *. rewrite Nat.add_0_l in B. now rewrite B.
  - destruct (Nat.leb_spec i po) as [L|_]; [|discriminate]. injection E as <-. cbn [access].
    destruct (Nat.ltb_spec j (po - i)); [lia|reflexivity].
Qed.
Print Assumptions offset_law_zeros_partial.

Example offset_law_zeros_case :
  exists q, offset (AToDiagonal ADefault) (HPartition (HPointer dat 0) 4) 1 = Some q /\
  access cz cconj cre (AToDiagonal ADefault) q 2 <> Some cz /\
  access cz cconj cre (AToDiagonal ADefault) q 3 = Some cz.
Proof. eexists. split; [reflexivity|]. split; [discriminate|reflexivity]. Qed.

Example offset_law_case :
  exists q, offset (AConjugated ADefault) (HPointer dat 1) 3 = Some q /\
  access cz cconj cre (AConjugated ADefault) q 2 = Some (7, -7)%Z.
Proof. eexists. split; reflexivity. Qed.

(** It fails for the three partitioned accessors, already with an offset of one. *)
Theorem offset_law_refuted :
  let h := HPartition (HPointer dat 0) 4 in
  let law a := forall j q, offset a h 1 = Some q ->
                 access cz cconj cre a q j = access cz cconj cre a h (1 + j) in
  ~ law (AToDiagonal ADefault) /\ ~ law (ATriangular ADefault) /\ ~ law (AHermitian ADefault).
Proof.
  cbn zeta. split; [|split]; intro H; specialize (H 0 _ eq_refl); discriminate.
Qed.
Print Assumptions offset_law_refuted.

(** * C76 Equal layout mappings map equal indices to equal offsets. *)
Theorem mapping_equality_refuted :
  let row := layout_right [dy 2; dy 2] in
  let col := layout_left [dy 2; dy 2] in
  mapping_equal (layout_triangle_partition Lower row) (layout_triangle_partition Lower col) = true /\
  m_call (layout_triangle_partition Lower row) [1; 0] <>
  m_call (layout_triangle_partition Lower col) [1; 0] /\
  let wide := layout_stride [dy 2; dy 2] [4; 1] in
  let tight := layout_stride [dy 2; dy 2] [2; 1] in
  mapping_equal (layout_diagonal_of wide [dy 2]) (layout_diagonal_of tight [dy 2]) = true /\
  m_call (layout_diagonal_of wide [dy 2]) [1] <> m_call (layout_diagonal_of tight [dy 2]) [1].
Proof. cbn. repeat split; lia. Qed.
Print Assumptions mapping_equality_refuted.

(** Equality does say that the extents agree, and for the constant layout that is all there
    is. *)
Theorem mapping_equality_partial :
  forall m m', mapping_equal m m' = true <-> forall k, extent m k = extent m' k.
Proof.
  intros m m'. unfold mapping_equal, same_extents, extent. rewrite forallb_forall. split.
  - intros H k. destruct (Nat.lt_ge_cases k (max (length (m_ext m)) (length (m_ext m')))) as [L|L].
    + apply Nat.eqb_eq, H, in_seq. lia.
    + rewrite !dim_at_beyond by lia. reflexivity.
  - intros H k _. apply Nat.eqb_eq, H.
Qed.
Print Assumptions mapping_equality_partial.
