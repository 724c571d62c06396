(** Proofs about the static claims. *)
From Coq Require Import List Arith Bool Lia.
From Verif Require Import StlModel StlSpec StlProofs StlProofs2 StlStatic StlStaticSpec.
Import ListNotations.

Notation st2 := (Forall2 same_static).
Lemma static_1_same e f : same_static e f -> static_1 e = static_1 f.
Proof.
  intros [A B]. unfold static_1. destruct (fixed e) eqn:E; rewrite <- A; [| reflexivity]. now rewrite B.
Qed.
Lemma static_1_dim e : static_1 e = true -> dim e = 1.
Proof. unfold static_1. intros H. apply andb_prop in H as [_ H]. now apply Nat.eqb_eq. Qed.
Lemma static_le1_same e f : same_static e f -> static_le1 e = true -> dim f <= 1.
Proof.
  intros [A B] H. unfold static_le1 in H. apply andb_prop in H as [H1 H2]. rewrite <- (B H1). now apply Nat.leb_le.
Qed.
Lemma ones_same e f : st2 e f -> ones e = ones f.
Proof.
  intros [|e0 f0 e' f' H [|e1 f1 e'' f'' H1 H2]]; [reflexivity | now apply static_1_same |].
  cbn [ones]. now rewrite (static_1_same e0 f0), (static_1_same e1 f1).
Qed.
Lemma to_extents_same p q : st2 p q -> st2 (to_extents p) (to_extents q).
Proof.
  induction 1 as [|e f p q H Hp IH]; [constructor |]. cbn [to_extents].
  inversion IH as [E1 E2|e1 f1 p1 q1 H1 H2 E1 E2].
  - pose proof (static_1_same e f H) as S. unfold static_1 in S. rewrite S. destruct (fixed f && (dim f =? 1)); repeat constructor; apply H.
  - constructor; [exact H |]. now constructor.
Qed.
Lemma get_pattern_same p q k : st2 p q -> same_static (get_pattern p k) (get_pattern q k).
Proof.
  intros H. revert k. induction H as [|e f p q He Hp IH]; intros [|k]; unfold get_pattern; cbn [nth]; try (now split); [exact He |]. apply IH.
Qed.
Lemma diagonal_same p q : st2 p q -> st2 (pat_diagonal_of p) (pat_diagonal_of q).
Proof.
  assert (S : forall a b c d, same_static a b -> same_static c d ->
    same_static (Ext (if dim a <=? dim c then dim a else dim c) (fixed a && fixed c)) (Ext (if dim b <=? dim d then dim b else dim d) (fixed b && fixed d))).
  { intros a b c d [A1 A2] [B1 B2]. split; cbn [fixed dim]; [now rewrite A1, B1 |]. intros F. apply andb_prop in F as [F1 F2]. now rewrite A2, B2. }
  intros [|e0 f0 e' f' H [|e1 f1 e'' f'' H1 H2]]; cbn [pat_diagonal_of]; [constructor | |]; constructor.
  - apply (S e0 f0 (Ext 1 true) (Ext 1 true)); [exact H | now split].
  - constructor.
  - now apply S.
  - exact H2.
Qed.
Lemma same_length p q : st2 p q -> length p = length q.
Proof. induction 1; cbn; congruence. Qed.
Lemma transpose_same a b p q : st2 p q -> st2 (pat_transpose a b p) (pat_transpose a b q).
Proof.
  intros H. unfold pat_transpose. rewrite (same_length p q H). induction (seq 0 (Nat.max (length q) (b + 1))) as [|k l IH]; constructor; [| exact IH].
  now apply get_pattern_same.
Qed.

Section Views.
Context {V : Type}.
Lemma ext_same (v : view V) : forall w, same_type v w -> st2 (m_ext (map_of v)) (m_ext (map_of w)).
Proof.
  induction v; intros w H; destruct w; try contradiction; cbn [same_type] in H; try exact H.
  - now apply to_extents_same.
  - now apply to_extents_same.
  - apply to_extents_same, diagonal_same. now apply IHv.
  - first [exact (IHv w (proj2 H)) | exact (IHv w (proj2 H) A)].
  - first [exact (IHv w (proj2 H)) | exact (IHv w (proj2 H) A)].
  - destruct H as (-> & -> & H). specialize (IHv w H).
    change (st2 (m_ext (if (b0 =? 1) && (rank (map_of v) =? 2) then std_layout_transpose (map_of v)
               else layout_transpose a0 b0 (map_of v) (to_extents (pat_transpose a0 b0 (m_ext (map_of v))))))
      (m_ext (if (b0 =? 1) && (rank (map_of w) =? 2) then std_layout_transpose (map_of w)
               else layout_transpose a0 b0 (map_of w) (to_extents (pat_transpose a0 b0 (m_ext (map_of w))))))).
    unfold rank. rewrite (same_length _ _ IHv). destruct ((b0 =? 1) && (length (m_ext (map_of w)) =? 2)).
    + cbn [std_layout_transpose m_ext]. repeat constructor; apply (get_pattern_same _ _ _ IHv).
    + cbn [layout_transpose m_ext]. now apply to_extents_same, transpose_same.
  - exact (IHv w H).
Qed.

Lemma transpose_claims a b (v : view V) : m_unique (map_of (VTranspose a b v)) = m_unique (map_of v) /\
  m_exhaustive (map_of (VTranspose a b v)) = m_exhaustive (map_of v) /\ m_strided (map_of (VTranspose a b v)) = m_strided (map_of v).
Proof.
  unfold map_of. cbn [get_mdspan md_map]. destruct ((b =? 1) && (rank (md_map (get_mdspan v)) =? 2)); repeat split.
Qed.

Theorem unique_static (v : view V) : forall w, same_type v w -> always_unique v = true -> m_unique (map_of w) = true.
Proof.
  induction v; intros w H A; destruct w; try contradiction; cbn [same_type always_unique] in H, A; try reflexivity; try discriminate.
  - destruct H as [H P]. apply andb_prop in A as [A1 A2]. specialize (IHv w H A1).
    change (m_unique (map_of w) && match to_extents p0 with [] => true | [e0] => dim e0 <=? 2
       | e0 :: e1 :: _ => (dim e0 <=? 2) && (dim e1 <=? 2) && ((dim e0 <=? 1) || (dim e1 <=? 1)) end = true).
    rewrite IHv. rewrite (ones_same _ _ (to_extents_same _ _ P)) in A2. destruct (to_extents p0) as [|e0 [|e1 q]]; [reflexivity | |]; cbn [ones] in A2.
    + now rewrite (static_1_dim e0 A2).
    + apply andb_prop in A2 as [A2 A3]. now rewrite (static_1_dim e0 A2), (static_1_dim e1 A3).
  - exact (IHv w H A).
  - first [exact (IHv w (proj2 H)) | exact (IHv w (proj2 H) A)].
  - first [exact (IHv w (proj2 H)) | exact (IHv w (proj2 H) A)].
  - destruct H as (-> & -> & H). rewrite (proj1 (transpose_claims a0 b0 w)). exact (IHv w H A).
  - exact (IHv w H A).
Qed.
Theorem strided_static (v : view V) : forall w, same_type v w -> always_strided v = true -> m_strided (map_of w) = true.
Proof.
  induction v; intros w H A; destruct w; try contradiction; cbn [same_type always_strided] in H, A; try reflexivity; try discriminate.
  - exact (IHv w H A).
  - first [exact (IHv w (proj2 H)) | exact (IHv w (proj2 H) A)].
  - first [exact (IHv w (proj2 H)) | exact (IHv w (proj2 H) A)].
  - destruct H as (-> & -> & H). rewrite (proj2 (proj2 (transpose_claims a0 b0 w))). exact (IHv w H A).
  - exact (IHv w H A).
Qed.
Lemma triangle_static (v w : view V) t : st2 (m_ext (map_of v)) (m_ext (map_of w)) -> m_exhaustive (map_of w) = true ->
  match m_ext (map_of v) with
  | e0 :: e1 :: _ => Some (static_le1 e0 && static_le1 e1)
  | [e0] => if static_le1 e0 then None else Some false
  | [] => None
  end = Some true -> m_exhaustive (layout_triangle_partition t (map_of w)) = true.
Proof.
  intros E X H. cbn [layout_triangle_partition m_exhaustive]. rewrite X. unfold extent, dim_at, get_pattern.
  destruct E as [|e0 f0 e' f' H0 [|e1 f1 e'' f'' H1 H2]]; try discriminate.
  - destruct (static_le1 e0); discriminate.
  - injection H as H. apply andb_prop in H as [A B]. cbn [nth].
    rewrite (proj2 (Nat.leb_le _ _) (static_le1_same _ _ H0 A)), (proj2 (Nat.leb_le _ _) (static_le1_same _ _ H1 B)). reflexivity.
Qed.
Theorem exhaustive_static (v : view V) : forall w, same_type v w -> always_exhaustive v = Some true -> m_exhaustive (map_of w) = true.
Proof.
  induction v; intros w H A; destruct w; try contradiction; cbn [same_type always_exhaustive] in H, A; try reflexivity; try discriminate.
  - exact (IHv w (proj1 H) A).
  - destruct (always_exhaustive v) as [x|] eqn:E; [| discriminate]. cbn [option_map] in A. injection A as A. apply andb_prop in A as [-> A].
    specialize (IHv w H eq_refl).
    change (m_exhaustive (map_of w) && match m_ext (map_of w) with [] => true | [e0] => dim e0 =? 1
       | e0 :: e1 :: _ => (dim e0 =? 1) && (dim e1 =? 1) end = true).
    rewrite IHv. rewrite (ones_same _ _ (ext_same v w H)) in A. destruct (m_ext (map_of w)) as [|e0 [|e1 q]]; [reflexivity | |]; cbn [ones] in A.
    + now rewrite (static_1_dim e0 A).
    + apply andb_prop in A as [A2 A3]. now rewrite (static_1_dim e0 A2), (static_1_dim e1 A3).
  - destruct H as [-> H]. destruct (always_exhaustive v) as [[|]|] eqn:E; try discriminate.
    apply (triangle_static v w); [now apply ext_same | now apply IHv | exact A].
  - destruct H as [-> H]. destruct (always_exhaustive v) as [[|]|] eqn:E; try discriminate.
    apply (triangle_static v w); [now apply ext_same | now apply IHv | exact A].
  - exact (IHv w H A).
Qed.

Lemma same_refl (v : view V) : same_type v v.
Proof.
  assert (R : forall p, st2 p p) by (induction p as [|e p IH]; constructor; [now split | exact IH]).
  induction v; cbn [same_type]; auto.
Qed.
Lemma to_diagonal_static (v : view V) p : buildable (VToDiagonal v p) -> ones (to_extents p) = true ->
  injective_map (map_of v) -> injective_map (map_of (VToDiagonal v p)).
Proof.
  intros B O I i j Hi Hj E. apply extents_in_shape in Hi, Hj; try exact B.
  rewrite !to_diagonal_call in E by assumption.
  assert (D : dim_at p 0 = 1 /\ dim_at p 1 = 1).
  { rewrite <- (to_extents_dim p 0), <- (to_extents_dim p 1). unfold dim_at, get_pattern.
    destruct (to_extents p) as [|e0 [|e1 q]]; [now split | |]; cbn [ones] in O; cbn [nth].
    - split; [now apply static_1_dim | reflexivity].
    - apply andb_prop in O as [O1 O2]. split; now apply static_1_dim. }
  destruct D as [D0 D1]. assert (Z : forall h, in_shape (VToDiagonal v p) h -> h 0 = 0 /\ h 1 = 0).
  { intros h H. pose proof (H 0) as H0. pose proof (H 1) as H1. cbn [shape] in H0, H1. lia. }
  destruct (Z i Hi) as [I0 I1]. destruct (Z j Hj) as [J0 J1]. rewrite I0, I1, J0, J1 in E. cbn [Nat.eqb] in E.
  assert (Bv := proj1 B).
  assert (X := I _ _ (in_shape_extents V v _ Bv (to_diagonal_in V v p i B Hi ltac:(congruence)))
                     (in_shape_extents V v _ Bv (to_diagonal_in V v p j B Hj ltac:(congruence))) E).
  intros [|k]; [congruence |]. exact (X k).
Qed.
Theorem unique_static_sound (zero : V) (v : view V) : buildable v -> fits v -> readable v -> strides_ok v ->
  always_unique v = true -> injective_map (map_of v).
Proof.
  induction v; intros B Rh R Sd U; cbn [buildable fits readable strides_ok always_unique] in B, Rh, R, Sd, U.
  - apply left_injective.
  - apply right_injective.
  - now apply stride_injective.
  - discriminate.
  - apply andb_prop in U as [U1 U2]. apply to_diagonal_static; [exact B | exact U2 |]. apply IHv; [apply B | apply R | apply R | exact Sd | exact U1].
  - destruct B as [Bv Br]. intros i j Hi Hj E.
    apply extents_in_shape in Hi, Hj; try (split; assumption).
    rewrite !diagonal_of_call in E by (try (split; assumption); assumption).
    assert (I : injective_map (map_of v)) by (apply IHv; assumption).
    assert (X := I _ _ (in_shape_extents V v _ Bv (diagonal_of_in V v i Hi))
                      (in_shape_extents V v _ Bv (diagonal_of_in V v j Hj)) E).
    intro k. exact (X (S k)).
  - apply (triangle_unique V zero); [exact B|apply R|apply R|apply Rh|]. apply IHv; [exact B|apply R|apply R|exact Sd|exact U].
  - apply (triangle_unique V zero); [apply B|apply R|apply R| |].
    + apply square_short. apply B.
    + apply IHv; [apply B|apply R|apply R|exact Sd|exact U].
  - destruct B as [Bv Br]. intros i j Hi Hj E.
    apply extents_in_shape in Hi, Hj; try (split; assumption).
    rewrite !transpose_call in E by (try (split; assumption); assumption).
    assert (I : injective_map (map_of v)) by (apply IHv; assumption).
    assert (T : forall h, in_shape (VTranspose a b v) h -> in_shape v (fun k => h (swap a b k))).
    { intros h Hh k. assert (Hk := Hh (swap a b k)). cbn [shape] in Hk. now rewrite swap_invol in Hk. }
    assert (X := I _ _ (in_shape_extents V v _ Bv (T i Hi)) (in_shape_extents V v _ Bv (T j Hj)) E).
    intro k. specialize (X (swap a b k)). cbn beta in X. now rewrite swap_invol in X.
  - now apply IHv.
Qed.
Lemma unique_same (v : view V) : forall w, same_type v w -> always_unique v = always_unique w.
Proof.
  induction v; intros w H; destruct w; try contradiction; cbn [same_type always_unique] in *; try reflexivity; try (now apply IHv); try (apply IHv; apply H).
  destruct H as [H P]. rewrite (IHv w H), (ones_same _ _ (to_extents_same _ _ P)). reflexivity.
Qed.
End Views.
