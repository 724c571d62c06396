(** Proofs about the view model: every view reads the element its specification names. *)
From Coq Require Import List Arith Bool Lia.
From Verif Require Import StlModel StlSpec.
Import ListNotations.

(** ** Index lists and sums *)

Lemma indices_S i n : indices i (S n) = i 0 :: indices (fun k => i (S k)) n.
Proof.
  unfold indices. cbn [seq map]. f_equal.
  rewrite <- seq_shift, map_map. reflexivity.
Qed.

Lemma indices_length i n : length (indices i n) = n.
Proof. unfold indices. now rewrite map_length, seq_length. Qed.

Lemma indices_ext i j n : (forall k, k < n -> i k = j k) -> indices i n = indices j n.
Proof.
  intro H. unfold indices. apply map_ext_in. intros k Hk. apply in_seq in Hk. apply H. lia.
Qed.

Lemma indices_nth i n k d : k < n -> nth k (indices i n) d = i k.
Proof.
  intro H. unfold indices.
  rewrite nth_indep with (d' := i 0) by now rewrite map_length, seq_length.
  rewrite map_nth, seq_nth; auto.
Qed.

Lemma indices_firstn i n m : m <= n -> firstn m (indices i n) = indices i m.
Proof.
  revert i n. induction m as [|m IH]; intros i n H; [reflexivity|].
  destruct n as [|n]; [lia|]. rewrite !indices_S. cbn [firstn]. f_equal. apply IH. lia.
Qed.

Lemma indices_app i n m : indices i (n + m) = indices i n ++ indices (fun k => i (n + k)) m.
Proof.
  revert i. induction n as [|n IH]; intro i; [reflexivity|].
  cbn [plus]. rewrite !indices_S, IH. reflexivity.
Qed.

Lemma indices_zero i n : (forall k, k < n -> i k = 0) -> indices i n = repeat 0 n.
Proof.
  revert i. induction n as [|n IH]; intros i H; [reflexivity|].
  rewrite indices_S, H by lia. cbn [repeat]. f_equal. apply IH. intros k Hk. apply H. lia.
Qed.

Lemma pad_indices r i n :
  n <= r -> (forall k, n <= k -> i k = 0) -> pad r (indices i n) = indices i r.
Proof.
  intros Hn Hz. unfold pad. rewrite indices_length.
  replace r with (n + (r - n)) at 2 by lia. rewrite indices_app.
  rewrite (indices_zero (fun k => i (n + k))); [reflexivity|]. intros k Hk. apply Hz. lia.
Qed.

Lemma sum_over_S n f : sum_over (S n) f = f 0 + sum_over n (fun k => f (S k)).
Proof.
  unfold sum_over. cbn [seq map list_sum fold_right].
  rewrite <- seq_shift, map_map. reflexivity.
Qed.

Lemma sum_over_ext n f g : (forall k, k < n -> f k = g k) -> sum_over n f = sum_over n g.
Proof.
  intro H. unfold sum_over. f_equal. apply map_ext_in. intros k Hk. apply in_seq in Hk.
  apply H. lia.
Qed.

Lemma sum_over_mult n f c : sum_over n (fun k => c * f k) = c * sum_over n f.
Proof.
  revert f. induction n as [|n IH]; intro f; [cbn; lia|].
  rewrite !sum_over_S. rewrite (IH (fun k => f (S k))). lia.
Qed.

(** ** Dense layouts *)

Lemma col_major_cons n e i : col_major (n :: e) i = i 0 + n * col_major e (fun k => i (S k)).
Proof.
  unfold col_major. cbn [length]. rewrite sum_over_S. cbn [firstn prod fold_right].
  rewrite <- sum_over_mult. rewrite (sum_over_ext _ _ (fun k => n * (i (S k) * prod (firstn k e)))).
  - lia.
  - intros k _. cbn [firstn]. unfold prod. cbn [fold_right]. lia.
Qed.

Lemma row_major_cons n e i : row_major (n :: e) i = i 0 * prod e + row_major e (fun k => i (S k)).
Proof. unfold row_major. cbn [length]. rewrite sum_over_S. reflexivity. Qed.

Lemma left_call_eq e i : left_call e (indices i (length e)) = col_major e i.
Proof.
  revert i. induction e as [|n e IH]; intro i; [reflexivity|].
  cbn [length]. rewrite indices_S. cbn [left_call]. rewrite IH, col_major_cons. lia.
Qed.

Lemma right_call_from_eq e i o :
  right_call_from o e (indices i (length e)) = o * prod e + row_major e i.
Proof.
  revert i o. induction e as [|n e IH]; intros i o.
  - cbn. lia.
  - cbn [length]. rewrite indices_S. cbn [right_call_from]. rewrite IH, row_major_cons.
    unfold prod. cbn [fold_right]. fold (prod e). nia.
Qed.

Lemma right_call_eq e i : right_call e (indices i (length e)) = row_major e i.
Proof.
  destruct e as [|n e]; [reflexivity|].
  cbn [length]. rewrite indices_S. cbn [right_call].
  rewrite right_call_from_eq, row_major_cons. reflexivity.
Qed.

Lemma strided_cons a s i : strided_at (a :: s) i = i 0 * a + strided_at s (fun k => i (S k)).
Proof. unfold strided_at. cbn [length]. rewrite sum_over_S. reflexivity. Qed.

Lemma dot_eq s i : dot s (indices i (length s)) = strided_at s i.
Proof.
  revert i. induction s as [|a s IH]; intro i; [reflexivity|].
  cbn [length]. rewrite indices_S. cbn [dot]. rewrite IH, strided_cons. reflexivity.
Qed.

Lemma prod_cons n e : prod (n :: e) = n * prod e.
Proof. reflexivity. Qed.

Lemma col_major_lt e i : (forall k, k < length e -> i k < nth k e 0) -> col_major e i < prod e.
Proof.
  revert i. induction e as [|n e IH]; intros i H; [cbn; lia|].
  rewrite col_major_cons, prod_cons.
  assert (H0 := H 0 ltac:(cbn; lia)). cbn in H0.
  assert (IHe := IH (fun k => i (S k)) ltac:(intros k Hk; apply (H (S k)); cbn; lia)).
  nia.
Qed.

Lemma row_major_lt e i : (forall k, k < length e -> i k < nth k e 0) -> row_major e i < prod e.
Proof.
  revert i. induction e as [|n e IH]; intros i H; [cbn; lia|].
  rewrite row_major_cons, prod_cons.
  assert (H0 := H 0 ltac:(cbn; lia)). cbn in H0.
  assert (IHe := IH (fun k => i (S k)) ltac:(intros k Hk; apply (H (S k)); cbn; lia)).
  nia.
Qed.

Lemma strided_le e s i :
  length s = length e ->
  (forall k, k < length e -> i k < nth k e 0) -> strided_at s i <= dot s (map pred e).
Proof.
  revert s i. induction e as [|n e IH]; intros [|a s] i Hl H; try discriminate; [cbn; lia|].
  rewrite strided_cons. cbn [map dot].
  assert (H0 := H 0 ltac:(cbn; lia)). cbn in H0.
  assert (IHe := IH s (fun k => i (S k)) ltac:(cbn in Hl; lia)
                   ltac:(intros k Hk; apply (H (S k)); cbn; lia)).
  assert (i 0 * a <= pred n * a) by (apply Nat.mul_le_mono_r; lia). lia.
Qed.

Lemma existsb_zero e i :
  (forall k, k < length e -> i k < nth k e 0) -> existsb (fun n => n =? 0) e = false.
Proof.
  revert i. induction e as [|n e IH]; intros i H; [reflexivity|].
  cbn [existsb]. assert (H0 := H 0 ltac:(cbn; lia)). cbn in H0.
  rewrite (proj2 (Nat.eqb_neq n 0)) by lia. cbn [orb].
  apply (IH (fun k => i (S k))). intros k Hk. apply (H (S k)). cbn. lia.
Qed.

Lemma strided_lt e s i :
  length s = length e ->
  (forall k, k < length e -> i k < nth k e 0) -> strided_at s i < stride_span e s.
Proof.
  intros Hl H. unfold stride_span. rewrite (existsb_zero e i H).
  pose proof (strided_le e s i Hl H). lia.
Qed.

(** ** Extents *)

Lemma dim_at_nil k : dim_at [] k = 1.
Proof. destruct k; reflexivity. Qed.

Lemma to_extents_dim p k : dim_at (to_extents p) k = dim_at p k.
Proof.
  revert k. induction p as [|e p IH]; intro k; [reflexivity|].
  cbn [to_extents]. destruct (to_extents p) as [|f q] eqn:E.
  - destruct (fixed e && (dim e =? 1)) eqn:F.
    + apply andb_prop in F as [_ F]. apply Nat.eqb_eq in F.
      rewrite dim_at_nil. destruct k as [|k]; [symmetry; exact F|].
      cbn. unfold dim_at, get_pattern in IH |- *. cbn [nth]. rewrite <- IH. now destruct k.
    + destruct k as [|k]; [reflexivity|].
      specialize (IH k). unfold dim_at, get_pattern in *. cbn [nth]. rewrite <- IH. now destruct k.
  - destruct k as [|k]; [reflexivity|].
    specialize (IH k). unfold dim_at, get_pattern in *. cbn [nth]. exact IH.
Qed.

Lemma dim_at_beyond p k : length p <= k -> dim_at p k = 1.
Proof. intro H. unfold dim_at, get_pattern. now rewrite nth_overflow. Qed.

Lemma dims_nth e k : k < length e -> nth k (dims e) 0 = dim_at e k.
Proof.
  intro H. unfold dims, dim_at, get_pattern.
  rewrite nth_indep with (d' := dim (Ext 1 true)) by now rewrite map_length.
  now rewrite map_nth.
Qed.

Lemma swap_index_eq a b k : swap_index a b k = swap a b k.
Proof. reflexivity. Qed.

Lemma swap_invol a b k : swap a b (swap a b k) = k.
Proof.
  unfold swap. destruct (Nat.eqb_spec k a) as [->|H1].
  - destruct (Nat.eqb_spec b a); [congruence|]. now rewrite Nat.eqb_refl.
  - destruct (Nat.eqb_spec k b) as [->|H2].
    + now rewrite Nat.eqb_refl.
    + apply Nat.eqb_neq in H1, H2. now rewrite H1, H2.
Qed.

Lemma pat_transpose_dim a b p k : a < b -> dim_at (pat_transpose a b p) k = dim_at p (swap a b k).
Proof.
  intro Hab. unfold pat_transpose.
  destruct (Nat.lt_ge_cases k (max (length p) (b + 1))) as [H|H].
  - unfold dim_at at 1, get_pattern at 1.
    rewrite nth_indep with (d' := get_pattern p (swap_index a b 0))
      by now rewrite map_length, seq_length.
    rewrite (map_nth (fun k => get_pattern p (swap_index a b k))), seq_nth by lia.
    reflexivity.
  - rewrite dim_at_beyond by now rewrite map_length, seq_length.
    rewrite dim_at_beyond; [reflexivity|]. unfold swap.
    destruct (Nat.eqb_spec k a), (Nat.eqb_spec k b); lia.
Qed.

Lemma pat_diagonal_of_dim p k :
  dim_at (pat_diagonal_of p) k =
  match k with 0 => Nat.min (dim_at p 0) (dim_at p 1) | S k' => dim_at p (S (S k')) end.
Proof.
  assert (M : forall x y, (if x <=? y then x else y) = Nat.min x y).
  { intros x y. destruct (Nat.leb_spec x y); lia. }
  destruct p as [|e0 [|e1 p]]; cbn [pat_diagonal_of].
  - destruct k; reflexivity.
  - destruct k as [|k].
    + cbn. apply (M (dim e0) 1).
    + rewrite !dim_at_beyond by (cbn; lia). reflexivity.
  - destruct k as [|k]; [|reflexivity]. cbn [dim_at get_pattern nth dim]. apply M.
Qed.

Lemma rank_beyond m k : rank m <= k -> extent m k = 1.
Proof. apply dim_at_beyond. Qed.

Section Views.
Variable V : Type.
Variable zero : V.
Variables conj re : V -> V.

Notation elem := (elem zero conj re).
Notation read := (read zero conj re).
Notation access := (access zero conj re).

Lemma shape_extent (v : view V) k : buildable v -> extent (map_of v) k = shape v k.
Proof.
  revert k. induction v; intros k B; cbn [buildable] in B; unfold extent, map_of;
    cbn [get_mdspan md_map layout_left layout_right layout_stride layout_constant
         layout_to_diagonal layout_diagonal_of layout_triangle_partition m_ext shape].
  - reflexivity.
  - reflexivity.
  - reflexivity.
  - apply to_extents_dim.
  - apply to_extents_dim.
  - destruct B as [B _]. rewrite to_extents_dim, pat_diagonal_of_dim.
    change (dim_at (m_ext (md_map (get_mdspan v)))) with (extent (map_of v)).
    destruct k; now rewrite ?IHv.
  - apply IHv, B.
  - apply IHv, B.
  - destruct B as (B & Hab & Hc).
    destruct ((b =? 1) && (rank (md_map (get_mdspan v)) =? 2)) eqn:E.
    + apply andb_prop in E as [E1 E2]. apply Nat.eqb_eq in E1, E2. subst b.
      assert (a = 0) by lia. subst a. cbn [std_layout_transpose m_ext].
      rewrite <- IHv by assumption. unfold extent, map_of.
      destruct k as [|[|k]]; [reflexivity|reflexivity|].
      rewrite dim_at_beyond by (cbn; lia). unfold swap. cbn [Nat.eqb].
      rewrite dim_at_beyond; [reflexivity|]. unfold rank in E2. lia.
    + cbn [layout_transpose m_ext]. rewrite to_extents_dim, pat_transpose_dim by assumption.
      now apply IHv.
  - apply IHv, B.
Qed.

Lemma in_shape_extents (v : view V) i : buildable v -> in_shape v i -> in_extents (map_of v) i.
Proof. intros B H k. rewrite shape_extent; auto. Qed.

Lemma beyond_rank (v : view V) i k :
  buildable v -> in_shape v i -> rank (map_of v) <= k -> i k = 0.
Proof.
  intros B H Hk. specialize (H k). rewrite <- shape_extent in H by assumption.
  rewrite rank_beyond in H by assumption. lia.
Qed.

Lemma elem_ext (v : view V) i j : (forall k, i k = j k) -> elem v i = elem v j.
Proof.
  revert i j. induction v; intros i j H; cbn [StlSpec.elem].
  - f_equal. apply sum_over_ext. intros k _. now rewrite H.
  - f_equal. apply sum_over_ext. intros k _. now rewrite H.
  - f_equal. apply sum_over_ext. intros k _. now rewrite H.
  - reflexivity.
  - rewrite !H. destruct (j 0 =? j 1); [|reflexivity]. apply IHv. intro k. apply H.
  - apply IHv. intros [|k]; apply H.
  - destruct t; rewrite !H; [destruct (j 1 <=? j 0)|destruct (j 0 <=? j 1)|destruct (j 0 =? j 1)];
      auto.
  - rewrite !H. destruct (j 0 =? j 1); [f_equal; auto|].
    rewrite (IHv i j H).
    rewrite (IHv (fun k => i (swap 0 1 k)) (fun k => j (swap 0 1 k))); [reflexivity|].
    intro k. apply H.
  - apply IHv. intro k. apply H.
  - f_equal. auto.
Qed.

(** ** Transposed index packs *)

Lemma transposed_indices_eq a b r n i :
  a < b -> (forall k, n <= k -> i k = 0) -> (forall k, r <= k -> i (swap a b k) = 0) ->
  transposed_indices a b r (indices i n) = indices (fun k => i (swap a b k)) r.
Proof.
  intros Hab Hn Hr. unfold transposed_indices.
  set (N := max n r).
  assert (E : pad r (indices i n) = indices i N).
  { unfold N. destruct (Nat.le_ge_cases n r).
    - rewrite Nat.max_r by assumption. now apply pad_indices.
    - rewrite Nat.max_l by assumption. unfold pad. rewrite indices_length.
      replace (r - n) with 0 by lia. cbn [repeat]. apply app_nil_r. }
  rewrite E, indices_length. unfold indices at 2. apply map_ext_in. intros k Hk.
  apply in_seq in Hk. assert (k < r) by lia.
  assert (r <= N) by (unfold N; lia). assert (n <= N) by (unfold N; lia).
  unfold swap. destruct (Nat.eqb_spec k a).
  - destruct (Nat.ltb_spec b N); cbn [andb].
    + now rewrite indices_nth.
    + destruct (Nat.eqb_spec k b); [lia|]. cbn [andb]. rewrite indices_nth by lia.
      rewrite (Hn b) by lia. specialize (Hr b ltac:(lia)). unfold swap in Hr.
      rewrite Nat.eqb_refl in Hr. destruct (Nat.eqb_spec b a); [lia|]. subst k. exact Hr.
  - cbn [andb]. destruct (Nat.eqb_spec k b).
    + destruct (Nat.ltb_spec a N); [|lia]. cbn [andb]. now rewrite indices_nth by lia.
    + cbn [andb]. now rewrite indices_nth by lia.
Qed.

(** ** The main induction *)

Definition reads_at (v : view V) (i : nat -> nat) : Prop :=
  access (md_acc (get_mdspan v)) (md_handle (get_mdspan v))
    (m_call (map_of v) (indices i (rank (map_of v)))) = Some (elem v i).

Definition spans_at (v : view V) (i : nat -> nat) : Prop :=
  m_call (map_of v) (indices i (rank (map_of v))) < m_span (map_of v).

Lemma dense_in e i : (forall k, i k < dim_at e k) -> forall k, k < length (dims e) -> i k < nth k (dims e) 0.
Proof.
  intros H k Hk. unfold dims in Hk. rewrite map_length in Hk. rewrite dims_nth by assumption. apply H.
Qed.

Lemma nth_error_nth_some (d : list V) k : k < length d -> nth_error d k = Some (nth k d zero).
Proof. apply nth_error_nth'. Qed.

Lemma dims_length e : length (dims e) = length e.
Proof. apply map_length. Qed.

Definition good (v : view V) : Prop :=
  forall i, in_shape v i -> reads_at v i /\ (fits v -> spans_at v i).

Lemma good_left e d : prod (dims e) <= length d -> good (VLeft e d).
Proof.
  intros B i H. assert (H' := dense_in e i H).
  unfold reads_at, spans_at, map_of, rank. cbn [get_mdspan md_map md_acc md_handle layout_left m_call m_ext m_span].
  rewrite <- (dims_length e), left_call_eq.
  assert (L := col_major_lt (dims e) i H'). split; [|auto].
  cbn. apply nth_error_nth_some. lia.
Qed.

Lemma good_right e d : prod (dims e) <= length d -> good (VRight e d).
Proof.
  intros B i H. assert (H' := dense_in e i H).
  unfold reads_at, spans_at, map_of, rank. cbn [get_mdspan md_map md_acc md_handle layout_right m_call m_ext m_span].
  rewrite <- (dims_length e), right_call_eq.
  assert (L := row_major_lt (dims e) i H'). split; [|auto].
  cbn. apply nth_error_nth_some. lia.
Qed.

Lemma good_stride e s d :
  length s = length e -> stride_span (dims e) s <= length d -> good (VStride e s d).
Proof.
  intros Ls B i H. assert (H' := dense_in e i H).
  unfold reads_at, spans_at, map_of, rank. cbn [get_mdspan md_map md_acc md_handle layout_stride m_call m_ext m_span].
  rewrite <- Ls, dot_eq.
  assert (L := strided_lt (dims e) s i ltac:(rewrite dims_length; exact Ls) H'). split; [|auto].
  cbn. apply nth_error_nth_some. lia.
Qed.

Lemma good_constant c e : good (VConstant c e).
Proof.
  intros i H. split; [reflexivity|]. intros _.
  unfold spans_at, map_of. cbn [get_mdspan md_map layout_constant m_call m_span].
  assert (H' : forall k, k < length (dims (to_extents e)) -> i k < nth k (dims (to_extents e)) 0).
  { apply dense_in. intro k. rewrite to_extents_dim. apply H. }
  rewrite (existsb_zero _ i H'). lia.
Qed.

Lemma to_diagonal_call (v : view V) p i :
  buildable (VToDiagonal v p) -> in_shape (VToDiagonal v p) i ->
  m_call (map_of (VToDiagonal v p)) (indices i (rank (map_of (VToDiagonal v p)))) =
  if i 0 =? i 1 then m_call (map_of v) (indices (fun k => i (S k)) (rank (map_of v)))
  else m_span (map_of v).
Proof.
  intros B H. cbn [buildable] in B. destruct B as (B & Hs & Hr).
  assert (Hz : forall k, length (to_extents p) <= k -> i k = 0).
  { intros k Hk. specialize (H k). cbn [shape] in H. rewrite <- to_extents_dim in H.
    rewrite dim_at_beyond in H by assumption. lia. }
  set (j := fun k => i (S k)).
  unfold rank at 1. unfold map_of. cbn [get_mdspan md_map layout_to_diagonal m_call m_ext].
  fold (map_of v). unfold padded.
  destruct (length (to_extents p)) as [|[|n]] eqn:E.
  - cbn [indices seq map]. rewrite (Hz 0), (Hz 1) by lia. cbn [Nat.eqb].
    f_equal. apply (pad_indices (rank (map_of v)) j 0); [lia|]. intros k _. apply Hz. lia.
  - cbn [indices seq map]. rewrite (Hz 1) by lia. destruct (i 0 =? 0); [|reflexivity].
    f_equal. apply (pad_indices (rank (map_of v)) j 0); [lia|]. intros k _. apply Hz. lia.
  - rewrite indices_S, indices_S. destruct (Nat.eqb_spec (i 0) (i 1)); [|reflexivity].
    f_equal. rewrite <- (indices_S (fun k => i (S k)) n).
    apply pad_indices; [lia|]. intros k Hk. apply Hz. lia.
Qed.

Lemma to_diagonal_in (v : view V) p i :
  buildable (VToDiagonal v p) -> in_shape (VToDiagonal v p) i -> i 0 = i 1 ->
  in_shape v (fun k => i (S k)).
Proof.
  intros B H E k. cbn [buildable] in B. destruct B as (B & Hs & Hr). rewrite Hs. destruct k as [|k].
  - assert (H0 := H 0). assert (H1 := H 1). cbn [shape] in H0, H1. lia.
  - apply (H (S (S k))).
Qed.

Definition diag_index (i : nat -> nat) (k : nat) : nat := match k with 0 => i 0 | S k' => i k' end.

Lemma diagonal_of_in (v : view V) i : in_shape (VDiagonalOf v) i -> in_shape v (diag_index i).
Proof.
  intros H k. destruct k as [|[|k]]; cbn [diag_index].
  - assert (H0 := H 0). cbn [shape] in H0. lia.
  - assert (H0 := H 0). cbn [shape] in H0. lia.
  - apply (H (S k)).
Qed.

Lemma diagonal_of_call (v : view V) i :
  buildable (VDiagonalOf v) -> in_shape (VDiagonalOf v) i ->
  m_call (map_of (VDiagonalOf v)) (indices i (rank (map_of (VDiagonalOf v)))) =
  m_call (map_of v) (indices (diag_index i) (rank (map_of v))).
Proof.
  intros B0 H. assert (B := B0). cbn [buildable] in B. destruct B as (B & Hr).
  set (e := to_extents (pat_diagonal_of (m_ext (map_of v)))) in *. cbn zeta in Hr.
  assert (Hz : forall k, length e <= k -> i k = 0).
  { intros k Hk. apply (beyond_rank (VDiagonalOf v) i k B0 H). exact Hk. }
  unfold rank at 1. unfold map_of. cbn [get_mdspan md_map layout_diagonal_of m_call m_ext].
  fold (map_of v). fold e. unfold padded.
  destruct (length e) as [|n] eqn:E.
  - cbn [indices seq map]. f_equal.
    apply (pad_indices (rank (map_of v)) (diag_index i) 0); [lia|].
    intros [|k] _; cbn [diag_index]; apply Hz; lia.
  - rewrite indices_S. f_equal.
    replace (i 0 :: i 0 :: indices (fun k => i (S k)) n) with (indices (diag_index i) (S (S n))).
    + apply pad_indices; [lia|]. intros [|k] Hk; cbn [diag_index]; apply Hz; lia.
    + rewrite !indices_S. reflexivity.
Qed.

Lemma good_to_diagonal v p :
  buildable (VToDiagonal v p) -> fits v -> good v -> good (VToDiagonal v p).
Proof.
  intros B0 R G i H. assert (C := to_diagonal_call v p i B0 H).
  assert (Hj := to_diagonal_in v p i B0 H).
  unfold reads_at, spans_at. rewrite C. split.
  - cbn [get_mdspan md_acc md_handle StlModel.access StlSpec.elem].
    destruct (Nat.eqb_spec (i 0) (i 1)) as [E|E].
    + destruct (G _ (Hj E)) as [Gr Gs]. specialize (Gs R). unfold spans_at in Gs.
      fold (map_of v). rewrite (proj2 (Nat.ltb_lt _ _) Gs). exact Gr.
    + fold (map_of v). rewrite Nat.ltb_irrefl. reflexivity.
  - intro RH. cbn [fits] in RH. destruct RH as [_ RH].
    change (m_span (map_of (VToDiagonal v p))) with
      (if m_span (map_of v) <=? 1 then m_span (map_of v) else m_span (map_of v) + 1).
    destruct (Nat.eqb_spec (i 0) (i 1)) as [E|E].
    + destruct (G _ (Hj E)) as [_ Gs]. specialize (Gs R). unfold spans_at in Gs.
      destruct (m_span (map_of v) <=? 1); lia.
    + assert (H0 := H 0). assert (H1 := H 1). cbn [shape] in H0, H1.
      destruct RH as [RH|RH]; [|lia].
      destruct (Nat.leb_spec (m_span (map_of v)) 1); lia.
Qed.

Lemma good_diagonal_of v :
  buildable (VDiagonalOf v) -> good v -> good (VDiagonalOf v).
Proof.
  intros B0 G i H. assert (C := diagonal_of_call v i B0 H).
  destruct (G _ (diagonal_of_in v i H)) as [Gr Gs]. split.
  - unfold reads_at. rewrite C. exact Gr.
  - intro R. unfold spans_at. rewrite C. exact (Gs R).
Qed.

(** The two offsets of the triangle partition. *)
Lemma triangle_call t (m : mapping) i :
  in_extents m i ->
  m_call (layout_triangle_partition t m) (indices i (rank m)) =
  if i 0 =? i 1 then m_call m (indices i (rank m))
  else if match t with Lower => i 1 <? i 0 | Upper => i 0 <? i 1 | Diagonal => false end
  then m_call m (indices i (rank m)) + m_span m
  else if match t with Diagonal => true | _ => rank m <=? 1 end
  then m_call m (indices i (rank m)) + 2 * m_span m
  else m_call m (indices (fun k => i (swap 0 1 k)) (rank m)) + 2 * m_span m.
Proof.
  intro H. assert (Hz : forall k, rank m <= k -> i k = 0).
  { intros k Hk. specialize (H k). rewrite rank_beyond in H by assumption. lia. }
  cbn [layout_triangle_partition m_call].
  destruct (rank m) as [|[|n]] eqn:E.
  - cbn [indices seq map]. rewrite (Hz 0), (Hz 1) by lia. reflexivity.
  - cbn [indices seq map]. rewrite (Hz 1) by lia.
    destruct (Nat.eqb_spec (i 0) 0); [reflexivity|].
    destruct t; cbn [Nat.leb].
    + rewrite (proj2 (Nat.ltb_lt 0 (i 0))) by lia. reflexivity.
    + rewrite (proj2 (Nat.ltb_ge (i 0) 0)) by lia. reflexivity.
    + reflexivity.
  - rewrite !indices_S. cbn [swap Nat.eqb].
    destruct (Nat.eqb_spec (i 0) (i 1)) as [Eq|Ne].
    + now rewrite Eq.
    + destruct t; cbn [Nat.leb]; [destruct (i 1 <? i 0)|destruct (i 0 <? i 1)|]; reflexivity.
Qed.

Lemma triangle_rank t m : rank (layout_triangle_partition t m) = rank m.
Proof. reflexivity. Qed.

(** Third partition stays inside the nested span when the nested view is not too long. *)
Definition short_side (t : tri) (v : view V) : Prop :=
  rank (map_of v) <= 1 \/
  match t with Lower => shape v 1 <= shape v 0 | Upper => shape v 0 <= shape v 1 | Diagonal => True end.

Lemma swapped_in_shape t v i :
  short_side t v -> in_shape v i -> i 0 <> i 1 -> t <> Diagonal -> ~ rank (map_of v) <= 1 ->
  (match t with Lower => i 1 <? i 0 | Upper => i 0 <? i 1 | Diagonal => false end) = false ->
  in_shape v (fun k => i (swap 0 1 k)).
Proof.
  intros S H Ne D R F k. destruct S as [S|S]; [contradiction|].
  assert (H0 := H 0). assert (H1 := H 1). specialize (H k). unfold swap.
  destruct t; [apply Nat.ltb_ge in F|apply Nat.ltb_ge in F|contradiction];
    destruct k as [|[|k]]; cbn [Nat.eqb]; lia.
Qed.

Lemma partition_spans t v i :
  short_side t v -> fits v -> buildable v -> good v -> in_shape v i ->
  m_call (layout_triangle_partition t (map_of v)) (indices i (rank (map_of v))) <
  m_span (layout_triangle_partition t (map_of v)).
Proof.
  intros S R B G H. rewrite triangle_call by now apply in_shape_extents.
  cbn [layout_triangle_partition m_span].
  destruct (G i H) as [_ Gs]. specialize (Gs R). unfold spans_at in Gs.
  destruct (Nat.eqb_spec (i 0) (i 1)) as [Eq|Ne]; [lia|].
  destruct (match t with Lower => _ | Upper => _ | Diagonal => _ end) eqn:F; [lia|].
  destruct (match t with Diagonal => true | _ => rank (map_of v) <=? 1 end) eqn:F2; [lia|].
  assert (D : t <> Diagonal) by (destruct t; discriminate).
  assert (R1 : ~ rank (map_of v) <= 1).
  { destruct t; try discriminate; apply Nat.leb_gt in F2; lia. }
  destruct (G _ (swapped_in_shape t v i S H Ne D R1 F)) as [_ Gs2].
  specialize (Gs2 R). unfold spans_at in Gs2. lia.
Qed.

Lemma good_triangular t v :
  buildable v -> fits v -> good v -> good (VTriangular t v).
Proof.
  intros B R G i H. change (in_shape v i) in H. split.
  - unfold reads_at. cbn [get_mdspan md_acc md_handle].
    change (map_of (VTriangular t v)) with (layout_triangle_partition t (map_of v)).
    rewrite triangle_rank, triangle_call by now apply in_shape_extents.
    destruct (G i H) as [Gr Gs]. specialize (Gs R). unfold spans_at in Gs. unfold reads_at in Gr.
    change (md_map (get_mdspan v)) with (map_of v).
    set (c := m_call (map_of v) (indices i (rank (map_of v)))) in *.
    set (S := m_span (map_of v)) in *.
    assert (Zero : forall x, 2 * S <= x ->
      access (ATriangular (md_acc (get_mdspan v))) (HPartition (md_handle (get_mdspan v)) S) x = Some zero).
    { intros x Hx. cbn [StlModel.access]. rewrite (proj2 (Nat.ltb_ge x S)) by lia.
      rewrite (proj2 (Nat.ltb_ge (x - S) S)) by lia. reflexivity. }
    assert (Mid :
      access (ATriangular (md_acc (get_mdspan v))) (HPartition (md_handle (get_mdspan v)) S) (c + S) =
      Some (elem v i)).
    { cbn [StlModel.access]. rewrite (proj2 (Nat.ltb_ge (c + S) S)) by lia.
      replace (c + S - S) with c by lia. rewrite (proj2 (Nat.ltb_lt c S) Gs). exact Gr. }
    destruct (Nat.eqb_spec (i 0) (i 1)) as [Eq|Ne].
    + cbn [StlModel.access]. rewrite (proj2 (Nat.ltb_lt c S) Gs), Gr. cbn [StlSpec.elem].
      rewrite Eq. destruct t; rewrite ?Nat.leb_refl, ?Nat.eqb_refl; reflexivity.
    + destruct t.
      * destruct (Nat.ltb_spec (i 1) (i 0)).
        -- rewrite Mid. cbn [StlSpec.elem]. now rewrite (proj2 (Nat.leb_le (i 1) (i 0))) by lia.
        -- cbn [StlSpec.elem]. rewrite (proj2 (Nat.leb_gt (i 1) (i 0))) by lia.
           destruct (rank (map_of v) <=? 1); apply Zero; lia.
      * destruct (Nat.ltb_spec (i 0) (i 1)).
        -- rewrite Mid. cbn [StlSpec.elem]. now rewrite (proj2 (Nat.leb_le (i 0) (i 1))) by lia.
        -- cbn [StlSpec.elem]. rewrite (proj2 (Nat.leb_gt (i 0) (i 1))) by lia.
           destruct (rank (map_of v) <=? 1); apply Zero; lia.
      * cbn [StlSpec.elem]. rewrite (proj2 (Nat.eqb_neq _ _) Ne). apply Zero. lia.
  - intro RH. unfold spans_at.
    change (map_of (VTriangular t v)) with (layout_triangle_partition t (map_of v)).
    rewrite triangle_rank.
    apply partition_spans; auto. apply RH.
Qed.

Lemma square_short t v : shape v 0 = shape v 1 -> short_side t v.
Proof. intro E. right. destruct t; auto; lia. Qed.

Lemma good_hermitian t v :
  buildable (VHermitian t v) -> fits v -> good v -> good (VHermitian t v).
Proof.
  intros B0 R G i H. cbn [buildable] in B0. destruct B0 as (B & D & Sq).
  change (in_shape v i) in H. split.
  - unfold reads_at. cbn [get_mdspan md_acc md_handle].
    change (map_of (VHermitian t v)) with (layout_triangle_partition t (map_of v)).
    change (md_map (get_mdspan v)) with (map_of v).
    rewrite triangle_rank, triangle_call by now apply in_shape_extents.
    destruct (G i H) as [Gr Gs]. specialize (Gs R). unfold spans_at in Gs. unfold reads_at in Gr.
    set (c := m_call (map_of v) (indices i (rank (map_of v)))) in *.
    cbn [StlModel.access].
    destruct (Nat.eqb_spec (i 0) (i 1)) as [Eq|Ne].
    + set (S := m_span (map_of v)) in *.
      rewrite (proj2 (Nat.ltb_lt c S) Gs), Gr. cbn [StlSpec.elem option_map].
      rewrite Eq, Nat.eqb_refl. reflexivity.
    + cbn [StlSpec.elem]. rewrite (proj2 (Nat.eqb_neq _ _) Ne).
      destruct (match t with Lower => i 1 <? i 0 | Upper => i 0 <? i 1 | Diagonal => false end) eqn:F.
      * assert (F' : (match t with Upper => i 0 <? i 1 | _ => i 1 <? i 0 end) = true)
          by (destruct t; [exact F|exact F|contradiction]).
        rewrite F'. set (S := m_span (map_of v)) in *.
        rewrite (proj2 (Nat.ltb_ge (c + S) S)) by lia. cbn zeta.
        replace (c + S - S) with c by lia. rewrite (proj2 (Nat.ltb_lt c S) Gs). exact Gr.
      * assert (F' : (match t with Upper => i 0 <? i 1 | _ => i 1 <? i 0 end) = false)
          by (destruct t; [exact F|exact F|contradiction]).
        rewrite F'.
        assert (R1 : ~ rank (map_of v) <= 1).
        { intro R1. apply Ne. rewrite (beyond_rank v i 1 B H R1).
          assert (H0 := H 0). assert (H1 := H 1). rewrite <- Sq in H1.
          assert (S1 : shape v 1 = 1) by (rewrite <- shape_extent by assumption; now apply rank_beyond).
          lia. }
        replace (match t with Diagonal => true | _ => rank (map_of v) <=? 1 end) with false.
        2:{ destruct t; [symmetry; apply Nat.leb_gt; lia|symmetry; apply Nat.leb_gt; lia|contradiction]. }
        assert (Hs := swapped_in_shape t v i (square_short t v Sq) H Ne D R1 F).
        destruct (G _ Hs) as [Gr2 Gs2]. specialize (Gs2 R). unfold spans_at in Gs2. unfold reads_at in Gr2.
        set (c2 := m_call (map_of v) (indices (fun k => i (swap 0 1 k)) (rank (map_of v)))) in *.
        set (S := m_span (map_of v)) in *.
        rewrite (proj2 (Nat.ltb_ge (c2 + 2 * S) S)) by lia. cbn zeta.
        rewrite (proj2 (Nat.ltb_ge (c2 + 2 * S - S) S)) by lia.
        replace (c2 + 2 * S - S - S) with c2 by lia. rewrite Gr2. reflexivity.
  - intros _. unfold spans_at.
    change (map_of (VHermitian t v)) with (layout_triangle_partition t (map_of v)).
    rewrite triangle_rank.
    apply partition_spans; auto. now apply square_short.
Qed.

Lemma transpose_call a b (v : view V) i :
  buildable (VTranspose a b v) -> in_shape (VTranspose a b v) i ->
  m_call (map_of (VTranspose a b v)) (indices i (rank (map_of (VTranspose a b v)))) =
  m_call (map_of v) (indices (fun k => i (swap a b k)) (rank (map_of v))).
Proof.
  intros B0 H. assert (B := B0). cbn [buildable] in B. destruct B as (B & Hab & Hc).
  unfold map_of. cbn [get_mdspan md_map]. fold (map_of v).
  destruct ((b =? 1) && (rank (map_of v) =? 2)) eqn:E.
  - apply andb_prop in E as [E1 E2]. apply Nat.eqb_eq in E1, E2. subst b.
    assert (a = 0) by lia. subst a. unfold rank. cbn [std_layout_transpose m_ext m_call length].
    unfold rank in E2. rewrite E2. reflexivity.
  - cbn [layout_transpose m_call]. f_equal. apply transposed_indices_eq; [assumption| |].
    + intros k Hk. apply (beyond_rank (VTranspose a b v) i k B0 H).
      unfold map_of. cbn [get_mdspan md_map]. fold (map_of v). rewrite E. exact Hk.
    + intros k Hk. assert (Hk' := H (swap a b k)). cbn [shape] in Hk'. rewrite swap_invol in Hk'.
      rewrite <- shape_extent in Hk' by assumption. rewrite rank_beyond in Hk' by assumption. lia.
Qed.

Lemma good_transpose a b v :
  buildable (VTranspose a b v) -> good v -> good (VTranspose a b v).
Proof.
  intros B0 G i H. assert (C := transpose_call a b v i B0 H).
  assert (Hj : in_shape v (fun k => i (swap a b k))).
  { intro k. assert (Hk := H (swap a b k)). cbn [shape] in Hk. now rewrite swap_invol in Hk. }
  destruct (G _ Hj) as [Gr Gs]. split.
  - unfold reads_at. rewrite C. exact Gr.
  - intro R. unfold spans_at. rewrite C. specialize (Gs R). unfold spans_at in Gs.
    change (m_span (map_of (VTranspose a b v))) with
      (m_span (if (b =? 1) && (rank (map_of v) =? 2) then std_layout_transpose (map_of v)
               else layout_transpose a b (map_of v) (to_extents (pat_transpose a b (m_ext (map_of v)))))).
    destruct ((b =? 1) && (rank (map_of v) =? 2)); exact Gs.
Qed.

Lemma good_conjugate v : good v -> good (VConjugate v).
Proof.
  intros G i H. destruct (G i H) as [Gr Gs]. split.
  - unfold reads_at in *. unfold map_of in *. cbn [get_mdspan md_map md_acc md_handle StlModel.access].
    cbn [StlSpec.elem]. rewrite Gr. reflexivity.
  - intro R. exact (Gs R).
Qed.

Theorem views_good (v : view V) : buildable v -> readable v -> good v.
Proof.
  induction v; intros B R; cbn [buildable readable] in *.
  - now apply good_left.
  - now apply good_right.
  - now apply good_stride.
  - apply good_constant.
  - apply good_to_diagonal; [exact B|apply R|]. apply IHv; [apply B|apply R].
  - apply good_diagonal_of; [exact B|]. apply IHv; [apply B|apply R].
  - apply good_triangular; [exact B|apply R|]. apply IHv; [apply B|apply R].
  - apply good_hermitian; [exact B|apply R|]. apply IHv; [apply B|apply R].
  - apply good_transpose; [exact B|]. apply IHv; [apply B|apply R].
  - apply good_conjugate. apply IHv; [apply B|apply R].
Qed.

Theorem read_ok (v : view V) i n :
  buildable v -> readable v -> in_shape v i -> rank (map_of v) <= n ->
  read v (indices i n) = Some (elem v i).
Proof.
  intros B R H Hn. unfold StlModel.read. fold (map_of v). rewrite indices_firstn by assumption.
  now apply views_good.
Qed.

End Views.
