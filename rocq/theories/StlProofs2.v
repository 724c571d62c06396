(** Proofs about the claims layout mappings make: uniqueness, exhaustiveness, strides. *)
From Coq Require Import List Arith Bool Lia Permutation.
From Verif Require Import StlModel StlSpec StlProofs.
Import ListNotations.

Lemma digit n i j a b : i < n -> j < n -> i + n * a = j + n * b -> i = j /\ a = b.
Proof.
  intros Hi Hj E. assert (a = b); [|lia].
  destruct (Nat.lt_trichotomy a b) as [H|[H|H]]; [exfalso|exact H|exfalso].
  - assert (n * S a <= n * b) by (apply Nat.mul_le_mono_l; lia). lia.
  - assert (n * S b <= n * a) by (apply Nat.mul_le_mono_l; lia). lia.
Qed.

(** ** Dense layouts are one-to-one *)

Lemma col_major_inj e i j :
  (forall k, k < length e -> i k < nth k e 0) -> (forall k, k < length e -> j k < nth k e 0) ->
  col_major e i = col_major e j -> forall k, k < length e -> i k = j k.
Proof.
  revert i j. induction e as [|n e IH]; intros i j Hi Hj E k Hk; [cbn in Hk; lia|].
  rewrite !col_major_cons in E.
  assert (Hi0 := Hi 0 ltac:(cbn; lia)). assert (Hj0 := Hj 0 ltac:(cbn; lia)). cbn in Hi0, Hj0.
  set (a := col_major e (fun k => i (S k))) in *. set (b := col_major e (fun k => j (S k))) in *.
  assert (Q : i 0 = j 0 /\ a = b) by (apply (digit n); lia).
  destruct Q as [Q1 Q2]. destruct k as [|k]; [exact Q1|].
  apply (IH (fun k => i (S k)) (fun k => j (S k))); [| |exact Q2|cbn in Hk; lia].
  - intros q Hq. apply (Hi (S q)). cbn. lia.
  - intros q Hq. apply (Hj (S q)). cbn. lia.
Qed.

Lemma row_major_inj e i j :
  (forall k, k < length e -> i k < nth k e 0) -> (forall k, k < length e -> j k < nth k e 0) ->
  row_major e i = row_major e j -> forall k, k < length e -> i k = j k.
Proof.
  revert i j. induction e as [|n e IH]; intros i j Hi Hj E k Hk; [cbn in Hk; lia|].
  rewrite !row_major_cons in E.
  assert (Hi' : forall k, k < length e -> i (S k) < nth k e 0)
    by (intros q Hq; apply (Hi (S q)); cbn; lia).
  assert (Hj' : forall k, k < length e -> j (S k) < nth k e 0)
    by (intros q Hq; apply (Hj (S q)); cbn; lia).
  assert (A := row_major_lt e (fun k => i (S k)) Hi').
  assert (B := row_major_lt e (fun k => j (S k)) Hj').
  set (a := row_major e (fun k => i (S k))) in *. set (b := row_major e (fun k => j (S k))) in *.
  assert (Q : a = b /\ i 0 = j 0) by (apply (digit (prod e)); lia).
  destruct Q as [Q2 Q1]. destruct k as [|k]; [exact Q1|].
  apply (IH (fun k => i (S k)) (fun k => j (S k))); auto. cbn in Hk; lia.
Qed.

(** Strided layouts, under the precondition of the standard. *)

Lemma list_sum_perm l l' : Permutation l l' -> list_sum l = list_sum l'.
Proof.
  induction 1; cbn in *; unfold list_sum in *; lia.
Qed.

Definition osum (s : list nat) (i : nat -> nat) (l : list nat) : nat :=
  list_sum (map (fun k => i k * nth k s 0) l).

Lemma osum_app s i l l' : osum s i (l ++ l') = osum s i l + osum s i l'.
Proof. unfold osum. now rewrite map_app, list_sum_app. Qed.

Definition chained (e s l : list nat) : Prop :=
  forall pre a b post, l = pre ++ a :: b :: post -> nth a s 0 * nth a e 0 <= nth b s 0.

Lemma chained_prefix e s l b : chained e s (l ++ [b]) -> chained e s l.
Proof.
  intros H pre a b' post E. apply (H pre a b' (post ++ [b])). rewrite E.
  now rewrite <- app_assoc.
Qed.

Lemma osum_lt e s i l b :
  chained e s (l ++ [b]) ->
  (forall k, In k (l ++ [b]) -> 0 < nth k s 0) ->
  (forall k, In k l -> i k < nth k e 0) -> osum s i l < nth b s 0.
Proof.
  revert b. induction l as [|a l IH] using rev_ind; intros b C P H.
  - cbn. apply P. cbn. auto.
  - rewrite osum_app. cbn. unfold list_sum. cbn [fold_right].
    assert (C' := chained_prefix _ _ _ _ C).
    assert (A : osum s i l < nth a s 0).
    { apply IH; [exact C'| |].
      - intros k Hk. apply P. apply in_or_app. now left.
      - intros k Hk. apply H. apply in_or_app. now left. }
    assert (B : nth a s 0 * nth a e 0 <= nth b s 0).
    { apply (C l a b []). rewrite <- app_assoc. reflexivity. }
    assert (Ia : i a < nth a e 0) by (apply H; apply in_or_app; right; cbn; auto).
    unfold osum, list_sum in A. unfold osum, list_sum. nia.
Qed.

Lemma osum_inj e s i j l :
  chained e s l -> (forall k, In k l -> 0 < nth k s 0) ->
  (forall k, In k l -> i k < nth k e 0) -> (forall k, In k l -> j k < nth k e 0) ->
  osum s i l = osum s j l -> forall k, In k l -> i k = j k.
Proof.
  induction l as [|b l IH] using rev_ind; intros C P Hi Hj E k Hk; [contradiction|].
  rewrite !osum_app in E. cbn in E. unfold list_sum in E. cbn [fold_right] in E.
  assert (L : forall q, In q l -> In q (l ++ [b])) by (intros q Hq; apply in_or_app; auto).
  assert (A := osum_lt e s i l b C P (fun q Hq => Hi q (L q Hq))).
  assert (B := osum_lt e s j l b C P (fun q Hq => Hj q (L q Hq))).
  assert (Q : i b = j b /\ osum s i l = osum s j l).
  { apply and_comm, (digit (nth b s 0)); [exact A|exact B|]. unfold osum, list_sum in *. lia. }
  destruct Q as [Q1 Q2]. apply in_app_or in Hk as [Hk|[<-|[]]]; [|exact Q1].
  apply (IH (chained_prefix _ _ _ _ C)); auto.
Qed.

Lemma strided_osum s i order n :
  length s = n -> (forall k, In k order <-> k < n) -> NoDup order ->
  strided_at s i = osum s i order.
Proof.
  intros L O N. unfold strided_at, sum_over, osum. rewrite L.
  apply list_sum_perm, Permutation_map, NoDup_Permutation; [apply seq_NoDup|exact N|].
  intro k. rewrite O, in_seq. lia.
Qed.

Lemma strided_inj e s i j :
  stride_precondition e s ->
  (forall k, k < length e -> i k < nth k e 0) -> (forall k, k < length e -> j k < nth k e 0) ->
  strided_at s i = strided_at s j -> forall k, k < length e -> i k = j k.
Proof.
  intros (L & order & O & N & P & C) Hi Hj E k Hk.
  rewrite !(strided_osum s _ order (length e) L O N) in E.
  apply (osum_inj e s i j order C); [| | |exact E|now apply O].
  - intros q Hq. apply P. now apply O.
  - intros q Hq. apply Hi. now apply O.
  - intros q Hq. apply Hj. now apply O.
Qed.

(** ** Pigeonhole: a one-to-one mapping into a span of the size of the index set is onto *)

Fixpoint all_idx (e : list nat) : list (list nat) :=
  match e with
  | [] => [[]]
  | n :: e' => flat_map (fun i => map (cons i) (all_idx e')) (seq 0 n)
  end.

Lemma all_idx_length e : length (all_idx e) = prod e.
Proof.
  induction e as [|n e IH]; [reflexivity|]. cbn [all_idx]. rewrite prod_cons, <- IH.
  generalize (seq_length n 0). generalize (seq 0 n). intros l. revert n.
  induction l as [|a l IHl]; intros n Hl; cbn in *; subst n; [reflexivity|].
  rewrite app_length, map_length, (IHl (length l) eq_refl). lia.
Qed.

Lemma all_idx_in e l :
  In l (all_idx e) <-> length l = length e /\ forall k, k < length e -> nth k l 0 < nth k e 0.
Proof.
  revert l. induction e as [|n e IH]; intro l; cbn [all_idx].
  - split.
    + intros [<-|[]]. split; [reflexivity|]. cbn. lia.
    + intros [H _]. left. destruct l; [reflexivity|discriminate].
  - rewrite in_flat_map. split.
    + intros (i & Hi & Hl). apply in_seq in Hi. apply in_map_iff in Hl as (l' & <- & Hl').
      apply IH in Hl' as [Hlen Hk]. split; [cbn; lia|]. intros [|k] H; cbn; [lia|].
      apply Hk. cbn in H. lia.
    + intros [Hlen Hk]. destruct l as [|i l]; [discriminate|]. exists i. split.
      * apply in_seq. specialize (Hk 0 ltac:(cbn; lia)). cbn in Hk. lia.
      * apply in_map. apply IH. split; [cbn in Hlen; lia|].
        intros k H. apply (Hk (S k)). cbn. lia.
Qed.

Lemma NoDup_flat_cons (l : list nat) (L : list (list nat)) :
  NoDup l -> NoDup L -> NoDup (flat_map (fun i => map (cons i) L) l).
Proof.
  intros Nl NL. induction Nl as [|a l Ha Nl IH]; [constructor|]. cbn [flat_map].
  assert (N1 : NoDup (map (cons a) L)).
  { apply FinFun.Injective_map_NoDup; [|exact NL]. intros x y E. now injection E. }
  assert (D : forall x, In x (map (cons a) L) -> ~ In x (flat_map (fun i => map (cons i) L) l)).
  { intros x Hx Hx'. apply in_map_iff in Hx as (y & <- & _).
    apply in_flat_map in Hx' as (b & Hb & Hy). apply in_map_iff in Hy as (z & E & _).
    injection E as -> _. contradiction. }
  revert D N1. generalize (map (cons a) L) as M. intros M D NM.
  induction NM as [|x M Hx NM IHM]; [exact IH|]. cbn [app]. constructor.
  - intro H. apply in_app_or in H as [H|H]; [contradiction|]. apply (D x); [now left|exact H].
  - apply IHM. intros y Hy. apply D. now right.
Qed.

Lemma all_idx_NoDup e : NoDup (all_idx e).
Proof.
  induction e as [|n e IH]; [repeat constructor; intros []|]. cbn [all_idx].
  apply NoDup_flat_cons; [apply seq_NoDup|exact IH].
Qed.

Lemma list_indices l n : length l = n -> indices (fun k => nth k l 0) n = l.
Proof.
  intros <-. induction l as [|a l IH]; [reflexivity|]. cbn [length]. rewrite indices_S.
  cbn [nth]. f_equal. exact IH.
Qed.

Lemma list_in_extents m l : In l (all_idx (dims (m_ext m))) -> in_extents m (fun k => nth k l 0).
Proof.
  intros H k. apply all_idx_in in H as [Hl Hk]. rewrite dims_length in *.
  destruct (Nat.lt_ge_cases k (length (m_ext m))) as [H|H].
  - unfold extent. rewrite <- dims_nth by assumption. now apply Hk.
  - rewrite rank_beyond by assumption. rewrite nth_overflow by lia. lia.
Qed.

Lemma pigeon m :
  injective_map m ->
  (forall i, in_extents m i -> m_call m (indices i (rank m)) < m_span m) ->
  m_span m = prod (dims (m_ext m)) -> onto_span m.
Proof.
  intros I B E o Ho.
  set (L := all_idx (dims (m_ext m))).
  assert (Len : forall l, In l L -> length l = rank m).
  { intros l Hl. apply all_idx_in in Hl as [Hl _]. now rewrite dims_length in Hl. }
  assert (N : NoDup (map (m_call m) L)).
  { assert (NL : NoDup L) by apply all_idx_NoDup.
    assert (Sub : forall l, In l L -> In l L) by auto.
    revert NL Sub. generalize L at 1 2 4 as M. intros M NM.
    induction NM as [|x M Hx NM IHM]; intro Sub; [constructor|]. cbn [map]. constructor.
    - intro H. apply in_map_iff in H as (y & Exy & Hy). apply Hx.
      replace x with y; [exact Hy|].
      assert (Sx : In x L) by (apply Sub; now left). assert (Sy : In y L) by (apply Sub; now right).
      assert (K : forall k, nth k y 0 = nth k x 0).
      { apply (I (fun k => nth k y 0) (fun k => nth k x 0)).
        - now apply list_in_extents.
        - now apply list_in_extents.
        - rewrite !list_indices by now apply Len. exact Exy. }
      apply nth_ext with (d := 0) (d' := 0); [now rewrite !Len|]. intros k _. apply K.
    - apply IHM. intros l Hl. apply Sub. now right. }
  assert (Inc : incl (map (m_call m) L) (seq 0 (m_span m))).
  { intros x Hx. apply in_map_iff in Hx as (l & <- & Hl). apply in_seq.
    rewrite <- (list_indices l (rank m)) by now apply Len.
    split; [lia|]. cbn [plus]. apply B. now apply list_in_extents. }
  assert (Inc2 : incl (seq 0 (m_span m)) (map (m_call m) L)).
  { apply (NoDup_length_incl N); [|exact Inc]. rewrite map_length, seq_length; unfold L; rewrite all_idx_length, E; apply le_n. }
  assert (Ho' : In o (map (m_call m) L)) by (apply Inc2, in_seq; lia).
  apply in_map_iff in Ho' as (l & El & Hl).
  exists (fun k => nth k l 0). split; [now apply list_in_extents|].
  rewrite list_indices by now apply Len. exact El.
Qed.

Lemma in_extents_dims m i : in_extents m i -> forall k, k < length (dims (m_ext m)) -> i k < nth k (dims (m_ext m)) 0.
Proof. intro H. apply (dense_in (m_ext m) i). exact H. Qed.

Lemma inj_from m (f : list nat -> (nat -> nat) -> nat) :
  (forall i, m_call m (indices i (rank m)) = f (dims (m_ext m)) i) ->
  (forall i j,
     (forall k, k < length (dims (m_ext m)) -> i k < nth k (dims (m_ext m)) 0) ->
     (forall k, k < length (dims (m_ext m)) -> j k < nth k (dims (m_ext m)) 0) ->
     f (dims (m_ext m)) i = f (dims (m_ext m)) j -> forall k, k < length (dims (m_ext m)) -> i k = j k) ->
  injective_map m.
Proof.
  intros C I i j Hi Hj E k. rewrite !C in E.
  destruct (Nat.lt_ge_cases k (length (m_ext m))) as [H|H].
  - apply (I i j); [now apply in_extents_dims|now apply in_extents_dims|exact E|now rewrite dims_length].
  - specialize (Hi k). specialize (Hj k). rewrite rank_beyond in Hi, Hj by assumption. lia.
Qed.

Lemma left_injective e : injective_map (layout_left e).
Proof.
  apply inj_from with (f := col_major).
  - intro i. unfold rank. cbn [layout_left m_ext m_call]. rewrite <- (dims_length e). apply left_call_eq.
  - intros i j. apply col_major_inj.
Qed.

Lemma right_injective e : injective_map (layout_right e).
Proof.
  apply inj_from with (f := row_major).
  - intro i. unfold rank. cbn [layout_right m_ext m_call]. rewrite <- (dims_length e). apply right_call_eq.
  - intros i j. apply row_major_inj.
Qed.

Lemma stride_injective e s : stride_precondition (dims e) s -> injective_map (layout_stride e s).
Proof.
  intro P. assert (L := proj1 P). rewrite dims_length in L.
  apply inj_from with (f := fun _ i => strided_at s i).
  - intro i. unfold rank. cbn [layout_stride m_ext m_call]. rewrite <- L. apply dot_eq.
  - intros i j. cbn [layout_stride m_ext]. apply strided_inj. exact P.
Qed.

Lemma left_onto e : onto_span (layout_left e).
Proof.
  apply pigeon; [apply left_injective| |reflexivity].
  intros i H. unfold rank. cbn [layout_left m_ext m_call m_span]. rewrite <- (dims_length e), left_call_eq.
  apply col_major_lt. now apply (in_extents_dims (layout_left e)).
Qed.

Lemma right_onto e : onto_span (layout_right e).
Proof.
  apply pigeon; [apply right_injective| |reflexivity].
  intros i H. unfold rank. cbn [layout_right m_ext m_call m_span]. rewrite <- (dims_length e), right_call_eq.
  apply row_major_lt. now apply (in_extents_dims (layout_right e)).
Qed.

Lemma stride_onto e s :
  stride_precondition (dims e) s -> m_exhaustive (layout_stride e s) = true ->
  onto_span (layout_stride e s).
Proof.
  intros P X. assert (L := proj1 P).
  apply pigeon; [now apply stride_injective| |].
  - intros i H. unfold rank. cbn [layout_stride m_ext m_call m_span].
    rewrite <- (dims_length e), <- L, dot_eq. apply strided_lt; [exact L|].
    now apply (in_extents_dims (layout_stride e s)).
  - cbn [layout_stride m_exhaustive m_span m_ext] in *. now apply Nat.eqb_eq.
Qed.

(** ** Claims of views *)
Section Views.
Variable V : Type.
Variable zero : V.

Lemma extents_in_shape (v : view V) i : buildable v -> in_extents (map_of v) i -> in_shape v i.
Proof. intros B H k. rewrite <- shape_extent; auto. Qed.

(** Spans: values play no role. *)
Lemma spans (v : view V) i :
  buildable v -> readable v -> fits v -> in_shape v i ->
  m_call (map_of v) (indices i (rank (map_of v))) < m_span (map_of v).
Proof.
  intros B R Rh H.
  apply (proj2 (views_good V zero (fun x => x) (fun x => x) v B R i H) Rh).
Qed.

(** *** Uniqueness *)

Lemma to_diagonal_unique (v : view V) p :
  buildable (VToDiagonal v p) -> fits v -> readable v -> length (to_extents p) <= 2 ->
  m_unique (map_of (VToDiagonal v p)) = true -> injective_map (map_of (VToDiagonal v p)).
Proof.
  intros B Rh R L U i j Hi Hj E.
  apply extents_in_shape in Hi, Hj; try exact B.
  rewrite !to_diagonal_call in E by assumption.
  assert (D : dim_at p 0 <= 2 /\ dim_at p 1 <= 2 /\ (dim_at p 0 <= 1 \/ dim_at p 1 <= 1)).
  { rewrite <- (to_extents_dim p 0), <- (to_extents_dim p 1).
    change (m_unique (map_of (VToDiagonal v p))) with
      (m_unique (layout_to_diagonal (map_of v) (to_extents p))) in U.
    cbn [layout_to_diagonal m_unique] in U. apply andb_prop in U as [_ U].
    destruct (to_extents p) as [|e0 [|e1 q]].
    - rewrite !dim_at_nil. lia.
    - apply Nat.leb_le in U. unfold dim_at, get_pattern. cbn [nth]. cbn [dim]. lia.
    - apply andb_prop in U as [U1 U3]. apply andb_prop in U1 as [U1 U2].
      apply orb_prop in U3. rewrite !Nat.leb_le in *. exact (conj U1 (conj U2 U3)). }
  assert (Z : forall k i, 2 <= k -> in_shape (VToDiagonal v p) i -> i k = 0).
  { intros k h Hk Hh. specialize (Hh k). cbn [shape] in Hh. rewrite <- to_extents_dim in Hh.
    rewrite dim_at_beyond in Hh by lia. lia. }
  assert (I0 := Hi 0). assert (I1 := Hi 1). assert (J0 := Hj 0). assert (J1 := Hj 1).
  cbn [shape] in I0, I1, J0, J1.
  assert (Bv := proj1 B).
  assert (Q : (i 0 = i 1 <-> j 0 = j 1)).
  { split; intro Q.
    - destruct (Nat.eq_dec (j 0) (j 1)) as [|Ne]; [assumption|exfalso].
      rewrite (proj2 (Nat.eqb_eq _ _) Q), (proj2 (Nat.eqb_neq _ _) Ne) in E.
      assert (X := spans v _ Bv R Rh (to_diagonal_in V v p i B Hi Q)). cbn beta in X. lia.
    - destruct (Nat.eq_dec (i 0) (i 1)) as [|Ne]; [assumption|exfalso].
      rewrite (proj2 (Nat.eqb_eq _ _) Q), (proj2 (Nat.eqb_neq _ _) Ne) in E.
      assert (X := spans v _ Bv R Rh (to_diagonal_in V v p j B Hj Q)). cbn beta in X. lia. }
  intros [|[|k]]; [lia|lia|]. rewrite !Z; auto; lia.
Qed.

Lemma triangle_unique t (v : view V) :
  buildable v -> fits v -> readable v -> short_side V t v ->
  injective_map (map_of v) -> injective_map (layout_triangle_partition t (map_of v)).
Proof.
  intros B Rh R S I i j Hi Hj E. rewrite triangle_rank in E.
  change (in_extents (map_of v) i) in Hi. change (in_extents (map_of v) j) in Hj.
  rewrite !triangle_call in E by assumption.
  assert (Si := extents_in_shape v i B Hi). assert (Sj := extents_in_shape v j B Hj).
  assert (Ci := spans v i B R Rh Si). assert (Cj := spans v j B R Rh Sj).
  assert (Sw : forall h, in_shape v h -> h 0 <> h 1 ->
     (match t with Lower => h 1 <? h 0 | Upper => h 0 <? h 1 | Diagonal => false end) = false ->
     (match t with Diagonal => true | _ => rank (map_of v) <=? 1 end) = false ->
     in_shape v (fun k => h (swap 0 1 k)) ).
  { intros h Hh Ne F F2. apply (swapped_in_shape V t v h S Hh Ne); [|  |exact F].
    - destruct t; discriminate.
    - destruct t; try discriminate; apply Nat.leb_gt in F2; lia. }
  assert (IS : m_call (map_of v) (indices (fun k => i (swap 0 1 k)) (rank (map_of v))) =
               m_call (map_of v) (indices (fun k => j (swap 0 1 k)) (rank (map_of v))) ->
               in_shape v (fun k => i (swap 0 1 k)) -> in_shape v (fun k => j (swap 0 1 k)) ->
               forall k, i k = j k).
  { intros E' Hi' Hj' k.
    assert (X := I _ _ (in_shape_extents V v _ B Hi') (in_shape_extents V v _ B Hj') E' (swap 0 1 k)).
    cbn beta in X. now rewrite swap_invol in X. }
  specialize (Sw i Si) as Swi. specialize (Sw j Sj) as Swj. clear Sw.
  destruct (Nat.eqb_spec (i 0) (i 1)) as [Ei|Ni]; destruct (Nat.eqb_spec (j 0) (j 1)) as [Ej|Nj].
  - now apply I.
  - destruct (match t with Lower => _ | Upper => _ | Diagonal => _ end); [lia|].
    destruct (match t with Diagonal => true | _ => rank (map_of v) <=? 1 end); lia.
  - destruct (match t with Lower => _ | Upper => _ | Diagonal => _ end); [lia|].
    destruct (match t with Diagonal => true | _ => rank (map_of v) <=? 1 end); lia.
  - specialize (Swi Ni). specialize (Swj Nj).
    destruct (match t with Lower => i 1 <? i 0 | Upper => i 0 <? i 1 | Diagonal => false end) eqn:Fi;
    destruct (match t with Lower => j 1 <? j 0 | Upper => j 0 <? j 1 | Diagonal => false end) eqn:Fj;
    destruct (match t with Diagonal => true | _ => rank (map_of v) <=? 1 end) eqn:F2.
    + apply I; auto; lia.
    + apply I; auto; lia.
    + lia.
    + lia.
    + lia.
    + lia.
    + apply I; auto; lia.
    + apply IS; [lia|auto|auto].
Qed.

Theorem unique_sound (v : view V) :
  buildable v -> fits v -> readable v -> unique_side v ->
  m_unique (map_of v) = true -> injective_map (map_of v).
Proof.
  induction v; intros B Rh R Sd U; cbn [buildable fits readable unique_side] in B, Rh, R, Sd.
  - apply left_injective.
  - apply right_injective.
  - now apply stride_injective.
  - discriminate.
  - apply to_diagonal_unique; [exact B|apply R|apply R|apply Sd|exact U].
  - destruct B as [Bv Br]. intros i j Hi Hj E.
    apply extents_in_shape in Hi, Hj; try (split; assumption).
    rewrite !diagonal_of_call in E by (try (split; assumption); assumption).
    assert (I : injective_map (map_of v)) by (apply IHv; [exact Bv|exact Rh|exact R|exact Sd|exact U]).
    assert (X := I _ _ (in_shape_extents V v _ Bv (diagonal_of_in V v i Hi))
                      (in_shape_extents V v _ Bv (diagonal_of_in V v j Hj)) E).
    intro k. exact (X (S k)).
  - apply triangle_unique; [exact B|apply R|apply R|apply Rh|]. apply IHv; [exact B|apply R|apply R|exact Sd|exact U].
  - apply triangle_unique; [apply B|apply R|apply R| |].
    + apply square_short. apply B.
    + apply IHv; [apply B|apply R|apply R|exact Sd|exact U].
  - destruct B as [Bv Br]. intros i j Hi Hj E.
    apply extents_in_shape in Hi, Hj; try (split; assumption).
    rewrite !transpose_call in E by (try (split; assumption); assumption).
    assert (I : injective_map (map_of v)).
    { apply IHv; [exact Bv|exact Rh|exact R|exact Sd|].
      change (m_unique (map_of (VTranspose a b v))) with
      (m_unique (if (b =? 1) && (rank (map_of v) =? 2) then std_layout_transpose (map_of v)
               else layout_transpose a b (map_of v) (to_extents (pat_transpose a b (m_ext (map_of v)))))) in U.
      destruct ((b =? 1) && (rank (map_of v) =? 2)); exact U. }
    assert (T : forall h, in_shape (VTranspose a b v) h -> in_shape v (fun k => h (swap a b k))).
    { intros h Hh k. assert (Hk := Hh (swap a b k)). cbn [shape] in Hk. now rewrite swap_invol in Hk. }
    assert (X := I _ _ (in_shape_extents V v _ Bv (T i Hi)) (in_shape_extents V v _ Bv (T j Hj)) E).
    intro k. specialize (X (swap a b k)). cbn beta in X. now rewrite swap_invol in X.
  - apply IHv; [exact B|exact Rh|exact R|exact Sd|exact U].
Qed.

(** *** Exhaustiveness *)

Theorem exhaustive_sound (v : view V) :
  buildable v -> exhaustive_side v -> m_exhaustive (map_of v) = true -> onto_span (map_of v).
Proof.
  induction v; intros B Sd X; assert (B0 := B); cbn [buildable exhaustive_side] in B, Sd.
  - apply left_onto.
  - apply right_onto.
  - now apply stride_onto.
  - discriminate.
  - destruct B as (Bv & Hs & Hr). destruct Sd as [Sv Sd]. specialize (IHv Bv Sv X).
    intros o Ho. change (m_span (map_of (VToDiagonal v p))) with
      (if m_span (map_of v) <=? 1 then m_span (map_of v) else m_span (map_of v) + 1) in Ho.
    destruct (Nat.lt_ge_cases o (m_span (map_of v))) as [Lo|Lo].
    + destruct (IHv o Lo) as (j & Hj & Ej). apply extents_in_shape in Hj; [|exact Bv].
      assert (Hi : in_shape (VToDiagonal v p) (diag_index j)).
      { intros [|[|k]]; cbn [shape diag_index].
        - specialize (Hj 0). rewrite Hs in Hj. lia.
        - specialize (Hj 0). rewrite Hs in Hj. lia.
        - specialize (Hj (S k)). rewrite Hs in Hj. exact Hj. }
      exists (diag_index j). split; [now apply in_shape_extents|].
      rewrite to_diagonal_call by assumption. cbn [diag_index]. rewrite Nat.eqb_refl. exact Ej.
    + destruct Sd as [Sd|(i & Hi & Ni)].
      * apply Nat.leb_le in Sd. rewrite Sd in Ho. lia.
      * exists i. split; [now apply in_shape_extents|].
        rewrite to_diagonal_call by assumption. rewrite (proj2 (Nat.eqb_neq _ _) Ni).
        destruct (m_span (map_of v) <=? 1); lia.
  - destruct B as [Bv Br].
    change (m_exhaustive (map_of (VDiagonalOf v))) with
      (m_exhaustive (map_of v) &&
       match m_ext (map_of v) with
       | [] => true
       | [e0] => dim e0 =? 1
       | e0 :: e1 :: _ => (dim e0 =? 1) && (dim e1 =? 1)
       end) in X. apply andb_prop in X as [X1 X2]. specialize (IHv Bv Sd X1).
    assert (D : shape v 0 = 1 /\ shape v 1 = 1).
    { rewrite <- !shape_extent by assumption. unfold extent.
      destruct (m_ext (map_of v)) as [|e0 [|e1 q]].
      - auto.
      - apply Nat.eqb_eq in X2. auto.
      - apply andb_prop in X2 as [X2 X3]. apply Nat.eqb_eq in X2, X3. auto. }
    intros o Ho. destruct (IHv o Ho) as (j & Hj & Ej). apply extents_in_shape in Hj; [|exact Bv].
    assert (H0 := Hj 0). assert (H1 := Hj 1).
    exists (fun k => j (S k)).
    assert (Hi : in_shape (VDiagonalOf v) (fun k => j (S k))).
    { intros [|k]; cbn [shape]; [lia|]. apply Hj. }
    split; [now apply in_shape_extents|].
    rewrite diagonal_of_call by assumption. rewrite <- Ej. f_equal. apply indices_ext.
    intros [|k] _; cbn [diag_index]; [lia|reflexivity].
  - intros o Ho. change (m_span (map_of (VTriangular t v))) with (3 * m_span (map_of v)) in Ho.
    rewrite Sd in Ho. lia.
  - intros o Ho. change (m_span (map_of (VHermitian t v))) with (3 * m_span (map_of v)) in Ho.
    rewrite Sd in Ho. lia.
  - destruct B as [Bv Br].
    assert (E : m_exhaustive (map_of v) = true /\ m_span (map_of (VTranspose a b v)) = m_span (map_of v)).
    { change (map_of (VTranspose a b v)) with
      (if (b =? 1) && (rank (map_of v) =? 2) then std_layout_transpose (map_of v)
               else layout_transpose a b (map_of v) (to_extents (pat_transpose a b (m_ext (map_of v))))) in *.
      destruct ((b =? 1) && (rank (map_of v) =? 2)); exact (conj X eq_refl). }
    destruct E as [E1 E2]. specialize (IHv Bv Sd E1).
    intros o Ho. rewrite E2 in Ho. destruct (IHv o Ho) as (j & Hj & Ej).
    apply extents_in_shape in Hj; [|exact Bv].
    assert (Hi : in_shape (VTranspose a b v) (fun k => j (swap a b k))) by (intro k; apply Hj).
    exists (fun k => j (swap a b k)). split; [now apply in_shape_extents|].
    rewrite transpose_call by assumption. rewrite <- Ej. f_equal. apply indices_ext.
    intros k _. now rewrite swap_invol.
  - now apply IHv.
Qed.

(** *** Strides *)

Lemma sum_over_swap a b n f :
  a < n -> b < n -> sum_over n (fun k => f (swap a b k)) = sum_over n f.
Proof.
  intros Ha Hb. unfold sum_over. rewrite <- (map_map (swap a b) f).
  apply list_sum_perm, Permutation_map. apply NoDup_Permutation.
  - apply FinFun.Injective_map_NoDup; [|apply seq_NoDup].
    intros x y E. rewrite <- (swap_invol a b x), <- (swap_invol a b y). now rewrite E.
  - apply seq_NoDup.
  - assert (S : forall k, k < n -> swap a b k < n).
    { intros k Hk. unfold swap. destruct (k =? a); [assumption|]. destruct (k =? b); assumption. }
    intro k. rewrite in_map_iff. split.
    + intros (q & <- & Hq). apply in_seq in Hq. apply in_seq. specialize (S q). lia.
    + intro Hk. apply in_seq in Hk. exists (swap a b k). split; [apply swap_invol|].
      apply in_seq. specialize (S k). lia.
Qed.

Lemma sum_over_shrink n m f :
  n <= m -> (forall k, n <= k -> f k = 0) -> sum_over m f = sum_over n f.
Proof.
  intros H Z. replace m with (n + (m - n)) by lia. unfold sum_over.
  rewrite seq_app, map_app, list_sum_app. cbn [plus].
  assert (E : forall l, (forall k, In k l -> n <= k) -> list_sum (map f l) = 0).
  { induction l as [|k l IH]; intro Hl; [reflexivity|]. cbn. rewrite Z by (apply Hl; now left).
    cbn. apply IH. intros q Hq. apply Hl. now right. }
  rewrite (E (seq n (m - n))); [lia|]. intros k Hk. apply in_seq in Hk. lia.
Qed.

Lemma to_extents_length p : length (to_extents p) <= length p.
Proof.
  induction p as [|e p IH]; [apply le_n|]. cbn [to_extents].
  destruct (to_extents p) as [|f q]; [destruct (fixed e && (dim e =? 1)); cbn; lia|cbn in *; lia].
Qed.

Theorem strided_sound (v : view V) :
  buildable v -> strided_side v -> m_strided (map_of v) = true -> strided_map (map_of v).
Proof.
  induction v; intros B Sd X; assert (B0 := B); cbn [buildable strided_side] in B, Sd.
  - exists (fun r => prod (firstn r (dims e))). split.
    + intros r Hr. change (rank (map_of (VLeft e data))) with (length e) in Hr.
      change (m_stride (map_of (VLeft e data)) r) with
        (if r <? length e then Some (prod (firstn r (dims e))) else None).
      now rewrite (proj2 (Nat.ltb_lt _ _) Hr).
    + intros i _. change (rank (map_of (VLeft e data))) with (length e).
      change (m_call (map_of (VLeft e data))) with (left_call (dims e)).
      rewrite <- (dims_length e). apply left_call_eq.
  - exists (fun r => prod (skipn (S r) (dims e))). split.
    + intros r Hr. change (rank (map_of (VRight e data))) with (length e) in Hr.
      change (m_stride (map_of (VRight e data)) r) with
        (if r <? length e then Some (prod (skipn (S r) (dims e))) else None).
      now rewrite (proj2 (Nat.ltb_lt _ _) Hr).
    + intros i _. change (rank (map_of (VRight e data))) with (length e).
      change (m_call (map_of (VRight e data))) with (right_call (dims e)).
      rewrite <- (dims_length e). apply right_call_eq.
  - destruct B as [Ls Bs]. exists (fun r => nth r s 0). split.
    + intros r Hr. change (rank (map_of (VStride e s data))) with (length e) in Hr.
      change (m_stride (map_of (VStride e s data)) r) with
        (if r <? length e then nth_error s r else None).
      rewrite (proj2 (Nat.ltb_lt _ _) Hr). apply nth_error_nth'. lia.
    + intros i _. change (rank (map_of (VStride e s data))) with (length e).
      change (m_call (map_of (VStride e s data))) with (dot s).
      rewrite <- Ls. apply dot_eq.
  - discriminate.
  - discriminate.
  - destruct B as [Bv Br]. destruct Sd as [Sv Sr]. destruct (IHv Bv Sv X) as (s & Hs & Hc).
    set (r := rank (map_of (VDiagonalOf v))) in *.
    change (length (to_extents (pat_diagonal_of (m_ext (map_of v))))) with r in Br.
    exists (fun _ => s 0 + s 1). split.
    + intros q Hq. assert (q = 0) by lia. subst q.
      change (m_stride (map_of (VDiagonalOf v)) 0) with
        (match m_stride (map_of v) 0, m_stride (map_of v) 1 with
         | Some a, Some b => Some (a + b) | _, _ => None end).
      rewrite !Hs by lia. reflexivity.
    + intros i Hi. apply extents_in_shape in Hi; [|exact B0].
      unfold r. rewrite diagonal_of_call by assumption. fold r.
      rewrite Hc by now apply in_shape_extents, diagonal_of_in.
      assert (Z : forall k, 1 <= k -> i k = 0).
      { intros k Hk. apply (beyond_rank V _ i k B0 Hi). fold r. lia. }
      destruct r as [|r'] eqn:Er.
      * assert (i 0 = 0) by (apply (beyond_rank V _ i 0 B0 Hi); fold r; lia).
        rewrite (sum_over_shrink 0); [reflexivity|lia|].
        intros [|[|k]] _; cbn [diag_index]; rewrite ?H; try reflexivity. rewrite Z by lia. reflexivity.
      * assert (r' = 0) by lia. subst r'. destruct Br as [Br|Br]; [discriminate|].
        rewrite (sum_over_shrink 2); [|lia|].
        -- rewrite !sum_over_S. cbn [diag_index]. unfold sum_over. cbn. lia.
        -- intros [|[|k]] Hk; cbn [diag_index]; [lia|lia|]. rewrite Z by lia. reflexivity.
  - contradiction.
  - contradiction.
  - destruct B as (Bv & Hab & Hc). destruct Sd as [Sv Sb].
    assert (E : m_strided (map_of v) = true /\ rank (map_of (VTranspose a b v)) <= rank (map_of v) /\
                (forall q, q < rank (map_of (VTranspose a b v)) ->
                 m_stride (map_of (VTranspose a b v)) q = m_stride (map_of v) (swap a b q))).
    { change (map_of (VTranspose a b v)) with
      (if (b =? 1) && (rank (map_of v) =? 2) then std_layout_transpose (map_of v)
               else layout_transpose a b (map_of v) (to_extents (pat_transpose a b (m_ext (map_of v))))) in *.
      destruct ((b =? 1) && (rank (map_of v) =? 2)) eqn:E.
      - apply andb_prop in E as [E1 E2]. apply Nat.eqb_eq in E1, E2. subst b.
        assert (a = 0) by lia. subst a. split; [exact X|]. rewrite E2. split; [apply le_n|].
        intros [|[|q]] Hq; [reflexivity|reflexivity|]. cbn in Hq. lia.
      - split; [exact X|]. split; [|reflexivity].
        unfold rank at 1. cbn [layout_transpose m_ext]. eapply Nat.le_trans; [apply to_extents_length|].
        unfold pat_transpose. rewrite map_length, seq_length. unfold rank in *. lia. }
    destruct E as (E1 & E2 & E3). destruct (IHv Bv Sv E1) as (s & Hs & Hcall).
    exists (fun k => s (swap a b k)). split.
    + intros q Hq. rewrite E3 by assumption. apply Hs.
      unfold swap. destruct (q =? a); [assumption|]. destruct (q =? b); lia.
    + intros i Hi. apply extents_in_shape in Hi; [|exact B0].
      rewrite transpose_call by assumption.
      assert (Hj : in_shape v (fun k => i (swap a b k))).
      { intro k. assert (Hk := Hi (swap a b k)). cbn [shape] in Hk. now rewrite swap_invol in Hk. }
      rewrite Hcall by now apply in_shape_extents.
      rewrite <- (sum_over_swap a b) by lia. cbn beta.
      rewrite (sum_over_shrink (rank (map_of (VTranspose a b v)))) by
        (try exact E2; intros k Hk; rewrite swap_invol, (beyond_rank V _ i k B0 Hi Hk); reflexivity).
      apply sum_over_ext. intros k _. now rewrite swap_invol.
  - now apply IHv.
Qed.

End Views.

(** ** Packed triangles *)

Definition T (n : nat) := n * (n + 1) / 2.
Lemma T_S n : T (S n) = T n + S n.
Proof.
  unfold T. replace (S n * (S n + 1)) with (n * (n + 1) + S n * 2) by lia.
  apply Nat.div_add. lia.
Qed.
Lemma T_mono a b : a <= b -> T a <= T b.
Proof. induction 1; [apply le_n|]. rewrite T_S. lia. Qed.
Lemma T_twice n : 2 * T n = n * (n + 1).
Proof. induction n; [reflexivity|]. rewrite T_S. lia. Qed.

Section Large.
Variable e1 : nat.

(** First slot of row i0. *)
Definition row_start (i0 : nat) : nat := e1 * i0 + i0 - T i0.

Lemma T_le i : i <= e1 -> T i <= e1 * i + i.
Proof. intro H. pose proof (T_twice i). nia. Qed.

Lemma row_start_S i : i < e1 -> row_start (S i) = row_start i + (e1 - i).
Proof.
  intro H. unfold row_start. pose proof (T_S i). pose proof (T_le i ltac:(lia)).
  pose proof (T_le (S i) ltac:(lia)). nia.
Qed.

Lemma row_start_mono i j : i <= j -> j <= e1 -> row_start i <= row_start j.
Proof.
  induction 1 as [|j Hj IH]; intro H; [apply le_n|]. rewrite row_start_S by lia.
  specialize (IH ltac:(lia)). lia.
Qed.

Lemma large_sorted e0 i j : i <= j -> j < e1 -> packed_sorted true e0 e1 i j = row_start i + (j - i).
Proof.
  intros H1 H2. unfold packed_sorted, row_start. fold (T i). pose proof (T_le i ltac:(lia)).
  assert (T i <= e1 * i). { pose proof (T_twice i). nia. }
  lia.
Qed.

Lemma row_find n o : n <= e1 -> o < row_start n -> exists i, i < n /\ row_start i <= o < row_start (S i).
Proof.
  induction n as [|n IH]; intros Hn Ho; [cbn in Ho; unfold row_start in Ho; cbn in Ho; lia|].
  destruct (Nat.lt_ge_cases o (row_start n)) as [H|H].
  - destruct (IH ltac:(lia) H) as (i & Hi & Hr). exists i. split; [lia|exact Hr].
  - exists n. lia.
Qed.

Theorem large_packs e0 :
  e0 <= e1 -> packs_triangle (packed_call true e0 e1) (packed_span true e0 e1) e0 e1.
Proof.
  intro He.
  assert (Sp : packed_span true e0 e1 = row_start e0).
  { unfold packed_span, row_start. rewrite Nat.min_l, Nat.max_r by assumption. fold (T e0).
    pose proof (T_twice e0). pose proof (T_le e0 He). nia. }
  assert (So : forall i j, i <= j -> packed_call true e0 e1 i j = packed_sorted true e0 e1 i j).
  { intros i j H. unfold packed_call. now rewrite (proj2 (Nat.ltb_ge j i) H). }
  assert (Sy : forall i j, packed_call true e0 e1 i j = packed_call true e0 e1 j i).
  { intros i j. unfold packed_call. destruct (Nat.ltb_spec j i), (Nat.ltb_spec i j); try lia;
      try reflexivity. assert (i = j) by lia. now subst j. }
  assert (Lt : forall i j, i <= j -> i < e0 -> j < e1 -> packed_call true e0 e1 i j < row_start (S i)).
  { intros i j H1 H2 H3. rewrite So, large_sorted by assumption. rewrite row_start_S by lia. lia. }
  split; [exact Sy|]. split; [|split].
  - intros i j Hi Hj. rewrite Sp. destruct (Nat.le_ge_cases i j) as [H|H].
    + specialize (Lt i j H Hi Hj). pose proof (row_start_mono (S i) e0 ltac:(lia) He). lia.
    + rewrite Sy. specialize (Lt j i H ltac:(lia) ltac:(lia)).
      pose proof (row_start_mono (S j) e0 ltac:(lia) He). lia.
  - intros i j i' j' H1 H2 H3 H1' H2' H3' E.
    assert (L := Lt i j H1 H2 H3). assert (L' := Lt i' j' H1' H2' H3').
    assert (G : row_start i <= packed_call true e0 e1 i j) by (rewrite So, large_sorted by assumption; lia).
    assert (G' : row_start i' <= packed_call true e0 e1 i' j') by (rewrite So, large_sorted by assumption; lia).
    assert (i = i').
    { destruct (Nat.lt_trichotomy i i') as [H|[H|H]]; [exfalso|exact H|exfalso].
      - pose proof (row_start_mono (S i) i' H ltac:(lia)). lia.
      - pose proof (row_start_mono (S i') i H ltac:(lia)). lia. }
    subst i'. split; [reflexivity|]. rewrite !So, !large_sorted in E by assumption. lia.
  - intros o Ho. rewrite Sp in Ho. destruct (row_find e0 o He Ho) as (i & Hi & Hr).
    rewrite row_start_S in Hr by lia. exists i, (i + (o - row_start i)).
    repeat split; try lia. rewrite So, large_sorted by lia. lia.
Qed.
End Large.

Lemma T_find n o : o < T n -> exists j, j < n /\ T j <= o < T (S j).
Proof.
  induction n as [|n IH]; intro H; [cbn in H; lia|].
  destruct (Nat.lt_ge_cases o (T n)) as [L|L].
  - destruct (IH L) as (j & Hj & Hr). exists j. split; [lia|exact Hr].
  - exists n. lia.
Qed.

Theorem small_packs n :
  packs_triangle (packed_call false n n) (packed_span false n n) n n.
Proof.
  assert (Sp : packed_span false n n = T n).
  { unfold packed_span. now rewrite Nat.min_id. }
  assert (So : forall i j, i <= j -> j < n -> packed_call false n n i j = i + T j).
  { intros i j H H'. unfold packed_call, packed_sorted. rewrite (proj2 (Nat.ltb_ge j i) H).
    now rewrite (proj2 (Nat.ltb_ge n j)) by lia. }
  assert (Sy : forall i j, packed_call false n n i j = packed_call false n n j i).
  { intros i j. unfold packed_call. destruct (Nat.ltb_spec j i), (Nat.ltb_spec i j); try lia;
      try reflexivity. assert (i = j) by lia. now subst j. }
  assert (Lt : forall i j, i <= j -> j < n -> packed_call false n n i j < T (S j)).
  { intros i j H H'. rewrite So, T_S by assumption. lia. }
  split; [exact Sy|]. split; [|split].
  - intros i j Hi Hj. rewrite Sp. destruct (Nat.le_ge_cases i j) as [H|H].
    + specialize (Lt i j H Hj). pose proof (T_mono (S j) n ltac:(lia)). lia.
    + rewrite Sy. specialize (Lt j i H Hi). pose proof (T_mono (S i) n ltac:(lia)). lia.
  - intros i j i' j' H1 H2 H3 H1' H2' H3' E.
    assert (L := Lt i j H1 H3). assert (L' := Lt i' j' H1' H3').
    assert (j = j').
    { destruct (Nat.lt_trichotomy j j') as [H|[H|H]]; [exfalso|exact H|exfalso].
      - pose proof (T_mono (S j) j' H). rewrite (So i' j') in * by assumption. lia.
      - pose proof (T_mono (S j') j H). rewrite (So i j) in * by assumption. lia. }
    subst j'. split; [|reflexivity]. rewrite !So in E by assumption. lia.
  - intros o Ho. rewrite Sp in Ho. destruct (T_find n o Ho) as (j & Hj & Hr). rewrite T_S in Hr.
    exists (o - T j), j. repeat split; try lia. rewrite So by lia. lia.
Qed.

(** ** The offset law *)

Fixpoint plain (a : accessor) : Prop :=
  match a with ADefault | AConstant => True | AConjugated a => plain a | _ => False end.

Theorem plain_offset V (zero : V) conj re a p i j q :
  plain a -> offset a p i = Some q -> access zero conj re a q j = access zero conj re a p (i + j).
Proof.
  revert p q. induction a; intros p q P O; cbn in P; try contradiction; cbn [offset] in O.
  - destruct p; try discriminate. injection O as <-. cbn. f_equal. lia.
  - destruct p; try discriminate. injection O as <-. reflexivity.
  - cbn [access]. f_equal. now apply IHa.
Qed.
