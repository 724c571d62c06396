(** * Proofs for C89: the expressions described by components and sizes are safe. *)
From Coq Require Import Reals ZArith List Bool Lia Lra.
From Coquelicot Require Import Coquelicot.
From Verif Require Import XprEigen XprModel XprSpec XprScalars XprProofs XprProofs2 XprProofs3 XprProofs4.
Import ListNotations.
Local Open Scope nat_scope.

Lemma bool_num v : boolean v -> beval BNumNe C0 v = v /\ beval BNumNe v C0 = v /\ beval BXor C0 v = v /\ beval BXor v C0 = v.
Proof.
  intros [-> | ->]; unfold beval, ceval, tob, Ceqb, C0, C1; simpl; repeat (destruct (Req_EM_T _ _)); simpl; try lra; tauto.
Qed.

Lemma bin_ordinary_safe b r c x y f g : bin_ordinary b r c f g ->
  (zero x = true -> forall i j, i < r -> j < c -> f i j = C0) ->
  (zero y = true -> forall i j, i < r -> j < c -> g i j = C0) ->
  (is_some (constant x) = true -> exists z, forall i j, i < r -> j < c -> f i j = z) ->
  (is_some (constant y) = true -> exists z, forall i j, i < r -> j < c -> g i j = z) ->
  bin_safe b r c x y f g.
Proof.
  intros O Zx Zy Cx Cy. unfold bin_safe. destruct b; simpl in O; (refine (conj _ _); [first [exact I | exact O]|]);
    try exact I; try tauto; try (refine (conj _ _)).
  all: try (intros H; exfalso; tauto).
  - intros Z i j Hi Hj. specialize (Zy Z i j Hi Hj). unfold beval, C0. destruct (f i j); unfold Cminus, Cplus, Copp; simpl. f_equal; ring.
  - intros _ i j Hi Hj; apply bool_num; now apply O.
  - intros _ i j Hi Hj; apply bool_num; now apply O.
  - intros _ i j Hi Hj; apply bool_num; now apply O.
  - intros _ i j Hi Hj; apply bool_num; now apply O.
Qed.

Lemma redux_ordinary_safe op h e : forall func, wf e -> safe e -> redux_ordinary h func e -> redux_safe op h func e.
Proof.
  assert (B : forall func e, wf e -> safe e -> bottom_ordinary h func e -> redux_bottom op h func e).
  { intros func e0 W S O _ D. destruct O as [O|[O1 O2]]; [|tauto]. exfalso.
    destruct (is_some_true _ D) as (fx & z & E). apply (O z). apply (constant_diag_ok _ _ (proj1 (sound_all e0 W S)) fx z E). }
  induction e; intros func W S O; cbn [redux_safe redux_ordinary] in *; try (apply B; assumption).
  - apply IHe; [apply W | apply S | exact O].
  - apply IHe; [apply W | apply S | exact O].
  - apply IHe; [apply W | apply S | exact O].
  - apply IHe; [apply W | apply S | exact O].
  - apply IHe; [apply W | apply S | exact O].
Qed.

Lemma const_traits_zero k r c nr nc z : zero (const_traits k r c nr nc z) = true -> z = C0.
Proof. unfold zero; simpl. discriminate. Qed.

Theorem ordinary_safe e : wf e -> ordinary e -> safe e.
Proof.
  assert (Z : forall e, wf e -> safe e -> zero (traits_of e) = true -> all_equal e C0).
  { intros e0 W S. apply zero_ok, sound_all; assumption. }
  assert (K : forall e, wf e -> safe e -> is_some (constant (traits_of e)) = true -> exists z, all_equal e z).
  { intros e0 W S H. destruct (is_some_true _ H) as (fx & z & E). exists z.
    apply (constant_ok _ _ (proj1 (sound_all e0 W S)) fx z E). }
  assert (D : forall e, wf e -> safe e -> is_some (constant_diag (traits_of e)) = true -> exists z, diag_equal e z).
  { intros e0 W S H. destruct (is_some_true _ H) as (fx & z & E). exists z.
    apply (constant_diag_ok _ _ (proj1 (sound_all e0 W S)) fx z E). }
  induction e as [k r c f|k r c z|k r c z|k r c|v IH|u e IH|b z e IH|b e IH z|b x IHx y IHy|e IH|e IH|e IH|rf cf e IH
    |d e IH|s IHs x IHx y IHy|x IHx y IHy|k fx e IH|up e IH|up m e IH|r c i0 j0 e IH|r c e IH|op h e IH|k n f]; intros W O;
  cbn [safe ordinary] in *; try exact I.
  - apply IH; [apply W | exact O].
  - destruct O as [O1 O2]. destruct W as [W Wu]. refine (conj (IH W O1) _). destruct u; try exact I; intro H; congruence.
  - destruct O as (O1 & O2 & O3). destruct W as (W & Wz & Wb). specialize (IH W O1). refine (conj IH (conj (fun _ => O2) _)).
    apply bin_ordinary_safe; [exact O3 | | | |].
    + intro H; apply const_traits_zero in H; auto.
    + intro H; apply (Z e W IH H).
    + intros _; exists z; auto.
    + intro H; destruct (K e W IH H) as [w Hw]; exists w; exact Hw.
  - destruct O as (O1 & O2 & O3). destruct W as (W & Wz & Wb). specialize (IH W O1). refine (conj IH (conj (fun _ => O2) _)).
    apply bin_ordinary_safe; [exact O3 | | | |].
    + intro H; apply (Z e W IH H).
    + intro H; apply const_traits_zero in H; auto.
    + intro H; destruct (K e W IH H) as [w Hw]; exists w; exact Hw.
    + intros _; exists z; auto.
  - destruct O as (O1 & O2 & O3). destruct W as (Wx & Wy & Er & Ec & Wb). specialize (IHx Wx O1). specialize (IHy Wy O2).
    refine (conj IHx (conj IHy _)). apply bin_ordinary_safe; [exact O3 | | | |].
    + intro H; apply (Z x Wx IHx H).
    + intro H. rewrite Er, Ec. apply (Z y Wy IHy H).
    + intro H; destruct (K x Wx IHx H) as [w Hw]; exists w; exact Hw.
    + intro H; destruct (K y Wy IHy H) as [w Hw]; exists w. rewrite Er, Ec. exact Hw.
  - now apply IH.
  - now apply IH.
  - now apply IH.
  - destruct O as (O1 & O2 & O3). specialize (IH W O1). refine (conj IH (conj _ (fun _ => or_introl O2))).
    intros T H. exfalso. destruct O3 as [O3|O3]; [|congruence]. apply O3.
    apply (triangular_ok _ _ (proj1 (sound_all e W IH)) Tlower T).
  - destruct O as (O1 & O2). refine (conj (IH W O1) _). intros E _. right; now apply O2.
  - destruct O as (O1 & O2 & O3). destruct W as (W1 & W2 & W3 & _). refine (conj (IHs W1 O1) (conj (IHx W2 O2) (IHy W3 O3))).
  - destruct O as (O1 & O2 & O3 & O4). destruct W as (W1 & W2 & W3). refine (conj (IHx W1 O1) (conj (IHy W2 O2) (conj _ _))).
    + intros _ _. left; lia.
    + intros _ _. refine (conj _ (conj _ _)); intros; lia.
  - apply IH; [apply W | exact O].
  - apply IH; [apply W | exact O].
  - destruct O as (O1 & O2). specialize (IH W O1). refine (conj IH (conj _ _)).
    + intros ->. destruct O2 as [O2|O2]; [discriminate|]. destruct (zero (traits_of e)) eqn:Hz; [|reflexivity].
      exfalso. apply (O2 C0). apply all_equal_diag. apply (Z e W IH Hz).
    + intros H1 H2. destruct O2 as [O2|O2]; [congruence|]. destruct (D e W IH H2) as [w Hw]. exfalso; apply (O2 w Hw).
  - apply IH; [apply W | exact O].
  - destruct O as (O1 & O2). refine (conj (IH (proj1 W) O1) (fun _ => or_introl O2)).
  - destruct O as (O1 & O2). refine (conj (IH (proj1 W) O1) _). apply redux_ordinary_safe; [apply W | apply IH; [apply W | exact O1] | exact O2].
Qed.
