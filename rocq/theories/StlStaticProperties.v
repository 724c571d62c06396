(** Static claims of layout mappings (C60): what is_always_unique, is_always_exhaustive and is_always_strided say of a type. *)
From Coq Require Import List Arith Bool ZArith Lia.
From Verif Require Import StlModel StlSpec StlProofs StlProofs2 StlStatic StlStaticSpec StlStaticProofs StlProperties.
Import ListNotations.

(** What a type always claims, each of its objects claims. *)
Theorem always_unique_claims : forall (V : Type) (v w : view V), same_type v w -> always_unique v = true -> m_unique (map_of w) = true.
Proof. intros V v. exact (unique_static v). Qed.
Print Assumptions always_unique_claims.
Theorem always_exhaustive_claims : forall (V : Type) (v w : view V), same_type v w -> always_exhaustive v = Some true ->
  m_exhaustive (map_of w) = true.
Proof. intros V v. exact (exhaustive_static v). Qed.
Print Assumptions always_exhaustive_claims.
Theorem always_strided_claims : forall (V : Type) (v w : view V), same_type v w -> always_strided v = true -> m_strided (map_of w) = true.
Proof. intros V v. exact (strided_static v). Qed.
Print Assumptions always_strided_claims.

(** A type that is always unique has only objects that give different elements different slots, for any rank and nesting.  The
    run-time claim does not have this property ([to_diagonal_unique_refuted]). *)
Theorem always_unique_sound : forall (V : Type) (zero : V) (v w : view V), same_type v w -> always_unique v = true ->
  buildable w -> fits w -> readable w -> strides_ok w -> injective_map (map_of w).
Proof. intros V zero v w T U B F R S. apply (unique_static_sound zero); try assumption. now rewrite <- (unique_same v w T). Qed.
Print Assumptions always_unique_sound.

(** A pile of diagonal 1 x 1 matrices, of which only the number is left to run time: five of them claim to be unique, and so do
    seven. *)
Definition pile (n : nat) : view cx := VToDiagonal (VLeft [st 1; dy n] (map r (seq 0 n))) [st 1; st 1; dy n].
Example always_unique_ex : same_type (pile 5) (pile 7) /\ always_unique (pile 5) = true /\ always_exhaustive (pile 5) = Some true /\
  buildable (pile 7) /\ fits (pile 7) /\ readable (pile 7) /\ strides_ok (pile 7) /\ injective_map (map_of (pile 7)) /\
  m_call (map_of (pile 7)) [0; 0; 4] = 4.
Proof.
  assert (T : same_type (pile 5) (pile 7)) by (cbn; repeat split; repeat constructor; discriminate).
  assert (B : buildable (pile 7)) by (cbn; repeat split; try lia; intros [|[|k]]; reflexivity).
  assert (F : fits (pile 7)) by (cbn; split; [tauto | left; lia]).
  assert (R : readable (pile 7)) by (cbn; tauto).
  refine (conj T (conj eq_refl (conj eq_refl (conj B (conj F (conj R (conj I (conj _ eq_refl)))))))).
  exact (always_unique_sound cx cz (pile 5) (pile 7) T eq_refl B F R I).
Qed.
Example always_strided_ex : same_type (VDiagonalOf (VLeft [dy 2; st 3] (map r (seq 0 6)))) (VDiagonalOf (VLeft [dy 4; st 3] (map r (seq 0 12)))) /\
  always_strided (VDiagonalOf (VLeft [dy 2; st 3] (map r (seq 0 6)))) = true /\ m_stride (map_of (VDiagonalOf (VLeft [dy 4; st 3] (map r (seq 0 12))))) 0 = Some 5.
Proof. cbn. repeat split; repeat constructor; discriminate. Qed.

(** The other two static claims can be false: a pile of diagonal 1 x 1 matrices, and a triangular 1 x 1 matrix, claim always to
    be exhaustive and are not; triangular 2 x 2 matrices and diagonals of piles claim always to be strided and are not. *)
Definition s11 : view cx := VTriangular Lower (VRight [st 1; st 1] [r 1]).
Theorem always_exhaustive_refuted :
  (buildable (pile 5) /\ always_exhaustive (pile 5) = Some true /\ ~ onto_span (map_of (pile 5))) /\
  (buildable s11 /\ always_exhaustive s11 = Some true /\ ~ onto_span (map_of s11)).
Proof.
  split; (split; [|split; [reflexivity|]]).
  - cbn. repeat split; try lia. intros [|[|k]]; reflexivity.
  - intro O. destruct (O 5) as (i & Hi & E); [cbn; lia|].
    assert (H0 := Hi 0). assert (H1 := Hi 1). cbn in H0, H1.
    assert (E0 : i 0 = 0) by lia. assert (E1 : i 1 = 0) by lia. assert (H2 := Hi 2). cbn in H2.
    cbn in E. rewrite E0, E1 in E. cbn in E. lia.
  - cbn. lia.
  - intro O. destruct (O 1) as (i & Hi & E); [cbn; lia|].
    assert (H0 := Hi 0). assert (H1 := Hi 1). cbn in H0, H1.
    assert (E0 : i 0 = 0) by lia. assert (E1 : i 1 = 0) by lia.
    cbn in E. rewrite E0, E1 in E. cbn in E. lia.
Qed.
Print Assumptions always_exhaustive_refuted.
Theorem always_strided_refuted :
  (buildable l22 /\ readable l22 /\ always_strided l22 = true /\ ~ strided_map (map_of l22)) /\
  (buildable g222 /\ readable g222 /\ always_strided g222 = true /\ ~ strided_map (map_of g222)).
Proof.
  destruct triangle_strided_refuted as (A & _ & B & _ & C). destruct diagonal_of_stride_refuted as (D & _ & E & _ & F).
  exact (conj (conj A (conj B (conj eq_refl C))) (conj D (conj E (conj eq_refl F)))).
Qed.
Print Assumptions always_strided_refuted.

(** is_always_exhaustive of a transposed view does not compile, although every transposed view of a dense array is exhaustive. *)
Theorem always_exhaustive_transpose_refuted : forall (V : Type) (e0 e1 : ext) (d : list V),
  always_exhaustive (VTranspose 0 1 (VLeft [e0; e1] d)) = None /\ m_exhaustive (map_of (VTranspose 0 1 (VLeft [e0; e1] d))) = true.
Proof. intros V e0 e1 d. split; reflexivity. Qed.
Print Assumptions always_exhaustive_transpose_refuted.
