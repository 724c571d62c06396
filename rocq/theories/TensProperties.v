(** * C109 and C110: tensor expressions and tensor components. *)
From Coq Require Import Reals List Bool Arith Lia Lra.
From Coquelicot Require Import Coquelicot.
From Verif Require Import XprEigen XprModel XprScalars TensModel TensSpec TensProofs.
From Verif Require Import TensClaimProofs TensClaimProofs2 TensClaimProofs3.
Import ListNotations.
Local Open Scope nat_scope.

(** ** C109. *)

(** If an expression is called constant, all its components are that constant; for every expression built from any number
    of indices, apart from the uses in [sound_use]. *)
Theorem tensor_constant_partial : forall e, legal e -> sound_use e ->
  constant_claim e <> OutOfBounds /\
  forall fx z, constant_claim e = Value fx z -> all_components e z.
Proof. intros e L U; split; [apply so_nc|apply so_const]; now apply claims_sound. Qed.
Print Assumptions tensor_constant_partial.

(** If an expression is called a constant diagonal one, the components with equal indices are that constant and the others
    are zero; unless it is zero, it is a square matrix. *)
Theorem tensor_diagonal_partial : forall e, legal e -> sound_use e ->
  diagonal_claim e <> OutOfBounds /\
  (forall fx z, diagonal_claim e = Value fx z -> diagonal_components e z) /\
  (has (diagonal_claim e) = true -> constant_claim e <> Value true C0 -> exists n, dims e = [n; n]).
Proof. intros e L U; repeat split; [apply so_nd|eapply so_diag|eapply so_diag|apply so_square]; eauto; now apply claims_sound. Qed.
Print Assumptions tensor_diagonal_partial.

(** If a square matrix is called Hermitian, it equals its conjugate transpose. *)
Theorem tensor_hermitian_partial : forall k e n, legal e -> sound_use e -> scalars_of k e ->
  (k = Kcplx -> real_diagonals e) -> dims e = [n; n] -> hermitian_claim k e = true -> conj_symmetric e n.
Proof. exact claim_symmetric. Qed.
Print Assumptions tensor_hermitian_partial.

(** A 3-index example: a diagonal matrix applied to the last index of a sum of constants. *)
Definition ones (ds : list nat) : texpr := TConst ds C1.
Definition two : C := (2, 0)%R.
Definition stretched : texpr := TContract [(1, 2)] (TDiag 4 false two) (TBin Sum (ones [2; 3; 4]) (TFixed [2; 3; 4] C0)).
Lemma stretched_legal : legal stretched /\ sound_use stretched.
Proof.
  assert (Z : tzero (mkclaims (Value true C0) NoValue) = true) by (cbn; apply Ceqb_refl).
  assert (L : legal stretched).
  { cbn. repeat split; try (repeat constructor; cbn; intuition discriminate); destruct H as [<-|[]]; cbn; lia. }
  split; [exact L|]. cbn -[constant_claim diagonal_claim dims]. repeat split; auto. discriminate.
Qed.
Lemma stretched_claim : constant_claim stretched = Value false (Cmult two C1).
Proof.
  unfold constant_claim, stretched, const, ones; cbn. unfold contract_const, tzero, cdiag, binary_const, binary_diag, tzero, const; cbn.
  rewrite Ceqb_refl; reflexivity.
Qed.
Example tensor_constant_example : legal stretched /\ sound_use stretched /\ dims stretched = [4; 2; 3] /\
  exists fx z, constant_claim stretched = Value fx z /\ z = two.
Proof.
  destruct stretched_legal as [L U]; split; [exact L|split; [exact U|split; [reflexivity|]]].
  exists false, (Cmult two C1); split; [apply stretched_claim|]. unfold Cmult, two, C1; cbn; f_equal; ring.
Qed.
(** The square of a diagonal matrix, negated. *)
Definition squared : texpr := TUn Negate (TContract [(1, 0)] (TDiag 3 true two) (TDiag 3 false two)).
Example tensor_diagonal_example : legal squared /\ sound_use squared /\ dims squared = [3; 3] /\
  diagonal_claim squared = Value false (Copp (Cmult two two)) /\ constant_claim squared <> Value true C0.
Proof.
  split; [|split; [|split; [reflexivity|split; [reflexivity|discriminate]]]].
  - cbn. repeat split; try (repeat constructor; cbn; intuition discriminate); destruct H as [<-|[]]; cbn; lia.
  - cbn. repeat split; auto; discriminate.
Qed.
(** A complex Hermitian matrix and a multiple of it. *)
Definition pauli (a b : nat) : C := if Nat.eqb a b then C0 else if Nat.ltb a b then (0, -1)%R else (0, 1)%R.
Definition doubled : texpr := TContract [(1, 0)] (TDiag 2 true two) (THerm 2 pauli).
Example tensor_hermitian_example : legal doubled /\ sound_use doubled /\ scalars_of Kcplx doubled /\ real_diagonals doubled /\
  dims doubled = [2; 2] /\ hermitian_claim Kcplx doubled = true /\ tcoef doubled [1; 0] <> tcoef doubled [0; 1].
Proof.
  assert (P : forall a b, a < 2 -> b < 2 -> pauli a b = Cconj (pauli b a)).
  { intros a b A B; destruct a as [|[|]], b as [|[|]]; try lia; unfold pauli, Cconj, C0; cbn; f_equal; ring. }
  split; [|split; [|split; [exact I|split; [|split; [reflexivity|split; [reflexivity|]]]]]].
  - cbn. repeat split; auto; try (repeat constructor; cbn; intuition discriminate); destruct H as [<-|[]]; cbn; lia.
  - cbn. repeat split; auto; discriminate.
  - cbn. repeat split; auto. intros fx z [E|E]; [injection E as <- <-; reflexivity|discriminate].
  - intro H; apply (f_equal snd) in H; cbn in H; lra.
Qed.

(** What a contraction of constants is: the product of the contracted dimensions, times the two constants. *)
Theorem contraction_of_constants : forall ps x y z w, legal_pairs ps (dims x) (dims y) ->
  all_components x z -> all_components y w ->
  all_components (TContract ps x y)
    (Cmult (real_of (INR (product (map (fun p => nth (fst p) (dims x) 0) ps)))) (Cmult z w)).
Proof. exact contract_constants. Qed.
Print Assumptions contraction_of_constants.

(** The claim is right exactly if the dimensions of the *result* at the left operand's contracted positions exist and
    have the same product as the contracted ones. *)
Theorem contraction_of_constants_exact : forall ps ds es z w i, legal_pairs ps ds es -> z <> C0 -> w <> C0 ->
  let e := TContract ps (TConst ds z) (TConst es w) in in_range i (dims e) ->
  ((exists fx v, constant_claim e = Value fx v /\ all_components e v) <->
   ((forall p, In p ps -> fst p < length (dims e)) /\
    product (map (fun p => nth (fst p) (dims e) 0) ps) = product (map (fun p => nth (fst p) ds 0) ps))).
Proof.
  intros ps ds es z w i L Z W e R.
  assert (V : all_components e (Cmult (real_of (INR (product (contracted ps ds)))) (Cmult z w))).
  { apply (contract_constants ps (TConst ds z) (TConst es w)); [exact L|now intros j _|now intros j _]. }
  assert (E : constant_claim e = times_factor (factor (dims e) ps) (Value false (Cmult z w))) by reflexivity.
  assert (F : (forall p, In p ps -> fst p < length (dims e)) ->
              factor (dims e) ps = Some (product (map (fun p => nth (fst p) (dims e) 0) ps))).
  { intro H; apply (factor_contracted (dims e) (dims e)); auto. }
  split.
  - intros [fx [v [H A]]]. rewrite E in H. apply times_value in H. destruct H as (m & fc & u & Hm & Hu & ->).
    injection Hu as <- <-.
    assert (B : forall p, In p ps -> fst p < length (dims e)).
    { revert Hm; generalize (dims e); clear; intros ds; revert m; induction ps as [|p ps IH]; intros m H q Q; [destruct Q|].
      cbn in H. destruct (nth_error ds (fst p)) eqn:N; [|discriminate]. destruct (factor ds ps) as [m'|] eqn:G; [|discriminate].
      destruct Q as [<-|Q]; [|now apply (IH m')]. apply nth_error_Some; congruence. }
    split; [exact B|]. rewrite (F B) in Hm; injection Hm as <-.
    pose proof (A i R) as A1; rewrite (V i R) in A1. unfold contracted in A1.
    assert (N : Cmult z w <> RtoC 0) by (apply Cmult_neq_0; assumption).
    revert A1 N; generalize (Cmult z w); intros u A1 N. apply (f_equal (fun q => Cmult q (Cinv u))) in A1.
    rewrite <- !Cmult_assoc, Cinv_r, !Cmult_1_r in A1 by assumption.
    injection A1 as A1. symmetry; now apply INR_eq.
  - intros [B P]. exists false, (Cmult (real_of (INR (product (contracted ps ds)))) (Cmult z w)); split; [|exact V].
    rewrite E, (F B), P; reflexivity.
Qed.
Print Assumptions contraction_of_constants_exact.
Example contraction_of_constants_example : legal_pairs [(1, 0)] [2; 3] [3; 3] /\ C1 <> C0 /\
  in_range [1; 2] (dims (TContract [(1, 0)] (ones [2; 3]) (ones [3; 3]))) /\
  product (map (fun p => nth (fst p) (dims (TContract [(1, 0)] (ones [2; 3]) (ones [3; 3]))) 0) [(1, 0)]) = 3.
Proof.
  repeat split; try (repeat constructor; cbn; intuition discriminate); try (destruct H as [<-|[]]; cbn; lia);
    try (repeat constructor; lia).
  intro H; injection H; lra.
Qed.

(** Products of square matrices are in order. *)
Theorem square_matrix_product : forall n z w,
  exists fx v, constant_claim (TContract [(1, 0)] (TConst [n; n] z) (TConst [n; n] w)) = Value fx v /\
    v = Cmult (real_of (INR n)) (Cmult z w) /\ all_components (TContract [(1, 0)] (TConst [n; n] z) (TConst [n; n] w)) v.
Proof.
  intros n z w. exists false, (Cmult (real_of (INR (n * 1))) (Cmult z w)); split; [reflexivity|].
  split; [now rewrite Nat.mul_1_r|].
  apply (contract_constants [(1, 0)] (TConst [n; n] z) (TConst [n; n] w)); [|now intros j _|now intros j _].
  repeat split; try (repeat constructor; cbn; intuition discriminate); destruct H as [<-|[]]; cbn; lia.
Qed.
Print Assumptions square_matrix_product.

Ltac legal1 := cbn; repeat split; auto; try (repeat constructor; cbn; intuition discriminate);
  repeat match goal with H : In _ (_ :: _) |- _ => destruct H as [<-|H] | H : In _ [] |- _ => destruct H | H : _ \/ _ |- _ => destruct H as [<-|H] | H : False |- _ => destruct H end; cbn; try lia.

(** A 2x3 matrix of ones times a 3x4 one is called the constant 4; its components are 3. *)
Theorem matrix_product_constant_refuted :
  let e := TContract [(1, 0)] (ones [2; 3]) (ones [3; 4]) in
  legal e /\ constant_claim e = Value false (Cmult (real_of (INR 4)) (Cmult C1 C1)) /\
  all_components e (real_of 3) /\ Cmult (real_of (INR 4)) (Cmult C1 C1) <> real_of 3.
Proof.
  cbv zeta. assert (L : legal (TContract [(1, 0)] (ones [2; 3]) (ones [3; 4]))) by legal1.
  split; [exact L|split; [reflexivity|split]].
  - replace (real_of 3) with (Cmult (real_of (INR (product [3]))) (Cmult C1 C1)).
    + apply (contract_constants [(1, 0)] (ones [2; 3]) (ones [3; 4])); [apply L|now intros j _|now intros j _].
    + unfold Cmult, real_of, C1; cbn; f_equal; ring.
  - intro H; apply (f_equal fst) in H; cbn in H; lra.
Qed.
Print Assumptions matrix_product_constant_refuted.

(** A matrix times a vector, or the inner product of two vectors: a dimension is read that does not exist. *)
Theorem matrix_vector_product_refuted :
  legal (TContract [(1, 0)] (ones [2; 3]) (ones [3])) /\
  constant_claim (TContract [(1, 0)] (ones [2; 3]) (ones [3])) = OutOfBounds /\
  legal (TContract [(0, 0)] (ones [3]) (ones [3])) /\
  constant_claim (TContract [(0, 0)] (ones [3]) (ones [3])) = OutOfBounds.
Proof. split; [legal1|split; [reflexivity|split; [legal1|reflexivity]]]. Qed.
Print Assumptions matrix_vector_product_refuted.

(** The outer product of a constant diagonal matrix and a constant vector: the second element of an empty array of pairs
    is read. *)
Theorem outer_product_refuted :
  let e := TContract [] (TDiag 2 true C1) (ones [2]) in
  legal e /\ constant_claim e = OutOfBounds /\ diagonal_claim e = OutOfBounds.
Proof. split; [legal1|split; reflexivity]. Qed.
Print Assumptions outer_product_refuted.

(** Two pairs of indices, the identity matrix and ones: the trace is 2, the claim is 3; and the result, all of whose
    components are the same, is also called a constant diagonal. *)
Theorem two_pairs_refuted :
  let e := TContract [(0, 0); (1, 1)] (TDiag 2 true C1) (ones [2; 2; 3; 3]) in
  legal e /\ dims e = [3; 3] /\
  constant_claim e = Value false (Cmult (real_of (INR 3)) (Cmult C1 C1)) /\ tcoef e [0; 0] = real_of 2 /\
  diagonal_claim e = Value false (Cmult (real_of (INR 3)) (Cmult C1 C1)) /\ tcoef e [0; 1] = real_of 2.
Proof.
  split; [legal1|split; [reflexivity|split; [reflexivity|split; [|split; [reflexivity|]]]]];
    cbn; unfold csum, Cplus, Cmult, C0, C1, real_of; cbn; f_equal; ring.
Qed.
Print Assumptions two_pairs_refuted.

(** Zero minus a constant is called that constant. *)
Theorem zero_minus_refuted :
  let e := TBin Difference (TFixed [2] C0) (ones [2]) in
  legal e /\ constant_claim e = Value false C1 /\ all_components e (Copp C1) /\ Copp C1 <> C1.
Proof.
  split; [legal1|split; [unfold constant_claim, const; cbn; unfold binary_const, tzero; cbn; now rewrite Ceqb_refl|split]].
  - intros i _; cbn. unfold Cminus, Cplus, Copp, C0, C1; cbn; f_equal; ring.
  - intro H; apply (f_equal fst) in H; cbn in H; lra.
Qed.
Print Assumptions zero_minus_refuted.

(** The component-wise product of two constant matrices is called a constant diagonal one. *)
Theorem product_of_constants_refuted :
  let e := TBin Product (ones [2; 2]) (ones [2; 2]) in
  legal e /\ diagonal_claim e = Value false (Cmult C1 C1) /\ tcoef e [0; 1] = C1.
Proof. split; [legal1|split; [reflexivity|]]. cbn. unfold Cmult, C1; cbn; f_equal; ring. Qed.
Print Assumptions product_of_constants_refuted.

(** A Hermitian matrix times i is called Hermitian. *)
Theorem imaginary_multiple_refuted :
  let e := TContract [(1, 0)] (TDiag 2 true (0, 1)%R) (THerm 2 (fun a b => if Nat.eqb a b then C1 else C0)) in
  legal e /\ sound_use e /\ hermitian_claim Kcplx e = true /\ dims e = [2; 2] /\ ~ conj_symmetric e 2.
Proof.
  split; [|split; [|split; [reflexivity|split; [reflexivity|]]]].
  - cbn; repeat split; try (repeat constructor; cbn; intuition discriminate); try (destruct H as [<-|[]]; cbn; lia).
    intros a b _ _. rewrite Nat.eqb_sym. destruct (Nat.eqb b a); [now rewrite Cconj1|now rewrite Cconj0].
  - cbn. repeat split; auto; discriminate.
  - intro H; specialize (H 0 0 ltac:(lia) ltac:(lia)); apply (f_equal snd) in H; cbn in H; lra.
Qed.
Print Assumptions imaginary_multiple_refuted.

(** ** C110. *)

(** A component that is set is read back, the others stay as they were, and the tensor keeps its shape; any number of
    indices, either order of storage. *)
Theorem component_read_back : forall (A : Type) (t : storage A) v i, proper t -> in_range i (s_dims t) ->
  exists t', set_component t v i = Got t' /\ get_component t' i = Got v /\
    (forall j, in_range j (s_dims t) -> j <> i -> get_component t' j = get_component t j) /\
    proper t' /\ s_dims t' = s_dims t /\ s_right t' = s_right t.
Proof.
  intros A t v i P R. pose proof (offset_lt t i R) as L; rewrite <- P in L.
  eexists; split; [now apply set_in_range|]. split; [|split; [|split; [|split; reflexivity]]].
  - rewrite get_in_range by assumption. unfold offset in *; cbn. now rewrite replace_same.
  - intros j J D. rewrite !get_in_range by assumption. unfold offset at 1; cbn.
    rewrite replace_other; [reflexivity|exact L|]. intro E; apply D. now apply (offset_inj t).
  - unfold proper; cbn. now rewrite replace_length.
Qed.
Print Assumptions component_read_back.

(** Every component in range can be read, at the place its indices say. *)
Theorem component_place : forall (A : Type) (t : storage A) i, proper t -> in_range i (s_dims t) ->
  exists v, get_component t i = Got v /\
    nth_error (s_data t) (if s_right t then place_right (s_dims t) i else place_left 1 (s_dims t) i) = Some v.
Proof.
  intros A t i P R. destruct (get_total t i P R) as [v G]; exists v; split; [exact G|].
  rewrite get_in_range in G by assumption. rewrite <- offset_place by assumption.
  destruct (nth_error (s_data t) (offset t i)); congruence.
Qed.
Print Assumptions component_place.

(** Different indices are different components, and every element of the array is one. *)
Theorem component_places_are_all : forall (A : Type) (t : storage A) n, proper t -> n < length (s_data t) ->
  exists i, (in_range i (s_dims t) /\ (if s_right t then place_right (s_dims t) i else place_left 1 (s_dims t) i) = n) /\
    forall j, in_range j (s_dims t) ->
      (if s_right t then place_right (s_dims t) j else place_left 1 (s_dims t) j) = n -> j = i.
Proof.
  intros A t n P H. destruct (offset_onto t n P H) as [i [R E]]. exists i; split; [rewrite <- offset_place by assumption; auto|].
  intros j J Q. rewrite <- offset_place in Q by assumption. apply (offset_inj t); congruence.
Qed.
Print Assumptions component_places_are_all.

(** The wrong number of indices is refused, and nothing else is. *)
Theorem component_index_count : forall (A : Type) (t : storage A) v i,
  ((get_component t i = TooMany \/ set_component t v i = TooMany) <-> length (s_dims t) < length i) /\
  ((get_component t i = NotEnough \/ set_component t v i = NotEnough) <-> length i < length (s_dims t)) /\
  (get_component t i = TooMany <-> set_component t v i = TooMany) /\
  (get_component t i = NotEnough <-> set_component t v i = NotEnough).
Proof.
  intros A t v i. destruct (Nat.lt_trichotomy (length i) (length (s_dims t))) as [H|[H|H]].
  - unfold get_component, set_component; rewrite make_ix_few by assumption.
    repeat split; intros; try tauto; try lia; try discriminate; intuition discriminate.
  - assert (G : get_component t i <> TooMany /\ get_component t i <> NotEnough).
    { unfold get_component; rewrite make_ix_same by assumption. destruct (nth_error (s_data t) (offset t i)); split; discriminate. }
    assert (S : set_component t v i <> TooMany /\ set_component t v i <> NotEnough).
    { unfold set_component; rewrite make_ix_same by assumption. destruct (Nat.ltb (offset t i) (length (s_data t))); split; discriminate. }
    repeat split; intros; try lia; tauto.
  - unfold get_component, set_component; rewrite make_ix_many by assumption.
    repeat split; intros; try tauto; try lia; try discriminate; intuition discriminate.
Qed.
Print Assumptions component_index_count.

Definition cube (right : bool) : storage nat := mkstorage [2; 3; 2] right (seq 0 12).
Example component_example : proper (cube true) /\ proper (cube false) /\ in_range [1; 2; 0] (s_dims (cube true)) /\
  get_component (cube true) [1; 2; 0] = Got 10 /\ get_component (cube false) [1; 2; 0] = Got 5.
Proof. repeat split; repeat constructor; cbn; lia. Qed.

(** An index that is out of range is not noticed: another component is read or written. *)
Theorem component_out_of_range_refuted :
  exists (t : storage nat) i j t', proper t /\ length i = length (s_dims t) /\ ~ in_range i (s_dims t) /\
    in_range j (s_dims t) /\ get_component t i = get_component t j /\ (exists v, get_component t i = Got v) /\
    set_component t 9 i = Got t' /\ get_component t' j = Got 9 /\ get_component t j <> Got 9.
Proof.
  exists (mkstorage [2; 2] false [10; 11; 12; 13]), [2; 0], [0; 1], (mkstorage [2; 2] false [10; 11; 9; 13]).
  split; [reflexivity|split; [reflexivity|split; [|split; [repeat constructor; lia|split; [reflexivity|split; [|split; [reflexivity|split; [reflexivity|]]]]]]]].
  - intro H; inversion H; lia.
  - eexists; reflexivity.
  - discriminate.
Qed.
Print Assumptions component_out_of_range_refuted.
