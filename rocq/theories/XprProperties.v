(** * C89: what the library says about the structure of an Eigen expression is true of its components. *)
From Coq Require Import Reals ZArith List Bool Lia Lra.
From Coquelicot Require Import Coquelicot.
From Verif Require Import XprEigen XprModel XprSpec XprScalars XprProofs XprProofs2 XprProofs3 XprProofs4 XprProofs5 XprSizes.
Import ListNotations.
Local Open Scope nat_scope.

(** ** Soundness.  [safe] leaves out the uses refuted below; [ordinary] is a smaller class, stated without the model. *)

Theorem expression_constant_partial e fx z : wf e -> safe e -> constant (traits_of e) = Some (fx, z) -> all_equal e z.
Proof. intros W S. apply (constant_ok _ _ (proj1 (sound_all e W S))). Qed.
Theorem expression_constant_diagonal_partial e fx z : wf e -> safe e ->
  constant_diag (traits_of e) = Some (fx, z) -> diag_equal e z.
Proof. intros W S. apply (constant_diag_ok _ _ (proj1 (sound_all e W S))). Qed.
Theorem expression_triangle_partial e t : wf e -> safe e -> triangular (traits_of e) t = true -> shaped t e.
Proof. intros W S. apply (triangular_ok _ _ (proj1 (sound_all e W S))). Qed.
Theorem expression_hermitian_partial e : wf e -> safe e ->
  (hermitian (traits_of e) = true -> rows e = cols e /\ conj_symmetric e) /\
  (may_be_hermitian (traits_of e) = true -> rows e = cols e -> conj_symmetric e).
Proof.
  intros W S. pose proof (proj1 (sound_all e W S)) as H. split.
  - unfold hermitian. intro E; apply andb_true_iff in E as [E1 E2]. pose proof (square_ok _ _ H E1) as Q.
    split; [exact Q | now apply (herm_body_ok _ _ H)].
  - now apply (may_be_hermitian_ok _ _ H).
Qed.
Theorem ordinary_expression_claims e : wf e -> ordinary e ->
  (forall fx z, constant (traits_of e) = Some (fx, z) -> all_equal e z) /\
  (forall fx z, constant_diag (traits_of e) = Some (fx, z) -> diag_equal e z) /\
  (forall t, triangular (traits_of e) t = true -> shaped t e) /\
  (hermitian (traits_of e) = true -> rows e = cols e /\ conj_symmetric e).
Proof.
  intros W O. pose proof (ordinary_safe e W O) as S. refine (conj _ (conj _ (conj _ _))).
  - intros; eapply expression_constant_partial; eassumption.
  - intros; eapply expression_constant_diagonal_partial; eassumption.
  - intros; eapply expression_triangle_partial; eassumption.
  - apply (proj1 (expression_hermitian_partial e W S)).
Qed.

(** The sizes are right for every expression. *)
Theorem expression_sizes e : wf e ->
  (forall n, t_rows (traits_of e) = Some n -> rows e = n) /\ (forall n, t_cols (traits_of e) = Some n -> cols e = n) /\
  t_nr (traits_of e) = rows e /\ t_nc (traits_of e) = cols e /\ (square (traits_of e) = true -> rows e = cols e).
Proof.
  intro W. pose proof (sized_all e W) as S. refine (conj (z_rows _ _ S) (conj (z_cols _ _ S) (conj (z_nr _ _ S) (conj (z_nc _ _ S) _)))).
  apply (sized_square _ _ S).
Qed.

(** The combination of triangle types is exact: a product of types is the union of the zero regions (component-wise
    products), a sum the intersection (component-wise sums), and a type counts as another if its zero region is larger. *)
Theorem triangle_operations a b i j :
  (outside (tmul a b) i j <-> outside a i j \/ outside b i j) /\
  (outside (tadd a b) i j <-> outside a i j /\ outside b i j).
Proof. destruct a, b; simpl; lia. Qed.
Theorem triangle_match a b : a <> Tnone -> (tmatch a b = true <-> forall i j, outside a i j -> outside b i j).
Proof.
  intro N. destruct a, b; simpl; try tauto; (split; [try discriminate; intros; try lia; try tauto|]); try reflexivity; intro H.
  all: try (specialize (H 0 1); specialize (H ltac:(lia)); lia).
  all: try (pose proof (H 0 1); pose proof (H 1 0); lia).
Qed.

(** ** Cases that meet the hypotheses. *)
Definition d1 := mkdim 1 true.
Definition d2 := mkdim 2 true.
Definition d3 := mkdim 3 true.
Definition x2 := mkdim 2 false.
Definition re (x : R) : C := (x, 0%R).
Definition ci : C := (0%R, 1%R).
Definition dense2 : expr := EDense Kreal d2 d2 (fun i j => re (INR (1 + i + 2 * j))).

Ltac xcbv := cbv -[Req_EM_T Rlt_dec Rle_dec IZR Rplus Rmult Ropp Rinv Rminus Rdiv sqrt cos sin exp ln PI atan Rmin Rmax Rabs INR not].
Ltac xdec := xcbv; repeat (match goal with
  | |- context [Req_EM_T ?a ?b] => destruct (Req_EM_T a b); try (exfalso; lra)
  | |- context [Rlt_dec ?a ?b] => destruct (Rlt_dec a b); try (exfalso; lra)
  | |- context [Rle_dec ?a ?b] => destruct (Rle_dec a b); try (exfalso; lra) end); try reflexivity; try lra.

(** The product of an identity matrix and twice an identity matrix, reversed in both directions. *)
Example expression_claims_case :
  let e := ERev Both (EProd (EIdent Kreal d2 d2) (EBin BPlus (EIdent Kreal d2 d2) (EIdent Kreal d2 d2))) in
  wf e /\ ordinary e /\ (exists z, constant_diag (traits_of e) = Some (true, z) /\ fst z = 2%R) /\
  triangular (traits_of e) Tlower = true /\ hermitian (traits_of e) = true /\ square (traits_of e) = true.
Proof.
  refine (conj _ (conj _ (conj _ (conj _ (conj _ _))))); try reflexivity.
  - simpl; repeat split; intros; discriminate.
  - simpl; repeat split.
  - eexists; split; [reflexivity | simpl; ring].
Qed.
Example expression_constant_case :
  let e := ERedux RSum false (EUn UNeg (EConst Kreal x2 d3 (re 2))) in
  wf e /\ safe e /\ exists z, constant (traits_of e) = Some (false, z) /\ fst z = (-4)%R.
Proof.
  refine (conj _ (conj _ _)).
  - simpl; repeat split; lia.
  - simpl. split; [tauto|]. intro H; discriminate H.
  - eexists; split; [reflexivity | simpl; ring].
Qed.
Example expression_triangle_case :
  let e := EBin BPlus (ETri true Plain dense2) (EIdent Kreal d2 d2) in
  wf e /\ ordinary e /\ triangular (traits_of e) Tupper = true /\ triangular (traits_of e) Tlower = false /\
  hermitian (traits_of e) = false.
Proof.
  refine (conj _ (conj _ (conj _ (conj _ _)))).
  - simpl; repeat split; intros; try reflexivity; discriminate.
  - simpl; tauto.
  - xdec.
  - xdec.
  - xdec.
Qed.

(** ** Claims that are false: one use for each exclusion of [safe]. *)

(** 0 - y, 0 != y, ...: a functor described as a sum is taken to give its other operand when one is zero. *)
Theorem zero_operand_refuted b : In b [BMinus; BNe; BGt; BLt; BHypot; BAbsDiff; BXor; BNumNe] ->
  wrong_constant (EBin b (EFixed Kreal d2 d2 C0) (EFixed Kreal d2 d2 (re (-2)))) (re (-2)).
Proof.
  intro H. refine (conj _ (conj _ _)).
  - simpl; repeat split; reflexivity.
  - exists true. repeat (destruct H as [<-|H]; [xdec|]). destruct H.
  - intro A. specialize (A 0 0 ltac:(simpl; lia) ltac:(simpl; lia)).
    apply (f_equal fst) in A. revert A. repeat (destruct H as [<-|H]; [ | ]); [..|destruct H].
    all: try (xdec; fail).
    + xdec. intro A. pose proof (sqrt_pos (0 * (0 * 1) + -2 * (-2 * 1))). lra.
    + xcbv. intro A. pose proof (Rabs_pos (0 - -2)). lra.
Qed.
(** The component-wise product of two constant matrices is said to be diagonal. *)
Theorem constant_product_diagonal_refuted :
  exists z, wrong_diagonal (EBin BTimes (EConst Kreal d2 d2 (re 2)) (EConst Kreal d2 d2 (re 3))) z.
Proof.
  eexists; refine (conj _ (conj _ _)); [simpl; repeat split; reflexivity| exists false; reflexivity |].
  intro A. specialize (A 0 1 ltac:(simpl; lia) ltac:(simpl; lia)). apply (f_equal fst) in A. simpl in A. lra.
Qed.
(** Eigen's numext::equal_to compares numbers; the library compares them as Booleans. *)
Theorem number_comparison_refuted :
  wrong_constant (EBin BNumEq (EFixed Kreal d2 d2 (re 2)) (EFixed Kreal d2 d2 (re 3))) C1.
Proof.
  refine (conj _ (conj _ _)); [simpl; repeat split; reflexivity| exists true; xdec |].
  intro A. specialize (A 0 0 ltac:(simpl; lia) ltac:(simpl; lia)). apply (f_equal fst) in A. revert A. xdec.
Qed.
(** "2 or 0" is said to be 2. *)
Theorem logical_or_refuted :
  wrong_constant (EBin BOr (EFixed Kreal d2 d2 (re 2)) (EFixed Kreal d2 d2 C0)) (re 2).
Proof.
  refine (conj _ (conj _ _)); [simpl; repeat split; reflexivity| exists true; xdec |].
  intro A. specialize (A 0 0 ltac:(simpl; lia) ltac:(simpl; lia)). apply (f_equal fst) in A. revert A. xdec.
Qed.
(** A lower-triangular matrix repeated downwards is said to be upper triangular; also when it is not repeated at all. *)
Theorem replicate_triangle_refuted rf : In rf [d1; d2] -> wrong_triangle (ERepl rf d1 (ETri false Plain dense2)) Tupper.
Proof.
  intro H. refine (conj _ (conj _ _)).
  - simpl; intros; reflexivity.
  - repeat (destruct H as [<-|H]; [xdec|]). destruct H.
  - intro A. specialize (A 1 0). assert (E : re (INR 2) = C0).
    { apply A; [|simpl; lia|simpl; lia]. repeat (destruct H as [<-|H]; [simpl; lia|]). destruct H. }
    apply (f_equal fst) in E. simpl in E. lra.
Qed.
(** A 1 x 2 identity whose sizes are not in the type, made square by repetition, is said to be Hermitian. *)
Theorem replicate_hermitian_refuted :
  wrong_hermitian (ERepl (mkdim 2 true) (mkdim 1 true) (EIdent Kreal (mkdim 1 false) (mkdim 2 false))).
Proof.
  refine (conj I (conj eq_refl (conj eq_refl _))).
  intro A. specialize (A 0 1 ltac:(simpl; lia) ltac:(simpl; lia)). apply (f_equal fst) in A. simpl in A. lra.
Qed.
(** A matrix that is not square, reversed in both directions. *)
Theorem reverse_diagonal_refuted : wrong_diagonal (ERev Both (EIdent Kreal d2 d3)) C1.
Proof.
  refine (conj I (conj (ex_intro _ true eq_refl) _)).
  intro A. specialize (A 0 0 ltac:(simpl; lia) ltac:(simpl; lia)). apply (f_equal fst) in A. simpl in A. lra.
Qed.
(** Products with an identity that is not square. *)
Theorem product_identity_refuted :
  (exists z, wrong_constant (EProd (EIdent Kreal d2 d1) (EFixed Kreal d1 d2 (re 3))) z) /\
  (exists z, wrong_diagonal (EProd (EIdent Kreal d2 d1) (EIdent Kreal d1 d2)) z) /\
  wrong_hermitian (EProd (EIdent Kreal d2 d1) (EBind1 BPlus C1 (EIdent Kreal (mkdim 1 false) (mkdim 2 false)))).
Proof.
  refine (conj _ (conj _ _)).
  - eexists; refine (conj _ (conj _ _)); [simpl; repeat split; reflexivity| exists true; xdec |].
    intro A. specialize (A 1 0 ltac:(simpl; lia) ltac:(simpl; lia)). apply (f_equal fst) in A. revert A. xdec.
  - eexists; refine (conj _ (conj _ _)); [simpl; repeat split; reflexivity| exists true; xdec |].
    intro A. specialize (A 1 1 ltac:(simpl; lia) ltac:(simpl; lia)). apply (f_equal fst) in A. revert A. xdec.
  - refine (conj _ (conj eq_refl (conj _ _))); [simpl; repeat split; intros; discriminate | xdec |].
    intro A. specialize (A 0 1 ltac:(simpl; lia) ltac:(simpl; lia)). apply (f_equal fst) in A. revert A. xdec.
Qed.
(** Triangular views with a unit diagonal. *)
Theorem unit_triangle_refuted :
  wrong_constant (ETri true UnitDiag (EFixed Kreal d2 d2 C0)) C0 /\
  exists z, wrong_diagonal
    (ETri true UnitDiag (EBin BMin (EFixed Kreal d2 d2 (re 3)) (EDiagVec (EFixed Kreal d2 d1 (re 2))))) z.
Proof.
  split.
  - refine (conj _ (conj _ _)); [simpl; repeat split; reflexivity| exists true; xdec |].
    intro A. specialize (A 0 0 ltac:(simpl; lia) ltac:(simpl; lia)). apply (f_equal fst) in A. revert A. xdec.
  - eexists; refine (conj _ (conj _ _)); [simpl; repeat split; auto| exists true; xdec |].
    intro A. specialize (A 0 0 ltac:(simpl; lia) ltac:(simpl; lia)). apply (f_equal fst) in A. revert A. xdec.
Qed.
(** The angle, and the principal square root, of a Hermitian matrix; and an imaginary number added to one. *)
Theorem complex_hermitian_refuted :
  wrong_hermitian (EUn UArg (EHerm Kcplx d2 (fun i j => if Nat.ltb i j then ci else if Nat.ltb j i then Cconj ci else C0))) /\
  wrong_hermitian (EUn USqrt (EUn UNeg (EIdent Kcplx d2 d2))) /\
  wrong_hermitian (EBind1 BPlus ci (EIdent Kcplx d2 d2)).
Proof.
  refine (conj _ (conj _ _)).
  - refine (conj _ (conj eq_refl (conj eq_refl _))).
    + simpl. split; [|exact I]. split; [intros; exact I|]. intros i j.
      destruct (Nat.ltb_spec i j), (Nat.ltb_spec j i); try lia; unfold Cconj, ci, C0; simpl; f_equal; ring.
    + intro A. specialize (A 0 1 ltac:(simpl; lia) ltac:(simpl; lia)). apply (f_equal fst) in A. revert A.
      cbn [coef kind_of Nat.ltb Nat.leb ueval fst real_of Cconj]. unfold carg.
      cbn [ci Cconj fst snd].
      assert (M1 : Cmod ci = 1%R).
      { unfold Cmod, ci; cbn [fst snd]. rewrite <- sqrt_1 at 2. f_equal; ring. }
      assert (M2 : Cmod (Cconj ci) = 1%R).
      { unfold Cmod, ci, Cconj; cbn [fst snd]. rewrite <- sqrt_1 at 2. f_equal; ring. }
      change (0%R, 1%R) with ci. change (0%R, (-(1))%R) with (Cconj ci). rewrite ?M1, ?M2.
      destruct (Req_EM_T 1 0); [lra|]. destruct (Req_EM_T (- (1)) 0); [lra|].
      replace ((1 - 0) / 1)%R with 1%R by field. replace ((1 - 0) / - (1))%R with (-1)%R by field.
      replace (-1)%R with (-(1))%R by ring. rewrite atan_opp, atan_1. pose proof PI_RGT_0. intro; lra.
  - refine (conj (conj (conj I I) I) (conj eq_refl (conj eq_refl _))).
    intro A. specialize (A 0 0 ltac:(simpl; lia) ltac:(simpl; lia)). apply (f_equal snd) in A. revert A.
    cbn [coef kind_of ureal Nat.eqb ueval]. unfold csqrt.
    assert (M : Cmod (Copp C1) = 1%R).
    { rewrite Cmod_opp. apply Cmod_1. }
    rewrite M. unfold Copp, C1, Cconj; cbn [fst snd]. destruct (Rlt_dec (- 0) 0); [lra|].
    replace ((1 - -(1)) / 2)%R with 1%R by field. rewrite sqrt_1. intro; lra.
  - refine (conj _ (conj eq_refl (conj eq_refl _))); [simpl; repeat split; intros; discriminate|].
    intro A. specialize (A 0 0 ltac:(simpl; lia) ltac:(simpl; lia)). apply (f_equal snd) in A. simpl in A. lra.
Qed.
(** The reduction of a function of a diagonal matrix, where the function does not map 0 to 0. *)
Theorem reduction_function_refuted : exists z, wrong_constant (ERedux RSum false (EUn (Uf Cos) (EIdent Kreal d2 d2))) z.
Proof.
  exists (Cmult (real_of (cos 1)) (real_of (INR 1))).
  refine (conj _ (conj _ _)); [simpl; repeat split; lia| exists true |].
  - unfold constant, traits_of; cbn. unfold fixed_zero; cbn.
    destruct (Ceqb (real_of (cos 1)) C0) eqn:E; [|reflexivity].
    exfalso. apply Ceqb_true in E. apply (f_equal fst) in E. simpl in E.
    pose proof (cos_gt_0 1). pose proof PI2_1. lra.
  - intro A. specialize (A 0 0 ltac:(simpl; lia) ltac:(simpl; lia)). apply (f_equal fst) in A. revert A.
    simpl. rewrite cos_0. lra.
Qed.
(** The reduction of the columns of a 1 x 2 identity. *)
Theorem reduction_single_refuted op : In op [RAll; RProd; RMin] -> wrong_constant (ERedux op false (EIdent Kreal d1 d2)) C0.
Proof.
  intro H. refine (conj _ (conj _ _)).
  - simpl; repeat split; try lia. repeat (destruct H as [<-|H]; [exact I || reflexivity|]). destruct H.
  - exists true. repeat (destruct H as [<-|H]; [xdec|]). destruct H.
  - intro A. specialize (A 0 0 ltac:(simpl; lia) ltac:(simpl; lia)).
    apply (f_equal fst) in A. revert A. repeat (destruct H as [<-|H]; [xdec | ]). destruct H.
Qed.
(** A 2 x 8 identity whose sizes are not in the type, seen as 4 x 4. *)
Theorem reshape_hermitian_refuted :
  wrong_hermitian (EReshape (mkdim 4 true) (mkdim 4 true) (EIdent Kreal (mkdim 2 false) (mkdim 8 false))).
Proof.
  refine (conj (conj I eq_refl) (conj eq_refl (conj eq_refl _))).
  intro A. specialize (A 0 3 ltac:(simpl; lia) ltac:(simpl; lia)). apply (f_equal fst) in A. simpl in A. lra.
Qed.
Print Assumptions expression_constant_partial.
Print Assumptions expression_constant_diagonal_partial.
Print Assumptions expression_triangle_partial.
Print Assumptions expression_hermitian_partial.
Print Assumptions ordinary_expression_claims.
Print Assumptions expression_sizes.
Print Assumptions triangle_operations.
Print Assumptions triangle_match.
Print Assumptions zero_operand_refuted.
Print Assumptions constant_product_diagonal_refuted.
Print Assumptions number_comparison_refuted.
Print Assumptions logical_or_refuted.
Print Assumptions replicate_triangle_refuted.
Print Assumptions replicate_hermitian_refuted.
Print Assumptions reverse_diagonal_refuted.
Print Assumptions product_identity_refuted.
Print Assumptions unit_triangle_refuted.
Print Assumptions complex_hermitian_refuted.
Print Assumptions reduction_function_refuted.
Print Assumptions reduction_single_refuted.
Print Assumptions reshape_hermitian_refuted.
