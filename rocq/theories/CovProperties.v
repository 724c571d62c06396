(** * Properties of the covariance classes (C28-C32).

    [L] is any linear-algebra back end satisfying the contract [lib_ok] of LibModel.v; [exact_lib] is one. *)
From mathcomp Require Import all_ssreflect all_algebra.
From mathcomp.real_closed Require Import realalg.
From Verif Require Import MatBase LibModel CovModel CovSpec CovProofs SqrtModel SqrtSpec SqrtProofs
  ViewModel ViewSpec ViewProofs CovProofs2.
Set Implicit Arguments.
Unset Strict Implicit.
Unset Printing Implicit Defensive.
Import GRing.Theory Num.Theory Order.Theory.
Local Open Scope ring_scope.

Local Arguments cholf : simpl never.

(** Real closed fields exist (real algebraic numbers), and so does a back end meeting the contract. *)
Example field_exists : rcfType := [rcfType of realalg].
Example backend_exists (R : rcfType) : lib_ok (exact_lib R). Proof. exact: exact_lib_ok. Qed.

(** C28.  Every history of operations on Cholesky-form covariances runs without an exception and every result it
    returns is the one of plain matrix values. *)
Theorem covariance_history (R : rcfType) (L : lib R) (n : nat) (os : seq (op R n)) :
  lib_ok L -> all_allowed (fun _ => 0) os ->
  exists2 sb, run L (@store0 R n) os = Some sb & all_return (fun _ => 0) os sb.2.
Proof. by move=> LK; apply: run_ok => //; exact: reps0. Qed.
Print Assumptions covariance_history.

(** A history mixing all the representations satisfies the hypothesis. *)
Example covariance_history_nonvacuous (R : rcfType) :
  let I := (1%:M : 'M[R]_2) in
  all_allowed (fun _ => 0)
    [:: OSelfAdj 0 (2%:R *: I); OFactor 1 I; OSub R 2 0 1; OTri R 2 0; OAdd R 2 0 0; OMul 2 0 (3%:R);
        OElem R 0 0 1; OSet 0 0 1 1; OElem R 0 1 0; OCopy R 2 2 0; OSelfAdj 0 I; ORank 0 (I : 'M_(2, 2)) 1;
        OScale 2 0 (-1); OInvScale 2 0 (2%:R); ODiv 2 0 (2%:R); ODet R 2 0; OMatrix R 2 0].
Proof.
have p1 : posdef (1%:M : 'M[R]_2) := @posdef1 R 2.
have E : (2%:R *: 1%:M - 1%:M * (1%:M)^T : 'M[R]_2) = 1%:M.
  by rewrite trmx1 mulr1 (mulr2n (1 : R)) scalerDl scale1r addrK.
rewrite /= /vset /= -[1%:M *m _]/(1%:M * (1%:M)^T) E.
do !split=> //; try (by rewrite ?linearZ /= ?trmx1); try exact: scalar_mx_is_trig;
  rewrite ?ler0n ?ltr0n ?pnatr_eq0 ?ltr01 //; try (by left).
by left; rewrite trmx1 mulr1.
Qed.

(** C28, self-adjoint storage: the object is the plain matrix. *)
Theorem covariance_self_adjoint_form (R : rcfType) (n : nat) (P : 'M[R]_n) (o : op1 R n) :
  (forall a, (o = A1Div n a \/ o = A1InvScale n a) -> a != 0) ->
  step1 P o = Some (plain1 P o).
Proof. exact: step1_ok. Qed.
Print Assumptions covariance_self_adjoint_form.

Example covariance_self_adjoint_form_nonvacuous (R : rcfType) :
  forall a, (A1Div 2 (2%:R : R) = A1Div 2 a \/ A1Div 2 (2%:R : R) = A1InvScale 2 a) -> a != 0.
Proof. by move=> a [] // [<-]; rewrite pnatr_eq0. Qed.

(** C28, negative scalars: the claim fails.  Two histories leave the same covariance, but multiplying it by -1 throws
    after one and yields minus the covariance after the other. *)
Theorem covariance_negative_scalar_refuted (R : rcfType) (L : lib R) : lib_ok L ->
  exists os1 os2 : seq (op R 2),
  [/\ foldl (@plain R 2) (fun _ => 0) os1 0%N = foldl (@plain R 2) (fun _ => 0) os2 0%N,
      run L (@store0 R 2) (os1 ++ [:: OMul 2 0 (-1)]) = None &
      exists2 sb, run L (@store0 R 2) (os2 ++ [:: OMul 2 0 (-1); OElem R 0 0 0]) = Some sb &
        sb.2 = [:: VNone R 2; VNone R 2; VScalar 2 (-1)]].
Proof. by move=> LK; eexists; eexists; exact: (mul_negative_proof LK). Qed.
Print Assumptions covariance_negative_scalar_refuted.

(** C29.  Copy assignment does not copy the value: after a = b, a can read as one of its own earlier values. *)
Theorem covariance_assignment_refuted (R : rcfType) (L : lib R) : lib_ok L ->
  let I := (1%:M : 'M[R]_2) in
  let os := [:: OSelfAdj 0 I; OFactor 0 I; OSelfAdj 1 (2%:R *: I); OAssign R 2 0 1; OElem R 0 0 0] in
  [/\ I^T = I, is_trig_mx I, (2%:R *: I)^T = 2%:R *: I &
      exists2 sb, run L (@store0 R 2) os = Some sb & ~ all_return (fun _ => 0) os sb.2].
Proof. by move=> _; exact: assign_refuted_proof. Qed.
Print Assumptions covariance_assignment_refuted.

(** C29, partial: if both representations of the assigned-to covariance were read just before the assignment, it does
    copy the value (and leaves the source unchanged), whatever the histories.  Missing: every other assignment. *)
Theorem covariance_assignment_partial (R : rcfType) (L : lib R) (n : nat) (os : seq (op R n)) (i j : nat) :
  lib_ok L -> all_allowed (fun _ => 0) os ->
  let v := foldl (@plain R n) (fun _ => 0) os in
  good (v i) ->
  exists s bs T,
    run L (@store0 R n) (os ++ [:: OTri R n i; OMatrix R n i; OAssign R n i j; OMatrix R n i; OMatrix R n j])
    = Some (s, bs ++ [:: VFactor T; VMatrix (v i); VNone R n; VMatrix (v j); VMatrix (v j)]).
Proof.
move=> LK al v g; have [[s bs] [e _ r]] := run_reps LK (reps0 R n) al.
have [s' [T e']] := assign_after_read LK j r g.
by exists s', bs, T; rewrite run_cat e e'.
Qed.
Print Assumptions covariance_assignment_partial.

Example covariance_assignment_nonvacuous (R : rcfType) :
  let os := [:: OSelfAdj 0 (1%:M : 'M[R]_2); OFactor 1 (2%:R *: 1%:M)] in
  all_allowed (fun _ => 0) os /\ good (foldl (@plain R 2) (fun _ => 0) os 0%N).
Proof.
split; last by left; exact: posdef1.
do !split; first by rewrite /= trmx1.
by rewrite /= scale_scalar_mx; exact: scalar_mx_is_trig.
Qed.

(** C30.  rank_update adds a U U^T: for Cholesky-form covariances after any history, and for self-adjoint ones in every
    dimension, one included. *)
Theorem covariance_rank_update (R : rcfType) (L : lib R) (n : nat) (os : seq (op R n)) (i m : nat)
    (U : 'M[R]_(n, m)) (a : R) :
  lib_ok L -> all_allowed (fun _ => 0) os ->
  let v := foldl (@plain R n) (fun _ => 0) os in
  good (v i) -> 0 < a \/ posdef (v i + a *: (U *m U^T)) ->
  exists s bs, run L (@store0 R n) (os ++ [:: ORank i U a; OMatrix R n i])
               = Some (s, bs ++ [:: VNone R n; VMatrix (v i + a *: (U *m U^T))]).
Proof.
move=> LK al v g h; have [[s bs] [e _ r]] := run_reps LK (reps0 R n) al.
have al2 : all_allowed v [:: ORank i U a; OMatrix R n i] by [].
have [[s' bs'] e'] := run_ok LK r al2.
rewrite run_cat e e'; case: bs' {e'} => [[]|b1 [[]|b2 [|]]] //=; last by move=> ? ? [_ []].
by rewrite /vset eqxx => -[-> [-> _]]; eexists; eexists; reflexivity.
Qed.
Print Assumptions covariance_rank_update.

Theorem covariance_rank_update_self_adjoint (R : rcfType) (n m : nat) (P : 'M[R]_n) (U : 'M[R]_(n, m)) (a : R) :
  step1 P (A1Rank U a) = Some (P + a *: (U *m U^T)).
Proof. by rewrite -[RHS]/(Some (plain1 P (A1Rank U a))); apply: step1_ok => b []. Qed.
Print Assumptions covariance_rank_update_self_adjoint.

Example covariance_rank_update_nonvacuous (R : rcfType) :
  let os := [:: OSelfAdj 0 (1%:M : 'M[R]_2)] in
  all_allowed (fun _ => 0) os /\ good (foldl (@plain R 2) (fun _ => 0) os 0%N).
Proof. by split; [split; rewrite //= trmx1|left; exact: posdef1]. Qed.

(** C31.  Every history of a SquareRootCovariance stored in self-adjoint form returns what plain triangular matrices
    return, provided scalar factors are not negative. *)
Theorem square_root_history (R : rcfType) (L : lib R) (n : nat) (os : seq (qop R n)) :
  lib_ok L -> qall (@qallowed R n) (fun _ => 0) os ->
  exists2 sb, qrun L (@qstore0 R n) os = Some sb & qall_return (fun _ => 0) os sb.2.
Proof. by move=> LK; apply: qrun_ok => //; exact: qreps0. Qed.
Print Assumptions square_root_history.

Example square_root_history_nonvacuous (R : rcfType) :
  let I := (1%:M : 'M[R]_2) in
  qall (@qallowed R 2) (fun _ => 0)
    [:: QSelfAdj 0 I; QFactor 1 I; QAdd R 2 0 1; QMul 2 0 (3%:R); QSub R 2 0 1; QMulTri R 2 0 0; QSquare R 2 0;
        QDiv 2 0 (2%:R); QSet 0 1 0 1; QTri R 2 0; QDet R 2 0; QSelfAdj 1 I; QRank 1 I 0; QElem R 1 0 0].
Proof.
have e : lchol (exact_lib R) (1%:M : 'M[R]_2) = cholf 1%:M by [].
have e1 := @lchol_1 R _ (exact_lib_ok R); rewrite e in e1.
do !split=> //; try (by left; exact: posdef1); try exact: scalar_mx_is_trig; try exact: ler0n; try exact: ltr0Sn.
rewrite /= /vset /= e1 scale0r addr0 trmx1 mulmx1; left; exact: posdef1.
Qed.

(** C31, triangular storage: every in-place operation acts on the triangular matrix itself and keeps it triangular. *)
Theorem square_root_triangular_form (R : rcfType) (L : lib R) (n : nat) (T : 'M[R]_n) (o : qop1 R n) :
  lib_ok L -> is_trig_mx T -> q1_allowed T o ->
  exists2 T', qstep1 L T o = Some T' & q1_result T o T' /\ is_trig_mx T'.
Proof. exact: qstep1_ok. Qed.
Print Assumptions square_root_triangular_form.

Example square_root_triangular_form_nonvacuous (R : rcfType) :
  is_trig_mx (1%:M : 'M[R]_2) /\ q1_allowed (1%:M : 'M[R]_2) (B1Rank (1%:M : 'M[R]_2) (2%:R)).
Proof. by split; [exact: scalar_mx_is_trig|left; rewrite ltr0n]. Qed.

(** C31 with negative scalars: the claim fails.  Multiplying by -1 gives a different matrix depending on whether an element
    was read before. *)
Theorem square_root_negative_scalar_refuted (R : rcfType) (L : lib R) : lib_ok L ->
  let ops := [:: QSelfAdj 0 (1%:M : 'M[R]_2); QMul 2 0 (-1); QElem R 0 0 0] in
  let ops_read := [:: QSelfAdj 0 (1%:M : 'M[R]_2); QElem R 0 0 0; QMul 2 0 (-1); QElem R 0 0 0] in
  [/\ qall (@qallowed_signed R 2) (fun _ => 0) ops,
      (exists2 sb, qrun L (@qstore0 R 2) ops = Some sb & ~ qall_return (fun _ => 0) ops sb.2) &
      exists2 sb, qrun L (@qstore0 R 2) ops_read = Some sb & qall_return (fun _ => 0) ops_read sb.2].
Proof. exact: sq_neg_proof. Qed.
Print Assumptions square_root_negative_scalar_refuted.

(** C32, partial: in every interleaving of updates through an owner and through its square-root view, all reads agree with
    a single shared value, provided the factor has been read (or written) through either since the owner last changed when it
    is updated in place through the view (rank_update excepted).  Missing: view updates without that read (refuted below). *)
Theorem view_coherence_partial (R : rcfType) (L : lib R) (n : nat) (os : seq (op R n + vop R n)) :
  lib_ok L -> vall (fun _ => 0) (fun _ => None) os ->
  exists2 sb, vrun L (@store0 R n) os = Some sb & vpath (fun _ => 0) (fun _ => None) os sb.2.
Proof. by move=> LK; apply: vrun_ok => //; exact: reps0. Qed.
Print Assumptions view_coherence_partial.

Example view_coherence_nonvacuous (R : rcfType) :
  let I := (1%:M : 'M[R]_2) in
  vall (fun _ => 0) (fun _ => None)
    [:: inl (OSelfAdj 0 I); inr (VRank 0 I 1); inl (OSelfAdj 0 I); inr (VTri R 2 0); inr (VAdd 0 I);
        inl (OMatrix R 2 0); inr (VMul 2 0 (-1)); inl (OElem R 0 0 0)].
Proof.
move=> /=; split; first by rewrite trmx1.
move=> b v f [_ -> ->]; split; first by split; [left; exact: posdef1|left; exact: ltr01].
move=> {b v f} b v f [_ -> ->]; split; first by rewrite trmx1.
move=> {b v f} b v f [_ -> ->]; split; first by left; rewrite /vset /=; exact: posdef1.
move=> {b v f} b v f [T [_ tT _ -> ->]]; split; first by split=> //; exact: scalar_mx_is_trig.
by move=> {b v f} b v f [T' [_ _ -> ->]]; split=> // {b v f} b v f [_ -> ->]; split.
Qed.

(** C32 fails in general: after owner(0,0) = 5, adding a zero matrix through the view makes the owner read 1 again. *)
Theorem view_coherence_refuted (R : rcfType) (L : lib R) : lib_ok L ->
  let I := (1%:M : 'M[R]_2) in
  (exists2 sb, vrun L (@store0 R 2)
     [:: inl (OFactor 0 I); inl (OSet 0 0 0 5%:R); inr (VAdd 0 0); inl (OElem R 0 0 0)] = Some sb &
     sb.2 = [:: VNone R 2; VNone R 2; VNone R 2; VScalar 2 1]) /\
  (exists2 sb, vrun L (@store0 R 2)
     [:: inl (OFactor 0 I); inl (OSelfAdj 0 (4%:R *: I)); inr (VConstElem R 0 0 0)] = Some sb &
     sb.2 = [:: VNone R 2; VNone R 2; VScalar 2 1]).
Proof. by move=> _; split; [exact: view_lost_proof|exact: view_stale_proof]. Qed.
Print Assumptions view_coherence_refuted.
