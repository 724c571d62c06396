(** * Concrete histories: refutations and non-vacuity examples for the covariance classes. *)
From mathcomp Require Import all_ssreflect all_algebra.
From Verif Require Import MatBase LibModel CovModel CovSpec CovProofs SqrtModel SqrtSpec SqrtProofs
  ViewModel ViewSpec ViewProofs.
Set Implicit Arguments.
Unset Strict Implicit.
Unset Printing Implicit Defensive.
Import GRing.Theory Num.Theory Order.Theory.
Local Open Scope ring_scope.

Local Arguments cholf : simpl never.

Section Ex.
Variable R : rcfType.
Variable L : lib R.
Hypothesis LK : lib_ok L.

Notation I2 := (1%:M : 'M[R]_2).
Notation c2 := (2%:R : R).

Lemma two_gt0 : 0 < c2. Proof. by rewrite ltr0n. Qed.
Lemma two_neq1 : c2 <> 1. Proof. by move/eqP; rewrite (eqr_nat R 2 1). Qed.

(** An assigned-to covariance keeps an older value. *)
Definition assign_ops : seq (op R 2) :=
  [:: OSelfAdj 0 I2; OFactor 0 I2; OSelfAdj 1 (c2 *: I2); OAssign R 2 0 1; OElem R 0 0 0].

Lemma assign_refuted_proof :
  [/\ (I2)^T = I2, is_trig_mx I2, (c2 *: I2)^T = c2 *: I2 &
      exists2 sb, run L (@store0 R 2) assign_ops = Some sb & ~ all_return (fun _ => 0) assign_ops sb.2].
Proof.
split; [by rewrite trmx1|exact: scalar_mx_is_trig|by rewrite linearZ /= trmx1|].
eexists; [reflexivity|] => /= -[_ [_ [_ [_ [+ _]]]]].
by rewrite /vset /= !mxE eqxx mulr1n mulr1 => -[/esym] /two_neq1.
Qed.

Lemma neg_sq_None (T : 'M[R]_2) a : a < 0 -> T *m T^T = I2 -> lrank L 0 T a = None.
Proof.
move=> a0 q; case E : lrank => [T'|//].
have [_ e] := lrank_sound LK (mx0_is_trig _ _ _) E.
move: e; rewrite mul0mx add0r q => e.
have [_ /(_ (delta_mx 0 0))] := psd_mulT T'.
rewrite e qformZ /qform mulmx1 trmx_delta mul_delta_mx mxE !eqxx mulr1n mulr1.
by rewrite leNgt a0.
Qed.

(** Multiplying by a negative scalar depends on how the value was reached. *)
Lemma mul_negative_proof :
  let os1 : seq (op R 2) := [:: OFactor 0 I2] in
  let os2 : seq (op R 2) := [:: OSelfAdj 0 I2] in
  [/\ foldl (@plain R 2) (fun _ => 0) os1 0%N = foldl (@plain R 2) (fun _ => 0) os2 0%N,
      run L (@store0 R 2) (os1 ++ [:: OMul 2 0 (-1)]) = None &
      exists2 sb, run L (@store0 R 2) (os2 ++ [:: OMul 2 0 (-1); OElem R 0 0 0]) = Some sb &
        sb.2 = [:: VNone R 2; VNone R 2; VScalar 2 (-1)]].
Proof.
have n0 : (0 : R) < -1 = false by rewrite oppr_gt0 ltr10.
have n1 : (-1 : R) < 0 by rewrite oppr_lt0 ltr01.
move=> /=; split.
- by rewrite /vset /= trmx1 mulmx1.
- by rewrite /run /step /lift /do_mul /upd /= n0 n1 neg_sq_None // trmx1 mulmx1.
- rewrite /run /step /lift /do_mul /upd /= n0 n1 /=; eexists; first reflexivity.
  by rewrite /= scaleN1r !mxE eqxx mulr1n.
Qed.

(** A SquareRootCovariance multiplied by -1 depends on whether it was read before. *)
Definition sq_neg_ops : seq (qop R 2) := [:: QSelfAdj 0 I2; QMul 2 0 (-1); QElem R 0 0 0].

Lemma lchol_1 : lchol L I2 = I2.
Proof.
apply: chol_unique.
- by apply: (lchol_trig LK); exact: posdef1.
- exact: scalar_mx_is_trig.
- by apply: (lchol_diag LK); exact: posdef1.
- by move=> i; rewrite mxE eqxx mulr1n ltr01.
- by rewrite (lchol_sq LK) ?trmx1 ?mulmx1 //; exact: posdef1.
Qed.

Lemma sq_neg_proof :
  [/\ qall (@qallowed_signed R 2) (fun _ => 0) sq_neg_ops,
      (exists2 sb, qrun L (@qstore0 R 2) sq_neg_ops = Some sb & ~ qall_return (fun _ => 0) sq_neg_ops sb.2) &
      exists2 sb, qrun L (@qstore0 R 2) [:: QSelfAdj 0 I2; QElem R 0 0 0; QMul 2 0 (-1); QElem R 0 0 0] = Some sb &
        qall_return (fun _ => 0) [:: QSelfAdj 0 I2; QElem R 0 0 0; QMul 2 0 (-1); QElem R 0 0 0] sb.2].
Proof.
have e : lchol L I2 = cholf I2 by apply: lchol_cholf => //; left; exact: posdef1.
split.
- by do !split=> //; left; exact: posdef1.
- eexists; [reflexivity|] => /= -[_ [_ [+ _]]].
  rewrite /vset /= mulrNN mulr1 scale1r lchol_1 -e lchol_1 !mxE eqxx mulr1n mulr1 => -[/eqP].
  by rewrite -subr_eq0 opprK -(natrD R 1 1) pnatr_eq0.
- by eexists; [reflexivity|]; rewrite /= /vset /= e; do !split.
Qed.

(** An update through the owner is lost when the view is then updated without having been read. *)
Definition view_ops : seq (op R 2 + vop R 2) :=
  [:: inl (OFactor 0 I2); inl (OSet 0 0 0 (5%:R)); inr (VAdd 0 0); inl (OElem R 0 0 0)].

(** [0] is added through the view, so the owner must read 5 afterwards; it reads 1. *)
Lemma view_lost_proof :
  exists2 sb, vrun L (@store0 R 2) view_ops = Some sb & sb.2 = [:: VNone R 2; VNone R 2; VNone R 2; VScalar 2 1].
Proof.
eexists; [reflexivity|] => /=.
by rewrite addr0 trmx1 mulmx1 !mxE eqxx mulr1n.
Qed.

(** A const view shows a stale element after an update through the owner. *)
Lemma view_stale_proof :
  exists2 sb, vrun L (@store0 R 2) [:: inl (OFactor 0 I2); inl (OSelfAdj 0 (4%:R *: I2)); inr (VConstElem R 0 0 0)] = Some sb &
    sb.2 = [:: VNone R 2; VNone R 2; VScalar 2 1].
Proof. by eexists; [reflexivity|] => /=; rewrite !mxE eqxx mulr1n. Qed.

End Ex.
