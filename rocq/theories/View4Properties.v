(** * Properties of views that hold their own converted matrix, of their copies, and of views of views (C98). *)
From mathcomp Require Import all_ssreflect all_algebra.
From Verif Require Import MatBase LibModel CovModel CovSpec CovProofs SqrtModel SqrtSpec SqrtProofs CovProofs2
  View4Model View4Spec View4Proofs.
Set Implicit Arguments.
Unset Strict Implicit.
Unset Printing Implicit Defensive.
Import GRing.Theory Num.Theory Order.Theory.
Local Open Scope ring_scope.

Local Arguments cholf : simpl never.
Local Arguments square : simpl never.

(** C98, partial, covariances holding a self-adjoint matrix: in every history of owners, square-root views, copies of views,
    squares of views, updates through any of them and destructions, nothing throws, nothing is undefined, and every read
    agrees with the one value of the owner, provided a view is used only while the views it was made from exist.
    Missing: copies that outlive the view they were made from, and square roots of squares of views (refuted below). *)
Theorem views_of_self_adjoint_partial (R : rcfType) (L : lib R) (n : nat) (os : seq (op4 R n (rop R n) ('M[R]_n + op1 R n))) :
  lib_ok L -> all_sa (@sstate0 R n) os ->
  exists2 sb, run_sa L (@sys0 R n) os = Done sb & path_sa (@sstate0 R n) os sb.2.
Proof. by move=> LK; exact: run_sa_ok. Qed.
Print Assumptions views_of_self_adjoint_partial.

Local Ltac inv4 :=
  repeat match goal with
  | H : ex _ |- _ => case: H => ? H
  | H : ex2 _ _ |- _ => let e := fresh in case: H => ? e H
  | H : and _ _ |- _ => let e := fresh in case: H => e H
  | H : and3 _ _ _ |- _ => let e := fresh in let f := fresh in case: H => e f H
  | H : and4 _ _ _ _ |- _ => let e := fresh in let f := fresh in let g := fresh in case: H => e f g H
  | H : usable _ _ _ _ |- _ => let e := fresh in let f := fresh in case: H => e f H
  | H : s_result _ _ _ |- _ => let e := fresh in case: H => e H
  | H : sset _ _ _ _ = Alive _ |- _ => rewrite /sset /= in H
  | H : known _ _ = Alive _ |- _ => rewrite /sset /= in H
  | H : value _ _ = Alive _ |- _ => rewrite /sset /= in H
  | H : Alive _ = Alive ?x |- _ => injection H as H; try subst x; try clear H
  end; subst.
Local Ltac step4t := split; [|let b := fresh in let t := fresh in let h := fresh in move=> b t /= h; inv4; simpl in *; inv4].
Local Ltac use4 := split=> //= ?; rewrite ?in_cons ?in_nil ?orbF => *;
  repeat match goal with H : is_true (_ || _) |- _ => case/orP: H => H end;
  repeat match goal with H : is_true (_ == _) |- _ => move/eqP: H => H; subst end; by eexists.

Example views_of_self_adjoint_nonvacuous (R : rcfType) :
  let I := (1%:M : 'M[R]_2) in
  all_sa (@sstate0 R 2)
    [:: New 0 I; MakeView 0 0; CopyView 1 0; BackView 2 1; Write 1 (RAdd I);
        Own 0 (inl I); Write 0 (RMul 2 (2%:R)); Write 2 (RCov (A1Add I)); OwnRead 0;
        ReadNest 1; Own 0 (inl I); ReadConv 2; KillView 2; ReadConv 1;
        AssignView 0 1; KillOwner 0].
Proof.
move=> I; rewrite /all_sa.
have gI : good I by left; exact: posdef1.
have tI : is_trig_mx I by exact: scalar_mx_is_trig.
step4t; first by [].
step4t; first by split=> //; eexists.
step4t; first by split=> //; eexists.
step4t; first by split=> //; eexists.
step4t; first by do 2!eexists; split; [use4| |].
step4t; first by eexists.
step4t; first by do 2!eexists; split; [use4| |].
step4t; first by do 2!eexists; split; [use4| |].
step4t; first by eexists.
step4t; first by do 2!eexists; use4.
step4t; first by eexists.
step4t; first by do 2!eexists; split; [use4|].
step4t; first by eexists.
step4t; first by do 2!eexists; split; [use4|].
step4t; first by do 4!eexists; split; [use4|use4| |].
step4t; first by eexists.
by [].
Qed.

(** C98, partial, square-root covariances holding a triangular matrix: the same for square views, their copies, and square
    roots of views.  Missing: as above. *)
Theorem views_of_triangular_partial (R : rcfType) (L : lib R) (n : nat) (os : seq (op4 R n (sop R n) ('M[R]_n + qop1 R n))) :
  lib_ok L -> all_tri (@sstate0 R n) os ->
  exists2 sb, run_tri L (@sys0 R n) os = Done sb & path_tri (@sstate0 R n) os sb.2.
Proof. by move=> LK; exact: run_tri_ok. Qed.
Print Assumptions views_of_triangular_partial.

Example views_of_triangular_nonvacuous (R : rcfType) :
  let I := (1%:M : 'M[R]_2) in
  all_tri (@sstate0 R 2)
    [:: New 0 I; MakeView 0 0; CopyView 1 0; BackView 2 1; Write 1 (SAdd I); Write 0 (SMul 2 (2%:R));
        ReadConv 1; Write 2 (SRoot (B1Mul 2 (-1))); OwnRead 0; Write 0 (SSelfAdj I); ReadNest 2; KillView 2; ReadConv 1].
Proof.
move=> I; rewrite /all_tri.
have gI : good I by left; exact: posdef1.
have tI : is_trig_mx I by exact: scalar_mx_is_trig.
step4t; first by [].
step4t; first by split=> //; eexists.
step4t; first by split=> //; eexists.
step4t; first by split=> //; eexists.
step4t; first by do 2!eexists; split; [use4| |].
step4t; first by do 2!eexists; split; [use4| |split=> //; exact: ler0n].
step4t; first by do 2!eexists; split; [use4|].
step4t; first by do 2!eexists; split; [use4| |].
step4t; first by eexists.
step4t; first by do 2!eexists; split; [use4| |].
step4t; first by do 2!eexists; use4.
step4t; first by eexists.
step4t; first by do 2!eexists; split; [use4|].
by [].
Qed.

(** C98 fails for copies: a copy of a view refers to the view it was made from.  When that view is gone, the owner and the
    copy are still there, but reading the copy and writing an element through it are undefined. *)
Theorem view_copy_refuted (R : rcfType) (L : lib R) (n : nat) (P Q : 'M[R]_n) :
  let mk W O : seq (op4 R n W O) := [:: New 0 P; MakeView 0 0; CopyView 1 0; KillView 0] in
  [/\ run_sa L (@sys0 R n) (mk _ _ ++ [:: ReadConv 1]) = Undef,
      run_sa L (@sys0 R n) (mk _ _ ++ [:: Write 1 (RAdd Q)]) = Undef,
      run_tri L (@sys0 R n) (mk _ _ ++ [:: ReadConv 1]) = Undef &
      (exists s, run_sa L (@sys0 R n) (mk _ _ ++ [:: ReadNest 1; OwnRead 0]) =
                 Done (s, [:: None; None; None; None; Some P; Some P]))].
Proof. by split=> //; eexists. Qed.
Print Assumptions view_copy_refuted.

(** C98 fails for views of views: with v = square_root(c), w = square(v) and u = square_root(w), reading u gives what the
    store of v happens to hold (here the zero it was made with), whatever the value of c; so does square(w) with w =
    square_root(c), c in Cholesky form and only its factor assigned. *)
Theorem view_of_view_refuted (R : rcfType) (L : lib R) (n : nat) (P T : 'M[R]_n) :
  (exists s, run_sa L (@sys0 R n) [:: New 0 P; MakeView 0 0; BackView 1 0; ChainView 2 1; ReadConv 2] =
             Done (s, [:: None; None; None; None; Some 0])) /\
  (exists s, run_tri L (@sys0 R n) [:: New 0 T; MakeView 0 0; BackView 1 0; ChainView 2 1; ReadConv 2] =
             Done (s, [:: None; None; None; None; Some 0])) /\
  (exists s, run L (@store0 R n) [:: OFactor 0 T] = Some (s, [:: VNone R n]) /\
             square_of_root_read L (s 0%N) = 0).
Proof. by do !split; eexists. Qed.
Print Assumptions view_of_view_refuted.

(** ... unless v itself was read since the last change of c: a chained view copies the store of v. *)
Theorem view_of_view_after_read (R : rcfType) (L : lib R) (n : nat) (P : 'M[R]_n) :
  exists s, run_sa L (@sys0 R n) [:: New 0 P; MakeView 0 0; BackView 1 0; ChainView 2 1; ReadConv 0; ReadConv 2] =
            Done (s, [:: None; None; None; None; Some (to_tri L P); Some (to_tri L P)]).
Proof. by eexists. Qed.
Print Assumptions view_of_view_after_read.

(** ... although the value is that of P: here the identity, whose factor is not zero. *)
Example view_of_view_refuted_nonvacuous (R : rcfType) :
  cholf (1%:M : 'M[R]_2) <> 0 /\ square (1%:M : 'M[R]_2) <> 0.
Proof.
have e : (1%:M : 'M[R]_2) <> 0 by move=> /matrixP /(_ 0 0) /eqP; rewrite !mxE oner_eq0.
split; last by rewrite /square trmx1 mulmx1.
move=> h; have := cholf_correct (posdef_psd (@posdef1 R 2)); rewrite h mul0mx => /esym; exact: e.
Qed.

(** What a square-root view of a self-adjoint covariance reads back need not be what was written through it: after
    v(0,0) = -1 it reads 1. *)
Theorem view_sign_refuted (R : rcfType) (L : lib R) : lib_ok L ->
  exists s T, run_sa L (@sys0 R 2) [:: New 0 1%:M; MakeView 0 0; Write 0 (RElt 0 0 (-1)); ReadConv 0] =
              Done (s, [:: None; None; None; Some T]) /\ T 0 0 = 1.
Proof.
move=> LK; do 2!eexists; split; first reflexivity.
rewrite /to_tri /to_sa lchol_1 //.
set X := set_elt _ _ _ _.
have -> : X *m X^T = 1%:M; last by rewrite lchol_1 // mxE eqxx.
apply/matrixP => i j; rewrite !mxE !big_ord_recl big_ord0 !mxE.
by case: i => [[|[|]]] //= ?; case: j => [[|[|]]] //= ?; rewrite ?mulrNN ?mulr0 ?mul0r ?mulr1 ?addr0 ?add0r ?mulr1n ?mulr0n ?oppr0 ?mulr0.
Qed.
Print Assumptions view_sign_refuted.
