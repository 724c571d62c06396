(** * The linear-algebra back end as a set of oracles with contracts.

    The covariance, filter and transform code of OpenKalman calls Eigen (through the library interface) for
    factorisations.  Those algorithms are not part of /repo and are not modelled; each call is a function of
    an arbitrary record [lib], and theorems assume only the contract [lib_ok] below.  [exact_lib] shows that
    the contract is satisfiable, so no theorem is vacuous because of it. *)
From mathcomp Require Import all_ssreflect all_algebra.
From Verif Require Import MatBase.
Set Implicit Arguments.
Unset Strict Implicit.
Unset Printing Implicit Defensive.
Import GRing.Theory Num.Theory Order.Theory.
Local Open Scope ring_scope.

Section Lib.
Variable R : rcfType.

Record lib := Lib {
  (** cholesky_factor<lower>: OpenKalman/linear-algebra/interfaces/eigen/eigen-library-interface.hpp l.1207-1290
      (LLT; the LDLT fallback for singular or indefinite matrices is treated in LdltModel.v). *)
  lchol : forall n, 'M[R]_n -> 'M[R]_n;
  (** LQ_decomposition of a rectangular matrix (eigen-library-interface.hpp, LQ_decomposition). *)
  llq : forall n m, 'M[R]_(n, m) -> 'M[R]_n;
  (** rank_update_triangular<lower>: eigen-library-interface.hpp l.1325-1341; [None] is the exception
      "rank_update_triangular: product is not positive definite" (and, for 1x1 matrices, the NaN of the
      square root of a negative number, functions/rank_update_triangular.hpp l.81-86). *)
  lrank : forall n m, 'M[R]_n -> 'M[R]_(n, m) -> R -> option 'M[R]_n
}.

(** What is assumed about the back end:
    - the Cholesky factor of a positive definite matrix is its lower-triangular factor with positive diagonal,
      and the factor of zero is zero (nothing is assumed for other matrices);
    - LQ returns a lower-triangular L with L L^T = A A^T (no sign convention);
    - a rank update that returns at all returns a factor of T T^T + a U U^T; it does return when a > 0, or
      when that matrix is positive definite. *)
Record lib_ok (L : lib) : Prop := LibOk {
  lchol_trig : forall n (P : 'M[R]_n), posdef P -> is_trig_mx (lchol L P);
  lchol_diag : forall n (P : 'M[R]_n), posdef P -> posdiag (lchol L P);
  lchol_sq : forall n (P : 'M[R]_n), posdef P -> lchol L P *m (lchol L P)^T = P;
  lchol_0 : forall n, lchol L (0 : 'M[R]_n) = 0;
  llq_trig : forall n m (A : 'M[R]_(n, m)), is_trig_mx (llq L A);
  llq_sq : forall n m (A : 'M[R]_(n, m)), llq L A *m (llq L A)^T = A *m A^T;
  lrank_sound : forall n m (T : 'M[R]_n) (U : 'M[R]_(n, m)) a T',
    is_trig_mx T -> lrank L T U a = Some T' ->
    is_trig_mx T' /\ T' *m T'^T = T *m T^T + a *: (U *m U^T);
  lrank_total : forall n m (T : 'M[R]_n) (U : 'M[R]_(n, m)) a,
    is_trig_mx T -> (0 < a \/ posdef (T *m T^T + a *: (U *m U^T))) ->
    exists T', lrank L T U a = Some T'
}.

(** A further fact about Eigen's LLT::rankUpdate, used only for a refutation: a downdate (a < 0) of a matrix of at least two
    rows fails unless its result is positive definite.  (One-dimensional updates do not go through Eigen.) *)
Definition lrank_strict (L : lib) : Prop := forall n m (T : 'M[R]_n) (U : 'M[R]_(n, m)) a,
  (1 < n)%N -> a < 0 -> ~ posdef (T *m T^T + a *: (U *m U^T)) -> lrank L T U a = None.

(** An exact-arithmetic instance. *)
Definition exact_lib : lib := Lib
  (fun n P => cholf P)
  (fun n m A => cholf (A *m A^T))
  (fun n m T U a => let P := T *m T^T + a *: (U *m U^T) in
                    if cholf P *m (cholf P)^T == P then Some (cholf P) else None).

Lemma cholf0 n : cholf (0 : 'M[R]_n) = 0.
Proof.
have h := cholf_correct (psd0 R n); apply/matrixP => i j; rewrite [RHS]mxE.
have := congr1 (fun M : 'M_n => M i i) h; rewrite !mxE => /eqP.
rewrite psumr_eq0 => [/allP /(_ j)|k _]; last by rewrite mxE -expr2 sqr_ge0.
by rewrite mem_index_enum mxE mulf_eq0 orbb => /(_ isT) /eqP.
Qed.

Lemma exact_lib_ok : lib_ok exact_lib.
Proof.
split=> /=.
- by move=> n P _; exact: cholf_trig.
- exact: cholf_posdiag.
- by move=> n P /posdef_psd /cholf_correct.
- exact: cholf0.
- by move=> n m A; exact: cholf_trig.
- by move=> n m A; rewrite cholf_correct //; exact: psd_mulT.
- move=> n m T U a T' _; case: ifP => // /eqP e [<-]; split=> //; exact: cholf_trig.
- move=> n m T U a _ h; rewrite cholf_correct ?eqxx; first by eexists.
  case: h => [a0|]; last exact: posdef_psd.
  by apply: psdD; [exact: psd_mulT|apply: psdZ; [exact: ltW|exact: psd_mulT]].
Qed.

End Lib.
