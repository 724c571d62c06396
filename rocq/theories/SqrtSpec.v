(** * Specification: a SquareRootCovariance is a plain lower-triangular matrix. *)
From mathcomp Require Import all_ssreflect all_algebra.
From Verif Require Import MatBase LibModel CovModel CovSpec SqrtModel.
Set Implicit Arguments.
Unset Strict Implicit.
Unset Printing Implicit Defensive.
Import GRing.Theory Num.Theory Order.Theory.
Local Open Scope ring_scope.

Section Spec.
Variable R : rcfType.
Variable n : nat.
Implicit Type v : vals R n.

(** The value of every object after an operation.  [cholf P] is the Cholesky factor of P (MatBase.v:
    [cholf_correct], [cholf_trig], [cholf_posdiag], and uniqueness [chol_unique]). *)
Definition qplain v (o : qop R n) : vals R n :=
  match o with
  | QSelfAdj i P => vset v i (cholf P)
  | QFactor i T => vset v i T
  | QCopy i j => vset v i (v j)
  | QAdd i j => vset v i (v i + v j)
  | QSub i j => vset v i (v i - v j)
  | QMulTri i j => vset v i (v i *m v j)
  | QMul i a => vset v i (a *: v i)
  | QDiv i a => vset v i (a^-1 *: v i)
  | QRank i m U a => vset v i (cholf (v i *m (v i)^T + a *: (U *m U^T)))
  | QSet i k l r => vset v i (\matrix_(p, q) if (p == k) && (q == l) then r else v i p q)
  | QElem _ _ _ | QTri _ | QSquare _ | QDet _ => v
  end.

(** Operations that may be used: self-adjoint arguments must have a Cholesky factor, triangular arguments must be
    triangular, elements may be written on or below the diagonal, divisors must be positive, and scalar factors
    non-negative. *)
Definition qallowed v (o : qop R n) : Prop :=
  match o with
  | QSelfAdj i P => good P
  | QFactor i T => is_trig_mx T
  | QMul i a => 0 <= a
  | QDiv i a => 0 < a
  | QRank i m U a => good (v i *m (v i)^T + a *: (U *m U^T))
  | QSet i k l r => (l <= k)%N
  | _ => True
  end.

(** The same, with scalars of either sign. *)
Definition qallowed_signed v (o : qop R n) : Prop :=
  match o with QMul i a => True | QDiv i a => a != 0 | _ => qallowed v o end.

Definition qreturns v (o : qop R n) (b : obs R n) : Prop :=
  match o with
  | QElem i k l => b = VScalar n (v i k l)
  | QTri i => b = VFactor (v i)
  | QSquare i => b = VMatrix (v i *m (v i)^T)
  | QDet i => b = VScalar n (\det (v i))
  | _ => b = VNone R n
  end.

Fixpoint qall (ok : vals R n -> qop R n -> Prop) v (os : seq (qop R n)) : Prop :=
  match os with [::] => True | o :: os' => ok v o /\ qall ok (qplain v o) os' end.

Fixpoint qall_return v (os : seq (qop R n)) (bs : seq (obs R n)) : Prop :=
  match os, bs with
  | [::], [::] => True
  | o :: os', b :: bs' => qreturns v o b /\ qall_return (qplain v o) os' bs'
  | _, _ => False
  end.

(** Triangular storage: what each in-place operation makes of the triangular matrix T, and when it may be used. *)
Definition q1_result (T : 'M[R]_n) (o : qop1 R n) (T' : 'M[R]_n) : Prop :=
  match o with
  | B1Add Q => T' = T + Q
  | B1Sub Q => T' = T - Q
  | B1MulTri Q => T' = T *m Q
  | B1Mul a => T' = a *: T
  | B1Div a => a *: T' = T
  | B1Rank m U a => T' *m T'^T = T *m T^T + a *: (U *m U^T)
  end.
Definition q1_allowed (T : 'M[R]_n) (o : qop1 R n) : Prop :=
  match o with
  | B1Add Q | B1Sub Q | B1MulTri Q => is_trig_mx Q
  | B1Mul _ => True
  | B1Div a => a != 0
  | B1Rank m U a => 0 < a \/ posdef (T *m T^T + a *: (U *m U^T))
  end.

End Spec.
