(** * Specification: covariances as plain matrix values.

    The reference semantics of a history of covariance operations: every object is just a symmetric matrix. *)
From mathcomp Require Import all_ssreflect all_algebra.
From Verif Require Import MatBase LibModel CovModel.
Set Implicit Arguments.
Unset Strict Implicit.
Unset Printing Implicit Defensive.
Import GRing.Theory Num.Theory Order.Theory.
Local Open Scope ring_scope.

Section Spec.
Variable R : rcfType.
Variable n : nat.

Definition vals := nat -> 'M[R]_n.
Definition vset (v : vals) (i : nat) (P : 'M[R]_n) : vals := fun k => if k == i then P else v k.

(** The value every object has after an operation. *)
Definition plain (v : vals) (o : op R n) : vals :=
  match o with
  | OSelfAdj i P => vset v i P
  | OFactor i T => vset v i (T *m T^T)
  | OCopy i j => vset v i (v j)
  | OAssign i j => vset v i (v j)
  | OAdd i j => vset v i (v i + v j)
  | OSub i j => vset v i (v i - v j)
  | OMul i a => vset v i (a *: v i)
  | ODiv i a => vset v i (a^-1 *: v i)
  | OScale i a => vset v i ((a ^+ 2) *: v i)
  | OInvScale i a => vset v i ((a ^+ 2)^-1 *: v i)
  | ORank i m U a => vset v i (v i + a *: (U *m U^T))
  | OSet i k l r =>
      vset v i (\matrix_(p, q) if [set p; q] == [set k; l] then r else v i p q)
  | OElem _ _ _ | OMatrix _ | OTri _ | ODet _ => v
  end.

(** A matrix that has a Cholesky factor the back end is trusted to find. *)
Definition good (P : 'M[R]_n) : Prop := posdef P \/ P = 0.

(** When an operation may be used.  Element reads and writes, determinants, copies, scaling and multiplication by
    a non-negative scalar have no precondition on the value. *)
Definition allowed (v : vals) (o : op R n) : Prop :=
  match o with
  | OSelfAdj i P => P^T = P
  | OFactor i T => is_trig_mx T
  | OAssign i j => False
  | OAdd i j => good (v j)
  | OSub i j => good (v j) /\ posdef (v i - v j)
  | OMul i a => 0 <= a
  | ODiv i a => 0 < a
  | OInvScale i a => a != 0
  | ORank i m U a => good (v i) /\ (0 < a \/ posdef (v i + a *: (U *m U^T)))
  | OTri i => good (v i)
  | _ => True
  end.

(** What an operation must return. *)
Definition returns (v : vals) (o : op R n) (b : obs R n) : Prop :=
  match o with
  | OElem i k l => b = VScalar n (v i k l)
  | OMatrix i => b = VMatrix (v i)
  | OTri i => exists T, [/\ b = VFactor T, is_trig_mx T & T *m T^T = v i]
  | ODet i => b = VScalar n (\det (v i))
  | _ => b = VNone R n
  end.

(** A whole history: which ones are allowed, and what they must return. *)
Fixpoint all_allowed (v : vals) (os : seq (op R n)) : Prop :=
  match os with [::] => True | o :: os' => allowed v o /\ all_allowed (plain v o) os' end.

Fixpoint all_return (v : vals) (os : seq (op R n)) (bs : seq (obs R n)) : Prop :=
  match os, bs with
  | [::], [::] => True
  | o :: os', b :: bs' => returns v o b /\ all_return (plain v o) os' bs'
  | _, _ => False
  end.

(** The value of a Case 1 covariance after an operation. *)
Definition plain1 (P : 'M[R]_n) (o : op1 R n) : 'M[R]_n :=
  match o with
  | A1Add Q => P + Q
  | A1Sub Q => P - Q
  | A1Mul a => a *: P
  | A1Div a => a^-1 *: P
  | A1Scale a => (a ^+ 2) *: P
  | A1InvScale a => (a ^+ 2)^-1 *: P
  | A1Rank m U a => P + a *: (U *m U^T)
  | A1Set k l r => \matrix_(p, q) if [set p; q] == [set k; l] then r else P p q
  end.

End Spec.
