(** * Specification: a covariance and its square-root view are one value.

    The abstract state of an object is its matrix P together with, when the program knows it, the triangular factor T
    it last read or wrote through the view (P = T T^T).  Factors are only determined up to what the back end chooses,
    so a read of the factor is a nondeterministic choice among the factors of P. *)
From mathcomp Require Import all_ssreflect all_algebra.
From Verif Require Import MatBase LibModel CovModel CovSpec ViewModel.
Set Implicit Arguments.
Unset Strict Implicit.
Unset Printing Implicit Defensive.
Import GRing.Theory Num.Theory Order.Theory.
Local Open Scope ring_scope.

Section Spec.
Variable R : rcfType.
Variable n : nat.

Definition facts := nat -> option 'M[R]_n.
Definition fset (f : facts) (i : nat) (T : option 'M[R]_n) : facts := fun k => if k == i then T else f k.

Definition elt (T : 'M[R]_n) (k l : 'I_n) (r : R) : 'M[R]_n :=
  \matrix_(p, q) if (p == k) && (q == l) then r else T p q.

(** The object an owner operation modifies, if any. *)
Definition touches (o : op R n) : option nat :=
  match o with
  | OSelfAdj i _ | OFactor i _ | OCopy i _ | OAssign i _ | OAdd i _ | OSub i _ | OMul i _ | ODiv i _
  | OScale i _ | OInvScale i _ | ORank i _ _ _ | OSet i _ _ _ => Some i
  | OElem _ _ _ | OMatrix _ | OTri _ | ODet _ => None
  end.

(** One operation: from values [v] and known factors [f], returning [b], to values [v'] and known factors [f']. *)
Definition vspec (v : vals R n) (f : facts) (o : op R n + vop R n) (b : obs R n) (v' : vals R n) (f' : facts) : Prop :=
  match o with
  | inl (OTri i) | inr (VTri i) =>
      exists T, [/\ b = VFactor T, is_trig_mx T, T *m T^T = v i, v' = v & f' = fset f i (Some T)]
  | inl o1 => [/\ returns v o1 b, v' = plain v o1 &
                  f' = match touches o1 with Some i => fset f i None | None => f end]
  | inr (VAdd i Q) => exists T, [/\ f i = Some T, b = VNone R n,
        v' = vset v i ((T + Q) *m (T + Q)^T) & f' = fset f i (Some (T + Q))]
  | inr (VMul i a) => exists T, [/\ f i = Some T, b = VNone R n,
        v' = vset v i ((a *: T) *m (a *: T)^T) & f' = fset f i (Some (a *: T))]
  | inr (VElt i k l r) | inr (VSet i k l r) => exists T, [/\ f i = Some T, b = VNone R n,
        v' = vset v i (elt T k l r *m (elt T k l r)^T) & f' = fset f i (Some (elt T k l r))]
  | inr (VRank i m U a) => [/\ b = VNone R n, v' = vset v i (v i + a *: (U *m U^T)) & f' = fset f i None]
  | inr (VConstElem i k l) => exists T, [/\ f i = Some T, b = VScalar n (T k l), v' = v & f' = f]
  end.

(** When an operation may be used: view updates other than rank_update need the factor to be known, that is, the
    program has read or written the factor since the owner was last modified. *)
Definition vallowed (v : vals R n) (f : facts) (o : op R n + vop R n) : Prop :=
  match o with
  | inl o1 => allowed v o1
  | inr (VAdd i Q) => f i <> None /\ is_trig_mx Q
  | inr (VMul i a) => f i <> None
  | inr (VElt i k l r) => f i <> None /\ (l <= k)%N
  | inr (VSet i k l r) => f i <> None /\ (l <= k)%N
  | inr (VRank i m U a) => good (v i) /\ (0 < a \/ posdef (v i + a *: (U *m U^T)))
  | inr (VTri i) => good (v i)
  | inr (VConstElem i k l) => f i <> None
  end.

(** The same without the requirement that the factor be known, for one object whose value is positive definite. *)
Definition vallowed_any (v : vals R n) (o : op R n + vop R n) : Prop :=
  match o with
  | inl o1 => allowed v o1
  | inr (VAdd i Q) => posdef (v i) /\ is_trig_mx Q
  | inr (VMul i a) => posdef (v i)
  | inr (VElt i k l r) | inr (VSet i k l r) => posdef (v i) /\ (l <= k)%N
  | inr (VRank i m U a) => good (v i) /\ (0 < a \/ posdef (v i + a *: (U *m U^T)))
  | inr (VTri i) => good (v i)
  | inr (VConstElem i k l) => posdef (v i)
  end.

Fixpoint vall (v : vals R n) (f : facts) (os : seq (op R n + vop R n)) : Prop :=
  match os with
  | [::] => True
  | o :: os' => vallowed v f o /\ forall b v' f', vspec v f o b v' f' -> vall v' f' os'
  end.

(** The results are those of some run of the specification. *)
Fixpoint vpath (v : vals R n) (f : facts) (os : seq (op R n + vop R n)) (bs : seq (obs R n)) : Prop :=
  match os, bs with
  | [::], [::] => True
  | o :: os', b :: bs' => exists v' f', vspec v f o b v' f' /\ vpath v' f' os' bs'
  | _, _ => False
  end.

End Spec.
