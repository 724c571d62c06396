(** * Specification: an owner, its views and the copies of its views are one value.

    The abstract state gives each owner a matrix, and each view the owner it shows and the views it was made from (its
    ancestors).  A view may be used while it, its ancestors and its owner exist. *)
From mathcomp Require Import all_ssreflect all_algebra.
From Verif Require Import MatBase LibModel CovModel CovSpec SqrtModel SqrtSpec View4Model.
Set Implicit Arguments.
Unset Strict Implicit.
Unset Printing Implicit Defensive.
Import GRing.Theory Num.Theory Order.Theory.
Local Open Scope ring_scope.

Section Spec.
Variable R : rcfType.
Variable n : nat.
Notation M := 'M[R]_n.

Record sview := SView { shows : nat; skind : vkind; ancestors : seq nat }.
Record sstate := SState { value : nat -> slot M; known : nat -> slot sview }.
Definition sset A (f : nat -> slot A) (k : nat) (x : slot A) : nat -> slot A := fun p => if p == k then x else f p.
Definition exists_ A (x : slot A) : Prop := exists a, x = Alive a.

Definition usable (t : sstate) (k : nat) (u : sview) (N : M) : Prop :=
  [/\ known t k = Alive u, (forall a, a \in ancestors u -> exists_ (known t a)) & value t (shows u) = Alive N].

(** The parameters: what operations mean for the value, and when they may be used; what the converted matrix of a value
    is, and when it may be asked for. *)
Variables wop oop : Type.
Variable wtyped : vkind -> wop -> Prop.            (* the view has this operation                  *)
Variable wok : wop -> M -> Prop.
Variable wresult : wop -> M -> M -> Prop.
Variable ook : oop -> M -> Prop.
Variable oresult : oop -> M -> M -> Prop.
Variable convertible : M -> Prop.
Variable converted : M -> M -> Prop.

Definition allowed4 (t : sstate) (o : op4 R n wop oop) : Prop :=
  match o with
  | New i _ => value t i = Unborn
  | Own i o => exists2 N, value t i = Alive N & ook o N
  | OwnRead i | KillOwner i => exists_ (value t i)
  | MakeView k i => known t k = Unborn /\ exists_ (value t i)
  | CopyView k j => known t k = Unborn /\ exists_ (known t j)
  | BackView k j => known t k = Unborn /\ exists2 u, known t j = Alive u & skind u = KConv
  | ChainView k j => False
  | KillView k => exists_ (known t k)
  | Write k w => exists u N, [/\ usable t k u N, wtyped (skind u) w & wok w N]
  | AssignView k j => exists u N u' N', [/\ usable t k u N, usable t j u' N', skind u = KConv & skind u' = KConv]
  | ReadConv k => exists u N, usable t k u N /\ convertible N
  | ReadNest k => exists u N, usable t k u N
  end.

(** One operation: from [t], returning [b], to [t']. *)
Definition spec4 (t : sstate) (o : op4 R n wop oop) (b : option M) (t' : sstate) : Prop :=
  match o with
  | New i N => b = None /\ t' = SState (sset (value t) i (Alive N)) (known t)
  | Own i o => exists N N', [/\ value t i = Alive N, oresult o N N', b = None &
                 t' = SState (sset (value t) i (Alive N')) (known t)]
  | OwnRead i => exists N, [/\ value t i = Alive N, b = Some N & t' = t]
  | KillOwner i => b = None /\ t' = SState (sset (value t) i Dead) (known t)
  | MakeView k i => b = None /\ t' = SState (value t) (sset (known t) k (Alive (SView i KConv [::])))
  | CopyView k j => exists u, [/\ known t j = Alive u, b = None &
      t' = SState (value t) (sset (known t) k (Alive (SView (shows u) (skind u) (j :: ancestors u))))]
  | BackView k j => exists u, [/\ known t j = Alive u, b = None &
      t' = SState (value t) (sset (known t) k (Alive (SView (shows u) KBack (j :: ancestors u))))]
  | ChainView k j => exists u, [/\ known t j = Alive u, b = None &
      t' = SState (value t) (sset (known t) k (Alive (SView (shows u) KChain (j :: ancestors u))))]
  | KillView k => b = None /\ t' = SState (value t) (sset (known t) k Dead)
  | Write k w => exists u N N', [/\ usable t k u N, wresult w N N', b = None &
      t' = SState (sset (value t) (shows u) (Alive N')) (known t)]
  | AssignView k j => exists u N u' N', [/\ usable t k u N, usable t j u' N', b = None &
      t' = if k == j then t else SState (sset (value t) (shows u) (Alive N')) (known t)]
  | ReadConv k => exists u N X, [/\ usable t k u N, converted N X, b = Some X & t' = t]
  | ReadNest k => exists u N, [/\ usable t k u N, b = Some N & t' = t]
  end.

Fixpoint all4 (t : sstate) (os : seq (op4 R n wop oop)) : Prop :=
  match os with
  | [::] => True
  | o :: os' => allowed4 t o /\ forall b t', spec4 t o b t' -> all4 t' os'
  end.

(** The results are those of some run of the specification. *)
Fixpoint path4 (t : sstate) (os : seq (op4 R n wop oop)) (bs : seq (option M)) : Prop :=
  match os, bs with
  | [::], [::] => True
  | o :: os', b :: bs' => exists2 t', spec4 t o b t' & path4 t' os' bs'
  | _, _ => False
  end.

Definition sstate0 : sstate := SState (fun _ => Unborn) (fun _ => Unborn).

End Spec.

Section Families.
Variable R : rcfType.
Variable n : nat.
Notation M := 'M[R]_n.

(** ** Owners holding a self-adjoint matrix P.  [cholf P] is the Cholesky factor of P (MatBase.v). *)

Definition r_typed (k : vkind) (w : rop R n) : Prop :=
  match k, w with KConv, RCov _ => False | KConv, _ => True | KBack, RCov _ => True | _, _ => False end.

Definition divisor_ok (o : op1 R n) : Prop :=
  match o with A1Div a | A1InvScale a => a != 0 | _ => True end.

Definition r_ok (w : rop R n) (P : M) : Prop :=
  match w with
  | RAdd Q | RSub Q | RMulTri Q => good P /\ is_trig_mx Q
  | RDiv a => a != 0
  | RElt i j r => good P /\ (j <= i)%N
  | RTri T => is_trig_mx T
  | RSelfAdj P => P^T = P
  | RCov o => divisor_ok o
  | RMul _ | RRank _ _ _ => True
  end.

Definition square (T : M) : M := T *m T^T.

Definition r_result (w : rop R n) (P P' : M) : Prop :=
  match w with
  | RAdd Q => P' = square (cholf P + Q)
  | RSub Q => P' = square (cholf P - Q)
  | RMulTri Q => P' = square (cholf P *m Q)
  | RMul a => P' = (a ^+ 2) *: P
  | RDiv a => P' = (a ^+ 2)^-1 *: P
  | RRank m U a => P' = P + a *: (U *m U^T)
  | RElt i j r => P' = square (\matrix_(p, q) if (p == i) && (q == j) then r else cholf P p q)
  | RTri T => P' = square T
  | RSelfAdj Q => P' = Q
  | RCov o => P' = plain1 P o
  end.

Definition sa_ok (o : M + op1 R n) (P : M) : Prop :=
  match o with inl _ => True | inr o => divisor_ok o end.
Definition sa_result (o : M + op1 R n) (P P' : M) : Prop :=
  match o with inl Q => P' = Q | inr o => P' = plain1 P o end.

Definition all_sa := all4 r_typed r_ok r_result sa_ok sa_result (@good R n) (fun P X => X = cholf P).
Definition path_sa := path4 r_result sa_result (fun P X => X = cholf P).

(** ** Owners holding a lower-triangular matrix T. *)

Definition s_typed (k : vkind) (w : sop R n) : Prop :=
  match k, w with KConv, SRoot _ => False | KConv, _ => True | KBack, SRoot _ => True | _, _ => False end.

(** The value [square T] of the view decides what may be done. *)
Definition s_ok (w : sop R n) (T : M) : Prop :=
  is_trig_mx T /\
  match w with
  | SAdd Q => good Q
  | SSub Q => good Q /\ posdef (square T - Q)
  | SMul a => 0 <= a
  | SDiv a => 0 < a
  | SScale _ => True
  | SInvScale a => a != 0
  | SRank m U a => 0 < a \/ posdef (square T + a *: (U *m U^T))
  | SElt i j r => good (\matrix_(p, q) if [set p; q] == [set i; j] then r else square T p q)
  | SSelfAdj P => good P
  | STri T' => is_trig_mx T'
  | SRoot o => q1_allowed T o
  end.

(** The new triangular matrix T' is a factor of the new value. *)
Definition s_result (w : sop R n) (T T' : M) : Prop :=
  is_trig_mx T' /\
  match w with
  | SAdd Q => square T' = square T + Q
  | SSub Q => square T' = square T - Q
  | SMul a => square T' = a *: square T
  | SDiv a => square T' = a^-1 *: square T
  | SScale a => square T' = (a ^+ 2) *: square T
  | SInvScale a => square T' = (a ^+ 2)^-1 *: square T
  | SRank m U a => square T' = square T + a *: (U *m U^T)
  | SElt i j r => square T' = \matrix_(p, q) if [set p; q] == [set i; j] then r else square T p q
  | SSelfAdj P => square T' = P
  | STri X => T' = X
  | SRoot o => q1_result T o T'
  end.

Definition tri_ok (o : M + qop1 R n) (T : M) : Prop :=
  match o with inl Q => is_trig_mx Q | inr o => is_trig_mx T /\ q1_allowed T o end.
Definition tri_result (o : M + qop1 R n) (T T' : M) : Prop :=
  is_trig_mx T' /\ match o with inl Q => T' = Q | inr o => q1_result T o T' end.

Definition all_tri := all4 s_typed s_ok s_result tri_ok tri_result (fun _ => True) (fun T X => X = square T).
Definition path_tri := path4 s_result tri_result (fun T X => X = square T).

End Families.
