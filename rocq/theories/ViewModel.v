(** * Model: the view returned by Covariance::square_root() & on a Cholesky-form covariance (Case 2 over Case 3).

    Files (under /repo/OpenKalman/linear-algebra/adapters): Covariance.hpp l.526-538 (square_root() &),
    details/CovarianceBase2.hpp l.186-204 (construction from a Case 3 lvalue: nested_object is a reference to the
    owner's nested_object, synchronization_direction, synchronize_reverse and mark_nested_matrix_changed forward to
    the owner), SquareRootCovariance.hpp (the operations of the view; its nested matrix is triangular).
    The view has no state of its own, so a view operation on the object [i] is a step on the owner's store. *)
From mathcomp Require Import all_ssreflect all_algebra.
From Verif Require Import MatBase LibModel CovModel CovSpec.
Set Implicit Arguments.
Unset Strict Implicit.
Unset Printing Implicit Defensive.
Import GRing.Theory Num.Theory Order.Theory.
Local Open Scope ring_scope.

Section View.
Variable R : rcfType.
Variable L : lib R.
Variable n : nat.

(** nested_object() += / -= / *= ...; mark_nested_matrix_changed(): SquareRootCovariance.hpp l.299-303, l.355-359,
    l.401-405, l.453-457.  There is no synchronize_reverse(). *)
Definition view_update (f : 'M[R]_n -> 'M[R]_n) (c : cov R n) : cov R n := Cov (f (nested c)) (chol c) Fwd.

(** rank_update(u, alpha) &: SquareRootCovariance.hpp l.555-565. *)
Definition view_rank (c : cov R n) m (U : 'M[R]_(n, m)) (a : R) : option (cov R n) :=
  let c1 := if sd_lt0 (sd c) then sync_reverse L c else c in
  match lrank L (nested c1) U a with
  | Some T => Some (Cov T (chol c1) Fwd)
  | None => None
  end.

(** view(i,j) = r: CovarianceBase2.hpp l.322-330: synchronises the owner in reverse if needed, writes the nested
    matrix and marks it. *)
Definition view_elt (c : cov R n) (i j : 'I_n) (r : R) : cov R n :=
  let c1 := if sd_lt0 (sd c) then sync_reverse L c else c in
  Cov (set_elt (nested c1) i j r) (chol c1) Fwd.

(** view.set_component(r, i, j): CovarianceBase2.hpp l.368-372: no synchronisation. *)
Definition view_set (c : cov R n) (i j : 'I_n) (r : R) : cov R n :=
  Cov (set_elt (nested c) i j r) (chol c) Fwd.

Inductive vop :=
| VAdd of nat & 'M[R]_n                 (* view += T                                *)
| VMul of nat & R                       (* view *= a                                *)
| VRank (i m : nat) (U : 'M[R]_(n, m)) (a : R)
| VElt of nat & 'I_n & 'I_n & R         (* view(k,l) = r                            *)
| VSet of nat & 'I_n & 'I_n & R         (* set_component(view, r, k, l)             *)
| VTri of nat                           (* read the triangular matrix of the view   *)
| VConstElem of nat & 'I_n & 'I_n.      (* read view(k,l) of a const view           *)

(** get_triangular_nested_matrix() on the view synchronises in reverse (CovarianceImpl.hpp get_nested_matrix_impl<true>);
    operator()(i,j) const reads the nested matrix directly (CovarianceBase2.hpp l.333-337). *)
Definition vstep (s : store R n) (o : vop) : option (store R n * obs R n) :=
  match o with
  | VAdd i T => Some (upd s i (view_update (fun N => N + T) (s i)), VNone R n)
  | VMul i a => Some (upd s i (view_update (fun N => a *: N) (s i)), VNone R n)
  | VRank i m U a => lift s i (view_rank (s i) U a)
  | VElt i k l r => Some (upd s i (view_elt (s i) k l r), VNone R n)
  | VSet i k l r => Some (upd s i (view_set (s i) k l r), VNone R n)
  | VTri i => let c := get_tri L (s i) in Some (upd s i c, VFactor (nested c))
  | VConstElem i k l => Some (s, VScalar n (nested (s i) k l))
  end.

(** A history in which owners and views are used in any order. *)
Fixpoint vrun (s : store R n) (os : seq (op R n + vop)) : option (store R n * seq (obs R n)) :=
  match os with
  | [::] => Some (s, [::])
  | o :: os' =>
      match (match o with inl o1 => step L s o1 | inr o2 => vstep s o2 end) with
      | None => None
      | Some (s1, v) => match vrun s1 os' with None => None | Some (s2, vs) => Some (s2, v :: vs) end
      end
  end.

End View.
