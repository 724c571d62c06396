(** * Model: SquareRootCovariance storing a self-adjoint matrix (Case 3).

    Files: /repo/OpenKalman/linear-algebra/adapters/SquareRootCovariance.hpp, details/CovarianceBase3Impl.hpp,
    details/CovarianceBase3-1.hpp, details/CovarianceImpl.hpp.  The roles of the members are the reverse of
    those in CovModel.v: nested_object is self-adjoint, cholesky_nested is triangular (lower here).  Same
    simplifications as CovModel.v. *)
From mathcomp Require Import all_ssreflect all_algebra.
From Verif Require Import MatBase LibModel CovModel.
Set Implicit Arguments.
Unset Strict Implicit.
Unset Printing Implicit Defensive.
Import GRing.Theory Num.Theory Order.Theory.
Local Open Scope ring_scope.

Section Sqrt.
Variable R : rcfType.
Variable L : lib R.
Variable n : nat.

(** nested_object (self-adjoint), cholesky_nested (lower-triangular), synch_direction. *)
Record src := Src { qnested : 'M[R]_n; qchol : 'M[R]_n; qsd : sdir }.

(** synchronize_forward: CovarianceBase3Impl.hpp l.88-92: cholesky_nested = cholesky_factor(nested_object). *)
Definition qforward (c : src) : src := Src (qnested c) (lchol L (qnested c)) Syn.

(** synchronize_reverse: CovarianceBase3-1.hpp l.78-82: nested_object = cholesky_square(cholesky_nested). *)
Definition qreverse (c : src) : src := Src (qchol c *m (qchol c)^T) (qchol c) Syn.

(** get_triangular_nested_matrix / get_self_adjoint_nested_matrix: CovarianceImpl.hpp get_nested_matrix_impl. *)
Definition qget_tri (c : src) : src := if sd_gt0 (qsd c) then qforward c else c.
Definition qget_sa (c : src) : src := if sd_lt0 (qsd c) then qreverse c else c.

(** determinant(): CovarianceImpl.hpp, branch "triangular_covariance and not triangular_matrix<NestedMatrix>". *)
Definition qdet (c : src) : R :=
  if sd_gt0 (qsd c) then Num.sqrt (\det (qnested c)) else \det (qchol c).

(** Copy constructor: CovarianceBase3-1.hpp l.121-125. *)
Definition qcopy (o : src) : src :=
  Src (if sd_lt0 (qsd o) then 0 else qnested o) (if sd_gt0 (qsd o) then 0 else qchol o) (qsd o).

Definition qstore := nat -> src.
Definition qupd (s : qstore) (i : nat) (c : src) : qstore := fun k => if k == i then c else s k.

(** operator+=, operator-=, operator*=(triangular): SquareRootCovariance.hpp l.297-318, l.353-374, l.451-472:
    synchronise forward if needed, combine the triangular members, mark.  After the synchronisation
    synchronization_direction() > 0 is false, so the branch with synchronize_reverse is not taken. *)
Definition qcombine (f : 'M[R]_n -> 'M[R]_n -> 'M[R]_n) (s : qstore) (i j : nat) : qstore :=
  let s1 := qupd s i (qget_tri (s i)) in
  let s2 := qupd s1 j (qget_tri (s1 j)) in
  qupd s2 i (Src (qnested (s2 i)) (f (qchol (s2 i)) (qchol (s2 j))) Rev).

(** operator*=(scalar): l.399-412; operator/=(scalar): l.421-434 (division by zero has no value). *)
Definition qmul (c : src) (a : R) : src :=
  Src (if sd_ge0 (qsd c) then (a * a) *: qnested c else qnested c)
      (if sd_le0 (qsd c) then a *: qchol c else qchol c) (qsd c).

Definition qdiv (c : src) (a : R) : option src :=
  if a == 0 then None else
  Some (Src (if sd_ge0 (qsd c) then (a * a)^-1 *: qnested c else qnested c)
            (if sd_le0 (qsd c) then a^-1 *: qchol c else qchol c) (qsd c)).

(** rank_update(u, alpha) &: l.555-565; the nested matrix is hermitian, so the update is an addition. *)
Definition qrank (c : src) m (U : 'M[R]_(n, m)) (a : R) : src :=
  let c1 := if sd_lt0 (qsd c) then qreverse c else c in
  Src (qnested c1 + a *: (U *m U^T)) (qchol c1) Fwd.

(** set_component: CovarianceBase3Impl.hpp l.335-341. *)
Definition qset (c : src) (i j : 'I_n) (r : R) : src :=
  let c1 := if sd_gt0 (qsd c) then qforward c else c in
  Src (qnested c1) (set_elt (qchol c1) i j r) Rev.

Inductive qop :=
| QSelfAdj of nat & 'M[R]_n               (* i = SquareRootCovariance from the self-adjoint P  *)
| QFactor of nat & 'M[R]_n                (* i = SquareRootCovariance from the triangular T    *)
| QCopy of nat & nat
| QAdd of nat & nat                       (* i += j *)
| QSub of nat & nat                       (* i -= j *)
| QMulTri of nat & nat                    (* i *= j *)
| QMul of nat & R
| QDiv of nat & R
| QRank (i m : nat) (U : 'M[R]_(n, m)) (a : R)
| QSet of nat & 'I_n & 'I_n & R
| QElem of nat & 'I_n & 'I_n
| QTri of nat                             (* read the triangular matrix       *)
| QSquare of nat                          (* read the self-adjoint square     *)
| QDet of nat.

Definition qstep (s : qstore) (o : qop) : option (qstore * obs R n) :=
  match o with
  | QSelfAdj i P => Some (qupd s i (Src P (qchol (s i)) Fwd), VNone R n)
  | QFactor i T => Some (qupd s i (Src (qnested (s i)) T Rev), VNone R n)
  | QCopy i j => Some (qupd s i (qcopy (s j)), VNone R n)
  | QAdd i j => Some (qcombine (fun A B => A + B) s i j, VNone R n)
  | QSub i j => Some (qcombine (fun A B => A - B) s i j, VNone R n)
  | QMulTri i j => Some (qcombine (fun A B => A *m B) s i j, VNone R n)
  | QMul i a => Some (qupd s i (qmul (s i) a), VNone R n)
  | QDiv i a => match qdiv (s i) a with Some c => Some (qupd s i c, VNone R n) | None => None end
  | QRank i m U a => Some (qupd s i (qrank (s i) U a), VNone R n)
  | QSet i k l r => Some (qupd s i (qset (s i) k l r), VNone R n)
  | QElem i k l => let c := qget_tri (s i) in Some (qupd s i c, VScalar n (qchol c k l))
  | QTri i => let c := qget_tri (s i) in Some (qupd s i c, VFactor (qchol c))
  | QSquare i => let c := qget_sa (s i) in Some (qupd s i c, VMatrix (qnested c))
  | QDet i => Some (s, VScalar n (qdet (s i)))
  end.

Fixpoint qrun (s : qstore) (os : seq qop) : option (qstore * seq (obs R n)) :=
  match os with
  | [::] => Some (s, [::])
  | o :: os' =>
      match qstep s o with
      | None => None
      | Some (s1, v) => match qrun s1 os' with None => None | Some (s2, vs) => Some (s2, v :: vs) end
      end
  end.

Definition qstore0 : qstore := fun _ => Src 0 0 Syn.

(** ** SquareRootCovariance whose nested matrix is triangular (Case 1): the object is the matrix.
    SquareRootCovariance.hpp, the branches triangular_matrix<NestedMatrix>; rank_update l.555-565 calls
    rank_update_triangular. *)
Inductive qop1 :=
| B1Add of 'M[R]_n | B1Sub of 'M[R]_n | B1MulTri of 'M[R]_n | B1Mul of R | B1Div of R
| B1Rank (m : nat) (U : 'M[R]_(n, m)) (a : R).

Definition qstep1 (T : 'M[R]_n) (o : qop1) : option 'M[R]_n :=
  match o with
  | B1Add Q => Some (T + Q)
  | B1Sub Q => Some (T - Q)
  | B1MulTri Q => Some (T *m Q)
  | B1Mul a => Some (a *: T)
  | B1Div a => if a == 0 then None else Some (a^-1 *: T)
  | B1Rank m U a => lrank L T U a
  end.

End Sqrt.
