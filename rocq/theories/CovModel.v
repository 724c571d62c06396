(** * Model: the lazily synchronised covariance classes (Case 3).

    Files (all under /repo/OpenKalman/linear-algebra/adapters): Covariance.hpp, SquareRootCovariance.hpp,
    details/CovarianceBase3Impl.hpp, details/CovarianceBase3-1.hpp, details/CovarianceImpl.hpp,
    details/to_covariance_nestable.hpp, details/ElementAccessor.hpp.

    A program is a history of operations on named objects.  Scalars are elements of an arbitrary real closed
    field (exact arithmetic, real scalars); triangular storage is lower (the upper branches are the mirror
    image under transposition).  [None] is a thrown exception, or a division by zero that produces infinities
    or NaN.  Moved-from objects, patterns and expression-template temporaries are not modelled. *)
From mathcomp Require Import all_ssreflect all_algebra.
From Verif Require Import MatBase LibModel.
Set Implicit Arguments.
Unset Strict Implicit.
Unset Printing Implicit Defensive.
Import GRing.Theory Num.Theory Order.Theory.
Local Open Scope ring_scope.

(** [synch_direction]: details/CovarianceBase3Impl.hpp l.50-53, l.77-81:  1 = nested_object is current and
    cholesky_nested is stale; 0 = both current; -1 = cholesky_nested is current and nested_object stale. *)
Inductive sdir := Fwd | Syn | Rev.
Definition sd_ge0 d := match d with Rev => false | _ => true end.
Definition sd_le0 d := match d with Fwd => false | _ => true end.
Definition sd_gt0 d := match d with Fwd => true | _ => false end.
Definition sd_lt0 d := match d with Rev => true | _ => false end.

Section Cov.
Variable R : rcfType.
Variable L : lib R.
Variable n : nat.

(** Writing component (i,j) of a hermitian adapter writes the stored element that (i,j) and (j,i) share;
    (hermitian_adapter set_component). *)
Definition set_sym (A : 'M[R]_n) (i j : 'I_n) (r : R) : 'M[R]_n :=
  \matrix_(k, l) if ((k == i) && (l == j)) || ((k == j) && (l == i)) then r else A k l.

(** Writing component (i,j) of a dense or triangular matrix. *)
Definition set_elt (A : 'M[R]_n) (i j : 'I_n) (r : R) : 'M[R]_n :=
  \matrix_(k, l) if (k == i) && (l == j) then r else A k l.

(** ** Covariance whose nested matrix is triangular. *)

(** The data members nested_object (lower-triangular), cholesky_nested (self-adjoint) and synch_direction. *)
Record cov := Cov { nested : 'M[R]_n; chol : 'M[R]_n; sd : sdir }.

(** synchronize_forward() const &: CovarianceBase3Impl.hpp l.88-92; conversion triangular to self-adjoint is
    cholesky_square (to_covariance_nestable.hpp, "non-diagonal triangular --> non-diagonal self-adjoint"). *)
Definition sync_forward (c : cov) : cov := Cov (nested c) (nested c *m (nested c)^T) Syn.

(** synchronize_reverse() &: CovarianceBase3-1.hpp l.78-82; conversion self-adjoint to triangular is
    cholesky_factor. *)
Definition sync_reverse (c : cov) : cov := Cov (lchol L (chol c)) (chol c) Syn.

(** get_triangular_nested_matrix(): CovarianceImpl.hpp, get_nested_matrix_impl<true>: the object afterwards;
    the returned matrix is its [nested]. *)
Definition get_tri (c : cov) : cov := if sd_lt0 (sd c) then sync_reverse c else c.

(** get_self_adjoint_nested_matrix(): get_nested_matrix_impl<false>: the object afterwards; the returned
    matrix is its [chol]. *)
Definition get_sa (c : cov) : cov := if sd_gt0 (sd c) then sync_forward c else c.

(** CovarianceImpl.hpp determinant(), branch "self_adjoint_covariance and not hermitian_matrix<NestedMatrix>". *)
Definition cov_det (c : cov) : R :=
  if sd_gt0 (sd c) then \det (nested c) * \det (nested c) else \det (chol c).

(** Assignment from (and construction from) a self-adjoint covariance_nestable: CovarianceBase3Impl.hpp
    l.262-284: sets cholesky_nested and marks it; nested_object keeps its old value. *)
Definition assign_sa (c : cov) (P : 'M[R]_n) : cov := Cov (nested c) P Rev.

(** Assignment from (and construction from) a triangular covariance_nestable (same lines). *)
Definition assign_tri (c : cov) (T : 'M[R]_n) : cov := Cov T (chol c) Fwd.

(** Copy constructor: CovarianceBase3-1.hpp l.121-125: only current members are copied, the others are
    default-constructed (modelled as zero; a fixed-size Eigen matrix would be uninitialised). *)
Definition copy_construct (o : cov) : cov :=
  Cov (if sd_lt0 (sd o) then 0 else nested o) (if sd_gt0 (sd o) then 0 else chol o) (sd o).

(** Copy assignment between distinct objects: CovarianceBase3Impl.hpp l.187-197.  The two tests read the
    synch_direction of the assigned-to object. *)
Definition copy_assign (c o : cov) : cov :=
  Cov (if sd_ge0 (sd c) then nested o else nested c) (if sd_le0 (sd c) then chol o else chol c) (sd o).

(** Named objects. *)
Definition store := nat -> cov.
Definition upd (s : store) (i : nat) (c : cov) : store := fun k => if k == i then c else s k.

(** operator+=: Covariance.hpp l.291-321, nested triangular (lower) branch; [j] is the argument, which may be
    the object itself, and which the conversions synchronise. *)
Definition do_add (s : store) (i j : nat) : store :=
  let s1 := if sd_ge0 (sd (s i)) then
              let s' := upd s j (get_tri (s j)) in
              upd s' i (Cov (llq L (row_mx (nested (s' i)) (nested (s' j)))) (chol (s' i)) (sd (s' i)))
            else s in
  if sd_le0 (sd (s1 i)) then
    let s' := upd s1 j (get_sa (s1 j)) in
    upd s' i (Cov (nested (s' i)) (chol (s' i) + chol (s' j)) (sd (s' i)))
  else s1.

(** operator-=: Covariance.hpp l.347-368. *)
Definition do_sub (s : store) (i j : nat) : option store :=
  let s1 := if sd_ge0 (sd (s i)) then
              let s' := upd s j (get_tri (s j)) in
              match lrank L (nested (s' i)) (nested (s' j)) (-1) with
              | Some T => Some (upd s' i (Cov T (chol (s' i)) (sd (s' i))))
              | None => None
              end
            else Some s in
  match s1 with
  | None => None
  | Some s1 =>
      Some (if sd_le0 (sd (s1 i)) then
              let s' := upd s1 j (get_sa (s1 j)) in
              upd s' i (Cov (nested (s' i)) (chol (s' i) - chol (s' j)) (sd (s' i)))
            else s1)
  end.

(** operator*=(scalar): Covariance.hpp l.391-427. *)
Definition do_mul (c : cov) (a : R) : option cov :=
  if 0 < a then
    Some (Cov (if sd_ge0 (sd c) then Num.sqrt a *: nested c else nested c)
              (if sd_le0 (sd c) then a *: chol c else chol c) (sd c))
  else if a < 0 then
    match (if sd_ge0 (sd c) then lrank L 0 (nested c) a else Some (nested c)) with
    | Some T => Some (Cov T (if sd_le0 (sd c) then a *: chol c else chol c) (sd c))
    | None => None
    end
  else Some (if sd_le0 (sd c) then Cov 0 0 Syn else Cov 0 (chol c) (sd c)).

(** operator/=(scalar): Covariance.hpp l.436-467. *)
Definition do_div (c : cov) (a : R) : option cov :=
  if 0 < a then
    Some (Cov (if sd_ge0 (sd c) then (Num.sqrt a)^-1 *: nested c else nested c)
              (if sd_le0 (sd c) then a^-1 *: chol c else chol c) (sd c))
  else if a < 0 then
    match (if sd_ge0 (sd c) then lrank L 0 (nested c) (a^-1) else Some (nested c)) with
    | Some T => Some (Cov T (if sd_le0 (sd c) then a^-1 *: chol c else chol c) (sd c))
    | None => None
    end
  else None.

(** scale(s): Covariance.hpp l.477-490. *)
Definition do_scale (c : cov) (a : R) : cov :=
  Cov (if sd_ge0 (sd c) then a *: nested c else nested c)
      (if sd_le0 (sd c) then (a * a) *: chol c else chol c) (sd c).

(** inverse_scale(s): Covariance.hpp l.500-513; s = 0 divides by zero, which has no value here. *)
Definition do_inv_scale (c : cov) (a : R) : option cov :=
  if a == 0 then None else
  Some (Cov (if sd_ge0 (sd c) then a^-1 *: nested c else nested c)
            (if sd_le0 (sd c) then (a * a)^-1 *: chol c else chol c) (sd c)).

(** rank_update(u, alpha) &: Covariance.hpp l.600-613.  The branch for one_dimensional<NestedMatrix> cannot be
    taken here: a one-dimensional matrix counts as diagonal (traits/triangle_type_of.hpp l.60-66), hence for
    real scalars as hermitian (concepts/hermitian_matrix.hpp l.48-58), so such a Covariance is Case 1
    (CovarianceBase1.hpp l.43-47), modelled by [do_rank1] below. *)
Definition do_rank (c : cov) m (U : 'M[R]_(n, m)) (a : R) : option cov :=
  let c1 := if sd_lt0 (sd c) then sync_reverse c else c in
  match lrank L (nested c1) U a with
  | Some T => Some (Cov T (chol c1) Fwd)
  | None => None
  end.

(** set_component / assignment through operator()(i,j): CovarianceBase3Impl.hpp l.294-304, l.335-341. *)
Definition do_set (c : cov) (i j : 'I_n) (r : R) : cov :=
  let c1 := if sd_gt0 (sd c) then sync_forward c else c in
  Cov (nested c1) (set_sym (chol c1) i j r) Rev.

(** The operations of a history.  [m] columns for a rank update. *)
Inductive op :=
| OSelfAdj of nat & 'M[R]_n                (* i = Covariance(P), or i = P, P self-adjoint   *)
| OFactor of nat & 'M[R]_n                 (* i = Covariance(T), or i = T, T triangular     *)
| OCopy of nat & nat                       (* i is copy-constructed from j                  *)
| OAssign of nat & nat                     (* i = j, copy assignment                        *)
| OAdd of nat & nat                        (* i += j                                        *)
| OSub of nat & nat                        (* i -= j                                        *)
| OMul of nat & R                          (* i *= a                                        *)
| ODiv of nat & R                          (* i /= a                                        *)
| OScale of nat & R                        (* i.scale(a)                                    *)
| OInvScale of nat & R                     (* i.inverse_scale(a)                            *)
| ORank (i m : nat) (U : 'M[R]_(n, m)) (a : R)  (* i.rank_update(U, a), U with m columns      *)
| OSet of nat & 'I_n & 'I_n & R            (* i(k,l) = r                                    *)
| OElem of nat & 'I_n & 'I_n               (* read i(k,l)                                   *)
| OMatrix of nat                           (* read the self-adjoint matrix of i             *)
| OTri of nat                              (* read the triangular factor of i               *)
| ODet of nat.                             (* determinant(i)                                *)

(** What an operation returns to the caller. *)
Inductive obs := VNone | VScalar of R | VMatrix of 'M[R]_n | VFactor of 'M[R]_n.

Definition lift (s : store) (i : nat) (c : option cov) : option (store * obs) :=
  match c with Some c' => Some (upd s i c', VNone) | None => None end.

(** One operation. *)
Definition step (s : store) (o : op) : option (store * obs) :=
  match o with
  | OSelfAdj i P => Some (upd s i (assign_sa (s i) P), VNone)
  | OFactor i T => Some (upd s i (assign_tri (s i) T), VNone)
  | OCopy i j => Some (upd s i (copy_construct (s j)), VNone)
  | OAssign i j => Some (if i == j then s else upd s i (copy_assign (s i) (s j)), VNone)
  | OAdd i j => Some (do_add s i j, VNone)
  | OSub i j => match do_sub s i j with Some s' => Some (s', VNone) | None => None end
  | OMul i a => lift s i (do_mul (s i) a)
  | ODiv i a => lift s i (do_div (s i) a)
  | OScale i a => Some (upd s i (do_scale (s i) a), VNone)
  | OInvScale i a => lift s i (do_inv_scale (s i) a)
  | ORank i m U a => lift s i (do_rank (s i) U a)
  | OSet i k l r => Some (upd s i (do_set (s i) k l r), VNone)
  | OElem i k l => let c := get_sa (s i) in Some (upd s i c, VScalar (chol c k l))
  | OMatrix i => let c := get_sa (s i) in Some (upd s i c, VMatrix (chol c))
  | OTri i => let c := get_tri (s i) in Some (upd s i c, VFactor (nested c))
  | ODet i => Some (s, VScalar (cov_det (s i)))
  end.

(** A history; the results are listed in order. *)
Fixpoint run (s : store) (os : seq op) : option (store * seq obs) :=
  match os with
  | [::] => Some (s, [::])
  | o :: os' =>
      match step s o with
      | None => None
      | Some (s1, v) => match run s1 os' with None => None | Some (s2, vs) => Some (s2, v :: vs) end
      end
  end.

(** The objects before any operation: default-constructed and synchronised (CovarianceBase3Impl.hpp l.127-134:
    synch_direction {} = 0); modelled as holding zero. *)
Definition store0 : store := fun _ => Cov 0 0 Syn.

(** ** Covariance whose nested matrix is self-adjoint (Case 1): the object is the matrix.
    details/CovarianceBase1.hpp; Covariance.hpp, the branches hermitian_matrix<NestedMatrix>. *)

(** rank_update(u, alpha) &: Covariance.hpp l.600-613, with synchronization_direction() = 0.  In one dimension
    the element is replaced through operator()(0,0) (CovarianceBase1.hpp l.224-227); otherwise
    OpenKalman::rank_update on a hermitian matrix (eigen-library-interface.hpp l.1307-1321) adds a U U^T. *)
Definition do_rank1 (P : 'M[R]_n) m (U : 'M[R]_(n, m)) (a : R) : 'M[R]_n :=
  if n == 1%N then const_mx (\tr P + a * \tr (U *m U^T)) else P + a *: (U *m U^T).

(** +=, -=, *=, /=, scale, inverse_scale, set_component: Covariance.hpp l.293-297, l.349-353, l.393-397,
    l.438-442, l.479-483, l.502-506; CovarianceBase1.hpp l.264-267.  [Q] is the argument converted to
    self-adjoint form.  Division by zero has no value. *)
Inductive op1 :=
| A1Add of 'M[R]_n | A1Sub of 'M[R]_n | A1Mul of R | A1Div of R | A1Scale of R | A1InvScale of R
| A1Rank (m : nat) (U : 'M[R]_(n, m)) (a : R) | A1Set of 'I_n & 'I_n & R.

Definition step1 (P : 'M[R]_n) (o : op1) : option 'M[R]_n :=
  match o with
  | A1Add Q => Some (P + Q)
  | A1Sub Q => Some (P - Q)
  | A1Mul a => Some (a *: P)
  | A1Div a => if a == 0 then None else Some (a^-1 *: P)
  | A1Scale a => Some ((a * a) *: P)
  | A1InvScale a => if a == 0 then None else Some ((a * a)^-1 *: P)
  | A1Rank m U a => Some (do_rank1 P U a)
  | A1Set i j r => Some (set_sym P i j r)
  end.

(** The triangular factor of a Case 1 covariance: cholesky_nested_matrix(), CovarianceBase1.hpp l.99-123. *)
Definition get_tri1 (P : 'M[R]_n) : 'M[R]_n := lchol L P.

End Cov.
