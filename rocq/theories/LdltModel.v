(** * cholesky_factor and cholesky_square.

    The compile-time branches of OpenKalman/linear-algebra/functions/cholesky_factor.hpp and cholesky_square.hpp, and
    the use that interfaces/eigen/eigen-library-interface.hpp makes of Eigen's LLT and LDLT decompositions, which are
    parameters.  Objects are those of ShortModel.v; the same simplifications apply. *)
From mathcomp Require Import all_ssreflect all_algebra.
From Verif Require Import ShortModel.
Set Implicit Arguments.
Unset Strict Implicit.
Unset Printing Implicit Defensive.
Import GRing.Theory Num.Theory Order.Theory.
Local Open Scope ring_scope.

Section Ldlt.
Variable R : rcfType.
Notation obj := (obj R).
Notation mat := (mat R).

(** Eigen::LDLT: the permutation (row i of the permuted matrix is row [lperm i] of the argument), matrixL, vectorD,
    isPositive(), isNegative() and info() == Success. *)
Record ldlt := Ldlt { lperm : nat -> nat; lL : nat -> nat -> R; lD : nat -> R; lpos : bool; lneg : bool; lok : bool }.

(** SelfAdjointView::llt(): reads the triangle of the view (the flag: lower); matrixLLT if the decomposition succeeds. *)
Variable lib_llt : bool -> nat -> (nat -> nat -> R) -> option (nat -> nat -> R).

(** MatrixBase::ldlt(): reads the lower triangle. *)
Variable lib_ldlt : nat -> (nat -> nat -> R) -> ldlt.

(** cwiseSqrt of vectorD: not a number where D is negative. *)
Definition sqrtD (n : nat) (x : ldlt) : res (nat -> R) :=
  if all (fun i => 0 <= lD x i) (iota 0 n) then Val (fun i => Num.sqrt (lD x i)) else NotFinite.

(** eigen-library-interface.hpp l.1207-1303, general case (l.1253-1303). [tl]: the factor asked for is lower
    triangular; [al]: the adapter stores the lower triangle.  In l.1268 the member function conjugate_transpose(), which Eigen does not
    have, is read as adjoint().  The components outside the triangle are never read (triangular_adapter, l.1301).
    A constant nested matrix (l.1217-1250) makes the hermitian adapter itself constant, which is the branch of
    [cholesky_factor] below. *)
Definition eigen_cholesky (tl al : bool) (n : nat) (f : nat -> nat -> R) : res (nat -> nat -> R) :=
  match lib_llt al n f with
  | Some g => Val (if tl == al then g else fun i j => g j i)                            (* l.1258-1271 *)
  | None =>                                                                             (* l.1272-1300 *)
    let x := lib_ldlt n f in                                                            (* l.1275: the nested object *)
    if (~~ lpos x && ~~ lneg x) || ~~ lok x then
      (if lpos x && lneg x then Val (fun _ _ => 0) else Thrown)
    else rbind (sqrtD n x) (fun s =>
      Val (if tl then fun i j => lL x i j * s j else fun i j => s i * lL x j i))
  end.

(** cholesky_factor.hpp l.38-90. *)
Definition cholesky_factor (tl : bool) (o : obj) : res obj :=
  let n := orows o in
  let rf := rfix o || cfix o in
  if orows o != ocols o then (if rfix o && cfix o then Rejected else Thrown)            (* l.40-41 *)
  else if zero o || identity o then Val o                                               (* l.43-46 *)
  else if const_diag o then                                                             (* l.47-51 *)
    rbind (vsqrt (cval o)) (fun s => Val (Obj (KCDiag false s) n n rf rf true))
  else if constant o then                                                               (* l.52-82 *)
    rbind (vsqrt (cval o)) (fun s =>
      if n == 0%N then Undefined          (* l.61: the dimension minus one wraps around *)
      else Val (Obj (KTri tl (fun i j => if (if tl then j else i) == 0%N then s else 0)) n n rf rf true))
  else if diagonal o then                                                               (* l.83-87 *)
    (if all (fun i => 0 <= entry o i i) (iota 0 n) then
       Val (Obj (KDiag (fun i => Num.sqrt (entry o i i))) n n rf rf true)
     else NotFinite)
  else match okind o with
  | KHerm al f =>                                                                       (* l.88-91; adapters-interface.hpp l.308-331 *)
    rbind (eigen_cholesky tl al n f) (fun g => Val (Obj (KTri tl g) n n (rfix o) (cfix o) true))
  | _ => Rejected                                                                       (* not a hermitian matrix *)
  end.

(** functions/conjugate_transpose.hpp, for real components and the kinds it is applied to. *)
Definition transpose_obj (o : obj) : obj :=
  Obj (match okind o with
       | KConst fx c => KConst fx c
       | KCDiag fx c => KCDiag fx c
       | KDiag d => KDiag d
       | KTri l f => KTri (~~ l) (fun i j => f j i)
       | KHerm l f => KHerm (~~ l) (fun i j => f j i)
       | KDense f => KDense (fun i j => f j i)
       end) (ocols o) (orows o) (cfix o) (rfix o) (osq o).

(** cholesky_square.hpp l.33-57. *)
Definition cholesky_square (o : obj) : res mat :=
  if orows o != ocols o then (if rfix o && cfix o then Rejected else Thrown)            (* l.35-36 *)
  else if ~~ triangular o then Rejected
  else if zero o || identity o then Val (value o)                                       (* l.38-41 *)
  else if diagonal o then                                                               (* l.42-48 *)
    Val (Mat (orows o) (orows o) (fun i j => if i == j then entry o i i * entry o i i else 0))
  else if upper o then                                                                  (* l.49-52 *)
    rbind (contract (transpose_obj o) o) (fun m => Val (to_hermitian false m))
  else rbind (contract o (transpose_obj o)) (fun m => Val (to_hermitian true m)).       (* l.53-56 *)

End Ldlt.
