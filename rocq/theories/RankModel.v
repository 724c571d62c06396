(** * rank_update_triangular and rank_update_hermitian.

    The compile-time branches of OpenKalman/linear-algebra/functions/rank_update_triangular.hpp and
    rank_update_hermitian.hpp, and the loop of interfaces/eigen/eigen-library-interface.hpp over the columns of the
    update.  Eigen's rank-one update of a Cholesky factor is a parameter; its symmetric update is exact.  Objects are
    those of ShortModel.v; the same simplifications apply.  The value returned is modelled, not whether the argument is
    changed in place. *)
From mathcomp Require Import all_ssreflect all_algebra.
From Verif Require Import ShortModel LdltModel.
Set Implicit Arguments.
Unset Strict Implicit.
Unset Printing Implicit Defensive.
Import GRing.Theory Num.Theory Order.Theory.
Local Open Scope ring_scope.

Section Rank.
Variable R : rcfType.
Notation obj := (obj R).
Notation mat := (mat R).
Variable lib_llt : bool -> nat -> (nat -> nat -> R) -> option (nat -> nat -> R).
Variable lib_ldlt : nat -> (nat -> nat -> R) -> ldlt R.
Variable lib_lq : mat -> mat.

(** Eigen::internal::llt_inplace<Scalar, Lower or Upper>::rankUpdate(a, u, alpha): the updated matrix, or a failure
    (a result that is not negative). *)
Variable lib_rank : bool -> nat -> (nat -> nat -> R) -> (nat -> R) -> R -> option (nat -> nat -> R).

(** The requires-clauses, rank_update_triangular.hpp l.36-40, rank_update_hermitian.hpp l.34-37. *)
Definition dims_rejected (a u : obj) : bool :=
  [&& rfix u, rfix a & orows u != orows a] || [&& rfix u, cfix a & orows u != ocols a].

(** nested_object of a triangular or hermitian adapter, otherwise the object (rank_update_triangular.hpp l.111-114,
    rank_update_hermitian.hpp l.95-101). *)
Definition nested_triangular (o : obj) : nat -> nat -> R := if okind o is KTri _ f then f else entry o.
Definition nested_hermitian (o : obj) : nat -> nat -> R := if okind o is KHerm _ f then f else entry o.

(** The columns of the update, in order. *)
Definition columns (u : obj) : seq (nat -> R) := [seq (fun i => entry u i k) | k <- iota 0 (ocols u)].

(** eigen-library-interface.hpp l.1331-1337. *)
Fixpoint lib_updates (lo : bool) (n : nat) (f : nat -> nat -> R) (us : seq (nat -> R)) (alpha : R) : res (nat -> nat -> R) :=
  match us with
  | [::] => Val f
  | u :: us' => match lib_rank lo n f u alpha with Some g => lib_updates lo n g us' alpha | None => Thrown end
  end.

(** cholesky_square.hpp l.33-48 of a diagonal matrix, as an object. *)
Definition square_diag (o : obj) : res obj :=
  let rf := rfix o || cfix o in
  if orows o != ocols o then (if rfix o && cfix o then Rejected else Thrown)
  else if zero o || identity o then Val o
  else Val (Obj (KDiag (fun i => entry o i i * entry o i i)) (orows o) (orows o) rf rf true).

(** rank_update_triangular.hpp l.63, rank_update_hermitian.hpp l.49: a fixed dimension is one. *)
Definition one_by_one (a u : obj) : bool :=
  [|| rfix a && (orows a == 1%N), cfix a && (ocols a == 1%N) | rfix u && (orows u == 1%N)].

(** rank_update_triangular.hpp l.51-119. *)
Definition rank_update_triangular (a u : obj) (alpha : R) : res mat :=
  let up := if ttype a is TUpper then true else false in
  let t := if up then TUpper else TLower in
  if ~~ triangular a || dims_rejected a u then Rejected
  else if zero u then                                                                             (* l.55-62 *)
    (if (~~ rfix a || ~~ rfix u) && (orows a != orows u) then Thrown else Val (to_triangular t (value a)))
  else if one_by_one a u then                                                                     (* l.63-93 *)
    (if (~~ rfix a || ~~ rfix u) && (orows a != orows u) then Thrown
     else rbind (contract u (transpose_obj u)) (fun m =>
       rbind (vsqrt (entry a 0 0 * entry a 0 0 + alpha * mat_at m 0 0)) (fun e =>
         Val (to_triangular t (Mat (orows a) (ocols a) (fun i j => if (i == 0%N) && (j == 0%N) then e else entry a i j))))))
  else if zero a then                                                                             (* l.94-102 *)
    rbind (vsqrt alpha) (fun s =>
      if diagonal u then Val (value (to_diagonal (scalar_product (diagonal_of u) s false)))
      else if up then Val (QR_decomposition lib_lq (scalar_product (transpose_obj u) s false))
      else Val (LQ_decomposition lib_lq (scalar_product u s false)))
  else if diagonal a && diagonal u then                                                           (* l.103-108 *)
    rbind (square_diag a) (fun a2 => rbind (square_diag u) (fun u2 =>
      rbind (sum_impl 6 [:: a2; scalar_product u2 alpha false]) (fun d =>
        rbind (cholesky_factor lib_llt lib_ldlt true d) (fun x => Val (value x)))))
  else if orows a != orows u then Undefined                                                       (* an assertion of Eigen *)
  else rbind (lib_updates (~~ up) (orows a) (nested_triangular a) (columns u) alpha) (fun g =>               (* l.109-119 *)
    Val (to_triangular t (Mat (orows a) (orows a) g))).

(** SelfAdjointView<Lower or Upper>::rankUpdate adds to the components of one triangle
    (eigen-library-interface.hpp l.1307-1321). *)
Definition lib_hermitian (lo : bool) (f : nat -> nat -> R) (u : obj) (alpha : R) (i j : nat) : R :=
  if (if lo then (j <= i)%N else (i <= j)%N) then f i j + alpha * (\sum_(k < ocols u) entry u i k * entry u j k) else f i j.

(** rank_update_hermitian.hpp l.47-108. *)
Definition rank_update_hermitian (a u : obj) (alpha : R) : res mat :=
  let lo := if okind a is KHerm false _ then false else true in
  if dims_rejected a u then Rejected
  else if zero u || one_by_one a u then                                                           (* l.49-79 *)
    if ((~~ rfix a && ~~ cfix a) || ~~ rfix u) && (orows a != orows u) then Thrown
    else if zero u then Val (to_hermitian lo (value a))
    else rbind (contract u (transpose_obj u)) (fun m =>
      let e := entry a 0 0 + alpha * mat_at m 0 0 in
      Val (to_hermitian lo (Mat (orows a) (ocols a) (fun i j => if (i == 0%N) && (j == 0%N) then e else entry a i j))))
  else if zero a && diagonal u then                                                               (* l.80-88 *)
    (if ~~ (rfix a && cfix a) && (orows a != ocols a) then Thrown
     else rbind (square_diag u) (fun u2 => Val (value (scalar_product u2 alpha false))))
  else if diagonal a && diagonal u then                                                           (* l.89-94 *)
    rbind (square_diag u) (fun u2 => sum [:: a; scalar_product u2 alpha false])
  else if orows a != orows u then Undefined
  else Val (to_hermitian lo (Mat (orows a) (ocols a) (lib_hermitian lo (nested_hermitian a) u alpha))).     (* l.95-108 *)

End Rank.
