(** * The general linear-algebra functions and their compile-time shortcuts.

    The functions of OpenKalman/linear-algebra/functions choose a branch from what the type of the argument says
    about it: a constant, a constant diagonal, a diagonal, triangular or hermitian matrix, which dimensions are
    fixed, which constants are fixed.  An [obj] is a matrix together with that static information, and every
    function below takes the branches of the code in the order of the code.  The library (Eigen) is reached only
    in the last branch; its exact product, sum, determinant and element-wise operations are written out, and its
    solver and its LQ decomposition are parameters.

    Simplifications: scalars are real and exact (an element of a real closed field), objects have rank two, and
    patterns are euclidean, so a pattern is its dimension.  A statically detected error (a failed requires-clause
    or static_assert, or endless template recursion) is the outcome [Rejected]. *)
From mathcomp Require Import all_ssreflect all_algebra.
Set Implicit Arguments.
Unset Strict Implicit.
Unset Printing Implicit Defensive.
Import GRing.Theory Num.Theory Order.Theory.
Local Open Scope ring_scope.

(** Outcomes: a value, an exception, a component that is not a number or infinite, behaviour the C++ standard or
    Eigen leaves undefined, a program that does not compile. *)
Inductive res (A : Type) := Val (a : A) | Thrown | NotFinite | Undefined | Rejected.
Arguments Thrown {A}.
Arguments NotFinite {A}.
Arguments Undefined {A}.
Arguments Rejected {A}.

Definition rbind A B (r : res A) (f : A -> res B) : res B :=
  match r with
  | Val a => f a
  | Thrown => Thrown
  | NotFinite => NotFinite
  | Undefined => Undefined
  | Rejected => Rejected
  end.

(** OpenKalman/linear-algebra/enumerations.hpp l.21-34: triangle_type. *)
Inductive tri := TNone | TLower | TUpper | TDiag.

Definition tri_eq (s t : tri) : bool :=
  match s, t with
  | TNone, TNone | TLower, TLower | TUpper, TUpper | TDiag, TDiag => true
  | _, _ => false
  end.

Section Short.
Variable R : rcfType.

(** A value: dimensions and components (indices outside the dimensions are not read). *)
Record mat := Mat { mrows : nat; mcols : nat; mat_at : nat -> nat -> R }.

(** What the traits of a type say (interfaces/object-traits): [KConst fx c] is a constant object, [fx] telling whether
    the constant is known at compile time; [KCDiag] is a constant diagonal object; [KDiag] another diagonal matrix;
    [KTri lower] a triangular adapter over a matrix; [KHerm lower] a hermitian adapter; [KDense] anything else. *)
Inductive kind :=
  | KConst (fx : bool) (c : R)
  | KCDiag (fx : bool) (c : R)
  | KDiag (d : nat -> R)
  | KTri (lower : bool) (f : nat -> nat -> R)
  | KHerm (lower : bool) (f : nat -> nat -> R)
  | KDense (f : nat -> nat -> R).

(** [rfix], [cfix]: not dynamic_dimension<T, 0>, not dynamic_dimension<T, 1>; [osq]: the type declares itself
    square (object_traits::is_square). *)
Record obj := Obj { okind : kind; orows : nat; ocols : nat; rfix : bool; cfix : bool; osq : bool }.

(** Component access: linear-algebra/functions/get_component and the adapters' accessors
    (adapters/triangular_adapter.hpp, adapters/hermitian_adapter.hpp, adapters/to_diagonal_adapter.hpp). *)
Definition entry (o : obj) (i j : nat) : R :=
  match okind o with
  | KConst _ c => c
  | KCDiag _ c => if i == j then c else 0
  | KDiag d => if i == j then d i else 0
  | KTri true f => if (j <= i)%N then f i j else 0
  | KTri false f => if (i <= j)%N then f i j else 0
  | KHerm true f => if (j <= i)%N then f i j else f j i
  | KHerm false f => if (i <= j)%N then f i j else f j i
  | KDense f => f i j
  end.

Definition value (o : obj) : mat := Mat (orows o) (ocols o) (entry o).

(** A type that declares itself square describes only square objects; a hermitian adapter does. *)
Definition wf (o : obj) : bool :=
  (osq o ==> (orows o == ocols o)) && (if okind o is KHerm _ _ then osq o else true).

(** ** Concepts (OpenKalman/linear-algebra/concepts) *)

(** concepts/one_dimensional.hpp l.66-82 (guaranteed at compile time). *)
Definition one_dim (o : obj) : bool := [&& rfix o, cfix o, orows o == 1%N & ocols o == 1%N].

(** concepts/square_shaped.hpp l.59-76 (guaranteed): declared, or both dimensions fixed and equal. *)
Definition sq (o : obj) : bool := osq o || [&& rfix o, cfix o & orows o == ocols o].

(** concepts/empty_object.hpp l.49-56 (guaranteed): some fixed dimension is zero. *)
Definition empty (o : obj) : bool := (rfix o && (orows o == 0%N)) || (cfix o && (ocols o == 0%N)).

(** concepts/zero.hpp l.56-69: a constant or constant diagonal object whose constant is the fixed value 0. *)
Definition zero (o : obj) : bool :=
  match okind o with KConst true c | KCDiag true c => c == 0 | _ => false end.

(** traits/triangle_type_of.hpp l.31-74: zero and one-dimensional objects are diagonal, a column vector is lower and a
    row vector upper triangular, otherwise what the adapter says. *)
Definition ttype (o : obj) : tri :=
  if zero o || one_dim o then TDiag
  else match okind o with
  | KCDiag _ _ | KDiag _ => TDiag
  | k =>
    if cfix o && (ocols o == 1%N) then TLower
    else if rfix o && (orows o == 1%N) then TUpper
    else match k with KTri true _ => TLower | KTri false _ => TUpper | _ => TNone end
  end.

(** concepts/triangular_matrix.hpp l.31-40, concepts/diagonal_matrix.hpp l.29-35. *)
Definition lower (o : obj) : bool := match ttype o with TLower | TDiag => true | _ => false end.
Definition upper (o : obj) : bool := match ttype o with TUpper | TDiag => true | _ => false end.
Definition diagonal (o : obj) : bool := if ttype o is TDiag then true else false.
Definition triangular (o : obj) : bool := if ttype o is TNone then false else true.

(** concepts/constant_object.hpp l.46-66, concepts/constant_diagonal_object.hpp l.35-42,
    concepts/identity_matrix.hpp l.45-55. *)
Definition constant (o : obj) : bool :=
  (if okind o is KConst _ _ then true else false) || zero o || one_dim o.
Definition const_diag (o : obj) : bool :=
  (match okind o with KCDiag _ _ => true | _ => false end) || zero o || one_dim o.
Definition identity (o : obj) : bool :=
  match okind o with
  | KCDiag true c => c == 1
  | KConst true c => one_dim o && (c == 1)
  | _ => false
  end.

(** concepts/hermitian_matrix.hpp l.52-63, for real components. *)
Definition hermitian (o : obj) : bool :=
  sq o && ((if okind o is KHerm _ _ then true else false) || constant o || diagonal o).

(** traits/constant_value.hpp l.20-40: the constant, or the single component. *)
Definition cval (o : obj) : R :=
  match okind o with KConst _ c | KCDiag _ c => c | _ => entry o 0 0 end.

(** The triangle type shared by several arguments (triangle_type_of_v<A, B>): a diagonal matrix is of both types. *)
Definition tri_join (s t : tri) : tri :=
  match s, t with
  | TDiag, _ => t
  | _, TDiag => s
  | _, _ => if tri_eq s t then s else TNone
  end.

(** ** Building objects *)

(** functions/to_triangular.hpp l.48-62: components outside the triangle read as zero. *)
Definition to_triangular (t : tri) (m : mat) : mat :=
  Mat (mrows m) (mcols m) (fun i j =>
    match t with
    | TNone => mat_at m i j
    | TLower => if (j <= i)%N then mat_at m i j else 0
    | TUpper => if (i <= j)%N then mat_at m i j else 0
    | TDiag => if i == j then mat_at m i j else 0
    end).

(** functions/to_hermitian.hpp l.55-69 with a lower or upper storage triangle. *)
Definition to_hermitian (lower : bool) (m : mat) : mat :=
  Mat (mrows m) (mcols m) (fun i j =>
    if lower then (if (j <= i)%N then mat_at m i j else mat_at m j i)
    else (if (i <= j)%N then mat_at m i j else mat_at m j i)).

(** make_constant / make_zero with given dimensions. *)
Definition const_obj (fx : bool) (c : R) (r k : nat) (rf kf : bool) : obj :=
  Obj (KConst fx c) r k rf kf false.

Definition const_mat (c : R) (r k : nat) : mat := Mat r k (fun _ _ => c).

(** functions/diagonal_of.hpp l.38-60: a column holding the diagonal; constant and constant diagonal objects give a
    constant column. *)
Definition diagonal_of (o : obj) : obj :=
  let n := minn (orows o) (ocols o) in
  let f := rfix o && cfix o in
  match okind o with
  | KConst fx c | KCDiag fx c => Obj (KConst fx c) n 1 f true false
  | _ => Obj (KDense (fun i _ => entry o i i)) n 1 f true false
  end.

(** functions/to_diagonal.hpp l.83-122: a square diagonal matrix from a column. *)
Definition to_diagonal (o : obj) : obj :=
  match okind o with
  | KConst fx c => Obj (KCDiag fx c) (orows o) (orows o) (rfix o) (rfix o) true
  | _ => Obj (KDiag (fun i => entry o i 0)) (orows o) (orows o) (rfix o) (rfix o) true
  end.

(** functions/transpose.hpp l.30-115, for the columns it is applied to below. *)
Definition transpose_col (o : obj) : obj :=
  match okind o with
  | KConst fx c => Obj (KConst fx c) (ocols o) (orows o) (cfix o) (rfix o) false
  | _ => Obj (KDense (fun i j => entry o j i)) (ocols o) (orows o) (cfix o) (rfix o) false
  end.

(** internal::get_singular_component. *)
Definition singular (o : obj) : R := entry o 0 0.

(** values::sqrt of a real number: not a number below zero (values/math/sqrt.hpp; MathProperties.v). *)
Definition vsqrt (x : R) : res R := if 0 <= x then Val (Num.sqrt x) else NotFinite.

(** values::pow with a real exponent equal to a natural number (values/math/pow.hpp): exact above zero, zero at
    zero, not a number below (theorems pow_real and pow_agree_refuted of MathProperties.v). *)
Definition vpow (c : R) (n : nat) : res R :=
  if 0 < c then Val (c ^+ n) else if c == 0 then Val 0 else NotFinite.

(** ** contract (functions/contract.hpp l.53-133) *)

(** The library's product (Eigen operator-star on the components). *)
Definition lib_product (a b : obj) : mat :=
  Mat (orows a) (ocols b) (fun i j => \sum_(k < ocols a) entry a i k * entry b k j).

Definition contract (a b : obj) : res mat :=
  if ocols a != orows b then
    (if cfix a && rfix b then Rejected else Thrown)                          (* requires-clause; l.55-57 *)
  else if identity b && sq b then Val (value a)                              (* l.65-71 *)
  else if identity a && sq a then Val (value b)                              (* l.72-78 *)
  else if zero a || zero b then Val (const_mat 0 (orows a) (ocols b))        (* l.79-82 *)
  else if constant a && constant b then                                      (* l.83-92 *)
    Val (const_mat (cval a * cval b * (ocols a)%:R) (orows a) (ocols b))
  else if diagonal a && constant b then                                      (* l.93-101 *)
    let d := diagonal_of a in
    Val (Mat (orows d) (ocols b) (fun i _ => entry d i 0 * cval b))
  else if constant a && diagonal b then                                      (* l.102-110 *)
    let d := diagonal_of b in
    Val (Mat (orows a) (orows d) (fun _ j => entry d j 0 * cval a))
  else if diagonal a && diagonal b then                                      (* l.111-115 *)
    let da := diagonal_of a in
    let db := diagonal_of b in
    if orows da == orows db then
      Val (value (to_diagonal (Obj (KDense (fun i _ => entry da i 0 * entry db i 0)) (orows da) 1 true true false)))
    else Thrown                      (* n_ary_operation: the dimensions do not match *)
  else Val (to_triangular (tri_join (ttype a) (ttype b)) (lib_product a b)). (* l.116-133 *)

(** ** reduce (functions/reduce.hpp l.38-212) *)

Inductive rop := Plus | Times | Other (f : R -> R -> R).

Definition rapp (op : rop) (x y : R) : R :=
  match op with Plus => x + y | Times => x * y | Other f => f x y end.

(** l.41-60: constant_reduce_operation. *)
Fixpoint other_reduce (f : R -> R -> R) (c : R) (n : nat) : R :=
  match n with
  | 0 | 1 => c
  | n'.+1 => f (other_reduce f c n') c
  end.

Definition constant_reduce (op : rop) (c : R) (dim : nat) : R :=
  match op with
  | Plus => c * dim%:R
  | Times => c ^+ dim
  | Other f => other_reduce f c dim
  end.

(** The library's reduction of a non-empty list of components; Eigen asserts that there is at least one. *)
Definition redux (op : rop) (s : seq R) : option R :=
  if s is x :: s' then Some (foldl (rapp op) x s') else None.

Definition column (o : obj) (j : nat) : seq R := [seq entry o i j | i <- iota 0 (orows o)].
Definition row (o : obj) (i : nat) : seq R := [seq entry o i j | j <- iota 0 (ocols o)].
Definition components (o : obj) : seq R := flatten [seq column o j | j <- iota 0 (ocols o)].

Definition red_or0 (op : rop) (s : seq R) : R := odflt 0 (redux op s).

(** interfaces/eigen/eigen-library-interface.hpp l.911-943: a complete reduction if both indices are listed, down the
    columns if every listed index is 0, and along the rows otherwise. *)
Definition lib_reduce (op : rop) (idx : seq nat) (o : obj) : res mat :=
  if (0%N \in idx) && (1%N \in idx) then
    (if redux op (components o) is Some x then Val (const_mat x 1 1) else Undefined)
  else if all (fun i => i == 0%N) idx then
    (if orows o == 0%N then Undefined else Val (Mat 1 (ocols o) (fun _ j => red_or0 op (column o j))))
  else
    (if ocols o == 0%N then Undefined else Val (Mat (orows o) 1 (fun i _ => red_or0 op (row o i)))).

(** functions/internal/get_reduced_vector_space_descriptor.hpp l.36-42: the dimension of a reduced index is one. *)
Definition reduced_rows (idx : seq nat) (o : obj) : nat := if 0%N \in idx then 1%N else orows o.
Definition reduced_cols (idx : seq nat) (o : obj) : nat := if 1%N \in idx then 1%N else ocols o.

(** functions/internal/count_reduced_dimensions.hpp l.22-39. *)
Definition count_reduced (idx : seq nat) (o : obj) : nat :=
  ((if 0%N \in idx then orows o else 1) * (if 1%N \in idx then ocols o else 1))%N.

(** l.27-38: delete_reduction_index. *)
Definition delete_index (i : nat) (idx : seq nat) : seq nat := [seq x <- idx | x != i].

Definition is_plus (op : rop) : bool := if op is Plus then true else false.
Definition is_times (op : rop) : bool := if op is Times then true else false.

Definition make_zero (o : obj) : obj := Obj (KConst true 0) (orows o) (ocols o) (rfix o) (cfix o) false.

(** l.63-115: reduce_impl; the fuel bounds the depth of template recursion. *)
Fixpoint reduce_impl (fuel : nat) (op : rop) (o : obj) (idx : seq nat) : res mat :=
  match fuel with
  | 0 => Rejected
  | fuel'.+1 =>
    if zero o && (is_plus op || is_times op) then                                       (* l.67-70 *)
      Val (const_mat 0 (reduced_rows idx o) (reduced_cols idx o))
    else if constant o then                                                             (* l.71-76 *)
      Val (const_mat (constant_reduce op (cval o) (count_reduced idx o)) (reduced_rows idx o) (reduced_cols idx o))
    else if [&& diagonal o, is_plus op, rfix o, cfix o &                                (* l.77-83 *)
        ((1%N \in idx) && (orows o <= ocols o)%N) || ((0%N \in idx) && (1%N \in idx))] then
      reduce_impl fuel' op (diagonal_of o) (delete_index 1 idx)
    else if [&& diagonal o, is_plus op, rfix o, cfix o, 0%N \in idx & (ocols o <= orows o)%N] then   (* l.84-89 *)
      reduce_impl fuel' op (transpose_col (diagonal_of o)) (delete_index 0 idx)
    else if [&& diagonal o, is_times op, cfix o & 1%N \in idx] then                     (* l.90-97 *)
      (if ocols o == 1%N then reduce_impl fuel' op o (delete_index 0 idx)
       else reduce_impl fuel' op (make_zero (diagonal_of o)) (delete_index 0 idx))
    else if [&& diagonal o, is_times op, rfix o & 0%N \in idx] then                     (* l.98-105 *)
      (if orows o == 1%N then reduce_impl fuel' op o (delete_index 0 idx)
       else reduce_impl fuel' op (make_zero (transpose_col (diagonal_of o))) (delete_index 0 idx))
    else lib_reduce op idx o                                                            (* l.106-114 *)
  end.

(** The recursion is at most three levels deep, unless it never ends; a compiler gives up at some depth. *)
Definition template_depth : nat := 8.

(** l.143-158: reduce along one or more indices. *)
Definition fixed_one (i : nat) (o : obj) : bool :=
  if i is 0 then rfix o && (orows o == 1%N) else cfix o && (ocols o == 1%N).

Fixpoint reduce (op : rop) (o : obj) (idx : seq nat) : res mat :=
  match idx with
  | [::] => Rejected
  | i :: rest =>
    if fixed_one i o then (if rest is [::] then Val (value o) else reduce op o rest)
    else reduce_impl template_depth op o (i :: rest)
  end.

(** l.180-210: complete reduction to a scalar. *)
Definition reduce_all (op : rop) (o : obj) : res R :=
  if zero o && (is_plus op || is_times op) then Val 0
  else if one_dim o then Val (singular o)
  else if constant o then Val (constant_reduce op (cval o) (orows o * ocols o))
  else rbind (reduce_impl template_depth op o [:: 0%N; 1%N]) (fun m =>
    if (mrows m == 1%N) && (mcols m == 1%N) then Val (mat_at m 0 0) else Rejected).

(** ** scalar_product and scalar_quotient (functions/scalar_product.hpp l.51-85, scalar_quotient.hpp l.51-81);
    [sfx] says that the scalar is a compile-time constant. *)
Definition scalar_op (f : R -> R) (o : obj) : obj :=
  match okind o with
  | KTri l g => Obj (KTri l (fun i j => f (g i j))) (orows o) (ocols o) (rfix o) (cfix o) (osq o)
  | KHerm l g => Obj (KHerm l (fun i j => f (g i j))) (orows o) (ocols o) (rfix o) (cfix o) (osq o)
  | KDiag d => Obj (KDiag (fun i => f (d i))) (orows o) (ocols o) (rfix o) (cfix o) (osq o)
  | _ => Obj (KDense (fun i j => f (entry o i j))) (orows o) (ocols o) (rfix o) (cfix o) (osq o)
  end.

Definition scalar_product (o : obj) (s : R) (sfx : bool) : obj :=
  if zero o then o
  else if constant o then const_obj false (cval o * s) (orows o) (ocols o) (rfix o) (cfix o)
  else if const_diag o then
    let d := diagonal_of o in
    to_diagonal (const_obj false (cval o * s) (orows d) 1 (rfix d) true)
  else if sfx && (s == 0) then make_zero o
  else if sfx && (s == 1) then o
  else scalar_op (fun x => x * s) o.

(** Division by zero gives an infinite or undefined component; dividing the static zero by zero gives zero. *)
Definition scalar_quotient (o : obj) (s : R) (sfx : bool) : res obj :=
  if zero o then Val o
  else if s == 0 then NotFinite
  else if constant o then Val (const_obj false (cval o / s) (orows o) (ocols o) (rfix o) (cfix o))
  else if const_diag o then
    let d := diagonal_of o in
    Val (to_diagonal (const_obj false (cval o / s) (orows d) 1 (rfix d) true))
  else if sfx && (s == 1) then Val o
  else Val (scalar_op (fun x => x / s) o).

(** ** average_reduce (functions/average_reduce.hpp l.22-120) *)

(** l.23-37 and l.59-71. *)
Fixpoint average_reduce (o : obj) (idx : seq nat) : res mat :=
  match idx with
  | [::] => Rejected
  | i :: rest =>
    if empty o then Rejected
    else if fixed_one i o then (if rest is [::] then Val (value o) else average_reduce o rest)
    else if constant o then Val (const_mat (cval o) (reduced_rows idx o) (reduced_cols idx o))
    else rbind (reduce Plus o idx) (fun m =>
      if count_reduced idx o == 0%N then NotFinite
      else Val (Mat (mrows m) (mcols m) (fun i j => mat_at m i j / (count_reduced idx o)%:R)))
  end.

(** l.85-119: complete average. *)
Definition average_all (o : obj) : res R :=
  if zero o then Val 0
  else if constant o then Val (cval o)
  else if const_diag o then
    (if maxn (orows o) (ocols o) == 0%N then NotFinite else Val (cval o / (maxn (orows o) (ocols o))%:R))
  else rbind (reduce_all Plus o) (fun r =>
    if (orows o * ocols o)%N == 0%N then NotFinite else Val (r / (orows o * ocols o)%:R)).

(** ** trace (functions/trace.hpp l.35-89) *)
Definition trace (o : obj) : res R :=
  let n := minn (orows o) (ocols o) in
  if zero o || empty o then Val 0
  else if identity o then Val n%:R
  else if one_dim o then Val (singular o)
  else if constant o then Val (cval o * n%:R)
  else if const_diag o then Val (cval o * n%:R)
  else if triangular o then reduce_all Plus (diagonal_of o)
  else
    let d := diagonal_of o in
    if ~~ rfix d then
      (if (2 <= orows d)%N then reduce_all Plus d
       else if orows d == 1%N then Val (singular d)
       else Val 0)
    else if orows d == 1%N then Val (singular d)
    else reduce_all Plus d.

(** ** determinant (functions/determinant.hpp l.44-87) *)

(** The library's determinant. *)
Definition lib_det (o : obj) : R := \det (\matrix_(i < orows o, j < orows o) entry o i j).

(** l.25-29: with a dynamic dimension, a non-square argument throws; with fixed ones it does not compile. *)
Definition check_square A (o : obj) (r : res A) : res A :=
  if orows o == ocols o then r else if rfix o && cfix o then Rejected else Thrown.

Definition determinant (o : obj) : res R :=
  let ix_fixed := if rfix o then true else cfix o in
  let ix_dim := if rfix o then orows o else ocols o in
  check_square o (
    if identity o || empty o then Val 1
    else if (rfix o && (orows o == 1%N)) || (cfix o && (ocols o == 1%N)) then Val (singular o)
    else if [&& constant o, ix_fixed & (2 <= ix_dim)%N] then Val 0
    else if const_diag o then vpow (cval o) ix_dim
    else if triangular o then reduce_all Times (diagonal_of o)
    else if constant o then
      (if (2 <= orows o)%N then Val 0 else if orows o == 1%N then Val (singular o) else Val 1)
    else Val (lib_det o)).

(** ** sum (functions/sum.hpp l.25-122) *)

(** The library's element-wise sum. *)
Definition lib_sum (a b : obj) : obj :=
  Obj (KDense (fun i j => entry a i j + entry b i j)) (orows a) (ocols a) (rfix a || rfix b) (cfix a || cfix b)
      (osq a || osq b).

Definition same_dims (a b : obj) : bool := (orows a == orows b) && (ocols a == ocols b).

(** l.26-32: sum_constants. *)
Definition sum_constants (a b : obj) : obj :=
  const_obj false (cval a + cval b) (orows a) (ocols a) (rfix a || rfix b) (cfix a || cfix b).

(** l.35-98: sum_impl; every call has fewer arguments than its caller, or two.  The sums of objects whose dimensions
    differ are rejected at compile time, thrown, or (in the library) undefined. *)
Fixpoint sum_impl (fuel : nat) (ts : seq obj) : res obj :=
  match fuel with
  | 0 => Rejected
  | fuel'.+1 =>
    match ts with
    | [::] => Rejected
    | [:: t] => Val t
    | t0 :: t1 :: rest =>
      if ~~ same_dims t0 t1 then Thrown
      else if zero t0 then sum_impl fuel' (t1 :: rest)                                             (* l.47-50 *)
      else if zero t1 then sum_impl fuel' (t0 :: rest)                                             (* l.51-54 *)
      else if constant t0 && constant t1 then sum_impl fuel' (sum_constants t0 t1 :: rest)         (* l.55-60 *)
      else if constant t0 && ~~ nilp rest then                                                     (* l.61-64 *)
        rbind (sum_impl fuel' (t0 :: rest)) (fun x => sum_impl fuel' [:: t1; x])
      else if constant t1 && ~~ nilp rest then                                                     (* l.65-68 *)
        rbind (sum_impl fuel' (t1 :: rest)) (fun x => sum_impl fuel' [:: t0; x])
      else if diagonal t0 && diagonal t1 then                                                      (* l.69-73 *)
        rbind (sum_impl fuel' [:: diagonal_of t0; diagonal_of t1]) (fun d => sum_impl fuel' (to_diagonal d :: rest))
      else sum_impl fuel' (lib_sum t0 t1 :: rest)                                                  (* l.74-97 *)
    end
  end.

(** l.112-122. *)
Definition sum (ts : seq obj) : res mat :=
  rbind (sum_impl (2 * size ts + 2) ts) (fun s =>
    let t := foldr (fun o t => tri_join (ttype o) t) TDiag ts in
    if (if t is TNone then false else true) then Val (to_triangular t (value s))
    else if all hermitian ts then Val (to_hermitian true (value s))
    else Val (value s)).

(** ** LQ and QR decompositions (functions/LQ_decomposition.hpp l.33-99, QR_decomposition.hpp l.33-101) *)

(** The library's decompositions: the triangular factor of a matrix given by its components. *)
Variable lib_lq : mat -> mat.

(** functions/internal/clip_square_shaped.hpp l.26-58. *)
Definition clip_square (o : obj) : mat :=
  if sq o then value o else Mat (minn (orows o) (ocols o)) (minn (orows o) (ocols o)) (entry o).

Definition transpose_mat (m : mat) : mat := Mat (mcols m) (mrows m) (fun i j => mat_at m j i).

Definition LQ_decomposition (a : obj) : mat :=
  if lower a then clip_square a
  else if constant a then
    Mat (orows a) (orows a) (fun _ j => if j == 0%N then cval a * Num.sqrt (ocols a)%:R else 0)
  else lib_lq (value a).

Definition QR_decomposition (a : obj) : mat :=
  if upper a then clip_square a
  else if constant a then
    Mat (ocols a) (ocols a) (fun i _ => if i == 0%N then cval a * Num.sqrt (orows a)%:R else 0)
  else transpose_mat (lib_lq (transpose_mat (value a))).

(** ** solve (functions/solve.hpp l.87-180) *)

(** The library's solver; the flags are must_be_unique and must_be_exact. *)
Variable lib_solve : bool -> bool -> mat -> mat -> res mat.

(** l.33-52: wrap_solve_result. *)
Definition wrap_solve (a b : obj) (m : mat) : mat :=
  let t := tri_join (ttype a) (ttype b) in
  if (if t is TNone then false else true) then to_triangular t m
  else if (const_diag a && hermitian b) || (const_diag b && hermitian a) then to_hermitian true m
  else m.

Definition all_zero (o : obj) : bool := all (fun x => x == 0) (components o).

Definition solve (uniq exact : bool) (a b : obj) : res mat :=
  if orows a != orows b then (if rfix a && rfix b then Rejected else Thrown)
  else if zero b then                                                                          (* l.94-107 *)
    (if [&& uniq, ~~ constant a & ~~ const_diag a] && all_zero a then Thrown
     else Val (const_mat 0 (ocols a) (ocols b)))
  else if zero a then Val (const_mat 0 (ocols a) (ocols b))                                    (* l.108-112 *)
  else if [&& cfix a, ocols a == 1%N & (rfix a && (orows a == 1%N)) || (rfix b && (orows b == 1%N))] then   (* l.113-123 *)
    (if identity a then Val (value b)
     else rbind (scalar_quotient b (singular a) false) (fun x => Val (value x)))
  else if const_diag a && (sq a || [&& cfix a, rfix b & ocols a == orows b]) then              (* l.124-135 *)
    (if identity a && sq a then Val (value b)
     else rbind (scalar_quotient b (cval a) false) (fun x => Val (value x)))
  else if constant a && constant b then                                                        (* l.136-143 *)
    (let d := (ocols a)%:R * cval a in
     if d == 0 then NotFinite else Val (const_mat (cval b / d) (ocols a) (ocols b)))
  else if constant a && [|| rfix a && (orows a == 1%N), rfix b && (orows b == 1%N) |
      ~~ exact && (~~ uniq || [&& rfix a, cfix a & (ocols a <= orows a)%N])] then              (* l.144-151 *)
    rbind (scalar_quotient b ((ocols a)%:R * cval a) false) (fun x => Val (wrap_solve a b (value x)))
  else if diagonal a && sq a then                                                              (* l.152-169 *)
    (if all (fun i => entry a i i != 0) (iota 0 (orows a)) then
       Val (wrap_solve a b (Mat (orows b) (ocols b) (fun i j => entry b i j / entry a i i)))
     else NotFinite)
  else rbind (lib_solve uniq exact (value a) (value b)) (fun m => Val (wrap_solve a b m)).     (* l.170-179 *)

End Short.
