(** * Model: the Eigen tensor module (unsupported/Eigen/CXX11/Tensor) behind the library interface.

    Directory: /repo/OpenKalman/linear-algebra/interfaces/eigen-tensor (I/ below), traits in I/traits (T/ below).
    Two parts: what the traits claim about a tensor expression of any number of indices, and the access to components.
    Reading of the code as in XprModel.v: [constant_value {x}] and [constant_diagonal_value {x}] are the values that
    get_constant, get_constant_diagonal of x give (a zero object also counts as a constant diagonal one), and no value
    otherwise; [arg.lhs()], [arg.rhs()] in T/TensorContractionOp.hpp l.104 are read as lhsExpression(),
    rhsExpression().  Simplifications: scalars are exact complex numbers; no dimension is part of a type, so an object is
    never known to have a single component; of the functors, negation, conjugate, square, cube, reciprocal, sum,
    difference, product and quotient (the traits of the others are those of XprModel.v); triangle types (those of
    component-wise operations are as in XprModel.v, a contraction has none), TensorMap, TensorRef and
    TensorReductionOp (whose get_constant calls itself, marked "fix this") are left out. *)
From Coq Require Import Reals List Bool Arith.
From Coquelicot Require Import Coquelicot.
From Verif Require Import XprEigen XprModel.
Import ListNotations.
Local Open Scope nat_scope.

(** ** Tensor expressions: Eigen's syntax and meaning. *)

Inductive tun := Negate | Conjugate | Square | Cube | Reciprocal.
Inductive tbin := Sum | Difference | Product | Quotient.
(** Eigen's functors, as XprEigen.v names them. *)
Definition ufun_of (u : tun) : ufun :=
  match u with Negate => UNeg | Conjugate => UConj | Square => USquare | Cube => UCube | Reciprocal => UInv end.
Definition bfun_of (b : tbin) : bfun :=
  match b with Sum => BPlus | Difference => BMinus | Product => BTimes | Quotient => BDiv end.

Inductive texpr :=
| TDense (ds : list nat) (f : list nat -> C)          (* Tensor, TensorFixedSize *)
| TConst (ds : list nat) (z : C)                      (* TensorCwiseNullaryOp<scalar_constant_op> *)
| TFixed (ds : list nat) (z : C)                      (* wrapped object with a compile-time constant *)
| TDiag (n : nat) (fx : bool) (z : C)                 (* wrapped constant-diagonal matrix *)
| THerm (n : nat) (f : nat -> nat -> C)               (* wrapped object that is Hermitian by its type *)
| TUn (u : tun) (x : texpr)                           (* TensorCwiseUnaryOp *)
| TBin (b : tbin) (x y : texpr)                       (* TensorCwiseBinaryOp *)
| TContract (ps : list (nat * nat)) (x y : texpr).    (* TensorContractionOp, with the pairs of contracted indices *)

Definition mem (p : nat) (cs : list nat) : bool := existsb (Nat.eqb p) cs.
Fixpoint lookup (p : nat) (l : list (nat * nat)) : option nat :=
  match l with [] => None | (c, k) :: r => if Nat.eqb p c then Some k else lookup p r end.

(** The dimensions that are not contracted, in order; [p] is the position of the first of [ds]. *)
Fixpoint free (cs : list nat) (p : nat) (ds : list nat) : list nat :=
  match ds with [] => [] | d :: r => if mem p cs then free cs (S p) r else d :: free cs (S p) r end.
(** The indices of an operand: [ks] at the contracted positions [cs], [fs] at the others. *)
Fixpoint place (cs ks : list nat) (p : nat) (ds fs : list nat) : list nat :=
  match ds with
  | [] => []
  | _ :: r => match lookup p (combine cs ks) with
              | Some k => k :: place cs ks (S p) r fs
              | None => hd 0 fs :: place cs ks (S p) r (tl fs)
              end
  end.
(** All the indices of a shape. *)
Fixpoint all_indices (ds : list nat) : list (list nat) :=
  match ds with [] => [[]] | d :: r => flat_map (fun k => map (cons k) (all_indices r)) (seq 0 d) end.

(** Eigen: the dimensions of a contraction are the free ones of the left operand, then those of the right one. *)
Fixpoint dims (e : texpr) : list nat :=
  match e with
  | TDense ds _ | TConst ds _ | TFixed ds _ => ds
  | TDiag n _ _ | THerm n _ => [n; n]
  | TUn _ x => dims x
  | TBin _ x _ => dims x
  | TContract ps x y => free (map fst ps) 0 (dims x) ++ free (map snd ps) 0 (dims y)
  end.
Definition contracted (ps : list (nat * nat)) (ds : list nat) : list nat := map (fun p => nth (fst p) ds 0) ps.

Fixpoint tcoef (e : texpr) (i : list nat) : C :=
  match e with
  | TDense _ f => f i
  | TConst _ z | TFixed _ z => z
  | TDiag _ _ z => match i with [a; b] => if Nat.eqb a b then z else C0 | _ => C0 end
  | THerm _ f => match i with [a; b] => f a b | _ => C0 end
  | TUn u x => ueval Kcplx (ufun_of u) (tcoef x i)
  | TBin b x y => beval (bfun_of b) (tcoef x i) (tcoef y i)
  | TContract ps x y =>
      let n := length (free (map fst ps) 0 (dims x)) in
      csum (map (fun ks => Cmult (tcoef x (place (map fst ps) ks 0 (dims x) (firstn n i)))
                                 (tcoef y (place (map snd ps) ks 0 (dims y) (skipn n i))))
                (all_indices (contracted ps (dims x))))
  end.

(** ** Claims. *)

(** A value (with whether the compiler knows it), none, or a read outside an array while finding it. *)
Inductive tclaim := NoValue | Value (fx : bool) (z : C) | OutOfBounds.
Definition has (c : tclaim) : bool := match c with NoValue => false | _ => true end.
Definition fixed_zero (c : tclaim) : bool := match c with Value true z => Ceqb z C0 | _ => false end.
(** values/functions/operation.hpp l.89-103. *)
Definition top1 (f : C -> C) (c : tclaim) : tclaim := match c with Value fx z => Value fx (f z) | _ => c end.
Definition top2 (f : C -> C -> C) (c d : tclaim) : tclaim :=
  match c, d with
  | Value fx z, Value fy w => Value (fx && fy) (f z w)
  | NoValue, _ | _, NoValue => NoValue
  | _, _ => OutOfBounds
  end.

(** T/TensorContractionOp.hpp l.66-68: the product over the pairs [ps] of [dims[b.first]], where [dims] are those of the
    contraction. *)
Fixpoint factor (ds : list nat) (ps : list (nat * nat)) : option nat :=
  match ps with
  | [] => Some 1
  | p :: r => match nth_error ds (fst p), factor ds r with Some d, Some m => Some (d * m) | _, _ => None end
  end.
(** [factor * value], l.69: known only at run time. *)
Definition times_factor (f : option nat) (c : tclaim) : tclaim :=
  match c with
  | NoValue => NoValue
  | OutOfBounds => OutOfBounds
  | Value _ z => match f with Some m => Value false (Cmult (real_of (INR m)) z) | None => OutOfBounds end
  end.
(** [++indices.cbegin()], l.68: beyond the end of an empty array. *)
Definition factor_but_first (ds : list nat) (ps : list (nat * nat)) : option nat :=
  match ps with [] => None | _ :: r => factor ds r end.

(** The claims of one expression: get_constant and get_constant_diagonal. *)
Record tclaims := mkclaims { g_const : tclaim; g_diag : tclaim }.
Definition tzero (t : tclaims) : bool := fixed_zero (g_const t).
Definition const (t : tclaims) : tclaim := g_const t.
Definition cdiag (t : tclaims) : tclaim := if has (g_diag t) then g_diag t else if tzero t then g_const t else NoValue.

(** T/TensorContractionOp.hpp l.44-95. *)
Definition contract_const (ds : list nat) (ps : list (nat * nat)) (x y : tclaims) : tclaim :=
  if tzero x then const x
  else if tzero y then const y
  else if has (cdiag x) && has (const y) then
    if Nat.eqb (length ps) 1 then top2 Cmult (cdiag x) (const y)
    else times_factor (factor_but_first ds ps) (top2 Cmult (cdiag x) (const y))
  else if has (const x) && has (cdiag y) then
    if Nat.eqb (length ps) 1 then top2 Cmult (const x) (cdiag y)
    else times_factor (factor_but_first ds ps) (top2 Cmult (const x) (cdiag y))
  else times_factor (factor ds ps) (top2 Cmult (const x) (const y)).
(** T/TensorContractionOp.hpp l.98-115. *)
Definition contract_diag (ds : list nat) (ps : list (nat * nat)) (x y : tclaims) : tclaim :=
  if Nat.eqb (length ps) 1 then top2 Cmult (cdiag x) (cdiag y)
  else times_factor (factor_but_first ds ps) (top2 Cmult (cdiag x) (const y)).

(** T/TensorCwiseBinaryOp.hpp l.71-99. *)
Definition binary_const (b : tbin) (x y : tclaims) : tclaim :=
  match bty (bfun_of b) with
  | Bsum => if tzero x then const y else if tzero y then const x else top2 (bop (bfun_of b)) (const x) (const y)
  | Bproduct => if tzero x then const x else if tzero y then const y
                else top2 (bop (bfun_of b)) (const x) (const y)
  | Bnormal => top2 (bop (bfun_of b)) (const x) (const y)
  end.
(** T/TensorCwiseBinaryOp.hpp l.113-167. *)
Definition binary_diag (b : tbin) (x y : tclaims) : tclaim :=
  match bty (bfun_of b) with
  | Bsum => if tzero x then cdiag y else if tzero y then cdiag x else top2 (bop (bfun_of b)) (cdiag x) (cdiag y)
  | Bproduct => if tzero x then const x else if tzero y then const y
                else top2 (bop (bfun_of b)) (if has (const x) then const x else cdiag x)
                                            (if has (const y) then const y else cdiag y)
  | Bnormal => NoValue
  end.
(** T/TensorCwiseUnaryOp.hpp l.71-84 and l.99-115. *)
Definition unary_claims (u : tun) (x : tclaims) : tclaims :=
  mkclaims (top1 (uop Kcplx (ufun_of u)) (const x))
    (if upt (ufun_of u) then top1 (uop Kcplx (ufun_of u)) (cdiag x) else NoValue).

(** T/Tensor.hpp and T/TensorFixedSize.hpp have no claims; T/TensorCwiseNullaryOp.hpp l.47-57. *)
Fixpoint claims (e : texpr) : tclaims :=
  match e with
  | TDense _ _ | THerm _ _ => mkclaims NoValue NoValue
  | TConst _ z => mkclaims (Value false z) NoValue
  | TFixed _ z => mkclaims (Value true z) NoValue
  | TDiag _ fx z => mkclaims NoValue (Value fx z)
  | TUn u x => unary_claims u (claims x)
  | TBin b x y => mkclaims (binary_const b (claims x) (claims y)) (binary_diag b (claims x) (claims y))
  | TContract ps x y => mkclaims (contract_const (dims e) ps (claims x) (claims y))
                                 (contract_diag (dims e) ps (claims x) (claims y))
  end.
(** What a caller sees: constant_value and constant_diagonal_value. *)
Definition constant_claim (e : texpr) : tclaim := const (claims e).
Definition diagonal_claim (e : texpr) : tclaim := cdiag (claims e).

(** concepts/hermitian_matrix.hpp l.50-57, for an object that may be square. *)
Definition counts_as_hermitian (k : kind) (own : bool) (t : tclaims) : bool :=
  own || ((has (const t) || has (cdiag t)) && match k with Kreal => true | Kcplx => false end).
(** is_hermitian: T/TensorCwiseUnaryOp.hpp l.129, T/TensorCwiseBinaryOp.hpp l.194-195, T/TensorContractionOp.hpp
    l.127-129; scalars of kind [k]. *)
Fixpoint own_hermitian (k : kind) (e : texpr) : bool :=
  match e with
  | TDense _ _ | TFixed _ _ => false
  | TConst _ _ => match k with Kreal => true | Kcplx => false end   (* eigen/traits/functors/nullary.hpp l.71-84 *)
  | TDiag _ _ _ => false
  | THerm _ _ => true
  | TUn u x => uph k (ufun_of u) && counts_as_hermitian k (own_hermitian k x) (claims x)
  | TBin _ x y => counts_as_hermitian k (own_hermitian k x) (claims x) &&
                  counts_as_hermitian k (own_hermitian k y) (claims y)
  | TContract ps x y =>
      Nat.eqb (length ps) 1 &&
      ((has (cdiag (claims x)) && counts_as_hermitian k (own_hermitian k y) (claims y)) ||
       (has (cdiag (claims y)) && counts_as_hermitian k (own_hermitian k x) (claims x)))
  end.
Definition hermitian_claim (k : kind) (e : texpr) : bool := counts_as_hermitian k (own_hermitian k e) (claims e).

(** ** Components. *)

(** A tensor: dimensions, order of storage (T/Tensor.hpp l.75), and the array. *)
Record storage (A : Type) := mkstorage { s_dims : list nat; s_right : bool; s_data : list A }.
Arguments mkstorage {A}. Arguments s_dims {A}. Arguments s_right {A}. Arguments s_data {A}.

(** Eigen's TensorDimensions.h, IndexOfColMajor and IndexOfRowMajor. *)
Fixpoint offset_left (ds i : list nat) : nat :=
  match ds, i with d :: r, k :: s => k + d * offset_left r s | _, _ => 0 end.
Fixpoint offset_right_from (acc : nat) (ds i : list nat) : nat :=
  match ds, i with d :: r, k :: s => offset_right_from (acc * d + k) r s | _, _ => acc end.
Definition offset {A} (t : storage A) (i : list nat) : nat :=
  if s_right t then offset_right_from 0 (s_dims t) i else offset_left (s_dims t) i.

Inductive access (A : Type) := Got (v : A) | TooMany | NotEnough | Beyond.
Arguments Got {A}. Arguments TooMany {A}. Arguments NotEnough {A}. Arguments Beyond {A}.

(** I/eigen-tensor-library-interface.hpp l.68-85, make_ix_array<ix_count>. *)
Fixpoint make_ix_array (ix_count : nat) (i : list nat) : access (list nat) :=
  match ix_count, i with
  | 0, [] => Got []
  | 0, _ :: _ => TooMany
  | S _, [] => NotEnough
  | S n, k :: r => match make_ix_array n r with Got l => Got (k :: l) | TooMany => TooMany | NotEnough => NotEnough | Beyond => Beyond end
  end.

(** I/eigen-tensor-library-interface.hpp l.53-63 and l.89-101: the evaluator reads the array without checking the
    indices. *)
Definition get_component {A} (t : storage A) (i : list nat) : access A :=
  match make_ix_array (length (s_dims t)) i with
  | Got j => match nth_error (s_data t) (offset t j) with Some v => Got v | None => Beyond end
  | TooMany => TooMany | NotEnough => NotEnough | Beyond => Beyond
  end.
Definition replace {A} (l : list A) (n : nat) (v : A) : list A := firstn n l ++ v :: skipn (S n) l.
(** I/eigen-tensor-library-interface.hpp l.104-132. *)
Definition set_component {A} (t : storage A) (v : A) (i : list nat) : access (storage A) :=
  match make_ix_array (length (s_dims t)) i with
  | Got j => if Nat.ltb (offset t j) (length (s_data t))
             then Got (mkstorage (s_dims t) (s_right t) (replace (s_data t) (offset t j) v))
             else Beyond
  | TooMany => TooMany | NotEnough => NotEnough | Beyond => Beyond
  end.
