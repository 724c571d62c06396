(** * Model: what the library claims about Eigen expressions.

    Directory: /repo/OpenKalman/linear-algebra/interfaces/eigen/traits (T/ below), functors in T/functors (F/ below),
    and /repo/OpenKalman/linear-algebra/concepts (Co/ below).  For an expression e the traits give: a constant shared by
    all components, a constant shared by the diagonal of a diagonal matrix, a triangle type, and a Hermitian flag.
    Reading of the code: the interface is between two versions of the core.  [constant_value {x}] and
    [constant_diagonal_value {x}] are read as the value that get_constant, get_constant_diagonal of x give, with the
    fall-backs of Co/constant_object.hpp l.47-66 and Co/constant_diagonal_object.hpp l.36-41 (a zero object, a single
    component), and as no value (std::monostate) otherwise; an operation on no value has no value.  A triangle trait
    written as a predicate on a triangle type and one written as a triangle type are read as the same thing.
    Simplifications: scalars as in XprEigen.v; shift functors, pow, the general lpnorm, PermutationMatrix, IndexedView,
    Homogeneous, Solve and Inverse are left out (the last five make no claims). *)
From Coq Require Import Reals ZArith List Bool.
From Coquelicot Require Import Coquelicot.
From Verif Require Import XprEigen.
Import ListNotations.
Local Open Scope R_scope.

(** ** Triangle types: linear-algebra/enumerations.hpp l.26-37, operator* l.43-56, operator+ l.62-71. *)
Inductive tri := Tnone | Tlower | Tupper | Tdiag.
Definition tri_eqb (a b : tri) : bool :=
  match a, b with Tnone, Tnone | Tlower, Tlower | Tupper, Tupper | Tdiag, Tdiag => true | _, _ => false end.
Definition tmul (a b : tri) : tri :=
  if tri_eqb a Tdiag || tri_eqb b Tdiag || (tri_eqb a Tupper && tri_eqb b Tlower) || (tri_eqb a Tlower && tri_eqb b Tupper)
  then Tdiag
  else if tri_eqb a Tlower || tri_eqb b Tlower then Tlower
  else if tri_eqb a Tupper || tri_eqb b Tupper then Tupper
  else Tnone.
Definition tadd (a b : tri) : tri :=
  if tri_eqb a Tdiag then b else if tri_eqb b Tdiag then a
  else if tri_eqb a Tlower && tri_eqb b Tlower then Tlower
  else if tri_eqb a Tupper && tri_eqb b Tupper then Tupper
  else Tnone.
(** Co/triangular_matrix.hpp l.34-37: an object of type [v] counts as [t]. *)
Definition tmatch (t v : tri) : bool :=
  tri_eqb t v || ((tri_eqb t Tupper || tri_eqb t Tlower) && tri_eqb v Tdiag).

(** ** Functors: the operation used on constants, and the flags. *)

(** F/unary.hpp: constexpr_operation of each functor (l.64-526); the functions of values/math are exact here
    (C18-C25, C80-C83). *)
Definition uop (k : kind) (u : ufun) (z : C) : C :=
  match u with
  | UNeg => Copp z                                                                       (* l.66 *)
  | UNot => ofb (Ceqb z C0)                                                              (* l.75 *)
  | UAbs => real_of (Cmod z)                                                             (* l.92 *)
  | UAbs2 => match k with Kcplx => real_of (fst z * fst z + snd z * snd z) | Kreal => Cmult z z end   (* l.110-124 *)
  | UConj => Cconj z                                                                     (* l.133 *)
  | UArg => real_of (carg z)                                                             (* l.143-152 *)
  | UCast => z                                                                           (* l.161-176 *)
  | UReal => real_of (fst z)                                                             (* l.206 *)
  | UImag => real_of (snd z)                                                             (* l.216 *)
  | USqrt => match k with Kreal => real_of (sqrt (fst z)) | Kcplx => csqrt z end         (* l.314 *)
  | UInv => Cdiv C1 z                                                                    (* l.467-475 *)
  | USquare => Cmult z z                                                                 (* l.484 *)
  | UCube => Cmult (Cmult z z) z                                                         (* l.494 *)
  | Uf Logistic => real_of (1 / (1 + exp (- fst z)))                                     (* l.522-525 *)
  | Uf Rsqrt => real_of (1 / sqrt (fst z))                                               (* l.324-331 *)
  | Uf t => real_of (rfun t (fst z))                                                     (* l.234-458 *)
  end.

(** preserves_triangle. *)
Definition upt (u : ufun) : bool :=
  match u with
  | UNot | UArg | UInv => false                                                          (* l.77, 153, 477 *)
  | Uf t => match t with
            | Exp | Log | Log10 | Log2 | Cos | Acos | Cosh | Acosh | Logistic | Rsqrt => false
            | _ => true end                                                              (* l.238-526 *)
  | _ => true
  end.
(** preserves_hermitian: false only for the imaginary part of a complex matrix (l.219). *)
Definition uph (k : kind) (u : ufun) : bool :=
  match u, k with UImag, Kcplx => false | _, _ => true end.

(** F/binary.hpp: binary_functor_type. *)
Inductive btype := Bsum | Bproduct | Bnormal.
Definition bty (b : bfun) : btype :=
  match b with
  | BPlus | BMinus | BOr | BXor | BNe | BNumNe | BGt | BLt | BMin | BMax | BHypot | BAbsDiff => Bsum
                              (* l.49, 59, 99, 165, 175, 185, 240, 294, 371, 424; BXor, BNumNe l.407-411 *)
  | BTimes | BAnd | BConjProd => Bproduct                                                (* l.69, 89, 229 *)
  | BDiv | BEq | BNumEq | BGe | BLe | BCmp _ => Bnormal                                  (* l.79, 155, 195, 205, 361 *)
  end.

(** F/binary.hpp: constexpr_operation; Eigen::numext::equal_to and not_equal_to are taken as std::equal_to<bool> and
    std::not_equal_to<bool> (l.410-415), which convert their arguments. *)
Definition bop (b : bfun) (x y : C) : C :=
  match b with
  | BPlus => Cplus x y | BMinus => Cminus x y | BTimes => Cmult x y | BDiv => Cdiv x y
  | BAnd => ofb (tob x && tob y) | BOr => ofb (tob x || tob y)
  | BEq => ofb (Ceqb x y) | BNe => ofb (negb (Ceqb x y))
  | BXor | BNumNe => ofb (negb (Bool.eqb (tob x) (tob y)))
  | BNumEq => ofb (Bool.eqb (tob x) (tob y))
  | BGt => ofb (Rltb (fst y) (fst x)) | BLt => ofb (Rltb (fst x) (fst y))
  | BGe => ofb (Rleb (fst y) (fst x)) | BLe => ofb (Rleb (fst x) (fst y))
  | BConjProd => Cmult (Cconj x) y                                                       (* l.227 *)
  | BMin => if Rltb (fst y) (fst x) then y else x                                        (* l.238 *)
  | BMax => if Rltb (fst x) (fst y) then y else x                                        (* l.292 *)
  | BCmp c => ofb (match c with                                                          (* l.347-358 *)
                   | Ceq => Ceqb x y | Clt => Rltb (fst x) (fst y) | Cle => Rleb (fst x) (fst y)
                   | Cgt => Rltb (fst y) (fst x) | Cge => Rleb (fst y) (fst x) | Cne => negb (Ceqb x y) end)
  | BHypot => real_of (sqrt (fst x * fst x + fst y * fst y))                             (* l.369 *)
  | BAbsDiff => if Rltb (fst x) (fst y) then Cminus y x else Cminus x y                  (* l.422 *)
  end.

(** ** Claims. *)

(** A value and whether it is known at compile time; [None] is std::monostate. *)
Definition claim := option (bool * C).
(** values/functions/operation.hpp l.89-103. *)
Definition op1 (f : C -> C) (c : claim) : claim := match c with Some (fx, z) => Some (fx, f z) | None => None end.
Definition op2 (f : C -> C -> C) (c d : claim) : claim :=
  match c, d with Some (fx, z), Some (fy, w) => Some (fx && fy, f z w) | _, _ => None end.
Definition is_some (c : claim) : bool := match c with Some _ => true | None => false end.
Definition is_fixed (c : claim) : bool := match c with Some (fx, _) => fx | None => false end.
Definition fixed_zero (c : claim) : bool := match c with Some (true, z) => Ceqb z C0 | _ => false end.
(** values/concepts/not_complex.hpp l.44-50. *)
Definition not_complex (k : kind) (c : claim) : bool :=
  match c with
  | Some (fx, z) => match k with Kreal => true | Kcplx => fx && (if Req_EM_T (snd z) 0 then true else false) end
  | None => false
  end.

(** The traits of one expression: scalar type, sizes in the type, square, get_constant, get_constant_diagonal, the
    triangle predicate, is_hermitian, and the component in the first row and column. *)
Record traits := mktraits {
  t_kind : kind; t_rows : option nat; t_cols : option nat; t_square : bool;
  t_const : claim; t_diag : claim; t_tri : tri -> bool; t_herm : bool; t_at : C;
  t_nr : nat; t_nc : nat   (* run-time sizes *) }.

(** Sizes in the type. *)
Definition sdim (d : dim) : option nat := if fixed d then Some (size d) else None.
Definition orelse (a b : option nat) : option nat := match a with Some _ => a | None => b end.
Definition is1 (a : option nat) : bool := match a with Some n => Nat.eqb n 1 | None => false end.
Definition may_eq (a b : option nat) : bool := match a, b with Some n, Some m => Nat.eqb n m | _, _ => true end.
Definition must_eq (a b : option nat) : bool := match a, b with Some n, Some m => Nat.eqb n m | _, _ => false end.

(** Co/one_dimensional.hpp, Co/zero.hpp l.56-61, Co/vector.hpp l.59-66. *)
Definition one_dim (t : traits) : bool := is1 (t_rows t) && is1 (t_cols t).
Definition zero (t : traits) : bool := fixed_zero (t_const t).
Definition vector0 (t : traits) : bool := is1 (t_cols t).
Definition vector1 (t : traits) : bool := is1 (t_rows t).
(** Co/constant_object.hpp l.47-55, traits/constant_value.hpp l.40-50. *)
Definition constant (t : traits) : claim :=
  match t_const t with Some c => Some c | None => if one_dim t then Some (false, t_at t) else None end.
(** Co/constant_diagonal_object.hpp l.36-41. *)
Definition constant_diag (t : traits) : claim :=
  match t_diag t with
  | Some c => Some c
  | None => if zero t then t_const t else if one_dim t then Some (false, t_at t) else None
  end.
(** traits/triangle_type_of.hpp l.62-68. *)
Definition triangle (t : traits) : tri :=
  if zero t || one_dim t || t_tri t Tdiag then Tdiag
  else if vector0 t then Tlower
  else if vector1 t then Tupper
  else if t_tri t Tlower then Tlower else if t_tri t Tupper then Tupper else Tnone.
(** Co/triangular_matrix.hpp l.28-37, Co/diagonal_matrix.hpp l.29-35. *)
Definition triangular (t : traits) (a : tri) : bool := tmatch a (triangle t).
Definition diagonal (t : traits) : bool := triangular t Tdiag.
(** Co/hermitian_matrix.hpp l.50-57, for objects known to be square, and for objects that may be square. *)
Definition herm_body (t : traits) : bool :=
  t_herm t || ((is_some (constant t) || diagonal t) && match t_kind t with Kreal => true | Kcplx => false end).
Definition square (t : traits) : bool := must_eq (t_rows t) (t_cols t) || t_square t.
Definition hermitian (t : traits) : bool := square t && herm_body t.
Definition may_be_hermitian (t : traits) : bool := may_eq (t_rows t) (t_cols t) && herm_body t.

(** A value-style triangle trait, as the predicate that Co/triangular_matrix.hpp l.34-37 makes of it. *)
Definition as_pred (v : tri) (t : tri) : bool := tmatch t v.

(** ** Component-wise operations. *)

(** F/binary.hpp l.102-117 (or), l.243-261 (min), l.297-315 (max): get_constant of the functor. *)
Definition or_const (a b : traits) : claim :=
  if is_fixed (constant b) then
    match constant b with Some (_, z) => if Ceqb z C1 then constant b else constant a | None => None end
  else if is_fixed (constant a) then
    match constant a with Some (_, z) => if Ceqb z C1 then constant a else constant b | None => None end
  else None.
Definition or_diag (a b : traits) : claim :=
  if is_fixed (constant_diag b) then
    match constant_diag b with
    | Some (_, z) => if Ceqb z C1 && diagonal a then constant_diag b
                     else if Ceqb z C0 then constant_diag a else None
    | None => None end
  else if is_fixed (constant_diag a) then
    match constant_diag a with
    | Some (_, z) => if Ceqb z C1 && diagonal b then constant_diag a
                     else if Ceqb z C0 then constant_diag b else None
    | None => None end
  else None.
(** The shared shape of min and max: [below c d] is the test that selects the constant. *)
Definition mm_const (f : bfun) (below : R -> R -> bool) (a b : traits) : claim :=
  match constant a, constant_diag b, constant_diag a, constant b with
  | Some (true, c), Some (true, d), _, _ =>
      if below (fst c) 0 && below (fst c) (fst d) then constant a else None
  | _, _, Some (true, d), Some (true, c) =>
      if below (fst c) 0 && below (fst c) (fst d) then constant b else None
  | _, _, _, _ => op2 (bop f) (constant a) (constant b)
  end.
Definition mm_diag (f : bfun) (below : R -> R -> bool) (a b : traits) : claim :=
  match constant a, constant_diag b, constant_diag a, constant b with
  | Some (true, c), Some (true, d), _, _ =>
      if below 0 (fst c) && below (fst d) (fst c) then constant_diag b else None
  | _, _, Some (true, d), Some (true, c) =>
      if below 0 (fst c) && below (fst d) (fst c) then constant_diag a else None
  | _, _, _, _ => op2 (bop f) (constant_diag a) (constant_diag b)
  end.

(** T/CwiseBinaryOp.hpp l.74-101. *)
Definition bin_const (b : bfun) (x y : traits) : claim :=
  match b with
  | BOr => or_const x y
  | BMin => mm_const BMin Rltb x y
  | BMax => mm_const BMax (fun p q => Rltb q p) x y
  | _ =>
    match bty b with
    | Bsum => if zero x then constant y else if zero y then constant x else op2 (bop b) (constant x) (constant y)
    | Bproduct => if zero x then constant x else if zero y then constant y else op2 (bop b) (constant x) (constant y)
    | Bnormal => op2 (bop b) (constant x) (constant y)
    end
  end.
(** T/CwiseBinaryOp.hpp l.116-170. *)
Definition bin_diag (b : bfun) (x y : traits) : claim :=
  match b with
  | BOr => or_diag x y
  | BMin => mm_diag BMin Rltb x y
  | BMax => mm_diag BMax (fun p q => Rltb q p) x y
  | _ =>
    match bty b with
    | Bsum => if zero x then constant_diag y else if zero y then constant_diag x
              else op2 (bop b) (constant_diag x) (constant_diag y)
    | Bproduct => if zero x then constant x else if zero y then constant y
                  else op2 (bop b) (if is_some (constant x) then constant x else constant_diag x)
                                   (if is_some (constant y) then constant y else constant_diag y)
    | Bnormal => None
    end
  end.
(** T/CwiseBinaryOp.hpp l.190-201 (all functors preserve Hermitian), sizes l.35-47, is_square l.181-188. *)
Definition bin_traits (b : bfun) (x y : traits) (at00 : C) (k : kind) : traits :=
  mktraits k (orelse (t_rows x) (t_rows y)) (orelse (t_cols x) (t_cols y)) (square x || square y)
    (bin_const b x y) (bin_diag b x y)
    (as_pred (match bty b with Bsum => tadd (triangle x) (triangle y) | Bproduct => tmul (triangle x) (triangle y)
              | Bnormal => Tnone end))
    (may_be_hermitian x && may_be_hermitian y) at00 (t_nr x) (t_nc x).

(** F/nullary.hpp l.71-84: a constant given at run time. *)
Definition const_traits (k : kind) (r c : option nat) (nr nc : nat) (z : C) : traits :=
  mktraits k r c false (Some (false, z)) None (fun _ => false) (match k with Kreal => true | Kcplx => false end) z nr nc.

(** T/CwiseUnaryOp.hpp l.71-129. *)
Definition un_traits (u : ufun) (x : traits) (at00 : C) (k : kind) : traits :=
  mktraits k (t_rows x) (t_cols x) (square x)
    (op1 (uop (t_kind x) u) (constant x))
    (if upt u then op1 (uop (t_kind x) u) (constant_diag x) else None)
    (fun t => upt u && triangular x t)
    (uph (t_kind x) u && may_be_hermitian x) at00 (t_nr x) (t_nc x).
(** F/unary.hpp l.533-559 (bind1st_op), l.564-590 (bind2nd_op): the constants are those of the corresponding
    CwiseBinaryOp with a constant operand. *)
Definition bind_traits (first : bool) (b : bfun) (z : C) (x : traits) (at00 : C) (k : kind) : traits :=
  let c := const_traits (t_kind x) (t_rows x) (t_cols x) (t_nr x) (t_nc x) z in
  mktraits k (t_rows x) (t_cols x) (square x)
    (if first then constant (bin_traits b c x at00 k) else constant (bin_traits b x c at00 k))
    (if first then constant_diag (bin_traits b c x at00 k) else constant_diag (bin_traits b x c at00 k))
    (fun t => match bty b with Bproduct => triangular x t | _ => false end)
    (may_be_hermitian x) at00 (t_nr x) (t_nc x).

(** ** Structural operations. *)

(** T/NestByValue.hpp l.48-74, T/MatrixWrapper.hpp l.52-78, T/ArrayWrapper.hpp l.51-77. *)
Definition wrap_traits (x : traits) : traits :=
  mktraits (t_kind x) (t_rows x) (t_cols x) (square x) (constant x) (constant_diag x) (triangular x)
    (may_be_hermitian x) (t_at x) (t_nr x) (t_nc x).
(** T/DiagonalWrapper.hpp l.45-81. *)
Definition diagvec_traits (x : traits) (at00 : C) : traits :=
  let n := match t_rows x, t_cols x with Some r, Some c => Some (r * c)%nat | _, _ => None end in
  mktraits (t_kind x) n n true None (constant x) (as_pred Tdiag) false at00 (t_nr x * t_nc x) (t_nr x * t_nc x).
(** T/Transpose.hpp l.42-70. *)
Definition trans_traits (x : traits) (at00 : C) : traits :=
  mktraits (t_kind x) (t_cols x) (t_rows x) (square x) (constant x) (constant_diag x)
    (fun t => diagonal x || (tri_eqb t Tlower && triangular x Tupper) || (tri_eqb t Tupper && triangular x Tlower))
    (may_be_hermitian x) at00 (t_nc x) (t_nr x).
(** T/Replicate.hpp l.45-90. *)
Definition repl_traits (rf cf : dim) (x : traits) (at00 : C) : traits :=
  let one (d : dim) := fixed d && Nat.eqb (size d) 1 in
  let prod (d : dim) (n : option nat) := match n with Some m => if fixed d then Some (size d * m)%nat else None | None => None end in
  mktraits (t_kind x) (prod rf (t_rows x)) (prod cf (t_cols x)) false
    (constant x)
    (if one rf && one cf then constant_diag x else None)
    (as_pred (if triangular x Tdiag && one rf && one cf then Tdiag
              else if triangular x Tupper && one rf then Tupper
              else if triangular x Tlower && one cf then Tupper
              else Tnone))
    (may_be_hermitian x &&
     (one rf && one cf || match t_kind x with Kreal => true | Kcplx => false end ||
      not_complex (t_kind x) (constant x) || not_complex (t_kind x) (constant_diag x)))
    at00 (size rf * t_nr x) (size cf * t_nc x).
(** T/Reverse.hpp l.48-80. *)
Definition is_both (d : revdir) : bool := match d with Both => true | _ => false end.
Definition flip_tri (t : tri) : tri := match t with Tupper => Tlower | Tlower => Tupper | _ => t end.
Definition rev_traits (d : revdir) (x : traits) (at00 : C) : traits :=
  mktraits (t_kind x) (t_rows x) (t_cols x) (square x)
    (constant x)
    (if is_both d then constant_diag x else None)
    (fun t => triangular x (flip_tri t) &&
              match d with Both => true | Horizontal => vector0 x | Vertical => vector1 x end)
    (may_be_hermitian x && (is_both d || vector0 x || vector1 x)) at00 (t_nr x) (t_nc x).
(** T/Select.hpp l.57-143. *)
Definition sel_traits (c x y : traits) (at00 : C) (k : kind) : traits :=
  let chosen := match constant c with Some (true, z) => Some (if tob z then x else y) | _ => None end in
  let same (p q : claim) := match p, q with
                            | Some (true, z), Some (true, w) => if Ceqb z w then p else None | _, _ => None end in
  mktraits k (orelse (t_rows c) (orelse (t_rows x) (t_rows y))) (orelse (t_cols c) (orelse (t_cols x) (t_cols y)))
    (square c || square x || square y)
    (match chosen with Some t => constant t | None => same (constant x) (constant y) end)
    (match chosen with Some t => constant_diag t | None => same (constant_diag x) (constant_diag y) end)
    (fun a => match chosen with Some t => triangular t a | None => false end)
    (match chosen with
     | Some t => may_be_hermitian t
     | None => may_be_hermitian c && may_be_hermitian x && may_be_hermitian y end) at00 (t_nr c) (t_nc c).
(** T/Product.hpp l.41-112. *)
Definition nat_claim (fx : bool) (n : nat) : claim := Some (fx, real_of (INR n)).
Definition prod_const (x y : traits) : claim :=
  if zero x then constant x
  else if zero y then constant y
  else if is_some (constant_diag x) && is_some (constant y) then op2 Cmult (constant_diag x) (constant y)
  else if is_some (constant x) && is_some (constant_diag y) then op2 Cmult (constant x) (constant_diag y)
  else match orelse (t_cols x) (t_rows y) with
       | None => op2 Cmult (nat_claim false (t_nc x)) (op2 Cmult (constant x) (constant y))
       | Some n => if is_fixed (constant x) then op2 Cmult (op2 Cmult (nat_claim true n) (constant x)) (constant y)
                   else op2 Cmult (op2 Cmult (nat_claim true n) (constant y)) (constant x)
       end.
Definition prod_traits (x y : traits) (at00 : C) (k : kind) : traits :=
  mktraits k (t_rows x) (t_cols y) false (prod_const x y)
    (op2 Cmult (constant_diag x) (constant_diag y))
    (fun t => triangular x t && triangular y t)
    ((is_some (constant_diag x) && not_complex (t_kind x) (constant_diag x) && may_be_hermitian y) ||
     (is_some (constant_diag y) && not_complex (t_kind y) (constant_diag y) && may_be_hermitian x))
    at00 (t_nr x) (t_nc y).
(** T/Diagonal.hpp l.42-81. *)
Definition diag_const (k : Z) (fx : bool) (x : traits) : claim :=
  let in_static := match Z.compare k 0 with
                   | Lt => match t_rows x with None => true | Some n => (- Z.of_nat n <? k)%Z end
                   | Gt => match t_cols x with None => true | Some n => (k <? Z.of_nat n)%Z end
                   | Eq => false end in
  let too_far := match Z.compare k 0 with
                 | Lt => match t_rows x with None => (k <=? - Z.of_nat (t_nr x))%Z | Some _ => false end
                 | Gt => match t_cols x with None => (Z.of_nat (t_nc x) <=? k)%Z | Some _ => false end
                 | Eq => false end in
  if is_some (constant_diag x) && fx && (k =? 0)%Z then constant_diag x
  else if zero x || (is_some (constant_diag x) && fx && in_static) then
    if fx && too_far then None (* throws std::out_of_range *) else Some (true, C0)
  else if is_some (constant_diag x) && negb fx then
    if (k =? 0)%Z then match constant_diag x with Some (_, z) => Some (false, z) | None => None end
    else if (- Z.of_nat (t_nr x) <? k)%Z && (k <? Z.of_nat (t_nc x))%Z then Some (false, C0)
    else None (* throws std::out_of_range *)
  else constant x.
(** Sizes: Eigen's RowsAtCompileTime of a Diagonal. *)
Definition diag_traits (k : Z) (fx : bool) (x : traits) (at00 : C) (n : nat) : traits :=
  let r := match t_rows x, t_cols x with
           | Some a, Some b => if fx then Some (Nat.min (a - Z.to_nat (- k)) (b - Z.to_nat k)) else None
           | _, _ => None end in
  mktraits (t_kind x) r (Some 1%nat) false (diag_const k fx x) None (fun _ => false) false at00 n 1.
(** T/SelfAdjointView.hpp l.57-94. *)
Definition self_traits (x : traits) (at00 : C) : traits :=
  mktraits (t_kind x) (t_rows x) (t_cols x) (square x)
    (match t_kind x with
     | Kreal => constant x
     | Kcplx => if is_fixed (constant x) && not_complex Kcplx (constant x) then constant x else None end)
    (constant_diag x)
    (fun _ => diagonal x)
    (match t_kind x with Kreal => true | Kcplx => false end ||
     not_complex (t_kind x) (constant x) || not_complex (t_kind x) (constant_diag x)) at00 (t_nr x) (t_nc x).
(** T/TriangularView.hpp l.57-111. *)
Definition mode_is (m n : diagmode) : bool :=
  match m, n with Plain, Plain | UnitDiag, UnitDiag | ZeroDiag, ZeroDiag => true | _, _ => false end.
Definition tri_traits (upper : bool) (m : diagmode) (x : traits) (at00 : C) : traits :=
  let opposite := if upper then triangular x Tlower else triangular x Tupper in
  mktraits (t_kind x) (t_rows x) (t_cols x) (square x)
    (if zero x || (mode_is m ZeroDiag && diagonal x) then Some (true, C0) else None)
    (if mode_is m UnitDiag && opposite then Some (true, C1)
     else if mode_is m ZeroDiag && opposite then Some (true, C0)
     else constant_diag x)
    (as_pred (tmul (if upper then Tupper else Tlower) (triangle x)))
    (diagonal x && (match t_kind x with Kreal => true | Kcplx => false end ||
       not_complex (t_kind x) (constant x) || not_complex (t_kind x) (constant_diag x))) at00 (t_nr x) (t_nc x).
(** T/Block.hpp l.43-47, T/VectorBlock.hpp l.55-59. *)
Definition block_traits (r c : dim) (x : traits) (at00 : C) : traits :=
  mktraits (t_kind x) (sdim r) (sdim c) false (constant x) None (fun _ => false) false at00 (size r) (size c).
(** T/Reshaped.hpp l.58-139. *)
Definition reshape_traits (r c : dim) (x : traits) (at00 : C) : traits :=
  let is_known (d : dim) (n : option nat) := fixed d && match n with Some m => Nat.eqb (size d) m | None => false end in
  let same_shape := is_known r (t_rows x) || is_known c (t_cols x) in
  let total := match t_rows x, t_cols x with Some a, Some b => Some (a * b)%nat | _, _ => None end in
  (* l.58-71: the other size, when it follows *)
  let size_of (d o : dim) :=
    if fixed d then Some (size d)
    else if negb (fixed o) || Nat.eqb (size o) 0 then None
    else if is_known o (t_rows x) && is_some (option_map (fun n => (true, real_of (INR n))) (t_cols x)) then t_cols x
    else if is_known o (t_cols x) && is_some (option_map (fun n => (true, real_of (INR n))) (t_rows x)) then t_rows x
    else match total with Some n => if Nat.eqb (n mod size o) 0 then Some (n / size o)%nat else None | None => None end in
  mktraits (t_kind x) (size_of r c) (size_of c r) false
    (constant x)
    (if same_shape then constant_diag x else None)
    (fun t => triangular x t && same_shape)
    (may_be_hermitian x &&
     (match t_rows x, t_cols x with None, None => true | _, _ => false end ||
      ((negb (fixed r) || is_known r (t_rows x) || is_known r (t_cols x)) &&
       (negb (fixed c) || is_known c (t_cols x) || is_known c (t_rows x)))))
    at00 (size r) (size c).

(** ** Partial reductions. *)

(** F/redux.hpp get_constant: l.126-129 with l.89-121 (norms), l.297-308 (sum), l.367-371 (min), l.423-427 (max),
    l.475-479 (all), l.527-531 (any), l.585-589 (count), l.620-633 (prod). *)
Definition times (f d : dim) : dim := mkdim (size f * size d) (fixed f && fixed d).
Definition count_op (z : C) (n : nat) : C := if tob z then real_of (INR n) else C0.
Definition dim_op (f : C -> nat -> C) (c : claim) (d : dim) : claim :=
  match c with Some (fx, z) => Some (fx && fixed d, f z (size d)) | None => None end.
Definition norm_op (op : rop) (z : C) (n : nat) : C :=
  match op with RNorm1 => real_of (INR n * Cmod z) | _ => real_of (sqrt (INR n) * Cmod z) end.
Definition redux_const (op : rop) (c : claim) (factor d : dim) : claim :=
  match op with
  | RNorm1 | RNorm2 => if fixed_zero c then Some (true, C0) else dim_op (norm_op op) c (times factor d)
  | RNormInf => if fixed_zero c then Some (true, C0) else op1 (fun z => real_of (Cmod z)) c
  | RSum => if fixed_zero c then Some (true, C0)
            else dim_op (fun z n => Cmult z (real_of (INR n))) c (times factor d)
  | RMin | RMax => c
  | RAll | RAny => op1 (fun z => ofb (tob z)) c
  | RCount => dim_op count_op c (times d factor)
  | RProd => if fixed_zero c then Some (true, C0) else dim_op cpow c (times factor d)
  end.
(** F/redux.hpp get_constant_diagonal<at_least_square>: l.132-136 with l.89-121, l.311-324, l.374-387, l.430-443,
    l.482-486, l.534-540, l.592-598, l.636-640. *)
Definition redux_diag (als : bool) (op : rop) (c : claim) (factor d : dim) : claim :=
  match op with
  | RNorm1 | RNorm2 => if fixed_zero c then Some (true, C0) else if als then dim_op (norm_op op) c factor else None
  | RNormInf => if fixed_zero c then Some (true, C0) else if als then op1 (fun z => real_of (Cmod z)) c else None
  | RSum => if fixed_zero c then Some (true, C0)
            else if als then dim_op (fun z n => Cmult z (real_of (INR n))) c factor else None
  | RMin => if als then dim_op (fun z n => if Nat.ltb 1 n then real_of (Rmin (fst z) 0) else z) c d
            else match c with Some (true, z) => if Rltb (fst z) 0 then None else Some (true, C0) | _ => None end
  | RMax => if als then dim_op (fun z n => if Nat.ltb 1 n then real_of (Rmax (fst z) 0) else z) c d
            else match c with Some (true, z) => if Rltb 0 (fst z) then None else Some (true, C0) | _ => None end
  | RAll => Some (true, C0)
  | RAny => if als then op1 (fun z => ofb (tob z)) c else None
  | RCount => if als then dim_op count_op c factor else None
  | RProd => Some (true, C0)
  end.

(** T/PartialReduxExpr.hpp l.42-97, get_constant_redux.  [most_fixed] is l.44; the last branch is l.77-96. *)
Definition redux_fun := rop -> bool -> dim -> dim -> (C -> C) -> claim.
Definition size_along (h : bool) (x : traits) : dim :=
  let st := if h then t_cols x else t_rows x in
  match st with Some n => mkdim n true | None => mkdim (if h then t_nc x else t_nr x) false end.
Definition most_fixed (a b : dim) : dim := if fixed a then a else b.
Definition redux_last (x : traits) : redux_fun := fun op h factor dir_dim func =>
  let d := most_fixed dir_dim (size_along h x) in
  let o := size_along (negb h) x in
  if is_some (constant x) then redux_const op (op1 func (constant x)) factor d
  else if is_some (constant_diag x) then
    redux_diag (fixed d && fixed o && Nat.leb (size o) (size d)) op (op1 func (constant_diag x)) factor d
  else None.
(** l.51-55: through a component-wise operation, composing the functors (F/functor_composition.hpp l.80). *)
Definition redux_under (x : traits) (g : C -> C) (inner : redux_fun) : redux_fun := fun op h factor dir_dim func =>
  inner op h factor (most_fixed dir_dim (size_along h x)) (fun z => func (g z)).
(** l.46-50: through a wrapper. *)
Definition redux_through (x : traits) (inner : redux_fun) : redux_fun := fun op h factor dir_dim func =>
  inner op h factor (most_fixed dir_dim (size_along h x)) func.
(** l.56-76: through a Replicate, multiplying the factor; [x] are the traits of the Replicate, [n] of what it nests. *)
Definition redux_repl (rf cf : dim) (x n : traits) (inner : redux_fun) : redux_fun := fun op h factor dir_dim func =>
  let d := most_fixed dir_dim (size_along h x) in
  let big := if h then cf else rf in
  let nd := size_along h n in
  let f := if fixed big then big else mkdim (size d / size nd) (fixed d && fixed nd) in
  let new_d := if fixed d && fixed big && negb (fixed nd) then mkdim (size d / size big) true else nd in
  inner op h (times factor f) new_d func.

(** T/PartialReduxExpr.hpp l.128-137: the reduction starts with factor 1 and the identity function. *)
Definition redux_traits (op : rop) (h : bool) (x : traits) (k : kind) (at00 : C) (inner : redux_fun) : traits :=
  mktraits k (if h then t_rows x else Some 1%nat) (if h then Some 1%nat else t_cols x) false
    (inner op h (mkdim 1 true) (size_along h x) (fun z => z)) None (fun _ => false) false at00
    (if h then t_nr x else 1) (if h then 1 else t_nc x).

(** ** The traits of an expression, and of its partial reductions. *)
Fixpoint analyse (e : expr) : traits * redux_fun :=
  let last (t : traits) := (t, redux_last t) in
  match e with
  | EDense k r c f =>   (* T/Matrix.hpp, T/Array.hpp, T/Map.hpp: no claims *)
      last (mktraits k (sdim r) (sdim c) false None None (fun _ => false) false (f 0%nat 0%nat) (size r) (size c))
  | EConst k r c z => last (const_traits k (sdim r) (sdim c) (size r) (size c) z)
  | EFixed k r c z =>
      last (mktraits k (sdim r) (sdim c) false (Some (true, z)) None (fun _ => false) false z (size r) (size c))
  | EIdent k r c =>     (* F/nullary.hpp l.41-52 *)
      last (mktraits k (sdim r) (sdim c) false None (Some (true, C1)) (as_pred Tdiag) true C1 (size r) (size c))
  | EDiagVec v => last (diagvec_traits (fst (analyse v)) (coef e 0 0))
  | EUn u x => let a := analyse x in
               let t := un_traits u (fst a) (coef e 0 0) (kind_of e) in
               (t, redux_under t (uop (t_kind (fst a)) u) (snd a))
  | EBind1 b z x => let a := analyse x in
                    let t := bind_traits true b z (fst a) (coef e 0 0) (kind_of e) in
                    (t, redux_under t (beval b z) (snd a))
  | EBind2 b x z => let a := analyse x in
                    let t := bind_traits false b z (fst a) (coef e 0 0) (kind_of e) in
                    (t, redux_under t (fun w => beval b w z) (snd a))
  | EBin b x y => last (bin_traits b (fst (analyse x)) (fst (analyse y)) (coef e 0 0) (kind_of e))
  | EWrap x => let a := analyse x in let t := wrap_traits (fst a) in (t, redux_through t (snd a))
  | ENest x => last (wrap_traits (fst (analyse x)))
  | ETrans x => last (trans_traits (fst (analyse x)) (coef e 0 0))
  | ERepl rf cf x => let a := analyse x in
                     let t := repl_traits rf cf (fst a) (coef e 0 0) in (t, redux_repl rf cf t (fst a) (snd a))
  | ERev d x => last (rev_traits d (fst (analyse x)) (coef e 0 0))
  | ESel c x y => last (sel_traits (fst (analyse c)) (fst (analyse x)) (fst (analyse y)) (coef e 0 0) (kind_of e))
  | EProd x y => last (prod_traits (fst (analyse x)) (fst (analyse y)) (coef e 0 0) (kind_of e))
  | EDiag k fx x => last (diag_traits k fx (fst (analyse x)) (coef e 0 0) (rows e))
  | ESelf _ x => last (self_traits (fst (analyse x)) (coef e 0 0))
  | ETri upper m x => last (tri_traits upper m (fst (analyse x)) (coef e 0 0))
  | EBlock r c _ _ x => last (block_traits r c (fst (analyse x)) (coef e 0 0))
  | EReshape r c x => last (reshape_traits r c (fst (analyse x)) (coef e 0 0))
  | ERedux op h x => let a := analyse x in last (redux_traits op h (fst a) (kind_of e) (coef e 0 0) (snd a))
  | EHerm k n f =>      (* /repo/OpenKalman/linear-algebra/adapters/hermitian_adapter.hpp l.109-126 *)
      last (mktraits k (sdim n) (sdim n) true None None (fun _ => false) true (f 0%nat 0%nat) (size n) (size n))
  end.
Definition traits_of (e : expr) : traits := fst (analyse e).
