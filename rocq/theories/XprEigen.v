(** * Eigen expressions: syntax, sizes and coefficients.

    Eigen is an external library: this file is the reading of its documentation that XprModel.v (the library's traits
    of Eigen expressions, /repo/OpenKalman/linear-algebra/interfaces/eigen/traits) is checked against.
    Scalars are exact complex numbers; an expression of real scalar type has real coefficients; a Boolean is 0 or 1.
    Simplification: values outside the domain of a function (1/0, log(-1) of a real, infinities) have no meaning here. *)
From Coq Require Import Reals ZArith List.
From Coquelicot Require Import Coquelicot.
Import ListNotations.
Local Open Scope R_scope.

Inductive kind := Kreal | Kcplx.
(** A size, and whether it is part of the type. *)
Record dim := mkdim { size : nat; fixed : bool }.

(** Eigen::internal::scalar_*_op with one argument, std::negate, std::logical_not. *)
Inductive tfun := Exp | Expm1 | Log | Log1p | Log10 | Log2 | Cos | Sin | Tan | Acos | Asin | Atan | Tanh | Atanh | Sinh
  | Asinh | Cosh | Acosh | Logistic | Rsqrt.
Inductive ufun := UNeg | UNot | UAbs | UAbs2 | UConj | UArg | UCast | UReal | UImag | USqrt | UInv | USquare | UCube
  | Uf (t : tfun).
(** Functors with two arguments; [BNumEq] and [BNumNe] are Eigen::numext::equal_to and not_equal_to. *)
Inductive cmp := Ceq | Clt | Cle | Cgt | Cge | Cne.
Inductive bfun := BPlus | BMinus | BTimes | BDiv | BAnd | BOr | BXor | BEq | BNe | BGt | BLt | BGe | BLe
  | BConjProd | BMin | BMax | BCmp (c : cmp) | BHypot | BAbsDiff | BNumEq | BNumNe.
(** Partial reductions. *)
Inductive rop := RNorm1 | RNorm2 | RNormInf | RSum | RMin | RMax | RAll | RAny | RCount | RProd.

Inductive revdir := Vertical | Horizontal | Both.
Inductive diagmode := Plain | UnitDiag | ZeroDiag.

Inductive expr :=
| EDense (k : kind) (r c : dim) (f : nat -> nat -> C)      (* Matrix, Array, Map *)
| EConst (k : kind) (r c : dim) (z : C)                    (* CwiseNullaryOp<scalar_constant_op> *)
| EFixed (k : kind) (r c : dim) (z : C)                    (* an object with a compile-time constant *)
| EIdent (k : kind) (r c : dim)                            (* CwiseNullaryOp<scalar_identity_op> *)
| EDiagVec (v : expr)                                      (* DiagonalWrapper *)
| EUn (u : ufun) (e : expr)                                (* CwiseUnaryOp, CwiseUnaryView *)
| EBind1 (b : bfun) (z : C) (e : expr)                     (* CwiseUnaryOp<bind1st_op> *)
| EBind2 (b : bfun) (e : expr) (z : C)                     (* CwiseUnaryOp<bind2nd_op> *)
| EBin (b : bfun) (x y : expr)                             (* CwiseBinaryOp *)
| EWrap (e : expr)                                         (* MatrixWrapper, ArrayWrapper *)
| ENest (e : expr)                                         (* NestByValue *)
| ETrans (e : expr)                                        (* Transpose *)
| ERepl (rf cf : dim) (e : expr)                           (* Replicate *)
| ERev (d : revdir) (e : expr)                             (* Reverse *)
| ESel (c x y : expr)                                      (* Select *)
| EProd (x y : expr)                                       (* Product *)
| EDiag (k : Z) (fx : bool) (e : expr)                     (* Diagonal, index part of the type or not *)
| ESelf (upper : bool) (e : expr)                          (* SelfAdjointView *)
| ETri (upper : bool) (m : diagmode) (e : expr)            (* TriangularView *)
| EBlock (r c : dim) (i0 j0 : nat) (e : expr)              (* Block, VectorBlock *)
| EReshape (r c : dim) (e : expr)                          (* Reshaped *)
| ERedux (op : rop) (horizontal : bool) (e : expr)         (* PartialReduxExpr *)
| EHerm (k : kind) (n : dim) (f : nat -> nat -> C).        (* an object that is Hermitian by its type *)

(** ** Scalars. *)
Definition C0 : C := (0, 0).
Definition C1 : C := (1, 0).
Definition Ceqb (z w : C) : bool :=
  if Req_EM_T (fst z) (fst w) then if Req_EM_T (snd z) (snd w) then true else false else false.
Definition tob (z : C) : bool := negb (Ceqb z C0).
Definition ofb (b : bool) : C := if b then C1 else C0.
Definition Rltb (x y : R) : bool := if Rlt_dec x y then true else false.
Definition Rleb (x y : R) : bool := if Rle_dec x y then true else false.
Definition real_of (x : R) : C := (x, 0).

Definition atanh (x : R) : R := ln ((1 + x) / (1 - x)) / 2.
Definition acosh (x : R) : R := ln (x + sqrt (x * x - 1)).
Definition rfun (t : tfun) (x : R) : R :=
  match t with
  | Exp => exp x | Expm1 => exp x - 1 | Log => ln x | Log1p => ln (1 + x) | Log10 => ln x / ln 10 | Log2 => ln x / ln 2
  | Cos => cos x | Sin => sin x | Tan => tan x | Acos => acos x | Asin => asin x | Atan => atan x | Tanh => tanh x
  | Atanh => atanh x | Sinh => sinh x | Asinh => arcsinh x | Cosh => cosh x | Acosh => acosh x
  | Logistic => / (1 + exp (- x)) | Rsqrt => / sqrt x
  end.

(** The angle of a complex number in (-pi, pi], and its principal square root. *)
Definition carg (z : C) : R :=
  if Req_EM_T (snd z) 0 then if Rlt_dec (fst z) 0 then PI else 0 else 2 * atan ((Cmod z - fst z) / snd z).
Definition csqrt (z : C) : C :=
  (sqrt ((Cmod z + fst z) / 2), (if Rlt_dec (snd z) 0 then -1 else 1) * sqrt ((Cmod z - fst z) / 2)).

Fixpoint cpow (z : C) (n : nat) : C := match n with O => C1 | S m => Cmult z (cpow z m) end.

(** One-argument functors, on scalars of kind [k]. *)
Definition ueval (k : kind) (u : ufun) (z : C) : C :=
  match u with
  | UNeg => Copp z | UNot => ofb (negb (tob z)) | UAbs => real_of (Cmod z) | UAbs2 => real_of (Cmod z ^ 2)
  | UConj => Cconj z | UArg => real_of (carg z) | UCast => z | UReal => real_of (fst z) | UImag => real_of (snd z)
  | USqrt => match k with Kreal => real_of (sqrt (fst z)) | Kcplx => csqrt z end
  | UInv => Cinv z | USquare => cpow z 2 | UCube => cpow z 3
  | Uf t => real_of (rfun t (fst z))
  end.

Definition ceval (c : cmp) (x y : C) : bool :=
  match c with
  | Ceq => Ceqb x y | Cne => negb (Ceqb x y) | Clt => Rltb (fst x) (fst y) | Cle => Rleb (fst x) (fst y)
  | Cgt => Rltb (fst y) (fst x) | Cge => Rleb (fst y) (fst x)
  end.

(** Two-argument functors. *)
Definition beval (b : bfun) (x y : C) : C :=
  match b with
  | BPlus => Cplus x y | BMinus => Cminus x y | BTimes => Cmult x y | BDiv => Cdiv x y
  | BAnd => ofb (tob x && tob y) | BOr => ofb (tob x || tob y) | BXor => ofb (xorb (tob x) (tob y))
  | BEq | BNumEq => ofb (ceval Ceq x y) | BNe | BNumNe => ofb (ceval Cne x y)
  | BGt => ofb (ceval Cgt x y) | BLt => ofb (ceval Clt x y) | BGe => ofb (ceval Cge x y) | BLe => ofb (ceval Cle x y)
  | BConjProd => Cmult (Cconj x) y
  | BMin => real_of (Rmin (fst x) (fst y)) | BMax => real_of (Rmax (fst x) (fst y))
  | BCmp c => ofb (ceval c x y)
  | BHypot => real_of (sqrt (fst x ^ 2 + fst y ^ 2)) | BAbsDiff => real_of (Rabs (fst x - fst y))
  end.

(** The functors whose value is a real number (or a Boolean) for every argument. *)
Definition ureal (u : ufun) : bool :=
  match u with UAbs | UAbs2 | UArg | UReal | UImag | UNot | Uf _ => true | _ => false end.
Definition breal (b : bfun) : bool :=
  match b with BPlus | BMinus | BTimes | BDiv | BConjProd => false | _ => true end.

(** The functors that compare their arguments: defined on real scalars. *)
Definition bordered (b : bfun) : bool :=
  match b with
  | BGt | BLt | BGe | BLe | BMin | BMax | BHypot | BAbsDiff | BCmp Clt | BCmp Cle | BCmp Cgt | BCmp Cge => true
  | _ => false
  end.

(** Reductions of a list of coefficients. *)
Definition csum (l : list C) : C := fold_right Cplus C0 l.
Definition rsum (l : list R) : R := fold_right Rplus 0 l.
Fixpoint rleast (l : list R) : R := match l with [] => 0 | [x] => x | x :: t => Rmin x (rleast t) end.
Fixpoint rgreatest (l : list R) : R := match l with [] => 0 | [x] => x | x :: t => Rmax x (rgreatest t) end.
Definition reval (op : rop) (l : list C) : C :=
  match op with
  | RNorm1 => real_of (rsum (map Cmod l))
  | RNorm2 => real_of (sqrt (rsum (map (fun z => Cmod z ^ 2) l)))
  | RNormInf => real_of (rgreatest (map Cmod l))
  | RSum => csum l
  | RMin => real_of (rleast (map fst l))
  | RMax => real_of (rgreatest (map fst l))
  | RAll => ofb (forallb tob l)
  | RAny => ofb (existsb tob l)
  | RCount => real_of (INR (length (filter tob l)))
  | RProd => fold_right Cmult C1 l
  end.

(** ** Sizes and coefficients. *)
Fixpoint rows (e : expr) : nat :=
  match e with
  | EDense _ r _ _ | EConst _ r _ _ | EFixed _ r _ _ | EIdent _ r _ => size r
  | EDiagVec v => rows v * cols v
  | EUn _ e | EBind1 _ _ e | EBind2 _ e _ | EWrap e | ENest e | ERev _ e | ESelf _ e | ETri _ _ e => rows e
  | EBin _ x _ => rows x
  | ETrans e => cols e
  | ERepl rf _ e => size rf * rows e
  | ESel _ x _ => rows x
  | EProd x _ => rows x
  | EDiag k _ e => Nat.min (rows e - Z.to_nat (- k)) (cols e - Z.to_nat k)
  | EBlock r _ _ _ _ => size r
  | EReshape r _ _ => size r
  | ERedux _ h e => if h then rows e else 1
  | EHerm _ n _ => size n
  end%nat
with cols (e : expr) : nat :=
  match e with
  | EDense _ _ c _ | EConst _ _ c _ | EFixed _ _ c _ | EIdent _ _ c => size c
  | EDiagVec v => rows v * cols v
  | EUn _ e | EBind1 _ _ e | EBind2 _ e _ | EWrap e | ENest e | ERev _ e | ESelf _ e | ETri _ _ e => cols e
  | EBin _ x _ => cols x
  | ETrans e => rows e
  | ERepl _ cf e => size cf * cols e
  | ESel _ x _ => cols x
  | EProd _ y => cols y
  | EDiag _ _ _ => 1
  | EBlock _ c _ _ _ => size c
  | EReshape _ c _ => size c
  | ERedux _ h e => if h then 1 else cols e
  | EHerm _ n _ => size n
  end%nat.

Fixpoint kind_of (e : expr) : kind :=
  match e with
  | EDense k _ _ _ | EConst k _ _ _ | EFixed k _ _ _ | EIdent k _ _ | EHerm k _ _ => k
  | EUn u e => if ureal u then Kreal else match u with UCast => Kcplx | _ => kind_of e end
  | EBind1 b _ e | EBind2 b e _ => if breal b then Kreal else kind_of e
  | EBin b x y => if breal b then Kreal else match kind_of x with Kreal => kind_of y | Kcplx => Kcplx end
  | ESel _ x y => match kind_of x with Kreal => kind_of y | Kcplx => Kcplx end
  | EProd x y => match kind_of x with Kreal => kind_of y | Kcplx => Kcplx end
  | EDiagVec e | EWrap e | ENest e | ETrans e | ERepl _ _ e | ERev _ e | EDiag _ _ e | ESelf _ e | ETri _ _ e
  | EBlock _ _ _ _ e | EReshape _ _ e => kind_of e
  | ERedux op _ e => match op with RSum | RProd => kind_of e | _ => Kreal end
  end.

Definition zero_one (m : diagmode) (z : C) : C := match m with Plain => z | UnitDiag => C1 | ZeroDiag => C0 end.

(** The coefficient in row [i], column [j]. *)
Fixpoint coef (e : expr) (i j : nat) : C :=
  match e with
  | EDense _ _ _ f | EHerm _ _ f => f i j
  | EConst _ _ _ z | EFixed _ _ _ z => z
  | EIdent _ _ _ => if Nat.eqb i j then C1 else C0
  | EDiagVec v => if Nat.eqb i j then if Nat.eqb (cols v) 1 then coef v i 0 else coef v 0 i else C0
  | EUn u e => ueval (kind_of e) u (coef e i j)
  | EBind1 b z e => beval b z (coef e i j)
  | EBind2 b e z => beval b (coef e i j) z
  | EBin b x y => beval b (coef x i j) (coef y i j)
  | EWrap e | ENest e => coef e i j
  | ETrans e => coef e j i
  | ERepl _ _ e => coef e (i mod rows e) (j mod cols e)
  | ERev d e =>
      match d with
      | Vertical => coef e (rows e - 1 - i) j
      | Horizontal => coef e i (cols e - 1 - j)
      | Both => coef e (rows e - 1 - i) (cols e - 1 - j)
      end
  | ESel c x y => if tob (coef c i j) then coef x i j else coef y i j
  | EProd x y => csum (map (fun k => Cmult (coef x i k) (coef y k j)) (seq 0 (cols x)))
  | EDiag k _ e => coef e (i + Z.to_nat (- k)) (i + Z.to_nat k)
  | ESelf upper e => if (if upper then Nat.leb i j else Nat.leb j i) then coef e i j else Cconj (coef e j i)
  | ETri upper m e =>
      if Nat.eqb i j then zero_one m (coef e i j)
      else if (if upper then Nat.ltb i j else Nat.ltb j i) then coef e i j else C0
  | EBlock _ _ i0 j0 e => coef e (i0 + i) (j0 + j)
  | EReshape r _ e => coef e ((i + j * size r) mod rows e) ((i + j * size r) / rows e)
  | ERedux op h e =>
      if h then reval op (map (fun k => coef e i k) (seq 0 (cols e)))
      else reval op (map (fun k => coef e k j) (seq 0 (rows e)))
  end%nat.

(** ** Expressions that Eigen accepts. *)
Definition real_if (k : kind) (z : C) : Prop := match k with Kreal => snd z = 0 | Kcplx => True end.
Definition joined (k1 k2 : kind) : kind := match k1 with Kreal => k2 | Kcplx => Kcplx end.
Fixpoint wf (e : expr) : Prop :=
  match e with
  | EDense k _ _ f => forall i j, real_if k (f i j)
  | EConst k _ _ z | EFixed k _ _ z => real_if k z
  | EIdent _ _ _ => True
  | EDiagVec v => wf v /\ (rows v = 1 \/ cols v = 1)
  | EUn u e => wf e /\ match u with Uf _ => kind_of e = Kreal | _ => True end
  | EBind1 b z e | EBind2 b e z =>
      wf e /\ real_if (kind_of e) z /\ (bordered b = true -> kind_of e = Kreal)
  | EBin b x y =>
      wf x /\ wf y /\ rows x = rows y /\ cols x = cols y /\
      (bordered b = true -> kind_of x = Kreal /\ kind_of y = Kreal)
  | EWrap e | ENest e | ETrans e | ERev _ e | ETri _ _ e | ERepl _ _ e => wf e
  | ESel c x y => wf c /\ wf x /\ wf y /\ rows c = rows x /\ cols c = cols x /\ rows x = rows y /\ cols x = cols y
  | EProd x y => wf x /\ wf y /\ cols x = rows y
  | EDiag k _ e => wf e /\ (- Z.of_nat (rows e) <= k <= Z.of_nat (cols e))%Z
  | ESelf _ e => wf e /\ rows e = cols e
  | EBlock r c i0 j0 e => wf e /\ i0 + size r <= rows e /\ j0 + size c <= cols e
  | EReshape r c e => wf e /\ size r * size c = rows e * cols e
  | ERedux op h e =>
      wf e /\ 0 < rows e /\ 0 < cols e /\
      match op with RMin | RMax => kind_of e = Kreal | _ => True end
  | EHerm k _ f => (forall i j, real_if k (f i j)) /\ (forall i j, f i j = Cconj (f j i))
  end%nat.
