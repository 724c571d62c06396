(** * Specification for C89: when a claim about an Eigen expression is true, and the uses that break a claim. *)
From Coq Require Import Reals ZArith List Bool.
From Coquelicot Require Import Coquelicot.
From Verif Require Import XprEigen XprModel.
Import ListNotations.
Local Open Scope nat_scope.

(** ** The meaning of each claim, in terms of the coefficients only. *)
Definition all_equal (e : expr) (z : C) : Prop := forall i j, i < rows e -> j < cols e -> coef e i j = z.
Definition diag_equal (e : expr) (z : C) : Prop :=
  forall i j, i < rows e -> j < cols e -> coef e i j = if Nat.eqb i j then z else C0.
Definition outside (t : tri) (i j : nat) : Prop :=
  match t with Tnone => False | Tlower => i < j | Tupper => j < i | Tdiag => i <> j end.
Definition shaped (t : tri) (e : expr) : Prop :=
  forall i j, i < rows e -> j < cols e -> outside t i j -> coef e i j = C0.
Definition conj_symmetric (e : expr) : Prop :=
  forall i j, i < rows e -> j < cols e -> coef e i j = Cconj (coef e j i).

(** ** The uses for which a claim may be false; each exclusion has a counter-example in XprProperties.v. *)

Definition boolean (z : C) : Prop := z = C0 \/ z = C1.
(** A component-wise operation on operands with coefficients [f], [g] that the library describes as [x], [y]. *)
Definition bin_safe (b : bfun) (r c : nat) (x y : traits) (f g : nat -> nat -> C) : Prop :=
  let every (p : C -> C -> Prop) := forall i j, i < r -> j < c -> p (f i j) (g i j) in
  match b with
  | BOr => every (fun u v => boolean u /\ boolean v)
  | BNumEq | BNumNe => every (fun u v => boolean u /\ boolean v)
  | _ => True
  end /\
  match b with
  | BMinus | BXor | BNe | BNumNe | BGt | BLt | BHypot | BAbsDiff =>
      (zero x = true -> every (fun _ v => beval b C0 v = v)) /\
      (zero y = true -> every (fun u _ => beval b u C0 = u))
  | BTimes | BAnd | BConjProd =>
      is_some (constant x) = true -> is_some (constant y) = true -> zero x = false -> zero y = false ->
      r <= 1 /\ c <= 1
  | _ => True
  end.

(** Reductions see through component-wise functions and replications down to the object beneath them. *)
Definition needs_two (op : rop) : bool := match op with RMin | RMax | RAll | RProd => true | _ => false end.
Definition redux_bottom (op : rop) (h : bool) (func : C -> C) (e : expr) : Prop :=
  is_some (constant (traits_of e)) = false -> is_some (constant_diag (traits_of e)) = true ->
  func C0 = C0 /\ (needs_two op = true -> 2 <= (if h then cols e else rows e)).
Fixpoint redux_safe (op : rop) (h : bool) (func : C -> C) (e : expr) : Prop :=
  match e with
  | EUn u x => redux_safe op h (fun z => func (ueval (kind_of x) u z)) x
  | EBind1 b z x => redux_safe op h (fun w => func (beval b z w)) x
  | EBind2 b x z => redux_safe op h (fun w => func (beval b w z)) x
  | EWrap x | ERepl _ _ x => redux_safe op h func x
  | _ => redux_bottom op h func e
  end.

Definition is_one (d : dim) : bool := fixed d && Nat.eqb (size d) 1.
(** Not known to be a vector, and claimed to be triangular. *)
Definition lopsided (t : traits) : bool :=
  (triangular t Tlower || triangular t Tupper) && negb (vector0 t || vector1 t).

Fixpoint safe (e : expr) : Prop :=
  match e with
  | EDense _ _ _ _ | EConst _ _ _ _ | EFixed _ _ _ _ | EIdent _ _ _ | EHerm _ _ _ => True
  | EDiagVec v => safe v
  | EUn u x =>
      safe x /\ match u with
                | UArg | USqrt => kind_of x = Kcplx -> may_be_hermitian (traits_of x) = false
                | _ => True end
  | EBind1 b z x =>
      safe x /\ (may_be_hermitian (traits_of x) = true -> snd z = 0%R) /\
      let t := traits_of x in
      bin_safe b (rows x) (cols x) (const_traits (t_kind t) (t_rows t) (t_cols t) (t_nr t) (t_nc t) z) t
        (fun _ _ => z) (coef x)
  | EBind2 b x z =>
      safe x /\ (may_be_hermitian (traits_of x) = true -> snd z = 0%R) /\
      let t := traits_of x in
      bin_safe b (rows x) (cols x) t (const_traits (t_kind t) (t_rows t) (t_cols t) (t_nr t) (t_nc t) z)
        (coef x) (fun _ _ => z)
  | EBin b x y =>
      safe x /\ safe y /\ bin_safe b (rows x) (cols x) (traits_of x) (traits_of y) (coef x) (coef y)
  | EWrap x | ENest x | ETrans x | EBlock _ _ _ _ x | EDiag _ _ x | ESelf _ x => safe x
  | ERepl rf cf x =>
      safe x /\
      (triangular (traits_of x) Tlower = true -> is_one cf = true ->
       triangular (traits_of x) Tupper = true /\ is_one rf = true) /\
      (may_be_hermitian (traits_of x) = true -> 
       rows x = cols x \/ (is_some (t_const (traits_of x)) = true /\ kind_of x = Kreal))
  | ERev d x =>
      safe x /\
      (d = Both -> is_some (constant_diag (traits_of x)) || diagonal (traits_of x) || lopsided (traits_of x) = true ->
       zero (traits_of x) = true \/ rows x = cols x)
  | ESel c x y => safe c /\ safe x /\ safe y
  | EProd x y =>
      safe x /\ safe y /\
      let t := traits_of x in let s := traits_of y in
      (is_some (constant_diag t) = true -> is_some (constant_diag s) = true ->
       Nat.min (rows x) (cols y) <= cols x \/ (zero t || zero s = true /\ 0 < cols x)) /\
      (zero t = false -> zero s = false ->
       (is_some (constant_diag t) = true -> is_some (constant s) = true -> rows x <= cols x) /\
       (is_some (constant t) = true -> is_some (constant_diag s) = true -> cols y <= rows y) /\
       (rows x = cols y ->
        is_some (constant_diag t) && may_be_hermitian s || is_some (constant_diag s) && may_be_hermitian t = true ->
        rows x = cols x))
  | ETri upper m x =>
      safe x /\
      let t := traits_of x in
      (m = UnitDiag -> zero t = false) /\
      (m <> Plain -> is_some (constant_diag t) = true -> triangular t (if upper then Tlower else Tupper) = true)
  | EReshape r c x =>
      safe x /\ (may_be_hermitian (traits_of x) = true -> 
       rows x = cols x \/ (is_some (t_const (traits_of x)) = true /\ kind_of x = Kreal))
  | ERedux op h x => safe x /\ redux_safe op h (fun z => z) x
  end.

(** ** A smaller class of expressions, described by components and sizes only: every one of them is [safe]. *)
Definition bin_ordinary (b : bfun) (r c : nat) (f g : nat -> nat -> C) : Prop :=
  let blank (h : nat -> nat -> C) := forall i j, i < r -> j < c -> h i j = C0 in
  let flat (h : nat -> nat -> C) := exists z, forall i j, i < r -> j < c -> h i j = z in
  match b with
  | BOr | BXor | BNumEq | BNumNe => forall i j, i < r -> j < c -> boolean (f i j) /\ boolean (g i j)
  | BMinus => ~ blank f
  | BNe | BGt | BLt | BHypot | BAbsDiff => ~ blank f /\ ~ blank g
  | BTimes | BAnd | BConjProd => ~ flat f \/ ~ flat g
  | _ => True
  end.
(** Reductions: what is beneath the component-wise functions is not diagonal with one constant, or the functions map 0
    to 0 and at least two components are reduced. *)
Definition bottom_ordinary (h : bool) (func : C -> C) (e : expr) : Prop :=
  (forall z, ~ diag_equal e z) \/ (func C0 = C0 /\ 2 <= (if h then cols e else rows e)).
Fixpoint redux_ordinary (h : bool) (func : C -> C) (e : expr) : Prop :=
  match e with
  | EUn u x => redux_ordinary h (fun z => func (ueval (kind_of x) u z)) x
  | EBind1 b z x => redux_ordinary h (fun w => func (beval b z w)) x
  | EBind2 b x z => redux_ordinary h (fun w => func (beval b w z)) x
  | EWrap x | ERepl _ _ x => redux_ordinary h func x
  | _ => bottom_ordinary h func e
  end.
Fixpoint ordinary (e : expr) : Prop :=
  match e with
  | EDense _ _ _ _ | EConst _ _ _ _ | EFixed _ _ _ _ | EIdent _ _ _ | EHerm _ _ _ => True
  | EUn u x => ordinary x /\ match u with UArg | USqrt => kind_of x = Kreal | _ => True end
  | EBind1 b z x => ordinary x /\ snd z = 0%R /\ bin_ordinary b (rows x) (cols x) (fun _ _ => z) (coef x)
  | EBind2 b x z => ordinary x /\ snd z = 0%R /\ bin_ordinary b (rows x) (cols x) (coef x) (fun _ _ => z)
  | EBin b x y => ordinary x /\ ordinary y /\ bin_ordinary b (rows x) (cols x) (coef x) (coef y)
  | EDiagVec x | EWrap x | ENest x | ETrans x | EBlock _ _ _ _ x | EDiag _ _ x | ESelf _ x => ordinary x
  | ERepl rf cf x => ordinary x /\ rows x = cols x /\ (~ shaped Tlower x \/ is_one cf = false)
  | ERev d x => ordinary x /\ (d = Both -> rows x = cols x)
  | ESel c x y => ordinary c /\ ordinary x /\ ordinary y
  | EProd x y => ordinary x /\ ordinary y /\ rows x = cols x /\ rows y = cols y
  | ETri _ m x => ordinary x /\ (m = Plain \/ forall z, ~ diag_equal x z)
  | EReshape r c x => ordinary x /\ rows x = cols x
  | ERedux op h x => ordinary x /\ redux_ordinary h (fun z => z) x
  end.

(** ** A false claim. *)

(** The library claims that all components are [z], or that e is diagonal with diagonal [z], and it is not so. *)
Definition wrong_constant (e : expr) (z : C) : Prop :=
  wf e /\ (exists fx, constant (traits_of e) = Some (fx, z)) /\ ~ all_equal e z.
Definition wrong_diagonal (e : expr) (z : C) : Prop :=
  wf e /\ (exists fx, constant_diag (traits_of e) = Some (fx, z)) /\ ~ diag_equal e z.
Definition wrong_triangle (e : expr) (t : tri) : Prop := wf e /\ triangular (traits_of e) t = true /\ ~ shaped t e.
Definition wrong_hermitian (e : expr) : Prop :=
  wf e /\ rows e = cols e /\ may_be_hermitian (traits_of e) = true /\ ~ conj_symmetric e.
