(** What the library's own adapters say about themselves at compile time, and the
    functions that choose between them.

    Files modelled (all under OpenKalman/linear-algebra): adapters to_diagonal_adapter.hpp,
    diagonal_of_adapter.hpp, triangular_adapter.hpp, hermitian_adapter.hpp,
    transpose_adapter.hpp, conjugate_adapter.hpp, pattern_adapter.hpp; concepts
    square_shaped.hpp, one_dimensional.hpp, vector.hpp, zero.hpp, triangular_matrix.hpp,
    diagonal_matrix.hpp, constant_object.hpp, constant_diagonal_object.hpp,
    hermitian_matrix.hpp; traits triangle_type_of.hpp, constant_value.hpp; functions
    transpose.hpp, conjugate.hpp, conjugate_transpose.hpp, diagonal_of.hpp, to_diagonal.hpp,
    make_constant.hpp, make_constant_diagonal.hpp, make_zero.hpp, attach_patterns.hpp,
    to_triangular.hpp, to_hermitian.hpp.

    Simplifications that hold throughout this file:
    - patterns are Euclidean and collections of patterns have a size known at compile time;
    - a claim about a type is a boolean computed from the object; only its shape's fixed
      extents, its element type and its fixed constant enter into it;
    - reading a component is [StlSpec.elem]: C61 and C62 prove that reading returns it;
    - no third-party library specialises interface::transpose and its siblings;
    - run-time assertions are off (the one of pattern_adapter.hpp l.76 is inverted);
    - use of an argument after it was moved from is not modelled. *)
From Coq Require Import List Arith Bool Lia.
From Verif Require Import StlModel StlSpec.
Import ListNotations.

(** ** Triangle types, enumerations.hpp *)

(** enumerations.hpp l.26-35: [None] is triangle_type::none. *)
Definition ttype := option tri.

(** operator*, enumerations.hpp l.41-53. *)
Definition tmul (a b : ttype) : ttype :=
  match a, b with
  | Some Diagonal, _ | _, Some Diagonal => Some Diagonal
  | Some Upper, Some Lower | Some Lower, Some Upper => Some Diagonal
  | Some Lower, _ | _, Some Lower => Some Lower
  | Some Upper, _ | _, Some Upper => Some Upper
  | None, None => None
  end.

Definition is_diag (t : ttype) : bool := match t with Some Diagonal => true | _ => false end.

(** transpose_adapter.hpp l.93-97. *)
Definition tflip (t : ttype) : ttype :=
  match t with Some Lower => Some Upper | Some Upper => Some Lower | _ => t end.

(** ** Questions about a collection of patterns *)

(** dimension_size_of_index_is<T, k, 1, is_eq, b>, concepts/dimension_size_of_index_is.hpp
    l.31-38; [perm] is b == applicability::permitted. *)
Definition dim1 (p : list ext) (k : nat) (perm : bool) : bool :=
  let e := get_pattern p k in
  if fixed e then dim e =? 1 else perm.

(** best_comparison_dim, patterns/concepts/collection_patterns_have_same_dimension.hpp
    l.40-54, from place [i] on; [c] is N - i. *)
Fixpoint best_dim (p : list ext) (c i : nat) : option nat :=
  match c with
  | 0 => None
  | S c' => let e := get_pattern p i in if fixed e then Some (dim e) else best_dim p c' (S i)
  end.

(** collection_patterns_have_same_dimension<P, N, b>, same file l.57-101, N >= 2. *)
Definition same_dims (p : list ext) (n : nat) (perm : bool) : bool :=
  forallb (fun k =>
    let e := get_pattern p k in
    match best_dim p n 0 with
    | Some d => if fixed e then dim e =? d else perm
    | None => perm
    end) (seq 0 n).

(** patterns::compares_with<P1, P2> of two Euclidean patterns, guaranteed. *)
Definition static_equal (e f : ext) : bool := fixed e && fixed f && (dim e =? dim f).

(** patterns::collection_compares_with<P, Q>, guaranteed (modelled in full in
    PatStaticModel.v). *)
Definition static_same (p q : list ext) : bool :=
  forallb (fun k => static_equal (get_pattern p k) (get_pattern q k))
    (seq 0 (max (length p) (length q))).

(** ** Objects *)

Section Objects.
Variable V : Type.
Variable zero : V.
Variables conj re : V -> V.
(** Whether a value known at compile time is zero, and whether its imaginary part is. *)
Variables isz isr : V -> bool.

(** [complex] says whether the element type is complex, [known] whether the constant is a
    compile-time constant (then it is also the element type). *)
Inductive obj :=
| ODense (complex : bool) (v : view V)                            (* an mdspan on storage *)
| OConst (complex known : bool) (c : V) (p : list ext)            (* mdspan of make_constant.hpp l.42-48 *)
| OToDiag (o : obj) (p : list ext)                                (* to_diagonal_adapter *)
| ODiag (o : obj)                                                 (* diagonal_of_adapter *)
| OTri (t : tri) (o : obj)                                        (* triangular_adapter *)
| OHerm (t : tri) (o : obj)                                       (* hermitian_adapter *)
| OTrans (a b : nat) (o : obj)                                    (* transpose_adapter *)
| OConj (o : obj)                                                 (* conjugate_adapter *)
| OPat (p : list ext) (o : obj).                                  (* pattern_adapter *)

(** The view an object is read through: get_mdspan of each adapter, as in StlModel.v;
    pattern_adapter.hpp l.150-154 passes on that of the nested object. *)
Fixpoint forget (o : obj) : view V :=
  match o with
  | ODense _ v => v
  | OConst _ _ c p => VConstant c p
  | OToDiag o p => VToDiagonal (forget o) p
  | ODiag o => VDiagonalOf (forget o)
  | OTri t o => VTriangular t (forget o)
  | OHerm t o => VHermitian t (forget o)
  | OTrans a b o => VTranspose a b (forget o)
  | OConj o => VConjugate (forget o)
  | OPat _ o => forget o
  end.

Definition dense_extents (v : view V) : list ext :=
  match v with VLeft e _ | VRight e _ | VStride e _ _ => e | _ => [] end.

(** What object_traits says about an object. *)
Record claims := Claims
  { c_pats : list ext;                            (* get_pattern_collection *)
    c_complex : bool;                             (* values::complex<element_type_of_t<T>> *)
    c_elem : option V;                            (* the element type, if it is a fixed value *)
    c_get : option (bool * V);                    (* get_constant: known at compile time?, value *)
    c_tri : ttype;                                (* triangle_type_value *)
    c_square : option (nat -> bool -> bool);      (* is_square<N, b>, if defined *)
    c_herm : bool;                                (* is_hermitian *)
    c_first : V }.                                (* component at all-zero indices *)

(** *** The concepts, as functions of the traits *)

(** concepts/square_shaped.hpp l.60-66. *)
Definition square_shaped (c : claims) (n : nat) (perm : bool) : bool :=
  (0 <? n) &&
  (((n =? 1) && dim1 (c_pats c) 0 perm) ||
   match c_square c with
   | Some f => f n perm
   | None => negb (n =? 1) && same_dims (c_pats c) n perm
   end).

(** concepts/zero.hpp l.55-61. *)
Definition is_zero (c : claims) : bool :=
  match c_get c with Some (true, x) => isz x | _ => false end ||
  match c_elem c with Some x => isz x | None => false end.

(** concepts/one_dimensional.hpp l.67-74, guaranteed. *)
Definition one_dimensional (c : claims) : bool :=
  let n := length (c_pats c) in
  forallb (fun k => dim1 (c_pats c) k false) (seq 0 n) ||
  (square_shaped c n false &&
     ((n =? 1) || existsb (fun k => dim1 (c_pats c) k false) (seq 0 n))).

(** concepts/vector.hpp l.26-63, guaranteed.  Indices beyond the rank of the mdspan have
    the fixed size 1, so counting them or not makes no difference. *)
Definition vector (c : claims) (n : nat) : bool :=
  forallb (fun k => (n =? k) || dim1 (c_pats c) k false) (seq 0 (length (c_pats c))).

(** traits/triangle_type_of.hpp l.61-67. *)
Definition triangle_type_of (c : claims) : ttype :=
  if is_zero c || one_dimensional c || is_diag (c_tri c) then Some Diagonal
  else if vector c 0 then Some Lower
  else if vector c 1 then Some Upper
  else c_tri c.

(** concepts/triangular_matrix.hpp l.36-39. *)
Definition triangular_matrix (c : claims) (t : tri) : bool :=
  match triangle_type_of c, t with
  | Some Lower, Lower | Some Upper, Upper | Some Diagonal, _ => true
  | _, _ => false
  end.

(** concepts/diagonal_matrix.hpp. *)
Definition diagonal_matrix (c : claims) : bool := triangular_matrix c Diagonal.

(** concepts/constant_object.hpp l.47-55. *)
Definition constant_object (c : claims) : bool :=
  (match c_get c with Some _ => true | None => false end &&
     match triangle_type_of c with
     | None => true
     | Some Lower => vector c 0
     | Some Upper => vector c 1
     | Some Diagonal => false
     end) ||
  match c_elem c with Some _ => true | None => false end ||
  is_zero c || one_dimensional c.

(** concepts/constant_diagonal_object.hpp l.40-41. *)
Definition constant_diagonal_object (c : claims) : bool :=
  (match c_get c with Some _ => true | None => false end && diagonal_matrix c) ||
  is_zero c || one_dimensional c.

(** traits/constant_value.hpp l.37-46, with traits/internal/get_singular_component.hpp. *)
Definition constant_value (c : claims) : bool * V :=
  match c_get c with
  | Some x => x
  | None => match c_elem c with Some x => (true, x) | None => (false, c_first c) end
  end.

(** values::not_complex<element_type_of_t<T>>, values/concepts/not_complex.hpp l.44-50. *)
Definition real_elements (c : claims) : bool :=
  negb (c_complex c) || match c_elem c with Some x => isr x | None => false end.

(** values::not_complex<constant_value_of<T>>: defined only for a constant known at compile
    time (traits/constant_value_of.hpp l.37-44). *)
Definition real_constant (c : claims) : bool :=
  (constant_object c || constant_diagonal_object c) &&
  let '(known, x) := constant_value c in known && (negb (c_complex c) || isr x).

(** concepts/hermitian_matrix.hpp l.54-57. *)
Definition hermitian_matrix (c : claims) : bool :=
  square_shaped c 2 false &&
  (c_herm c || ((constant_object c || diagonal_matrix c) && real_elements c)).

(** *** The traits of each adapter *)

Definition passed_square (n : claims) : option (nat -> bool -> bool) := Some (square_shaped n).

Fixpoint traits (o : obj) : claims :=
  let first := elem zero conj re (forget o) (fun _ => 0) in
  match o with
  | ODense cx v => Claims (dense_extents v) cx None None None None false first
  | OConst cx known c p =>                                  (* make_constant.hpp l.93-109 *)
      Claims p cx (if known then Some c else None) (Some (known, c)) None None false first
  | OToDiag o p =>                                          (* to_diagonal_adapter.hpp l.122-175 *)
      let n := traits o in
      Claims p (c_complex n) None
        (if constant_object n then Some (constant_value n) else None)
        (Some Diagonal) None false first
  | ODiag o =>                                              (* diagonal_of_adapter.hpp l.88-131 *)
      let n := traits o in
      Claims (pat_diagonal_of (c_pats n)) (c_complex n) (c_elem n)
        (match c_get n with Some _ => Some (constant_value n) | None => None end)
        None None false first
  | OTri t o =>                                             (* triangular_adapter.hpp l.66-131 *)
      let n := traits o in
      Claims (c_pats n) (c_complex n) None (c_get n)
        (tmul (Some t) (triangle_type_of n)) (passed_square n) false first
  | OHerm t o =>                                            (* hermitian_adapter.hpp l.104-185 *)
      let n := traits o in
      Claims (c_pats n) (c_complex n) None
        (if real_constant n then Some (constant_value n) else None)
        (if is_diag (tmul (triangle_type_of n) (Some t)) then Some Diagonal else None)
        (Some (fun k perm => (k <=? 2) || square_shaped n k perm)) true first
  | OTrans a b o =>                                         (* transpose_adapter.hpp l.87-167 *)
      let n := traits o in
      Claims (pat_transpose a b (c_pats n)) (c_complex n) (c_elem n) (c_get n)
        (tflip (triangle_type_of n)) (passed_square n) (hermitian_matrix n) first
  | OConj o =>                                              (* conjugate_adapter.hpp l.87-144 *)
      let n := traits o in
      Claims (c_pats n) (c_complex n) None (c_get n)
        (triangle_type_of n) (passed_square n) (hermitian_matrix n) first
  | OPat p o =>                                             (* pattern_adapter.hpp l.144-188 *)
      let n := traits o in
      Claims p (c_complex n) (c_elem n) (c_get n)
        (triangle_type_of n) (passed_square n) (hermitian_matrix n) first
  end.

(** ** The functions *)

(** attach_patterns.hpp l.61-69; [o] without pattern adapters around it. *)
Fixpoint attach_patterns (o : obj) (p : list ext) : obj :=
  if static_same (c_pats (traits o)) p then o
  else match o with
       | OPat _ o' => attach_patterns o' p
       | _ => OPat p o
       end.

(** make_constant.hpp l.42-48. *)
Definition make_constant (cx known : bool) (c : V) (p : list ext) : obj :=
  attach_patterns (OConst cx known c (to_extents p)) p.

(** make_zero.hpp l.38-41. *)
Definition make_zero (cx : bool) (p : list ext) : obj := make_constant cx true zero p.

(** diagonal_of.hpp l.49-69.  The first branch (l.51) asks whether the patterns compare with
    Dimensions<1>, which is not a collection of patterns: it is never taken. *)
Definition diagonal_of (o : obj) : obj :=
  let c := traits o in
  if constant_object c || constant_diagonal_object c                                 (* l.59-64 *)
  then make_constant (c_complex c) (fst (constant_value c)) (snd (constant_value c))
         (pat_diagonal_of (c_pats c))
  else ODiag o.                                                                      (* l.67 *)

(** to_diagonal.hpp l.53-72. *)
Definition to_diagonal (o : obj) (p : list ext) : obj :=
  let c := traits o in
  if one_dimensional c && static_same (to_extents p) [Ext 1 true]                    (* l.59-63 *)
  then attach_patterns o p
  else if is_zero c then make_zero (c_complex c) p                                   (* l.64-67 *)
  else OToDiag o p.                                                                  (* l.70 *)

(** to_diagonal.hpp l.88-100; the branch of l.90 is never taken, as above. *)
Definition to_diagonal_square (o : obj) : obj :=
  to_diagonal o (pat_to_diagonal (c_pats (traits o))).

(** make_constant_diagonal.hpp l.40-44. *)
Definition make_constant_diagonal (cx known : bool) (c : V) (p : list ext) : obj :=
  to_diagonal (make_constant cx known c (pat_diagonal_of (to_extents p))) p.

(** conjugate.hpp l.51-77.  The recursion of l.71 is on the diagonal; [fuel] bounds it. *)
Fixpoint conjugate_fuel (fuel : nat) (o : obj) : obj :=
  let c := traits o in
  if negb (c_complex c) || real_constant c then o                                    (* l.53-56 *)
  else if constant_object c                                                          (* l.61-64 *)
  then make_constant (c_complex c) (fst (constant_value c)) (conj (snd (constant_value c))) (c_pats c)
  else if constant_diagonal_object c                                                 (* l.65-68 *)
  then make_constant_diagonal (c_complex c) (fst (constant_value c)) (conj (snd (constant_value c))) (c_pats c)
  else if diagonal_matrix c then                                                     (* l.69-72 *)
    match fuel with
    | 0 => OConj o
    | S k => to_diagonal (conjugate_fuel k (diagonal_of o)) (c_pats c)
    end
  else OConj o.                                                                      (* l.75 *)

(** Two levels are enough ([conjugate_fuel_enough] in AdaptProofs2.v). *)
Definition conjugate : obj -> obj := conjugate_fuel 1.

(** transpose.hpp l.57, conjugate_transpose.hpp l.49. *)
Definition same_index (a b : nat) (c : claims) : bool :=
  static_equal (get_pattern (c_pats c) a) (get_pattern (c_pats c) b).

(** transpose<a, b>, transpose.hpp l.54-90. *)
Definition transpose (a b : nat) (o : obj) : obj :=
  let c := traits o in
  let square := same_index a b c in
  let p := pat_transpose a b (c_pats c) in
  if square &&                                                                       (* l.58-65 *)
     (constant_object c ||
      ((b =? 1) && (diagonal_matrix c || (hermitian_matrix c && negb (c_complex c)))))
  then o
  else if constant_object c                                                          (* l.70-73 *)
  then make_constant (c_complex c) (fst (constant_value c)) (snd (constant_value c)) p
  else if constant_diagonal_object c                                                 (* l.74-77 *)
  then make_constant_diagonal (c_complex c) (fst (constant_value c)) (snd (constant_value c)) p
  else if hermitian_matrix c && square then conjugate o                              (* l.78-81 *)
  else if diagonal_matrix c then to_diagonal (diagonal_of o) p                       (* l.82-85 *)
  else OTrans a b o.                                                                 (* l.88 *)

(** conjugate_transpose<a, b>, conjugate_transpose.hpp l.46-78. *)
Definition conjugate_transpose (a b : nat) (o : obj) : obj :=
  let c := traits o in
  let p := pat_transpose a b (c_pats c) in
  if hermitian_matrix c && same_index a b c then o                                   (* l.50-53 *)
  else if negb (c_complex c) || real_constant c then transpose a b o                 (* l.58-61 *)
  else if constant_object c                                                          (* l.62-65 *)
  then make_constant (c_complex c) (fst (constant_value c)) (conj (snd (constant_value c))) p
  else if constant_diagonal_object c                                                 (* l.66-69 *)
  then make_constant_diagonal (c_complex c) (fst (constant_value c)) (conj (snd (constant_value c))) p
  else if diagonal_matrix c then to_diagonal (conjugate (diagonal_of o)) p           (* l.70-73 *)
  else conjugate (transpose a b o).                                                  (* l.76 *)

(** to_triangular<t>, to_triangular.hpp l.48-62. *)
Definition to_triangular (t : tri) (o : obj) : obj :=
  if triangular_matrix (traits o) t then o else OTri t o.

(** to_hermitian<t>, to_hermitian.hpp l.55-69. *)
Definition to_hermitian (t : tri) (o : obj) : obj :=
  if hermitian_matrix (traits o) then o else OHerm t o.

End Objects.

Arguments ODense {V}. Arguments OConst {V}. Arguments OToDiag {V}. Arguments ODiag {V}.
Arguments OTri {V}. Arguments OHerm {V}. Arguments OTrans {V}. Arguments OConj {V}.
Arguments OPat {V}. Arguments forget {V}. Arguments dense_extents {V}.
Arguments c_pats {V}. Arguments c_complex {V}. Arguments c_elem {V}. Arguments c_get {V}.
Arguments c_tri {V}. Arguments c_square {V}. Arguments c_herm {V}. Arguments c_first {V}.
Arguments square_shaped {V}. Arguments is_zero {V}. Arguments one_dimensional {V}.
Arguments vector {V}. Arguments triangle_type_of {V}. Arguments triangular_matrix {V}.
Arguments diagonal_matrix {V}. Arguments constant_object {V}.
Arguments constant_diagonal_object {V}. Arguments constant_value {V}.
Arguments real_elements {V}. Arguments real_constant {V}. Arguments hermitian_matrix {V}.
Arguments traits {V}. Arguments attach_patterns {V}. Arguments make_constant {V}.
Arguments make_zero {V}. Arguments diagonal_of {V}. Arguments to_diagonal {V}.
Arguments to_diagonal_square {V}. Arguments make_constant_diagonal {V}.
Arguments conjugate_fuel {V}. Arguments conjugate {V}. Arguments same_index {V}.
Arguments transpose {V}. Arguments conjugate_transpose {V}. Arguments to_triangular {V}.
Arguments to_hermitian {V}. Arguments passed_square {V}.
