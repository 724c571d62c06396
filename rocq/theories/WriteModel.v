(** Functions that write into an existing object: copy_from, filling from a list of values
    (fill_components and the comma initializers of the Eigen interface), set_triangle.

    All paths are below /repo/OpenKalman/linear-algebra/. *)
From Coq Require Import List Arith Bool.
From Verif Require Import StlModel.
Import ListNotations.

(** The outcome of a statement: it finishes, it stops at a failed assertion (assertions are
    enabled unless NDEBUG is defined), or its behaviour is undefined. *)
Inductive outcome (A : Type) :=
| Done (a : A)
| Stopped
| Undefined.
Arguments Done {A}. Arguments Stopped {A}. Arguments Undefined {A}.

Definition bind {A B} (o : outcome A) (f : A -> outcome B) : outcome B :=
  match o with Done a => f a | Stopped => Stopped | Undefined => Undefined end.

(** eigen_assert(ok): [chk] tells whether assertions are enabled. *)
Definition check {A} (chk ok : bool) (o : outcome A) : outcome A :=
  if chk && negb ok then Stopped else o.

(** ** copy_from *)

Section Copy.
Variable V : Type.
Variable zero : V.
Variables conj re : V -> V.

Fixpoint update (st : list V) (o : nat) (x : V) : list V :=
  match st, o with
  | [], _ => []
  | _ :: r, 0 => x :: r
  | y :: r, S o' => y :: update r o' x
  end.

(** for (std::size_t i = 0; i < n; i++) body(i) over a state. *)
Fixpoint for_each (is : list nat) (body : nat -> list V -> outcome (list V)) (st : list V)
  : outcome (list V) :=
  match is with
  | [] => Done st
  | i :: r => bind (body i st) (for_each r body)
  end.

(** functions/copy_from.hpp l.38-49 (copy_tensor_elements).  The destination is a mapping
    into the buffer [st]; the source is a view that may read the same buffer, so it is a
    function of it.  [es] are the extents of the source along the remaining indices and [j]
    the indices chosen so far.  An access outside either buffer is undefined. *)
Fixpoint copy_tensor_elements (m : mapping) (source : list V -> view V) (es j : list nat)
    (st : list V) : outcome (list V) :=
  match es with
  | [] =>
      match read zero conj re (source st) j with                   (* l.41, right-hand side *)
      | None => Undefined
      | Some x =>
          let o := m_call m (firstn (rank m) j) in                 (* l.41, left-hand side *)
          if o <? length st then Done (update st o x) else Undefined
      end
  | e :: es' =>                                                    (* l.48-49 *)
      for_each (seq 0 e) (fun i => copy_tensor_elements m source es' (j ++ [i])) st
  end.

(** functions/copy_from.hpp l.68-86, the path on which no library-specific copy is defined:
    as many loops as the destination has indices, each over the extent of the source
    (l.48).  The number of indices of the destination is taken to be the rank of its
    mdspan. *)
Definition copy_from (m : mapping) (source : list V -> view V) (st : list V)
  : outcome (list V) :=
  copy_tensor_elements m source
    (map (extent (map_of (source st))) (seq 0 (rank m))) [] st.

End Copy.
Arguments update {V}. Arguments for_each {V}. Arguments copy_tensor_elements {V}.
Arguments copy_from {V}.

(** ** Comma initializers *)

Section Comma.
Variable V : Type.

Definition mat := nat -> nat -> V.

Record block := Block { b_rows : nat; b_cols : nat; b_at : mat }.

Inductive item :=
| Scalar (x : V)
| Matrix (b : block).

(** Eigen::CommaInitializer (Eigen/src/Core/CommaInitializer.h): the target and its
    position. *)
Record comma := Comma { c_m : mat; c_row : nat; c_col : nat; c_rows : nat }.

(** m_xpr.coeffRef(r, c) = x *)
Definition put (R C : nat) (m : mat) (r c : nat) (x : V) : outcome mat :=
  if (r <? R) && (c <? C)
  then Done (fun i j => if (i =? r) && (j =? c) then x else m i j)
  else Undefined.

(** m_xpr.block(r, c, b.rows(), b.cols()) = b *)
Definition put_block (R C : nat) (m : mat) (r c : nat) (b : block) : outcome mat :=
  if (b_rows b =? 0) || (b_cols b =? 0) then Done m
  else if (r + b_rows b <=? R) && (c + b_cols b <=? C)
  then Done (fun i j =>
         if (r <=? i) && (i <? r + b_rows b) && (c <=? j) && (j <? c + b_cols b)
         then b_at b (i - r) (j - c) else m i j)
  else Undefined.

(** The two constructors (operator<<). *)
Definition comma_start (chk : bool) (R C : nat) (m : mat) (it : item) : outcome comma :=
  match it with
  | Scalar x =>
      check chk ((0 <? R) && (0 <? C))
        (bind (put R C m 0 0 x) (fun m' => Done (Comma m' 0 1 1)))
  | Matrix b =>
      check chk ((b_rows b <=? R) && (b_cols b <=? C))
        (bind (put_block R C m 0 0 b) (fun m' => Done (Comma m' 0 (b_cols b) (b_rows b))))
  end.

(** The two overloads of operator,. *)
Definition comma_next (chk : bool) (R C : nat) (s : comma) (it : item) : outcome comma :=
  match it with
  | Scalar x =>
      let go s' :=
        check chk (c_col s' <? C)
          (check chk (c_rows s' =? 1)
            (bind (put R C (c_m s') (c_row s') (c_col s') x)
              (fun m' => Done (Comma m' (c_row s') (S (c_col s')) (c_rows s'))))) in
      if c_col s =? C
      then check chk (c_row s + c_rows s <? R)
             (go (Comma (c_m s) (c_row s + c_rows s) 0 1))
      else go s
  | Matrix b =>
      let go s' :=
        check chk (c_col s' + b_cols b <=? C)
          (check chk (c_rows s' =? b_rows b)
            (bind (put_block R C (c_m s') (c_row s') (c_col s') b)
              (fun m' => Done (Comma m' (c_row s') (c_col s' + b_cols b) (c_rows s'))))) in
      if (c_col s =? C) && (negb (b_cols b =? 0) || negb (b_rows b =? c_rows s))
      then check chk (c_row s + c_rows s + b_rows b <=? R)
             (go (Comma (c_m s) (c_row s + c_rows s) 0 (b_rows b)))
      else go s
  end.

Fixpoint comma_list (chk : bool) (R C : nat) (s : comma) (its : list item) : outcome comma :=
  match its with
  | [] => Done s
  | it :: r => bind (comma_next chk R C s it) (fun s' => comma_list chk R C s' r)
  end.

(** finished(), also run by the destructor. *)
Definition comma_finished (chk : bool) (R C : nat) (s : comma) : outcome mat :=
  check chk (((c_row s + c_rows s =? R) || (C =? 0)) && (c_col s =? C)) (Done (c_m s)).

(** (m << it, ...) as one statement. *)
Definition comma_statement (chk : bool) (R C : nat) (m : mat) (its : list item) : outcome mat :=
  match its with
  | [] => Done m
  | it :: r =>
      bind (comma_start chk R C m it) (fun s =>
      bind (comma_list chk R C s r) (comma_finished chk R C))
  end.

(** What operator<< returns (interfaces/eigen/details/EigenAdapterBase.hpp l.242-265 and
    l.275-299):
    - [Plain]: Eigen::CommaInitializer on the matrix itself;
    - [MeanOf wrap]: MeanCommaInitializer, which wraps the columns in its destructor;
    - [Held r c scratch convert]: DiagonalCommaInitializer and CovarianceCommaInitializer,
      which fill a matrix of their own, of r rows and c columns, and in the destructor assign
      the converted matrix to the target.  The held matrix is default-constructed, so r = 0
      (or r = c = 0) when the size is known at run time only, and its first contents
      [scratch] are arbitrary. *)
Inductive kind :=
| Plain
| MeanOf (wrap : (nat -> V) -> nat -> V)
| Held (r c : nat) (scratch : mat) (convert : mat -> mat).

Definition wrap_columns (wrap : (nat -> V) -> nat -> V) (m : mat) : mat :=
  fun i j => wrap (fun k => m k j) i.

(** auto init = (target << first...); init, next...; ...  ended by the end of init's life.
    (eigen-comma-initializers.hpp, whole file, with the base class as above.)
    - One statement: the initializer is a temporary destroyed at its end.
    - More statements, the first with a single item: operator<< returns a prvalue, so init
      is the initializer itself.
    - More statements, the first with several items: operator, returns a reference, so init
      is a copy; copying marks the original as finished and the original is destroyed at the
      end of the first statement.  For a mean, operator, is the one of the base class, so
      init is a plain CommaInitializer, while the destructor of the original wraps the
      columns (l.39-42).  For a held matrix, the comma initializer of the copy still refers
      to the matrix of the original (l.86-91, l.158-163), which no longer exists.
    The empty first statement does not occur; it is read as no statement. *)
Definition comma_program (k : kind) (chk : bool) (R C : nat) (m : mat)
    (first : list item) (later : list (list item)) : outcome mat :=
  match first with
  | [] => Done m
  | it :: rest =>
      match k with
      | Plain =>
          bind (comma_start chk R C m it) (fun s =>
          bind (comma_list chk R C s rest) (fun s =>
          bind (comma_list chk R C s (concat later)) (comma_finished chk R C)))
      | MeanOf wrap =>
          bind (comma_start chk R C m it) (fun s =>
          bind (comma_list chk R C s rest) (fun s =>
          match later, rest with
          | _ :: _, _ :: _ =>
              let s' := Comma (wrap_columns wrap (c_m s)) (c_row s) (c_col s) (c_rows s) in
              bind (comma_list chk R C s' (concat later)) (comma_finished chk R C)
          | _, _ =>
              bind (comma_list chk R C s (concat later)) (fun s =>
              bind (comma_finished chk R C s) (fun m' => Done (wrap_columns wrap m')))
          end))
      | Held r c scratch convert =>
          bind (comma_start chk r c scratch it) (fun s =>
          bind (comma_list chk r c s rest) (fun s =>
          match later, rest with
          | _ :: _, _ :: _ => Undefined
          | _, _ =>
              bind (comma_list chk r c s (concat later)) (fun s =>
              bind (comma_finished chk r c s) (fun m' => Done (convert m')))
          end))
      end
  end.

(** The conversion of DiagonalCommaInitializer (eigen-comma-initializers.hpp l.113-122):
    the held column becomes the diagonal. *)
Variable zero : V.
Definition column_to_diagonal (m : mat) : mat := fun i j => if i =? j then m i 0 else zero.

(** functions/internal/may_hold_components.hpp l.24-31: [ds] are the dimensions of the
    object, those known at run time only counting as 1. *)
Definition may_hold_components (e : list ext) (n : nat) : bool :=
  let dims := prod (map (fun x => if fixed x then dim x else 1) e) in
  if n =? 0 then dims =? 0
  else if dims =? 0 then false
  else n mod dims =? 0.

(** functions/fill_components.hpp l.70-83 with interfaces/eigen/eigen-library-interface.hpp
    l.422-426.  [None]: the call does not compile. *)
Inductive layout := LayoutLeft | LayoutRight.
Definition fill_components (chk : bool) (l : layout) (e0 e1 : ext) (m : mat) (xs : list V)
  : option (outcome mat) :=
  if may_hold_components [e0; e1] (length xs) then
    Some (match xs with
          | [] => Done m
          | _ =>
              match l with
              | LayoutLeft =>
                  bind (comma_statement chk (dim e1) (dim e0) (fun i j => m j i) (map Scalar xs))
                    (fun m' => Done (fun i j => m' j i))
              | LayoutRight => comma_statement chk (dim e0) (dim e1) m (map Scalar xs)
              end
          end)
  else None.

End Comma.
Arguments Block {V}. Arguments b_rows {V}. Arguments b_cols {V}. Arguments b_at {V}.
Arguments Scalar {V}. Arguments Matrix {V}.
Arguments Comma {V}. Arguments c_m {V}. Arguments c_row {V}. Arguments c_col {V}.
Arguments c_rows {V}. Arguments put {V}. Arguments put_block {V}.
Arguments comma_start {V}. Arguments comma_next {V}. Arguments comma_list {V}.
Arguments comma_finished {V}. Arguments comma_statement {V}.
Arguments Plain {V}. Arguments MeanOf {V}. Arguments Held {V}.
Arguments wrap_columns {V}. Arguments comma_program {V}. Arguments column_to_diagonal {V}.
Arguments fill_components {V}.

(** ** set_triangle *)

Section SetTriangle.
Variable V : Type.
Variable zero : V.
Variables conj re : V -> V.
(** The size of the stored matrix. *)
Variables R C : nat.

(** The object set: a dense Eigen matrix, a writable object whose library defines no
    set_triangle, a triangular adapter, a hermitian adapter, a diagonal matrix stored as a
    vector. *)
Inductive target :=
| TNative (m : mat V)
| TGeneric (m : mat V)
| TTriangular (s : tri) (a : target)
| THermitian (s : tri) (a : target)
| TDiagonal (v : nat -> V).

Definition on_triangle (t : tri) (i j : nat) : bool :=
  match t with Lower => j <=? i | Upper => i <=? j | Diagonal => i =? j end.

(** a.triangularView<t>() = b (interfaces/eigen/eigen-library-interface.hpp l.691-694) and,
    for the diagonal, copy(diagonal_of(a), diagonal_of(b)) (l.658-661). *)
Definition set_native (t : tri) (m b : mat V) : mat V :=
  fun i j => if on_triangle t i j && (i <? R) && (j <? C) then b i j else m i j.

(** The loops of functions/internal/set_triangle.hpp l.79-94: a list of iterations, each of
    which performs set_component(a, get_component(b, i, i), i, i). *)
Definition set_diagonal_component (b : mat V) (i : nat) (m : mat V) : outcome (mat V) :=
  put R C m i i (b i i).

Fixpoint set_components (b : mat V) (is : list nat) (m : mat V) : outcome (mat V) :=
  match is with
  | [] => Done m
  | i :: r => bind (set_diagonal_component b i m) (set_components b r)
  end.

(** The values of i in the iterations, in order: l.81-82 (j from i to the second dimension),
    l.87-88 (j from 0 below i), l.93. *)
Definition generic_iterations (t : tri) : list nat :=
  match t with
  | Upper => flat_map (fun i => repeat i (C - i)) (seq 0 R)
  | Lower => flat_map (fun i => repeat i i) (seq 0 R)
  | Diagonal => seq 0 R
  end.

Definition conjugate_transpose (b : mat V) : mat V := fun i j => conj (b j i).

Definition opposite (t s : tri) : bool :=
  match t, s with Lower, Upper | Upper, Lower => true | _, _ => false end.

(** functions/internal/set_triangle.hpp l.47-97; for SelfAdjointView,
    interfaces/eigen/eigen-library-interface.hpp l.637-645 does the same as l.61-67. *)
Fixpoint set_triangle (t : tri) (a : target) (b : mat V) : outcome target :=
  match a with
  | TNative m => Done (TNative (set_native t m b))                       (* l.49-56 *)
  | TTriangular s a' =>                                                  (* l.57-60 *)
      bind (set_triangle t a' b) (fun a'' => Done (TTriangular s a''))
  | THermitian s a' =>                                                   (* l.61-68 *)
      bind (set_triangle t a' (if opposite t s then conjugate_transpose b else b))
        (fun a'' => Done (THermitian s a''))
  | TDiagonal v => Done (TDiagonal (fun i => b i i))                     (* l.69-76 *)
  | TGeneric m =>                                                        (* l.77-94 *)
      bind (set_components b (generic_iterations t) m) (fun m' => Done (TGeneric m'))
  end.

(** The component of the object: what get_component returns for the adapters. *)
Fixpoint component (a : target) (i j : nat) : V :=
  match a with
  | TNative m | TGeneric m => m i j
  | TTriangular s a' => if on_triangle s i j then component a' i j else zero
  | THermitian s a' =>
      if i =? j then re (component a' i i)
      else if on_triangle s i j then component a' i j
      else conj (component a' j i)
  | TDiagonal v => if i =? j then v i else zero
  end.

End SetTriangle.
Arguments TNative {V}. Arguments TGeneric {V}. Arguments TTriangular {V}.
Arguments THermitian {V}. Arguments TDiagonal {V}. Arguments set_native {V}.
Arguments set_diagonal_component {V}. Arguments set_components {V}.
Arguments conjugate_transpose {V}. Arguments set_triangle {V}. Arguments component {V}.
