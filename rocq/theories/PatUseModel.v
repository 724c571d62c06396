(** * Functions on collections of patterns, and uniform patterns

    A model of the following files of /repo/OpenKalman/patterns:
    functions/internal/strip_1D_tail.hpp, largest_pattern.hpp and
    smallest_pattern.hpp; functions/get_common_pattern_collection_dimension.hpp,
    compare_collection_patterns_with_dimension.hpp,
    get_uniform_pattern_component.hpp and is_uniform_pattern_component_of.hpp;
    concepts/collection_patterns_compare_with_dimension.hpp,
    collection_patterns_have_same_dimension.hpp and uniform_pattern.hpp;
    traits/common_descriptor_type.hpp.

    Types and patterns are those of PatStaticModel.v and PatCmpModel.v.
    Simplifications: dimensions found at run time are natural numbers and do not
    wrap round; collections without a size are left out. *)
From Coq Require Import List ZArith Bool.
From Verif Require Import PatCmpModel PatStaticModel.
Import ListNotations.
Local Open Scope nat_scope.

(** The comparison functions of the standard library. *)
Definition cmp_eq (o : ordering) : bool := match o with Some Eq => true | _ => false end.
Definition cmp_neq (o : ordering) : bool := match o with Some Eq => false | _ => true end.
Definition cmp_lteq (o : ordering) : bool := match o with Some Eq | Some Lt => true | _ => false end.

(** The type of a collection of patterns: a tuple, an array, or a collection of
    run-time size. *)
Inductive ucol :=
| UTup (ts : list spat)
| UArr (t : spat) (n : nat)
| UVec (t : spat).

(** [collections::size_of]. *)
Definition col_size (u : ucol) : ssize :=
  match u with UTup ts => Fixed (length ts) | UArr _ n => Fixed n | UVec _ => Dynamic end.

(** ** strip_1D_tail, functions/internal/strip_1D_tail.hpp *)

(** The type of an element of a tuple or array. *)
Definition col_elt (u : ucol) (i : nat) : spat :=
  match u with UTup ts => nth i ts sone | UArr t _ | UVec t => t end.

(** [strip_1D_tail_dynamic] with a constant index, 33-42.  [views::slice] from
    0 is [firstn]. *)
Fixpoint strip_dynamic_fixed (p : list pattern) (i : nat) : list pattern :=
  match i with
  | O => firstn 0 p
  | S j => if compare cmp_eq (nth j p one_dim) one_dim then strip_dynamic_fixed p j else firstn (S j) p
  end.

(** The loop, 43-52: the value of [i] at its end. *)
Fixpoint strip_loop (p : list pattern) (i : nat) : nat :=
  match i with
  | O => 0
  | S j => if compare cmp_neq (nth j p one_dim) one_dim then S j else strip_loop p j
  end.

(** [strip_1D_tail_fixed], 56-80. *)
Fixpoint strip_fixed (u : ucol) (p : list pattern) (i : nat) : list pattern :=
  match i with
  | O => []
  | S j =>
      if compares_with cmp_eq false (col_elt u j) sone then strip_fixed u p j
      else if compares_with cmp_eq true (col_elt u j) sone then strip_dynamic_fixed p (S j)
      else firstn (S j) p
  end.

(** [strip_1D_tail], 98-104. *)
Definition strip_1D_tail (u : ucol) (p : list pattern) : list pattern :=
  match col_size u with
  | Fixed n => strip_fixed u p n
  | _ => firstn (strip_loop p (length p)) p
  end.

(** ** largest_pattern and smallest_pattern *)

(** get_dimension, functions/get_dimension.hpp 27-72. *)
Definition pat_dim (p : pattern) : nat := total_dim (items p).

(** [largest_pattern_fixed], largest_pattern.hpp 32-51: [i] is the index,
    [mi] and [mx] are the best so far. *)
Fixpoint largest_fixed (p : list pattern) (i mi mx : nat) : nat :=
  match p with
  | [] => mi
  | x :: r =>
      let d := pat_dim x in
      if mx <? d then largest_fixed r (S i) i d else largest_fixed r (S i) mi mx
  end.

(** [smallest_pattern_fixed], smallest_pattern.hpp 32-51; the first [min] is the
    largest size. *)
Fixpoint smallest_fixed (p : list pattern) (i mi : nat) (mn : Z) : nat :=
  match p with
  | [] => mi
  | x :: r =>
      let d := Z.of_nat (pat_dim x) in
      if (d <? mn)%Z then smallest_fixed r (S i) i d else smallest_fixed r (S i) mi mn
  end.

(** std::max_element and std::min_element with the lambda of lines 73: the
    standard's loop keeps [it] and replaces it when [x] is
    larger (smaller) than it. *)
Fixpoint element_loop (better : pattern -> pattern -> bool) (p : list pattern) (i : nat) (best : pattern) (bi : nat) : nat :=
  match p with
  | [] => bi
  | x :: r => if better best x then element_loop better r (S i) x i else element_loop better r (S i) best bi
  end.
Definition max_element (p : list pattern) : nat :=
  match p with [] => 0 | x :: r => element_loop (fun best x => pat_dim best <? pat_dim x) r 1 x 0 end.
Definition min_element (p : list pattern) : nat :=
  match p with [] => 0 | x :: r => element_loop (fun best x => pat_dim x <? pat_dim best) r 1 x 0 end.

(** [largest_pattern], largest_pattern.hpp 69-87; [smallest_pattern],
    smallest_pattern.hpp 69-87. *)
Definition largest_pattern (u : ucol) (p : list pattern) : nat :=
  match col_size u with Fixed _ => largest_fixed p 0 0 0 | _ => max_element p end.
Definition smallest_pattern (u : ucol) (p : list pattern) : nat :=
  match col_size u with Fixed _ => smallest_fixed p 0 0 dyn | _ => min_element p end.

(** ** Dimensions of the elements of a collection *)

(** [dimension_of] of a type, as a size. *)
Definition spat_dim (t : spat) : Z :=
  match t with SDesc e => elt_dim e | STup l => tup_dim l | SVec e => vec_dim e end.
Definition static_dim (t : spat) : ssize :=
  if (spat_dim t =? dyn)%Z then Dynamic else Fixed (Z.to_nat (spat_dim t)).

(** std::common_type of two descriptors: descriptors/Dimensions.hpp 226-259,
    Angle.hpp 261-280, Inclination.hpp 226-244, Distance.hpp 112-129, Polar.hpp
    276-312, Spherical.hpp likewise, Any.hpp 241-259. *)
Definition desc_eq_dec (a b : desc) : {a = b} + {a <> b}.
Proof. decide equality; try apply Z.eq_dec; apply Nat.eq_dec. Defined.

Definition common_elt (x y : elt) : elt :=
  match x, y with
  | Known a, Known b =>
      if desc_eq_dec a b then Known a
      else if is_euclidean a && is_euclidean b then DynDim else AnyDesc
  | DynDim, DynDim => DynDim
  | DynDim, Known a | Known a, DynDim => if is_euclidean a then DynDim else AnyDesc
  | AnyDesc, _ | _, AnyDesc => AnyDesc
  end.

(** [common_collection_type], collections/traits/common_collection_type.hpp.
    For a tuple it is std::common_reference of the elements.  Simplified: a
    tuple some of whose elements are collections has a common type only if all
    types are the same. *)
Definition elt_eq_dec (a b : elt) : {a = b} + {a <> b}.
Proof. decide equality; apply desc_eq_dec. Defined.
Definition spat_eq_dec (a b : spat) : {a = b} + {a <> b}.
Proof. decide equality; try apply elt_eq_dec; apply list_eq_dec, elt_eq_dec. Defined.

Definition common_spat (x : option spat) (y : spat) : option spat :=
  match x, y with
  | Some (SDesc a), SDesc b => Some (SDesc (common_elt a b))
  | Some a, b => if spat_eq_dec a b then Some a else None
  | None, _ => None
  end.
Definition common_collection (u : ucol) : option spat :=
  match u with
  | UTup [] => None
  | UTup (t :: ts) => fold_left common_spat ts (Some t)
  | UArr t _ | UVec t => Some t
  end.

(** [has_fixed_common]: get_common_pattern_collection_dimension.hpp 83-88 and
    compare_collection_patterns_with_dimension.hpp 82-87. *)
Definition fixed_common (u : ucol) : option nat :=
  match common_collection u with
  | Some t => match static_dim t with Fixed n => Some n | _ => None end
  | None => None
  end.

(** [get_dimension(get_pattern(t, i))], functions/get_pattern.hpp 39-49: beyond
    the end there is one dimension. *)
Definition dim_at (p : list pattern) (i : nat) : nat :=
  if i <? length p then pat_dim (nth i p one_dim) else 1.

(** Its type when [i] is a constant; for a collection of run-time size it is an
    [Any]. *)
Definition static_dim_at (u : ucol) (i : nat) : ssize :=
  match col_size u with
  | Fixed n => if i <? n then static_dim (col_elt u i) else Fixed 1
  | _ => Dynamic
  end.

(** The number of elements compared: [N], or all of them ([None]). *)
Definition compared (u : ucol) (N : option nat) : ssize :=
  match N with Some n => Fixed n | None => col_size u end.

(** [collection_patterns_have_same_dimension_impl],
    get_common_pattern_collection_dimension.hpp 41-59; [c] is [n - i].  The
    first component is the type of the value. *)
Fixpoint same_dimension_impl (u : ucol) (p : list pattern) (c i : nat) : ssize * option nat :=
  let d0 := (static_dim_at u i, dim_at p i) in
  match c with
  | S (S _ as c') =>
      let tail := same_dimension_impl u p c' (S i) in
      if size_compares_with cmp_eq false (fst d0) (fst tail) then (fst d0, Some (snd d0))
      else match snd tail with
           | Some v => if v =? snd d0 then (Dynamic, Some (snd d0)) else (Dynamic, None)
           | None => (Dynamic, None)
           end
  | _ => (fst d0, Some (snd d0))
  end.

(** The loop of lines 114-117. *)
Fixpoint same_dimension_loop (p : list pattern) (d c i : nat) : option nat :=
  match c with
  | O => Some d
  | S c' => if dim_at p i =? d then same_dimension_loop p d c' (S i) else None
  end.

(** [get_common_pattern_collection_dimension<N>], 81-127, of a sized
    collection. *)
Definition get_common_dimension (N : option nat) (u : ucol) (p : list pattern) : option nat :=
  match compared u N with
  | Fixed n =>
      match fixed_common u with
      | Some d => if size_compares_with cmp_lteq false (Fixed n) (col_size u) then Some d
                  else snd (same_dimension_impl u p n 0)
      | None => snd (same_dimension_impl u p n 0)
      end
  | _ => same_dimension_loop p (dim_at p 0) (length p - 1) 1
  end.

(** [compare_collection_patterns_with_dimension_impl] and the loop,
    compare_collection_patterns_with_dimension.hpp 48-59 and 112-116. *)
Definition compare_dims_from (comp : ordering -> bool) (p : list pattern) (n d : nat) : bool :=
  forallb (fun i => comp (nat_order (dim_at p i) d)) (seq 0 n).

(** [compare_collection_patterns_with_dimension<comp, N>], 80-127. *)
Definition compare_with_dimension (comp : ordering -> bool) (N : option nat) (u : ucol) (p : list pattern) (d : nat) : bool :=
  match compared u N with
  | Fixed n =>
      match fixed_common u with
      | Some k => if size_compares_with cmp_lteq false (Fixed n) (col_size u) then comp (nat_order k d)
                  else compare_dims_from comp p n d
      | None => compare_dims_from comp p n d
      end
  | _ => compare_dims_from comp p (length p) d
  end.

(** [collection_patterns_compare_with_dimension], concepts/... 40-73. *)
Definition patterns_compare_with_dimension (comp : ordering -> bool) (N : option nat) (perm : bool) (u : ucol) (d : nat) : bool :=
  match col_size u with
  | Fixed k =>
      let n := match N with Some n => n | None => k end in
      forallb (fun i => size_compares_with comp perm (static_dim_at u i) (Fixed d)) (seq 0 n)
  | _ => match common_collection u with
         | Some t => size_compares_with comp perm (static_dim t) (Fixed d)
         | None => perm
         end
  end.

(** [best_comparison_dim], collection_patterns_have_same_dimension.hpp 40-54;
    [c] is [N - i]. *)
Fixpoint best_dim (u : ucol) (c i : nat) : ssize :=
  match c with
  | O => Dynamic
  | S c' => match static_dim_at u i with Fixed n => Fixed n | _ => best_dim u c' (S i) end
  end.

(** [collection_patterns_have_same_dimension], 57-101. *)
Definition patterns_have_same_dimension (N : option nat) (perm : bool) (u : ucol) : bool :=
  let n_lt_2 := match N with Some n => n <? 2 | None => false end in
  match col_size u with
  | Fixed k =>
      let n := match N with Some n => n | None => k end in
      n_lt_2 || forallb (fun i => size_compares_with cmp_eq perm (static_dim_at u i) (best_dim u n 0)) (seq 0 n)
  | _ => n_lt_2 || match fixed_common u with Some _ => true | None => false end || perm
  end.

(** ** Uniform patterns *)

(** [common_descriptor_type_iter], traits/common_descriptor_type.hpp 60-76;
    [None] is std::tuple<>.  [fuel] bounds the recursion over instances. *)
Fixpoint common_iter (fuel : nat) (l : list elt) : option elt :=
  match fuel with
  | O => None
  | S k =>
      match l with
      | [] => None
      | [x] => Some x
      | x :: y :: r =>
          if (elt_dim x =? 0)%Z && (elt_dim y =? 0)%Z then common_iter k r
          else if (elt_dim x =? 0)%Z then common_iter k (y :: r)
          else if (elt_dim y =? 0)%Z then common_iter k (x :: r)
          else common_iter k (common_elt x y :: r)
      end
  end.

Definition type_euclidean (t : spat) : bool :=
  match t with SDesc e | SVec e => elt_euclidean e | STup l => forallb elt_euclidean l end.

(** [common_descriptor_type], 46-56 and 109-119. *)
Definition common_descriptor (t : spat) : option elt :=
  if type_euclidean t then Some (Known (Dim 1))
  else match t with
       | SDesc e | SVec e => Some e
       | STup l => common_iter (S (length l)) l
       end.

(** A descriptor compared with a descriptor. *)
Definition desc_compare (comp : ordering -> bool) (x y : held) : bool := compare comp (PDesc x) (PDesc y).

(** [equal_tuple_elements], get_uniform_pattern_component.hpp 31-40. *)
Definition equal_tuple_elements (l : list held) : option desc :=
  match l with
  | [] => None
  | x :: r => if forallb (desc_compare cmp_eq x) r then Some (the_desc x) else None
  end.

(** std::adjacent_find(v, pred) == v.end(). *)
Fixpoint no_adjacent (pred : held -> held -> bool) (l : list held) : bool :=
  match l with
  | x :: ((y :: _) as r) => negb (pred x y) && no_adjacent pred r
  | _ => true
  end.

(** [get_uniform_pattern_component], 63-109, of a pattern [p] of type [t].  The
    result is the descriptor that the std::optional holds.  In line 102 [v.front()]
    of an empty collection is not reached (line 96). *)
Definition get_uniform_component (t : spat) (p : pattern) : option desc :=
  if type_euclidean t then Some (Dim 1)
  else
    match t with
    | SDesc e => if (elt_dim e =? 1)%Z then match items p with x :: _ => Some (the_desc x) | [] => None end else None
    | _ =>
        match common_descriptor t with
        | None => None
        | Some c =>
            if (elt_dim c =? 1)%Z then match c with Known d => Some d | _ => None end
            else if negb (elt_dim c =? dyn)%Z then None
            else
              match t with
              | SVec _ =>
                  if forallb euclidean (items p) then Some (Dim 1)
                  else if no_adjacent (desc_compare cmp_neq) (items p)
                       then match items p with x :: _ => Some (the_desc x) | [] => None end
                       else None
              | _ => equal_tuple_elements (items p)
              end
        end
    end.

(** [common_descriptor_type_t] of one element of a tuple. *)
Definition common_one (e : elt) : elt := if elt_euclidean e then Known (Dim 1) else e.

(** [heterogeneous_pattern_impl], concepts/uniform_pattern.hpp 27-54: from the
    second element on; [c] is the common type so far. *)
Fixpoint hetero_impl (c : elt) (l : list elt) : bool :=
  match l with
  | [] => false
  | e :: r =>
      let a := common_one e in
      if (negb (elt_dim a =? dyn)%Z && negb (elt_dim a =? 1)%Z) ||
         negb (compares_with cmp_eq true (SDesc c) (SDesc a)) then true
      else if negb (elt_dim a =? dyn)%Z && (elt_dim c =? dyn)%Z then hetero_impl a r
      else hetero_impl c r
  end.

(** [heterogeneous_pattern], 57-113. *)
Definition heterogeneous (t : spat) : bool :=
  match t with
  | SDesc e => negb (elt_euclidean e) && negb (elt_dim e =? dyn)%Z && negb (elt_dim e =? 1)%Z
  | STup (e :: ((_ :: _) as r)) => hetero_impl (common_one e) r
  | STup _ => false
  | SVec e =>
      match common_descriptor t with
      | Some c => negb (elt_dim c =? dyn)%Z && negb (elt_dim c =? 1)%Z
      | None => false
      end
  end.

(** [uniform_pattern<T, a>], 129-141; [uniform_pattern_type],
    traits/uniform_pattern_type.hpp 28-66. *)
Definition uniform_pattern (perm : bool) (t : spat) : bool :=
  if perm then negb (heterogeneous t)
  else type_euclidean t ||
       match common_descriptor t with Some c => (elt_dim c =? 1)%Z | None => false end.

(** [is_uniform_pattern_component_of(a, b)], is_uniform_pattern_component_of.hpp
    42-91, for a descriptor [x] of type [e] and a pattern [b] of type [t]. *)
Definition is_component_of (e : elt) (x : held) (t : spat) (b : pattern) : bool :=
  if negb (uniform_pattern true t) then false
  else if type_euclidean t then desc_compare cmp_eq x (mk_held false true (Dim 1))
  else
    match common_descriptor t with
    | None => false
    | Some c =>
        if compares_with cmp_eq false (SDesc e) (SDesc c) then dim x =? 1
        else if compares_with cmp_neq false (SDesc e) (SDesc c) ||
                (negb (elt_dim c =? dyn)%Z && negb (elt_dim c =? 1)%Z) then false
        else if negb (dim x =? 1) then false
        else if forallb euclidean (items b) then euclidean x
        else
          match b with
          | PDesc y => desc_compare cmp_eq x y
          | _ => forallb (fun y => (dim y =? 0) || (euclidean y && euclidean x) || desc_compare cmp_eq x y) (items b)
          end
    end.
