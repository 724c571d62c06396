(** * Collections and their views

    A model of the collection views of OpenKalman/collections/views and of
    the two comparison functions over collections.  All line numbers refer to
    /repo/OpenKalman.

    What is kept: for every view, the three ways in which the library reads
    an element - [get<i>()] with an index known when the program is compiled,
    [begin()[n]] with an index known only when it runs, and [*it] while an
    iterator walks from [begin()] to [end()] - and the size, each computed by
    the expression the code uses.

    What is simplified: element types are uniform (a [std::tuple] of
    different types is a list of one type here); references, constness and
    value categories are dropped, so the five overloads of each [get] are one
    definition; positions are unbounded integers instead of
    [std::ptrdiff_t]. *)
From Coq Require Import List ZArith Bool Lia.
Import ListNotations.
Local Open Scope Z_scope.

Section Views.
Variable A : Type.

(** A collection object.  An iterator of the library is a pair of a parent and
    a [current_] position, so an iterator is its position here.

    - [vfixed]: the size is a compile-time constant (std::tuple_size exists);
    - [vhasget]: a member or ADL [get<i>] exists;
    - [viter]: the object is a random access range;
    - [vget i]: [get<i>(v)];
    - [vbegin], [vend]: positions of [begin()] and [end()];
    - [vderef p]: [*it] where [it] is at position [p];
    - [vsub p n]: [it[n]] where [it] is at position [p];
    - [vminus p n]: [it - n] ([None]: an exception is thrown).

    [None] is out-of-range access (undefined behaviour). *)
Record view := mk_view {
  vsize : nat;
  vfixed : bool;
  vhasget : bool;
  viter : bool;
  vget : nat -> option A;
  vbegin : Z;
  vend : Z;
  vderef : Z -> option A;
  vsub : Z -> Z -> option A;
  vminus : Z -> Z -> option Z }.

(** Element of a list at an integer position. *)
Definition at_pos (l : list A) (p : Z) : option A :=
  if p <? 0 then None else nth_error l (Z.to_nat p).

(** [get_element(arg, i)] with a fixed index.
    collections/functions/get_element.hpp, get_element_impl, lines 60-89: the
    member or ADL [get<i>] when there is one, otherwise [begin(arg)[n]]. *)
Definition get_fixed (v : view) (i : nat) : option A :=
  if vhasget v then vget v i else vsub v (vbegin v) (Z.of_nat i).

(** [get_element(arg, n)] with an index known at run time.
    collections/functions/get_element.hpp lines 70-86: [get<...>] cannot be
    formed, so [begin(arg)[n]]. *)
Definition get_dyn (v : view) (n : nat) : option A :=
  vsub v (vbegin v) (Z.of_nat n).

(** The loop [for (auto& x : v)].  [None]: an element that does not exist was
    read, or the loop did not end within the given number of steps. *)
Fixpoint walk (v : view) (fuel : nat) (p : Z) : option (list A) :=
  match fuel with
  | O => None
  | S k =>
      if p =? vend v then Some []
      else match vderef v p with
           | None => None
           | Some x => option_map (cons x) (walk v k (p + 1))
           end
  end.

(** The iterator operations shared by the iterators that keep a position:
    [operator-(it, diff)] which throws when [current_ < diff]:
    views/generate.hpp 94-95, views/from_tuple_like.hpp 122-123. *)
Definition minus_checked (p n : Z) : option Z :=
  if p <? n then None else Some (p - n).

(** [operator-(it, diff)] without a check: views/replicate.hpp 108-109,
    patterns/views/transpose.hpp 102-103, and iterators of the standard
    library. *)
Definition minus_unchecked (p n : Z) : option Z := Some (p - n).

(** ** Collections of the standard library *)

(** [std::tuple]: [std::get] and [std::tuple_size] only. *)
Definition tuple_v (l : list A) : view :=
  mk_view (length l) true true false (fun i => nth_error l i)
    0 0 (fun _ => None) (fun _ _ => None) minus_unchecked.

(** [std::array]: both forms of access. *)
Definition array_v (l : list A) : view :=
  mk_view (length l) true true true (fun i => nth_error l i)
    0 (Z.of_nat (length l)) (at_pos l) (fun p n => at_pos l (p + n)) minus_unchecked.

(** [std::vector] and other ranges whose size is known at run time. *)
Definition vector_v (l : list A) : view :=
  mk_view (length l) false false true (fun _ => None)
    0 (Z.of_nat (length l)) (at_pos l) (fun p n => at_pos l (p + n)) minus_unchecked.

(** ** views::all for tuple-like objects: from_tuple_like

    views/from_tuple_like.hpp: [*it = call_table::value[current_](tup_)]
    (108-109), [it[n] = call_table::value[current_ + n](tup_)] (110-111), where
    entry i of the call table is [get<i>] (28-75); begin 0 (176-188), end
    [size()] (193-205), [get<i>] (296-338). *)
Definition from_tuple_v (v : view) : view :=
  let entry p := if (0 <=? p) && (p <? Z.of_nat (vsize v))
                 then get_fixed v (Z.to_nat p) else None in
  mk_view (vsize v) true true true (get_fixed v)
    0 (Z.of_nat (vsize v)) entry (fun p n => entry (p + n)) minus_checked.

(** ** concat

    views/concat.hpp lines 28-47: which operand holds element [i], and at
    which place. *)
Fixpoint concat_indices (i : nat) (sizes : list nat) : nat * nat :=
  match sizes with
  | [] => (0, 0)%nat
  | s :: rest =>
      if (i <? s)%nat then (0, i)%nat
      else let (a, b) := concat_indices (i - s) rest in (1 + a, b)%nat
  end.

(** concat_tuple_view: get 83-126, tuple_size 146-148.  It has no iterators;
    the adaptor (180-198) adds them with views::all (from_tuple_v). *)
Definition concat_tuple_v (vs : list view) : view :=
  let total := fold_left (fun n v => n + vsize v)%nat vs 0%nat in
  mk_view total true true false
    (fun i => if (i <? total)%nat then
                let (e, ix) := concat_indices i (map vsize vs) in
                match nth_error vs e with
                | Some v => get_fixed v ix
                | None => None
                end
              else None)
    0 0 (fun _ => None) (fun _ _ => None) minus_unchecked.

(** The range form, views/concat.hpp line 197: [std::ranges::views::concat] of
    the operands.  The standard's concat_view keeps an iterator into one
    operand; here its position is the number of elements before it, and
    reading it looks the operand up by successive subtraction of the sizes,
    as concat_view::iterator::operator+= does. *)
Fixpoint concat_range_at (vs : list view) (p : Z) : option A :=
  match vs with
  | [] => None
  | v :: rest =>
      if p <? Z.of_nat (vsize v) then vderef v (vbegin v + p)
      else concat_range_at rest (p - Z.of_nat (vsize v))
  end.

Definition concat_range_v (vs : list view) : view :=
  let total := fold_left (fun n v => n + vsize v)%nat vs 0%nat in
  let entry p := if 0 <=? p then concat_range_at vs p else None in
  mk_view total false false true (fun _ => None)
    0 (Z.of_nat total) entry (fun p n => entry (p + n)) minus_unchecked.

(** ** slice

    views/slice.hpp: begin 104-122, end 128-165, size 171-193, get 199-243
    (the overload 236-243 for a const rvalue names a member that does not
    exist and is left out), tuple_size 292-306.  [ofix] says that the offset is
    a compile-time constant, so that offset + i is one as well; the extent is
    a value with the same flag, or [None] for [values::unbounded_size]. *)
Definition slice_v (v : view) (offset : nat) (ofix : bool)
    (extent : option (nat * bool)) : view :=
  let b := vbegin v + Z.of_nat offset in
  mk_view
    (match extent with Some (e, _) => e | None => vsize v - offset end)%nat
    (match extent with Some (_, f) => f | None => vfixed v && ofix end)
    true
    (viter v)
    (fun i => if ofix then get_fixed v (offset + i)%nat else get_dyn v (offset + i)%nat)
    b
    (match extent with Some (e, _) => b + Z.of_nat e | None => vend v end)
    (vderef v) (vsub v) (vminus v).

(** The adaptor, slice_impl, views/slice.hpp 324-336: nothing is wrapped when
    the offset is a constant 0 and the extent is known to equal the size. *)
Definition slice (v : view) (offset : nat) (ofix : bool)
    (extent : option (nat * bool)) : view :=
  match extent with
  | Some (e, f) =>
      if viter v && ofix && (offset =? 0)%nat && vfixed v && f && (e =? vsize v)%nat
      then v else slice_v v offset ofix extent
  | None => slice_v v offset ofix extent
  end.

(** ** replicate

    views/replicate.hpp: [*it] 93-94, [it[n]] 95-96, both through
    [get_parent_elem] 71-83 which calls [get_element] with a run-time index;
    begin 175-192, end 198-222, size 228-235, get 241-290 (the index of the
    base is a constant exactly when the size of the base is). *)
Definition replicate_v (v : view) (factor : nat) (ffix : bool) : view :=
  let entry p := if (p <? 0) || (vsize v =? 0)%nat then None
                 else get_dyn v (Z.to_nat p mod vsize v)%nat in
  mk_view (vsize v * factor)%nat (vfixed v && ffix) true (viter v)
    (fun i => if (vsize v =? 0)%nat then None
              else if vfixed v then get_fixed v (i mod vsize v)%nat
              else get_dyn v (i mod vsize v)%nat)
    0 (Z.of_nat (vsize v * factor)) entry (fun p n => entry (p + n)) minus_unchecked.

(** ** generate, iota, repeat

    views/generate.hpp: [*it] 73-76, [it[n]] 78-81, begin 149-153, end
    159-174, size 180-189, get 195-238. *)
Definition generate_v (f : nat -> A) (n : nat) (nfix : bool) : view :=
  let entry p := if p <? 0 then None else Some (f (Z.to_nat p)) in
  mk_view n nfix true true (fun i => Some (f i))
    0 (Z.of_nat n) entry (fun p k => entry (p + k)) minus_checked.

(** views/repeat.hpp: repeat_tuple_view::get 57-83 and the adaptor 120-138
    (a fixed number of copies: repeat_tuple_view through views::all; a dynamic
    number: [std::ranges::views::repeat]). *)
Definition repeat_tuple_v (a : A) (n : nat) : view :=
  mk_view n true true false (fun i => if (i <? n)%nat then Some a else None)
    0 0 (fun _ => None) (fun _ _ => None) minus_unchecked.

Definition repeat_range_v (a : A) (n : nat) : view :=
  let entry p := if (0 <=? p) && (p <? Z.of_nat n) then Some a else None in
  mk_view n false false true (fun _ => None)
    0 (Z.of_nat n) entry (fun p k => entry (p + k)) minus_unchecked.

Definition repeat_v (a : A) (n : nat) (nfix : bool) : view :=
  if nfix then from_tuple_v (repeat_tuple_v a n) else repeat_range_v a n.

(** ** tuple_reverse

    functions/internal/tuple_reverse.hpp 62-105. *)
Definition reverse_v (v : view) : view :=
  mk_view (vsize v) true true false
    (fun i => if (i <? vsize v)%nat then get_fixed v (vsize v - i - 1)%nat else None)
    0 0 (fun _ => None) (fun _ _ => None) minus_unchecked.

(** ** The transposed pattern collection

    patterns/functions/get_pattern.hpp 41-52: element [i], or Dimensions<1>
    beyond the end.  [ifix]: the index is a compile-time constant. *)
Definition get_pattern (d : A) (v : view) (ifix : bool) (i : Z) : option A :=
  if i <? 0 then None
  else if i <? Z.of_nat (vsize v)
  then (if ifix then get_fixed v (Z.to_nat i) else get_dyn v (Z.to_nat i))
  else Some d.

(** [i == indexa ? indexb : i == indexb ? indexa : i] *)
Definition swap_index (a b i : Z) : Z :=
  if i =? a then b else if i =? b then a else i.

(** patterns/views/transpose.hpp: [*it] 72-80, [it[n]] 82-90, begin 161-178,
    end 184-208, size 214-225, get 231-271. *)
Definition transpose_v (d : A) (v : view) (a b : nat) : view :=
  let sz := Nat.max (vsize v) (b + 1) in
  mk_view sz (vfixed v) true (viter v)
    (fun i => get_pattern d v true (swap_index (Z.of_nat a) (Z.of_nat b) (Z.of_nat i)))
    0 (Z.of_nat sz)
    (fun p => get_pattern d v false (swap_index (Z.of_nat a) (Z.of_nat b) p))
    (fun p n => get_pattern d v false (swap_index (Z.of_nat a) (Z.of_nat b) p + n))
    minus_unchecked.

(** ** Expressions built from the adaptors *)
Inductive expr :=
| ETuple (l : list A)
| EArray (l : list A)
| EVector (l : list A)
| EAll (e : expr)
| EConcat (es : list expr)
| ESlice (e : expr) (offset : nat) (ofix : bool) (extent : option (nat * bool))
| EReplicate (e : expr) (factor : nat) (ffix : bool)
| EGenerate (f : nat -> A) (n : nat) (nfix : bool)
| ERepeat (a : A) (n : nat) (nfix : bool)
| EReverse (e : expr).

(** The [concat] adaptor, views/concat.hpp 180-198: a single operand is
    returned as it is; operands that all have compile-time sizes are
    concatenated as tuples and made a range by [all] when their elements allow
    it (always, here); otherwise the range form. *)
Definition concat_v (vs : list view) : view :=
  match vs with
  | [v] => v
  | _ => if forallb (fun v => vfixed v && vhasget v) vs
         then from_tuple_v (concat_tuple_v vs)
         else concat_range_v vs
  end.

(** views/from_range.hpp: the iterators and the size of the base (171-203);
    [get<i>] reads the base by [get_from_base<i>] (32-68 and 350-394). *)
Definition from_range_v (v : view) : view :=
  mk_view (vsize v) (vfixed v) true true (get_fixed v)
    (vbegin v) (vend v) (vderef v) (vsub v) (vminus v).

(** [views::all], views/all.hpp 39-54: a range is kept or wrapped in
    from_range (which reads the same elements), a tuple-like object gets
    iterators. *)
Definition all_v (v : view) : view :=
  if viter v then from_range_v v else from_tuple_v v.

Fixpoint eval (e : expr) : view :=
  match e with
  | ETuple l => tuple_v l
  | EArray l => array_v l
  | EVector l => vector_v l
  | EAll e => all_v (eval e)
  | EConcat es => concat_v (map eval es)
  | ESlice e o f x => slice (eval e) o f x
  | EReplicate e k f => replicate_v (eval e) k f
  | EGenerate f n x => generate_v f n x
  | ERepeat a n x => repeat_v a n x
  | EReverse e => reverse_v (eval e)
  end.

(** The requires-clauses of the adaptors (views/slice.hpp 37-42 and 391-398,
    views/concat.hpp 173-174, views/replicate.hpp 41, tuple_reverse.hpp 34)
    and the documented precondition that a slice known only at run time lies
    within its base. *)
Fixpoint allowed (e : expr) : Prop :=
  match e with
  | ETuple _ | EArray _ | EVector _ | EGenerate _ _ _ | ERepeat _ _ _ => True
  | EAll e => allowed e
  | EConcat es =>
      es <> [] /\
      (fix all_allowed es := match es with [] => True | e :: r => allowed e /\ all_allowed r end) es /\
      (Forall (fun v => viter v = true) (map eval es) \/
       Forall (fun v => vfixed v = true /\ vhasget v = true) (map eval es))
  | ESlice e o f x =>
      allowed e /\
      (viter (eval e) = true \/
       f = true /\ vfixed (eval e) = true /\
       match x with Some (_, ff) => ff = true | None => True end) /\
      match x with Some (n, _) => o + n <= vsize (eval e) | None => o <= vsize (eval e) end%nat
  | EReplicate e k f =>
      allowed e /\ (viter (eval e) = true \/ vfixed (eval e) = true)
  | EReverse e => allowed e /\ vfixed (eval e) = true /\ vhasget (eval e) = true
  end.

End Views.

Arguments mk_view {A}. Arguments vsize {A}. Arguments vfixed {A}. Arguments vhasget {A}.
Arguments viter {A}. Arguments vget {A}. Arguments vbegin {A}. Arguments vend {A}.
Arguments vderef {A}. Arguments vsub {A}. Arguments vminus {A}.
Arguments at_pos {A}. Arguments get_fixed {A}. Arguments get_dyn {A}. Arguments walk {A}.
Arguments tuple_v {A}. Arguments array_v {A}. Arguments vector_v {A}. Arguments from_tuple_v {A}.
Arguments concat_tuple_v {A}. Arguments concat_range_at {A}. Arguments concat_range_v {A}.
Arguments slice_v {A}. Arguments slice {A}. Arguments replicate_v {A}. Arguments generate_v {A}.
Arguments repeat_tuple_v {A}. Arguments repeat_range_v {A}. Arguments repeat_v {A}.
Arguments reverse_v {A}. Arguments from_range_v {A}. Arguments get_pattern {A}. Arguments transpose_v {A}.
Arguments ETuple {A}. Arguments EArray {A}. Arguments EVector {A}. Arguments EAll {A}.
Arguments EConcat {A}. Arguments ESlice {A}. Arguments EReplicate {A}. Arguments EGenerate {A}.
Arguments ERepeat {A}. Arguments EReverse {A}. Arguments concat_v {A}. Arguments all_v {A}.
Arguments eval {A}. Arguments allowed {A}.

(** [views::iota(start, size)]: views/iota.hpp 28-48, the generator
    [start + i]. *)
Definition EIota (start n : nat) (nfix : bool) : expr nat :=
  EGenerate (fun i => start + i)%nat n nfix.

(** ** Flattening nested tuples

    functions/internal/tuple_flatten.hpp: a value is either tuple-like or
    not. *)
Inductive ttree (A : Type) := TLeaf (a : A) | TNode (l : list (ttree A)).
Arguments TLeaf {A}. Arguments TNode {A}.

Definition is_node {A} (t : ttree A) : bool :=
  match t with TNode _ => true | TLeaf _ => false end.

(** tuple_flatten_impl 33-54: [Some]-case of the first overload concatenates
    the flattened elements when at least one of them is tuple-like, and
    otherwise returns the tuple itself; the second overload makes a one-element
    tuple of anything that is not tuple-like. *)
Fixpoint tuple_flatten {A} (t : ttree A) : list (ttree A) :=
  match t with
  | TLeaf a => [TLeaf a]
  | TNode l => if existsb is_node l then concat (map tuple_flatten l) else l
  end.

(** ** Comparison of collections

    A side of a comparison: its size is a compile-time constant, is known at
    run time, or does not exist (an unbounded collection). *)
Inductive size_kind := KFixed (n : nat) | KDyn (n : nat) | KUnbounded.

Section Compare.
Variable A : Type.

Record side := mk_side { skind : size_kind; selem : nat -> A }.

(** std::partial_ordering: [None] is unordered. *)
Variable cmp : A -> A -> option comparison.

(** [values::size_compares_with<size_of<T>, i>]: only for sizes that are
    compile-time constants. *)
Definition exhausted_fixed (s : side) (i : nat) : bool :=
  match skind s with KFixed n => (n =? i)%nat | _ => false end.

(** [dyn_x] and [i == get_size(x)] *)
Definition exhausted_dyn (s : side) (i : nat) : bool :=
  match skind s with KDyn n => (n =? i)%nat | _ => false end.

(** functions/lexicographical_compare_three_way.hpp 30-63.  The recursion in
    the code is over template instantiations and ends at the constant size of
    one of the arguments. *)
Fixpoint fixed_lex (fuel i : nat) (l r : side) : option (option comparison) :=
  match fuel with
  | O => None
  | S k =>
      if exhausted_fixed l i && exhausted_fixed r i then Some (Some Eq)
      else if exhausted_fixed l i then
        if exhausted_dyn r i then Some (Some Eq) else Some (Some Lt)
      else if exhausted_fixed r i then
        if exhausted_dyn l i then Some (Some Eq) else Some (Some Gt)
      else if exhausted_dyn l i then Some (Some Lt)
      else if exhausted_dyn r i then Some (Some Gt)
      else match cmp (selem l i) (selem r i) with
           | Some Eq => fixed_lex k (S i) l r
           | c => Some c
           end
  end.

Definition at_end (s : side) (i : nat) : bool :=
  match skind s with KFixed n | KDyn n => (n =? i)%nat | KUnbounded => false end.

(** functions/lexicographical_compare_three_way.hpp 99-109; positions [i] of
    [f1] and [f2] advance together, starting from 0. *)
Fixpoint loop_lex (fuel i : nat) (l r : side) : option (option comparison) :=
  match fuel with
  | O => None
  | S k =>
      let exhaust1 := at_end l i in
      let exhaust2 := at_end r i in
      if negb exhaust1 && negb exhaust2 then
        match cmp (selem l i) (selem r i) with
        | Some Eq => loop_lex k (S i) l r
        | c => Some c
        end
      else Some (if negb exhaust1 then Some Gt else if negb exhaust2 then Some Lt else Some Eq)
  end.

(** The algorithm [std::lexicographical_compare_three_way] that line 91 calls
    (or the replacement in basics/compatibility). *)
Fixpoint std_lex (fuel i : nat) (l r : side) : option (option comparison) :=
  match fuel with
  | O => None
  | S k =>
      match at_end l i, at_end r i with
      | true, true => Some (Some Eq)
      | true, false => Some (Some Lt)
      | false, true => Some (Some Gt)
      | false, false =>
          match cmp (selem l i) (selem r i) with
          | Some Eq => std_lex k (S i) l r
          | c => Some c
          end
      end
  end.

Definition known_size (s : side) : nat :=
  match skind s with KFixed n | KDyn n => n | KUnbounded => 0 end.

(** lexicographical_compare_three_way, lines 84-110: a constant size on
    either side selects the recursive version; two common ranges the standard
    algorithm; otherwise the loop.  [common] says that both arguments are
    common ranges (an unbounded range never is). *)
Definition lex_compare (common : bool) (l r : side) : option (option comparison) :=
  let fuel := S (Nat.max (known_size l) (known_size r)) in
  match skind l, skind r with
  | KFixed _, _ | _, KFixed _ => fixed_lex fuel 0 l r
  | _, _ => if common then std_lex fuel 0 l r else loop_lex fuel 0 l r
  end.

(** ** compare_indices

    functions/compare_indices.hpp.  get_min_size 28-45: *)
Definition get_min_size (l r : side) : size_kind :=
  match skind l, skind r with
  | KFixed a, KFixed b => KFixed (Nat.min a b)
  | KFixed a, KDyn b | KDyn a, KFixed b | KDyn a, KDyn b => KDyn (Nat.min a b)
  | KUnbounded, k => k
  | k, KUnbounded => k
  end.

(** get_fixed_size 47-61; [None] is std::dynamic_extent. *)
Definition get_fixed_size (l r : side) : option nat :=
  match skind l, skind r with
  | KFixed a, KFixed b => Some (Nat.min a b)
  | KFixed a, _ => Some a
  | _, KFixed b => Some b
  | _, _ => None
  end.

Variable comp : option comparison -> bool.

(** compare_indices_fixed 75-96. *)
Fixpoint compare_indices_fixed (fuel fsz i : nat) (l r : side) (sz : size_kind) : option bool :=
  match fuel with
  | O => None
  | S k =>
      let here := comp (cmp (selem l i) (selem r i)) in
      match sz with
      | KFixed n =>
          if (i <? n)%nat
          then option_map (andb here) (compare_indices_fixed k fsz (S i) l r sz)
          else Some true
      | KDyn n =>
          if (fsz <=? i)%nat then Some true
          else if (i <? n)%nat
               then (if here then compare_indices_fixed k fsz (S i) l r sz else Some false)
               else Some true
      | KUnbounded => None
      end
  end.

(** The run-time loop, lines 125-130. *)
Fixpoint compare_indices_loop (n i : nat) (l r : side) : bool :=
  match n with
  | O => true
  | S k => if comp (cmp (selem l i) (selem r i)) then compare_indices_loop k (S i) l r else false
  end.

(** compare_indices 114-132. *)
Definition compare_indices (l r : side) : option bool :=
  let sz := get_min_size l r in
  match get_fixed_size l r with
  | Some fsz => compare_indices_fixed (S fsz) fsz 0 l r sz
  | None =>
      match sz with
      | KFixed n | KDyn n => Some (compare_indices_loop n 0 l r)
      | KUnbounded => None
      end
  end.

End Compare.
Arguments mk_side {A}. Arguments skind {A}. Arguments selem {A}.
Arguments lex_compare {A}. Arguments fixed_lex {A}. Arguments loop_lex {A}. Arguments std_lex {A}.
Arguments compare_indices {A}. Arguments compare_indices_fixed {A}. Arguments compare_indices_loop {A}.
Arguments exhausted_fixed {A}. Arguments exhausted_dyn {A}. Arguments at_end {A}. Arguments known_size {A}.
Arguments get_min_size {A}. Arguments get_fixed_size {A}.

(** What a view offers to a comparison: its elements by [get<i>] or, which is
    the same by the theorems, by iteration. *)
Definition side_of {A} (d : A) (v : view A) : side A :=
  mk_side (if vfixed v then KFixed (vsize v) else KDyn (vsize v))
    (fun i => match get_fixed v i with Some x => x | None => d end).
