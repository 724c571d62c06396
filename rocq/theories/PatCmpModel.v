(** * Comparison of patterns

    A model of OpenKalman/patterns/functions/compare_three_way.hpp,
    compare.hpp, compare_pattern_collections.hpp and of the hash codes of the
    descriptors.  All line numbers refer to /repo/OpenKalman.

    The program decides many of its branches when it is compiled, from the
    types of the patterns.  What those branches look at is kept as data: whether
    a descriptor is held in an [Any] (its kind is then not known to the
    compiler), whether its dimension and hash code are compile-time constants,
    and whether the size of a collection is one. *)
From Coq Require Import List ZArith Bool Lia.
From Coq Require Import Floats.SpecFloat.
Import ListNotations.
Local Open Scope Z_scope.

(** ** Hash codes

    std::size_t has 64 bits; float is binary32. *)
Definition two64 : Z := 2 ^ 64.
Definition f32 (z : Z) : spec_float := binary_normalize 24 128 z 0 false.
Definition fmul32 := SFmul 24 128.
Definition fadd32 := SFadd 24 128.
Definition fsub32 := SFsub 24 128.
Definition fdiv32 := SFdiv 24 128.

(** [static_cast<std::size_t>(f)] for a finite [f] that is not negative. *)
Definition to_size (f : spec_float) : Z :=
  match f with
  | S754_finite false m e => if e <? 0 then Z.pos m / 2 ^ (- e) else Z.pos m * 2 ^ e
  | _ => 0
  end.

(** Angle<min, max> with integral limits: patterns/descriptors/Angle.hpp
    150-162, the 64-bit case. *)
Definition angle_hash (mn mx : Z) : Z :=
  let a := fdiv32 (fadd32 (fadd32 (fmul32 (f32 mx) (f32 3)) (fmul32 (f32 mn) (f32 2))) (f32 1))
                  (fadd32 (fsub32 (f32 mx) (f32 mn)) (f32 1)) in
  (0x62BB0D37A58D6F96 + to_size (fmul32 (fmul32 a a) (f32 256))) mod two64.

(** Inclination<down>: patterns/descriptors/Inclination.hpp 126-136. *)
Definition inclination_hash (down : Z) : Z :=
  let a := f32 down in
  (0x8CE6267E341642F7 + to_size (fmul32 (fmul32 a a) (f32 256))) mod two64.

(** Distance: patterns/descriptors/Distance.hpp 64-73. *)
Definition distance_hash : Z := 0xBD0A668977D34578.

(** Polar<...>: patterns/descriptors/Polar.hpp 83-93; [d_i] is the place of the
    distance. *)
Definition polar_hash (mn mx d_i : Z) : Z :=
  (angle_hash mn mx - 0x97C195FEC488C0BC + d_i * 0x1000000000000000) mod two64.

(** Spherical<...>: patterns/descriptors/Spherical.hpp 102-114; [a_i] and
    [i_i] are the places of the angle and of the inclination. *)
Definition spherical_hash (mn mx down a_i i_i : Z) : Z :=
  ((angle_hash mn mx - 0x83B023AB3EEFB99A) + (inclination_hash down - 0x83B023AB3EEFB99A)
   + (a_i * 2 + i_i * 3 - 2) * 0x1000000000000000) mod two64.

(** ** Descriptors

    [Dim n]: Dimensions<n>, Dimensions with [n] given at run time, or an index.
    The others are the coordinates above, with their places. *)
Inductive desc :=
| Dim (n : nat)
| Angle (mn mx : Z)
| Inclination (down : Z)
| Distance
| Polar (mn mx d_i : Z)
| Spherical (mn mx down a_i i_i : Z).

(** Dimensions.hpp 211-217; get_descriptor_hash_code.hpp 36-52. *)
Definition hash (d : desc) : Z :=
  match d with
  | Dim n => Z.of_nat n
  | Angle mn mx => angle_hash mn mx
  | Inclination down => inclination_hash down
  | Distance => distance_hash
  | Polar mn mx d_i => polar_hash mn mx d_i
  | Spherical mn mx down a_i i_i => spherical_hash mn mx down a_i i_i
  end.

Definition is_euclidean (d : desc) : bool := match d with Dim _ => true | _ => false end.

(** get_descriptor_dimension of each descriptor's traits. *)
Definition dimension (d : desc) : nat :=
  match d with
  | Dim n => n
  | Angle _ _ | Inclination _ | Distance => 1
  | Polar _ _ _ => 2
  | Spherical _ _ _ _ _ => 3
  end.

(** A descriptor as the compiler sees it: in an [Any] or not; and with a
    constant dimension and hash code or not ([Dimensions<dynamic>] is not in an
    [Any], but its dimension and hash code are run-time values). *)
Record held := mk_held { in_any : bool; constant : bool; the_desc : desc }.

(** [euclidean_pattern<T>]: concepts/euclidean_pattern.hpp 45-47.  [Any]
    answers at run time only. *)
Definition static_euclidean (x : held) : bool := negb (in_any x) && is_euclidean (the_desc x).
Definition euclidean (x : held) : bool := is_euclidean (the_desc x).
Definition dim (x : held) : nat := dimension (the_desc x).
Definition code (x : held) : Z := hash (the_desc x).

(** A pattern: a descriptor, a collection whose size is a constant (tuple,
    array), a collection whose size is known at run time ([elt_euclidean]: the
    element type is statically Euclidean), or an unbounded collection that
    repeats one descriptor (std::ranges::repeat_view). *)
Inductive pattern :=
| PDesc (x : held)
| PFix (l : list held)
| PDyn (elt_euclidean : bool) (l : list held)
| PInf (x : held).

(** What the type of the elements implies about the elements. *)
Definition well_typed (p : pattern) : Prop :=
  match p with
  | PDyn true l => Forall (fun x => static_euclidean x = true) l
  | PDyn false l => Forall (fun x => static_euclidean x = false) l
  | _ => True
  end.

Definition items (p : pattern) : list held :=
  match p with PDesc x => [x] | PFix l | PDyn _ l => l | PInf _ => [] end.

Definition total_dim (l : list held) : nat := fold_right (fun x n => (dim x + n)%nat) 0%nat l.

(** [euclidean_pattern] of a descriptor or a sized collection:
    functions/get_is_euclidean.hpp 62-96. *)
Definition static_euclidean_pattern (p : pattern) : bool :=
  match p with
  | PDesc x => static_euclidean x
  | PFix l => forallb static_euclidean l
  | PDyn b _ => b
  | PInf x => static_euclidean x
  end.

(** std::partial_ordering: [None] is unordered. *)
Definition ordering := option comparison.

(** The default [Comparison], std::compare_three_way, on sizes. *)
Definition nat_order (a b : nat) : ordering := Some (Nat.compare a b).

(** compare_three_way_fixed, compare_three_way.hpp 31-75.  The recursion is over
    template instances; [fuel] bounds it. *)
Fixpoint compare_fixed (fuel : nat) (a b : list held) (abank bbank : nat) : ordering :=
  match fuel with
  | O => None
  | S k =>
      match a, b with
      | ai :: a', bi :: b' =>
          match static_euclidean ai, static_euclidean bi with
          | true, true => compare_fixed k a' b' (abank + dim ai) (bbank + dim bi)
          | true, false => compare_fixed k a' b (abank + dim ai) bbank
          | false, true => compare_fixed k a b' abank (bbank + dim bi)
          | false, false =>
              if (abank =? bbank)%nat && (code ai =? code bi)
              then compare_fixed k a' b' 0 0
              else None
          end
      | ai :: a', [] =>
          if static_euclidean ai then compare_fixed k a' b (abank + dim ai) bbank
          else if (bbank <=? abank)%nat then Some Gt else None
      | [], bi :: b' =>
          if static_euclidean bi then compare_fixed k a b' abank (bbank + dim bi)
          else if (abank <=? bbank)%nat then Some Lt else None
      | [], [] => nat_order abank bbank
      end
  end.

(** compare_three_way_impl, compare_three_way.hpp 78-122. *)
Fixpoint compare_impl (fuel : nat) (a b : list held) (abank bbank : nat) : ordering :=
  match fuel with
  | O => None
  | S k =>
      match a, b with
      | ai :: a', bi :: b' =>
          let ae := euclidean ai in
          let be := euclidean bi in
          if ae || be then
            compare_impl k (if ae then a' else a) (if be then b' else b)
              (if ae then abank + dim ai else abank)%nat
              (if be then bbank + dim bi else bbank)%nat
          else if (code ai =? code bi) && (abank =? bbank)%nat
               then compare_impl k a' b' 0 0
               else None
      | ai :: a', [] =>
          if euclidean ai then compare_impl k a' b (abank + dim ai) bbank
          else if (bbank <=? abank)%nat then Some Gt else None
      | [], bi :: b' =>
          if euclidean bi then compare_impl k a b' abank (bbank + dim bi)
          else if (abank <=? bbank)%nat then Some Lt else None
      | [], [] => nat_order abank bbank
      end
  end.

Definition enough (a b : list held) : nat := S (length a + length b).

(** Two sized collections: compare_three_way.hpp 144-148 and 224-261. *)
Definition compare_sized (a b : pattern) : ordering :=
  let la := items a in
  let lb := items b in
  if static_euclidean_pattern a && static_euclidean_pattern b
  then nat_order (total_dim la) (total_dim lb)
  else
    match a, b with
    | PFix _, PFix _ =>
        if (length la =? 0)%nat || (length lb =? 0)%nat
        then nat_order (length la) (length lb)
        else compare_fixed (enough la lb) la lb 0 0
    | PFix _, _ =>
        if (length la =? 0)%nat then (if (length lb =? 0)%nat then Some Eq else Some Lt)
        else if (length lb =? 0)%nat then Some Gt
        else compare_impl (enough la lb) la lb 0 0
    | _, PFix _ =>
        if (length lb =? 0)%nat then (if (length la =? 0)%nat then Some Eq else Some Gt)
        else if (length la =? 0)%nat then Some Lt
        else compare_impl (enough la lb) la lb 0 0
    | _, _ =>
        if (length la =? 0)%nat then (if (length lb =? 0)%nat then Some Eq else Some Lt)
        else if (length lb =? 0)%nat then Some Gt
        else compare_impl (enough la lb) la lb 0 0
    end.

(** Two descriptors: 144-148 and 150-158. *)
Definition compare_desc (x y : held) : ordering :=
  if euclidean x && euclidean y then nat_order (dim x) (dim y)
  else if code x =? code y then Some Eq
  else None.

(** [values::fixed_value_compares_with<dimension_of<R>, 0>] *)
Definition constant_zero (x : held) : bool := negb (in_any x) && constant x && (dim x =? 0)%nat.

(** [views::slice(a, 0, get_size(b) + 1)] of an unbounded collection, 204-206
    and 218-220: its size is a constant when the size of [b] is. *)
Definition cut (x : held) (b : pattern) : pattern :=
  let l := repeat x (S (length (items b))) in
  match b with
  | PFix _ | PDesc _ => PFix l
  | _ => PDyn (static_euclidean x) l
  end.

(** Two unbounded collections, 168-194. *)
Definition compare_unbounded (x y : held) : ordering :=
  if constant_zero x then
    (if constant_zero y then Some Eq else compare_sized (PFix []) (cut y (PFix [])))
  else if constant_zero y then compare_sized (cut x (PFix [])) (PFix [])
  else if negb (in_any x) && constant x && (negb (in_any y) && constant y) then
    (if code x =? code y then Some Eq else None)
  else None.

(** A descriptor next to a collection is treated as a collection of one:
    159-166. *)
Definition as_collection (p : pattern) : pattern :=
  match p with PDesc x => PFix [x] | _ => p end.

(** compare_three_way, 142-262. *)
Definition compare_three_way (a b : pattern) : ordering :=
  match a, b with
  | PDesc x, PDesc y => compare_desc x y
  | PInf x, PInf y => compare_unbounded x y
  | PInf x, _ =>
      if constant_zero x then compare_sized (PFix [mk_held false true (Dim 0)]) (as_collection b)
      else compare_sized (cut x b) (as_collection b)
  | _, PInf y =>
      if constant_zero y then compare_sized (as_collection a) (PFix [mk_held false true (Dim 0)])
      else compare_sized (as_collection a) (cut y a)
  | _, _ => compare_sized (as_collection a) (as_collection b)
  end.

(** compare<comp>, compare.hpp 41-44. *)
Definition compare (comp : ordering -> bool) (a b : pattern) : bool := comp (compare_three_way a b).

(** ** compare_pattern_collections, compare_pattern_collections.hpp

    The elements of the two collections are patterns.  The compile-time
    shortcuts of lines 139-147 (collection_compares_with) are assumed to agree
    with the loops and left out; the argument sizes select between four
    versions. *)
Definition one_dim : pattern := PDesc (mk_held false true (Dim 1)).

(** compare_pattern_collections_a_tail 29-39, and the loop of 92-94. *)
Fixpoint a_tail (comp : ordering -> bool) (a : list pattern) : bool :=
  match a with
  | [] => true
  | x :: r => compare comp x one_dim && a_tail comp r
  end.

(** compare_pattern_collections_b_tail 42-51, and the loop of 69-71. *)
Fixpoint b_tail (comp : ordering -> bool) (b : list pattern) : bool :=
  match b with
  | [] => true
  | y :: r => compare comp one_dim y && b_tail comp r
  end.

(** compare_pattern_collections_iter_a 54-73, iter_b 76-96 and iter 99-116:
    they differ only in which bounds are compile-time constants. *)
Fixpoint collections_iter (comp : ordering -> bool) (a b : list pattern) : bool :=
  match a, b with
  | x :: a', y :: b' => compare comp x y && collections_iter comp a' b'
  | _ :: _, [] => a_tail comp a
  | [], _ => b_tail comp b
  end.

(** The run-time version, 148-160: three loops sharing the counter [i]. *)
Fixpoint common_loop (comp : ordering -> bool) (a b : list pattern) : bool * (list pattern * list pattern) :=
  match a, b with
  | x :: a', y :: b' => if compare comp x y then common_loop comp a' b' else (false, (a, b))
  | _, _ => (true, (a, b))
  end.

Definition collections_loop (comp : ordering -> bool) (a b : list pattern) : bool :=
  let '(ok, (ra, rb)) := common_loop comp a b in
  if ok then
    if forallb (fun x => compare comp x one_dim) ra
    then forallb (fun y => compare comp one_dim y) rb
    else false
  else false.

(** [dynamic]: both sizes are known at run time only. *)
Definition compare_pattern_collections (comp : ordering -> bool) (dynamic : bool) (a b : list pattern) : bool :=
  if dynamic then collections_loop comp a b else collections_iter comp a b.
