(** * Comparison of patterns by the compiler

    A model of OpenKalman/patterns/concepts/compares_with.hpp and
    collection_compares_with.hpp, of values/concepts/size_compares_with.hpp, and
    of the whole of patterns/functions/compare_pattern_collections.hpp with its
    compile-time shortcuts.  All line numbers refer to /repo/OpenKalman.

    These concepts see only the types of the patterns.  Not modelled: unbounded
    collections (compares_with.hpp 246-330). *)
From Coq Require Import List ZArith Bool.
From Verif Require Import PatCmpModel.
Import ListNotations.
Local Open Scope Z_scope.

(** stdex::dynamic_extent, the largest std::size_t. *)
Definition dyn : Z := two64 - 1.

(** The type of a descriptor: one whose dimension and hash code are constants;
    [Dimensions<dynamic_extent>] or an index known at run time; or an [Any]. *)
Inductive elt :=
| Known (d : desc)
| DynDim
| AnyDesc.

(** [euclidean_pattern<T>], concepts/euclidean_pattern.hpp 45-47, and
    [dimension_of_v<T>], traits/dimension_of.hpp 36-60, of a descriptor. *)
Definition elt_euclidean (e : elt) : bool :=
  match e with Known d => is_euclidean d | DynDim => true | AnyDesc => false end.
Definition elt_dim (e : elt) : Z :=
  match e with Known d => Z.of_nat (dimension d) | _ => dyn end.

(** The type of a pattern: a descriptor; a tuple or array; a collection whose
    size is known at run time, with the type of its elements. *)
Inductive spat :=
| SDesc (e : elt)
| STup (l : list elt)
| SVec (e : elt).

Definition known (e : elt) : bool := match e with Known _ => true | _ => false end.

(** [dimension_of_v] of a tuple (functions/get_dimension.hpp 27-39) and of a
    collection of run-time size (65-72). *)
Definition tup_dim (l : list elt) : Z :=
  if forallb known l then fold_right (fun e s => (elt_dim e + s) mod two64) 0 l else dyn.
Definition vec_dim (e : elt) : Z := if elt_dim e =? 0 then 0 else dyn.

(** [do_comps], 26-32. *)
Definition do_comps (comp : ordering -> bool) (op_is_and : bool) (l : list ordering) : bool :=
  if op_is_and then forallb comp l else existsb comp l.

(** [inc_bank], 35-39. *)
Definition inc_bank (bank inc : Z) : Z :=
  if (bank =? dyn) || (inc =? dyn) then dyn else (bank + inc) mod two64.

(** [same_descriptors] and [different_descriptors], 42-77: the hash codes must
    be constants. *)
Definition same_descriptors (a b : elt) : bool :=
  match a, b with Known x, Known y => hash x =? hash y | _, _ => false end.
Definition different_descriptors (a b : elt) : bool :=
  match a, b with Known x, Known y => negb (hash x =? hash y) | _, _ => false end.

(** std::compare_three_way of two sizes. *)
Definition size_order (a b : Z) : ordering := Some (Z.compare a b).

(** [compares_with_iter], 80-222.  [perm] is [app == applicability::permitted];
    the recursion is over template instances, and [fuel] bounds it.  The
    addition in line 100 is not [inc_bank]. *)
Fixpoint cw_iter (fuel : nat) (comp : ordering -> bool) (perm : bool)
  (a b : list elt) (abank bbank : Z) : bool :=
  match fuel with
  | O => false
  | S k =>
      match a, b with
      | ai :: a', bi :: b' =>
          let ae := elt_euclidean ai in
          let be := elt_euclidean bi in
          if ae && be then
            cw_iter k comp perm a' b' (inc_bank abank (elt_dim ai)) ((bbank + elt_dim bi) mod two64)
          else if ae then cw_iter k comp perm a' b (inc_bank abank (elt_dim ai)) bbank
          else if be then cw_iter k comp perm a b' abank (inc_bank bbank (elt_dim bi))
          else if (abank =? dyn) || (bbank =? dyn) then
            perm && do_comps comp false [Some Eq; None]
          else if negb (abank =? bbank) then comp None
          else if same_descriptors ai bi then cw_iter k comp perm a' b' 0 0
          else if different_descriptors ai bi then comp None
          else if comp (Some Eq) then perm && cw_iter k comp perm a' b' 0 0
          else if comp None then perm || cw_iter k comp perm a' b' 0 0
          else if comp (Some Lt) then
            perm && ((elt_dim ai =? dyn) || (elt_dim ai =? 0)) &&
            cw_iter k comp perm a' b' (elt_dim ai) (elt_dim bi)
          else
            perm && ((elt_dim bi =? dyn) || (elt_dim bi =? 0)) &&
            cw_iter k comp perm a' b' (elt_dim ai) (elt_dim bi)
      | ai :: a', [] =>
          if elt_euclidean ai then cw_iter k comp perm a' b (inc_bank abank (elt_dim ai)) bbank
          else if (abank =? dyn) || (bbank =? dyn) then
            (negb (elt_dim ai =? dyn) && comp None) ||
            (perm && ((elt_dim ai =? dyn) || comp (Some Gt)))
          else if bbank <=? abank then comp (Some Gt)
          else if elt_dim ai =? dyn then
            perm && (do_comps comp false [None; Some Gt; Some Eq] || (comp (Some Lt) && (0 <? bbank)))
          else comp None
      | [], bi :: b' =>
          if elt_euclidean bi then cw_iter k comp perm a b' abank (inc_bank bbank (elt_dim bi))
          else if (abank =? dyn) || (bbank =? dyn) then
            (negb (elt_dim bi =? dyn) && comp None) ||
            (perm && ((elt_dim bi =? dyn) || comp (Some Lt)))
          else if abank <=? bbank then comp (Some Lt)
          else if elt_dim bi =? dyn then
            perm && (do_comps comp false [None; Some Lt; Some Eq] || (comp (Some Gt) && (0 <? abank)))
          else comp None
      | [], [] =>
          if negb (abank =? dyn) && negb (bbank =? dyn) then comp (size_order abank bbank)
          else if abank =? 0 then do_comps comp (negb perm) [Some Lt; Some Eq]
          else if bbank =? 0 then do_comps comp (negb perm) [Some Gt; Some Eq]
          else if negb (abank =? dyn) || negb (bbank =? dyn) then
            perm && do_comps comp false [Some Lt; Some Gt; Some Eq]
          else perm
      end
  end.

Definition std_is_eq (o : ordering) : bool := match o with Some Eq => true | _ => false end.

(** [compares_with_impl] of two tuples: 336-339 and 348-354. *)
Definition cw_tup (comp : ordering -> bool) (perm : bool) (t u : list elt) : bool :=
  if (tup_dim t =? 0) && (tup_dim u =? 0) then comp (Some Eq)
  else if (length t =? 0)%nat && (length u =? 0)%nat then comp (Some Eq)
  else cw_iter (S (length t + length u)) comp perm t u 0 0.

(** Of a tuple and a collection of run-time size: 336-343 and 355-399. *)
Definition cw_tup_vec (comp : ordering -> bool) (perm : bool) (t : list elt) (du : elt) : bool :=
  let rep := repeat du (length t) in
  if (tup_dim t =? 0) && (vec_dim du =? 0) then comp (Some Eq)
  else if tup_dim t =? 0 then do_comps comp (negb perm) [Some Lt; Some Eq]
  else if elt_dim du =? 0 then comp (Some Gt)
  else if negb (tup_dim t =? dyn) && negb (elt_dim du =? dyn) then
    if forallb elt_euclidean t && elt_euclidean du then
      if comp None then perm || negb (tup_dim t mod elt_dim du =? 0)
      else if do_comps comp false [Some Lt; Some Gt] then perm
      else if comp (Some Eq) then perm && (tup_dim t mod elt_dim du =? 0)
      else perm
    else if comp None then perm || cw_tup comp perm t rep
    else if comp (Some Gt) then perm
    else if comp (Some Lt) then perm && cw_tup std_is_eq perm t rep
    else perm && cw_tup comp perm t rep
  else perm.

(** Of a collection of run-time size and a tuple: 336-339, 344-347 and 400-444. *)
Definition cw_vec_tup (comp : ordering -> bool) (perm : bool) (dt : elt) (u : list elt) : bool :=
  let rep := repeat dt (length u) in
  if (vec_dim dt =? 0) && (tup_dim u =? 0) then comp (Some Eq)
  else if tup_dim u =? 0 then do_comps comp (negb perm) [Some Gt; Some Eq]
  else if elt_dim dt =? 0 then comp (Some Lt)
  else if negb (elt_dim dt =? dyn) && negb (tup_dim u =? dyn) then
    if elt_euclidean dt && forallb elt_euclidean u then
      if comp None then perm || negb (tup_dim u mod elt_dim dt =? 0)
      else if do_comps comp false [Some Lt; Some Gt] then perm
      else if comp (Some Eq) then perm && (tup_dim u mod elt_dim dt =? 0)
      else perm
    else if comp None then perm || cw_tup comp perm rep u
    else if comp (Some Lt) then perm
    else if comp (Some Gt) then perm && cw_tup std_is_eq perm rep u
    else perm && cw_tup comp perm rep u
  else perm.

(** Of two collections of run-time size: 336-347 and 445-448. *)
Definition cw_vec (comp : ordering -> bool) (perm : bool) (dt du : elt) : bool :=
  if (vec_dim dt =? 0) && (vec_dim du =? 0) then comp (Some Eq)
  else if vec_dim dt =? 0 then do_comps comp (negb perm) [Some Lt; Some Eq]
  else if vec_dim du =? 0 then do_comps comp (negb perm) [Some Gt; Some Eq]
  else perm.

(** [compares_with_impl], 225-449; a descriptor is a tuple of one, 233-240. *)
Definition compares_with (comp : ordering -> bool) (perm : bool) (t u : spat) : bool :=
  match t, u with
  | SDesc x, SDesc y => cw_tup comp perm [x] [y]
  | SDesc x, STup m => cw_tup comp perm [x] m
  | SDesc x, SVec y => cw_tup_vec comp perm [x] y
  | STup l, SDesc y => cw_tup comp perm l [y]
  | SVec x, SDesc y => cw_vec_tup comp perm x [y]
  | STup l, STup m => cw_tup comp perm l m
  | STup l, SVec y => cw_tup_vec comp perm l y
  | SVec x, STup m => cw_vec_tup comp perm x m
  | SVec x, SVec y => cw_vec comp perm x y
  end.

(** ** Collections of patterns

    The type of a collection of patterns: a tuple, or a collection of run-time
    size with the type of its elements. *)
Inductive scol :=
| CTup (l : list spat)
| CVec (p : spat).

Definition sone : spat := SDesc (Known (Dim 1)).

(** [collection_compares_with_iter_T], 28-43, and [..._iter_U], 46-62. *)
Definition ccw_iter_T comp perm (t : list spat) (pu : spat) : bool :=
  forallb (fun x => compares_with comp perm x pu) t.
Definition ccw_iter_U comp perm (pt : spat) (u : list spat) : bool :=
  forallb (fun y => compares_with comp perm pt y) u.

(** [collection_compares_with_iter], 65-94. *)
Fixpoint ccw_iter comp perm (t u : list spat) : bool :=
  match t, u with
  | x :: t', y :: u' => compares_with comp perm x y && ccw_iter comp perm t' u'
  | _ :: _, [] => ccw_iter_T comp perm t sone
  | [], _ :: _ => ccw_iter_U comp perm sone u
  | [], [] => true
  end.

(** [collection_compares_with_impl], 97-118. *)
Definition collection_compares_with comp perm (t u : scol) : bool :=
  match t, u with
  | CTup l, CTup m => ccw_iter comp perm l m
  | CTup l, CVec y => ccw_iter_T comp perm l y
  | CVec x, CTup m => ccw_iter_U comp perm x m
  | CVec x, CVec y => compares_with comp perm x y
  end.

(** compare_pattern_collections, compare_pattern_collections.hpp 137-172, of
    arguments [a] and [b] whose types are [ta] and [tb]. *)
Definition run_time_size (t : scol) : bool := match t with CVec _ => true | CTup _ => false end.
Definition compare_collections comp (ta tb : scol) (a b : list pattern) : bool :=
  if collection_compares_with comp false ta tb then true
  else if negb (collection_compares_with comp true ta tb) then false
  else compare_pattern_collections comp (run_time_size ta && run_time_size tb) a b.

(** ** Sizes

    [size_compares_with_impl], values/concepts/size_compares_with.hpp 39-85.  A
    size is a constant, a value known at run time, or unbounded. *)
Inductive ssize := Fixed (n : nat) | Dynamic | Unbounded.

Definition size_compares_with (comp : ordering -> bool) (perm : bool) (t u : ssize) : bool :=
  match t, u with
  | Unbounded, Unbounded => comp (Some Eq)
  | _, Unbounded => comp (Some Lt)
  | Unbounded, _ => comp (Some Gt)
  | Fixed m, Fixed n => comp (Some (Nat.compare m n))
  | Fixed m, Dynamic => if (m =? 0)%nat then do_comps comp (negb perm) [Some Lt; Some Eq] else perm
  | Dynamic, Fixed n => if (n =? 0)%nat then do_comps comp (negb perm) [Some Gt; Some Eq] else perm
  | Dynamic, Dynamic => perm
  end.
