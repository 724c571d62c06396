(** Model of the statistical-space adapters of matrices and tensors: linear-algebra/adapters/to_stat_space_adapter.hpp and
    from_stat_space_adapter.hpp with linear-algebra/functions/{to,from}_stat_space.hpp, the functions they use, and the
    compiler-generated copying, moving and assignment of these objects.

    Scalars, descriptors and patterns are those of PatModel.v; std::size_t is unbounded. *)
From Coq Require Import Reals List Arith Bool Lia.
From Verif Require Import PatModel.
Import ListNotations.

(** An extent of an mdspan, and whether it is known at compile time. *)
Record extent : Type := Extent { len : nat; known : bool }.

(** A pattern of an index: its descriptors, and whether its dimensions are known at compile time. *)
Record pattern : Type := Pattern { descs : list desc; fixedp : bool }.

(** An indexible object: the extents of its mdspan, its pattern collection and its components.  pattern_adapter.hpp l.118-140
    (an array with attached patterns), array-object.hpp l.50-56 and mdspan-object.hpp l.31-40 (without). *)
Record object : Type := Object { o_ext : list extent; o_pat : list pattern; o_get : list nat -> sr }.

Definition rank (o : object) : nat := length (o_ext o).

(** count_indices.hpp l.27-36: trailing extents fixed at 1 are removed.  patterns/functions/to_extents.hpp l.28-38, 125-131
    removes them too. *)
Fixpoint trim (e : list extent) : list extent :=
  match e with
  | [] => []
  | x :: e' => match trim e' with [] => if known x && (len x =? 1) then [] else [x] | t => x :: t end
  end.
Definition index_count (o : object) : nat := length (trim (o_ext o)).

(** get_index_extent.hpp l.34-55 and get_index_pattern.hpp l.38-66 with patterns/functions/get_pattern.hpp: one beyond the last. *)
Definition get_extent (e : list extent) (i : nat) : nat := len (nth i e (Extent 1 true)).
Definition get_index_extent (o : object) (i : nat) : nat := if i <? index_count o then get_extent (o_ext o) i else 1.
Definition one_pattern : pattern := Pattern [Dim 1] true.
Definition get_pattern (p : list pattern) (i : nat) : pattern := nth i p one_pattern.

(** access.hpp l.62-75: the first [rank] indices are used; fewer do not compile (collections::get out of range).
    range_of.hpp l.36-62: all components of index 0. *)
Definition access (o : object) (i : list nat) : sr := o_get o (firstn (rank o) i).
Definition range_of (o : object) (j : list nat) : list sr := map (fun i => access o (i :: j)) (seq 0 (get_index_extent o 0)).

(** Whether range_of accepts index_count + 1 indices, range_of.hpp l.47-50, access.hpp l.53-55: no extent is fixed at zero and
    the indices are as many as the rank. *)
Definition accepted (o : object) : bool :=
  forallb (fun e => negb (known e && (len e =? 0))) (firstn (index_count o) (o_ext o)) && (rank o <=? S (index_count o)).

(** ** Filling the store *)

(** A store with an iterator into it; [None] is a component not written.  stdex::ranges::copy through the iterator; writing at
    or beyond the end is undefined. *)
Record writer : Type := Writer { w_store : list (option R); w_pos : nat }.
Fixpoint set_nth {A} (l : list A) (n : nat) (x : A) : list A :=
  match l, n with [], _ => [] | _ :: l', O => x :: l' | y :: l', S n' => y :: set_nth l' n' x end.
Fixpoint copy (l : list R) (w : writer) : res writer :=
  match l with
  | [] => Ret w
  | x :: l' =>
      if w_pos w <? length (w_store w) then copy l' (Writer (set_nth (w_store w) (w_pos w) (Some x)) (S (w_pos w))) else Undef
  end.

Fixpoint for_each {S} (n : nat) (f : nat -> S -> res S) (s : S) : res S :=
  match n with O => Ret s | Datatypes.S n' => bind (for_each n' f s) (f n') end.

(** to_stat_space_adapter.hpp l.77-86 and from_stat_space_adapter.hpp l.85-94: index [i] is looped over outside the indices
    below it; the new index is put in front of the others. *)
Fixpoint fill_store (convert : list sr -> res (list R)) (o : object) (i : nat) (j : list nat) (w : writer) : res writer :=
  match i with
  | O => bind (convert (range_of o j)) (fun c => copy c w)
  | S i' => for_each (get_index_extent o i) (fun k => fill_store convert o i' (k :: j)) w
  end.

(** to_stat_space_adapter.hpp l.54-66 and from_stat_space_adapter.hpp l.62-74: the product over the indices of the object. *)
Definition store_size (dimension : list desc -> nat) (o : object) : nat :=
  fold_left (fun s i => s * dimension (descs (get_pattern (o_pat o) i))) (seq 0 (index_count o)) 1.
Definition store_fixed (o : object) : bool := forallb (fun i => fixedp (get_pattern (o_pat o) i)) (seq 0 (index_count o)).

(** store_type, l.69-75 and 77-82, and store_init, l.89-97 and 97-104: an array with components not initialized when the size
    is known, otherwise a vector in which space is reserved: its size is zero. *)
Definition new_store (dimension : list desc -> nat) (o : object) : list (option R) :=
  repeat None (if store_fixed o then store_size dimension o else 0).
Definition store_init (dimension : list desc -> nat) (convert : list sr -> res (list R)) (o : object) : res (list (option R)) :=
  bind (fill_store convert o (index_count o) [] (Writer (new_store dimension o) 0)) (fun w => Ret (w_store w)).

(** ** The adapters: extents of the mdspan, patterns and store *)
Record adapter : Type := Adapter { a_ext : list extent; a_pat : list pattern; a_store : list (option R) }.

Definition dims (p : list pattern) : list extent := trim (map (fun q => Extent (get_dimension (descs q)) (fixedp q)) p).

(** patterns/functions/to_stat_space_pattern_collection.hpp l.32-43. *)
Definition to_stat_patterns (p : list pattern) : list extent :=
  if forallb (fun q => get_is_euclidean (descs q)) p then dims p
  else trim (Extent (get_stat_dimension (descs (get_pattern p 0))) (fixedp (get_pattern p 0))
             :: map (fun q => Extent (get_dimension (descs q)) (fixedp q)) (tl p)).
Definition plain (e : extent) : pattern := Pattern [Dim (len e)] (known e).

(** to_stat_space_adapter.hpp l.104-109 (constructor), 137-153 (mdspan and patterns).  [None]: does not compile. *)
Definition to_stat_adapter (o : object) : option (res adapter) :=
  if accepted o then
    Some (bind (store_init get_stat_dimension (to_stat (descs (get_pattern (o_pat o) 0))) o)
           (fun s => let e := to_stat_patterns (o_pat o) in Ret (Adapter e (map plain e) s)))
  else None.

(** from_stat_space_adapter.hpp l.112-123 (constructor), 176-190.  [fast] is that of PatModel.from_stat. *)
Definition from_stat_adapter (fast : bool) (o : object) (p : list pattern) : option (res adapter) :=
  if accepted o then
    Some (bind (store_init get_dimension (from_stat fast (descs (get_pattern p 0))) o) (fun s => Ret (Adapter (dims p) p s)))
  else None.

(** mdspan with layout_left (l.50 and 58): the first index runs fastest. *)
Fixpoint layout_left (e : list extent) (i : list nat) : nat :=
  match e, i with x :: e', k :: i' => k + len x * layout_left e' i' | _, _ => 0 end.

(** access.hpp l.62-75 on an adapter.  A component that was not written, or is beyond the store, is undefined. *)
Definition read_store (s : list (option R)) (n : nat) : res R :=
  match nth_error s n with Some (Some x) => Ret x | _ => Undef end.
Definition read (a : adapter) (i : list nat) : res R := read_store (a_store a) (layout_left (a_ext a) (firstn (length (a_ext a)) i)).

(** An adapter as an object; [z] gives the signs of its zeros. *)
Definition view (z : list nat -> bool) (a : adapter) : object :=
  Object (a_ext a) (a_pat a) (fun i => SR (match read a i with Ret x => x | _ => 0%R end) (z i)).

(** ** The functions *)

(** A component of an object or of an adapter; functions/to_stat_space.hpp l.38-50, from_stat_space.hpp l.44-56: without a
    coordinate to change, the argument is returned. *)
Inductive result : Type := Same (o : object) | View (a : adapter).
Definition to_stat_space (o : object) : option (res result) :=
  if get_is_euclidean (descs (get_pattern (o_pat o) 0)) then Some (Ret (Same o))
  else option_map (fun r => bind r (fun a => Ret (View a))) (to_stat_adapter o).

(** patterns::euclidean_pattern<P> at l.46 is asked of the collection (a collection of collections of dimensions goes on to the
    adapter, which has the same components). *)
Definition from_stat_space (fast : bool) (o : object) (p : list pattern) : option (res result) :=
  if forallb (fun q => get_is_euclidean (descs q)) p then Some (Ret (Same o))
  else option_map (fun r => bind r (fun a => Ret (View a))) (from_stat_adapter fast o p).
Definition component (r : result) (i : list nat) : res R :=
  match r with Same o => Ret (sv (access o i)) | View a => read a i end.

(** functions/wrap_angles.hpp l.28-44, default branch.  Arguments of zeros or identities, returned unchanged, are left out. *)
Definition wrap_angles (fast : bool) (z : list nat -> bool) (o : object) : option (res result) :=
  if get_is_euclidean (descs (get_pattern (o_pat o) 0)) then Some (Ret (Same o))
  else match to_stat_space o with
       | Some (Ret (View a)) => from_stat_space fast (view z a) (o_pat o)
       | Some (Ret (Same o')) => from_stat_space fast o' (o_pat o)
       | Some Undef => Some Undef
       | Some Throws => Some Throws
       | Some Nan => Some Nan
       | None => None
       end.

(** ** Copies of an adapter

    An adapter has a store (an array within the object; a vector that is not empty cannot be constructed, see above) and
    an mdspan with a pointer to its components (to_stat_space_adapter.hpp l.113-114, from_stat_space_adapter.hpp l.158-160).  No copy or move operation
    is declared, so the compiler's copy and move them member by member: the pointer stays the same.  The memory is a list of
    buffers, [None] when released; buffers are not reused.  A variable is [None] before construction and after destruction. *)
Record instance : Type := Instance { i_buffer : nat; i_pointer : nat; i_ext : list extent }.
Record world : Type := World { buffers : list (option (list (option R))); variables : list (option instance) }.

Definition buffer (h : world) (b : nat) : option (list (option R)) := nth b (buffers h) None.
Definition variable (h : world) (x : nat) : option instance := nth x (variables h) None.
Fixpoint put {A} (d : A) (l : list A) (n : nat) (x : A) : list A :=
  match n, l with
  | O, _ => x :: tl l
  | S n', [] => d :: put d [] n' x
  | S n', y :: l' => y :: put d l' n' x
  end.
Definition allocate (h : world) (s : list (option R)) : world * nat :=
  (World (buffers h ++ [Some s]) (variables h), length (buffers h)).
Definition release (h : world) (b : nat) : world := World (put None (buffers h) b None) (variables h).
Definition set_variable (h : world) (x : nat) (v : option instance) : world := World (buffers h) (put None (variables h) x v).

(** Operations of a program on its variables. *)
Inductive operation : Type :=
| Construct (x : nat) (a : adapter)             (* auto x = to_stat_space(..), constructed in place (l.104-109) *)
| Copy (y x : nat)                              (* auto y = x *)
| Move (y x : nat)                              (* auto y = std::move(x) *)
| Assign (y x : nat)                            (* y = x *)
| Destroy (x : nat)                             (* x goes out of scope *)
| Write (x : nat) (i : list nat) (v : R).       (* a component of x is assigned: the mdspan has writable components *)

Definition step (h : world) (op : operation) : res world :=
  match op with
  | Construct x a =>
      match variable h x with
      | Some _ => Undef
      | None => let (h', b) := allocate h (a_store a) in Ret (set_variable h' x (Some (Instance b b (a_ext a))))
      end
  | Copy y x | Move y x =>                                    (* moving an array of numbers copies it *)
      match variable h y, variable h x with
      | None, Some v =>
          match buffer h (i_buffer v) with
          | Some s => let (h', b) := allocate h s in Ret (set_variable h' y (Some (Instance b (i_pointer v) (i_ext v))))
          | None => Undef
          end
      | _, _ => Undef
      end
  | Assign y x =>
      match variable h y, variable h x with
      | Some u, Some v =>
          match buffer h (i_buffer v), buffer h (i_buffer u) with
          | Some s, Some _ =>
              Ret (set_variable (World (put None (buffers h) (i_buffer u) (Some s)) (variables h)) y
                     (Some (Instance (i_buffer u) (i_pointer v) (i_ext v))))
          | _, _ => Undef
          end
      | _, _ => Undef
      end
  | Destroy x =>
      match variable h x with
      | Some v => Ret (set_variable (release h (i_buffer v)) x None)
      | None => Undef
      end
  | Write x i v =>
      match variable h x with
      | Some u =>
          match buffer h (i_pointer u) with
          | Some s =>
              let n := layout_left (i_ext u) (firstn (length (i_ext u)) i) in
              if n <? length s then
                Ret (World (put None (buffers h) (i_pointer u) (Some (set_nth s n (Some v)))) (variables h))
              else Undef
          | None => Undef
          end
      | None => Undef
      end
  end.

Fixpoint run (h : world) (ops : list operation) : res world :=
  match ops with [] => Ret h | op :: ops' => bind (step h op) (fun h' => run h' ops') end.
Definition empty_world : world := World [] [].

(** Reading a component of a variable. *)
Definition read_variable (h : world) (x : nat) (i : list nat) : res R :=
  match variable h x with
  | Some v => match buffer h (i_pointer v) with
              | Some s => read_store s (layout_left (i_ext v) (firstn (length (i_ext v)) i))
              | None => Undef
              end
  | None => Undef
  end.
