(** * Component-wise and chip-wise operations.

    OpenKalman/linear-algebra/functions/{n_ary_operation, chipwise_operation}.hpp. Simplifications: patterns are plain
    dimensions; an operation either takes the indices or does not (is_invocable_with_indices); nested loops over the
    dimensions of an object, which do not change while it is filled, are the sequence of their innermost bodies. *)
From mathcomp Require Import all_ssreflect.
From Verif Require Import TileModel.
Set Implicit Arguments.
Unset Strict Implicit.
Unset Printing Implicit Defensive.

(** The nested loops, left-most index outermost: n_ary_operation.hpp l.176-189, 777-792, chipwise_operation.hpp l.96-104. *)
Fixpoint loop (ds : seq nat) (j : seq nat) : seq (seq nat) :=
  if ds is d :: ds' then flatten [seq loop ds' (rcons j i) | i <- iota 0 d] else [:: j].

Section Nary.
Variables T U S : Type.

(** An argument: dimensions, components, its compile-time constant if it has one (the components then all have that
    value) and, for each index, whether the dimension is fixed at compile time. *)
Record src := Src { sdims : seq nat; sat : seq nat -> T; sconst : option T; sfixed : seq bool }.
Definition sdim (a : src) (i : nat) : nat := nth 1 (sdims a) i.
Definition fixed_at (a : src) (i : nat) : bool := nth true (sfixed a) i.

(** The operation, with whatever state it captures. *)
Record oper := Oper { takes_indices : bool; call : S -> seq T -> seq nat -> U * S }.

(** l.134-146: where an argument is read. *)
Definition read_at (a : src) (j : seq nat) : seq nat :=
  [seq if nth 0 j i < sdim a i then nth 0 j i else 0 | i <- iota 0 (size (sdims a))].

(** l.149-173: one component. *)
Definition visit (op : oper) (args : seq src) (ms : (seq nat -> option U) * S) (j : seq nat) :=
  let r := call op ms.2 [seq sat a (read_at a j) | a <- args] (if takes_indices op then j else [::]) in
  (fun ix => if ix == j then Some r.1 else ms.1 ix, r.2).

(** l.204-245. [library]: the library has a version for this operation and these arguments (Eigen: no arguments and an
    operation on indices, eigen-library-interface.hpp l.872-910, evaluated when read); with arguments that branch does not
    compile, since replicate_arg (l.194-203) returns nothing. [statics]: which dimensions are fixed. l.143: an argument
    with more indices than the result does not compile. *)
Definition n_ary_impl (library : bool) (ds : seq nat) (statics : seq bool) (op : oper) (args : seq src) (s : S) : res (arr U * S) :=
  let consts := pmap (fun a => sconst a) args in
  if (0 < size args) && all (fun a => isSome (sconst a)) args && ~~ takes_indices op then
    let r := call op s consts [::] in Val (Arr ds (fun=> Some r.1), r.2)
  else if takes_indices op && library then
    if args is [::] then Val (Arr ds (fun ix => Some (call op s [::] ix).1), s) else Rejected
  else if all (fun p => p.1 && (p.2 == 1)) (zip statics ds) then
    if takes_indices op then Rejected
    else let r := call op s [seq sat a (nseq (size (sdims a)) 0) | a <- args] [::] in Val (Arr ds (fun=> Some r.1), r.2)
  else if all (fun a => size (sdims a) <= size ds) args then
    let r := foldl (visit op args) (fun=> None, s) (loop ds [::]) in Val (Arr ds r.1, r.2)
  else Rejected.

(** l.36-65: an argument's dimension must be one or that of the result. *)
Definition check_dims (ds : seq nat) (args : seq src) : bool :=
  all (fun i => all (fun a => (sdim a i == nth 0 ds i) || (sdim a i == 1)) args) (iota 0 (size ds)).

(** l.318-330, with the result's dimensions. A failure is an exception or, between fixed dimensions, a compile-time
    error; both are [Thrown] here. *)
Definition n_ary_operation library ds statics op (args : seq src) s : res (arr U * S) :=
  if all (fun d => d != 0) ds && check_dims ds args then n_ary_impl library ds statics op args s else Thrown.

(** l.335-432 for one index: fixed or not, and the dimension; from the last argument to the first. *)
Fixpoint find_max_dim (args : seq (bool * nat)) : res (bool * nat) :=
  match args with
  | [::] => Rejected
  | [:: (f, d)] => if d == 0 then Thrown else Val (f, d)                                        (* l.338-349 *)
  | (fa, a) :: r =>
    rbind (find_max_dim r) (fun fm => let m := fm.2 in
      match fa, fm.1 with
      | true, true => if (a == m) || (a == 1) then Val fm                                         (* l.356-372 *)
                      else if m == 1 then Rejected else Val (fa, a)
      | true, false => if (a != m) && (a != 1) && (m != 1) then Thrown                          (* l.375-384 *)
                       else if a == 1 then Val fm else Val (fa, a)
      | false, true => if (a != m) && (a != 1) && (m != 1) then Thrown                          (* l.385-395 *)
                       else if m == 1 then Val (fa, a) else Val fm
      | false, false => if (a == m) || (a == 1) then Val (false, m)                               (* l.396-404 *)
                        else if (m == 1) && (m <= a) then Val (false, a) else Thrown
      end)
  end.

Fixpoint all_dims (rs : seq (res (bool * nat))) : res (seq (bool * nat)) :=
  if rs is r :: rs' then rbind r (fun d => rbind (all_dims rs') (fun ds => Val (d :: ds))) else Val [::].

(** l.434-438, 488-495: the dimensions from the arguments; check_n_ary_dims is not called. *)
Definition n_ary_operation_auto library op (args : seq src) s : res (arr U * S) :=
  let r := foldr maxn 0 [seq size (sdims a) | a <- args] in
  rbind (all_dims [seq find_max_dim [seq (fixed_at a i, sdim a i) | a <- args] | i <- iota 0 r]) (fun fds =>
    n_ary_impl library [seq p.2 | p <- fds] [seq p.1 | p <- fds] op args s).

(** ** In place *)

(** l.735-800: the operation changes the component it is given; whatever it returns is dropped. *)
Definition in_place_visit (op : S -> T -> seq nat -> (T * option T) * S) (ms : (seq nat -> T) * S) (j : seq nat) :=
  let r := op ms.2 (ms.1 j) j in
  (fun ix => if ix == j then r.1.1 else ms.1 ix, r.2).
Definition unary_operation_in_place (op : S -> T -> seq nat -> (T * option T) * S) (ds : seq nat) (m : seq nat -> T) (s : S) :=
  foldl (in_place_visit op) (m, s) (loop ds [::]).

End Nary.

(** ** Several nullary operations *)

Section Nullary.
Variable U : Type.

(** l.503-536: the components that one operation fills; [ks]: its place along each of [ixs]. *)
Fixpoint nullary_set (ds : seq nat) (q : nat) (ixs ks : seq nat) (j : seq nat) : seq (seq nat) :=
  if ds is d :: ds' then
    if q \in ixs then nullary_set ds' q.+1 ixs ks (rcons j (sumn [seq if p.1 == q then p.2 else 0 | p <- zip ixs ks]))
    else flatten [seq nullary_set ds' q.+1 ixs ks (rcons j i) | i <- iota 0 d]
  else [:: j].

(** l.538-566: number of the operation and index, in the order of the calls. *)
Fixpoint nullary_iterate (ds ixs : seq nat) (cur factor : nat) (rest ks : seq nat) : seq (nat * seq nat) :=
  if rest is i :: r then
    let f := factor %/ nth 1 ds i in
    flatten [seq nullary_iterate ds ixs (cur + f * J) f r (rcons ks J) | J <- iota 0 (nth 1 ds i)]
  else [seq (cur, j) | j <- nullary_set ds 0 ixs ks [::]].

(** Where the k-th of a list of values goes (fill_components.hpp: std::layout_left is column-major, otherwise row-major). *)
Definition row_major (ds ix : seq nat) : nat := foldl (fun acc p => acc * p.1 + p.2) 0 (zip ds ix).
Definition fill_place (left : bool) (ds ix : seq nat) : nat :=
  if left then row_major (rev ds) (rev ix) else row_major ds ix.

(** l.640-680 for more than one operation. An operation gives its value at an index; those that take no indices ignore it
    ([takes]: whether any takes them). [left]: the layout of the pattern matrix. *)
Definition nullary_operations (left : bool) (ds : seq nat) (statics takes : bool) (ixs : seq nat) (ops : seq (seq nat -> U)) : res (arr U) :=
  if size ops == foldr muln 1 [seq nth 1 ds i | i <- ixs] then
    if statics && (size ops == foldr muln 1 ds) && ~~ takes then
      Val (Arr ds (fun ix => ohead [seq f ix | f <- drop (fill_place left ds ix) ops]))          (* l.649-654 *)
    else
      let w := nullary_iterate ds ixs 0 (size ops) ixs [::] in
      Val (Arr ds (foldl (fun m p => fun ix => if ix == p.2 then ohead [seq f ix | f <- drop p.1 ops] else m ix) (fun=> None) w))
  else Rejected.

End Nullary.

(** ** Chip by chip *)

Section Chip.
Variable A : Type.

(** chipwise_operation.hpp l.22-55: the dimensions of all the arguments must match. *)
Definition chip_dims (args : seq (arr A)) : res (seq nat) :=
  if args is a :: r then
    let k := foldr maxn 0 [seq rank a | a <- args] in
    if all (fun i => all (fun b => dim b i == dim a i) r) (iota 0 k) then Val [seq dim a i | i <- iota 0 k] else Thrown
  else Rejected.

Fixpoint all_chips (ixs : seq nat) (args : seq (arr A)) (v : seq nat) : res (seq (arr A)) :=
  if args is a :: r then rbind (get_chip ixs a v) (fun c => rbind (all_chips ixs r v) (fun cs => Val (c :: cs))) else Val [::].

(** l.57-77. *)
Definition chip_visit (ixs : seq nat) (op : seq (arr A) -> seq nat -> arr A) (args : seq (arr A)) (m : res (arr A)) (v : seq nat) : res (arr A) :=
  rbind m (fun m => rbind (all_chips ixs args v) (fun cs => set_chip ixs m (op cs v) v)).

(** l.122-148. *)
Definition chipwise_operation (ixs : seq nat) (op : seq (arr A) -> seq nat -> arr A) (args : seq (arr A)) : res (arr A) :=
  if ixs is [::] then Val (op args [::])
  else rbind (chip_dims args) (fun ds =>
    foldl (chip_visit ixs op args) (Val (Arr ds (fun=> None))) (loop [seq nth 1 ds i | i <- ixs] [::])).

(** l.151-218: how many times along each of [ixs]; the first chip also sets the dimensions of the result. The loops
    (l.186-213) skip the first chip, already in place. *)
Fixpoint nullary_chip_loop (first : bool) (counts : seq nat) (j : seq nat) : seq (seq nat) :=
  if counts is c :: cs then
    (if first then nullary_chip_loop true cs (rcons j 0) else [::]) ++
    flatten [seq nullary_chip_loop false cs (rcons j i) | i <- if first then iota 1 c.-1 else iota 0 c]
  else if first then [::] else [:: j].

(** l.220-252. *)
Definition nullary_chipwise (ixs : seq nat) (op : seq nat -> arr A) (counts : seq nat) : res (arr A) :=
  let z := nseq (size ixs) 0 in
  let c0 := op z in
  let k := foldr maxn 0 (rank c0 :: [seq i.+1 | i <- ixs]) in
  let ds := [seq if i \in ixs then dim c0 i * nth 0 counts (index i ixs) else dim c0 i | i <- iota 0 k] in
  if all (fun i => dim c0 i == 1) ixs then
    foldl (fun m v => rbind m (fun m => set_chip ixs m (op v) v)) (set_chip ixs (Arr ds (fun=> None)) c0 z)
      (nullary_chip_loop true counts [::])
  else Rejected.

End Chip.
