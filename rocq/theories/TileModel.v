(** * Slices, tiles, concatenation and splitting.

    OpenKalman/linear-algebra/functions/{get_slice, set_slice, get_chip, set_chip, tile, concatenate, split}.hpp. An object
    is its dimensions and a function from index lists to components; [None] is a component never written
    (make_dense_object leaves its components indeterminate). Simplifications: patterns are plain dimensions and all the
    arguments of one call have the same number of indices; the fixed-size static_asserts of internal/check_block_limits.hpp,
    which only repeat the dynamic range condition, are not modelled. *)
From mathcomp Require Import all_ssreflect.
Set Implicit Arguments.
Unset Strict Implicit.
Unset Printing Implicit Defensive.

Section Tile.
Variable A : Type.

(** Outcomes: a value, a C++ exception, an assertion of the matrix library (or undefined behaviour without assertions),
    a call that does not compile, and unbounded recursion. *)
Inductive res (T : Type) := Val of T | Thrown | Undefined | Rejected | Diverges.
Arguments Thrown {T}. Arguments Undefined {T}. Arguments Rejected {T}. Arguments Diverges {T}.
Definition rbind T U (r : res T) (f : T -> res U) : res U :=
  match r with Val x => f x | Thrown => Thrown | Undefined => Undefined | Rejected => Rejected | Diverges => Diverges end.

Record arr := Arr { dims : seq nat; comp : seq nat -> option A }.
Definition rank (a : arr) : nat := size (dims a).
Definition dim (a : arr) (i : nat) : nat := nth 1 (dims a) i.  (* get_index_dimension_of: 1 beyond the last index *)

Definition plus_each (x y : seq nat) : seq nat := [seq p.1 + p.2 | p <- zip x y].
Definition minus_each (x y : seq nat) : seq nat := [seq p.1 - p.2 | p <- zip x y].
Definition le_each (x y : seq nat) : bool := all (fun p => p.1 <= p.2) (zip x y).
Definition lt_each (x y : seq nat) : bool := all (fun p => p.1 < p.2) (zip x y).

(** ** set_slice *)

(** set_slice.hpp l.47-80 through the library: eigen-library-interface.hpp l.590-620 (Eigen::Block asserts that it fits),
    eigen-tensor-library-interface.hpp l.270-285. *)
Definition set_slice (a b : arr) (begin : seq nat) : res arr :=
  if le_each (plus_each begin (dims b)) (dims a) then
    Val (Arr (dims a) (fun ix =>
      if le_each begin ix && lt_each ix (plus_each begin (dims b)) then comp b (minus_each ix begin) else comp a ix))
  else Undefined.

(** set_component at one index. *)
Definition set_component (a : arr) (v : option A) (ix : seq nat) : arr :=
  Arr (dims a) (fun ix' => if ix' == ix then v else comp a ix').

(** set_slice.hpp l.21-37: the nested loops used when the library has no set_slice. [j]: the indices into the block so
    far, [j']: into the target. *)
Fixpoint assign_slice_elements (a b : arr) (begin : seq nat) (ds : seq nat) (j j' : seq nat) : arr :=
  match ds, begin with
  | d :: ds', b0 :: begin' =>
    foldl (fun a i => assign_slice_elements a b begin' ds' (rcons j i) (rcons j' (b0 + i))) a (iota 0 d)
  | _, _ => set_component a (comp b j) j'
  end.

(** ** get_slice *)

(** l.24-57: offsets or extents of all the indices; those not named get [default]. *)
Definition expand (ixs : seq nat) (limits : seq nat) (default : nat -> nat) (k : nat) : seq nat :=
  [seq if i \in ixs then nth 0 limits (index i ixs) else default i | i <- iota 0 k].

(** The library's slice. *)
Definition lib_slice (a : arr) (offs exts : seq nat) : res arr :=
  if le_each (plus_each offs exts) (dims a) then Val (Arr exts (fun ix => comp a (plus_each offs ix))) else Undefined.

(** l.60-80: the slice with descriptors attached for the first [m] indices only; indices without a descriptor count as
    one-dimensional (attach_patterns verifies nothing). *)
Definition get_slice_impl (a : arr) (offs exts : seq nat) (m : nat) : res arr :=
  rbind (lib_slice a offs exts) (fun s =>
    Val (Arr (take m exts ++ nseq (rank a - m) 1) (comp s))).

(** l.100-129 with indices; the sequence handed to get_slice_impl is that of the offsets (l.127). *)
Definition get_slice (ixs : seq nat) (a : arr) (offs exts : seq nat) : res arr :=
  if size offs == 0 then Val a
  else get_slice_impl a (expand ixs offs (fun=> 0) (rank a)) (expand ixs exts (dim a) (rank a)) (size offs).

(** l.117-120 without indices: the library gets the offsets as they are; Eigen takes offset 0 and extent 1 for a missing
    second one (eigen-library-interface.hpp l.528-560). *)
Definition get_slice_leading (a : arr) (offs exts : seq nat) : res arr :=
  if size offs == 0 then Val a
  else get_slice_impl a (offs ++ nseq (rank a - size offs) 0) (exts ++ nseq (rank a - size exts) 1) (size offs).

(** get_chip.hpp l.38-53. *)
Definition get_chip (ixs : seq nat) (a : arr) (js : seq nat) : res arr := get_slice ixs a js (nseq (size js) 1).

(** set_chip.hpp l.23-38, 60-76. *)
Definition set_chip (ixs : seq nat) (a chip : arr) (js : seq nat) : res arr :=
  if all (fun i => dim chip i == 1) ixs then set_slice a chip (expand ixs js (fun=> 0) (rank a)) else Rejected.

(** ** tile *)

Record tstate := TS { tpos : seq nat; tbsz : seq nat; tarr : arr }.

(** tile.hpp l.28-87. [n] bounds the number of calls. *)
Fixpoint tile_impl (n d : nat) (st : tstate) (blocks : seq arr) : res tstate :=
  if n is n'.+1 then
    match blocks with
    | [::] => Val st                                                              (* l.28-30 *)
    | b :: bs =>
      let k := rank (tarr st) in
      let bsz0 := if d == 0 then [seq dim b i | i <- iota 0 k] else tbsz st in    (* l.38 *)
      let cur := nth 0 (tpos st) d in
      let lim := dim (tarr st) d in
      if d == k.-1 then                                                           (* l.43-68 *)
        rbind (set_slice (tarr st) b (tpos st)) (fun t =>
          if (0 < cur) && has (fun i => (i != d) && (dim b i != nth 0 bsz0 i)) (iota 0 k) then Thrown
          else
            let cur' := cur + dim b d in
            if cur' < lim then tile_impl n' d (TS (set_nth 0 (tpos st) d cur') bsz0 t) bs
            else if cur' == lim then
              (if d is d'.+1 then
                 let p := set_nth 0 (tpos st) d 0 in
                 tile_impl n' d' (TS (set_nth 0 p d' (nth 0 p d' + dim b d')) bsz0 t) bs
               else Rejected)                                                     (* l.56: direction - 1 wraps around *)
            else Thrown)
      else                                                                        (* l.69-96 *)
        let bsz1 := set_nth 0 bsz0 d (dim b d) in
        if cur < lim then tile_impl n' d.+1 (TS (tpos st) bsz1 (tarr st)) blocks
        else if d is d'.+1 then
          (if lim < cur then Thrown
           else
             let p := set_nth 0 (tpos st) d 0 in
             tile_impl n' d' (TS (set_nth 0 p d' (nth 0 p d' + dim b d')) bsz1 (tarr st)) blocks)
        else Thrown
    end
  else Diverges.

(** l.103-125. *)
Definition tile (n : nat) (ds : seq nat) (blocks : seq arr) : res arr :=
  match blocks with
  | [::] => Rejected
  | [:: b] => Val b
  | _ => rbind (tile_impl n 0 (TS (nseq (size ds) 0) [::] (Arr ds (fun=> None))) blocks) (fun st => Val (tarr st))
  end.

(** ** concatenate *)

Variable zero : A.
Variable near : A -> A -> bool.  (* values::internal::near *)
Variable conj : A -> A.

(** What the type of an argument says about it. [Tri] and [Herm] carry the stored triangle (true: lower). *)
Inductive kind := Plain | Zero | Const of A | Tri of bool | Herm of bool.
Record obj := Obj { okind : kind; ostored : arr }.

(** The components of an object; for [Tri] and [Herm] the indices beyond the second play no role. *)
Definition odims (o : obj) := dims (ostored o).
Definition swap (ix : seq nat) : seq nat := if ix is i :: j :: r then j :: i :: r else ix.
Definition outside (lower : bool) (ix : seq nat) : bool :=
  if lower then nth 0 ix 0 < nth 0 ix 1 else nth 0 ix 1 < nth 0 ix 0.
Definition value (o : obj) : arr :=
  Arr (odims o) (fun ix => match okind o with
    | Plain => comp (ostored o) ix
    | Zero => Some zero
    | Const c => Some c
    | Tri lo => if outside lo ix then Some zero else comp (ostored o) ix
    | Herm lo => if outside lo ix then omap conj (comp (ostored o) (swap ix)) else comp (ostored o) ix
    end).

Definition is_zero o := if okind o is Zero then true else false.
Definition const_of o := match okind o with Const c => Some c | Zero => Some zero | _ => None end.
Definition tri_of o := if okind o is Tri lo then Some lo else None.
Definition herm_of o := if okind o is Herm lo then Some lo else None.

(** concatenate.hpp l.42-71: the dimensions of the result. [r]: the number of indices looked at. *)
Definition concat_dims (ixs : seq nat) (r : nat) (args : seq arr) : res (seq nat) :=
  if all (fun i => (i \in ixs) || all (fun a => dim a i == dim (head (Arr [::] (fun=> None)) args) i) args) (iota 0 r) then
    Val [seq if i \in ixs then sumn [seq dim a i | a <- args] else dim (head (Arr [::] (fun=> None)) args) i | i <- iota 0 r]
  else Thrown.

(** l.114-172: for each block of the result, the argument that sets its size along each index, in the order of [tile].
    [m]: the number of arguments. *)
Fixpoint cat_positions (m : nat) (ixs : seq nat) (k : nat) : seq (seq nat) :=
  if k is k'.+1 then
    [seq rcons p q | p <- cat_positions m ixs k', q <- if k' \in ixs then iota 0 m else [:: 0]]
  else [:: [::]].

(** l.88-104: an argument on the diagonal, zeros elsewhere. *)
Definition cat_block (ixs : seq nat) (args : seq arr) (p : seq nat) : arr :=
  let q := nth 0 p (head 0 ixs) in
  let none := Arr [::] (fun=> None) in
  if all (fun i => nth 0 p i == q) ixs then nth none args q
  else Arr [seq dim (nth none args (nth 0 p i)) i | i <- iota 0 (size p)] (fun=> Some zero).

(** l.246-257. *)
Definition concat_dense (n : nat) (ixs : seq nat) (ds : seq nat) (args : seq arr) : res arr :=
  if size ixs == 1 then tile n ds args
  else tile n ds [seq cat_block ixs args p | p <- cat_positions (size args) ixs (size ds)].

(** l.23, 42: the number of indices looked at: the largest of the arguments' ranks and the indices themselves. *)
Definition concat_rank (ixs : seq nat) (args : seq arr) : nat :=
  foldr maxn 0 ([seq rank a | a <- args] ++ ixs).

(** l.190-258, the result as a plain array. Simplification: the test for a common triangle (l.221, triangle_type_of_v
    with several arguments, which does not compile) is read as "all triangular with the same triangle", and
    concatenate_diagonal (l.239) as concatenate<0, 1>; the branch for diagonal matrices (l.213-218), which calls
    diagonal_of with several arguments and does not compile, is left out. *)
Definition concatenate (n : nat) (ixs : seq nat) (args : seq obj) : res arr :=
  let vals := [seq value o | o <- args] in
  rbind (concat_dims ixs (concat_rank ixs vals) vals) (fun ds =>
  match args with
  | [::] => Rejected
  | [:: o] => Val (value o)                                                                       (* l.198-201 *)
  | o :: os =>
    let square2 := (size ixs == 2) && (0 \in ixs) && (1 \in ixs) in
    if all is_zero args then Val (Arr ds (fun=> Some zero))                                       (* l.202-205 *)
    else if (size ixs == 1) && isSome (const_of o) &&
        all (fun o' => if (const_of o, const_of o') is (Some c, Some c') then near c c' else false) os then
      Val (Arr ds (fun=> const_of o))                                                             (* l.206-211 *)
    else match square2, tri_of o, herm_of o with
    | true, Some lo, _ =>
      if all (fun o' => tri_of o' == Some lo) args then                                           (* l.219-224 *)
        rbind (concat_dense n ixs ds [seq ostored o' | o' <- args]) (fun a => Val (value (Obj (Tri lo) a)))
      else concat_dense n ixs ds vals
    | true, None, Some lo =>
      if all (fun o' => isSome (herm_of o')) args then                                            (* l.225-241 *)
        let turn o' := if herm_of o' == Some lo then ostored o' else
          Arr (swap (odims o')) (fun ix => comp (ostored o') (swap ix)) in
        rbind (concat_dense n ixs ds [seq turn o' | o' <- args]) (fun a => Val (value (Obj (Herm lo) a)))
      else concat_dense n ixs ds vals
    | _, _, _ => concat_dense n ixs ds vals
    end
  end).

(** ** split *)

(** split.hpp l.27-41: the sizes must fit. *)
Definition split_fits (ixs : seq nat) (a : arr) (sizes : seq (seq nat)) : bool :=
  all (fun q => sumn [seq nth 0 s q.2 | s <- sizes] <= dim a q.1) (zip ixs (iota 0 (size ixs))).

(** l.110-125: one slice after the other; [sizes] has one list per block, with one size per index. *)
Fixpoint split_impl (ixs : seq nat) (a : arr) (begin : seq nat) (sizes : seq (seq nat)) : res (seq arr) :=
  if sizes is s :: ss then
    rbind (get_slice ixs a begin s) (fun b =>
    rbind (split_impl ixs a (plus_each begin s) ss) (fun bs => Val (b :: bs)))
  else Val [::].

(** l.150-165. *)
Definition split (ixs : seq nat) (a : arr) (sizes : seq (seq nat)) : res (seq arr) :=
  if split_fits ixs a sizes then split_impl ixs a (nseq (size ixs) 0) sizes else Thrown.

(** l.51-92: the same sizes along every index. *)
Definition split_symmetric (ixs : seq nat) (a : arr) (sizes : seq nat) : res (seq arr) :=
  split ixs a [seq nseq (size ixs) s | s <- sizes].

End Tile.
Arguments Thrown {T}. Arguments Undefined {T}. Arguments Rejected {T}. Arguments Diverges {T}.
Arguments Plain {A}. Arguments Zero {A}. Arguments Const {A}. Arguments Tri {A}. Arguments Herm {A}.
