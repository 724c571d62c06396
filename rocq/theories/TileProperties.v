(** * Slices, tiles, concatenation and splitting. *)
From mathcomp Require Import all_ssreflect.
From Verif Require Import TileModel TileSpec TileProofs TileProofs2 TileProofs3 TileProofs4 TileProofs5.
Set Implicit Arguments.
Unset Strict Implicit.
Unset Printing Implicit Defensive.

(** A matrix of numbers, for the examples. *)
Definition mat h w (f : nat -> nat -> nat) : arr nat := Arr [:: h; w] (fun ix => Some (f (nth 0 ix 0) (nth 0 ix 1))).
Definition counting : arr nat := mat 2 3 (fun i j => 10 * i + j).

Lemma returns_at (A : Type) (r : res (arr A)) b ix : returns r b -> in_range (dims b) ix ->
  (if r is Val a then comp a ix else None) = comp b ix.
Proof. by move=> [a -> [d c]]; rewrite -d => /c. Qed.
Lemma enough n : 20 < n -> exists k, n = k.+4.+4.+4.+4.+4.+1.
Proof. by move=> h; exists (n - 21); rewrite -{1}(subnK h) !addnS addn0. Qed.

(** ** Writing and reading blocks *)

Theorem set_slice_writes (A : Type) (a b : arr A) begin :
  size begin = size (dims a) -> size (dims b) = size (dims a) -> fits begin (dims b) (dims a) ->
  exists a', [/\ set_slice a b begin = Val a', dims a' = dims a,
    forall ix, in_range (dims b) ix -> comp a' (shift begin ix) = comp b ix &
    forall ix, in_range (dims a) ix -> (forall jx, in_range (dims b) jx -> ix <> shift begin jx) -> comp a' ix = comp a ix].
Proof. exact: set_slice_ok. Qed.
Example set_slice_case : fits [:: 1; 1] (dims (mat 1 2 addn)) (dims counting).
Proof. by []. Qed.
Print Assumptions set_slice_writes.

(** The nested loops used when the library has no such operation do the same. *)
Theorem set_slice_loops (A : Type) (a b a' : arr A) begin : size begin = size (dims a) -> size (dims b) = size (dims a) ->
  set_slice a b begin = Val a' -> same (assign_slice_elements a b begin (dims b) [::] [::]) a'.
Proof. exact: assign_slice_ok. Qed.
Example set_slice_loops_case : exists a', set_slice counting (mat 1 2 addn) [:: 1; 1] = Val a'.
Proof. by eexists. Qed.
Print Assumptions set_slice_loops.

(** A block that does not fit is not reported by the library. *)
Theorem set_slice_range_unchecked (A : Type) (a b : arr A) begin : size begin = size (dims a) -> size (dims b) = size (dims a) ->
  ~~ fits begin (dims b) (dims a) -> set_slice a b begin = Undefined.
Proof. exact: set_slice_undefined. Qed.
Example set_slice_range_case : ~~ fits [:: 1; 2] (dims (mat 1 2 addn)) (dims counting).
Proof. by []. Qed.
Print Assumptions set_slice_range_unchecked.

Theorem set_slice_get_slice (A : Type) (a b : arr A) offs :
  0 < size offs -> size offs = rank a -> rank b = rank a -> fits offs (dims b) (dims a) ->
  exists2 a', set_slice a b offs = Val a' & returns (get_slice (iota 0 (rank a)) a' offs (dims b)) b.
Proof. exact: set_get_slice. Qed.
Example set_slice_get_slice_case : let b := mat 1 2 addn in rank b = rank counting /\ fits [:: 1; 1] (dims b) (dims counting).
Proof. by []. Qed.
Print Assumptions set_slice_get_slice.

(** A slice is right exactly if the indices from the number of offsets on have the extent one in the result. *)
Theorem get_slice_exactly_when (A : Type) ixs (a : arr A) offs exts : 0 < size offs <= rank a -> size exts = size offs ->
  let o := expand ixs offs (fun=> 0) (rank a) in let e := expand ixs exts (dim a) (rank a) in
  fits o e (dims a) ->
  (returns (get_slice ixs a offs exts) (slice_of a o e) <-> forall i, size offs <= i < rank a -> nth 0 e i = 1).
Proof. exact: get_slice_gen. Qed.
Example get_slice_case :
  let o := expand [:: 1; 0] [:: 1; 0] (fun=> 0) 2 in let e := expand [:: 1; 0] [:: 2; 2] (dim counting) 2 in
  [/\ o = [:: 0; 1], e = [:: 2; 2] & fits o e (dims counting)].
Proof. by []. Qed.
Print Assumptions get_slice_exactly_when.

(** So a slice of rows alone, or of columns alone, has the wrong shape unless the rest is one wide. *)
Theorem get_slice_rows_refuted (A : Type) (a : arr A) o e : matrix a -> dim a 1 <> 1 -> o + e <= dim a 0 ->
  ~ returns (get_slice [:: 0] a [:: o] [:: e]) (slice_of a [:: o; 0] [:: e; dim a 1]).
Proof.
move=> m h hf; have d := dims2 m; have ra : rank a = 2 by rewrite /rank d.
have h1 : 0 < size [:: o] <= rank a by rewrite ra.
have := @get_slice_gen A [:: 0] a [:: o] [:: e] h1 erefl.
rewrite /= ra /expand /= => /(_ _)[]; first by rewrite d /fits /shift /= hf add0n /dim leqnn.
by move=> q _ /q /(_ 1 isT).
Qed.
Example get_slice_rows_case : matrix counting /\ dim counting 1 <> 1. Proof. by []. Qed.
Print Assumptions get_slice_rows_refuted.
Theorem get_slice_columns_refuted (A : Type) (a : arr A) o e : matrix a -> e <> 1 -> o + e <= dim a 1 ->
  ~ returns (get_slice [:: 1] a [:: o] [:: e]) (slice_of a [:: 0; o] [:: dim a 0; e]).
Proof.
move=> m h hf; have d := dims2 m; have ra : rank a = 2 by rewrite /rank d.
have h1 : 0 < size [:: o] <= rank a by rewrite ra.
have := @get_slice_gen A [:: 1] a [:: o] [:: e] h1 erefl.
rewrite /= ra /expand /= => /(_ _)[]; first by rewrite d /fits /shift /= hf add0n /dim leqnn.
by move=> q _ /q /(_ 1 isT).
Qed.
Example get_slice_columns_case : matrix counting /\ 1 + 2 <= dim counting 1. Proof. by []. Qed.
Print Assumptions get_slice_columns_refuted.

(** One row, taken as a chip, likewise; one column is right. *)
Theorem get_chip_column (A : Type) (a : arr A) j : matrix a -> j < dim a 1 ->
  returns (get_chip [:: 1] a [:: j]) (slice_of a [:: 0; j] [:: dim a 0; 1]).
Proof.
move=> m hj; have d := dims2 m; have ra : rank a = 2 by rewrite /rank d.
have h1 : 0 < size [:: j] <= rank a by rewrite ra.
have := @get_slice_gen A [:: 1] a [:: j] [:: 1] h1 erefl.
rewrite /= ra /expand /= => /(_ _)[]; first by rewrite d /fits /shift /= add0n addn1 hj /dim leqnn.
by move=> _; apply => -[|[|i]].
Qed.
Example get_chip_column_case : matrix counting /\ 2 < dim counting 1. Proof. by []. Qed.
Print Assumptions get_chip_column.
Theorem get_chip_row_refuted (A : Type) (a : arr A) i : matrix a -> dim a 1 <> 1 -> i < dim a 0 ->
  ~ returns (get_chip [:: 0] a [:: i]) (slice_of a [:: i; 0] [:: 1; dim a 1]).
Proof. by move=> m h hi; apply: get_slice_rows_refuted => //; rewrite addn1. Qed.
Print Assumptions get_chip_row_refuted.

(** Without naming the indices, the ones after the last offset are cut to one instead of being kept whole. *)
Theorem get_slice_leading_refuted :
  exists (a : arr nat) offs exts, matrix a /\ fits (rcons offs 0) (rcons exts (dim a 1)) (dims a) /\
    ~ returns (get_slice_leading a offs exts) (slice_of a (rcons offs 0) (rcons exts (dim a 1))).
Proof. by exists counting, [:: 0], [:: 1]; split=> //; split=> // -[b [<-] []]. Qed.
Print Assumptions get_slice_leading_refuted.

(** A chip that spans a whole row or column replaces exactly that. *)
Theorem set_chip_row (A : Type) (a c : arr A) i : matrix a -> dims c = [:: 1; dim a 1] -> i < dim a 0 ->
  exists a', [/\ set_chip [:: 0] a c [:: i] = Val a', dims a' = dims a &
    forall r j, r < dim a 0 -> j < dim a 1 -> comp a' [:: r; j] = if r == i then comp c [:: 0; j] else comp a [:: r; j]].
Proof.
move=> m dc hi; have d := dims2 m; have ra : rank a = 2 by rewrite /rank d.
rewrite /set_chip /= {1}/dim dc /= ra /expand /=.
have [||| a' [e da cb co]] := @set_slice_ok A a c [:: i; 0]; rewrite ?d ?dc //.
  by rewrite /fits /shift /= addn1 hi add0n leqnn.
exists a'; split; rewrite ?da // => r j hr hj; case: eqP => [->|ne].
  by have := cb [:: 0; j]; rewrite /shift /= addn0 add0n dc /= hj; apply.
apply: co; first by rewrite d /= hr hj.
move=> [|x [|y [|? ?]]]; rewrite dc //= ?andbF // => /andP[hx _]; rewrite /shift /= => -[h _].
by apply: ne; rewrite h; case: x hx {h} => // _; rewrite addn0.
Qed.
Example set_chip_row_case : matrix counting /\ 1 < dim counting 0. Proof. by []. Qed.
Print Assumptions set_chip_row.
Theorem set_chip_column (A : Type) (a c : arr A) k : matrix a -> dims c = [:: dim a 0; 1] -> k < dim a 1 ->
  exists a', [/\ set_chip [:: 1] a c [:: k] = Val a', dims a' = dims a &
    forall r j, r < dim a 0 -> j < dim a 1 -> comp a' [:: r; j] = if j == k then comp c [:: r; 0] else comp a [:: r; j]].
Proof.
move=> m dc hi; have d := dims2 m; have ra : rank a = 2 by rewrite /rank d.
rewrite /set_chip /= {1}/dim dc /= ra /expand /=.
have [||| a' [e da cb co]] := @set_slice_ok A a c [:: 0; k]; rewrite ?d ?dc //.
  by rewrite /fits /shift /= addn1 hi add0n leqnn.
exists a'; split; rewrite ?da // => r j hr hj; case: eqP => [->|ne].
  by have := cb [:: r; 0]; rewrite /shift /= addn0 add0n dc /= hr; apply.
apply: co; first by rewrite d /= hr hj.
move=> [|x [|y [|? ?]]]; rewrite dc //= ?andbF // andbT => /andP[_ hy]; rewrite /shift /= => -[_ h].
by apply: ne; rewrite h; case: y hy {h} => // _; rewrite addn0.
Qed.
Example set_chip_column_case : matrix counting /\ 2 < dim counting 1. Proof. by []. Qed.
Print Assumptions set_chip_column.

(** ** Tiles *)

(** Rows of blocks that fill the target, row after row. *)
Theorem tile_regular_partial (A : Type) n h w (rows : seq (seq (arr A))) : regular h w rows -> 1 < size (flatten rows) ->
  size (flatten rows) + size rows < n ->
  returns (tile n [:: h; w] (flatten rows)) (grid h w rows).
Proof. exact: tile_grid. Qed.
Definition two_rows : seq (seq (arr nat)) := [:: [:: mat 1 1 addn; mat 1 3 addn]; [:: mat 2 2 addn; mat 2 2 muln]].
Example tile_regular_case : regular 3 4 two_rows.
Proof.
split=> // r; rewrite !inE => /orP[] /eqP->; split=> //; split=> // d; by rewrite !inE => /orP[] /eqP->.
Qed.
Print Assumptions tile_regular_partial.

(** Blocks that do not fill the target are accepted: the rest is never written. *)
Theorem tile_incomplete_refuted :
  exists ds (bs : seq (arr nat)) a ix, tile 20 ds bs = Val a /\ in_range (dims a) ix /\ comp a ix = None.
Proof. by exists [:: 3; 2], [:: mat 1 2 addn; mat 1 2 addn]; eexists; exists [:: 2; 0]. Qed.
Print Assumptions tile_incomplete_refuted.

(** One block alone is returned whatever the target's dimensions. *)
Theorem tile_single_ignores_dimensions (A : Type) n ds (b : arr A) : tile n ds [:: b] = Val b.
Proof. by []. Qed.
Print Assumptions tile_single_ignores_dimensions.

(** A trailing empty block is an error although the blocks fit. *)
Theorem tile_empty_block_refuted :
  tile 20 [:: 2; 3] [:: counting; mat 0 3 addn] = Thrown /\
  sumn [seq dim b 0 | b <- [:: counting; mat 0 3 addn]] = 2.
Proof. by []. Qed.
Print Assumptions tile_empty_block_refuted.

(** With an empty dimension in the middle the recursion never ends. *)
Theorem tile_terminates_refuted :
  exists ds (bs : seq (arr nat)), forall n, tile n ds bs = Diverges.
Proof.
pose b : arr nat := Arr [:: 0; 0; 2] (fun=> None).
exists [:: 2; 0; 2], [:: b; b] => n; rewrite tile_two //; set t := Arr _ _.
suff H : forall m k z, k <= m -> tile_impl k 0 (TS [:: 0; 0; 0] z t) [:: b; b] = Diverges by rewrite (H n n [::]).
elim=> [|m IH] k z; first by rewrite leqn0 => /eqP->.
case: k => [|[|k]] // hk; rewrite tile_implE; cbv zeta; rewrite [_ == _]/= tile_implE; cbv zeta; rewrite [_ == _]/=.
apply: IH; exact: ltnW.
Qed.
Print Assumptions tile_terminates_refuted.

(** ** Concatenation *)

(** Along the last index, or along the rows of matrices, the arguments one after the other. *)
Theorem concatenate_along_partial (A : Type) (zero : A) near conj n i args : args <> [::] ->
  let vals := [seq value zero conj o | o <- args] in let r := size (dims (head none vals)) in
  joinable i vals -> 1 < r -> (i.+1 == r) || (r == 2) && (i == 0) -> exact_constants zero near args ->
  r + size args + size args < n ->
  returns (concatenate zero near conj n [:: i] args) (joined i vals).
Proof. exact: concatenate_one. Qed.
Definition column3 : seq (obj nat) := [:: Obj Plain (mat 1 2 addn); Obj (Const 7) (mat 2 2 addn); Obj Zero (mat 3 2 addn)].
Example concatenate_along_case :
  joinable 0 [seq value 0 id o | o <- column3] /\ exact_constants 0 (fun x y => x == y) column3 /\
  dims (joined 0 [seq value 0 id o | o <- column3]) = [:: 6; 2] /\
  comp (joined 0 [seq value 0 id o | o <- column3]) [:: 2; 1] = Some 7.
Proof.
split; first by case=> [|[|[|]]] // _; split=> // -[|[|]].
by split=> // o o' c c' _ _ _ _ /eqP.
Qed.
Print Assumptions concatenate_along_partial.

(** Elsewhere the position advances by the next block's size: with three indices, the first of them. *)
Definition deep h : arr nat := Arr [:: h; 1; 1] (fun ix => Some (nth 0 ix 0)).
Theorem concatenate_first_of_three_refuted :
  exists args : seq (obj nat), joinable 0 [seq value 0 id o | o <- args] /\
    forall n, 20 < n -> ~ returns (concatenate 0 (fun x y => x == y) id n [:: 0] args) (joined 0 [seq value 0 id o | o <- args]).
Proof.
exists [:: Obj Plain (deep 3); Obj Plain (deep 2)]; split; first by case=> [|[|]] // _; split=> // -[|[|[|]]].
move=> n /enough[k ->] /(@returns_at _ _ _ [:: 4; 0; 0]) /(_ isT); by vm_compute.
Qed.
Print Assumptions concatenate_first_of_three_refuted.

(** Matrices cannot be stacked along a new third index. *)
Theorem concatenate_new_index_refuted : forall n, 20 < n ->
  concatenate 0 (fun x y => x == y) id n [:: 2] [:: Obj Plain counting; Obj Plain counting] = Thrown.
Proof. by move=> n /enough[k ->]; vm_compute. Qed.
Print Assumptions concatenate_new_index_refuted.

(** Constants that are merely close take the value of the first one. *)
Theorem concatenate_near_constants_refuted : forall n,
  let near x y := (x <= y.+1) && (y <= x.+1) in
  let args := [:: Obj (Const 4) counting; Obj (Const 5) counting] in
  returns (concatenate 0 near id n [:: 0] args) (Arr [:: 4; 3] (fun=> Some 4)) /\
  ~ returns (concatenate 0 near id n [:: 0] args) (joined 0 [seq value 0 id o | o <- args]).
Proof.
move=> n near args; split; first by eexists.
by move=> [a [<-] [_ /(_ [:: 2; 0] isT)]].
Qed.
Print Assumptions concatenate_near_constants_refuted.

(** Along both indices of matrices: a block-diagonal matrix, whatever the arguments' kinds. *)
Theorem concatenate_diagonal_blocks (A : Type) (zero : A) near conj n ixs args : args <> [::] ->
  (ixs == [:: 0; 1]) || (ixs == [:: 1; 0]) ->
  (forall p, p < size args -> proper (nth (Obj Plain none) args p)) -> conj zero = zero -> one_triangle conj args ->
  size args * size args + size args < n ->
  returns (concatenate zero near conj n ixs args) (block_diagonal zero [seq value zero conj o | o <- args]).
Proof. exact: concatenate_diag. Qed.
Definition triangles : seq (obj nat) := [:: Obj (Tri true) (mat 2 2 addn); Obj (Tri true) (mat 1 1 addn)].
Definition hermitians : seq (obj nat) := [:: Obj (Herm true) (mat 2 2 addn); Obj (Herm false) (mat 2 2 addn)].
Example concatenate_diagonal_case :
  (forall p, p < size triangles -> proper (nth (Obj Plain none) triangles p)) /\ one_triangle id triangles /\
  (forall p, p < size hermitians -> proper (nth (Obj Plain none) hermitians p)) /\ one_triangle id hermitians.
Proof. by split; [case=> [|[|]]|split; [left|split; [case=> [|[|]]|left]]]. Qed.
Print Assumptions concatenate_diagonal_blocks.

(** Complex Hermitian adapters that store different triangles come out without the conjugate. A pair is the real and the
    imaginary part; false and true stand for 1 and -1 in the latter. *)
Theorem concatenate_hermitian_refuted :
  exists args : seq (obj (nat * bool)),
    let conj z := if z.1 == 0 then z else (z.1, ~~ z.2) in
    (forall p, p < size args -> proper (nth (Obj Plain none) args p)) /\
    forall n near, 20 < n -> ~ returns (concatenate (0, false) near conj n [:: 0; 1] args)
      (block_diagonal (0, false) [seq value (0, false) conj o | o <- args]).
Proof.
pose one : arr (nat * bool) := Arr [:: 2; 2] (fun=> Some (1, false)).
exists [:: Obj (Herm true) one; Obj (Herm false) one]; split; first by case=> [|[|]].
by move=> n near /enough[k ->] /(@returns_at _ _ _ [:: 3; 2]) /(_ isT); vm_compute.
Qed.
Print Assumptions concatenate_hermitian_refuted.

(** ** Splitting *)

(** Along the first [k] indices, the others being one-dimensional: one slice after the other. *)
Theorem split_slices_partial (A : Type) (a : arr A) k sizes : 0 < k <= rank a -> (forall s, s \in sizes -> size s = k) ->
  (forall i, i < k -> sumn [seq nth 0 s i | s <- sizes] <= dim a i) ->
  (forall i, k <= i < rank a -> dim a i = 1) ->
  exists2 out, split (iota 0 k) a sizes = Val out &
    all_same out [seq slice_of a (offsets k sizes p ++ nseq (rank a - k) 0)
                      (nth [::] sizes p ++ nseq (rank a - k) 1) | p <- iota 0 (size sizes)].
Proof. exact: split_first. Qed.
Example split_slices_case : let sizes := [:: [:: 1; 1]; [:: 1; 2]] in
  (forall s, s \in sizes -> size s = 2) /\ (forall i, i < 2 -> sumn [seq nth 0 s i | s <- sizes] <= dim counting i) /\
  offsets 2 sizes 1 = [:: 1; 1].
Proof. by split; [move=> s; rewrite !inE => /orP[] /eqP->|split=> // -[|[|]]]. Qed.
Print Assumptions split_slices_partial.

Theorem split_too_large (A : Type) (a : arr A) ixs sizes :
  (exists2 i, i < size ixs & dim a (nth 0 ixs i) < sumn [seq nth 0 s i | s <- sizes]) -> split ixs a sizes = Thrown.
Proof. exact: split_thrown. Qed.
Example split_too_large_case : dim counting 1 < sumn [seq nth 0 s 0 | s <- [:: [:: 2]; [:: 2]]]. Proof. by []. Qed.
Print Assumptions split_too_large.

(** Splitting undoes a block-diagonal concatenation... *)
Theorem split_concatenate_diagonal_partial (A : Type) (zero : A) near conj n args : args <> [::] ->
  (forall p, p < size args -> proper (nth (Obj Plain none) args p)) -> conj zero = zero -> one_triangle conj args ->
  size args * size args + size args < n ->
  let vals := [seq value zero conj o | o <- args] in
  exists2 out, rbind (concatenate zero near conj n [:: 0; 1] args) (fun a => split [:: 0; 1] a [seq dims b | b <- vals]) = Val out &
    all_same out vals.
Proof.
move=> na pr cz ot hn vals; have [a -> sa] := @concatenate_diag A zero near conj n [:: 0; 1] args na isT pr cz ot hn.
apply: split_block_diagonal sa; first by rewrite /vals; case: (args) na.
by rewrite size_map => p hp; apply: proper_nth.
Qed.
Print Assumptions split_concatenate_diagonal_partial.

(** ... and the stacking of column vectors. *)
Theorem split_concatenate_columns_partial (A : Type) (zero : A) near conj n args : args <> [::] ->
  let vals := [seq value zero conj o | o <- args] in
  (forall p, p < size args -> matrix (nth none vals p) /\ dim (nth none vals p) 1 = 1) -> exact_constants zero near args ->
  2 + size args + size args < n ->
  exists2 out, rbind (concatenate zero near conj n [:: 0] args) (fun a => split [:: 0] a [seq [:: dim b 0] | b <- vals]) = Val out &
    all_same out vals.
Proof.
move=> na vals hb ex hn.
have sv : size vals = size args by rewrite size_map.
have nv : vals <> [::] by rewrite /vals; case: (args) na.
have [m0 e0] : matrix (head none vals) /\ dim (head none vals) 1 = 1.
  by rewrite -nth0; apply: hb; case: (args) na.
have h2 : size (dims (head none vals)) = 2 by case/and3P: m0 => /eqP.
have jb : joinable 0 vals.
  move=> p; rewrite sv => hp; have [m e] := hb p hp; case/and3P: m => /eqP m1 m2 m3; rewrite h2; split=> // -[|[|]] // _.
  by rewrite e0 e.
have := @concatenate_one A zero near conj n 0 args na; cbv zeta; rewrite -/vals h2 => q.
have [a -> sa] := q jb isT isT ex hn.
by apply: split_column sa => //; rewrite sv.
Qed.
Definition columns : seq (obj nat) := [:: Obj Plain (mat 3 1 addn); Obj (Const 7) (mat 2 1 addn)].
Example split_concatenate_columns_case :
  forall p, p < size columns -> let vals := [seq value 0 id o | o <- columns] in
    matrix (nth none vals p) /\ dim (nth none vals p) 1 = 1.
Proof. by case=> [|[|]]. Qed.
Print Assumptions split_concatenate_columns_partial.

(** Concatenating the parts of a column vector gives it back. *)
Theorem concatenate_split_column_partial (A : Type) (zero : A) near conj n (a : arr A) sizes :
  matrix a -> dim a 1 = 1 -> sizes <> [::] -> all (ltn 0) sizes -> sumn sizes = dim a 0 -> 2 + size sizes + size sizes < n ->
  exists2 out, split [:: 0] a [seq [:: s] | s <- sizes] = Val out &
    returns (concatenate zero near conj n [:: 0] [seq Obj Plain b | b <- out]) a.
Proof.
move=> m e1 ns ps es hn; have d := dims2 m; have ra : rank a = 2 by rewrite /rank d.
have dd (t : seq nat) : [seq nth 0 s 0 | s <- [seq [:: s] | s <- t]] = t by rewrite -map_comp; elim: t => //= x t ->.
have [||||out eo [so hp]] := @split_first A a 1 [seq [:: s] | s <- sizes].
- by rewrite ra.
- by move=> s /mapP[x _ ->].
- by case=> // _; rewrite dd es.
- by rewrite ra => -[|[|i]].
exists out => //; rewrite ra !size_map size_iota in so hp.
have {}hp p : p < size sizes -> same (nth none out p) (slice_of a [:: sumn (take p sizes); 0] [:: nth 0 sizes p; 1]).
  move=> h; have := hp p h; rewrite (nth_map 0) ?size_iota // nth_iota // add0n (nth_map 0) // /offsets /= -map_take dd.
  exact.
set args := [seq Obj Plain b | b <- out].
have ev : [seq value zero conj o | o <- args] = out.
  by rewrite /args -map_comp; elim: (out) => //= -[b c] l ->.
have sa : size args = size sizes by rewrite size_map.
have s0 : 0 < size sizes by case: (sizes) ns.
have dh : dims (head none out) = [:: nth 0 sizes 0; 1] by rewrite -nth0; have [] := hp 0 s0.
have jb : joinable 0 out.
  move=> p; rewrite so => h; rewrite dh; have [dp _] := hp p h; rewrite /dim dp dh; split=> // -[|[|]] // _; split=> //=.
  by move/(all_nthP 0): ps => /(_ p h).
have na : args <> [::] by move=> /(congr1 size); rewrite sa /= => h; rewrite h in s0.
have nc o : List.In o args -> okind o = Plain.
  by rewrite /args; elim: (out) => //= b l IH [<-//|/IH].
have ex : exact_constants zero near args by move=> o o' c c' /nc + _; rewrite /const_of => ->.
have := @concatenate_one A zero near conj n 0 args na; cbv zeta; rewrite ev dh /= sa => /(_ jb isT isT ex hn) [t -> st].
exists t => //; apply: same_trans st _.
have ed : [seq dim b 0 | b <- out] = sizes.
  apply: (@eq_from_nth _ 0); first by rewrite size_map.
  by move=> p; rewrite size_map so => h; rewrite (nth_map none) ?so //; have [dp _] := hp p h; rewrite /dim dp.
split; first by rewrite /= dh /= ed es d e1.
move=> ix; rewrite /= dh /= ed; case: ix => [|i [|j [|? ?]]] //=; rewrite ?andbF // andbT => /andP[hi hj].
have [l1 l2] := locate_lt hi; have ls := locate_sum hi; have [dp cp] := hp _ l1.
rewrite cp; last by rewrite dp /= l2 hj.
by rewrite /= /shift /= -ls add0n.
Qed.
Example concatenate_split_column_case : matrix (mat 5 1 addn) /\ sumn [:: 2; 3] = dim (mat 5 1 addn) 0. Proof. by []. Qed.
Print Assumptions concatenate_split_column_partial.

(** Splitting the rows of a matrix with several columns does not give its rows back. *)
Theorem split_concatenate_rows_refuted : forall n, 20 < n ->
  ~ exists2 out, rbind (concatenate 0 (fun x y => x == y) id n [:: 0] [:: Obj Plain counting; Obj Plain counting])
    (fun a => split [:: 0] a [:: [:: 2]; [:: 2]]) = Val out & all_same out [:: counting; counting].
Proof.
move=> n /enough[k ->] [out e [_ /(_ 0 isT) [d _]]].
pose f (r : res (seq (arr nat))) := if r is Val (b :: _) then dims b else [::].
have {e} : f (Val out) = [:: 2; 1] by rewrite -e; vm_compute.
by move: d; case: (out) => //= b _ ->.
Qed.
Print Assumptions split_concatenate_rows_refuted.
