(** Properties C106, C107, C108: writing into an existing object. *)
From Coq Require Import List Arith Bool ZArith Lia.
From Verif Require Import StlModel StlSpec StlProofs StlProofs2
  WriteModel WriteSpec WriteProofs WriteProofs2.
Import ListNotations.

(** Elements for the examples: Gaussian integers. *)
Definition gi : Type := (Z * Z)%type.
Definition gconj (z : gi) : gi := (fst z, - snd z)%Z.
Definition gre (z : gi) : gi := (fst z, 0%Z).
Definition g0 : gi := (0, 0)%Z.
Definition dy (n : nat) : ext := Ext n false.
Definition fx (n : nat) : ext := Ext n true.
Definition at2 (i j : nat) (k : nat) : nat := match k with 0 => i | 1 => j | _ => 0 end.

(** * C106 copy_from makes the destination equal to the source. *)

Section Copy.
Variable V : Type.
Variable zero : V.
Variables conj re : V -> V.

(** Every component of the destination becomes that of the source as it was before the call,
    and the rest of the destination's buffer is untouched.  The source may read the same
    buffer, if each of its components reads no other component of the destination. *)
Theorem copy_from_partial :
  forall (m : mapping) (source : list V -> view V) (st : list V),
  injective_map m -> fits_in m (length st) ->
  same_size_source m source (length st) ->
  componentwise_source zero conj re m source (length st) ->
  exists st', copy_from zero conj re m source st = Done st' /\
    holds_copy zero conj re m (source st) st st'.
Proof. intros. now apply copy_ok. Qed.

(** In particular a source with storage of its own. *)
Theorem copy_from_elsewhere_partial :
  forall (m : mapping) (v : view V) (st : list V),
  injective_map m -> fits_in m (length st) ->
  buildable v -> readable v -> rank (map_of v) <= rank m ->
  (forall k, shape v k = extent m k) ->
  exists st', copy_from zero conj re m (fun _ => v) st = Done st' /\
    holds_copy zero conj re m v st st'.
Proof.
  intros m v st I F B R K S. apply (copy_from_partial m (fun _ => v) st); auto.
  - intros st' _. auto.
  - intros st1 st2 i _ _ _ _. reflexivity.
Qed.

End Copy.
Print Assumptions copy_from_partial.
Print Assumptions copy_from_elsewhere_partial.

(** A 2 x 3 matrix in the rows of a wider buffer (column-major, stride 3), conjugated in
    place: the slots between the columns stay as they are. *)
Definition padded23 : mapping := layout_stride [dy 2; dy 3] [1; 3].
Definition conjugated_in_place (st : list gi) : view gi :=
  VConjugate (VStride [dy 2; dy 3] [1; 3] st).
Definition buffer8 : list gi := map (fun n => (Z.of_nat n, 1%Z)) (seq 0 8).

Example copy_from_example :
  injective_map padded23 /\ fits_in padded23 (length buffer8) /\
  same_size_source padded23 conjugated_in_place (length buffer8) /\
  componentwise_source g0 gconj gre padded23 conjugated_in_place (length buffer8) /\
  copy_from g0 gconj gre padded23 conjugated_in_place buffer8 =
    Done [(0, -1); (1, -1); (2, 1); (3, -1); (4, -1); (5, 1); (6, -1); (7, -1)]%Z.
Proof.
  split; [|split; [|split; [|split; [|reflexivity]]]].
  - intros i j I J E k.
    assert (I0 := I 0). assert (I1 := I 1). assert (J0 := J 0). assert (J1 := J 1).
    cbn in *.
    assert (i 0 = j 0 /\ i 1 = j 1) as [A B] by lia.
    destruct k as [|[|k]]; auto. specialize (I (S (S k))). specialize (J (S (S k))).
    destruct k; cbn in I, J; lia.
  - intros i I. assert (I0 := I 0). assert (I1 := I 1). cbn in *. lia.
  - intros st L. split; [|split; [|split]].
    + cbn. split; [reflexivity|]. change (length buffer8) with 8 in L. lia.
    + cbn. auto.
    + cbn. lia.
    + intros k. reflexivity.
  - intros st st' i L L' I H. cbn [conjugated_in_place elem]. f_equal.
    assert (E : strided_at [1; 3] i = slot padded23 i) by (cbn; lia).
    rewrite E.
    specialize (H (slot padded23 i) (or_introl eq_refl)).
    destruct (nth_error st (slot padded23 i)) eqn:Q.
    + erewrite !nth_error_nth by eassumption. reflexivity.
    + rewrite !nth_overflow by (now apply nth_error_None). reflexivity.
Qed.

(** A matrix copied onto itself transposed loses a triangle: the first writes are read
    again. *)
Definition square2 : mapping := layout_left [dy 2; dy 2].
Definition transposed_in_place (st : list gi) : view gi :=
  VTranspose 0 1 (VLeft [dy 2; dy 2] st).
Definition buffer4 : list gi := [(1, 0); (2, 0); (3, 0); (4, 0)]%Z.

Theorem copy_transpose_in_place_refuted :
  exists (m : mapping) (source : list gi -> view gi) (st : list gi),
    injective_map m /\ fits_in m (length st) /\ same_size_source m source (length st) /\
    exists st', copy_from g0 gconj gre m source st = Done st' /\
      ~ holds_copy g0 gconj gre m (source st) st st'.
Proof.
  exists square2, transposed_in_place, buffer4. split; [|split; [|split]].
  - intros i j I J E k.
    assert (I0 := I 0). assert (I1 := I 1). assert (J0 := J 0). assert (J1 := J 1).
    cbn in *.
    assert (i 0 = j 0 /\ i 1 = j 1) as [A B] by lia.
    destruct k as [|[|k]]; auto. specialize (I (S (S k))). specialize (J (S (S k))).
    destruct k; cbn in I, J; lia.
  - intros i I. assert (I0 := I 0). assert (I1 := I 1). cbn in *. lia.
  - intros st L. change (length buffer4) with 4 in L. split; [|split; [|split]].
    + cbn. repeat split; try lia.
    + cbn. auto.
    + cbn. lia.
    + intros [|[|k]]; reflexivity.
  - eexists. split; [reflexivity|]. intros (_ & H & _).
    specialize (H (at2 1 0)).
    assert (I : in_extents square2 (at2 1 0)) by (intros [|[|[|k]]]; cbn; lia).
    specialize (H I). vm_compute in H. discriminate.
Qed.
Print Assumptions copy_transpose_in_place_refuted.

(** Sizes known at run time are not compared: a larger source is written past the end of the
    destination, and a smaller one replaces a corner of it. *)
Theorem copy_larger_source_refuted :
  exists (m : mapping) (v : view gi) (st : list gi),
    injective_map m /\ fits_in m (length st) /\ buildable v /\ readable v /\
    rank (map_of v) = rank m /\ (exists k, extent m k < shape v k) /\
    copy_from g0 gconj gre m (fun _ => v) st = Undefined.
Proof.
  exists square2, (VLeft [dy 3; dy 3] (repeat g0 9)), buffer4.
  split; [|split; [|split; [|split; [|split; [|split]]]]].
  - intros i j I J E k.
    assert (I0 := I 0). assert (I1 := I 1). assert (J0 := J 0). assert (J1 := J 1).
    cbn in *.
    assert (i 0 = j 0 /\ i 1 = j 1) as [A B] by lia.
    destruct k as [|[|k]]; auto. specialize (I (S (S k))). specialize (J (S (S k))).
    destruct k; cbn in I, J; lia.
  - intros i I. assert (I0 := I 0). assert (I1 := I 1). cbn in *. lia.
  - cbn. lia.
  - cbn. auto.
  - reflexivity.
  - exists 0. cbn. lia.
  - reflexivity.
Qed.
Print Assumptions copy_larger_source_refuted.

Theorem copy_smaller_source_refuted :
  exists (m : mapping) (v : view gi) (st st' : list gi),
    buildable v /\ readable v /\ rank (map_of v) = rank m /\ (exists k, shape v k < extent m k) /\
    copy_from g0 gconj gre m (fun _ => v) st = Done st' /\ st' <> st /\
    exists i, in_extents m i /\ nth_error st' (slot m i) = nth_error st (slot m i) /\
      nth_error st' (slot m i) <> Some (elem g0 gconj gre v i).
Proof.
  exists (layout_left [dy 2; dy 2]), (VLeft [dy 1; dy 1] [(9, 0)%Z]), buffer4,
    [(9, 0); (2, 0); (3, 0); (4, 0)]%Z.
  split; [cbn; lia|]. split; [cbn; auto|]. split; [reflexivity|]. split; [exists 0; cbn; lia|].
  split; [reflexivity|]. split; [discriminate|].
  exists (at2 1 1). split; [intros [|[|[|k]]]; cbn; lia|]. split; [reflexivity|].
  vm_compute. discriminate.
Qed.
Print Assumptions copy_smaller_source_refuted.

(** * C107 A list of values fills a matrix in order. *)

Section Lists.
Variable V : Type.
Variable d : V.

(** Values and blocks that tile the matrix, in as many statements as one likes. *)
Theorem matrix_from_list :
  forall (chk : bool) (R C : nat) (m : mat V) rows first later,
  tiles R C rows -> first <> [] -> first ++ concat later = concat rows ->
  exists m', comma_program Plain chk R C m first later = Done m' /\
    forall i j, i < R -> j < C -> m' i j = below d rows i j.
Proof.
  intros chk R C m rows first later T N E. destruct first as [|it rest]; [congruence|].
  eapply program_plain; eauto.
Qed.

(** A mean filled in one statement, or with a first statement of one item, is wrapped as a
    whole. *)
Theorem mean_from_list_partial :
  forall (wrap : (nat -> V) -> nat -> V) (chk : bool) (R C : nat) (m : mat V) rows first later,
  on_columns R wrap ->
  tiles R C rows -> first <> [] -> later = [] \/ length first = 1 ->
  first ++ concat later = concat rows ->
  exists m', comma_program (MeanOf wrap) chk R C m first later = Done m' /\
    forall i j, i < R -> j < C -> m' i j = wrap (fun k => below d rows k j) i.
Proof.
  intros wrap chk R C m rows first later O T N S E. destruct first as [|it rest]; [congruence|].
  destruct (program_mean V d wrap chk R C m rows (it :: rest) later it rest O T eq_refl)
    as (m' & P & Q); eauto.
  destruct S as [S|S]; [now right|]. left. destruct rest; [reflexivity|discriminate].
Qed.

(** A diagonal matrix of fixed size from the list of its diagonal. *)
Theorem diagonal_from_list_partial :
  forall (zero : V) (chk : bool) (n : nat) (scratch m : mat V) rows first later,
  tiles n 1 rows -> first <> [] -> later = [] \/ length first = 1 ->
  first ++ concat later = concat rows ->
  exists m',
    comma_program (Held n 1 scratch (column_to_diagonal zero)) chk n n m first later = Done m' /\
    forall i j, i < n -> j < n -> m' i j = if i =? j then below d rows i 0 else zero.
Proof.
  intros zero chk n scratch m rows first later T N S E. destruct first as [|it rest]; [congruence|].
  destruct (program_held V d n 1 scratch (column_to_diagonal zero) chk n n m rows
    (it :: rest) later it rest) as (m' & P & Q); eauto.
  - intros a b H i j I J. unfold column_to_diagonal. destruct (i =? j); auto.
  - destruct S as [S|S]; [now right|]. left. destruct rest; [reflexivity|discriminate].
Qed.

(** Plain values are taken row by row, and their number is checked only where assertions
    are on. *)
Theorem matrix_from_values :
  forall (chk : bool) (R C : nat) (m : mat V) (xs : list V),
  0 < R -> 0 < C -> xs <> [] ->
  match Nat.compare (length xs) (R * C) with
  | Eq => exists m', comma_statement chk R C m (map Scalar xs) = Done m' /\
            forall i j, i < R -> j < C -> m' i j = nth (i * C + j) xs d
  | Lt => if chk then comma_statement chk R C m (map Scalar xs) = Stopped
          else exists m', comma_statement chk R C m (map Scalar xs) = Done m' /\
            forall i j, i < R -> j < C -> m' i j = nth (i * C + j) xs (m i j)
  | Gt => comma_statement chk R C m (map Scalar xs) = if chk then Stopped else Undefined
  end.
Proof.
  intros chk R C m xs H1 H2 N. destruct (Nat.compare_spec (length xs) (R * C)) as [E|E|E].
  - now apply values_ok.
  - now apply values_too_few.
  - now apply values_too_many.
Qed.

(** fill_components, in either layout, in an object whose sizes are known at compile time
    or not. *)
Theorem fill_components_partial :
  forall (chk : bool) (l : layout) (e0 e1 : ext) (m : mat V) (xs : list V),
  xs <> [] -> length xs = dim e0 * dim e1 ->
  exists m', fill_components chk l e0 e1 m xs = Some (Done m') /\
    forall i j, i < dim e0 -> j < dim e1 ->
      m' i j =
        nth (match l with LayoutRight => i * dim e1 + j | LayoutLeft => j * dim e0 + i end) xs d.
Proof. intros. now apply fill_ok. Qed.

(** A call with fewer values than a matrix of fixed size holds does not compile. *)
Theorem fill_components_too_few :
  forall (chk : bool) (l : layout) (e0 e1 : ext) (m : mat V) (xs : list V),
  fixed e0 = true -> fixed e1 = true -> xs <> [] -> length xs < dim e0 * dim e1 ->
  fill_components chk l e0 e1 m xs = None.
Proof.
  intros chk l e0 e1 m xs F0 F1 N L.
  destruct (fill_components chk l e0 e1 m xs) eqn:E; [|reflexivity].
  destruct (fill_accepts V chk l e0 e1 m xs F0 F1 N) as (q & Q & Q'); [congruence|]. nia.
Qed.

End Lists.
Print Assumptions matrix_from_list.
Print Assumptions mean_from_list_partial.
Print Assumptions diagonal_from_list_partial.
Print Assumptions matrix_from_values.
Print Assumptions fill_components_partial.
Print Assumptions fill_components_too_few.

(** A 3 x 3 matrix from a 2 x 2 block, a 2 x 1 block, two values and a 1 x 1 block, in two
    statements. *)
Definition tiling33 : list (list (item nat)) :=
  [[Matrix (Block 2 2 (fun i j => 10 * i + j)); Matrix (Block 2 1 (fun i _ => 5 + i))];
   [Scalar 7; Scalar 8; Matrix (Block 1 1 (fun _ _ => 9))]].
Example lists_example :
  tiles 3 3 tiling33 /\
  firstn 3 (concat tiling33) ++ concat [skipn 3 (concat tiling33)] = concat tiling33 /\
  match comma_program Plain true 3 3 (fun _ _ => 99) (firstn 3 (concat tiling33))
          [skipn 3 (concat tiling33)] with
  | Done m => map (fun i => map (m i) (seq 0 3)) (seq 0 3) = [[0; 1; 5]; [10; 11; 6]; [7; 8; 9]]
  | _ => False
  end /\
  match fill_components true LayoutLeft (fx 2) (dy 3) (fun _ _ => 99) [1; 2; 3; 4; 5; 6] with
  | Some (Done m) => map (fun i => map (m i) (seq 0 3)) (seq 0 2) = [[1; 3; 5]; [2; 4; 6]]
  | _ => False
  end.
Proof.
  split; [|split; [|split]]; try reflexivity.
  split; [discriminate|]. split; [|reflexivity].
  intros row [E|[E|[]]]; subst row; (split; [discriminate|]); (split; [reflexivity|]);
    intros it I; repeat (destruct I as [I|I]; [subst it; cbn; lia|]); destruct I.
Qed.

(** A mean of two angles (wrapped to fewer than 360 degrees) and a diagonal matrix. *)
Definition degrees (x : nat -> nat) (k : nat) : nat := x k mod 360.
Definition values (xs : list nat) : list (list (item nat)) := map (fun x => [Scalar x]) xs.
Example held_example :
  on_columns 2 degrees /\ tiles 2 1 (values [400; 30]) /\
  match comma_program (MeanOf degrees) true 2 1 (fun _ _ => 0) [Scalar 400; Scalar 30] [] with
  | Done m => map (fun i => m i 0) (seq 0 2) = [40; 30]
  | _ => False
  end /\
  match comma_program (Held 2 1 (fun _ _ => 77) (column_to_diagonal 0)) true 2 2 (fun _ _ => 1)
          [Scalar 400; Scalar 30] [] with
  | Done m => map (fun i => map (m i) (seq 0 2)) (seq 0 2) = [[400; 0]; [0; 30]]
  | _ => False
  end.
Proof.
  split; [|split; [|split]]; try reflexivity.
  - intros x y H k K. unfold degrees. now rewrite H.
  - split; [discriminate|]. split; [|reflexivity].
    intros row [E|[E|[]]]; subst row; (split; [discriminate|]); (split; [reflexivity|]);
      intros it I; repeat (destruct I as [I|I]; [subst it; cbn; lia|]); destruct I.
Qed.

(** A mean filled in two statements, the first with two values, is not wrapped in what the
    second one adds. *)
Theorem mean_in_two_statements_refuted :
  exists (wrap : (nat -> nat) -> nat -> nat) (R C : nat) rows first later m',
    on_columns R wrap /\ (forall x i, wrap (wrap x) i = wrap x i) /\
    tiles R C rows /\ first ++ concat later = concat rows /\
    comma_program (MeanOf wrap) true R C (fun _ _ => 0) first later = Done m' /\
    exists i j, i < R /\ j < C /\ m' i j <> wrap (fun k => m' k j) i.
Proof.
  exists degrees, 3, 1, (values [400; 30; 730]), [Scalar 400; Scalar 30], [[Scalar 730]].
  eexists. split; [|split; [|split; [|split; [reflexivity|split; [reflexivity|]]]]].
  - intros x y H k K. unfold degrees. now rewrite H.
  - intros x i. unfold degrees. now rewrite Nat.mod_mod.
  - split; [discriminate|]. split; [|reflexivity].
    intros row [E|[E|[E|[]]]]; subst row; (split; [discriminate|]); (split; [reflexivity|]);
      intros it I; repeat (destruct I as [I|I]; [subst it; cbn; lia|]); destruct I.
  - exists 2, 0. split; [lia|]. split; [lia|]. vm_compute. discriminate.
Qed.
Print Assumptions mean_in_two_statements_refuted.

(** A diagonal matrix or covariance cannot be continued in a second statement: the list goes
    on in a matrix that no longer exists. *)
Theorem diagonal_in_two_statements_refuted :
  exists (n : nat) rows first later,
    tiles n 1 rows /\ first ++ concat later = concat rows /\
    forall chk scratch m,
      comma_program (Held n 1 scratch (column_to_diagonal 0)) chk n n m first later = Undefined.
Proof.
  exists 3, (values [4; 3; 7]), [Scalar 4; Scalar 3], [[Scalar 7]].
  split; [|split; [reflexivity|]].
  - split; [discriminate|]. split; [|reflexivity].
    intros row [E|[E|[E|[]]]]; subst row; (split; [discriminate|]); (split; [reflexivity|]);
      intros it I; repeat (destruct I as [I|I]; [subst it; cbn; lia|]); destruct I.
  - intros [|] scratch m; reflexivity.
Qed.
Print Assumptions diagonal_in_two_statements_refuted.

(** Nor can it be filled at all if its size is known at run time only: the held matrix is
    empty. *)
Theorem diagonal_of_run_time_size_refuted :
  forall (x : nat) rest chk scratch n m,
    comma_program (Held 0 1 scratch (column_to_diagonal 0)) chk n n m (Scalar x :: rest) [] =
      if chk then Stopped else Undefined.
Proof. intros x rest [|] scratch n m; reflexivity. Qed.
Print Assumptions diagonal_of_run_time_size_refuted.

(** fill_components accepts a multiple of the number of components, at run time too many. *)
Theorem fill_components_count_refuted :
  exists (e0 e1 : ext) (xs : list nat),
    fixed e0 = true /\ fixed e1 = true /\ xs <> [] /\
    fill_components true LayoutRight e0 e1 (fun _ _ => 0) xs = Some Stopped /\
    fill_components false LayoutRight e0 e1 (fun _ _ => 0) xs = Some Undefined.
Proof.
  exists (fx 2), (fx 2), (seq 1 8). repeat split; try reflexivity. discriminate.
Qed.
Print Assumptions fill_components_count_refuted.

(** * C108 set_triangle changes a triangle and nothing else. *)

Section Triangles.
Variable V : Type.
Variable zero : V.
Variables conj re : V -> V.

(** The components of the named triangle become those of [b]; through a hermitian adapter
    their mirror images follow; every other component stays. *)
Theorem set_triangle_partial :
  forall (R C : nat) (t : tri) (a : target V) (b : mat V),
  settable R C t a ->
  (has_hermitian a = true -> forall i, re (b i i) = b i i) ->
  exists a', set_triangle conj R C t a b = Done a' /\
    forall i j, i < R -> j < C ->
      component zero conj re a' i j =
        if on_triangle t i j then b i j
        else if hermitian_outside a && on_triangle t j i then conj (b j i)
        else component zero conj re a i j.
Proof.
  intros R C t a b S H. destruct (set_triangle_ok V zero conj re R C t b a S H) as (a' & P & _ & Q).
  exists a'. split; [assumption|]. exact Q.
Qed.

(** A dense Eigen matrix of any shape, any triangle. *)
Theorem set_triangle_dense :
  forall (R C : nat) (t : tri) (m b : mat V),
  exists m', set_triangle conj R C t (TNative m) b = Done (TNative m') /\
    forall i j, i < R -> j < C -> m' i j = if on_triangle t i j then b i j else m i j.
Proof.
  intros R C t m b. eexists. split; [reflexivity|]. intros i j I J. unfold set_native.
  destruct (Nat.ltb_spec i R); [|lia]. destruct (Nat.ltb_spec j C); [|lia].
  now rewrite !andb_true_r.
Qed.

End Triangles.
Print Assumptions set_triangle_partial.
Print Assumptions set_triangle_dense.

Definition square_of (f : nat -> nat -> Z * Z) (n : nat) : list (list gi) :=
  map (fun i => map (f i) (seq 0 n)) (seq 0 n).
Definition new33 : mat gi :=
  fun i j => (Z.of_nat (10 * i + j), if Nat.eqb i j then 0%Z else 1%Z).
Definition old33 : mat gi := fun _ _ => (7, 7)%Z.

Example set_triangle_example :
  settable 3 3 Lower (THermitian Lower (TTriangular Lower (TNative old33))) /\
  (forall i, gre (new33 i i) = new33 i i) /\
  match set_triangle gconj 3 3 Lower (THermitian Lower (TTriangular Lower (TNative old33))) new33 with
  | Done a => square_of (component g0 gconj gre a) 3 =
      ([[(0, 0); (10, -1); (20, -1)]; [(10, 1); (11, 0); (21, -1)]; [(20, 1); (21, 1); (22, 0)]]%Z : list (list gi))
  | _ => False
  end.
Proof.
  split; [|split]; [|intros i; unfold gre, new33; now rewrite Nat.eqb_refl|reflexivity].
  cbn. repeat split; auto. discriminate.
Qed.

(** The loops for objects without a set_triangle of their own touch the diagonal only. *)
Theorem generic_set_triangle_refuted :
  forall t, t <> Diagonal ->
  exists m', set_triangle gconj 3 3 t (TGeneric old33) new33 = Done (TGeneric m') /\
    exists i j, i < 3 /\ j < 3 /\ on_triangle t i j = true /\ i <> j /\
      m' i j <> new33 i j /\ m' i j = old33 i j.
Proof.
  intros [| |] N; [| |congruence]; (eexists; split; [reflexivity|]).
  - exists 2, 0. repeat split; try lia. vm_compute. discriminate.
  - exists 0, 2. repeat split; try lia. vm_compute. discriminate.
Qed.
Print Assumptions generic_set_triangle_refuted.

(** The lower loop also skips the first diagonal component, and writes below the last
    column of a tall matrix. *)
Theorem generic_lower_corner_refuted :
  exists m', set_triangle gconj 3 3 Lower (TGeneric old33) new33 = Done (TGeneric m') /\
    m' 0 0 = old33 0 0 /\ m' 0 0 <> new33 0 0.
Proof. eexists. split; [reflexivity|]. split; [reflexivity|]. vm_compute. discriminate. Qed.
Print Assumptions generic_lower_corner_refuted.

Theorem generic_tall_refuted :
  forall t, t <> Upper -> set_triangle gconj 3 2 t (TGeneric old33) new33 = Undefined.
Proof. intros [| |] N; [reflexivity|congruence|reflexivity]. Qed.
Print Assumptions generic_tall_refuted.

(** Setting the other triangle of a hermitian adapter writes where it is never read. *)
Theorem hermitian_other_triangle_refuted :
  forall s t, opposite t s = true ->
  exists a', set_triangle gconj 3 3 t (THermitian s (TNative old33)) new33 = Done a' /\
    forall i j, i < 3 -> j < 3 -> i <> j ->
      component g0 gconj gre a' i j = component g0 gconj gre (THermitian s (TNative old33)) i j /\
      (on_triangle t i j = true -> component g0 gconj gre a' i j <> new33 i j).
Proof.
  intros [| |] [| |] O; try discriminate; (eexists; split; [reflexivity|]);
    intros [|[|[|i]]] [|[|[|j]]] I J N; try lia; try congruence; vm_compute;
    (split; [reflexivity|]); discriminate.
Qed.
Print Assumptions hermitian_other_triangle_refuted.
