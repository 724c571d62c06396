(** What writing into an object means, independently of loops, positions and temporaries. *)
From Coq Require Import List Arith Bool.
From Verif Require Import StlModel StlSpec WriteModel.
Import ListNotations.

(** ** Copying *)

(** The place of a component in the buffer of the destination. *)
Definition slot (m : mapping) (i : nat -> nat) : nat := m_call m (indices i (rank m)).
Definition is_slot (m : mapping) (o : nat) : Prop := exists i, in_extents m i /\ slot m i = o.
Definition fits_in (m : mapping) (n : nat) : Prop := forall i, in_extents m i -> slot m i < n.

Section Copying.
Variable V : Type.
Variable zero : V.
Variables conj re : V -> V.

(** A source that can be read, of the size of the destination, whatever the buffer of the
    destination (of n elements) holds. *)
Definition same_size_source (m : mapping) (source : list V -> view V) (n : nat) : Prop :=
  forall st, length st = n ->
    buildable (source st) /\ readable (source st) /\
    rank (map_of (source st)) <= rank m /\
    forall k, shape (source st) k = extent m k.

(** A source whose component i depends, of the components of the destination, only on
    component i. *)
Definition componentwise_source (m : mapping) (source : list V -> view V) (n : nat) : Prop :=
  forall st st' i, length st = n -> length st' = n -> in_extents m i ->
    (forall o, o = slot m i \/ ~ is_slot m o -> nth_error st' o = nth_error st o) ->
    elem zero conj re (source st') i = elem zero conj re (source st) i.

(** The destination holds the components of [src]; the rest of its buffer is as before. *)
Definition holds_copy (m : mapping) (src : view V) (st st' : list V) : Prop :=
  length st' = length st /\
  (forall i, in_extents m i -> nth_error st' (slot m i) = Some (elem zero conj re src i)) /\
  (forall o, ~ is_slot m o -> nth_error st' o = nth_error st o).

End Copying.
Arguments same_size_source {V}. Arguments componentwise_source {V}. Arguments holds_copy {V}.

(** ** Lists of values and blocks *)

Section Lists.
Variable V : Type.

Definition as_block (it : item V) : block V :=
  match it with Scalar x => Block 1 1 (fun _ _ => x) | Matrix b => b end.
Definition height (row : list (item V)) : nat :=
  match row with it :: _ => b_rows (as_block it) | [] => 0 end.
Definition width (row : list (item V)) : nat :=
  list_sum (map (fun it => b_cols (as_block it)) row).

(** Rows of blocks that tile a matrix of R rows and C columns. *)
Definition good_row (C : nat) (row : list (item V)) : Prop :=
  row <> [] /\ width row = C /\
  forall it, In it row ->
    b_rows (as_block it) = height row /\ 0 < b_rows (as_block it) /\ 0 < b_cols (as_block it).
Definition tiles (R C : nat) (rows : list (list (item V))) : Prop :=
  rows <> [] /\ (forall row, In row rows -> good_row C row) /\
  list_sum (map height rows) = R.

(** The component at (i, j) of blocks side by side, and of rows of blocks one below the
    other; [d] stands where there is none. *)
Fixpoint beside (d : V) (row : list (item V)) (i j : nat) : V :=
  match row with
  | [] => d
  | it :: r =>
      if j <? b_cols (as_block it) then b_at (as_block it) i j
      else beside d r i (j - b_cols (as_block it))
  end.
Fixpoint below (d : V) (rows : list (list (item V))) (i j : nat) : V :=
  match rows with
  | [] => d
  | row :: r => if i <? height row then beside d row i j else below d r (i - height row) j
  end.

Definition same_on (R C : nat) (m m' : mat V) : Prop :=
  forall i j, i < R -> j < C -> m i j = m' i j.

(** A function on columns of R components that looks at no other component. *)
Definition on_columns (R : nat) (wrap : (nat -> V) -> nat -> V) : Prop :=
  forall x y, (forall k, k < R -> x k = y k) -> forall k, k < R -> wrap x k = wrap y k.
End Lists.
Arguments as_block {V}. Arguments height {V}. Arguments width {V}. Arguments good_row {V}.
Arguments tiles {V}. Arguments beside {V}. Arguments below {V}. Arguments same_on {V}.
Arguments on_columns {V}.

(** ** Triangles *)

(** The objects on which set_triangle<t> writes what it says (what is excluded is refuted in
    WriteProperties.v). *)
Section Triangles.
Variable V : Type.
Variables R C : nat.

Fixpoint settable (t : tri) (a : target V) : Prop :=
  match a with
  | TNative _ => True
  | TGeneric _ => t = Diagonal /\ R <= C
  | TTriangular s a' => (t = s \/ t = Diagonal) /\ settable t a'
  | THermitian s a' => s <> Diagonal /\ (t = s \/ t = Diagonal) /\ R = C /\ settable t a'
  | TDiagonal _ => t = Diagonal
  end.

Definition hermitian_outside (a : target V) : bool :=
  match a with THermitian _ _ => true | _ => false end.

Fixpoint has_hermitian (a : target V) : bool :=
  match a with
  | TNative _ | TGeneric _ | TDiagonal _ => false
  | TTriangular _ a' => has_hermitian a'
  | THermitian _ _ => true
  end.
End Triangles.
Arguments settable {V}. Arguments hermitian_outside {V}. Arguments has_hermitian {V}.
