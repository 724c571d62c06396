(** Specification vocabulary for the statistical-space adapters. *)
From Coq Require Import Reals List Arith Bool.
From Verif Require Import PatModel StatModel.
Import ListNotations.

(** The patterns of an object have the dimensions of its components; indices beyond the last have dimension one. *)
Definition has_shape (e : list extent) (p : list pattern) : Prop :=
  forall i, len (nth i e (Extent 1 true)) = get_dimension (descs (nth i p (Pattern [Dim 1] true))).

(** Indices [j] for the columns of an object: one below each extent after the first, as many as the object has. *)
Definition column_index (e : list extent) (j : list nat) : Prop :=
  length e <= S (length j) /\ forall k, nth k j 0 < len (nth (S k) e (Extent 1 true)).

(** The column at [j]: the components (0, j), (1, j), ... *)
Definition column (o : object) (n : nat) (j : list nat) : list sr := map (fun i => o_get o (firstn (length (o_ext o)) (i :: j))) (seq 0 n).

(** The pattern of the rows. *)
Definition rows (p : list pattern) : list desc := descs (nth 0 p (Pattern [Dim 1] true)).

(** All sizes are known at compile time. *)
Definition static (o : object) : Prop := forall i, fixedp (nth i (o_pat o) (Pattern [Dim 1] true)) = true.

(** Some size is known only at run time. *)
Definition dynamic (o : object) : Prop :=
  exists i, known (nth i (o_ext o) (Extent 1 true)) = false /\ fixedp (nth i (o_pat o) (Pattern [Dim 1] true)) = false.

(** An object in statistical space for patterns [p]: the rows have the statistical dimension. *)
Definition stat_shape (o : object) (p : list pattern) : Prop :=
  len (nth 0 (o_ext o) (Extent 1 true)) = get_stat_dimension (rows p) /\
  forall k, len (nth (S k) (o_ext o) (Extent 1 true)) = get_dimension (descs (nth (S k) p (Pattern [Dim 1] true))).

(** ** Value semantics of variables: a copy has the components of the original, and its own. *)
Definition contents : Type := list extent * list (option R).
Definition assign (f : nat -> option contents) (x : nat) (v : option contents) : nat -> option contents :=
  fun y => if Nat.eqb y x then v else f y.
Definition place (e : list extent) (i : list nat) : nat := layout_left e (firstn (length e) i).
Definition value_step (f : nat -> option contents) (op : operation) : nat -> option contents :=
  match op with
  | Construct x a => assign f x (Some (a_ext a, a_store a))
  | Copy y x | Move y x | Assign y x => assign f y (f x)
  | Destroy x => assign f x None
  | Write x i v => match f x with Some (e, s) => assign f x (Some (e, set_nth s (place e i) (Some v))) | None => f end
  end.
Definition value_run (ops : list operation) : nat -> option contents := fold_left value_step ops (fun _ => None).
Definition value_read (f : nat -> option contents) (x : nat) (i : list nat) : res R :=
  match f x with
  | Some (e, s) => match nth_error s (place e i) with Some (Some v) => Ret v | _ => Undef end
  | None => Undef
  end.

Definition no_copies (op : operation) : Prop := match op with Copy _ _ | Move _ _ | Assign _ _ => False | _ => True end.
Definition no_changes (op : operation) : Prop := match op with Destroy _ | Write _ _ _ | Assign _ _ => False | _ => True end.
