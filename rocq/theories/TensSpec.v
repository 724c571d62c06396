(** * Specification for C109 and C110: tensor expressions and tensor components. *)
From Coq Require Import Reals List Bool Arith.
From Coquelicot Require Import Coquelicot.
From Verif Require Import XprEigen XprModel TensModel.
Import ListNotations.
Local Open Scope nat_scope.

(** ** The meaning of each claim, in terms of dimensions and components only. *)
Definition in_range (i ds : list nat) : Prop := Forall2 lt i ds.
Definition all_components (e : texpr) (z : C) : Prop := forall i, in_range i (dims e) -> tcoef e i = z.
(** All the indices are equal. *)
Definition on_diagonal (i : list nat) : Prop := exists a, List.Forall (eq a) i.
Definition diagonal_components (e : texpr) (z : C) : Prop :=
  forall i, in_range i (dims e) ->
    (on_diagonal i -> tcoef e i = z) /\ (~ on_diagonal i -> tcoef e i = C0).
Definition conj_symmetric (e : texpr) (n : nat) : Prop :=
  forall a b, a < n -> b < n -> tcoef e [a; b] = Cconj (tcoef e [b; a]).

Definition product (l : list nat) : nat := fold_right Nat.mul 1 l.

(** ** Legal expressions: what Eigen asks of the operands. *)

(** Each pair names an index of each operand, no index twice, and the two dimensions agree. *)
Definition legal_pairs (ps : list (nat * nat)) (ds es : list nat) : Prop :=
  NoDup (map fst ps) /\ NoDup (map snd ps) /\
  forall p, In p ps -> fst p < length ds /\ snd p < length es /\ nth (fst p) ds 0 = nth (snd p) es 0.
Fixpoint legal (e : texpr) : Prop :=
  match e with
  | TDense _ _ | TConst _ _ | TFixed _ _ | TDiag _ _ _ => True
  | THerm n f => forall a b, a < n -> b < n -> f a b = Cconj (f b a)
  | TUn _ x => legal x
  | TBin _ x y => legal x /\ legal y /\ dims x = dims y
  | TContract ps x y => legal x /\ legal y /\ legal_pairs ps (dims x) (dims y)
  end.
(** Real scalars. *)
Fixpoint real_scalars (e : texpr) : Prop :=
  match e with
  | TDense _ f => forall i, snd (f i) = 0%R
  | TConst _ z | TFixed _ z | TDiag _ _ z => snd z = 0%R
  | THerm _ f => forall a b, snd (f a b) = 0%R
  | TUn _ x => real_scalars x
  | TBin _ x y | TContract _ x y => real_scalars x /\ real_scalars y
  end.
Definition scalars_of (k : kind) (e : texpr) : Prop := match k with Kreal => real_scalars e | Kcplx => True end.

(** ** The uses for which a claim may be false; each exclusion has a counter-example in TensProperties.v. *)
Fixpoint sound_use (e : texpr) : Prop :=
  match e with
  | TDense _ _ | TConst _ _ | TFixed _ _ | TDiag _ _ _ | THerm _ _ => True
  | TUn _ x => sound_use x
  | TBin b x y =>
      sound_use x /\ sound_use y /\
      match b with
      | Difference => constant_claim x <> Value true C0
      | Product => has (constant_claim x) && has (constant_claim y) = true ->
                   constant_claim x = Value true C0 \/ constant_claim y = Value true C0
      | _ => True
      end
  | TContract ps x y =>
      sound_use x /\ sound_use y /\
      let diag := has (diagonal_claim x) in
      (* one pair of indices, or nothing is claimed to be diagonal *)
      (length ps = 1 \/ (diag = false /\ has (diagonal_claim y) = false)) /\
      (* constants: the dimensions that the code multiplies are those that are contracted *)
      (has (diagonal_claim x) = false -> has (diagonal_claim y) = false ->
       has (constant_claim x) = true -> has (constant_claim y) = true ->
       forall p, In p ps -> nth_error (dims e) (fst p) = nth_error (dims x) (fst p))
  end.
(** In addition, for the Hermitian claim with complex scalars: constant diagonals that are contracted are real. *)
Fixpoint real_diagonals (e : texpr) : Prop :=
  match e with
  | TDense _ _ | TConst _ _ | TFixed _ _ | TDiag _ _ _ | THerm _ _ => True
  | TUn _ x => real_diagonals x
  | TBin _ x y => real_diagonals x /\ real_diagonals y
  | TContract _ x y =>
      real_diagonals x /\ real_diagonals y /\
      forall fx z, diagonal_claim x = Value fx z \/ diagonal_claim y = Value fx z -> snd z = 0%R
  end.

(** ** Components. *)

(** The place of the component at [i] in the array: the first index runs fastest, or the last one does. *)
Fixpoint place_left (stride : nat) (ds i : list nat) : nat :=
  match ds, i with d :: r, k :: s => k * stride + place_left (stride * d) r s | _, _ => 0 end.
Fixpoint place_right (ds i : list nat) : nat :=
  match ds, i with _ :: r, k :: s => k * product r + place_right r s | _, _ => 0 end.
(** A tensor whose array has as many elements as its dimensions say. *)
Definition proper {A} (t : storage A) : Prop := length (s_data t) = product (s_dims t).
