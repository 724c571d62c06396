(** What the claims about an object mean for its sizes and components, and which objects
    can be relied on.  Nothing here mentions how the claims are computed, except [ok], which
    lists the combinations of adapters for which they can be trusted; each combination left
    out is refuted in AdaptProperties.v. *)
From Coq Require Import List Arith Bool.
From Verif Require Import StlModel StlSpec AdaptModel.
Import ListNotations.

Definition zeros (k : nat) : nat := 0.
(** Index tuples with two indices exchanged, with the first index dropped, and doubled. *)
Definition exchanged (a b : nat) (i : nat -> nat) : nat -> nat := fun k => i (swap a b k).
Definition dropped (i : nat -> nat) : nat -> nat := fun k => i (S k).
Definition doubled (i : nat -> nat) (k : nat) : nat := match k with 0 => i 0 | S k' => i k' end.
Definition swapped (i : nat -> nat) : nat -> nat := fun k => i (swap 0 1 k).

(** The part of a matrix a triangle type speaks of. *)
Definition inside (t : ttype) (i : nat -> nat) : Prop :=
  match t with
  | None => True
  | Some Lower => i 1 <= i 0
  | Some Upper => i 0 <= i 1
  | Some Diagonal => i 0 = i 1
  end.

Section Meaning.
Variable V : Type.
Variable zero : V.
Variables conj re : V -> V.

(** [size k] is the size along index k, [at_ i] the component at i. *)
Variable size : nat -> nat.
Variable at_ : (nat -> nat) -> V.

Definition within (i : nat -> nat) : Prop := forall k, i k < size k.

Definition is_constant (c : V) : Prop := forall i, within i -> at_ i = c.
Definition is_constant_diagonal (c : V) : Prop :=
  forall i, within i -> at_ i = (if i 0 =? i 1 then c else zero).
Definition is_triangular (t : ttype) : Prop := forall i, within i -> ~ inside t i -> at_ i = zero.
Definition is_square (n : nat) : Prop := forall k, k < n -> size k = size 0.
Definition is_hermitian : Prop :=
  is_square 2 /\ forall i, within i -> at_ i = conj (at_ (swapped i)).
Definition is_one_dimensional : Prop := forall k, size k = 1.
Definition is_vector (n : nat) : Prop := forall k, k <> n -> size k = 1.
End Meaning.

Arguments within size i /.
Arguments is_constant {V}. Arguments is_constant_diagonal {V}. Arguments is_triangular {V}.
Arguments is_hermitian {V}.

(** The scalars: what is assumed of conjugation, real parts and the two compile-time tests. *)
Definition scalar_laws (V : Type) (zero : V) (conj re : V -> V) (isz isr : V -> bool) : Prop :=
  conj zero = zero /\ re zero = zero /\
  (forall x, conj (conj x) = x) /\
  (forall x, conj (re x) = re x) /\ (forall x, conj x = x -> re x = x) /\
  (forall x, isz x = true -> x = zero) /\ (forall x, isr x = true -> conj x = x).

Section Ok.
Variable V : Type.
Variable zero : V.
Variables conj re : V -> V.
Variables isz isr : V -> bool.

Notation traits := (traits zero conj re isz isr).
Notation tri_of := (triangle_type_of isz).

(** A constant on a triangle only is no constant and no constant diagonal: a triangular
    adapter on a constant. *)
Definition no_triangle_of_constants (c : claims V) : Prop :=
  c_get c <> None -> constant_object isz c || constant_diagonal_object isz c = true.

Fixpoint ok (o : obj V) : Prop :=
  match o with
  | ODense cx v =>
      (match v with VLeft _ _ | VRight _ _ | VStride _ _ _ => True | _ => False end) /\
      (cx = false -> forall i, in_shape v i -> conj (elem zero conj re v i) = elem zero conj re v i)
  | OConst cx _ c _ => cx = false -> conj c = c
  | OToDiag o p =>            (* the diagonal of p has the shape of the argument *)
      ok o /\ forall k, shape (forget o) k = dim_at (pat_diagonal_of p) k
  | ODiag o => ok o /\ no_triangle_of_constants (traits o)      (* or it does not compile *)
  | OTri _ o => ok o
  | OHerm t o => ok o /\ t <> Diagonal /\ shape (forget o) 0 = shape (forget o) 1
  | OTrans a b o =>
      ok o /\ a < b /\
      (b = 1 \/
       (tri_of (traits o) = None /\ hermitian_matrix isz isr (traits o) = false /\
        forall n, 2 <= n <= b -> square_shaped (traits o) n false = false /\
                                 square_shaped (traits o) n true = true))
  | OConj o => ok o /\ forall known c, c_get (traits o) = Some (known, c) -> conj c = c
  | OPat p o =>
      ok o /\ (forall k, dim_at p k = shape (forget o) k) /\
      (length p <> 1 \/ length (c_pats (traits o)) <= 1) /\
      (c_get (traits o) = None \/ tri_of (traits o) = None \/ tri_of (traits o) = Some Diagonal \/
       forall k, fixed (get_pattern p k) = fixed (get_pattern (c_pats (traits o)) k))
  end.

(** Object [r] has the sizes [size], both along its patterns and in storage, and the
    components [at_]. *)
Definition gives (r : obj V) (size : nat -> nat) (at_ : (nat -> nat) -> V) : Prop :=
  (forall k, shape (forget r) k = size k) /\
  (forall k, dim_at (c_pats (traits r)) k = size k) /\
  forall i, within size i -> elem zero conj re (forget r) i = at_ i.

(** Where transpose<a, b> can be relied on: a < b = 1, a constant, or nothing claimed about
    the first two indices. *)
Definition plain_for (b : nat) (o : obj V) : Prop :=
  b = 1 \/ constant_object isz (traits o) = true \/
  (constant_diagonal_object isz (traits o) = false /\ hermitian_matrix isz isr (traits o) = false /\
   diagonal_matrix isz (traits o) = false).

End Ok.
Arguments plain_for {V}.
Arguments gives {V}.
Arguments ok {V}. Arguments no_triangle_of_constants {V}.
