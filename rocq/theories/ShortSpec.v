(** * What the linear-algebra functions should return, component by component.

    Nothing here refers to branches, kinds or static information: a matrix is its dimensions and components. *)
From mathcomp Require Import all_ssreflect all_algebra.
From Verif Require Import ShortModel.
Set Implicit Arguments.
Unset Strict Implicit.
Unset Printing Implicit Defensive.
Import GRing.Theory Num.Theory Order.Theory.
Local Open Scope ring_scope.

Section Spec.
Variable R : rcfType.
Implicit Types m : mat R.

(** Equal dimensions and equal components inside them. *)
Definition same m1 m2 : Prop :=
  [/\ mrows m1 = mrows m2, mcols m1 = mcols m2 &
   forall i j, (i < mrows m1)%N -> (j < mcols m1)%N -> mat_at m1 i j = mat_at m2 i j].

(** The result is a value, and that value is the matrix [m]. *)
Definition returns (r : res (mat R)) m : Prop := exists m', r = Val m' /\ same m' m.

Definition square m : Prop := mrows m = mcols m.

Definition product m1 m2 : mat R :=
  Mat (mrows m1) (mcols m2) (fun i j => \sum_(k < mcols m1) mat_at m1 i k * mat_at m2 k j).

Definition transposed m : mat R := Mat (mcols m) (mrows m) (fun i j => mat_at m j i).

Definition scaled m (s : R) : mat R := Mat (mrows m) (mcols m) (fun i j => mat_at m i j * s).

Definition trace_of m : R := \sum_(i < minn (mrows m) (mcols m)) mat_at m i i.

Definition det_of m : R := \det (\matrix_(i < mrows m, j < mrows m) mat_at m i j).

Definition sum_of m0 (ms : seq (mat R)) : mat R :=
  Mat (mrows m0) (mcols m0) (fun i j => \sum_(m <- m0 :: ms) mat_at m i j).

(** The components that reducing the indices [idx] combines into component (i, j), in storage order. *)
Definition group (idx : seq nat) m (i j : nat) : seq R :=
  [seq mat_at m p.2 p.1 | p <- [seq (y, x) | y <- iota 0 (mcols m), x <- iota 0 (mrows m)] &
     ((0%N \in idx) || (p.2 == i)) && ((1%N \in idx) || (p.1 == j))].

(** Combining the elements of a non-empty list. *)
Definition fold1 (f : R -> R -> R) (s : seq R) : R := if s is x :: s' then foldl f x s' else 0.

Definition reduced_of (f : R -> R -> R) (idx : seq nat) m : mat R :=
  Mat (if 0%N \in idx then 1%N else mrows m) (if 1%N \in idx then 1%N else mcols m)
      (fun i j => fold1 f (group idx m i j)).

Definition average_of (idx : seq nat) m : mat R :=
  Mat (if 0%N \in idx then 1%N else mrows m) (if 1%N \in idx then 1%N else mcols m)
      (fun i j => (\sum_(x <- group idx m i j) x) / (size (group idx m i j))%:R).

(** All components. *)
Definition total_of m : R := \sum_(i < mrows m) \sum_(j < mcols m) mat_at m i j.
Definition product_of m : R := \prod_(i < mrows m) \prod_(j < mcols m) mat_at m i j.

(** A real symmetric matrix. *)
Definition symmetric m : Prop :=
  square m /\ forall i j, (i < mrows m)%N -> (j < mcols m)%N -> mat_at m i j = mat_at m j i.

Definition lower_triangular m : Prop :=
  forall i j, (i < mrows m)%N -> (j < mcols m)%N -> (i < j)%N -> mat_at m i j = 0.
Definition upper_triangular m : Prop :=
  forall i j, (i < mrows m)%N -> (j < mcols m)%N -> (j < i)%N -> mat_at m i j = 0.

(** A square matrix with a two-sided inverse. *)
Definition unit_matrix (n : nat) : mat R := Mat n n (fun i j => if i == j then 1 else 0).
Definition invertible m : Prop :=
  square m /\ exists w, [/\ mrows w = mrows m, mcols w = mcols m,
    same (product m w) (unit_matrix (mrows m)) & same (product w m) (unit_matrix (mrows m))].

(** The static description of a type allows rectangular diagonal matrices; this excludes them. *)
Definition square_if_diagonal (o : obj R) : Prop :=
  match okind o with
  | KCDiag _ _ | KDiag _ => orows o = ocols o
  | _ => True
  end.

(** The object is stored as its diagonal (a constant diagonal, or a diagonal adapter). *)
Definition diag_kind (o : obj R) : bool := match okind o with KCDiag _ _ | KDiag _ => true | _ => false end.
Definition is_kcdiag (o : obj R) : bool := if okind o is KCDiag _ _ then true else false.

(** A non-empty list of the indices 0 and 1, possibly with repetitions. *)
Definition idx_ok (idx : seq nat) := (idx != [::]) && all (fun i => (i < 2)%N) idx.

(** When adding along an index of a diagonal matrix is right: the rows are added up (perhaps among others), a
    dimension is known only at run time, the matrix has more rows than columns or one row, or it is a multiple of
    the identity. *)
Definition plus_cond (o : obj R) (idx : seq nat) : bool :=
  [|| 0%N \in idx, ~~ (rfix o && cfix o), (ocols o < orows o)%N, orows o == 1%N | is_kcdiag o].

(** The contract of the library's LQ decomposition. *)
Definition lq_contract (lq : mat R -> mat R) : Prop := forall m,
  [/\ mrows (lq m) = mrows m, mcols (lq m) = mrows m, lower_triangular (lq m) &
      same (product (lq m) (transposed (lq m))) (product m (transposed m))].

(** [x] solves [m x = w] and has as many rows as [m] has columns. *)
Definition solves m w (x : mat R) : Prop :=
  [/\ mrows x = mcols m, mcols x = mcols w & same (product m x) w].

(** The contract of the library's solver, for invertible matrices only. *)
Definition solve_contract (sv : bool -> bool -> mat R -> mat R -> res (mat R)) : Prop :=
  forall u e m w, invertible m -> mrows w = mrows m ->
  exists x, [/\ sv u e m w = Val x, mrows x = mcols m, mcols x = mcols w & same (product m x) w].

(** A matrix held in a dynamically sized, unstructured object. *)
Definition dense m : obj R := Obj (KDense (mat_at m)) (mrows m) (mcols m) false false false.

End Spec.
