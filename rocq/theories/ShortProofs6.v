(** * Reductions: independence of the order of evaluation. *)
From mathcomp Require Import all_ssreflect all_algebra.
From Verif Require Import ShortModel ShortSpec ShortProofs1 ShortProofs2 ShortProofs3.
Set Implicit Arguments.
Unset Strict Implicit.
Unset Printing Implicit Defensive.
Import GRing.Theory Num.Theory Order.Theory.
Local Open Scope ring_scope.
Arguments reduce_impl : simpl never.
Arguments reduce : simpl never.

Section Fold.
Variables (R : rcfType) (f : R -> R -> R).
Hypothesis (fA : associative f) (fC : commutative f).

(** Adjoining a unit. *)
Definition lift (x y : option R) : option R :=
  match x, y with
  | Some a, Some b => Some (f a b)
  | Some a, None => Some a
  | None, y => y
  end.

Lemma liftA : associative lift. Proof. by move=> [x|] [y|] [z|] //=; rewrite fA. Qed.
Lemma liftC : commutative lift. Proof. by move=> [x|] [y|] //=; rewrite fC. Qed.
Lemma lift0 : left_id None lift. Proof. by []. Qed.
Lemma lift1 : right_id None lift. Proof. by case. Qed.
Canonical lift_monoid := Monoid.Law liftA lift0 lift1.
Canonical lift_comoid := Monoid.ComLaw liftC.

Lemma foldl_lift x (s : seq R) : Some (foldl f x s) = lift (Some x) (\big[lift/None]_(y <- s) Some y).
Proof.
elim: s x => [|y s IH] x; first by rewrite big_nil.
by rewrite [foldl _ _ _]/(foldl f (f x y) s) IH big_cons liftA.
Qed.

Lemma fold1_lift (s : seq R) : s != [::] -> Some (fold1 f s) = \big[lift/None]_(y <- s) Some y.
Proof. by case: s => // x s _; rewrite big_cons -foldl_lift. Qed.

Lemma fold1_perm (s t : seq R) : perm_eq s t -> fold1 f s = fold1 f t.
Proof.
move=> p; have [e|s0] := eqVneq s [::].
  by move: p; rewrite e perm_sym => /perm_nilP ->.
have t0 : t != [::] by apply: contra s0 => /eqP e; move: p; rewrite e => /perm_nilP->.
apply: Some_inj; rewrite !fold1_lift //; exact: (perm_big _ p).
Qed.

Lemma fold1_flatten (ss : seq (seq R)) : ss != [::] ->
  all (fun s => s != [::]) ss -> fold1 f (flatten ss) = fold1 f [seq fold1 f s | s <- ss].
Proof.
move=> s0 h; apply: Some_inj; rewrite !fold1_lift //.
- rewrite big_map; elim: ss h {s0} => [|s ss IH] /=; first by rewrite !big_nil.
  by case/andP=> s0 h; rewrite big_cat big_cons IH // fold1_lift.
- by case: ss s0 h.
- by case: ss s0 h => //= -[|x s] ss.
Qed.
End Fold.

Section P.
Variable R : rcfType.
Implicit Types (o : obj R) (m : mat R) (f : R -> R -> R).

Lemma allpairs_swap m : perm_eq
  (flatten [seq [seq mat_at m x y | x <- iota 0 (mrows m)] | y <- iota 0 (mcols m)])
  (flatten [seq [seq mat_at m x y | y <- iota 0 (mcols m)] | x <- iota 0 (mrows m)]).
Proof.
elim: (iota 0 (mcols m)) => [|y s IH] /=; first by elim: (iota 0 (mrows m)).
apply: perm_trans (_ : perm_eq _ ([seq mat_at m x y | x <- iota 0 (mrows m)] ++ flatten [seq [seq mat_at m x y0 | y0 <- s] | x <- iota 0 (mrows m)])) _.
  by rewrite perm_cat2l.
elim: (iota 0 (mrows m)) {IH} => //= x t IH; rewrite perm_cons perm_catCA perm_cat2l //.
Qed.

(** Reducing the columns, then the rows, or the other way round, or both at once. *)
Lemma reduced_0_1 f m : associative f -> commutative f -> (0 < mrows m)%N -> (0 < mcols m)%N ->
  same (reduced_of f [:: 1%N] (reduced_of f [:: 0%N] m)) (reduced_of f [:: 0%N; 1%N] m).
Proof.
move=> fA fC hr hc; split=> //= i j; rewrite !ltnS !leqn0 => /eqP-> /eqP->.
rewrite !groupE /= !filter_predT [RHS]fold1_flatten //; last first.
- by apply/allP => s /mapP[y _ ->]; case: (mrows m) hr.
- by case: (mcols m) hc.
have -> : forall (g : nat -> R) s, flatten [seq [:: g y] | y <- s] = map g s by move=> g; elim=> //= y s ->.
congr fold1; rewrite -map_comp; apply/eq_in_map => y; rewrite mem_iota add0n => /andP[_ hy] /=.
by rewrite groupE /= filter_pick //= cats0 filter_predT.
Qed.

Lemma reduced_1_0 f m : associative f -> commutative f -> (0 < mrows m)%N -> (0 < mcols m)%N ->
  same (reduced_of f [:: 0%N] (reduced_of f [:: 1%N] m)) (reduced_of f [:: 0%N; 1%N] m).
Proof.
move=> fA fC hr hc; split=> //= i j; rewrite !ltnS !leqn0 => /eqP-> /eqP->.
rewrite !groupE /= !filter_predT (fold1_perm fA fC (allpairs_swap m)) fold1_flatten //; last first.
- by apply/allP => s /mapP[y _ ->]; case: (mcols m) hc.
- by case: (mrows m) hr.
rewrite cats0; congr fold1; rewrite -map_comp; apply/eq_in_map => x; rewrite mem_iota add0n => /andP[_ hx] /=.
rewrite groupE /= filter_predT.
by congr fold1; elim: (iota 0 (mcols m)) => //= y s ->; rewrite filter_pick.
Qed.

Lemma reduced_same f idx m w : same m w -> same (reduced_of f idx m) (reduced_of f idx w).
Proof.
case=> e1 e2 e; split; rewrite /= ?e1 ?e2 // => i j hi hj; congr fold1; rewrite !groupE -e1 -e2; congr flatten.
apply/eq_in_map => y; rewrite mem_filter mem_iota add0n => /andP[_ /andP[_ hy]]; apply/eq_in_map => x.
rewrite mem_filter mem_iota add0n => /andP[_ /andP[_ hx]]; exact: e.
Qed.

Lemma reduced_mem f idx jdx m : idx =i jdx -> same (reduced_of f idx m) (reduced_of f jdx m).
Proof. by move=> e; split; rewrite /= ?e // => i j hi hj; rewrite !groupE !e. Qed.

Lemma value_dense m : same (value (dense m)) m. Proof. by []. Qed.

(** ** Consequences for the library's functions *)
Definition good_op (op : rop R) : Prop := associative (rapp op) /\ commutative (rapp op).

Theorem reduce_order_ok op o : good_op op -> (0 < orows o)%N -> (0 < ocols o)%N ->
  returns (reduce op o [:: 0%N]) (reduced_of (rapp op) [:: 0%N] (value o)) ->
  returns (reduce op o [:: 1%N]) (reduced_of (rapp op) [:: 1%N] (value o)) ->
  exists m0 m1 m01 m10, [/\ reduce op o [:: 0%N] = Val m0, reduce op o [:: 1%N] = Val m1,
    reduce op (dense m0) [:: 1%N] = Val m01, reduce op (dense m1) [:: 0%N] = Val m10 &
    same m01 (reduced_of (rapp op) [:: 0%N; 1%N] (value o)) /\
    same m10 (reduced_of (rapp op) [:: 0%N; 1%N] (value o))].
Proof.
move=> [fA fC] hr hc [m0 [e0 s0]] [m1 [e1 s1]].
have [f1 f2 _] := s0; have [g1 g2 _] := s1; rewrite /= in f1 f2 g1 g2.
have [m01 [e01 s01]] : returns (reduce op (dense m0) [:: 1%N]) (reduced_of (rapp op) [:: 1%N] m0).
  by apply: (@reduce_ok R op (dense m0)); rewrite /= ?f1 ?f2.
have [m10 [e10 s10]] : returns (reduce op (dense m1) [:: 0%N]) (reduced_of (rapp op) [:: 0%N] m1).
  by apply: (@reduce_ok R op (dense m1)); rewrite /= ?g1 ?g2.
exists m0, m1, m01, m10; split=> //; split.
  apply: (same_trans s01); apply: same_trans (reduced_same _ _ s0) _; exact: reduced_0_1.
apply: (same_trans s10); apply: same_trans (reduced_same _ _ s1) _; exact: reduced_1_0.
Qed.

End P.
