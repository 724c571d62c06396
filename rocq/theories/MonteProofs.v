(** * Proofs: the Monte Carlo transform. *)
From Coq Require Import Permutation.
From mathcomp Require Import all_ssreflect all_algebra.
From Verif Require Import RingTac MonteModel MonteSpec.
Set Implicit Arguments.
Unset Strict Implicit.
Unset Printing Implicit Defensive.
Import GRing.Theory Num.Theory Order.Theory.
Local Open Scope ring_scope.

Section Monte.
Variable R : rcfType.

Lemma natr_neq0 c : (c != 0)%N -> (c%:R : R) != 0.
Proof. by rewrite pnatr_eq0. Qed.

(** The combined centred products. *)
Lemma chan m n (a b : R) (u v : 'cV[R]_m) (p q : 'cV[R]_n) : a + b != 0 ->
  a *: (u *m p^T) + b *: (v *m q^T) - (a + b)^-1 *: ((a * b) *: ((v - u) *m (q - p)^T)) =
  (a + b) *: (((a + b)^-1 *: (a *: u + b *: v)) *m ((a + b)^-1 *: (a *: p + b *: q))^T).
Proof.
move=> h; apply/matrixP=> i j.
apply: (mulfI h); rewrite !(mxE, big_ord1).
set c := a + b in h *.
have hm : (a + b) * (a + b)^-1 = 1 by rewrite divff.
have -> : (a + b) * (a * (u i 0 * p j 0) + b * (v i 0 * q j 0)
    - (a + b)^-1 * (a * b * ((v i 0 - u i 0) * (q j 0 - p j 0)))) =
  (a + b) * (a * (u i 0 * p j 0) + b * (v i 0 * q j 0))
    - ((a + b) * (a + b)^-1) * (a * b * ((v i 0 - u i 0) * (q j 0 - p j 0))) by cring.
have -> : (a + b) * ((a + b) * ((a + b)^-1 * (a * u i 0 + b * v i 0) * ((a + b)^-1 * (a * p j 0 + b * q j 0)))) =
  ((a + b) * (a + b)^-1) * ((a + b) * (a + b)^-1) * ((a * u i 0 + b * v i 0) * (a * p j 0 + b * q j 0)) by cring.
rewrite hm; cring.
Qed.

Section Inv.
Variables (m n k : nat) (sp : space R n k).
Implicit Types (s : seq ('cV[R]_m * 'cV[R]_n)).

(** Both branches of the operation at once. *)
Lemma mc_opE (a b : mc_sum R m n k) : (0 < count a + count b)%N ->
  let s : R := (count a + count b)%:R in
  let delta := difference sp (from_stat sp (sy b)) (from_stat sp (sy a)) in
  let w : R := (count a)%:R * (count b)%:R in
  exists2 r, mc_op sp a b = Some r &
  [/\ count r = (count a + count b)%N,
      sx r = s^-1 *: ((count a)%:R *: sx a + (count b)%:R *: sx b),
      sy r = s^-1 *: ((count a)%:R *: sy a + (count b)%:R *: sy b),
      (count b = 1%N -> syy b = 0) -> syy r = syy a + syy b + s^-1 *: (w *: (delta *m delta^T)) &
      (count b = 1%N -> sxy b = 0) -> sxy r = sxy a + sxy b + s^-1 *: (w *: ((sx b - sx a) *m delta^T))].
Proof.
case: b => cb xb yb yyb xyb /= h; rewrite /mc_op /=; case: eqP => [->|e].
- eexists; first reflexivity; split=> //=.
  + by rewrite scale1r.
  + by rewrite scale1r.
  + by move=> -> //; rewrite addr0 mulr1 -!scalemxAr.
  + by move=> -> //; rewrite addr0 mulr1 -!scalemxAr.
- rewrite -[(_ + _ == 0)%N]negbK -lt0n h /=; eexists; first reflexivity; split=> //=.
  + by rewrite -!scalemxAr !scalerA [(count a)%:R * _]mulrC -!mulrA.
  + by rewrite -!scalemxAr !scalerA [(count a)%:R * _]mulrC -!mulrA.
Qed.

(** What is true of a partial sum over the draws [s], for any output space. *)
Definition mean_inv s (r : mc_sum R m n k) : Prop :=
  [/\ count r = size s, (size s)%:R *: sx r = \sum_(d <- s) d.1 &
      (size s)%:R *: sy r = \sum_(d <- s) to_stat sp d.2].

Lemma mean_inv_op s1 s2 a b : mean_inv s1 a -> mean_inv s2 b -> (0 < size s1 + size s2)%N ->
  exists2 r, mc_op sp a b = Some r & mean_inv (s1 ++ s2) r.
Proof.
case=> ca xa ya [cb xb yb] hs.
have h : ((size s1 + size s2)%:R : R) != 0 by apply: natr_neq0; rewrite -lt0n.
have := @mc_opE a b; rewrite ca cb => /(_ hs) [r hr [e1 e2 e3 _ _]].
exists r => //; split; first by rewrite e1 size_cat.
- by rewrite e2 size_cat scalerA divff // scale1r big_cat xa xb.
- by rewrite e3 size_cat scalerA divff // scale1r big_cat ya yb.
Qed.

(** A schedule over given draws, with [z] copies of the initial value. *)
Inductive over : seq ('cV[R]_m * 'cV[R]_n) -> nat -> schedule R m n k -> Prop :=
| OverZero : over [::] 1 (Elem (mc_zero R m n k))
| OverOne d : over [:: d] 0 (Elem (mc_one sp d.1 d.2))
| OverGroup s1 s2 z1 z2 l r : over s1 z1 l -> over s2 z2 r -> over (s1 ++ s2) (z1 + z2) (Group l r).

Lemma over_pos s z t : over s z t -> (0 < size s + z)%N.
Proof.
elim=> // s1 s2 z1 z2 l r _ h1 _ h2; rewrite size_cat addnACA; exact: ltn_addr.
Qed.
End Inv.

(** Every schedule the standard allows is of that kind, with one initial value. *)
Section Over.
Variables (m n k : nat) (sp : space R n k).

Definition leaf_of (o : option ('cV[R]_m * 'cV[R]_n)) : mc_sum R m n k :=
  if o is Some d then mc_one sp d.1 d.2 else mc_zero R m n k.
Definition somes T (l : seq (option T)) : seq T := pmap id l.
Definition nones T (l : seq (option T)) : nat := count_mem None [seq if o is Some _ then Some tt else None | o <- l].

Lemma over_leaves t : forall l, elems t = map leaf_of l -> over sp (somes l) (nones l) t.
Proof.
elim: t => [a|tl IHl tr IHr] l /=.
- by case: l => [|[d|] [|o l]] //= -[->]; [exact: OverOne|exact: OverZero].
- move=> e; set p := size (elems tl).
  have e1 : elems tl = map leaf_of (take p l).
    by rewrite map_take -e take_size_cat.
  have e2 : elems tr = map leaf_of (drop p l).
    by rewrite map_drop -e drop_size_cat.
  have := OverGroup (IHl _ e1) (IHr _ e2).
  by rewrite /somes /nones -pmap_cat -count_cat -map_cat cat_take_drop.
Qed.

Lemma reduces_over draws t : reduces sp draws t ->
  exists2 l : seq (option ('cV[R]_m * 'cV[R]_n)),
    Permutation l (None :: map Some draws) & over sp (somes l) (nones l) t.
Proof.
move=> h.
have e : mc_zero R m n k :: [seq mc_one sp d.1 d.2 | d <- draws] = map leaf_of (None :: map Some draws).
  by rewrite /= -map_comp.
move: h; rewrite /reduces e => h.
have [l [e2 h2]] := @Permutation_map_inv _ _ leaf_of (elems t) (None :: map Some draws) h.
by exists l; [exact: Permutation_sym|apply: over_leaves].
Qed.

Lemma perm_somes T (l l' : seq (option T)) : Permutation l l' -> Permutation (somes l) (somes l').
Proof.
elim=> [|[x|] a b _ h|[x|] [y|] a|a b c _ h _ h'] //=.
- exact: perm_skip.
- exact: perm_swap.
- exact: Permutation_trans h h'.
Qed.
Lemma somes_map T (s : seq T) : somes (map Some s) = s.
Proof. by elim: s => //= x s ->. Qed.
Lemma perm_nones T (l l' : seq (option T)) : Permutation l l' -> nones l = nones l'.
Proof.
elim=> [|x a b _ h|x y a|a b c _ h _ h'] //=.
- by rewrite /nones /= -/(nones a) -/(nones b) h.
- by rewrite /nones /= addnCA.
- by rewrite h.
Qed.
Lemma nones_map T (s : seq T) : nones (map Some s) = 0%N.
Proof. by rewrite /nones -map_comp; elim: s. Qed.

Lemma reduces_draws (draws : seq ('cV[R]_m * 'cV[R]_n)) t : reduces sp draws t ->
  exists2 s, Permutation s draws & over sp s 1 t.
Proof.
move=> /reduces_over [l p o]; exists (somes l).
- by have := perm_somes p; rewrite /= somes_map.
- by move: o; rewrite (perm_nones p) /= /nones /= -/(nones _) nones_map.
Qed.
End Over.

Lemma big_perm (V : zmodType) T (s s' : seq T) (f : T -> V) : Permutation s s' ->
  \sum_(d <- s) f d = \sum_(d <- s') f d.
Proof.
elim=> [|x a b _ h|x y a|a b c _ h _ h'] //=.
- by rewrite !big_cons h.
- by rewrite !big_cons addrCA.
- by rewrite h.
Qed.
Lemma size_perm T (s s' : seq T) : Permutation s s' -> size s = size s'.
Proof. by elim=> [|x a b _ /= ->|x y a|a b c _ -> _ ->]. Qed.

(** ** Sums. *)
Section MeanRun.
Variables (m n k : nat) (sp : space R n k).

Lemma mean_zero : @mean_inv m n k sp [::] (mc_zero R m n k).
Proof. by split; rewrite ?big_nil ?scaler0. Qed.
Lemma mean_one d : @mean_inv m n k sp [:: d] (mc_one sp d.1 d.2).
Proof. by split; rewrite ?big_seq1 ?scale1r. Qed.

(** At most one initial value: then no group is empty. *)
Lemma mean_run (s : seq ('cV[R]_m * 'cV[R]_n)) z t : over sp s z t -> (z <= 1)%N -> exists2 r, run sp t = Some r & mean_inv sp s r.
Proof.
elim=> [_|d _|s1 s2 z1 z2 l r o1 h1 o2 h2 hz].
- by exists (mc_zero R m n k); last exact: mean_zero.
- by exists (mc_one sp d.1 d.2); last exact: mean_one.
- have [|a ea ia] := h1; first exact: leq_trans (leq_addr _ _) hz.
  have [|b eb ib] := h2; first exact: leq_trans (leq_addl _ _) hz.
  rewrite /= ea eb; apply: mean_inv_op => //.
  have p1 := over_pos o1; have p2 := over_pos o2.
  move: hz p1 p2; case: z1 z2 {o1 o2 h1 h2} => [|[|z1]] [|z2] //= _; rewrite ?addn0 => p1 p2.
  + exact: ltn_addr.
  + exact: ltn_addr.
  + by rewrite addn_gt0 p2 orbT.
Qed.

End MeanRun.

(** For Euclidean outputs the centred products are right too. *)
Section Full.
Variables (m n : nat).
Implicit Types (s : seq ('cV[R]_m * 'cV[R]_n)).
Let sp := @euclidean_space R n.

Definition full_inv s (r : mc_sum R m n n) : Prop :=
  [/\ mean_inv sp s r,
      syy r = \sum_(d <- s) d.2 *m d.2^T - (size s)%:R *: (sy r *m (sy r)^T) &
      sxy r = \sum_(d <- s) d.1 *m d.2^T - (size s)%:R *: (sx r *m (sy r)^T)].

Lemma full_one s r : full_inv s r -> count r = 1%N -> syy r = 0 /\ sxy r = 0.
Proof.
case=> [[c x y] v w] e; move: x y v w; rewrite -c e.
case: s c => [|d [|d' s]]; rewrite ?e //= => _.
by rewrite !big_seq1 !scale1r => -> -> -> ->; rewrite !subrr.
Qed.

Lemma full_inv_op s1 s2 a b : full_inv s1 a -> full_inv s2 b -> (0 < size s1 + size s2)%N ->
  exists2 r, mc_op sp a b = Some r & full_inv (s1 ++ s2) r.
Proof.
move=> fa fb hs; have [ma va wa] := fa; have [mb vb wb] := fb.
have h : ((size s1 + size s2)%:R : R) != 0 by apply: natr_neq0; rewrite -lt0n.
have [ca xa ya] := ma; have [cb xb yb] := mb.
have [r' hr' mr] := mean_inv_op ma mb hs.
have := @mc_opE _ _ _ sp a b; rewrite ca cb => /(_ hs) [r hr [e1 e2 e3 e4 e5]].
have er : r' = r by move: hr; rewrite hr' => -[].
exists r => //; split; first by rewrite -er.
- rewrite e4 => [|e]; last by apply: (full_one fb _).1; rewrite cb.
  rewrite va vb size_cat big_cat /= e3 natrD -chan; last by rewrite -natrD.
  by rewrite /=; abel.
- rewrite e5 => [|e]; last by apply: (full_one fb _).2; rewrite cb.
  rewrite wa wb size_cat big_cat /= e2 e3 natrD -chan; last by rewrite -natrD.
  by rewrite /=; abel.
Qed.

Lemma full_run s z t : over sp s z t -> (z <= 1)%N -> exists2 r, run sp t = Some r & full_inv s r.
Proof.
elim=> [_|d _|s1 s2 z1 z2 l r o1 h1 o2 h2 hz].
- exists (mc_zero R m n n) => //; split; first exact: mean_zero.
  + by rewrite big_nil mul0mx scaler0 subrr.
  + by rewrite big_nil mul0mx scaler0 subrr.
- exists (mc_one sp d.1 d.2) => //; split; first exact: mean_one.
  + by rewrite big_seq1 scale1r subrr.
  + by rewrite big_seq1 scale1r subrr.
- have [|a ea ia] := h1; first exact: leq_trans (leq_addr _ _) hz.
  have [|b eb ib] := h2; first exact: leq_trans (leq_addl _ _) hz.
  rewrite /= ea eb; apply: full_inv_op => //.
  have p1 := over_pos o1; have p2 := over_pos o2.
  move: hz p1 p2; case: z1 z2 {o1 o2 h1 h2} => [|[|z1]] [|z2] //= _; rewrite ?addn0 => p1 p2.
  + exact: ltn_addr.
  + exact: ltn_addr.
  + by rewrite addn_gt0 p2 orbT.
Qed.
End Full.

Lemma sum_same T p q (s : seq T) (X : 'M[R]_(p, q)) : \sum_(d <- s) X = (size s)%:R *: X.
Proof. by elim: s => [|d s IH]; rewrite ?big_nil ?scale0r // big_cons IH /= mulrS scalerDl scale1r. Qed.

(** Centred products around the average. *)
Lemma centred T p q (s : seq T) (f : T -> 'cV[R]_p) (g : T -> 'cV[R]_q) : (0 < size s)%N ->
  \sum_(d <- s) (f d - average s f) *m (g d - average s g)^T =
  \sum_(d <- s) f d *m (g d)^T - (size s)%:R *: (average s f *m (average s g)^T).
Proof.
move=> hs; have h : ((size s)%:R : R) != 0 by apply: natr_neq0; rewrite -lt0n.
set u := average s f; set v := average s g.
have ef : \sum_(d <- s) f d = (size s)%:R *: u by rewrite /u /average scalerA divff // scale1r.
have eg : \sum_(d <- s) g d = (size s)%:R *: v by rewrite /v /average scalerA divff // scale1r.
move: u v ef eg => u v ef eg.
have -> : \sum_(d <- s) (f d - u) *m (g d - v)^T =
  \sum_(d <- s) (f d *m (g d)^T - f d *m v^T - u *m (g d)^T + u *m v^T).
  by apply: eq_bigr => d _; mxexpand; abel.
rewrite big_split /= sumrB /= sumrB -mulmx_suml -mulmx_sumr ef.
have -> : \sum_(d <- s) (g d)^T = (\sum_(d <- s) g d)^T by rewrite raddf_sum.
rewrite eg trmxZ -scalemxAl -scalemxAr.
rewrite sum_same //.
abel.
Qed.
End Monte.
