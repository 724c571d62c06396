(** * Proofs about the shortcuts: reductions, averages, trace. *)
From mathcomp Require Import all_ssreflect all_algebra.
From Verif Require Import ShortModel ShortSpec ShortProofs1.
Set Implicit Arguments.
Unset Strict Implicit.
Unset Printing Implicit Defensive.
Import GRing.Theory Num.Theory Order.Theory.
Local Open Scope ring_scope.

Section P.
Variable R : rcfType.
Implicit Types (o a b : obj R) (m : mat R) (idx : seq nat) (op : rop R).

Lemma groupE idx m i j : group idx m i j =
  flatten [seq [seq mat_at m x y | x <- iota 0 (mrows m) & (0%N \in idx) || (x == i)]
    | y <- iota 0 (mcols m) & (1%N \in idx) || (y == j)].
Proof.
rewrite /group filter_flatten map_flatten -map_comp.
elim: (iota 0 (mcols m)) => //= y s ->.
rewrite filter_map -map_comp /preim /=.
case: ifP => [h|h] /=; first by congr (_ ++ _); congr (map _ _); apply: eq_filter => x /=; rewrite andbT.
by rewrite (eq_filter (a2 := pred0)) ?filter_pred0 // => x /=; rewrite andbF.
Qed.

Lemma filter_pick n j : (j < n)%N -> [seq y <- iota 0 n | y == j] = [:: j].
Proof. by move=> h; apply: filter_pred1_uniq; rewrite ?iota_uniq // mem_iota. Qed.

Lemma group_both idx o i j : 0%N \in idx -> 1%N \in idx -> group idx (value o) i j = components o.
Proof.
by move=> h0 h1; rewrite groupE h0 h1 /= !filter_predT.
Qed.

Lemma group_col idx o i j : 0%N \in idx -> 1%N \notin idx -> (j < ocols o)%N ->
  group idx (value o) i j = column o j.
Proof. by move=> h0 /negbTE h1 hj; rewrite groupE h0 h1 /= filter_pick //= cats0 filter_predT. Qed.

Lemma group_row idx o i j : 0%N \notin idx -> 1%N \in idx -> (i < orows o)%N ->
  group idx (value o) i j = row o i.
Proof.
move=> /negbTE h0 h1 hi; rewrite groupE h0 h1 /= filter_predT /row.
by elim: (iota 0 (ocols o)) => //= y s ->; rewrite filter_pick.
Qed.

Lemma group_none idx m i j : 0%N \notin idx -> 1%N \notin idx -> (i < mrows m)%N -> (j < mcols m)%N ->
  group idx m i j = [:: mat_at m i j].
Proof. by move=> /negbTE h0 /negbTE h1 hi hj; rewrite groupE h0 h1 /= !filter_pick. Qed.

Lemma fold1E op (s : seq R) x : redux op s = Some x -> fold1 (rapp op) s = x.
Proof. by case: s => //= y s [->]. Qed.

Lemma red_or0E op (s : seq R) : red_or0 op s = fold1 (rapp op) s.
Proof. by case: s. Qed.

Lemma idx_only0 idx : idx_ok idx -> 1%N \notin idx -> all (fun i => i == 0%N) idx /\ 0%N \in idx.
Proof.
case/andP=> ne /allP h n1.
have a0 : all (fun i => i == 0%N) idx.
  apply/allP => i hi; move: (h i hi); rewrite ltnS; case: i hi => [|[|i]] //; by rewrite (negbTE n1).
split=> //; case: idx ne a0 {h n1} => //= i s _ /andP[/eqP-> _]; exact: mem_head.
Qed.

Lemma idx_only1 idx : idx_ok idx -> 0%N \notin idx -> 1%N \in idx.
Proof.
case/andP=> ne /allP h n0; case: idx ne h n0 => //= i s _ h n0.
have := h i (mem_head _ _); case: i h n0 => [|[|i]] // h; by rewrite mem_head.
Qed.

Lemma not_all0 idx : 1%N \in idx -> all (fun i => i == 0%N) idx = false.
Proof. by move=> h; apply/negbTE/allPn; exists 1%N. Qed.

Theorem lib_reduce_ok op idx o : idx_ok idx -> (0 < orows o)%N -> (0 < ocols o)%N ->
  returns (lib_reduce op idx o) (reduced_of (rapp op) idx (value o)).
Proof.
move=> ok hr hc; rewrite /lib_reduce /returns /reduced_of.
have [h1|h1] := boolP (1%N \in idx).
  have [h0|h0] := boolP (0%N \in idx) => /=.
    case e: (redux op _) => [x|]; last first.
      move: e; rewrite /components /column; case: (ocols o) hc => // c _; by case: (orows o) hr.
    eexists; split; first by []; split=> //= i j _ _.
    by rewrite group_both // (fold1E e).
  rewrite (not_all0 h1) eqn0Ngt hc /=.
  eexists; split; first by []; split=> //= i j hi hj.
  by rewrite group_row // red_or0E.
have [a0 h0] := idx_only0 ok h1; rewrite h0 a0 /= eqn0Ngt hr /=.
eexists; split; first by []; split=> //= i j hi hj.
by rewrite group_col // red_or0E.
Qed.

(** Constants: every component of the group is the constant. *)
Lemma group_const idx o i j : constant o -> (i < (if 0%N \in idx then 1 else orows o))%N ->
  (j < (if 1%N \in idx then 1 else ocols o))%N ->
  group idx (value o) i j = nseq (count_reduced idx o) (cval o).
Proof.
move=> c hi hj; rewrite groupE /=.
have cst p q : (forall y, y \in q -> (y < ocols o)%N) -> (forall x, x \in p -> (x < orows o)%N) ->
    flatten [seq [seq entry o x y | x <- p] | y <- q] = nseq (size p * size q) (cval o).
  move=> hq hp; elim: q hq => [|y q IH] hq /=; first by rewrite muln0.
  rewrite IH => [|z hz]; last by apply: hq; rewrite in_cons hz orbT.
  rewrite mulnS nseqD; congr (_ ++ _).
  have hy : (y < ocols o)%N by rewrite hq // mem_head.
  elim: p hp {IH} => //= x s IH hp; rewrite IH => [|z hz]; last by rewrite hp // in_cons hz orbT.
  by rewrite constant_entry // hp // mem_head.
rewrite cst; first last.
- by move=> x; rewrite mem_filter mem_iota => /and3P[].
- by move=> x; rewrite mem_filter mem_iota => /and3P[].
rewrite /count_reduced; congr (nseq (_ * _) _).
  case: ifP hi => _ hi /=; first by rewrite filter_predT size_iota.
  by rewrite filter_pick.
case: ifP hj => _ hj /=; first by rewrite filter_predT size_iota.
by rewrite filter_pick.
Qed.

Lemma foldl_nseq (f : R -> R -> R) c n : foldl f c (nseq n c) = other_reduce f c n.+1.
Proof.
have h k : foldl f c (nseq k.+1 c) = f (foldl f c (nseq k c)) c.
  by rewrite -[k.+1]addn1 nseqD foldl_cat.
by elim: n => // n IH; rewrite h IH.
Qed.

Lemma constant_reduce_ok op c n : (0 < n)%N -> fold1 (rapp op) (nseq n c) = constant_reduce op c n.
Proof.
case: n => // n _ /=; case: op => [||f] /=.
- suff h k x : foldl (rapp (Plus R)) x (nseq k c) = x + c * k%:R.
    by rewrite h [in RHS]mulrS mulrDr mulr1.
  elim: k x => [|k IH] x /=; first by rewrite mulr0 addr0.
  by rewrite IH /= -addrA [in RHS]mulrS mulrDr mulr1.
- suff h k x : foldl (rapp (Times R)) x (nseq k c) = x * c ^+ k.
    by rewrite h exprS.
  elim: k x => [|k IH] x /=; first by rewrite expr0 mulr1.
  by rewrite IH /= -mulrA exprS.
- by rewrite (foldl_nseq f c n).
Qed.

Lemma count_reduced_gt0 idx o : (0 < orows o)%N -> (0 < ocols o)%N -> (0 < count_reduced idx o)%N.
Proof. by move=> hr hc; rewrite /count_reduced muln_gt0; case: ifP; case: ifP; rewrite ?hr ?hc. Qed.

Lemma zero_constant o : zero o -> constant o.
Proof. by rewrite /constant => ->; rewrite orbT. Qed.

Lemma zero_cval o : zero o -> cval o = 0.
Proof. by rewrite /zero /cval; case: (okind o) => // -[] // c /eqP. Qed.

Lemma const_branch_ok op idx o : (0 < orows o)%N -> (0 < ocols o)%N -> constant o ->
  returns (Val (const_mat (constant_reduce op (cval o) (count_reduced idx o)) (reduced_rows idx o) (reduced_cols idx o)))
    (reduced_of (rapp op) idx (value o)).
Proof.
move=> hr hc c; eexists; split; first by []; split=> //= i j hi hj.
by rewrite group_const // constant_reduce_ok // count_reduced_gt0.
Qed.

Lemma zero_branch_ok op idx o : is_plus op || is_times op -> (0 < orows o)%N -> (0 < ocols o)%N -> zero o ->
  returns (Val (const_mat 0 (reduced_rows idx o) (reduced_cols idx o))) (reduced_of (rapp op) idx (value o)).
Proof.
move=> h hr hc z; have := const_branch_ok op idx hr hc (zero_constant z).
rewrite zero_cval // => -[m [[<-] s]]; eexists; split; first by [].
have e : constant_reduce op 0 (count_reduced idx o) = 0.
  case: op h {s} => //= _; first by rewrite mul0r.
  by rewrite expr0n eqn0Ngt count_reduced_gt0.
by rewrite e in s.
Qed.

Lemma diagonal_kind o : diagonal o -> [|| zero o, one_dim o | diag_kind o].
Proof.
rewrite /diagonal /ttype /diag_kind; case: ifP => [/orP[->|->]|_] //; rewrite ?orbT //.
case: (okind o) => [fx c|fx c|d|l f|l f|f] //=; rewrite ?orbT //; case: ifP => // _; case: ifP => // _; by case: l.
Qed.

(** reduce_impl on anything but a (non-constant) diagonal matrix, or with another operation. *)
Theorem reduce_impl_ok fuel op idx o : idx_ok idx -> (0 < orows o)%N -> (0 < ocols o)%N ->
  ~~ diag_kind o || ~~ (is_plus op || is_times op) ->
  returns (reduce_impl fuel.+1 op o idx) (reduced_of (rapp op) idx (value o)).
Proof.
move=> ok hr hc h /=.
case: ifP => [/andP[z p]|nz]; first exact: zero_branch_ok.
case: ifP => [c|/negbT nc]; first exact: const_branch_ok.
have nd : diagonal o -> (is_plus op || is_times op) = false.
  move=> /diagonal_kind /or3P[z|d|d].
  - by rewrite (zero_constant z) in nc.
  - by rewrite /constant d orbT in nc.
  - by rewrite d /= in h; apply: negbTE.
have [d|d] := boolP (diagonal o) => /=; last exact: lib_reduce_ok.
move: (nd d) => /norP[/negbTE-> /negbTE->] /=; exact: lib_reduce_ok.
Qed.

(** Skipping an index whose dimension is one. *)
Lemma reduced_of_skip f i idx m : (i < 2)%N -> (if i is 0 then mrows m else mcols m) = 1%N ->
  same (reduced_of f idx m) (reduced_of f (i :: idx) m).
Proof.
case: i => [|[|//]] _ e; rewrite /reduced_of; split=> /=; rewrite ?in_cons /= ?e; try (by case: ifP).
- move=> x y; rewrite (_ : (if 0%N \in idx then 1%N else 1%N) = 1%N) => [hx hy|]; last by case: ifP.
  congr fold1; rewrite !groupE e /= !in_cons /=; congr flatten; apply: eq_map => z.
  move: hx; rewrite ltnS leqn0 => /eqP->; by rewrite orbT.
- move=> x y hx; rewrite (_ : (if 1%N \in idx then 1%N else 1%N) = 1%N) => [hy|]; last by case: ifP.
  congr fold1; rewrite !groupE e /= !in_cons /=.
  move: hy; rewrite ltnS leqn0 => /eqP->; by rewrite orbT.
Qed.

Lemma reduced_of_nil f m : same (reduced_of f [::] m) m.
Proof. by split=> //= i j hi hj; rewrite group_none. Qed.

Lemma fixed_oneE i o : (i < 2)%N -> fixed_one i o -> (if i is 0 then orows o else ocols o) = 1%N.
Proof. by case: i => [|[|//]] _ /andP[_ /eqP]. Qed.

Lemma reduceE op o i rest : reduce op o (i :: rest) =
  if fixed_one i o then (if rest is [::] then Val (value o) else reduce op o rest)
  else reduce_impl template_depth op o (i :: rest).
Proof. by []. Qed.

(** From the implementation to the interface. *)
Lemma reduce_skip op o idx (P : seq nat -> Prop) : idx_ok idx -> P idx ->
  (forall i rest, (i < 2)%N -> fixed_one i o -> P (i :: rest) -> rest != [::] -> P rest) ->
  (forall i rest, idx_ok (i :: rest) -> ~~ fixed_one i o -> P (i :: rest) ->
     returns (reduce_impl template_depth op o (i :: rest)) (reduced_of (rapp op) (i :: rest) (value o))) ->
  returns (reduce op o idx) (reduced_of (rapp op) idx (value o)).
Proof.
move=> ok p st h; elim: idx ok p => // i rest IH ok p; rewrite reduceE.
case: ifP => [f|/negbT nf]; last exact: h.
have i2 : (i < 2)%N by case/andP: ok => _ /andP[].
case: rest IH ok p => [|k rest] IH ok p.
  exists (value o); split=> //.
  apply: same_trans (same_sym (reduced_of_nil (rapp op) (value o))) _.
  by apply: reduced_of_skip => //; exact: fixed_oneE.
have [||m [e s]] := IH.
- by case/andP: ok => _ /andP[_ ?].
- exact: st f p _.
exists m; split=> //; apply: same_trans s _.
by apply: reduced_of_skip => //; exact: fixed_oneE.
Qed.

Theorem reduce_ok op o idx : idx_ok idx -> (0 < orows o)%N -> (0 < ocols o)%N ->
  ~~ diag_kind o || ~~ (is_plus op || is_times op) ->
  returns (reduce op o idx) (reduced_of (rapp op) idx (value o)).
Proof.
move=> ok hr hc h; apply: (@reduce_skip op o idx (fun=> True)) => // i rest ok' _ _.
exact: reduce_impl_ok.
Qed.

(** ** Sums of groups *)

Lemma fold1_sum (s : seq R) : fold1 +%R s = \sum_(x <- s) x.
Proof.
case: s => [|x s] /=; first by rewrite big_nil.
elim: s x => [|y s IH] x /=; first by rewrite big_seq1.
by rewrite IH !big_cons addrA.
Qed.

Lemma fold1_prod (s : seq R) : s != [::] -> fold1 *%R s = \prod_(x <- s) x.
Proof.
case: s => [|x s] //= _; elim: s x => [|y s IH] x /=; first by rewrite big_seq1.
by rewrite IH !big_cons mulrA.
Qed.

Lemma sum_column o j : \sum_(x <- column o j) x = \sum_(i < orows o) entry o i j.
Proof. by rewrite big_map -{1}[orows o]subn0 -/(index_iota 0 (orows o)) big_mkord. Qed.

Lemma sum_row o i : \sum_(x <- row o i) x = \sum_(j < ocols o) entry o i j.
Proof. by rewrite big_map -{1}[ocols o]subn0 -/(index_iota 0 (ocols o)) big_mkord. Qed.

Lemma sum_components o : \sum_(x <- components o) x = total_of (value o).
Proof.
rewrite /components big_flatten big_map -{1}[ocols o]subn0 -/(index_iota 0 (ocols o)) big_mkord.
rewrite /total_of exchange_big; apply: eq_bigr => j _; exact: sum_column.
Qed.

Lemma prod_components o : \prod_(x <- components o) x = product_of (value o).
Proof.
rewrite /components big_flatten big_map -{1}[ocols o]subn0 -/(index_iota 0 (ocols o)) big_mkord.
rewrite /product_of exchange_big; apply: eq_bigr => j _.
by rewrite big_map -{1}[orows o]subn0 -/(index_iota 0 (orows o)) big_mkord.
Qed.

(** Sums over a diagonal matrix. *)
Lemma diag_row_sum o i : diagonal o -> (i < orows o)%N ->
  \sum_(j < ocols o) entry o i j = if (i < ocols o)%N then entry o i i else 0.
Proof.
move=> d hi; case: ifP => [h|/negbT h].
  rewrite (@sum_pick _ _ (fun j => entry o i j) i) // => k hk ne; by rewrite diagonal_entry // eq_sym.
rewrite big1 // => j _; rewrite diagonal_entry //; apply: contra h => /eqP->; exact: ltn_ord.
Qed.

Lemma diag_col_sum o j : diagonal o -> (j < ocols o)%N ->
  \sum_(i < orows o) entry o i j = if (j < orows o)%N then entry o j j else 0.
Proof.
move=> d hj; case: ifP => [h|/negbT h].
  rewrite (@sum_pick _ _ (fun i => entry o i j) j) // => k hk ne; by rewrite diagonal_entry.
rewrite big1 // => i _; rewrite diagonal_entry //; apply: contra h => /eqP <-; exact: ltn_ord.
Qed.

Lemma sum_min n k (F : nat -> R) : \sum_(i < n) (if (i < k)%N then F i else 0) = \sum_(i < minn n k) F i.
Proof.
rewrite -(big_mkord xpredT (fun i => if (i < k)%N then F i else 0)) -(big_mkord xpredT F).
have [h|h] := leqP n k.
  by rewrite big_nat [in RHS]big_nat; apply: eq_bigr => i /andP[_ hi]; rewrite (leq_trans hi h).
rewrite (big_cat_nat _ _ _ (leq0n k) (ltnW h)) /= [X in _ + X]big_nat [X in _ + X]big1 => [|i /andP[hi _]]; last first.
  by rewrite ltnNge hi.
by rewrite addr0 big_nat [in RHS]big_nat; apply: eq_bigr => i /andP[_ ->].
Qed.

Lemma diag_total o : diagonal o -> total_of (value o) = trace_of (value o).
Proof.
move=> d; rewrite /total_of /trace_of /= (eq_bigr (fun i : 'I_(orows o) => if (i < ocols o)%N then entry o i i else 0)).
  exact: (sum_min _ _ (fun i => entry o i i)).
by move=> i _; rewrite diag_row_sum.
Qed.

End P.
