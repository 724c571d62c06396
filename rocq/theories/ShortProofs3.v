(** * Proofs about the shortcuts: reductions of diagonal matrices, averages, trace and determinant. *)
From mathcomp Require Import all_ssreflect all_algebra.
From Verif Require Import ShortModel ShortSpec ShortProofs1 ShortProofs2.
Set Implicit Arguments.
Unset Strict Implicit.
Unset Printing Implicit Defensive.
Import GRing.Theory Num.Theory Order.Theory.
Local Open Scope ring_scope.

Arguments reduce_impl : simpl never.

Section P.
Variable R : rcfType.
Implicit Types (o a b d : obj R) (m : mat R) (idx : seq nat) (op : rop R).

Lemma reduce_impl_eq fuel op o idx : reduce_impl fuel.+1 op o idx =
    if zero o && (is_plus op || is_times op) then
      Val (const_mat 0 (reduced_rows idx o) (reduced_cols idx o))
    else if constant o then
      Val (const_mat (constant_reduce op (cval o) (count_reduced idx o)) (reduced_rows idx o) (reduced_cols idx o))
    else if [&& diagonal o, is_plus op, rfix o, cfix o &
        ((1%N \in idx) && (orows o <= ocols o)%N) || ((0%N \in idx) && (1%N \in idx))] then
      reduce_impl fuel op (diagonal_of o) (delete_index 1 idx)
    else if [&& diagonal o, is_plus op, rfix o, cfix o, 0%N \in idx & (ocols o <= orows o)%N] then
      reduce_impl fuel op (transpose_col (diagonal_of o)) (delete_index 0 idx)
    else if [&& diagonal o, is_times op, cfix o & 1%N \in idx] then
      (if ocols o == 1%N then reduce_impl fuel op o (delete_index 0 idx)
       else reduce_impl fuel op (make_zero (diagonal_of o)) (delete_index 0 idx))
    else if [&& diagonal o, is_times op, rfix o & 0%N \in idx] then
      (if orows o == 1%N then reduce_impl fuel op o (delete_index 0 idx)
       else reduce_impl fuel op (make_zero (transpose_col (diagonal_of o))) (delete_index 0 idx))
    else lib_reduce op idx o.
Proof. by []. Qed.

Lemma diagonal_of_not_diag o : ~~ diag_kind (diagonal_of o).
Proof. by rewrite /diag_kind /diagonal_of; case: (okind o). Qed.

Lemma transpose_not_diag o : ~~ diag_kind (transpose_col o).
Proof. by rewrite /diag_kind /transpose_col; case: (okind o). Qed.

Lemma transpose_colE o i j : (i < ocols o)%N -> (j < orows o)%N -> ~~ diag_kind o -> 
  entry (transpose_col o) i j = entry o j i.
Proof. by rewrite /diag_kind /transpose_col /entry; case: (okind o). Qed.

Lemma transpose_dims o : orows (transpose_col o) = ocols o /\ ocols (transpose_col o) = orows o.
Proof. by rewrite /transpose_col; case: (okind o). Qed.

Lemma delete1_ok idx : idx_ok idx -> 0%N \in idx ->
  [/\ idx_ok (delete_index 1 idx), 0%N \in delete_index 1 idx & 1%N \notin delete_index 1 idx].
Proof.
case/andP=> _ h h0.
have m0 : 0%N \in delete_index 1 idx by rewrite mem_filter h0.
split=> //; last by rewrite mem_filter.
rewrite /idx_ok; apply/andP; split; first by apply/eqP => e; rewrite e in m0.
by apply/allP => i; rewrite mem_filter => /andP[_ /(allP h)].
Qed.

Lemma delete1_nil idx : idx_ok idx -> 0%N \notin idx -> delete_index 1 idx = [::].
Proof.
case/andP=> _ h h0; apply/eqP; rewrite -size_eq0 size_filter -leqn0 leqNgt -has_count -all_predC.
apply/allP => i hi /=; have := allP h i hi; case: i hi => [|[|i]] //; by rewrite (negbTE h0).
Qed.

Lemma delete0_nil idx : idx_ok idx -> 1%N \notin idx -> delete_index 0 idx = [::].
Proof.
case/andP=> _ h h0; apply/eqP; rewrite -size_eq0 size_filter -leqn0 leqNgt -has_count -all_predC.
apply/allP => i hi /=; have := allP h i hi; case: i hi => [|[|i]] //; by rewrite (negbTE h0).
Qed.

Lemma rapp_plus : rapp (Plus R) = +%R. Proof. by []. Qed.
Lemma rapp_times : rapp (Times R) = *%R. Proof. by []. Qed.

Notation "'+r'" := (rapp (Plus R)).
Notation "'*r'" := (rapp (Times R)).

Lemma diag_kind_diagonal o : diag_kind o -> diagonal o.
Proof. rewrite /diagonal /ttype /diag_kind; case: ifP => // _; by case: (okind o). Qed.

Lemma diagonal_of_fix o : rfix (diagonal_of o) = rfix o && cfix o /\ cfix (diagonal_of o) = true.
Proof. by rewrite /diagonal_of; case: (okind o). Qed.

Lemma plus_row_case fuel o : (0 < orows o)%N -> (0 < ocols o)%N -> (orows o <= ocols o)%N -> constant (diagonal_of o) ->
  returns (reduce_impl fuel.+1 (Plus R) (diagonal_of o) [::]) (value (diagonal_of o)).
Proof.
move=> hr hc le cd; rewrite reduce_impl_eq.
have hd : (0 < orows (diagonal_of o))%N /\ (0 < ocols (diagonal_of o))%N.
  by rewrite diagonal_of_rows diagonal_of_cols leq_min hr hc.
case: ifP => [/andP[z _]|_].
  have [m [e s]] := @zero_branch_ok _ (Plus R) [::] _ isT hd.1 hd.2 z.
  by exists m; split=> //; apply: same_trans s (reduced_of_nil _ _).
rewrite cd; have [m [e s]] := @const_branch_ok _ (Plus R) [::] _ hd.1 hd.2 cd.
by exists m; split=> //; apply: same_trans s (reduced_of_nil _ _).
Qed.

Lemma plus_col_case fuel o : (0 < orows o)%N -> (0 < ocols o)%N -> ~~ diag_kind o -> ocols o = 1%N ->
  returns (reduce_impl fuel.+1 (Plus R) (transpose_col o) [::]) (value (transpose_col o)).
Proof.
move=> hr hc nd c1; rewrite reduce_impl_eq.
have [e1 e2] := transpose_dims o.
have hd : (0 < orows (transpose_col o))%N /\ (0 < ocols (transpose_col o))%N by rewrite e1 e2.
case: ifP => [/andP[z _]|_].
  have [m [e s]] := @zero_branch_ok _ (Plus R) [::] _ isT hd.1 hd.2 z.
  by exists m; split=> //; apply: same_trans s (reduced_of_nil _ _).
case: ifP => [cd|nc].
  have [m [e s]] := @const_branch_ok _ (Plus R) [::] _ hd.1 hd.2 cd.
  by exists m; split=> //; apply: same_trans s (reduced_of_nil _ _).
rewrite !in_nil /= ?andbF /= /lib_reduce in_nil /= e1 c1 /=.
eexists; split; first by []; split=> /=; rewrite ?e1 ?c1 // => i j; rewrite ltnS leqn0 => /eqP-> hj.
by rewrite /column e1 c1.
Qed.

Lemma reduce_impl_plus fuel o idx : idx_ok idx -> (0 < orows o)%N -> (0 < ocols o)%N ->
  diag_kind o -> plus_cond o idx ->
  returns (reduce_impl fuel.+2 (Plus R) o idx) (reduced_of +r idx (value o)).
Proof.
move=> ok hr hc dk pc; rewrite reduce_impl_eq.
case: ifP => [/andP[z p]|nz]; first exact: (@zero_branch_ok _ (Plus R)).
case: ifP => [c|/negbT nc]; first exact: (@const_branch_ok _ (Plus R)).
have d : diagonal o by exact: diag_kind_diagonal.
have hn : (0 < minn (orows o) (ocols o))%N by rewrite leq_min hr.
rewrite d /= ; case: ifP => [/and3P[rf cf h]|n3].
  have h1 : 1%N \in idx by case/orP: h => /andP[].
  have [h0|h0] := boolP (0%N \in idx).
    have [ok' m0 m1] := delete1_ok ok h0.
    have [|||m [e s]] := @reduce_impl_ok _ fuel (Plus R) _ (diagonal_of o) ok'; rewrite ?diagonal_of_rows ?diagonal_of_cols ?diagonal_of_not_diag //.
    exists m; split=> //; apply: same_trans s _; split; rewrite /= ?m0 ?(negbTE m1) ?h0 ?h1 ?diagonal_of_cols //.
    move=> i j hi hj; rewrite group_col ?diagonal_of_cols // group_both // rapp_plus.
    rewrite !fold1_sum sum_column sum_components diag_total // /trace_of diagonal_of_rows /=.
    by apply: eq_bigr => k _; rewrite diagonal_ofE.
  move: h; rewrite h1 (negbTE h0) /= orbF => le.
  rewrite delete1_nil //.
  have cd : constant (diagonal_of o).
    move: pc; rewrite /plus_cond (negbTE h0) rf cf ltnNge le /=; case/orP => [/eqP e|].
      have : one_dim (diagonal_of o).
        rewrite /one_dim diagonal_of_rows diagonal_of_cols e /=.
        have [-> ->] := diagonal_of_fix o.
        by rewrite rf cf /= andbT (minn_idPl hc).
      by rewrite /constant => ->; rewrite orbT.
    by rewrite /is_kcdiag /constant /diagonal_of; case: (okind o).
  have [m [e s]] := plus_row_case fuel hr hc le cd.
  exists m; split=> //; apply: same_trans s _.
  split; rewrite /= ?diagonal_of_rows ?diagonal_of_cols ?h1 ?(negbTE h0) ?(minn_idPl le) // => i j hi hj.
  by rewrite group_row // rapp_plus fold1_sum sum_row diag_row_sum // (leq_trans hi le) diagonal_ofE.
case: ifP => [/and4P[rf cf h0 le]|_]; last by exact: (@lib_reduce_ok _ (Plus R)).
have h1 : 1%N \notin idx by apply/negP => h1; move: n3; rewrite rf cf h0 h1 orbT.
rewrite delete0_nil //.
have [||||m [e s]] := @plus_col_case fuel (diagonal_of o); rewrite ?diagonal_of_rows ?diagonal_of_cols ?diagonal_of_not_diag //.
exists m; split=> //; apply: same_trans s _.
have [e1 e2] := transpose_dims (diagonal_of o).
split; rewrite /= ?e1 ?e2 ?diagonal_of_rows ?diagonal_of_cols ?h0 ?(negbTE h1) ?(minn_idPr le) // => i j.
rewrite ltnS leqn0 => /eqP-> hj.
rewrite transpose_colE ?diagonal_of_rows ?diagonal_of_cols ?diagonal_of_not_diag ?(minn_idPr le) //.
by rewrite group_col // rapp_plus fold1_sum sum_column diag_col_sum // (leq_trans hj le) diagonal_ofE.
Qed.

Theorem reduce_plus_ok o idx : idx_ok idx -> (0 < orows o)%N -> (0 < ocols o)%N ->
  diag_kind o ==> plus_cond o idx ->
  returns (reduce (Plus R) o idx) (reduced_of +r idx (value o)).
Proof.
move=> ok hr hc; have [dk /= pc|nd _] := boolP (diag_kind o); last by apply: reduce_ok; rewrite ?nd.
apply: (@reduce_skip _ (Plus R) o idx (plus_cond o)) => // [i rest i2 f p _|i rest ok' nf p].
  move: p f; rewrite /plus_cond; case: i i2 => [|[|//]] _; first by move=> _ /andP[_ ->]; rewrite !orbT.
  by rewrite in_cons.
exact: reduce_impl_plus.
Qed.

(** ** Products along one index of a diagonal matrix *)

Lemma prod_row o i : \prod_(x <- row o i) x = \prod_(j < ocols o) entry o i j.
Proof. by rewrite big_map -{1}[ocols o]subn0 -/(index_iota 0 (ocols o)) big_mkord. Qed.

Lemma prod_column o j : \prod_(x <- column o j) x = \prod_(i < orows o) entry o i j.
Proof. by rewrite big_map -{1}[orows o]subn0 -/(index_iota 0 (orows o)) big_mkord. Qed.

Lemma other_index n (i : nat) : (2 <= n)%N -> exists k : 'I_n, i != k :> nat.
Proof.
case: n => [|[|n]] // _; case: i => [|i]; first by exists (Ordinal (isT : 1 < n.+2)%N).
by exists (Ordinal (isT : 0 < n.+2)%N).
Qed.

Lemma prod_row0 o i : diagonal o -> (i < orows o)%N -> (2 <= ocols o)%N -> fold1 *%R (row o i) = 0.
Proof.
move=> d hi hc; rewrite fold1_prod; last by rewrite /row; case: (ocols o) hc.
rewrite prod_row; have [k ne] := other_index i hc; rewrite (bigD1 k) //= diagonal_entry ?mul0r //.
Qed.

Lemma prod_col0 o j : diagonal o -> (j < ocols o)%N -> (2 <= orows o)%N -> fold1 *%R (column o j) = 0.
Proof.
move=> d hj hr; rewrite fold1_prod; last by rewrite /column; case: (orows o) hr.
rewrite prod_column; have [k ne] := other_index j hr; rewrite (bigD1 k) //= diagonal_entry ?mul0r //; by rewrite eq_sym.
Qed.

Lemma times_zero fuel o idx : reduce_impl fuel.+1 (Times R) (make_zero o) idx =
  Val (const_mat 0 (reduced_rows idx (make_zero o)) (reduced_cols idx (make_zero o))).
Proof. by rewrite reduce_impl_eq {1}/make_zero /zero /= eqxx. Qed.

Theorem reduce_times_row_ok o : (0 < orows o)%N -> (0 < ocols o)%N ->
  (diag_kind o && cfix o) ==> ((ocols o == 1%N) || (orows o <= ocols o)%N) ->
  returns (reduce (Times R) o [:: 1%N]) (reduced_of *r [:: 1%N] (value o)).
Proof.
move=> hr hc; have [dk /= pc|nd _] := boolP (diag_kind o); last by apply: reduce_ok; rewrite ?nd.
apply: (@reduce_skip _ (Times R) o [:: 1%N] (fun idx => idx = [:: 1%N])) => // [i rest _ _ [_ ->] //|i rest ok' nf e].
rewrite e in nf *; case: e nf => -> _ nf.
rewrite reduce_impl_eq.
case: ifP => [/andP[z p]|nz]; first exact: (@zero_branch_ok _ (Times R)).
case: ifP => [c|/negbT nc]; first exact: (@const_branch_ok _ (Times R)).
have d : diagonal o by exact: diag_kind_diagonal.
rewrite d /= in_cons /= andbT in_cons in_nil !andbF.
have [cf|ncf] := boolP (cfix o); last by apply: (@lib_reduce_ok _ (Times R)).
move: nf; rewrite /fixed_one cf /= => n1; rewrite (negbTE n1).
have hc2 : (2 <= ocols o)%N by case: (ocols o) hc n1 => [|[|]].
move: pc; rewrite cf (negbTE n1) /= => le.
rewrite times_zero /reduced_rows /reduced_cols /=.
eexists; split; first by []; split; rewrite /= ?diagonal_of_rows ?(minn_idPl le) // => i0 j hi hj.
by rewrite group_row // rapp_times prod_row0.
Qed.

Theorem reduce_times_col_ok o : (0 < orows o)%N -> (0 < ocols o)%N ->
  (diag_kind o && rfix o) ==> ((orows o == 1%N) || (ocols o <= orows o)%N) ->
  returns (reduce (Times R) o [:: 0%N]) (reduced_of *r [:: 0%N] (value o)).
Proof.
move=> hr hc; have [dk /= pc|nd _] := boolP (diag_kind o); last by apply: reduce_ok; rewrite ?nd.
apply: (@reduce_skip _ (Times R) o [:: 0%N] (fun idx => idx = [:: 0%N])) => // [i rest _ _ [_ ->] //|i rest ok' nf e].
rewrite e in nf *; case: e nf => -> _ nf.
rewrite reduce_impl_eq.
case: ifP => [/andP[z p]|nz]; first exact: (@zero_branch_ok _ (Times R)).
case: ifP => [c|/negbT nc]; first exact: (@const_branch_ok _ (Times R)).
have d : diagonal o by exact: diag_kind_diagonal.
rewrite d /= in_cons in_nil /= !andbF /= andbT.
have [rf|nrf] := boolP (rfix o); last by apply: (@lib_reduce_ok _ (Times R)).
move: nf; rewrite /fixed_one rf /= => n1; rewrite (negbTE n1).
have hr2 : (2 <= orows o)%N by case: (orows o) hr n1 => [|[|]].
move: pc; rewrite rf (negbTE n1) /= => le.
have [e1 e2] := transpose_dims (diagonal_of o).
rewrite times_zero /reduced_rows /reduced_cols /=.
eexists; split; first by []; split; rewrite /= ?e1 ?e2 ?diagonal_of_rows ?diagonal_of_cols ?(minn_idPr le) // => i0 j hi hj.
by rewrite group_col // rapp_times prod_col0.
Qed.

(** ** Complete reductions *)

Lemma total_const o : constant o -> total_of (value o) = cval o * (orows o * ocols o)%:R.
Proof.
move=> c; rewrite /total_of (eq_bigr (fun=> cval o * (ocols o)%:R)) => [|i _].
  by rewrite sumr_const card_ord natrM mulrA -mulr_natr mulrAC.
rewrite (eq_bigr (fun=> cval o)) => [|j _]; first by rewrite sumr_const card_ord mulr_natr.
by rewrite /= constant_entry.
Qed.

Lemma total_one o : one_dim o -> total_of (value o) = singular o.
Proof. by case/one_dimE=> e1 e2; rewrite /total_of /= e1 e2 !big_ord1. Qed.

Lemma product_const o : constant o -> product_of (value o) = cval o ^+ (orows o * ocols o).
Proof.
move=> c; rewrite /product_of (eq_bigr (fun=> cval o ^+ (ocols o))) => [|i _].
  by rewrite prodr_const card_ord mulnC exprM.
rewrite (eq_bigr (fun=> cval o)) => [|j _]; first by rewrite prodr_const card_ord.
by rewrite /= constant_entry.
Qed.

Lemma product_one o : one_dim o -> product_of (value o) = singular o.
Proof. by case/one_dimE=> e1 e2; rewrite /product_of /= e1 e2 !big_ord1. Qed.

Lemma both_ok : idx_ok [:: 0%N; 1%N]. Proof. by []. Qed.

Theorem reduce_all_plus_ok o : (0 < orows o)%N -> (0 < ocols o)%N -> reduce_all (Plus R) o = Val (total_of (value o)).
Proof.
move=> hr hc; rewrite /reduce_all; case: ifP => [/andP[z _]|_].
  by rewrite (total_const (zero_constant z)) zero_cval // mul0r.
case: ifP => [/total_one->|_] //; case: ifP => [/total_const->|nc] //.
have [m [-> [e1 e2 e]]] : returns (reduce_impl template_depth (Plus R) o [:: 0%N; 1%N]) (reduced_of +r [:: 0%N; 1%N] (value o)).
  have [dk|nd] := boolP (diag_kind o); first exact: reduce_impl_plus.
  by apply: reduce_impl_ok; rewrite ?nd.
rewrite /rbind e1 e2 /= e ?e1 ?e2 //= group_both // rapp_plus fold1_sum sum_components //.
Qed.

Theorem reduce_all_times_ok o : (0 < orows o)%N -> (0 < ocols o)%N -> ~~ diag_kind o ->
  reduce_all (Times R) o = Val (product_of (value o)).
Proof.
move=> hr hc nd; rewrite /reduce_all; case: ifP => [/andP[z _]|_].
  by rewrite (product_const (zero_constant z)) zero_cval // expr0n muln_eq0 !eqn0Ngt hr hc.
case: ifP => [/product_one->|_] //; case: ifP => [/product_const->|nc] //.
have [m [-> [e1 e2 e]]] : returns (reduce_impl template_depth (Times R) o [:: 0%N; 1%N]) (reduced_of *r [:: 0%N; 1%N] (value o)).
  by apply: reduce_impl_ok; rewrite ?nd.
rewrite /rbind e1 e2 /= e ?e1 ?e2 //= group_both // rapp_times fold1_prod ?prod_components //.
by rewrite /components /column; case: (ocols o) hc => // c _; case: (orows o) hr.
Qed.

Theorem reduce_all_other_ok o f : (0 < orows o)%N -> (0 < ocols o)%N ->
  reduce_all (Other f) o = Val (fold1 f (components o)).
Proof.
move=> hr hc; rewrite /reduce_all andbF.
have idx2 i j : group [:: 0%N; 1%N] (value o) i j = components o by rewrite group_both.
case: ifP => [/one_dimE[e1 e2]|_]; first by rewrite /components /column e1 e2.
case: ifP => [c|nc].
  have h : fold1 (rapp (Other f)) (nseq (orows o * ocols o) (cval o)) = fold1 f (components o).
    by rewrite -(idx2 0%N 0%N) (@group_const _ [:: 0%N; 1%N] o 0 0 c).
  by rewrite -h constant_reduce_ok // muln_gt0 hr.
have [m [-> [e1 e2 e]]] : returns (reduce_impl template_depth (Other f) o [:: 0%N; 1%N]) (reduced_of (rapp (Other f)) [:: 0%N; 1%N] (value o)).
  by apply: reduce_impl_ok; rewrite // orbT.
by rewrite /rbind e1 e2 /= e ?e1 ?e2 //= idx2.
Qed.

(** ** Averages *)

Theorem average_all_ok o : (0 < orows o)%N -> (0 < ocols o)%N ->
  average_all o = Val (total_of (value o) / (orows o * ocols o)%:R).
Proof.
move=> hr hc; have n0 : (orows o * ocols o)%:R != 0 :> R by rewrite pnatr_eq0 muln_eq0 !eqn0Ngt hr hc.
rewrite /average_all; case: ifP => [z|_].
  by rewrite (total_const (zero_constant z)) zero_cval // !mul0r.
case: ifP => [c|/negbT nc]; first by rewrite total_const // mulfK.
case: ifP => [cd|_].
  have [fx [x e]] := const_diag_cases cd nc.
  rewrite -leqn0 geq_max leqn0 eqn0Ngt hr /= diag_total; last by apply: diag_kind_diagonal; rewrite /diag_kind e.
  rewrite /trace_of (eq_bigr (fun=> cval o)) => [|i _]; last by rewrite /= /entry /cval e eqxx.
  rewrite sumr_const card_ord /=; congr Val.
  have p : (minn (orows o) (ocols o) * maxn (orows o) (ocols o) = orows o * ocols o)%N.
    by case: leqP => // _; rewrite mulnC.
  have n1 : (minn (orows o) (ocols o))%:R != 0 :> R by rewrite pnatr_eq0 eqn0Ngt leq_min hr hc.
  by rewrite -p natrM -[_ *+ minn _ _]mulr_natr [in RHS]invfM [in RHS]mulrA mulfK.
by rewrite reduce_all_plus_ok //= muln_eq0 !eqn0Ngt hr hc.
Qed.

End P.
