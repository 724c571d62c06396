(** * Proofs about the shortcuts: partial averages, trace, determinant, sum. *)
From mathcomp Require Import all_ssreflect all_algebra.
From Verif Require Import ShortModel ShortSpec ShortProofs1 ShortProofs2 ShortProofs3.
Set Implicit Arguments.
Unset Strict Implicit.
Unset Printing Implicit Defensive.
Import GRing.Theory Num.Theory Order.Theory.
Local Open Scope ring_scope.

Arguments reduce_impl : simpl never.
Arguments reduce : simpl never.

Section P.
Variable R : rcfType.
Implicit Types (o a b d t : obj R) (m : mat R) (idx : seq nat) (op : rop R) (ts : seq (obj R)).

(** ** Partial averages *)

Lemma group_skip i idx m x y : (i < 2)%N -> (if i is 0 then mrows m else mcols m) = 1%N ->
  (x < (if 0%N \in idx then 1 else mrows m))%N -> (y < (if 1%N \in idx then 1 else mcols m))%N ->
  group (i :: idx) m x y = group idx m x y.
Proof.
case: i => [|[|//]] _ e.
- rewrite e (_ : (if 0%N \in idx then 1%N else 1%N) = 1%N) => [hx hy|]; last by case: ifP.
  rewrite !groupE e /= !in_cons /=; congr flatten; apply: eq_map => z.
  move: hx; rewrite ltnS leqn0 => /eqP->; by rewrite orbT.
- move=> hx; rewrite e (_ : (if 1%N \in idx then 1%N else 1%N) = 1%N) => [hy|]; last by case: ifP.
  rewrite !groupE e /= !in_cons /=.
  move: hy; rewrite ltnS leqn0 => /eqP->; by rewrite orbT.
Qed.

Lemma average_of_skip i idx m : (i < 2)%N -> (if i is 0 then mrows m else mcols m) = 1%N ->
  same (average_of idx m) (average_of (i :: idx) m).
Proof.
move=> i2 e; split; rewrite /= ?in_cons.
- by case: i i2 e => [|[|//]] _ e //=; rewrite e; case: ifP.
- by case: i i2 e => [|[|//]] _ e //=; rewrite e; case: ifP.
- by move=> x y hx hy; rewrite (group_skip i2 e).
Qed.

Lemma average_of_nil m : same (average_of [::] m) m.
Proof. by split=> //= i j hi hj; rewrite group_none // big_seq1 divr1. Qed.

Lemma size_group idx o i j : (i < (if 0%N \in idx then 1 else orows o))%N ->
  (j < (if 1%N \in idx then 1 else ocols o))%N -> size (group idx (value o) i j) = count_reduced idx o.
Proof.
move=> hi hj; rewrite groupE size_flatten /shape -map_comp /=.
rewrite (eq_map (f2 := fun=> size [seq x <- iota 0 (orows o) | (0%N \in idx) || (x == i)])) => [|y /=]; last by rewrite size_map.
rewrite /count_reduced.
have -> : size [seq x <- iota 0 (orows o) | (0%N \in idx) || (x == i)] = if 0%N \in idx then orows o else 1%N.
  case: ifP hi => _ hi /=; first by rewrite filter_predT size_iota.
  by rewrite filter_pick.
have -> : forall k (s : seq nat), sumn [seq k | _ <- s] = (k * size s)%N.
  by move=> k; elim=> [|y s /= ->]; rewrite ?muln0 // mulnS.
congr (_ * _)%N; case: ifP hj => _ hj /=; first by rewrite filter_predT size_iota.
by rewrite filter_pick.
Qed.

Theorem average_reduce_ok o idx : idx_ok idx -> (0 < orows o)%N -> (0 < ocols o)%N ->
  diag_kind o ==> plus_cond o idx ->
  returns (average_reduce o idx) (average_of idx (value o)).
Proof.
move=> ok hr hc; elim: idx ok => // i rest IH ok pc; rewrite [average_reduce _ _]/=.
have -> : empty o = false by rewrite /empty !eqn0Ngt hr hc !andbF.
have i2 : (i < 2)%N by case/andP: ok => _ /andP[].
case: ifP => [f|/negbT nf].
  have e : (if i is 0 then mrows (value o) else mcols (value o)) = 1%N by exact: fixed_oneE.
  case: rest IH ok pc => [|k rest] IH ok pc.
    exists (value o); split=> //.
    exact: same_trans (same_sym (average_of_nil (value o))) (average_of_skip _ i2 e).
  have [||m [em s]] := IH.
  - by case/andP: ok => _ /andP[_ ?].
  - move: pc f; rewrite /plus_cond; case: (diag_kind o) => //=.
    by case: i i2 {e ok} => [|[|//]] _; [move=> _ /andP[_ ->]; rewrite !orbT|rewrite in_cons].
  exists m; split=> //; exact: same_trans s (average_of_skip _ i2 e).
have n0 : (count_reduced (i :: rest) o)%:R != 0 :> R by rewrite pnatr_eq0 eqn0Ngt count_reduced_gt0.
case: ifP => [c|nc].
  eexists; split; first by []; split=> //= x y hx hy.
  rewrite size_group // group_const //.
  rewrite (_ : \sum_(z <- nseq _ _) z = cval o * (count_reduced (i :: rest) o)%:R) ?mulfK //.
  elim: (count_reduced _ _) => [|n IHn] /=; first by rewrite big_nil mulr0.
  by rewrite big_cons IHn [in RHS]mulrS mulrDr mulr1.
have [m [-> [e1 e2 e]]] := reduce_plus_ok ok hr hc pc.
rewrite /rbind eqn0Ngt count_reduced_gt0 //=.
eexists; split; first by []; split=> //= x y hx hy.
move: (hx) (hy); rewrite e1 e2 /= => hx1 hy1; by rewrite e //= size_group // -fold1_sum.
Qed.

(** ** Trace *)

Lemma trace_const o : constant o -> trace_of (value o) = cval o * (minn (orows o) (ocols o))%:R.
Proof.
move=> c; rewrite /trace_of (eq_bigr (fun=> cval o)) => [|i _]; first by rewrite sumr_const card_ord mulr_natr.
by rewrite /= constant_entry // (leq_trans (ltn_ord i)) ?geq_minl ?geq_minr.
Qed.

Lemma trace_const_diag o : const_diag o -> trace_of (value o) = cval o * (minn (orows o) (ocols o))%:R.
Proof.
move=> c; rewrite /trace_of (eq_bigr (fun=> cval o)) => [|i _]; first by rewrite sumr_const card_ord mulr_natr.
by rewrite /= const_diag_entry ?eqxx // (leq_trans (ltn_ord i)) ?geq_minl ?geq_minr.
Qed.

Lemma total_diagonal_of o : total_of (value (diagonal_of o)) = trace_of (value o).
Proof.
rewrite /total_of /trace_of /= diagonal_of_rows diagonal_of_cols.
by apply: eq_bigr => i _; rewrite big_ord1 diagonal_ofE.
Qed.

Lemma trace_single o : minn (orows o) (ocols o) = 1%N -> trace_of (value o) = singular (diagonal_of o).
Proof. by move=> e; rewrite /trace_of /= e big_ord1 /singular diagonal_ofE. Qed.

Theorem trace_ok o : (triangular o -> (0 < orows o)%N && (0 < ocols o)%N) -> trace o = Val (trace_of (value o)).
Proof.
move=> ht; rewrite /trace.
case: ifP => [/orP[z|]|/norP[nz ne]].
- by rewrite (trace_const (zero_constant z)) zero_cval // mul0r.
- rewrite /trace_of /empty /= => h.
  rewrite (_ : minn _ _ = 0%N) ?big_ord0 //.
  by case/orP: h => /andP[_ /eqP->]; rewrite ?min0n ?minn0.
case: ifP => [/identity_const_diag[cd e]|_]; first by rewrite trace_const_diag // e mul1r.
case: ifP => [/one_dimE[e1 e2]|_]; first by rewrite /trace_of /= e1 e2 big_ord1.
case: ifP => [c|_]; first by rewrite trace_const.
case: ifP => [c|_]; first by rewrite trace_const_diag.
have [rd cd] := diagonal_of_fix o.
case: ifP => [t|_].
  have /andP[hr hc] := ht t.
  by rewrite reduce_all_plus_ok ?diagonal_of_rows ?diagonal_of_cols ?leq_min ?hr ?hc // total_diagonal_of.
have pos : (0 < minn (orows o) (ocols o))%N -> reduce_all (Plus R) (diagonal_of o) = Val (trace_of (value o)).
  by move=> h; rewrite reduce_all_plus_ok ?diagonal_of_rows ?diagonal_of_cols // total_diagonal_of.
rewrite diagonal_of_rows; case: ifP => [_|/negbFE rf].
  have [h|h] := leqP 2 (minn (orows o) (ocols o)); first by rewrite pos // (leq_trans _ h).
  case: eqP => [e|/eqP n1]; first by rewrite trace_single.
  rewrite /trace_of /= (_ : minn _ _ = 0%N) ?big_ord0 //.
  by move: h n1; case: (minn _ _) => [|[|]].
case: eqP => [e|/eqP n1]; first by rewrite trace_single.
rewrite pos // lt0n; apply/eqP => m0; move: rf; rewrite rd => /andP[rf cf].
move: ne; rewrite /empty rf cf /= => /norP[n2 n3].
by move: m0 => /eqP; rewrite -leqn0 geq_min !leqn0 (negbTE n2) (negbTE n3).
Qed.

(** ** Determinant *)

Lemma det_const n (c : R) : (2 <= n)%N -> \det (\matrix_(i < n, j < n) c) = 0.
Proof.
case: n => [|[|n]] // _.
apply: (@determinant_alternate _ _ _ (Ordinal (isT : 0 < n.+2)%N) (Ordinal (isT : 1 < n.+2)%N)) => //.
by move=> j; rewrite !mxE.
Qed.

Lemma det_constant o : constant o -> orows o = ocols o -> (2 <= orows o)%N -> det_of (value o) = 0.
Proof.
move=> c e h; rewrite -[RHS](det_const (cval o) h) /det_of; congr (\det _).
by apply/matrixP => i j; rewrite !mxE /= constant_entry // -e.
Qed.

Lemma det_one o : orows o = 1%N -> det_of (value o) = singular o.
Proof. by move=> e; rewrite /det_of /= e det_mx11 mxE. Qed.

Lemma det_zero_dim o : orows o = 0%N -> det_of (value o) = 1.
Proof. by move=> e; rewrite /det_of /= e det_mx00. Qed.

Lemma det_cdiag o : const_diag o -> orows o = ocols o -> det_of (value o) = cval o ^+ orows o.
Proof.
move=> c e; rewrite /det_of /= (_ : \matrix_(_, _) _ = (cval o)%:M) ?det_scalar //.
apply/matrixP => i j; rewrite !mxE const_diag_entry -?e //.
by rewrite (inj_eq val_inj); case: eqP => _ //=; rewrite ?mulr1n ?mulr0n.
Qed.

Lemma det_triangular o : triangular o -> orows o = ocols o -> det_of (value o) = \prod_(i < orows o) entry o i i.
Proof.
move=> t e; rewrite /det_of /=.
have [l|nl] := boolP (lower o).
  rewrite det_trig; first by apply: eq_bigr => i _; rewrite mxE.
  by apply/is_trig_mxP => i j ij; rewrite mxE lower_entry // -e.
have u : upper o by move: t nl; rewrite /triangular /lower /upper; case: (ttype o).
rewrite -det_tr det_trig; first by apply: eq_bigr => i _; rewrite !mxE.
by apply/is_trig_mxP => i j ij; rewrite !mxE upper_entry // -e.
Qed.

Lemma product_diagonal_of o : orows o = ocols o -> product_of (value (diagonal_of o)) = \prod_(i < orows o) entry o i i.
Proof.
move=> e; rewrite /product_of /= diagonal_of_rows diagonal_of_cols -e minnn.
by apply: eq_bigr => i _; rewrite big_ord1 diagonal_ofE.
Qed.

Theorem determinant_ok o : orows o = ocols o -> 
  (triangular o -> (0 < orows o)%N) ->
  (const_diag o -> one_dim o \/ 0 < cval o \/ (cval o = 0 /\ (0 < orows o)%N)) ->
  determinant o = Val (det_of (value o)).
Proof.
move=> e ht hc; rewrite /determinant /check_square e eqxx.
case: ifP => [/orP[i|h]|/norP[ni ne]].
- have [cd c1] := identity_const_diag i.
  by rewrite det_cdiag // c1 expr1n.
- by rewrite det_zero_dim // e; move: h; rewrite /empty e => /orP[/andP[_ /eqP]|/andP[_ /eqP]].
case: ifP => [h|/negbT n1].
  by rewrite det_one //; move: h; rewrite e => /orP[/andP[_ /eqP]|/andP[_ /eqP]].
have dim : (if rfix o then ocols o else ocols o) = ocols o by case: ifP.
rewrite dim.
case: ifP => [/and3P[c _ h]|_].
  by rewrite det_constant ?e.
case: ifP => [c|_].
  rewrite det_cdiag // e /vpow; case: (hc c) => [d1|[-> //|[-> h]]].
    exfalso; move: n1; rewrite -e; case/and4P: d1 => -> _ -> _; by [].
  by rewrite ltxx eqxx -e expr0n eqn0Ngt h.
case: ifP => [t|_].
  rewrite reduce_all_times_ok ?diagonal_of_rows ?diagonal_of_cols ?diagonal_of_not_diag -?e ?minnn ?ht //.
  by rewrite product_diagonal_of // det_triangular.
case: ifP => [c|_] //.
case: ltnP => [h|h].
  by rewrite det_constant ?e.
case: eqP => [h1|/eqP h1]; first by rewrite det_one // e.
rewrite det_zero_dim // e; by case: (ocols o) h h1 => [|[|]].
Qed.

(** ** Sum *)

Lemma same_dimsP a b : reflect (orows a = orows b /\ ocols a = ocols b) (same_dims a b).
Proof. by apply: (iffP andP) => [[/eqP-> /eqP->]|[-> ->]]. Qed.

Definition good (r c : nat) o : Prop := [/\ orows o = r, ocols o = c & square_if_diagonal o].

Lemma sum_impl_eq fuel t0 t1 rest : sum_impl fuel.+1 (t0 :: t1 :: rest) =
      if ~~ same_dims t0 t1 then Thrown
      else if zero t0 then sum_impl fuel (t1 :: rest)
      else if zero t1 then sum_impl fuel (t0 :: rest)
      else if constant t0 && constant t1 then sum_impl fuel (sum_constants t0 t1 :: rest)
      else if constant t0 && ~~ nilp rest then
        rbind (sum_impl fuel (t0 :: rest)) (fun x => sum_impl fuel [:: t1; x])
      else if constant t1 && ~~ nilp rest then
        rbind (sum_impl fuel (t1 :: rest)) (fun x => sum_impl fuel [:: t0; x])
      else if diagonal t0 && diagonal t1 then
        rbind (sum_impl fuel [:: diagonal_of t0; diagonal_of t1]) (fun d => sum_impl fuel (to_diagonal d :: rest))
      else sum_impl fuel (lib_sum t0 t1 :: rest).
Proof. by []. Qed.

Lemma diagonal_not_kind o : diagonal o -> ~~ diag_kind o -> constant o.
Proof.
move/diagonal_kind => /or3P[z|d1|->] // _; rewrite /constant ?z ?d1 ?orbT //.
Qed.

Lemma sum_columns fuel t0 t1 : ~~ diag_kind t0 -> ~~ diag_kind t1 -> orows t0 = orows t1 -> ocols t0 = ocols t1 ->
  exists s, [/\ sum_impl fuel.+2 [:: t0; t1] = Val s, orows s = orows t0 &
    forall i j, (i < orows t0)%N -> (j < ocols t0)%N -> entry s i j = entry t0 i j + entry t1 i j].
Proof.
move=> n0 n1 e1 e2; rewrite sum_impl_eq.
have -> : same_dims t0 t1 by apply/same_dimsP.
rewrite /=; case: ifP => [z|_].
  by exists t1; split=> // i j _ _; rewrite (zero_entry _ _ z) add0r.
case: ifP => [z|_].
  by exists t0; split=> // i j _ _; rewrite (zero_entry _ _ z) addr0.
case: ifP => [/andP[c0 c1]|nc].
  exists (sum_constants t0 t1); split=> // i j hi hj.
  by rewrite (constant_entry c0) // (constant_entry c1) -?e1 -?e2.
rewrite !andbF; case: ifP => [/andP[d0 d1]|_].
  by rewrite (diagonal_not_kind d0 n0) (diagonal_not_kind d1 n1) in nc.
by exists (lib_sum t0 t1); split.
Qed.

Lemma to_diagonal_good o r : orows o = r -> good r r (to_diagonal o).
Proof. by move=> <-; rewrite /good /to_diagonal /square_if_diagonal; case: (okind o). Qed.

Lemma constant_not_good_kind o r c : good r c o -> good r c (const_obj false (cval o) r c (rfix o) (cfix o)).
Proof. by []. Qed.

Lemma sum_impl_ok fuel ts r c : (0 < size ts < fuel)%N -> (forall t, List.In t ts -> good r c t) ->
  exists s, [/\ sum_impl fuel ts = Val s, good r c s &
    forall i j, (i < r)%N -> (j < c)%N -> entry s i j = \sum_(t <- ts) entry t i j].
Proof.
elim: fuel ts => [|fuel IH] ts; first by rewrite ltn0 andbF.
case: ts => [|t0 [|t1 rest]] // /andP[_ sz] h.
  exists t0; split=> // [|i j _ _]; [exact: h (or_introl erefl)|by rewrite big_seq1].
have [r0 c0 s0] := h t0 (or_introl erefl).
have [r1 c1 s1] := h t1 (or_intror (or_introl erefl)).
have hrest t : List.In t rest -> good r c t by move=> ht; apply: h; right; right.
have tail x : good r c x ->
    exists s, [/\ sum_impl fuel (x :: rest) = Val s, good r c s &
    forall i j, (i < r)%N -> (j < c)%N -> entry s i j = entry x i j + \sum_(t <- rest) entry t i j].
  move=> gx; have [||s [es gs e]] := IH (x :: rest); first by rewrite /= -ltnS.
    by move=> t /= [<-|/hrest].
  by exists s; split=> // i j hi hj; rewrite e // big_cons.
rewrite sum_impl_eq.
have -> : same_dims t0 t1 by apply/same_dimsP; rewrite r0 r1 c0 c1.
rewrite [~~ true]/=.
case: ifP => [z|nz0].
  have [s [es gs e]] := tail t1 (And3 r1 c1 s1).
  by exists s; split=> // i j hi hj; rewrite e // !big_cons (zero_entry _ _ z) add0r.
case: ifP => [z|nz1].
  have [s [es gs e]] := tail t0 (And3 r0 c0 s0).
  by exists s; split=> // i j hi hj; rewrite e // !big_cons (zero_entry _ _ z) add0r.
case: ifP => [/andP[k0 k1]|nc].
  have [|s [es gs e]] := tail (sum_constants t0 t1); first by split.
  exists s; split=> // i j hi hj; rewrite e // !big_cons addrA.
  by rewrite (constant_entry k0) ?r0 ?c0 // (constant_entry k1) ?r1 ?c1.
have three x y : good r c x -> good r c y -> ~~ nilp rest ->
    exists s, [/\ sum_impl fuel [:: x; y] = Val s, good r c s &
      forall i j, (i < r)%N -> (j < c)%N -> entry s i j = entry x i j + entry y i j].
  move=> gx gy nr; have [||s [es gs e]] := IH [:: x; y].
  - by move: sz nr => /=; case: (rest) => //= t l; rewrite !ltnS; case: (fuel) => [|[|[|]]].
  - by move=> t /= [<-|[<-|]].
  by exists s; split=> // i j hi hj; rewrite e // !big_cons big_nil addr0.
case: ifP => [/andP[_ nr]|_].
  have [x [-> gx ex]] := tail t0 (And3 r0 c0 s0).
  have [s [es gs e]] := three t1 x (And3 r1 c1 s1) gx nr.
  by exists s; split=> // i j hi hj; rewrite e // ex // !big_cons addrCA.
case: ifP => [/andP[_ nr]|_].
  have [x [-> gx ex]] := tail t1 (And3 r1 c1 s1).
  have [s [es gs e]] := three t0 x (And3 r0 c0 s0) gx nr.
  by exists s; split=> // i j hi hj; rewrite e // ex // !big_cons.
case: ifP => [/andP[d0 d1]|_]; last first.
  have [|s [es gs e]] := tail (lib_sum t0 t1); first by split.
  by exists s; split=> // i j hi hj; rewrite e // !big_cons addrA.
have q0 : r = c.
  by case: (diagonal_square s0 d0) => [z|]; [rewrite z in nz0|rewrite r0 c0].
have [f2 e2] : exists f2, fuel = f2.+2 by move: sz; rewrite /= !ltnS; case: (fuel) => [|[|f2]] // _; exists f2.
have [d [-> rd ed]] : exists s, [/\ sum_impl fuel [:: diagonal_of t0; diagonal_of t1] = Val s, orows s = r &
    forall i, (i < r)%N -> entry s i 0 = entry t0 i i + entry t1 i i].
  have [|||| s [es rs e]] := @sum_columns f2 (diagonal_of t0) (diagonal_of t1);
    rewrite ?diagonal_of_not_diag ?diagonal_of_rows ?diagonal_of_cols ?r0 ?c0 ?r1 ?c1 -?q0 ?minnn //.
  exists s; split; rewrite ?e2 //; first by rewrite rs diagonal_of_rows r0 c0 -q0 minnn.
  by move=> i hi; rewrite e ?diagonal_ofE // ?diagonal_of_rows ?diagonal_of_cols ?r0 ?c0 -?q0 ?minnn.
have [|s [es gs e]] := tail (to_diagonal d); first by rewrite -q0; exact: to_diagonal_good.
exists s; split=> // i j hi hj; rewrite e // !big_cons addrA to_diagonalE; congr (_ + _).
case: eqP => [<-|/eqP ne]; first by rewrite ed.
by rewrite (diagonal_entry d0) ?r0 ?c0 // (diagonal_entry d1) ?r1 ?c1 // addr0.
Qed.

Lemma hermitian_entry o i j : wf o -> hermitian o -> (i < orows o)%N -> (j < orows o)%N -> entry o i j = entry o j i.
Proof.
move=> w /andP[s h] hi hj; have e := sq_square w s.
case/orP: h => [/orP[k|c]|d].
- rewrite /entry; case: (okind o) k => // l f _; case: l; by case: ltngtP => // ->.
- by rewrite !constant_entry // -e.
- have [->//|ne] := eqVneq i j; rewrite !diagonal_entry // -?e //; by rewrite eq_sym.
Qed.

Lemma join_lower ts : (if foldr (fun o u => tri_join (ttype o) u) TDiag ts is TLower then true else false) ||
  (if foldr (fun o u => tri_join (ttype o) u) TDiag ts is TDiag then true else false) -> all (@lower R) ts.
Proof.
elim: ts => //= t ts IH; move: IH; rewrite /lower.
case: (foldr _ _ _) => IH; case: (ttype t) => //= _; exact: IH.
Qed.

Lemma join_upper ts : (if foldr (fun o u => tri_join (ttype o) u) TDiag ts is TUpper then true else false) ||
  (if foldr (fun o u => tri_join (ttype o) u) TDiag ts is TDiag then true else false) -> all (@upper R) ts.
Proof.
elim: ts => //= t ts IH; move: IH; rewrite /upper.
case: (foldr _ _ _) => IH; case: (ttype t) => //= _; exact: IH.
Qed.

Lemma big_in0 ts (F : obj R -> R) : (forall t, List.In t ts -> F t = 0) -> \sum_(t <- ts) F t = 0.
Proof.
elim: ts => [|t ts IH] h; first by rewrite big_nil.
rewrite big_cons h ?IH ?addr0 //=; first by move=> u hu; apply: h; right.
by left.
Qed.

Lemma big_in_eq ts (F G : obj R -> R) : (forall t, List.In t ts -> F t = G t) -> \sum_(t <- ts) F t = \sum_(t <- ts) G t.
Proof.
elim: ts => [|t ts IH] h; first by rewrite !big_nil.
rewrite !big_cons h /=; last by left.
by rewrite IH // => u hu; apply: h; right.
Qed.

Lemma all_In (p : obj R -> bool) ts : all p ts -> forall t, List.In t ts -> p t.
Proof. by elim: ts => //= t ts IH /andP[pt ps] u [<-|/(IH ps)]. Qed.

Theorem sum_ok t0 ts : (forall t, List.In t ts -> orows t = orows t0 /\ ocols t = ocols t0) ->
  (forall t, List.In t (t0 :: ts) -> wf t /\ square_if_diagonal t) ->
  returns (sum (t0 :: ts)) (sum_of (value t0) [seq value t | t <- ts]).
Proof.
move=> hd hw; rewrite /sum.
have gd t : List.In t (t0 :: ts) -> good (orows t0) (ocols t0) t.
  by move=> ht; have [_ sd] := hw _ ht; case: ht sd => [<-|/hd[e1 e2]] sd; split.
have [|s [-> [r c _] e]] := @sum_impl_ok (2 * size (t0 :: ts) + 2) (t0 :: ts) _ _ _ gd.
  by rewrite /= addn2 ltnS ltnW // ltnS mul2n -addnn leq_addr.
rewrite /rbind.
have tgt i j : (i < orows t0)%N -> (j < ocols t0)%N ->
    mat_at (sum_of (value t0) [seq value t | t <- ts]) i j = entry s i j.
  by move=> hi hj; rewrite e // /sum_of /= !big_cons big_map.
have lo i j : all (@lower R) (t0 :: ts) -> (i < orows t0)%N -> (j < ocols t0)%N -> (i < j)%N -> entry s i j = 0.
  move=> al hi hj ij; rewrite e //; apply: big_in0 => t ht.
  by have [e1 e2 _] := gd t ht; rewrite lower_entry ?e1 ?e2 //; exact: all_In al _ ht.
have up i j : all (@upper R) (t0 :: ts) -> (i < orows t0)%N -> (j < ocols t0)%N -> (j < i)%N -> entry s i j = 0.
  move=> al hi hj ij; rewrite e //; apply: big_in0 => t ht.
  by have [e1 e2 _] := gd t ht; rewrite upper_entry ?e1 ?e2 //; exact: all_In al _ ht.
have fin (m : mat R) : mrows m = orows t0 -> mcols m = ocols t0 ->
    (forall i j, (i < orows t0)%N -> (j < ocols t0)%N -> mat_at m i j = entry s i j) ->
    returns (Val m) (sum_of (value t0) [seq value t | t <- ts]).
  by move=> m1 m2 me; exists m; split=> //; split=> // i j; rewrite m1 m2 => hi hj; rewrite me // tgt.
have jl := @join_lower (t0 :: ts); have ju := @join_upper (t0 :: ts).
case et : (foldr _ _ _) jl ju => /= [||| ] jl ju.
- case: ifP => [ah|_]; last by apply: fin.
  apply: fin => //= i j hi hj; case: leqP => // ij.
  have hh t : List.In t (t0 :: ts) -> hermitian t by apply: all_In.
  have q : orows t0 = ocols t0.
    have h0 := hh t0 (or_introl erefl); have [w _] := hw t0 (or_introl erefl).
    by case/andP: h0 => /(sq_square w).
  have hi' : (i < ocols t0)%N by rewrite -q.
  have hj' : (j < orows t0)%N by rewrite q.
  rewrite !e //.
  apply: big_in_eq => t ht; have [w _] := hw t ht; have [e1 e2 _] := gd t ht.
  by rewrite (hermitian_entry w (hh t ht)) // e1.
- by apply: fin => //= i j hi hj; case: leqP => // h; rewrite (lo _ _ (jl isT)).
- by apply: fin => //= i j hi hj; case: leqP => // h; rewrite (up _ _ (ju isT)).
- apply: fin => //= i j hi hj; case: (ltngtP i j) => // h; first by rewrite (lo _ _ (jl isT)).
  by rewrite (up _ _ (ju isT)).
Qed.

End P.
