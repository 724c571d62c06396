(** * Proofs about the shortcuts: contract, scalar operations, sum. *)
From mathcomp Require Import all_ssreflect all_algebra.
From Verif Require Import ShortModel ShortSpec.
Set Implicit Arguments.
Unset Strict Implicit.
Unset Printing Implicit Defensive.
Import GRing.Theory Num.Theory Order.Theory.
Local Open Scope ring_scope.

Section P.
Variable R : rcfType.
Implicit Types (o a b : obj R) (m : mat R).

Lemma same_refl m : same m m. Proof. by split. Qed.

Lemma same_sym m1 m2 : same m1 m2 -> same m2 m1.
Proof. by case=> e1 e2 e; split=> // i j hi hj; rewrite e // ?e1 ?e2. Qed.

Lemma same_trans m1 m2 m3 : same m1 m2 -> same m2 m3 -> same m1 m3.
Proof. by case=> e1 e2 e [f1 f2 f]; split; rewrite ?e1 ?e2 // => i j hi hj; rewrite e ?e1 ?e2 // f. Qed.

Lemma one_dimE o : one_dim o -> orows o = 1%N /\ ocols o = 1%N.
Proof. by case/and4P=> _ _ /eqP e1 /eqP e2. Qed.

Lemma zero_entry o i j : zero o -> entry o i j = 0.
Proof. by rewrite /zero /entry; case: (okind o) => // -[] // c /eqP -> //; case: ifP. Qed.

(** A constant object has the constant everywhere. *)
Lemma constant_entry o i j : constant o -> (i < orows o)%N -> (j < ocols o)%N -> entry o i j = cval o.
Proof.
case/orP => [/orP[|z]|/one_dimE[-> ->]].
- by rewrite /entry /cval; case: (okind o).
- rewrite zero_entry //; move: z; rewrite /zero /cval.
  by case: (okind o) => // -[] // c /eqP->.
- rewrite !ltnS !leqn0 => /eqP-> /eqP->; rewrite /cval /entry.
  by case: (okind o).
Qed.

Lemma const_diag_entry o i j : const_diag o -> (i < orows o)%N -> (j < ocols o)%N ->
  entry o i j = if i == j then cval o else 0.
Proof.
case/orP => [/orP[|z]|/one_dimE[-> ->]].
- by rewrite /entry /cval; case: (okind o).
- rewrite zero_entry //; move: z; rewrite /zero /cval.
  by case: (okind o) => // -[] // c /eqP->; case: ifP.
- rewrite !ltnS !leqn0 => /eqP-> /eqP->; rewrite /cval /entry.
  by case: (okind o).
Qed.

Lemma identity_const_diag o : identity o -> const_diag o /\ cval o = 1.
Proof.
rewrite /identity /const_diag /cval; case: (okind o) => // -[] // c; first by case/andP => -> /eqP ->; rewrite !orbT.
by move/eqP->.
Qed.

Lemma diagonal_entry o i j : diagonal o -> (i < orows o)%N -> (j < ocols o)%N -> i != j -> entry o i j = 0.
Proof.
rewrite /diagonal /ttype; case: ifP => [/orP[z|/one_dimE[-> ->]]|_].
- by move=> *; rewrite zero_entry.
- by rewrite !ltnS !leqn0 => _ /eqP-> /eqP->.
- rewrite /entry; case: (okind o) => [fx c|fx c|d|l f|l f|f].
  + by case: ifP => // _; case: ifP.
  + by move=> _ _ _ /negbTE ->.
  + by move=> _ _ _ /negbTE ->.
  + by case: ifP => // _; case: ifP => // _; case: l.
  + by case: ifP => // _; case: ifP.
  + by case: ifP => // _; case: ifP.
Qed.

Lemma lower_entry o i j : lower o -> (i < orows o)%N -> (j < ocols o)%N -> (i < j)%N -> entry o i j = 0.
Proof.
move=> l; have [d|nd] := boolP (diagonal o).
  by move=> hi hj ij; rewrite diagonal_entry // neq_ltn ij.
move: l nd; rewrite /lower /diagonal /ttype; case: ifP => [//|_].
case e: (okind o) => [fx c|fx c|d|l f|l f|f] //=; case: ifP => [/andP[_ /eqP->] _ _ _|_].
- by case: j.
- by case: ifP.
- by case: j.
- case: ifP => // _; case: l e => // e _ _ _ _; rewrite /entry e.
  by rewrite ltnNge => /negbTE ->.
- by case: j.
- by case: ifP.
- by case: j.
- by case: ifP.
Qed.

Lemma upper_entry o i j : upper o -> (i < orows o)%N -> (j < ocols o)%N -> (j < i)%N -> entry o i j = 0.
Proof.
move=> l; have [d|nd] := boolP (diagonal o).
  by move=> hi hj ij; rewrite diagonal_entry // neq_ltn ij orbT.
move: l nd; rewrite /upper /diagonal /ttype; case: ifP => [//|_].
case e: (okind o) => [fx c|fx c|d|l f|l f|f] //=; case: ifP => [//|_]; case: ifP => [/andP[_ /eqP->] _ _|_] //.
- by case: i.
- by case: i.
- case: l e => // e _ _ _ _; rewrite /entry e.
  by rewrite ltnNge => /negbTE ->.
- by case: i.
- by case: i.
Qed.

Lemma diagonal_of_entry o i : (i < orows o)%N -> (i < ocols o)%N -> diagonal o || constant o ->
  entry (diagonal_of o) i 0 = entry o i i.
Proof.
rewrite /diagonal_of /entry; case: (okind o) => //= fx c; by rewrite eqxx.
Qed.

Lemma diagonal_ofE o i k : entry (diagonal_of o) i k = entry o i i.
Proof. by rewrite /diagonal_of /entry; case: (okind o) => //= fx c; rewrite eqxx. Qed.

Lemma to_diagonalE o i j : entry (to_diagonal o) i j = if i == j then entry o i 0 else 0.
Proof. by rewrite /to_diagonal /entry; case e: (okind o). Qed.

Lemma diagonal_of_rows o : orows (diagonal_of o) = minn (orows o) (ocols o).
Proof. by rewrite /diagonal_of; case: (okind o). Qed.

Lemma diagonal_of_cols o : ocols (diagonal_of o) = 1%N.
Proof. by rewrite /diagonal_of; case: (okind o). Qed.

Lemma sq_square o : wf o -> sq o -> orows o = ocols o.
Proof.
rewrite /wf /sq; case: (osq o) => /= [/andP[/eqP-> //]|_ /and3P[_ _ /eqP //]].
Qed.

Lemma diagonal_square o : square_if_diagonal o -> diagonal o -> zero o \/ orows o = ocols o.
Proof.
rewrite /square_if_diagonal /diagonal /ttype; case: ifP => [/orP[->|/one_dimE[-> ->]]|_]; [by left|by right|].
case: (okind o) => [fx c|fx c|d|l f|l f|f]; try (by right);
  case: ifP => // _; case: ifP => // _; try (by case: l).
Qed.

(** The sum over one index of a diagonal row. *)
Lemma sum_pick n (F : nat -> R) i : (i < n)%N -> (forall k, (k < n)%N -> k != i -> F k = 0) ->
  \sum_(k < n) F k = F i.
Proof.
move=> hi h; rewrite (bigD1 (Ordinal hi)) //= big1 ?addr0 // => k ne; apply: h => //.
Qed.

Lemma mask_join a b i j : ocols a = orows b -> (i < orows a)%N -> (j < ocols b)%N ->
  mat_at (to_triangular (tri_join (ttype a) (ttype b)) (lib_product a b)) i j = mat_at (lib_product a b) i j.
Proof.
move=> e hi hj.
have lo : lower a -> lower b -> (i < j)%N -> mat_at (lib_product a b) i j = 0.
  move=> la lb ij; rewrite /= big1 // => k _.
  have [ik|ki] := ltnP i k; first by rewrite (lower_entry la) ?mul0r.
  by rewrite (lower_entry lb) ?mulr0 // -?e //; apply: leq_ltn_trans ij.
have up : upper a -> upper b -> (j < i)%N -> mat_at (lib_product a b) i j = 0.
  move=> la lb ij; rewrite /= big1 // => k _.
  have [ki|ik] := ltnP k i; first by rewrite (upper_entry la) ?mul0r.
  by rewrite (upper_entry lb) ?mulr0 // -?e //; apply: leq_trans ik.
move: lo up; rewrite /lower /upper /to_triangular; move: (lib_product a b) => m; rewrite [mat_at (Mat _ _ _) i j]/=.
by case: (ttype a); case: (ttype b) => /= lo up //; case: (ltngtP i j) => // h; first [by rewrite lo | by rewrite up].
Qed.

Theorem contract_ok a b : wf a -> wf b -> ocols a = orows b -> square_if_diagonal a -> square_if_diagonal b ->
  returns (contract a b) (product (value a) (value b)).
Proof.
move=> wa wb e sa sb; rewrite /contract /returns e eqxx /=.
case: ifP => [/andP[/identity_const_diag[db cb] /(sq_square wb) qb]|_].
  eexists; split; first by []; split=> //= [|i j hi hj]; first by rewrite e.
  have hj' : (j < ocols b)%N by rewrite -qb -e.
  rewrite (@sum_pick _ (fun k => entry a i k * entry b k j) j) //.
    by rewrite (const_diag_entry db) -?e // cb eqxx mulr1.
  by move=> k hk ne; rewrite (const_diag_entry db) -?e // (negbTE ne) mulr0.
case: ifP => [/andP[/identity_const_diag[da ca] /(sq_square wa) qa]|_].
  eexists; split; first by []; split=> //= [|i j hi hj]; first by rewrite qa.
  have hi' : (i < orows a)%N by rewrite qa e.
  rewrite (@sum_pick _ (fun k => entry a i k * entry b k j) i) -?qa //.
    by rewrite (const_diag_entry da) -?qa // ca eqxx mul1r.
  by move=> k hk ne; rewrite (const_diag_entry da) -?qa // eq_sym (negbTE ne) mul0r.
case: ifP => [z|/norP[za zb]].
  eexists; split; first by []; split=> //= i j hi hj; rewrite big1 // => k _.
  by case/orP: z => z; [rewrite (@zero_entry a) ?mul0r|rewrite (@zero_entry b) ?mulr0].
case: ifP => [/andP[ca cb]|_].
  eexists; split; first by []; split=> //= i j hi hj.
  rewrite (eq_bigr (fun=> cval a * cval b)) => [|k _]; first by rewrite sumr_const card_ord e mulr_natr.
  by rewrite !constant_entry // -e.
case: ifP => [/andP[da cb]|_].
  case: (diagonal_square sa da) => [z|qa]; first by rewrite z in za.
  eexists; split; first by []; split=> //=; first by rewrite diagonal_of_rows qa minnn.
  move=> i j; rewrite diagonal_of_rows qa minnn => hi hj.
  rewrite diagonal_ofE (@sum_pick _ (fun k => entry a i k * entry b k j) i) // => [|k hk ne].
    by rewrite (constant_entry cb) // -e.
  by rewrite (diagonal_entry da) ?mul0r ?qa // eq_sym.
case: ifP => [/andP[ca db]|_].
  case: (diagonal_square sb db) => [z|qb]; first by rewrite z in zb.
  eexists; split; first by []; split=> //=; first by rewrite diagonal_of_rows qb minnn.
  move=> i j; rewrite diagonal_of_rows qb minnn => hi hj.
  rewrite diagonal_ofE (@sum_pick _ (fun k => entry a i k * entry b k j) j) // => [||k hk ne].
  - by rewrite (constant_entry ca) ?e ?qb // mulrC.
  - by rewrite e qb.
  - by rewrite (diagonal_entry db) ?mulr0 // -e.
case: ifP => [/andP[da db]|_].
  case: (diagonal_square sa da) => [z|qa]; first by rewrite z in za.
  case: (diagonal_square sb db) => [z|qb]; first by rewrite z in zb.
  rewrite !diagonal_of_rows qa qb !minnn e qb eqxx.
  eexists; split; first by []; split=> //=; first by rewrite qa e qb.
  move=> i j hi hj; rewrite to_diagonalE (_ : entry (Obj _ _ _ _ _ _) i 0 = entry a i i * entry b i i); last by rewrite -(diagonal_ofE a i 0) -(diagonal_ofE b i 0).
  rewrite (@sum_pick _ (fun k => entry a i k * entry b k j) i) ?e ?qb // => [|k hk ne].
    case: eqP => [<- //|/eqP ne]; by rewrite [entry b _ _](diagonal_entry db) ?mulr0 ?qb.
  by rewrite (diagonal_entry da) ?mul0r ?qa ?e ?qb // eq_sym.
eexists; split; first by []; split=> // i j hi hj.
by rewrite mask_join.
Qed.

(** ** Scalar operations *)

Lemma scalar_op_entry (f : R -> R) o i j : f 0 = 0 -> entry (scalar_op f o) i j = f (entry o i j).
Proof.
move=> f0; rewrite /scalar_op /entry.
by case: (okind o) => [fx c|fx c|d|[] g|[] g|g] //=; case: ifP.
Qed.

Lemma scalar_op_dims f o : orows (scalar_op f o) = orows o /\ ocols (scalar_op f o) = ocols o.
Proof. by rewrite /scalar_op; case: (okind o). Qed.

Lemma const_diag_cases o : const_diag o -> ~~ constant o -> exists fx c, okind o = KCDiag fx c.
Proof.
by rewrite /const_diag /constant; case e: (okind o) => [fx c|fx c|d|l g|l g|g] //= h n; [exists fx, c|..];
  rewrite // h in n.
Qed.

Lemma scalar_product_ok o s sfx : square_if_diagonal o ->
  same (value (scalar_product o s sfx)) (scaled (value o) s).
Proof.
move=> so; rewrite /scalar_product; case: ifP => [z|_].
  by split=> //= i j _ _; rewrite zero_entry ?mul0r.
case: ifP => [c|/negbT nc].
  by split=> //= i j hi hj; rewrite (constant_entry c).
case: ifP => [c|_].
  have [fx [x e]] := const_diag_cases c nc; move: so; rewrite /square_if_diagonal e => q.
  split=> /=; rewrite ?diagonal_of_rows ?q ?minnn //.
  by move=> i j hi hj; rewrite /entry /cval e /=; case: ifP => //; rewrite mul0r.
case: ifP => [/andP[_ /eqP->]|_].
  by split=> //= i j _ _; rewrite mulr0.
case: ifP => [/andP[_ /eqP->]|_].
  by split=> //= i j _ _; rewrite mulr1.
have [e1 e2] := scalar_op_dims (fun x => x * s) o.
by split=> //= i j _ _; rewrite scalar_op_entry ?mul0r.
Qed.

Lemma scalar_quotient_ok o s sfx : s != 0 -> square_if_diagonal o ->
  exists x, scalar_quotient o s sfx = Val x /\ same (value x) (scaled (value o) s^-1).
Proof.
move=> s0 so; rewrite /scalar_quotient (negbTE s0); case: ifP => [z|_].
  by eexists; split; first by []; split=> //= i j _ _; rewrite zero_entry ?mul0r.
case: ifP => [c|/negbT nc].
  by eexists; split; first by []; split=> //= i j hi hj; rewrite (constant_entry c).
case: ifP => [c|_].
  have [fx [x e]] := const_diag_cases c nc; move: so; rewrite /square_if_diagonal e => q.
  eexists; split; first by []; split=> /=; rewrite ?diagonal_of_rows ?q ?minnn //.
  by move=> i j hi hj; rewrite /entry /cval e /=; case: ifP => //; rewrite mul0r.
case: ifP => [/andP[_ /eqP->]|_].
  by eexists; split; first by []; split=> //= i j _ _; rewrite invr1 mulr1.
have [e1 e2] := scalar_op_dims (fun x => x / s) o.
by eexists; split; first by []; split=> //= i j _ _; rewrite scalar_op_entry ?mul0r.
Qed.

End P.
