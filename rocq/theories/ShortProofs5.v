(** * Proofs about the shortcuts: LQ and QR decompositions, solve. *)
From mathcomp Require Import all_ssreflect all_algebra.
From Verif Require Import ShortModel ShortSpec ShortProofs1 ShortProofs2 ShortProofs3 ShortProofs4.
Set Implicit Arguments.
Unset Strict Implicit.
Unset Printing Implicit Defensive.
Import GRing.Theory Num.Theory Order.Theory.
Local Open Scope ring_scope.

Section P.
Variable R : rcfType.
Implicit Types (o a b d t : obj R) (m w : mat R).

(** ** LQ and QR *)

Lemma clip_lower a : wf a -> lower a -> (orows a <= ocols a)%N ->
  [/\ mrows (clip_square a) = orows a, mcols (clip_square a) = orows a, lower_triangular (clip_square a) &
    same (product (clip_square a) (transposed (clip_square a))) (product (value a) (transposed (value a)))].
Proof.
move=> w l le; have [e1 e2 e3] : [/\ mrows (clip_square a) = orows a, mcols (clip_square a) = orows a &
    mat_at (clip_square a) = entry a].
  rewrite /clip_square; case: ifP => [s|_] /=; first by rewrite -(sq_square w s).
  by rewrite (minn_idPl le).
split=> //.
  move=> i j; rewrite e1 e2 e3 => hi hj ij; apply: lower_entry => //; exact: leq_trans hj le.
split; rewrite /= ?e1 ?e2 // => i j hi hj; rewrite e3.
rewrite -!(big_mkord xpredT (fun k => entry a i k * entry a j k)).
rewrite (big_cat_nat _ _ _ (leq0n _) le) /= [X in _ = _ + X]big_nat [X in _ = _ + X]big1 ?addr0 //.
move=> k /andP[h1 h2]; rewrite (lower_entry l) ?mul0r //; exact: leq_trans hi h1.
Qed.

Theorem LQ_ok lq a : lq_contract lq -> wf a -> (lower a -> (orows a <= ocols a)%N) ->
  let l := LQ_decomposition lq a in
  [/\ mrows l = orows a, mcols l = orows a, lower_triangular l &
      same (product l (transposed l)) (product (value a) (transposed (value a)))].
Proof.
move=> ok w hl /=; rewrite /LQ_decomposition.
case: ifP => [l|_]; first by apply: clip_lower => //; exact: hl.
case: ifP => [c|_]; last exact: (ok (value a)).
split=> //=.
  by move=> i j /= hi hj; case: j hj.
split=> //= i j hi hj.
case er: (orows a) hi hj => [//|r] hi hj; rewrite big_ord_recl /= big1 ?addr0 => [|k _]; last by rewrite mul0r.
rewrite mulrACA -[Num.sqrt _ * _]expr2 sqr_sqrtr ?ler0n //.
rewrite (eq_bigr (fun=> cval a * cval a)) => [|k _]; first by rewrite sumr_const card_ord mulr_natr.
by rewrite !(constant_entry c) ?er.
Qed.

Lemma transposed_upper o i j : mat_at (transposed (value o)) i j = entry o j i. Proof. by []. Qed.

Lemma clip_upper a : wf a -> upper a -> (ocols a <= orows a)%N ->
  [/\ mrows (clip_square a) = ocols a, mcols (clip_square a) = ocols a, upper_triangular (clip_square a) &
    same (product (transposed (clip_square a)) (clip_square a)) (product (transposed (value a)) (value a))].
Proof.
move=> w l le; have [e1 e2 e3] : [/\ mrows (clip_square a) = ocols a, mcols (clip_square a) = ocols a &
    mat_at (clip_square a) = entry a].
  rewrite /clip_square; case: ifP => [s|_] /=; first by rewrite (sq_square w s).
  by rewrite (minn_idPr le).
split=> //.
  move=> i j; rewrite e1 e2 e3 => hi hj ij; apply: upper_entry => //; exact: leq_trans hi le.
split; rewrite /= ?e1 ?e2 // => i j hi hj; rewrite e3.
rewrite -!(big_mkord xpredT (fun k => entry a k i * entry a k j)).
rewrite (big_cat_nat _ _ _ (leq0n _) le) /= [X in _ = _ + X]big_nat [X in _ = _ + X]big1 ?addr0 //.
move=> k /andP[h1 h2]; rewrite (upper_entry l) ?mul0r //; exact: leq_trans hi h1.
Qed.

Theorem QR_ok lq a : lq_contract lq -> wf a -> (upper a -> (ocols a <= orows a)%N) ->
  let r := QR_decomposition lq a in
  [/\ mrows r = ocols a, mcols r = ocols a, upper_triangular r &
      same (product (transposed r) r) (product (transposed (value a)) (value a))].
Proof.
move=> ok w hl /=; rewrite /QR_decomposition.
case: ifP => [l|_]; first by apply: clip_upper => //; exact: hl.
case: ifP => [c|_].
  split=> //=; first by move=> i j /= hi hj; case: i hi.
  split=> //= i j hi hj.
  case er: (ocols a) hi hj => [//|r] hi hj; rewrite big_ord_recl /= big1 ?addr0 => [|k _]; last by rewrite mul0r.
  rewrite mulrACA -[Num.sqrt _ * _]expr2 sqr_sqrtr ?ler0n //.
  rewrite (eq_bigr (fun=> cval a * cval a)) => [|k _]; first by rewrite sumr_const card_ord mulr_natr.
  by rewrite !(constant_entry c) ?er.
have [e1 e2 e3 [f1 f2 e4]] := ok (transpose_mat (value a)).
rewrite /= in e1 e2 f1 f2 e4; split=> //=.
by move=> i j /= hi hj ij; apply: e3.
Qed.

(** ** solve *)

Lemma solves_same m w x y : solves m w x -> same y x -> solves m w y.
Proof.
move=> [e1 e2 [f1 f2 f]] [g1 g2 g]; split; rewrite ?g1 ?g2 //; split=> //=; first by rewrite g2.
move=> i j hi hj; rewrite -f //=; last by rewrite -g2.
by apply: eq_bigr => k _; rewrite g ?g1 ?e1.
Qed.

Definition mx (n k : nat) m : 'M[R]_(n, k) := \matrix_(i, j) mat_at m i j.

Lemma mx_product n k l m w : mcols m = k -> mx n l (product m w) = mx n k m *m mx k l w.
Proof.
move=> e; apply/matrixP=> i j; rewrite !mxE /= e; by apply: eq_bigr => s _; rewrite !mxE.
Qed.

Lemma mx_same n k m w : same m w -> mrows m = n -> mcols m = k -> mx n k m = mx n k w.
Proof. by case=> _ _ e e1 e2; apply/matrixP=> i j; rewrite !mxE e ?e1 ?e2. Qed.

Lemma mx_unit m n : invertible m -> mrows m = n -> mx n n m \in unitmx.
Proof.
case=> q [w [e1 e2 s _]] en; have /= := mx_same s en (etrans e2 (etrans (esym q) en)).
rewrite (@mx_product _ n) -?q // => h.
have : mx n n m *m mx n n w = 1%:M by rewrite h; apply/matrixP=> i j; rewrite !mxE /= -val_eqE /=; case: eqP.
by case/mulmx1_unit.
Qed.

(** A triangular invertible matrix has no zero on its diagonal. *)
Lemma lower_diag m : invertible m -> lower_triangular m -> forall i, (i < mrows m)%N -> mat_at m i i != 0.
Proof.
move=> iv lo i hi; have := mx_unit iv erefl; rewrite unitmxE unitfE.
rewrite det_trig; last first.
  apply/is_trig_mxP => x y xy; rewrite mxE lo //; by case: iv => <-.
by move/prodf_neq0 => /(_ (Ordinal hi) isT); rewrite mxE.
Qed.

Lemma upper_diag m : invertible m -> upper_triangular m -> forall i, (i < mrows m)%N -> mat_at m i i != 0.
Proof.
move=> iv lo i hi; have := mx_unit iv erefl; rewrite unitmxE unitfE -det_tr.
rewrite det_trig; last first.
  apply/is_trig_mxP => x y xy; rewrite !mxE lo //; by case: iv => <-.
by move/prodf_neq0 => /(_ (Ordinal hi) isT); rewrite !mxE.
Qed.

Lemma solves_lower m w x : invertible m -> mrows w = mrows m -> solves m w x ->
  lower_triangular m -> lower_triangular w -> lower_triangular x.
Proof.
move=> iv ew [e1 e2 [f1 f2 f]] lm lw; have q := proj1 iv; rewrite /square in q.
move=> i; elim/ltn_ind: i => i IH j hi hj ij.
have him : (i < mrows m)%N by rewrite q -e1.
have /= := f i j him hj; rewrite lw ?ew //; last by rewrite -e2.
rewrite (@sum_pick _ _ (fun k => mat_at m i k * mat_at x k j) i) -?e1 //.
  by move/eqP; rewrite mulf_eq0 (negbTE (lower_diag iv lm him)) => /eqP.
move=> k hk; case: (ltngtP k i) => // ki _.
  by rewrite IH ?mulr0 //; exact: ltn_trans ki ij.
by rewrite lm ?mul0r // -e1.
Qed.

Lemma solves_upper m w x : invertible m -> mrows w = mrows m -> solves m w x ->
  upper_triangular m -> upper_triangular w -> upper_triangular x.
Proof.
move=> iv ew [e1 e2 [f1 f2 f]] lm lw; have q := proj1 iv; rewrite /square in q.
move=> i; move: {2}(mrows x - i)%N (leqnn (mrows x - i)) => n.
elim: n i => [|n IH] i hn j hi hj ij; first by rewrite leqn0 subn_eq0 leqNgt hi in hn.
have him : (i < mrows m)%N by rewrite q -e1.
have /= := f i j him hj; rewrite lw ?ew //; last by rewrite -e2.
rewrite (@sum_pick _ _ (fun k => mat_at m i k * mat_at x k j) i) -?e1 //.
  by move/eqP; rewrite mulf_eq0 (negbTE (upper_diag iv lm him)) => /eqP.
move=> k hk; case: (ltngtP k i) => // ki _.
  by rewrite lm ?mul0r // -e1.
rewrite IH ?mulr0 //; last exact: ltn_trans ij ki.
by rewrite -ltnS (leq_trans _ hn) // ltn_sub2l.
Qed.

Lemma value_lower o : lower o -> lower_triangular (value o).
Proof. by move=> l i j /= hi hj ij; apply: lower_entry. Qed.
Lemma value_upper o : upper o -> upper_triangular (value o).
Proof. by move=> l i j /= hi hj ij; apply: upper_entry. Qed.

Lemma join_lower a b : (if tri_join (ttype a) (ttype b) is TLower then true else false) -> lower a /\ lower b.
Proof. by rewrite /lower; case: (ttype a); case: (ttype b). Qed.
Lemma join_upper a b : (if tri_join (ttype a) (ttype b) is TUpper then true else false) -> upper a /\ upper b.
Proof. by rewrite /upper; case: (ttype a); case: (ttype b). Qed.
Lemma join_diag a b : (if tri_join (ttype a) (ttype b) is TDiag then true else false) ->
  [/\ lower a, lower b, upper a & upper b].
Proof. by rewrite /lower /upper; case: (ttype a); case: (ttype b). Qed.

(** A symmetric matrix is unchanged by mirroring. *)
Lemma to_hermitian_same (x : mat R) : symmetric x -> same (to_hermitian true x) x.
Proof.
case=> q s; split=> //= i j hi hj; rewrite /to_hermitian /=; case: ifP => // _.
by rewrite s // -?q // q.
Qed.

Lemma const_diag_square b : square_if_diagonal b -> const_diag b -> ~~ zero b -> orows b = ocols b.
Proof.
rewrite /square_if_diagonal /const_diag => sb /orP[/orP[|->//]|/one_dimE[-> ->] //].
by case: (okind b) sb.
Qed.

Lemma const_diag_lower o : const_diag o -> lower o.
Proof.
rewrite /lower /ttype /const_diag; case: ifP => // /negbT; rewrite negb_or => /andP[/negbTE-> /negbTE->].
by rewrite !orbF; case: (okind o).
Qed.

Lemma hermitian_square o : wf o -> hermitian o -> orows o = ocols o.
Proof. by move=> w /andP[s _]; apply: sq_square. Qed.

Lemma wrap_ok a b x : wf a -> wf b -> orows a = orows b -> square_if_diagonal b -> ~~ zero b ->
  invertible (value a) -> solves (value a) (value b) x -> solves (value a) (value b) (wrap_solve a b x).
Proof.
move=> wa wb e sb nz iv sx; apply: (solves_same sx).
have q := proj1 iv; rewrite /square /= in q.
have [e1 e2 sm] := sx; rewrite /= in e1 e2.
rewrite /wrap_solve.
have lo : lower a -> lower b -> lower_triangular x.
  by move=> la lb; apply: (solves_lower iv _ sx) => //; [exact: value_lower|exact: value_lower].
have up : upper a -> upper b -> upper_triangular x.
  by move=> la lb; apply: (solves_upper iv _ sx) => //; [exact: value_upper|exact: value_upper].
case et: (tri_join (ttype a) (ttype b)) => //=.
- case: ifP => [/orP[/andP[cd hb]|/andP[cd ha]]|_] //; last 1 first.
  + apply: to_hermitian_same.
    have qb := const_diag_square sb cd nz.
    split; first by rewrite /square e1 e2 -qb -q.
    have wU := mx_unit iv erefl; rewrite /= in wU.
    have E := mx_same sm erefl (etrans e2 (etrans (esym qb) (esym e))).
    rewrite /= (@mx_product _ (orows a)) in E; last by rewrite /= q.
    have EB : mx (orows a) (orows a) (value b) = (cval b)%:M.
      apply/matrixP=> i j; rewrite !mxE /= (const_diag_entry cd) -?qb -?e //= -val_eqE /=; by case: eqP.
    have EA : (mx (orows a) (orows a) (value a))^T = mx (orows a) (orows a) (value a).
      apply/matrixP=> i j; rewrite !mxE /=; apply: hermitian_entry => //; by rewrite -?q.
    have EX : mx (orows a) (orows a) x = invmx (mx (orows a) (orows a) (value a)) *m (cval b)%:M.
      by rewrite -EB -E mulKmx.
    have ET : (mx (orows a) (orows a) x)^T = mx (orows a) (orows a) x.
      by rewrite EX trmx_mul trmx_inv EA tr_scalar_mx scalar_mxC.
    move=> i j; rewrite e1 e2 -q -qb -e => hi hj.
    by move/matrixP: ET => /(_ (Ordinal hj) (Ordinal hi)); rewrite !mxE.
  + apply: to_hermitian_same.
    have qb := hermitian_square wb hb.
    split; first by rewrite /square e1 e2 -qb -q.
    have pick i j : (i < orows a)%N -> (j < ocols b)%N -> cval a * mat_at x i j = entry b i j.
      move=> hi hj; have [_ _ /(_ i j hi)] := sm; rewrite /= e2 => <- //.
      rewrite (@sum_pick _ _ (fun k => entry a i k * mat_at x k j) i) -?q //.
        by rewrite (const_diag_entry cd) -?q ?eqxx.
      by move=> k hk ki; rewrite (const_diag_entry cd) -?q // eq_sym (negbTE ki) mul0r.
    move=> i j; rewrite e1 e2 -q => hi hj.
    have hi' : (i < ocols b)%N by rewrite -qb -e.
    have hj' : (j < orows a)%N by rewrite e qb.
    have ca : cval a != 0.
      have la := const_diag_lower cd.
      have := lower_diag iv (value_lower la) hi; rewrite /= (const_diag_entry cd) -?q // ?eqxx //.
    apply: (mulfI ca); rewrite !pick //; apply: hermitian_entry => //; by rewrite -?qb -?e.
- have [la lb] : lower a /\ lower b by apply: join_lower; rewrite et.
  split=> //= i j hi hj; case: ifP => // /negbT; rewrite -ltnNge => ij; by rewrite lo.
- have [la lb] : upper a /\ upper b by apply: join_upper; rewrite et.
  split=> //= i j hi hj; case: ifP => // /negbT; rewrite -ltnNge => ij; by rewrite up.
- have [la lb ua ub] : [/\ lower a, lower b, upper a & upper b] by apply: join_diag; rewrite et.
  split=> //= i j hi hj; have [ij|ij|->] := ltngtP i j; rewrite ?eqxx //; [rewrite (lo la lb)|rewrite (up ua ub)] => //.
Qed.

Lemma invertible_nz a : invertible (value a) -> (0 < orows a)%N -> ~ (forall i j, (i < orows a)%N -> (j < ocols a)%N -> entry a i j = 0).
Proof.
case=> q [w [e1 e2 [_ _ s] _]] n0 z; move: (s 0%N 0%N n0); rewrite /= e2 -q => /(_ n0) /=.
rewrite big1 => [/esym /eqP|k _]; first by rewrite oner_eq0.
by rewrite z ?mul0r.
Qed.

(** Two equal rows. *)
Lemma invertible_constant a : invertible (value a) -> constant a -> (0 < orows a)%N -> orows a = 1%N /\ cval a != 0.
Proof.
move=> iv c n0; have q := proj1 iv; rewrite /square /= in q; split; last first.
  apply/eqP => c0; apply: (invertible_nz iv n0) => i j hi hj; by rewrite (constant_entry c).
case: iv => _ [w [e1 e2 [_ _ s] _]].
have [n1|n1|//] := ltngtP (orows a) 1%N; first by rewrite ltnNge n0 in n1.
have h0 : (0 < mcols w)%N by rewrite e2 /= -q ltnW.
have := s 0%N 0%N (ltnW n1) h0; have := s 1%N 0%N n1 h0; rewrite /=.
rewrite (eq_bigr (fun k : 'I_(ocols a) => entry a 0 k * mat_at w k 0)) => [->/eqP|k _].
  by rewrite eq_sym oner_eq0.
by rewrite !(constant_entry c) // ltnW.
Qed.

Lemma solves_scaled a b (s : R) x : s != 0 -> ocols a = orows b ->
  (forall i j, (i < orows a)%N -> (j < ocols a)%N -> entry a i j = if i == j then s else 0) ->
  orows a = orows b ->
  same x (scaled (value b) s^-1) -> solves (value a) (value b) x.
Proof.
move=> s0 e1 ea e2 [f1 f2 f]; rewrite /= in f1 f2; split; rewrite /= ?f1 ?f2 //; split=> //= i j hi hj.
rewrite (@sum_pick _ _ (fun k => entry a i k * mat_at x k j) i) ?e1 -?e2 //.
  rewrite ea ?e1 -?e2 // eqxx f // ?f1 -?e2 //=.
  by rewrite mulrCA mulfV ?mulr1.
move=> k hk ki; rewrite ea ?e1 -?e2 // eq_sym (negbTE ki) mul0r //.
Qed.

Theorem solve_ok sv uniq exact a b : solve_contract sv -> wf a -> wf b -> square_if_diagonal b ->
  invertible (value a) -> (0 < orows a)%N -> orows a = orows b ->
  exists x, solve sv uniq exact a b = Val x /\ solves (value a) (value b) x.
Proof.
move=> ok wa wb sb iv n0 e; have q := proj1 iv; rewrite /square /= in q.
rewrite /solve e eqxx /=; have qb : ocols a = orows b by rewrite -q.
have nza : zero a = false.
  by apply/negP => z; apply: (invertible_nz iv n0) => i j _ _; rewrite (@zero_entry _ a).
case: ifP => [z|nzb].
  have -> : all_zero a = false.
    apply/negP => /allP h; apply: (invertible_nz iv n0) => i j hi hj; apply/eqP/h.
    rewrite /components; apply/allpairsP; exists (j, i); rewrite !mem_iota /=; split=> //; by rewrite add0n.
  rewrite andbF; eexists; split; first by [].
  split=> //=; split=> //= i j hi hj; rewrite (@zero_entry _ b) // big1 // => k _; by rewrite mulr0.
rewrite nza; have [cv|_] := ifP.
  have n1 : orows a = 1%N /\ ocols a = 1%N by case/and3P: cv => _ /eqP c1 _; split=> //; rewrite q.
  have a0 : entry a 0 0 != 0.
    apply/eqP => z; apply: (invertible_nz iv n0) => i j; case: n1 => -> ->.
    by rewrite !ltnS !leqn0 => /eqP-> /eqP->.
  have ea i j : (i < orows a)%N -> (j < ocols a)%N -> entry a i j = if i == j then entry a 0 0 else 0.
    by case: n1 => -> ->; rewrite !ltnS !leqn0 => /eqP-> /eqP->.
  case: ifP => [ida|_].
    exists (value b); split=> //; apply: (solves_scaled a0 qb ea e).
    have [cd c1] := identity_const_diag ida.
    have -> : entry a 0 0 = 1 by rewrite (const_diag_entry cd) ?eqxx //; case: n1 => _ ->.
    by split=> //= i j _ _; rewrite invr1 mulr1.
  have [x [-> sx]] := @scalar_quotient_ok _ b (singular a) false a0 sb.
  exists (value x); split=> //; exact: (solves_scaled a0 qb ea e sx).
have [/andP[cd cv]|_] := ifP.
  have ea i j : (i < orows a)%N -> (j < ocols a)%N -> entry a i j = if i == j then cval a else 0.
    by move=> hi hj; rewrite (const_diag_entry cd).
  have c0 : cval a != 0.
    apply/eqP => z; apply: (invertible_nz iv n0) => i j hi hj; rewrite ea // z; by case: ifP.
  case: ifP => [/andP[ida _]|_].
    exists (value b); split=> //; apply: (solves_scaled c0 qb ea e).
    have [_ ->] := identity_const_diag ida.
    by split=> //= i j _ _; rewrite invr1 mulr1.
  have [x [-> sx]] := @scalar_quotient_ok _ b (cval a) false c0 sb.
  exists (value x); split=> //; exact: (solves_scaled c0 qb ea e sx).
have cst : constant a -> [/\ ocols a = 1%N, cval a != 0 &
    forall i j, (i < orows a)%N -> (j < ocols a)%N -> entry a i j = if i == j then (ocols a)%:R * cval a else 0].
  move=> c; have [n1 c0] := invertible_constant iv c n0; have m1 : ocols a = 1%N by rewrite -q.
  split=> // i j; rewrite n1 m1 !ltnS !leqn0 => /eqP-> /eqP->; rewrite eqxx mul1r (constant_entry c) // ?n1 ?m1 //.
case: ifP => [/andP[ca cb]|_].
  have [m1 c0 ea] := cst ca; have d0 : (ocols a)%:R * cval a != 0 by rewrite m1 mul1r.
  rewrite (negbTE d0); eexists; split; first by [].
  apply: (solves_scaled d0 qb ea e); split=> //= i j; rewrite /= => hi hj.
  by rewrite (constant_entry cb) // -qb.
case: ifP => [/andP[ca _]|_].
  have [m1 c0 ea] := cst ca; have d0 : (ocols a)%:R * cval a != 0 by rewrite m1 mul1r.
  have [x [-> sx]] := @scalar_quotient_ok _ b _ false d0 sb.
  eexists; split; first by [].
  apply: wrap_ok => //; first by rewrite nzb.
  exact: (solves_scaled d0 qb ea e sx).
case: ifP => [/andP[da sa]|_].
  have la : lower a by move: da; rewrite /lower /diagonal; case: (ttype a).
  have d0 i : (i < orows a)%N -> entry a i i != 0 by apply: (lower_diag iv (value_lower la)).
  rewrite ifT; last by apply/allP => i; rewrite mem_iota add0n -?e => hi; apply: d0.
  eexists; split; first by [].
  apply: wrap_ok => //; first by rewrite nzb.
  split=> //=.
  split=> //= i j hi hj.
  rewrite (@sum_pick _ _ (fun k => entry a i k * (entry b k j / entry a k k)) i) -?q //.
    by rewrite mulrCA mulfV ?mulr1 // d0.
  by move=> k hk ki; rewrite diagonal_entry ?mul0r // -?q // eq_sym.
have [x [-> e1 e2 sx]] := ok uniq exact (value a) (value b) iv (esym e).
eexists; split; first by [].
by apply: wrap_ok => //; rewrite ?nzb.
Qed.

Lemma constant_square o : constant o -> ~~ zero o -> square_if_diagonal o.
Proof.
rewrite /square_if_diagonal /constant => /orP[/orP[|->//]|/one_dimE[-> ->] _]; by case: (okind o).
Qed.

(** A constant coefficient matrix and a constant right-hand side, of any size and however singular. *)
Theorem solve_constant_ok sv uniq exact a b fx c : okind a = KConst fx c -> c != 0 -> constant b ->
  (0 < ocols a)%N -> orows a = orows b ->
  exists x, solve sv uniq exact a b = Val x /\ solves (value a) (value b) x.
Proof.
move=> ka c0 cb n0 e; rewrite /solve e eqxx /=.
have ea i j : entry a i j = c by rewrite /entry ka.
have ca : constant a by rewrite /constant ka.
have va : cval a = c by rewrite /cval ka.
case: ifP => [z|nzb].
  rewrite ca /= andbF /=; eexists; split; first by [].
  split=> //=; split=> //= i j hi hj; rewrite (@zero_entry _ b) // big1 // => k _; by rewrite mulr0.
have nza : zero a = false by rewrite /zero ka (negbTE c0); case: (fx).
have sb := constant_square cb (negbT nzb).
rewrite nza; case: ifP => [cv|n1].
  have m1 : ocols a = 1%N by case/and3P: cv => _ /eqP.
  have r1 : orows a = 1%N by case/and3P: cv => _ _ /orP[/andP[_ /eqP]|/andP[_ /eqP]]; rewrite e.
  have qb : ocols a = orows b by rewrite m1 -e r1.
  have eq0 i j : (i < orows a)%N -> (j < ocols a)%N -> entry a i j = if i == j then entry a 0 0 else 0.
    by rewrite r1 m1 !ltnS !leqn0 => /eqP-> /eqP->; rewrite eqxx !ea.
  case: ifP => [ida|_].
    exists (value b); split=> //; apply: (solves_scaled _ qb eq0 e); rewrite ea //.
    have [_ c1] := identity_const_diag ida; rewrite -va c1.
    by split=> //= i j _ _; rewrite invr1 mulr1.
  have s0 : singular a != 0 by rewrite /singular ea.
  have [x [-> sx]] := @scalar_quotient_ok _ b (singular a) false s0 sb.
  exists (value x); split=> //; exact: (solves_scaled s0 qb eq0 e sx).
have -> : const_diag a = false.
  rewrite /const_diag ka nza /=; apply/negP => /and4P[h1 h2 /eqP h3 /eqP h4].
  by move: n1; rewrite h2 h4 -e h1 h3 !eqxx.
rewrite /= ca cb /= va.
have d0 : (ocols a)%:R * c != 0 by rewrite mulf_neq0 // pnatr_eq0 -lt0n.
rewrite (negbTE d0); eexists; split; first by [].
split=> //=; split=> //= i j hi hj.
rewrite (eq_bigr (fun=> c * (cval b / ((ocols a)%:R * c)))) => [|k _]; last by rewrite ea.
rewrite sumr_const card_ord -mulr_natl mulrA mulrCA mulfV // mulr1 (constant_entry cb) // -e //.
Qed.

End P.
