(** * Proofs about cholesky_factor and cholesky_square. *)
From mathcomp Require Import all_ssreflect all_algebra.
From Verif Require Import ShortModel ShortSpec ShortProofs1 ShortProofs2 ShortProofs3 ShortProofs4 ShortProofs5 LdltModel LdltSpec.
Set Implicit Arguments.
Unset Strict Implicit.
Unset Printing Implicit Defensive.
Import GRing.Theory Num.Theory Order.Theory.
Local Open Scope ring_scope.

Section P.
Variable R : rcfType.
Implicit Types (o t : obj R) (m : mat R).

Lemma transpose_objE o i j : entry (transpose_obj o) i j = entry o j i.
Proof. by rewrite /transpose_obj /entry /=; case: (okind o) => [fx c|fx c|d|[] f|[] f|f] //=; rewrite eq_sym; case: eqP => // ->. Qed.

Lemma transpose_value o : same (value (transpose_obj o)) (transposed (value o)).
Proof. by split=> //= i j _ _; rewrite transpose_objE. Qed.

Lemma product_same m1 m2 n1 n2 : same m1 n1 -> same m2 n2 -> mcols m1 = mrows m2 -> same (product m1 m2) (product n1 n2 : mat R).
Proof.
move=> [a1 a2 a] [b1 b2 b] e; split=> //= i j hi hj; rewrite -a2; apply: eq_bigr => k _.
by rewrite a // b // -e.
Qed.

Lemma mirror lo m : square m -> (forall i j, (i < mrows m)%N -> (j < mrows m)%N -> mat_at m i j = mat_at m j i) ->
  same (to_hermitian lo m) m.
Proof.
move=> q s; rewrite /square in q; split=> //= i j hi; rewrite -q => hj.
by case: lo; case: ifP => // _; rewrite s.
Qed.

(** ** cholesky_square *)
Lemma cholesky_square_lower t : wf t -> orows t = ocols t -> lower t ->
  returns (cholesky_square t) (product (value t) (transposed (value t))).
Proof.
move=> w q lo; rewrite /cholesky_square q eqxx /=.
have -> : triangular t by move: lo; rewrite /lower /triangular; case: (ttype t).
rewrite /=.
have sd : square_if_diagonal t by rewrite /square_if_diagonal; case: (okind t).
have dg (d : nat -> R) : diagonal t -> (forall i, (i < orows t)%N -> d i = entry t i i * entry t i i) ->
    same (Mat (orows t) (orows t) (fun i j => if i == j then d i else 0)) (product (value t) (transposed (value t))).
  move=> dt hd; split=> //= i j hi hj; rewrite (@sum_pick _ _ (fun k => entry t i k * entry t j k) i) -?q //.
    by case: eqP => [<-|/eqP ne]; [rewrite hd|rewrite (diagonal_entry dt (i := j)) ?mulr0 -?q // eq_sym].
  by move=> k hk ki; rewrite (diagonal_entry dt) ?mul0r -?q // eq_sym.
case: ifP => [zi|_].
  have cd : const_diag t /\ cval t * cval t = cval t.
    case/orP: zi => [z|/identity_const_diag[h1 ->]]; last by rewrite mulr1.
    by rewrite /const_diag z !orbT zero_cval // mulr0.
  have dt : diagonal t.
    by have := const_diag_lower (proj1 cd); rewrite /lower /diagonal; move: (proj1 cd);
      rewrite /ttype /const_diag; case: (zero t); case: (one_dim t) => //=; rewrite !orbF; case: (okind t).
  eexists; split; first by []; apply: same_trans (dg (fun=> cval t) dt _).
    by split=> //= i j hi hj; rewrite (const_diag_entry (proj1 cd)).
  by move=> i hi; rewrite (const_diag_entry (proj1 cd)) -?q // eqxx (proj2 cd).
case: ifP => [dt|nd].
  by eexists; split; first by []; rewrite -q; exact: (dg (fun i => entry t i i * entry t i i)).
have -> : upper t = false by move: lo nd; rewrite /lower /upper /diagonal; case: (ttype t).
have [|||m [-> sm]] := @contract_ok R t (transpose_obj t) w _ _ sd _.
- by move: w; rewrite /wf /transpose_obj /= q eqxx; case: (okind t).
- by [].
- by rewrite /square_if_diagonal /=; case: (okind t).
have sm' : same m (product (value t) (transposed (value t))).
  apply: (same_trans sm); apply: product_same => //; exact: transpose_value.
have [e1 e2 e] := sm'; rewrite /= in e1 e2 e.
eexists; split; first by []; apply: same_trans (sm'); apply: mirror; first by rewrite /square e1 e2.
move=> i j hi hj; rewrite !e ?e2 // ?e1 -?e1 //; apply: eq_bigr => k _; exact: mulrC.
Qed.

Lemma cholesky_square_upper t : wf t -> orows t = ocols t -> upper t -> ~~ lower t ->
  returns (cholesky_square t) (product (transposed (value t)) (value t)).
Proof.
move=> w q up nl; rewrite /cholesky_square q eqxx /=.
have -> : triangular t by move: up; rewrite /upper /triangular; case: (ttype t).
have nd : diagonal t = false by move: nl; rewrite /lower /diagonal; case: (ttype t).
have -> : zero t || identity t = false.
  apply/negP => /orP[z|/identity_const_diag[h _]]; last by rewrite const_diag_lower in nl.
  by rewrite const_diag_lower // /const_diag z !orbT in nl.
rewrite nd up /=.
have sd : square_if_diagonal t by rewrite /square_if_diagonal; case: (okind t).
have [|||m [-> sm]] := @contract_ok R (transpose_obj t) t _ w _ _ sd.
- by move: w; rewrite /wf /transpose_obj /= q eqxx; case: (okind t).
- by [].
- by rewrite /square_if_diagonal /=; case: (okind t).
have sm' : same m (product (transposed (value t)) (value t)).
  apply: (same_trans sm); apply: product_same => //; exact: transpose_value.
have [e1 e2 e] := sm'; rewrite /= in e1 e2 e.
eexists; split; first by []; apply: same_trans (sm'); apply: mirror; first by rewrite /square e1 e2.
move=> i j hi hj; rewrite !e ?e2 // -?e1 //; apply: eq_bigr => k _; exact: mulrC.
Qed.

(** A triangular adapter. *)
Lemma cholesky_square_tri (l : bool) (g : nat -> nat -> R) n rf cf :
  let t := Obj (KTri l g) n n rf cf true in
  returns (cholesky_square t)
    (if l then product (value t) (transposed (value t)) else product (transposed (value t)) (value t)).
Proof.
move=> t; have w : wf t by rewrite /wf /= eqxx.
have kd : n != 1%N -> ttype t = if l then TLower else TUpper.
  move=> /negbTE n1; rewrite /ttype /one_dim /= n1 !andbF /=; by case: l @t w.
have [n1|n1] := eqVneq n 1%N; last first.
  have {}kd := kd n1; case: l @t w kd => t w kd; first by apply: cholesky_square_lower => //; rewrite /lower kd.
  by apply: cholesky_square_upper => //; rewrite /lower /upper kd.
have com : same (product (value t) (transposed (value t))) (product (transposed (value t)) (value t)).
  split=> //= i j; rewrite n1 !ltnS !leqn0 => /eqP-> /eqP->.
  by rewrite !big_ord_recl !big_ord0.
have [m [e sm]] : returns (cholesky_square t) (product (value t) (transposed (value t))).
  have [lo|nl] := boolP (lower t); first exact: cholesky_square_lower.
  have up : upper t.
    move: nl; rewrite /lower /upper /ttype; case: ifP => // _ /=.
    by case: ifP => // _; case: ifP => // _; case: (l).
  have [m [e sm]] := cholesky_square_upper w erefl up nl.
  by exists m; split=> //; apply: same_trans sm (same_sym com).
by exists m; split=> //; case: (l) => //; apply: same_trans sm com.
Qed.

(** ** Semidefinite matrices *)
Lemma qf_unit m i : square m -> (i < mrows m)%N ->
  quadratic_form m (fun k => if k == i then 1 else 0) = mat_at m i i.
Proof.
move=> q hi; rewrite /quadratic_form.
rewrite (@sum_pick _ _ (fun a => \sum_(j < mcols m) (if a == i then 1 else 0) * mat_at m a j * (if j == i :> nat then 1 else 0)) i) //.
  rewrite eqxx (@sum_pick _ _ (fun j => 1 * mat_at m i j * (if j == i :> nat then 1 else 0)) i) ?eqxx ?mul1r ?mulr1 // -?q //.
  by move=> k _ /negbTE->; rewrite mulr0.
by move=> k _ /negbTE->; rewrite big1 // => j _; rewrite !mul0r.
Qed.

Lemma semidefinite_diag m i : semidefinite m -> (i < mrows m)%N -> 0 <= mat_at m i i.
Proof. by move=> [[q _] p] hi; rewrite -(qf_unit q hi). Qed.

Lemma entry_kdiag (d : nat -> R) r c rf cf s i : entry (Obj (KDiag d) r c rf cf s) i i = d i.
Proof. by rewrite /entry /= eqxx. Qed.

Lemma cd_diagonal o : const_diag o -> diagonal o.
Proof.
rewrite /diagonal /ttype /const_diag; case: ifP => // /negbT; rewrite negb_or => /andP[/negbTE-> /negbTE->].
by rewrite !orbF; case: (okind o).
Qed.

Lemma diagonal_lo o : diagonal o -> lower o /\ upper o.
Proof. by rewrite /diagonal /lower /upper; case: (ttype o). Qed.

Section Lib.
Variable llt : bool -> nat -> (nat -> nat -> R) -> option (nat -> nat -> R).
Variable ldlt : nat -> (nat -> nat -> R) -> ldlt R.
Notation factor := (cholesky_factor llt ldlt).

Lemma shaped_tri (tl : bool) (g : nat -> nat -> R) n rf cf : shaped tl (Obj (KTri tl g) n n rf cf true).
Proof. by case: tl => i j /= hi hj ij; rewrite /entry /= leqNgt ij. Qed.

Lemma shaped_diag tl t : diagonal t -> shaped tl t.
Proof. by move/diagonal_lo=> [lo up]; case: tl; [exact: value_lower|exact: value_upper]. Qed.

(** *** The shortcuts *)
Theorem shortcut_ok tl o : wf o -> (0 < orows o)%N -> constant o || diagonal o -> semidefinite (value o) ->
  exists t, factor tl o = Val t /\ shaped tl t /\ returns (cholesky_square t) (value o).
Proof.
move=> w n0 k sd; have q : orows o = ocols o by case: sd => -[].
have d0 i : (i < orows o)%N -> 0 <= entry o i i by move=> hi; apply: (semidefinite_diag sd).
rewrite /cholesky_factor q eqxx /=.
case: ifP => [zi|/norP[nz ni]].
  have cd : const_diag o by case/orP: zi => [z|/identity_const_diag[]] //; rewrite /const_diag z !orbT.
  have dg := cd_diagonal cd; exists o; split=> //; split; first exact: shaped_diag.
  rewrite /cholesky_square q eqxx /= zi.
  have -> : triangular o by move: dg; rewrite /diagonal /triangular; case: (ttype o).
  by exists (value o).
have dsq (t : obj R) : diagonal t -> zero t = false -> identity t = false -> orows t = orows o -> ocols t = orows o ->
    (forall i, (i < orows o)%N -> entry t i i * entry t i i = entry o i i) -> diagonal o ->
    returns (cholesky_square t) (value o).
  move=> dt zt it r c e dgo; rewrite /cholesky_square r c eqxx /= zt it dt.
  have -> : triangular t by move: dt; rewrite /diagonal /triangular; case: (ttype t).
  eexists; split; first by []; split=> //= i j hi hj.
  case: eqP => [<-|/eqP ne]; first by rewrite e.
  by rewrite (diagonal_entry dgo) // -q.
case: ifP => [cd|_].
  have c0 : 0 <= cval o by have := d0 0%N n0; rewrite (const_diag_entry cd) -?q ?eqxx.
  rewrite /vsqrt c0 /=; eexists; split; first by [].
  split; first by apply: shaped_diag; apply: cd_diagonal.
  apply: dsq => //=; rewrite -?q //; last exact: cd_diagonal.
    by apply: cd_diagonal.
  move=> i hi; rewrite (const_diag_entry cd) -?q // eqxx /entry /= eqxx -expr2 sqr_sqrtr //.
case: ifP => [c|nc].
  have c0 : 0 <= cval o by have := d0 0%N n0; rewrite (constant_entry c) -?q.
  rewrite /vsqrt c0 /= -q eqn0Ngt n0 /=; eexists; split; first by [].
  split; first exact: shaped_tri.
  have [m [-> sm]] := cholesky_square_tri tl (fun i j => if (if tl then j else i) == 0%N then Num.sqrt (cval o) else 0) (orows o) (rfix o || cfix o) (rfix o || cfix o).
  exists m; split=> //; apply: (same_trans sm); set T := Obj _ _ _ _ _ _; have eT : orows T = orows o /\ ocols T = orows o by [].
  have e0 i : (i < orows o)%N -> (if tl then entry T i 0 else entry T 0 i) = Num.sqrt (cval o).
    by move=> hi; rewrite /T /entry /=; case: (tl).
  have e1 i (l : nat) : l != 0%N -> (if tl then entry T i l else entry T l i) = 0.
    by move=> /negbTE l0; rewrite /T /entry /=; case: (tl); rewrite l0; case: ifP.
  clearbody T; case: eT => r1 r2; case: (tl) e0 e1 => e0 e1; split=> //=; rewrite ?r1 ?r2 -?q // => i j hi hj.
  - rewrite (@sum_pick _ _ (fun k => entry T i k * entry T j k) 0%N) //=; last first.
      by move=> l hl l0; rewrite e1 // mul0r.
    by rewrite !e0 // -expr2 sqr_sqrtr // (constant_entry c) -?q.
  - rewrite (@sum_pick _ _ (fun k => entry T k i * entry T k j) 0%N) //=; last first.
      by move=> l hl l0; rewrite e1 // mul0r.
    by rewrite !e0 // -expr2 sqr_sqrtr // (constant_entry c) -?q.
have dg : diagonal o by move: k; rewrite nc.
rewrite dg ifT; last by apply/allP => i; rewrite mem_iota add0n -q => hi; apply: d0.
eexists; split; first by [].
split; first by apply: shaped_diag; rewrite /diagonal /ttype; case: ifP.
apply: dsq => //=; rewrite -?q //; first by rewrite /diagonal /ttype; case: ifP.
by move=> i hi; rewrite entry_kdiag -expr2 sqr_sqrtr // d0.
Qed.

(** *** Positive definite hermitian matrices *)
Lemma value_herm al (f : nat -> nat -> R) n rf cf s : value (Obj (KHerm al f) n n rf cf s) = symmetric_of al n f.
Proof. by rewrite /value /symmetric_of /entry /=; case: al. Qed.

Lemma value_tri al (f : nat -> nat -> R) n rf cf s : value (Obj (KTri al f) n n rf cf s) = triangle_of al n f.
Proof. by rewrite /value /triangle_of /entry /=; case: al. Qed.

Lemma herm_cases o al f : okind o = KHerm al f -> constant o || diagonal o = false ->
  [/\ zero o = false, identity o = false, const_diag o = false, constant o = false & diagonal o = false].
Proof.
move=> k /norP[/negbTE nc /negbTE nd]; have z : zero o = false by rewrite /zero k.
by rewrite nc nd z /identity /const_diag k z /=; split=> //; move: nc; rewrite /constant k z.
Qed.

Lemma factor_herm tl o al f : okind o = KHerm al f -> constant o || diagonal o = false -> orows o = ocols o ->
  factor tl o = rbind (eigen_cholesky llt ldlt tl al (orows o) f)
    (fun g => Val (Obj (KTri tl g) (orows o) (orows o) (rfix o) (cfix o) true)).
Proof.
move=> k h q; have [z i cd c d] := herm_cases k h.
by rewrite /cholesky_factor {1}q eqxx /= z i cd c d k.
Qed.

Lemma triangle_transposed (al : bool) n (g : nat -> nat -> R) :
  triangle_of (~~ al) n (fun i j => g j i) = transposed (triangle_of al n g).
Proof. by rewrite /triangle_of /transposed /=; case: al. Qed.

Theorem definite_ok tl o : llt_contract llt -> wf o -> (0 < orows o)%N ->
  (if okind o is KHerm _ _ then true else false) || constant o || diagonal o -> definite (value o) ->
  exists t, factor tl o = Val t /\ shaped tl t /\ returns (cholesky_square t) (value o).
Proof.
move=> ok w n0 k pd.
have sd : semidefinite (value o).
  case: pd => s p; split=> // v; have [/existsP[i hi]|/existsPn h] := boolP [exists i : 'I_(orows o), v i != 0].
    exact: ltW (p v i (ltn_ord i) hi).
  rewrite /quadratic_form big1 // => i _; rewrite big1 // => j _.
  by have /negbNE/eqP-> := h i; rewrite !mul0r.
case h: (constant o || diagonal o); first exact: shortcut_ok.
have [al [f kf]] : exists al f, okind o = KHerm al f.
  by move: k; rewrite -orbA h orbF; case: (okind o) => // al f _; exists al, f.
have q : orows o = ocols o by case: sd => -[].
rewrite (factor_herm _ kf h q) /eigen_cholesky.
have vo : value o = symmetric_of al (orows o) f by rewrite -(value_herm al f _ (rfix o) (cfix o) (osq o)) /value /entry kf -q.
have := ok al (orows o) f; case: (llt al (orows o) f) => [g [_ sg]|]; last by rewrite -vo.
rewrite /=; eexists; split; first by []; split; first exact: shaped_tri.
have [m [-> sm]] := cholesky_square_tri tl (if tl == al then g else fun i j => g j i) (orows o) (rfix o) (cfix o).
exists m; split=> //; apply: (same_trans sm); rewrite vo !value_tri; apply: same_trans sg.
have [e|ne] := eqVneq tl al; first by rewrite e; case: (al).
have e : tl = ~~ al by move: ne; case: (tl); case: (al).
rewrite e triangle_transposed; case: (al) => //=.
Qed.

End Lib.

(** *** The LDLT decomposition *)
Section Ld.
Variables (n : nat) (f : nat -> nat -> R) (x : ldlt R).
Let A := symmetric_of true n f.
Hypothesis p1 : forall i, (i < n)%N -> (lperm x i < n)%N.
Hypothesis p2 : forall i j, (i < n)%N -> (j < n)%N -> lperm x i = lperm x j -> i = j.
Hypothesis unitL : forall i j, (i < n)%N -> (j < n)%N -> lL x i j = if i == j then 1 else if (i < j)%N then 0 else lL x i j.
Hypothesis eA : forall i j, (i < n)%N -> (j < n)%N -> mat_at A (lperm x i) (lperm x j) = \sum_(k < n) lL x i k * lD x k * lL x j k.

Let po (i : 'I_n) : 'I_n := Ordinal (p1 (ltn_ord i)).
Lemma po_inj : injective po.
Proof. by move=> i j e; apply: val_inj; apply: (p2 (ltn_ord i) (ltn_ord j)); move/(congr1 (@nat_of_ord n)): e. Qed.

Lemma p_surj i : (i < n)%N -> exists2 j, (j < n)%N & lperm x j = i.
Proof.
move=> hi; have /codomP[j ej] := injF_onto po_inj (Ordinal hi).
by exists j => //; move/(congr1 val): ej => /= ->.
Qed.

Lemma qf_ldlt v : quadratic_form A v = \sum_(k < n) lD x k * (\sum_(i < n) v (lperm x i) * lL x i k) ^+ 2.
Proof.
rewrite /quadratic_form [mrows A]/= [mcols A]/=.
rewrite (reindex_inj po_inj) /=.
transitivity (\sum_(i < n) \sum_(j < n) \sum_(k < n)
   (lD x k * ((v (lperm x i) * lL x i k) * (v (lperm x j) * lL x j k)))).
  apply: eq_bigr => i _; rewrite (reindex_inj po_inj) /=; apply: eq_bigr => j _.
  rewrite -[if _ then _ else _]/(mat_at A (lperm x i) (lperm x j)) eA // mulr_sumr mulr_suml.
  by apply: eq_bigr => k _; rewrite [lL x i k * lD x k]mulrC -!mulrA mulrCA [lL x j k * v _]mulrC.
rewrite exchange_big /=; under eq_bigr do rewrite exchange_big /=.
rewrite exchange_big /=; apply: eq_bigr => k _.
rewrite expr2 mulr_suml mulr_sumr exchange_big /=; apply: eq_bigr => i _.
rewrite mulr_sumr mulr_sumr; apply: eq_bigr => j _; by [].
Qed.

Let L : 'M[R]_n := \matrix_(i, j) lL x i j.

Lemma L_unit : L \in unitmx.
Proof.
rewrite unitmxE det_trig; last by apply/is_trig_mxP => i j ij; rewrite mxE unitL // ltn_eqF // ij.
by rewrite big1 ?unitr1 // => i _; rewrite mxE unitL // eqxx.
Qed.

(** Each component of D is a value of the quadratic form. *)
Lemma D_value k : (k < n)%N -> exists v, quadratic_form A v = lD x k.
Proof.
move=> hk.
pose w : 'rV[R]_n := matrix.row (Ordinal hk) (invmx L).
have [vi hvi] : exists q : 'I_n -> 'I_n, cancel po q by case: (injF_bij po_inj) => q h _; exists q.
pose v (i : nat) : R := if insub i is Some j then w 0 (vi j) else 0.
have vE (i : 'I_n) : v (lperm x i) = w 0 i.
  by rewrite /v (insubT (fun a => (a < n)%N) (p1 (ltn_ord i))) -[Sub _ _]/(po i) hvi.
have wL (j : 'I_n) : \sum_(i < n) v (lperm x i) * lL x i j = (k == j :> nat)%:R.
  have : (w *m L) 0 j = (1%:M : 'M[R]_n) (Ordinal hk) j by rewrite /w -row_mul mulVmx ?L_unit // mxE.
  rewrite !mxE -val_eqE /= => <-; apply: eq_bigr => i _; by rewrite vE !mxE.
exists v; rewrite qf_ldlt (bigD1 (Ordinal hk)) //= [X in _ + X]big1 => [|j ne].
  by have /= -> := wL (Ordinal hk); rewrite eqxx expr1n mulr1 addr0.
by rewrite wL eq_sym -[k]/(val (Ordinal hk)) val_eqE (negbTE ne) expr0n mulr0.
Qed.

Lemma D_zero : (forall k, (k < n)%N -> lD x k = 0) -> forall i j, (i < n)%N -> (j < n)%N -> mat_at A i j = 0.
Proof.
move=> z i j /p_surj[i' hi <-] /p_surj[j' hj <-]; rewrite eA // big1 // => k _; by rewrite z // mulr0 mul0r.
Qed.

End Ld.

Lemma all_iota (P : pred nat) n : (forall i, (i < n)%N -> P i) -> all P (iota 0 n).
Proof. by move=> h; apply/allP => i; rewrite mem_iota add0n => /andP[_ /h]. Qed.

Lemma iota_all (P : pred nat) n : all P (iota 0 n) -> forall i, (i < n)%N -> P i.
Proof. by move/allP=> h i hi; apply: h; rewrite mem_iota add0n. Qed.

Section Lib2.
Variable llt : bool -> nat -> (nat -> nat -> R) -> option (nat -> nat -> R).
Variable ldlt : nat -> (nat -> nat -> R) -> ldlt R.
Notation factor := (cholesky_factor llt ldlt).
Hypothesis ok : ldlt_contract ldlt.
Hypothesis ok' : llt_contract llt.

(** *** Singular matrices *)
Theorem singular_ok tl o f : okind o = KHerm true f -> constant o || diagonal o = false ->
  semidefinite (value o) -> ~ definite (value o) -> lok (ldlt (orows o) f) ->
  exists t, factor tl o = Val t /\ shaped tl t /\
    returns (cholesky_square t) (permuted (lperm (ldlt (orows o) f)) (value o)).
Proof.
move=> kf h sd nd lk.
have q : orows o = ocols o by case: sd => -[].
have vo : value o = symmetric_of true (orows o) f by rewrite -(value_herm true f _ (rfix o) (cfix o) (osq o)) /value /entry kf -q.
rewrite (factor_herm _ _ _ kf h q) /eigen_cholesky.
have := ok' true (orows o) f; rewrite -vo; case: (llt true (orows o) f) => [g [/nd]|_] //.
have [[p1 p2] l e z [ep en]] := ok lk; rewrite -!vo in e *; set x := ldlt (orows o) f in p1 p2 l e z ep en lk *.
rewrite lk orbF.
have D0 : all (fun i => 0 <= lD x i) (iota 0 (orows o)).
  apply: all_iota => k hk; rewrite vo in e sd; have [v <-] := D_value p1 p2 l e hk; by case: sd.
have Dk := iota_all D0; rewrite /= in Dk.
rewrite {1 2}ep D0 /= /sqrtD D0 /=; eexists; split; first by []; split; first exact: shaped_tri.
set g := if tl then _ else _.
have [m [-> sm]] := cholesky_square_tri tl g (orows o) (rfix o) (cfix o).
exists m; split=> //; apply: (same_trans sm); rewrite !value_tri.
have ut i j : (i < orows o)%N -> (j < orows o)%N -> (i < j)%N -> lL x i j = 0.
  by move=> hi hj ij; rewrite l // ltn_eqF // ij.
have te i j : (i < orows o)%N -> (j < orows o)%N ->
    mat_at (if tl then triangle_of tl (orows o) g else transposed (triangle_of tl (orows o) g)) i j = lL x i j * Num.sqrt (lD x j).
  rewrite /g; case: (tl) => hi hj /=; case: leqP => ij; rewrite ?(ut _ _ hi hj ij) ?mul0r //; exact: mulrC.
case: (tl) te => te; split=> //=; rewrite -?q // => i j hi hj;
 rewrite -[entry o _ _]/(mat_at (value o) _ _) e //; apply: eq_bigr => k _.
- by have /= -> := te i k hi (ltn_ord k); have /= -> := te j k hj (ltn_ord k);
   rewrite mulrACA -[Num.sqrt _ * _]expr2 sqr_sqrtr ?Dk // mulrAC.
- by have /= -> := te i k hi (ltn_ord k); have /= -> := te j k hj (ltn_ord k);
   rewrite mulrACA -[Num.sqrt _ * _]expr2 sqr_sqrtr ?Dk // mulrAC.
Qed.

(** *** Indefinite and negative matrices *)
Theorem indefinite_gen tl al o f : okind o = KHerm al f -> constant o || diagonal o = false ->
  orows o = ocols o -> ~ definite (value o) -> indefinite (symmetric_of true (orows o) f) -> lok (ldlt (orows o) f) ->
  factor tl o = Thrown.
Proof.
move=> kf h q nd [sy [[v1 n1] [v2 n2]]] lk.
have vo : value o = symmetric_of al (orows o) f by rewrite -(value_herm al f _ (rfix o) (cfix o) (osq o)) /value /entry kf -q.
rewrite (factor_herm _ _ _ kf h q) /eigen_cholesky.
have := ok' al (orows o) f; rewrite -vo; case: (llt al (orows o) f) => [g [/nd]|_] //.
have [[p1 p2] l e _ [ep en]] := ok lk; set x := ldlt (orows o) f in p1 p2 l e ep en lk *.
have -> : lpos x = false.
  rewrite ep; apply/negP => /iota_all D; move: n1; rewrite (qf_ldlt p1 p2 e) ltNge sumr_ge0 // => k _.
  by rewrite mulr_ge0 ?sqr_ge0 // D.
have -> : lneg x = false.
  rewrite en; apply/negP => /iota_all D; move: n2; rewrite (qf_ldlt p1 p2 e) ltNge -oppr_ge0 -sumrN sumr_ge0 // => k _.
  by rewrite oppr_ge0 mulr_le0_ge0 ?sqr_ge0 // D.
by [].
Qed.

Theorem indefinite_ok tl o f : okind o = KHerm true f -> constant o || diagonal o = false ->
  indefinite (value o) -> lok (ldlt (orows o) f) -> factor tl o = Thrown.
Proof.
move=> kf h id lk; have [sy [[v1 n1] _]] := id.
have q : orows o = ocols o by case: sy.
have vo : value o = symmetric_of true (orows o) f by rewrite -(value_herm true f _ (rfix o) (cfix o) (osq o)) /value /entry kf -q.
apply: (indefinite_gen _ kf h q) => //; last by rewrite -vo.
case=> _ pd; have [/existsP[i hi]|/existsPn z] := boolP [exists i : 'I_(orows o), v1 i != 0].
  by have := pd v1 i (ltn_ord i) hi; rewrite ltNge ltW.
move: n1; rewrite /quadratic_form big1 ?ltxx // => i _; rewrite big1 // => j _.
by have /negbNE/eqP-> := z i; rewrite !mul0r.
Qed.

Theorem negative_ok tl o f i j : okind o = KHerm true f -> constant o || diagonal o = false ->
  symmetric (value o) -> (forall v, quadratic_form (value o) v <= 0) ->
  (i < orows o)%N -> (j < orows o)%N -> entry o i j != 0 -> lok (ldlt (orows o) f) -> factor tl o = NotFinite.
Proof.
move=> kf h sy ng hi hj nz lk.
have q : orows o = ocols o by case: sy.
have vo : value o = symmetric_of true (orows o) f by rewrite -(value_herm true f _ (rfix o) (cfix o) (osq o)) /value /entry kf -q.
rewrite (factor_herm _ _ _ kf h q) /eigen_cholesky.
have := ok' true (orows o) f; rewrite -vo; case: (llt true (orows o) f) => [g [[_ pd]]|_].
  by have := pd (fun=> 1) i hi (oner_neq0 _); rewrite ltNge ng.
have [[p1 p2] l e _ [ep en]] := ok lk; set x := ldlt (orows o) f in p1 p2 l e ep en lk *.
have D k : (k < orows o)%N -> lD x k <= 0.
  by move=> hk; have [v <-] := D_value p1 p2 l e hk; rewrite -vo.
have [k hk k0] : exists2 k, (k < orows o)%N & lD x k < 0.
  have [/existsP[k hk]|/existsPn z] := boolP [exists k : 'I_(orows o), lD x k < 0]; first by exists k.
  have z0 : mat_at (symmetric_of true (orows o) f) i j = 0.
    apply: (D_zero p1 p2 e) => // k hk; apply/eqP; by rewrite eq_le D // leNgt (z (Ordinal hk)).
  by move: nz; rewrite -[entry o i j]/(mat_at (value o) i j) vo z0 eqxx.
have -> : lneg x by rewrite en; apply: all_iota.
have np : all (fun i => 0 <= lD x i) (iota 0 (orows o)) = false.
  by apply/negP => /iota_all /(_ k hk); rewrite leNgt k0.
by rewrite lk andbF /= /sqrtD np.
Qed.

(** Failure with both flags: the zero matrix. *)
Theorem failure_zero tl o f : okind o = KHerm true f -> constant o || diagonal o = false -> orows o = ocols o ->
  ~ definite (value o) -> lok (ldlt (orows o) f) = false -> lpos (ldlt (orows o) f) -> lneg (ldlt (orows o) f) ->
  exists t, factor tl o = Val t /\ forall i j, entry t i j = 0.
Proof.
move=> kf h q nd lk lp ln.
have vo : value o = symmetric_of true (orows o) f by rewrite -(value_herm true f _ (rfix o) (cfix o) (osq o)) /value /entry kf -q.
rewrite (factor_herm _ _ _ kf h q) /eigen_cholesky.
have := ok' true (orows o) f; rewrite -vo; case: (llt true (orows o) f) => [g [/nd]|_] //.
rewrite lk lp ln /=; eexists; split; first by [].
by move=> i j; rewrite /entry /=; case: (tl); case: ifP.
Qed.

End Lib2.
End P.
