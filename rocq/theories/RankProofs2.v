(** * Proofs about rank updates: the branches of rank_update_triangular. *)
From mathcomp Require Import all_ssreflect all_algebra.
From Verif Require Import MatBase ShortModel ShortSpec ShortProofs1 ShortProofs2 ShortProofs4 ShortProofs5 ShortProofs7.
From Verif Require Import LdltModel LdltSpec LdltProofs LdltProofs2 RankModel RankSpec RankProofs.
Set Implicit Arguments.
Unset Strict Implicit.
Unset Printing Implicit Defensive.
Import GRing.Theory Num.Theory Order.Theory.
Local Open Scope ring_scope.

Section P.
Variable R : rcfType.
Implicit Types (m : mat R) (o a u : obj R) (alpha : R).

Lemma not_definite m v i : (i < mrows m)%N -> v i != 0 -> quadratic_form m v <= 0 -> ~ definite m.
Proof. by move=> hi vi h [_ /(_ v i hi vi)]; rewrite ltNge h. Qed.

Lemma not_definite_diag m i : square m -> (i < mrows m)%N -> mat_at m i i < 0 -> ~ definite m.
Proof.
move=> q hi h; apply: (@not_definite _ (fun k => if k == i then 1 else 0) i) => //; first by rewrite eqxx oner_eq0.
by rewrite qf_unit // ltW.
Qed.

(** *** Diagonal matrices *)
Lemma pick_diag o p q i j n : diagonal o -> orows o = n -> ocols o = n -> (i < n)%N -> (j < n)%N ->
  (forall k, (k < n)%N -> p k = entry o i k) -> (forall k, (k < n)%N -> q k = entry o j k) ->
  \sum_(k < n) p k * q k = if i == j then entry o i i * entry o i i else 0.
Proof.
move=> d e1 e2 hi hj hp hq; rewrite (@sum_pick _ _ (fun k => p k * q k) i) //; last first.
  by move=> k hk ne; rewrite hp // diagonal_entry ?mul0r // ?e1 ?e2 // eq_sym.
rewrite hp // hq //; case: eqP => [->//|/eqP ne]; by rewrite [entry o j i]diagonal_entry ?mulr0 // ?e1 ?e2 // eq_sym.
Qed.

Lemma updated_diag a u alpha i j : diagonal a -> diagonal u -> orows a = ocols a -> orows u = orows a -> ocols u = orows u ->
  (i < orows a)%N -> (j < orows a)%N ->
  mat_at (updated (gram true (value a)) (value u) alpha) i j =
  if i == j then entry a i i * entry a i i + entry u i i * entry u i i * alpha else 0.
Proof.
move=> da du qa qu qc hi hj; rewrite updated_at gram_at //=.
rewrite (@pick_diag a (fun k => entry a i k) (fun k => entry a j k) i j (orows a)) //.
have ec : ocols u = orows a by rewrite qc.
rewrite ec (@pick_diag u (fun k => entry u i k) (fun k => entry u j k) i j (orows a)) //.
by case: eqP => _ //; rewrite mul0r addr0.
Qed.

Lemma gram_diag m (d : nat -> R) n : mrows m = n -> mcols m = n ->
  (forall i j, (i < n)%N -> (j < n)%N -> mat_at m i j = if i == j then d i else 0) ->
  forall i j, (i < n)%N -> (j < n)%N -> mat_at (gram true m) i j = if i == j then d i * d i else 0.
Proof.
move=> e1 e2 e i j hi hj; rewrite gram_at ?e1 //.
rewrite (@sum_pick _ _ (fun k => mat_at m i k * mat_at m j k) i) //; last first.
  by move=> k hk ne; rewrite e // eq_sym (negbTE ne) mul0r.
by rewrite !e // eqxx [j == i]eq_sym; case: eqP => [->|_]; rewrite ?mulr0.
Qed.

Lemma square_diag_ok o n : wf o -> diagonal o -> orows o = n -> ocols o = n ->
  exists o2, [/\ square_diag o = Val o2, good n n o2, diagonal o2, wf o2 &
    forall i, (i < n)%N -> entry o2 i i = entry o i i * entry o i i].
Proof.
move=> w d e1 e2; rewrite /square_diag e1 e2 eqxx /=.
have g : good n n o by split=> //; rewrite /square_if_diagonal e1 e2; case: (okind o).
case: ifP => [/orP[z|ci]|_].
- by exists o; split=> // i _; rewrite zero_entry // mul0r.
- exists o; split=> // i hi; have [cd c1] := identity_const_diag ci.
  by rewrite const_diag_entry ?e1 ?e2 // eqxx c1 mulr1.
- eexists; split; [by []|by split|by rewrite /diagonal /ttype /=; case: ifP|by rewrite /wf /= eqxx|].
  by move=> i hi; rewrite entry_kdiag.
Qed.

Lemma diagonal_const_obj (c : R) (rf cf fx : bool) : rf -> cf -> diagonal (const_obj fx c 1 1 rf cf).
Proof. by move=> h1 h2; rewrite /diagonal /ttype /one_dim /= h1 h2 orbT. Qed.

Lemma to_diagonal_diagonal o : diagonal (to_diagonal o).
Proof. by rewrite /diagonal /ttype /to_diagonal; case: (okind o) => [fx c|fx c|d|l f|l f|f] /=; case: ifP. Qed.

Lemma sum_impl_diagonal fuel (t0 t1 s : obj R) : diagonal t0 -> diagonal t1 -> square_if_diagonal t0 -> square_if_diagonal t1 ->
  sum_impl fuel.+2 [:: t0; t1] = Val s -> diagonal s.
Proof.
move=> d0 d1 s0 s1; rewrite sum_impl_eq; case: ifP => // /negbFE/same_dimsP[e1 e2].
case: ifP => [_ [<-] //|z0]; case: ifP => [_ [<-] //|z1].
case: ifP => [/andP[c0 c1] /=|_].
  move=> [<-]; have o0 : one_dim t0.
    move/diagonal_kind: d0; rewrite z0 /= => /orP[//|]; move: c0; rewrite /constant z0 /= orbF /diag_kind; by case: (okind t0).
  have [r0 k0] := one_dimE o0; case/and4P: o0 => rf cf _ _.
  by rewrite /sum_constants r0 k0; apply: diagonal_const_obj; rewrite ?rf ?cf.
have -> : ~~ nilp ([::] : seq (obj R)) = false by [].
rewrite !andbF d0 d1; case: (sum_impl fuel.+1 [:: diagonal_of t0; diagonal_of t1]) => // d [<-]; exact: to_diagonal_diagonal.
Qed.

Lemma cholesky_diagonal llt ldlt o n : diagonal o -> good n n o ->
  (exists t, [/\ cholesky_factor llt ldlt true o = Val t, forall i, (i < n)%N -> 0 <= entry o i i, orows t = n, ocols t = n &
     forall i j, (i < n)%N -> (j < n)%N -> entry t i j = if i == j then Num.sqrt (entry o i i) else 0]) \/
  (cholesky_factor llt ldlt true o = NotFinite /\ ((0 < n)%N -> exists2 i, (i < n)%N & entry o i i < 0)).
Proof.
move=> d [e1 e2 so]; rewrite /cholesky_factor e1 e2 eqxx /=.
have od i j : (i < n)%N -> (j < n)%N -> i != j -> entry o i j = 0 by move=> hi hj; apply: diagonal_entry; rewrite ?e1 ?e2.
case: ifP => [/orP[z|ci]|_].
- left; exists o; split=> // [i hi|i j hi hj]; first by rewrite zero_entry.
  by rewrite !zero_entry // sqrtr0 if_same.
- have [cd c1] := identity_const_diag ci.
  have en i j : (i < n)%N -> (j < n)%N -> entry o i j = if i == j then 1 else 0.
    by move=> hi hj; rewrite const_diag_entry ?e1 ?e2 // c1.
  left; exists o; split=> // [i hi|i j hi hj]; rewrite !en // eqxx ?sqrtr1 //; exact: ler01.
case: ifP => [cd|ncd].
  have en i : (i < n)%N -> entry o i i = cval o by move=> hi; rewrite const_diag_entry ?e1 ?e2 // eqxx.
  rewrite /vsqrt; case: ifP => [c0|/negbT c0] /=; last first.
    by right; split=> // n0; exists 0%N => //; rewrite en // ltNge.
  left; eexists; split; [by []|by move=> i hi; rewrite en|by []|by []|].
  by move=> i j hi hj; rewrite /entry /= -/(entry o i i) en.
case: ifP => [c|_].
  move/diagonal_kind: d; move: ncd c; rewrite /const_diag /constant /diag_kind.
  by case: (zero o); case: (one_dim o); rewrite ?orbT //= !orbF; case: (okind o).
rewrite d; case: ifP => [/iota_all ge|/negbT/allPn[i]].
  by left; eexists; split.
rewrite mem_iota => /andP[_ hi]; rewrite -ltNge => lt0; right; split=> // _; by exists i.
Qed.

(** *** Scaling *)
Lemma scalar_ttype u s : ~~ diagonal u -> ttype (scalar_product u s false) = ttype u.
Proof.
move=> nd; have nz : zero u = false by apply/negP => z; move/negP: nd; apply; rewrite /diagonal /ttype z.
have no : one_dim u = false by apply/negP => z; move/negP: nd; apply; rewrite /diagonal /ttype z orbT.
have nc : const_diag u = false by apply/negP => z; move/negP: nd; apply; exact: cd_diagonal.
rewrite /scalar_product nz nc; case: ifP => [c|ncst].
  move: c; rewrite /constant nz no !orbF; case ek: (okind u) => [fx c|fx c|d|l f|l f|f] // _.
  by rewrite /ttype ek nz no /zero /one_dim /=; move: no; rewrite /one_dim => ->.
rewrite /= /scalar_op; case ek: (okind u) => [fx c|fx c|d|l f|l f|f]; rewrite /ttype nz no ek /zero /one_dim /=;
  move: no nc ncst; rewrite /one_dim /const_diag /constant ek //= => -> //.
Qed.

Lemma scalar_wf u s : wf u -> wf (scalar_product u s false).
Proof.
move=> w; rewrite /scalar_product; case: ifP => // _; case: ifP => // _; case: ifP => [cd|_ /=].
  by rewrite /wf /= eqxx.
by move: w; rewrite /wf /scalar_op; case: (okind u).
Qed.

Lemma transpose_wf u : wf u -> wf (transpose_obj u).
Proof. by rewrite /wf /transpose_obj /=; case: (okind u) => *; rewrite eq_sym. Qed.

Lemma transpose_sid u : square_if_diagonal u -> square_if_diagonal (transpose_obj u).
Proof. by rewrite /square_if_diagonal /transpose_obj /=; case: (okind u). Qed.

Lemma scalar_diagonal u s : diagonal u -> diagonal (scalar_product u s false).
Proof.
move=> d; rewrite /scalar_product; case: ifP => // nz.
case: ifP => [c|_].
  have o : one_dim u.
    move/diagonal_kind: d; rewrite nz /= => /orP[//|]; move: c; rewrite /constant nz /= orbF /diag_kind; by case: (okind u).
  by have [-> ->] := one_dimE o; case/and4P: o => h1 h2 _ _; exact: diagonal_const_obj.
case: ifP => [_|]; first exact: to_diagonal_diagonal.
move: d => /diagonal_kind; rewrite /const_diag nz /= /diag_kind /scalar_op; case: (one_dim u); rewrite ?orbT //=.
by case: (okind u) => // dd _ _; rewrite /diagonal /ttype /=; case: ifP.
Qed.

End P.
