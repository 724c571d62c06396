(** * Proofs about rank updates: rank_update_triangular and rank_update_hermitian. *)
From mathcomp Require Import all_ssreflect all_algebra.
From Verif Require Import MatBase ShortModel ShortSpec ShortProofs1 ShortProofs2 ShortProofs4 ShortProofs5 ShortProofs7.
From Verif Require Import LdltModel LdltSpec LdltProofs LdltProofs2 RankModel RankSpec RankProofs RankProofs2.
Set Implicit Arguments.
Unset Strict Implicit.
Unset Printing Implicit Defensive.
Import GRing.Theory Num.Theory Order.Theory.
Local Open Scope ring_scope.

Section P.
Variable R : rcfType.
Implicit Types (m : mat R) (o a u : obj R) (alpha : R).

Lemma rbindV A B (x : A) (f : A -> res B) : rbind (Val x) f = f x. Proof. by []. Qed.

Notation is_lo := (@lower_factor R).

Lemma to_triangular_same a : triangular a ->
  same (to_triangular (if ~~ is_lo a then TUpper else TLower) (value a)) (value a).
Proof.
rewrite /lower_factor => t; split=> //= i j hi hj.
have : if ttype a is TUpper then upper a else lower a by move: t; rewrite /triangular /upper /lower; case: (ttype a).
case: (ttype a) => /= h; case: leqP => // ij; apply: esym.
- exact: lower_entry.
- exact: lower_entry.
- exact: upper_entry.
- exact: lower_entry.
Qed.

Lemma triangle_shaped_to lo m : triangle_shaped lo (to_triangular (if ~~ lo then TUpper else TLower) m).
Proof. by case: lo => i j _ _ /=; rewrite ltnNge => /negbTE ->. Qed.

Section Lib.
Variables (llt : bool -> nat -> (nat -> nat -> R) -> option (nat -> nat -> R)) (ldl : nat -> (nat -> nat -> R) -> ldlt R).
Variables (lq : mat R -> mat R) (rk : bool -> nat -> (nat -> nat -> R) -> (nat -> R) -> R -> option (nat -> nat -> R)).

Definition outcome (lo : bool) (r : res (mat R)) alpha new : Prop :=
  factor_of lo r new \/ [/\ fails_with r, alpha <= 0 & ~ definite new].

Variables (a u : obj R) (alpha : R).
Hypotheses (wa : wf a) (wu : wf u) (su : square_if_diagonal u) (qa : orows a = ocols a) (qu : orows u = orows a).
Hypothesis (n0 : (0 < orows a)%N).
Let lo := is_lo a.
Let new := updated (gram lo (value a)) (value u) alpha.

Lemma branch_zero_u : triangular a -> zero u ->
  outcome lo (Val (to_triangular (if ~~ lo then TUpper else TLower) (value a))) alpha new.
Proof.
move=> t z; left; eexists; split; [by []|by rewrite /square /= ?qa|exact: triangle_shaped_to|].
apply: same_trans (gram_same _ _ (to_triangular_same t)) _; first by rewrite /square /= qa.
split=> // i j _ _; rewrite /new updated_at big1 ?mul0r ?addr0 // => k _; by rewrite /= zero_entry // mul0r.
Qed.

Lemma entry_le_0 (x : R) : (exists y, x = y * y) -> 0 <= x.
Proof. by case=> y ->; exact: sqr_ge0. Qed.

Lemma branch_one : orows a = 1%N ->
  outcome lo (rbind (contract u (transpose_obj u)) (fun m =>
       rbind (vsqrt (entry a 0 0 * entry a 0 0 + alpha * mat_at m 0 0)) (fun e =>
         Val (to_triangular (if ~~ lo then TUpper else TLower)
           (Mat (orows a) (ocols a) (fun i j => if (i == 0%N) && (j == 0%N) then e else entry a i j)))))) alpha new.
Proof.
move=> a1; have c1 : ocols a = 1%N by rewrite -qa.
have [m [-> [r1 r2 r3]]] := contract_ok wu (transpose_wf wu) (erefl : ocols u = orows (transpose_obj u)) su (transpose_sid su).
rewrite /= in r1 r2 r3; rewrite [rbind _ _]/=.
have -> : mat_at m 0 0 = \sum_(k < ocols u) entry u 0 k * entry u 0 k.
  rewrite r3 ?r1 ?r2 ?qu ?a1 //; by apply: eq_bigr => k _; rewrite transpose_objE.
set S := \sum_(k < _) _; have S0 : 0 <= S by apply: sumr_ge0 => k _; exact: sqr_ge0.
have n00 : mat_at new 0 0 = entry a 0 0 * entry a 0 0 + alpha * S.
  by rewrite /new updated_at gram_at //= a1 big_ord1 if_same; congr (_ + _); rewrite mulrC.
rewrite /vsqrt; case: ifP => [ge|/negbT lt0] /=.
  left; eexists; split; [by []|by rewrite /square /= ?qa|exact: triangle_shaped_to|].
  have sq' : mat_at new 0 0 = Num.sqrt (entry a 0 0 * entry a 0 0 + alpha * S) ^+ 2 by rewrite sqr_sqrtr.
  have [d1 d2] := gram_dims lo (erefl (orows a) : mrows (value a) = _) (esym qa : mcols (value a) = _).
  split.
  - by rewrite /new /= d1; case: (lo).
  - by rewrite /new /= d2; case: (lo).
  case=> [|i]; last by case: (lo) => /=; rewrite ?a1 ?c1.
  case=> [|j]; last by case: (lo) => /=; rewrite ?a1 ?c1.
  move=> _ _; rewrite sq' gram_at //= a1 big_ord1 /= expr2; by case: (lo).
right; split; first by right.
  rewrite leNgt; apply/negP => ap; case/negP: lt0.
  by apply: addr_ge0; [exact: sqr_ge0|apply: mulr_ge0 => //; exact: ltW].
apply: (@not_definite_diag _ _ 0%N); rewrite ?n00 ?ltNge //.
- rewrite /new /square /=; by case: (lo) => /=.
- rewrite /new /=; by case: (lo) => /=; rewrite -?qa.
Qed.

Lemma new_zero_form v : zero a -> quadratic_form new v = alpha * \sum_(k < ocols u) (\sum_(i < orows a) v i * entry u i k) ^+ 2.
Proof.
move=> z; have [d1 d2] := gram_dims lo (erefl (orows a) : mrows (value a) = _) (esym qa : mcols (value a) = _).
rewrite /new form_updated /square ?d1 ?d2 //; rewrite {1}/quadratic_form big1 ?add0r // => i _; rewrite big1 // => j _.
rewrite gram_at //= big1 ?mulr0 ?mul0r // => k _; rewrite !zero_entry // mul0r; by case: (lo).
Qed.

Lemma zero_lo : zero a -> lo = true.
Proof. by rewrite /lo /lower_factor /ttype => ->. Qed.

Lemma branch_zero_a : lq_contract lq -> zero a -> (lower u -> (orows u <= ocols u)%N) ->
  outcome lo (rbind (vsqrt alpha) (fun s =>
      if diagonal u then Val (value (to_diagonal (scalar_product (diagonal_of u) s false)))
      else if ~~ lo then Val (QR_decomposition lq (scalar_product (transpose_obj u) s false))
      else Val (LQ_decomposition lq (scalar_product u s false)))) alpha new.
Proof.
move=> ok z hl; rewrite (zero_lo z) /= /vsqrt; case: ifP => [ge|/negbT lt0] /=; last first.
  have al : alpha <= 0 by rewrite leNgt; apply: contra lt0 => /ltW.
  right; split=> //; first by right.
  apply: (@not_definite _ _ (fun=> 1) 0%N); rewrite ?oner_eq0 //; first by rewrite /new /=; case: (lo); rewrite /= -?qa.
  by rewrite new_zero_form // mulr_le0_ge0 // sumr_ge0 // => k _; exact: sqr_ge0.
have nz i j : mat_at new i j = (\sum_(k < ocols u) entry u i k * entry u j k) * alpha.
  rewrite /new updated_at gram_at //= big1 ?add0r // => k _; rewrite !zero_entry // mul0r; by case: (lo).
have [dn1 dn2] : mrows new = orows a /\ mcols new = orows a by rewrite /new (zero_lo z).
have s2 : Num.sqrt alpha * Num.sqrt alpha = alpha by rewrite -expr2 sqr_sqrtr.
case: ifP => [du|ndu]; left; eexists; (split; first by []).
- by rewrite /square /to_diagonal; case: (okind _).
- move=> i j hi hj ij; rewrite /= to_diagonalE ltn_eqF //.
- have [e1 e2 e] : same (value (scalar_product (diagonal_of u) (Num.sqrt alpha) false)) (scaled (value (diagonal_of u)) (Num.sqrt alpha)).
    by apply: scalar_product_ok; rewrite /square_if_diagonal /diagonal_of; case: (okind u).
  have cu : minn (orows u) (ocols u) = orows a.
    have [zu|<-] := diagonal_square su du; last by rewrite minnn.
    by rewrite -qu; apply/minn_idPl/hl; have [] := diagonal_lo du.
  have rd : orows (to_diagonal (scalar_product (diagonal_of u) (Num.sqrt alpha) false)) = orows a.
    by rewrite /to_diagonal -cu -diagonal_of_rows -[RHS]/(mrows (scaled (value (diagonal_of u)) (Num.sqrt alpha))) -e1; case: (okind _).
  have cd : ocols (to_diagonal (scalar_product (diagonal_of u) (Num.sqrt alpha) false)) = orows a.
    by rewrite -rd /to_diagonal; case: (okind _).
  split; [by rewrite /= rd dn1|by rewrite /= rd dn2|move=> i j].
  have [-> ->] := gram_dims true (rd : mrows (value _) = _) (cd : mcols (value _) = _) => hi hj.
  pose d i := entry u i i * Num.sqrt alpha.
  have cu' : (orows a <= ocols u)%N by rewrite -cu geq_minr.
  rewrite (@gram_diag _ _ d (orows a)) //.
    rewrite nz (@sum_pick _ (ocols u) (fun k => entry u i k * entry u j k) i) ?(leq_trans hi) //.
      case: eqP => [<-|/eqP ne]; first by rewrite /d mulrACA s2.
      by rewrite [entry u j i]diagonal_entry ?mulr0 ?mul0r ?qu // ?(leq_trans hi) // eq_sym.
    by move=> k hk ne; rewrite [entry u i k]diagonal_entry ?mul0r ?qu // eq_sym.
  move=> x y hx hy; rewrite /= to_diagonalE; case: eqP => // _.
  have := e x 0%N; rewrite /= diagonal_ofE => -> //.
    by rewrite -[orows _]/(mrows (value (scalar_product (diagonal_of u) (Num.sqrt alpha) false))) e1 /= diagonal_of_rows cu.
  by rewrite -[ocols _]/(mcols (value (scalar_product (diagonal_of u) (Num.sqrt alpha) false))) e2 /= diagonal_of_cols.
- have [|r c _ _] := LQ_ok ok (scalar_wf (Num.sqrt alpha) wu).
    by rewrite /lower scalar_ttype ?ndu // => l; have [e1 e2 _] := scalar_product_ok (Num.sqrt alpha) false su; rewrite /= in e1 e2; rewrite e1 e2 hl.
  by rewrite /square r c.
- have [|_ _ //] := LQ_ok ok (scalar_wf (Num.sqrt alpha) wu).
  by rewrite /lower scalar_ttype ?ndu // => l; have [e1 e2 _] := scalar_product_ok (Num.sqrt alpha) false su; rewrite /= in e1 e2; rewrite e1 e2 hl.
- have [|r c _ h] := LQ_ok ok (scalar_wf (Num.sqrt alpha) wu).
    by rewrite /lower scalar_ttype ?ndu // => l; have [e1 e2 _] := scalar_product_ok (Num.sqrt alpha) false su; rewrite /= in e1 e2; rewrite e1 e2 hl.
  apply: same_trans h _; have [e1 e2 e] := scalar_product_ok (Num.sqrt alpha) false su; rewrite /= in e1 e2 e.
  split; [by rewrite /= e1 qu dn1|by rewrite /= e1 qu dn2|move=> i j hi hj].
  rewrite nz /= in hi hj *; rewrite e2 mulr_suml; apply: eq_bigr => k _; by rewrite !e ?e2 // mulrACA s2.
Qed.

Lemma branch_diagonal : ~~ zero u -> diagonal a -> diagonal u ->
  outcome lo (rbind (square_diag a) (fun a2 => rbind (square_diag u) (fun u2 =>
      rbind (sum_impl 6 [:: a2; scalar_product u2 alpha false]) (fun d =>
        rbind (cholesky_factor llt ldl true d) (fun x => Val (value x)))))) alpha new.
Proof.
move=> zu da du; have el : lo = true by move: da; rewrite /lo /lower_factor /diagonal; case: (ttype a).
have cu : ocols u = orows a by have [z|<-//] := diagonal_square su du; rewrite z in zu.
have [a2 [-> ga da2 _ ea]] := square_diag_ok wa da erefl (esym qa).
have [u2 [-> gu du2 _ eu]] := square_diag_ok wu du qu cu; rewrite !rbindV.
have [u1 u3 sid2] := gu.
have [p1 p2 p] := scalar_product_ok alpha false sid2; rewrite /= in p1 p2 p.
have dp : diagonal (scalar_product u2 alpha false) by exact: scalar_diagonal.
have gp : good (orows a) (orows a) (scalar_product u2 alpha false).
  by split; rewrite ?p1 ?p2 // /square_if_diagonal p1 p2 u1 u3; case: (okind _).
have [||s [es gs en]] := @sum_impl_ok R 6 [:: a2; scalar_product u2 alpha false] (orows a) (orows a).
- by [].
- by move=> t /= [<-//|[<-//|//]].
have ds : diagonal s by apply: sum_impl_diagonal es => //; [case: ga|case: gp].
rewrite es rbindV.
have enn i : (i < orows a)%N -> entry s i i = mat_at new i i.
  move=> hi; rewrite en // big_cons big_seq1 ea // p ?p1 ?p2 ?u1 ?u3 // eu // /new el updated_diag // ?eqxx //; last by rewrite cu.
have [[t [-> ge r c et]]|[-> neg]] := cholesky_diagonal llt ldl ds gs; rewrite ?rbindV.
  left; exists (value t); split=> //; rewrite ?el.
    by rewrite /square /= r c.
    by move=> i j /=; rewrite r c => hi hj ij; rewrite et // ltn_eqF.
  split; [by rewrite /= r /new el|by rewrite /= r /new el|move=> i j].
  have [-> ->] := gram_dims true (r : mrows (value _) = _) (c : mcols (value _) = _) => hi hj.
  rewrite (@gram_diag _ _ (fun i => Num.sqrt (entry s i i)) (orows a)) //.
  rewrite -expr2 sqr_sqrtr ?ge // enn // /new el !updated_diag // ?eqxx // cu //.
have [i hi lt0] := neg n0.
right; split; first by right.
  rewrite leNgt; apply/negP => ap; move: lt0; rewrite enn // /new el updated_diag // ?eqxx ?ltNge; last by rewrite cu.
  by move/negP; apply; apply: addr_ge0; [|apply: mulr_ge0; [|exact: ltW]]; exact: sqr_ge0.
apply: (@not_definite_diag _ _ i); rewrite -?enn //; by rewrite /new el.
Qed.

Lemma nested_same : triangular a -> ~~ zero a -> ~~ one_by_one a u ->
  same (triangle_of lo (orows a) (nested_triangular a)) (value a).
Proof.
rewrite /one_by_one => t nz /norP[n1 /norP[n2 _]]; split=> //= i j hi hj; rewrite qa in n1.
have no : one_dim a = false by apply/negP => /and4P[_ h _ h']; rewrite h h' in n2.
rewrite /lo /lower_factor; move: t; rewrite /triangular /ttype (negbTE nz) no /nested_triangular /=.
case ek: (okind a) => [fx c|fx c|d|l f|l f|f]; rewrite ?(negbTE n2) ?qa ?(negbTE n1) // => _; rewrite /entry ek.
- by case: ltngtP.
- by case: ltngtP.
- by case: (l).
Qed.

Lemma branch_library : rank_contract rk -> triangular a -> ~~ zero a -> ~~ one_by_one a u ->
  outcome lo (rbind (lib_updates rk lo (orows a) (nested_triangular a) (columns u) alpha) (fun g =>
    Val (to_triangular (if ~~ lo then TUpper else TLower) (Mat (orows a) (orows a) g)))) alpha new.
Proof.
move=> ok t nz n1; have ns := nested_same t nz n1.
have gs : same (updated (gram lo (triangle_of lo (orows a) (nested_triangular a))) (cols_mat (orows a) (columns u)) alpha) new.
  have [d1 d2] := gram_triangle_dims lo (orows a) (nested_triangular a).
  apply: updated_same; [by rewrite d1|exact: d2|exact: gram_same|rewrite -qu; exact: cols_same].
have := lib_updates_ok lo (orows a) (nested_triangular a) (columns u) alpha ok.
case: (lib_updates _ _ _ _ _ _) => // [g|] h; last first.
  case: h => al nd; right; split=> //; first by left.
  by move=> d; apply: nd; exact: (definite_same (same_sym gs)).
left; eexists; split; [by []|by rewrite /square /= ?qa|exact: triangle_shaped_to|].
apply: same_trans (same_trans h gs).
apply: gram_same => //; split=> // i j _ _ /=; by case: (lo).
Qed.

Theorem rank_update_triangular_ok : lq_contract lq -> rank_contract rk -> triangular a ->
  (zero a -> lower u -> (orows u <= ocols u)%N) ->
  outcome lo (rank_update_triangular llt ldl lq rk a u alpha) alpha new.
Proof.
move=> okq okr t hz; rewrite /rank_update_triangular.
have -> : ~~ triangular a || dims_rejected a u = false by rewrite t /dims_rejected qu -qa eqxx /= !andbF.
have -> : (orows a != orows u) = false by rewrite qu eqxx.
rewrite andbF.
have -> : (match ttype a with TUpper => true | _ => false end) = ~~ lo by rewrite /lo /lower_factor; case: (ttype a).
case: ifP => [zu|/negbT nzu]; first exact: branch_zero_u.
case: ifP => [one|/negbT n1].
  have a1 : orows a = 1%N by move: one; rewrite /one_by_one qu -qa => /or3P[] /andP[_ /eqP].
  by have := branch_one a1; rewrite -qa.
case: ifP => [za|/negbT nza]; first by apply: branch_zero_a => //; exact: hz.
case: ifP => [/andP[da du]|_]; first exact (branch_diagonal nzu da du).
by have := branch_library okr t nza n1; rewrite negbK.
Qed.
End Lib.

(** *** rank_update_hermitian *)
Lemma hermitian_ok a u alpha : wf a -> wf u -> square_if_diagonal a -> square_if_diagonal u ->
  symmetric (value a) -> orows u = orows a ->
  returns (rank_update_hermitian a u alpha) (updated (value a) (value u) alpha).
Proof.
move=> wa wu sa su [qa sy] qu; rewrite /square /= in qa sy.
rewrite /rank_update_hermitian /dims_rejected qu -qa eqxx /= !andbF /=.
set lo := match okind a with KHerm false _ => false | _ => true end.
have sn i j : (i < orows a)%N -> (j < orows a)%N -> entry a i j = entry a j i by move=> hi hj; rewrite sy // -qa.
have [zu|nzu] := boolP (zero u).
  rewrite /= -?qa; eexists; split; first by []; apply: same_trans (mirror _ _ _) _ => //.
  split=> // i j _ _; rewrite updated_at big1 ?mul0r ?addr0 // => k _; by rewrite /= zero_entry // mul0r.
rewrite orFb; case: ifP => [one|/negbT n1].
  have a1 : orows a = 1%N by move: one; rewrite /one_by_one qu -qa => /or3P[] /andP[_ /eqP].
  have [m [-> [r1 r2 r3]]] := contract_ok wu (transpose_wf wu) (erefl : ocols u = orows (transpose_obj u)) su (transpose_sid su).
  rewrite /= in r1 r2 r3; rewrite rbindV.
  eexists; split; first by []; split=> //= i j; rewrite -?qa a1 !ltnS !leqn0 => /eqP-> /eqP->.
  rewrite if_same mulrC big_cons big_seq1 /=; congr (_ + _ * _).
  rewrite r3 ?r1 ?r2 ?qu ?a1 //; by apply: eq_bigr => k _; rewrite transpose_objE.
case: ifP => [/andP[za du]|_].
  have cu : ocols u = orows a by have [z|<-//] := diagonal_square su du; rewrite z in nzu.
  have [u2 [-> [u1 u3 sid2] du2 _ eu]] := square_diag_ok wu du qu cu; rewrite rbindV.
  eexists; split; first by [].
  have [p1 p2 p] := scalar_product_ok alpha false sid2; rewrite /= in p1 p2 p.
  split; rewrite /= ?p1 ?p2 ?u1 ?u3 -?qa // => i j hi hj.
  rewrite p ?p1 ?p2 ?u1 ?u3 // big_cons big_seq1 /= (zero_entry i j za) add0r; congr (_ * _).
  rewrite cu (@pick_diag _ u (fun k => entry u i k) (fun k => entry u j k) i j (orows a)) //.
  by case: eqP => [<-|/eqP ne]; [exact: eu|rewrite diagonal_entry ?u1 ?u3].
case: ifP => [/andP[da du]|_].
  have cu : ocols u = orows a by have [z|<-//] := diagonal_square su du; rewrite z in nzu.
  have [u2 [-> [u1 u3 sid2] du2 w2 eu]] := square_diag_ok wu du qu cu; rewrite rbindV.
  have [p1 p2 p] := scalar_product_ok alpha false sid2; rewrite /= in p1 p2 p.
  have [||m [-> sm]] := @sum_ok R a [:: scalar_product u2 alpha false].
  - by move=> t [<-|//]; rewrite p1 p2 u1 u3 -qa.
  - move=> t [<-|[<-|//]]; split=> //; first exact: scalar_wf.
    by rewrite /square_if_diagonal p1 p2 u1 u3; case: (okind _).
  exists m; split=> //; apply: same_trans sm _; split=> // i j /= hi; rewrite -qa => hj.
  rewrite !big_cons !big_nil !addr0 /= p ?p1 ?p2 ?u1 ?u3 //; congr (_ + _ * _).
  rewrite cu (@pick_diag _ u (fun k => entry u i k) (fun k => entry u j k) i j (orows a)) //.
  by case: eqP => [<-|/eqP ne]; [exact: eu|rewrite diagonal_entry ?u1 ?u3].
eexists; split; first by []; split=> // i j /= hi; rewrite -?qa => hj; rewrite big_cons big_seq1 /= /lib_hermitian.
have ne x y : (x < orows a)%N -> (y < orows a)%N -> (if lo then (y <= x)%N else (x <= y)%N) -> nested_hermitian a x y = entry a x y.
  rewrite /lo /nested_hermitian => hx hy; case ek: (okind a) => [fx c|fx c|d|l f|l f|f] //; rewrite /entry ek; by case: (l) => ->.
have sm : \sum_(k < ocols u) entry u j k * entry u i k = \sum_(k < ocols u) entry u i k * entry u j k by apply: eq_bigr => k _; rewrite mulrC.
have [h|h] := boolP (if lo then (j <= i)%N else (i <= j)%N).
  have := ne i j hi hj h; move: h; case: (lo) => h; rewrite h => ->; by rewrite [alpha * _]mulrC.
have h' : if lo then (i <= j)%N else (j <= i)%N by move: h; case: (lo); rewrite -ltnNge => /ltnW.
have := ne j i hj hi h'; move: h h'; case: (lo) => /negbTE h h'; rewrite h h' => ->; by rewrite [alpha * _]mulrC sm sn.
Qed.

End P.
