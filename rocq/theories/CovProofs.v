(** * Proofs for the covariance state machine. *)
From mathcomp Require Import all_ssreflect all_algebra.
From Verif Require Import MatBase LibModel CovModel CovSpec.
Set Implicit Arguments.
Unset Strict Implicit.
Unset Printing Implicit Defensive.
Import GRing.Theory Num.Theory Order.Theory.
Local Open Scope ring_scope.

Section Proofs.
Variable R : rcfType.
Variable L : lib R.
Hypothesis LK : lib_ok L.
Variable n : nat.
Implicit Types (P T : 'M[R]_n) (c : cov R n) (s : store R n) (v : vals R n).

Definition rep c P : Prop :=
  [/\ sd_ge0 (sd c) -> is_trig_mx (nested c) /\ nested c *m (nested c)^T = P,
      sd_le0 (sd c) -> chol c = P & P^T = P].

Lemma good_chol P : good P -> is_trig_mx (lchol L P) /\ lchol L P *m (lchol L P)^T = P.
Proof.
case=> [h|->]; first by split; [exact: lchol_trig|exact: lchol_sq].
rewrite (lchol_0 LK) mul0mx; split=> //; exact: mx0_is_trig.
Qed.

Lemma rep_forward c P : rep c P -> sd_gt0 (sd c) -> rep (sync_forward c) P.
Proof. by case: c => a b [] //= [/(_ isT) [t e] _ sP] _; split=> //= _. Qed.

Lemma rep_reverse c P : good P -> rep c P -> sd_lt0 (sd c) -> rep (sync_reverse L c) P.
Proof.
case: c => a b [] // g [_ /(_ isT) /= e sP] _; rewrite /sync_reverse /= e; split=> //= _; exact: good_chol.
Qed.

Lemma rep_get_tri c P : good P -> rep c P -> rep (get_tri L c) P.
Proof. by rewrite /get_tri; case: ifP => // d g r; apply: rep_reverse. Qed.

Lemma get_tri_ge0 c : sd_ge0 (sd (get_tri L c)).
Proof. by case: c => a b []. Qed.

Lemma rep_get_sa c P : rep c P -> rep (get_sa c) P.
Proof. by rewrite /get_sa; case: ifP => // d r; apply: rep_forward. Qed.

Lemma get_sa_le0 c : sd_le0 (sd (get_sa c)).
Proof. by case: c => a b []. Qed.

Lemma get_sa_id c : sd_le0 (sd c) -> get_sa c = c.
Proof. by case: c => a b []. Qed.

Lemma get_tri_id c : sd_ge0 (sd c) -> get_tri L c = c.
Proof. by case: c => a b []. Qed.

Definition reps s v : Prop := forall k, rep (s k) (v k).

Lemma reps_upd s v i c P : reps s v -> rep c P -> reps (upd s i c) (vset v i P).
Proof. by move=> r rc k; rewrite /upd /vset; case: eqP. Qed.

Lemma reps_upd_same s v i c : reps s v -> rep c (v i) -> reps (upd s i c) v.
Proof. by move=> r rc k; rewrite /upd; case: eqP => [->|]. Qed.

Lemma upd_same s i c : upd s i c i = c. Proof. by rewrite /upd eqxx. Qed.
Lemma upd_other s i j c : j != i -> upd s i c j = s j. Proof. by rewrite /upd => /negbTE ->. Qed.

Lemma sqr_lq m (A : 'M[R]_(n, m)) (B : 'M[R]_n) :
  llq L (row_mx B A) *m (llq L (row_mx B A))^T = B *m B^T + A *m A^T.
Proof. by rewrite (llq_sq LK) tr_row_mx mul_row_col. Qed.

(** After the first half of += the object i holds the factor of the sum whenever it uses its factor, and the
    rest of the store is unchanged in value. *)
Lemma add_ok s v i j : reps s v -> good (v j) -> reps (do_add L s i j) (vset v i (v i + v j)).
Proof.
move=> r g; rewrite /do_add.
set s1 := if sd_ge0 (sd (s i)) then _ else s.
have H : [/\ forall k, k != i -> rep (s1 k) (v k),
             sd_ge0 (sd (s1 i)) -> is_trig_mx (nested (s1 i)) /\
               nested (s1 i) *m (nested (s1 i))^T = v i + v j,
             sd_le0 (sd (s1 i)) -> chol (s1 i) = v i & sd (s1 i) = sd (s i)].
  rewrite /s1; case: ifP => di; last first.
    by split=> //; [rewrite di|case: (r i)].
  set s' := upd s j _.
  have r' : reps s' v by apply: reps_upd_same => //; apply: rep_get_tri.
  have e' : sd (s' i) = sd (s i).
    by rewrite /s' /upd; case: eqP => // <-; rewrite get_tri_id.
  have dj : sd_ge0 (sd (s' j)) by rewrite /s' upd_same get_tri_ge0.
  split.
  - by move=> k ki; rewrite upd_other.
  - rewrite upd_same /= => _; split; first exact: llq_trig.
    rewrite sqr_lq; congr (_ + _).
      by case: (r' i) => /(_ _) [|_ ->] //; rewrite e'.
    by case: (r' j) => /(_ dj) [_ ->].
  - by rewrite upd_same /=; case: (r' i).
  - by rewrite upd_same.
case: H => h1 h2 h3 h4.
have sy : (v i + v j)^T = v i + v j by rewrite linearD /=; case: (r i) => _ _ ->; case: (r j) => _ _ ->.
case: ifP => di; last first.
  move=> k; rewrite /vset; case: eqP => [->|/eqP ki]; last exact: h1.
  by split=> //; rewrite di.
set s' := upd s1 j _.
have ei : s' i = s1 i by rewrite /s' /upd; case: eqP => // e; rewrite -e get_sa_id.
have cj : chol (s' j) = v j.
  rewrite /s' upd_same; have [e|ji] := eqVneq j i; first by rewrite e get_sa_id // h3.
  by have [_ -> //] := rep_get_sa (h1 j ji); exact: get_sa_le0.
move=> k; rewrite /vset; case: eqP => [->|/eqP ki].
  by rewrite upd_same ei; split=> //= _; rewrite cj h3.
rewrite upd_other // /s' /upd; case: eqP => [e|_]; last exact: h1.
by rewrite -e; apply: rep_get_sa; exact: h1.
Qed.
Lemma sub_ok s v i j : reps s v -> good (v j) -> posdef (v i - v j) ->
  exists2 s', do_sub L s i j = Some s' & reps s' (vset v i (v i - v j)).
Proof.
move=> r g pd; rewrite /do_sub.
set s1 := if sd_ge0 (sd (s i)) then _ else Some s.
have H : exists2 t, s1 = Some t & [/\ forall k, k != i -> rep (t k) (v k),
             sd_ge0 (sd (t i)) -> is_trig_mx (nested (t i)) /\
               nested (t i) *m (nested (t i))^T = v i - v j &
             sd_le0 (sd (t i)) -> chol (t i) = v i].
  rewrite /s1; case: ifP => di; last first.
    by exists s => //; split=> //; [rewrite di|case: (r i)].
  set s' := upd s j _.
  have r' : reps s' v by apply: reps_upd_same => //; apply: rep_get_tri.
  have e' : sd (s' i) = sd (s i).
    by rewrite /s' /upd; case: eqP => // <-; rewrite get_tri_id.
  have dj : sd_ge0 (sd (s' j)) by rewrite /s' upd_same get_tri_ge0.
  have [ti qi] : is_trig_mx (nested (s' i)) /\ nested (s' i) *m (nested (s' i))^T = v i.
    by case: (r' i) => /(_ _) h _ _; apply: h; rewrite e'.
  have qj : nested (s' j) *m (nested (s' j))^T = v j by case: (r' j) => /(_ dj) [].
  have [T eT] : exists T, lrank L (nested (s' i)) (nested (s' j)) (-1) = Some T.
    by apply: (lrank_total LK) => //; right; rewrite qi qj scaleN1r.
  have [tT qT] := lrank_sound LK ti eT.
  rewrite eT; exists (upd s' i (Cov T (chol (s' i)) (sd (s' i)))) => //; split.
  - by move=> k ki; rewrite upd_other.
  - by rewrite upd_same /= => _; rewrite qT qi qj scaleN1r.
  - by rewrite upd_same /=; case: (r' i).
case: H => t -> [h1 h2 h3].
have sy : (v i - v j)^T = v i - v j by rewrite linearB /=; case: (r i) => _ _ ->; case: (r j) => _ _ ->.
case: ifP => di; (eexists; first reflexivity); last first.
  move=> k; rewrite /vset; case: eqP => [->|/eqP ki]; last exact: h1.
  by split=> //; rewrite di.
set s' := upd t j _.
have ei : s' i = t i by rewrite /s' /upd; case: eqP => // e; rewrite -e get_sa_id.
have cj : chol (s' j) = v j.
  rewrite /s' upd_same; have [e|ji] := eqVneq j i; first by rewrite e get_sa_id // h3.
  by have [_ -> //] := rep_get_sa (h1 j ji); exact: get_sa_le0.
move=> k; rewrite /vset; case: eqP => [->|/eqP ki].
  by rewrite upd_same ei; split=> //= _; rewrite cj h3.
rewrite upd_other // /s' /upd; case: eqP => [e|_]; last exact: h1.
by rewrite -e; apply: rep_get_sa; exact: h1.
Qed.

Lemma is_trigZ a T : is_trig_mx T -> is_trig_mx (a *: T).
Proof. by move=> /is_trig_mxP h; apply/is_trig_mxP => i j ij; rewrite mxE h // mulr0. Qed.

Lemma sqrZ a T : (a *: T) *m (a *: T)^T = (a * a) *: (T *m T^T).
Proof. by rewrite linearZ /= -scalemxAl -scalemxAr scalerA. Qed.

Lemma symZ a P : P^T = P -> (a *: P)^T = a *: P.
Proof. by move=> h; rewrite linearZ /= h. Qed.

(** Multiplying the current factor by x and the current square by x * x. *)
Lemma rep_scaled c P x y : rep c P -> y = x * x ->
  rep (Cov (if sd_ge0 (sd c) then x *: nested c else nested c)
           (if sd_le0 (sd c) then y *: chol c else chol c) (sd c)) (y *: P).
Proof.
move=> [h1 h2 h3] ->; split=> /=; last exact: symZ.
- by move=> d; have [t q] := h1 d; rewrite d; split; [exact: is_trigZ|rewrite sqrZ q].
- by move=> d; rewrite d h2.
Qed.

Lemma mul_ok c P a : rep c P -> 0 <= a -> exists2 c', do_mul L c a = Some c' & rep c' (a *: P).
Proof.
rewrite le_eqVlt => r /orP [/eqP <-|a0].
  rewrite /do_mul ltxx scale0r; eexists; first reflexivity.
  case: c r => x y [] [h1 h2 h3] /=; split=> //=; rewrite ?trmx0 ?mulmx0 //;
    split=> //; exact: mx0_is_trig.
rewrite /do_mul a0; eexists; first reflexivity.
by apply: rep_scaled => //; rewrite -expr2 sqr_sqrtr // ltW.
Qed.

Lemma div_ok c P a : rep c P -> 0 < a -> exists2 c', do_div L c a = Some c' & rep c' (a^-1 *: P).
Proof.
move=> r a0; rewrite /do_div a0; eexists; first reflexivity.
by apply: rep_scaled => //; rewrite -invfM -expr2 sqr_sqrtr // ltW.
Qed.

Lemma scale_ok c P a : rep c P -> rep (do_scale c a) (a ^+ 2 *: P).
Proof.
by move=> r; have := rep_scaled r (erefl (a * a)); rewrite expr2.
Qed.

Lemma inv_scale_ok c P a : rep c P -> a != 0 ->
  exists2 c', do_inv_scale c a = Some c' & rep c' ((a ^+ 2)^-1 *: P).
Proof.
move=> r a0; rewrite /do_inv_scale (negbTE a0); eexists; first reflexivity.
rewrite expr2; apply: rep_scaled => //; by rewrite invfM.
Qed.

Lemma rank_ok c P m (U : 'M[R]_(n, m)) a :
  rep c P -> good P -> (0 < a \/ posdef (P + a *: (U *m U^T))) ->
  exists2 c', do_rank L c U a = Some c' & rep c' (P + a *: (U *m U^T)).
Proof.
move=> r g h; rewrite /do_rank -/(get_tri L c).
have [h1 _ sP] := rep_get_tri g r.
have [t q] := h1 (get_tri_ge0 c).
have [T eT] : exists T, lrank L (nested (get_tri L c)) U a = Some T.
  by apply: (lrank_total LK) => //; rewrite q.
have [tT qT] := lrank_sound LK t eT.
rewrite eT; eexists; first reflexivity.
split=> //= [_|]; first by rewrite qT q.
by rewrite linearD /= linearZ /= trmx_mul trmxK sP.
Qed.

Lemma set_symE P i j r :
  set_sym P i j r = \matrix_(p, q) if [set p; q] == [set i; j] then r else P p q.
Proof.
apply/matrixP => p q; rewrite !mxE; congr (if _ then _ else _).
apply/idP/eqP => [/orP [/andP [/eqP -> /eqP ->]|/andP [/eqP -> /eqP ->]] //|]; first by rewrite setUC.
move=> e; have /setP E := e.
have := E p; rewrite !inE eqxx /= => /esym /orP [] /eqP ep; subst p.
  have := E q; rewrite !inE eqxx orbT /= => /esym /orP [] /eqP eq; subst q; last by rewrite !eqxx.
  by have := E j; rewrite !inE eqxx !orbT orbb => /eqP <-; rewrite !eqxx.
have := E q; rewrite !inE eqxx orbT /= => /esym /orP [] /eqP eq; subst q; first by rewrite !eqxx orbT.
by have := E i; rewrite !inE eqxx /= orbb => /eqP ->; rewrite !eqxx.
Qed.

Lemma set_sym_sym P i j r : P^T = P -> (set_sym P i j r)^T = set_sym P i j r.
Proof.
move=> sP; rewrite set_symE; apply/matrixP => p q; rewrite !mxE setUC; case: ifP => // _.
by rewrite -{1}sP mxE.
Qed.

Lemma set_ok c P i j r : rep c P ->
  rep (do_set c i j r) (\matrix_(p, q) if [set p; q] == [set i; j] then r else P p q).
Proof.
move=> rc; rewrite /do_set -/(get_sa c) -set_symE.
have [_ h2 sP] := rep_get_sa rc.
by split=> //= [_|]; [rewrite (h2 (get_sa_le0 c))|exact: set_sym_sym].
Qed.

Lemma copy_ok c P : rep c P -> rep (copy_construct c) P.
Proof. by case: c => x y [] [h1 h2 h3]; split. Qed.

Lemma det_ok c P : rep c P -> cov_det c = \det P.
Proof.
case: c => x y d; rewrite /cov_det; case: d => -[/= h1 h2 _]; try by rewrite h2.
by have [_ <-] := h1 isT; rewrite det_mulmx det_tr.
Qed.

Lemma step_ok s v o : reps s v -> allowed v o ->
  exists2 sb, step L s o = Some sb & reps sb.1 (plain v o) /\ returns v o sb.2.
Proof.
move=> r; case: o => /=.
- by move=> i P sP; eexists; [reflexivity|split=> //=]; apply: reps_upd => //; split.
- move=> i T tT; eexists; [reflexivity|split=> //=]; apply: reps_upd => //; split=> //.
  by rewrite trmx_mul trmxK.
- by move=> i j _; eexists; [reflexivity|split=> //=]; apply: reps_upd => //; apply: copy_ok.
- by [].
- by move=> i j g; eexists; [reflexivity|split=> //=]; apply: add_ok.
- by move=> i j [g p]; have [s' -> r'] := sub_ok r g p; eexists; [reflexivity|split].
- by move=> i a a0; have [c -> rc] := mul_ok (r i) a0; eexists; [reflexivity|split=> //=]; apply: reps_upd.
- by move=> i a a0; have [c -> rc] := div_ok (r i) a0; eexists; [reflexivity|split=> //=]; apply: reps_upd.
- by move=> i a _; eexists; [reflexivity|split=> //=]; apply: reps_upd => //; apply: scale_ok.
- by move=> i a a0; have [c -> rc] := inv_scale_ok (r i) a0; eexists; [reflexivity|split=> //=]; apply: reps_upd.
- by move=> i m U a [g h]; have [c -> rc] := rank_ok (r i) g h; eexists; [reflexivity|split=> //=]; apply: reps_upd.
- by move=> i k l x _; eexists; [reflexivity|split=> //=]; apply: reps_upd => //; apply: set_ok.
- move=> i k l _; eexists; [reflexivity|split=> //=].
    by apply: reps_upd_same => //; apply: rep_get_sa.
  by have [_ -> //] := rep_get_sa (r i); exact: get_sa_le0.
- move=> i _; eexists; [reflexivity|split=> //=].
    by apply: reps_upd_same => //; apply: rep_get_sa.
  by have [_ -> //] := rep_get_sa (r i); exact: get_sa_le0.
- move=> i g; eexists; [reflexivity|split=> //=].
    by apply: reps_upd_same => //; apply: rep_get_tri.
  by have [h _ _] := rep_get_tri g (r i); have [t q] := h (get_tri_ge0 _); eexists.
- by move=> i _; eexists; [reflexivity|split=> //=]; rewrite (det_ok (r i)).
Qed.

Lemma run_ok s v os : reps s v -> all_allowed v os ->
  exists2 sb, run L s os = Some sb & all_return v os sb.2.
Proof.
elim: os s v => [|o os IH] s v r /=; first by move=> _; eexists.
move=> [a h]; have [[s1 b] -> [r1 ok]] := step_ok r a.
by have [[s2 bs] -> ok2] := IH _ _ r1 h; eexists; [reflexivity|split].
Qed.

Lemma run_reps s v os : reps s v -> all_allowed v os ->
  exists sb, [/\ run L s os = Some sb, all_return v os sb.2 & reps sb.1 (foldl (@plain R n) v os)].
Proof.
elim: os s v => [|o os IH] s v r /=; first by move=> _; eexists; split; [reflexivity| |].
move=> [a h]; have [[s1 b] -> [r1 ok]] := step_ok r a.
by have [[s2 bs] [-> ok2 r2]] := IH _ _ r1 h; eexists; split; [reflexivity|split|].
Qed.

Lemma run_cat s os1 os2 : run L s (os1 ++ os2) =
  match run L s os1 with
  | None => None
  | Some (s1, b1) => match run L s1 os2 with None => None | Some (s2, b2) => Some (s2, b1 ++ b2) end
  end.
Proof.
elim: os1 s => [|o os1 IH] s /=; first by case: run => [[]|].
case: step => [[s1 b]|//]; rewrite IH; case: run => [[s2 b1]|//].
by case: run => [[]|].
Qed.

Lemma reps0 : reps (@store0 R n) (fun _ => 0).
Proof. by move=> k; split=> //=; rewrite ?trmx0 ?mulmx0 //; split=> //; exact: mx0_is_trig. Qed.

Lemma assign_ok c o P Q : rep c P -> rep o Q -> sd c = Syn \/ sd c = sd o -> rep (copy_assign c o) Q.
Proof.
by case: c => x y d; case: o => x' y' d' _ [h1 h2 h3] /= [|] e; subst d; case: d' h1 h2 => h1 h2; split.
Qed.

Lemma assign_after_read s v i j : reps s v -> good (v i) ->
  exists s' T, run L s [:: OTri R n i; OMatrix R n i; OAssign R n i j; OMatrix R n i; OMatrix R n j] =
    Some (s', [:: VFactor T; VMatrix (v i); VNone R n; VMatrix (v j); VMatrix (v j)]).
Proof.
move=> r g /=; set c := get_tri L (s i).
have rc : rep c (v i) by apply: rep_get_tri.
have dc : sd_ge0 (sd c) by exact: get_tri_ge0.
rewrite upd_same; set c' := get_sa c.
have rc' : rep c' (v i) by exact: rep_get_sa.
have syn : sd c' = Syn.
  by rewrite /c' /get_sa; case E : (sd c) => //=; move: dc; rewrite E.
have [_ h1 _] := rc'; rewrite h1 ?syn //.
set s1 := upd (upd s i c) i c'.
have r1 : reps s1 v by apply: reps_upd_same => //; apply: reps_upd_same.
set s2 := if i == j then s1 else _.
have e1 : s1 i = c' by rewrite /s1 upd_same.
have r2i : rep (s2 i) (v j).
  rewrite /s2; case: eqP => [<-|_]; first by rewrite e1.
  by rewrite upd_same; apply: (@assign_ok _ _ _ _ (r1 i)) => //; left; rewrite e1.
have r2j : rep (s2 j) (v j).
  rewrite /s2; case: eqP => // ij; rewrite upd_other //; by apply/eqP => /esym.
have [_ h2 _] := rep_get_sa r2i; rewrite h2 ?get_sa_le0 //.
have r3j : rep (upd s2 i (get_sa (s2 i)) j) (v j).
  by rewrite /upd; case: eqP => // _; exact: rep_get_sa.
have [_ h3 _] := rep_get_sa r3j; rewrite h3 ?get_sa_le0 //.
by eexists; eexists; reflexivity.
Qed.

(** Case 1. *)
Lemma rank1_ok k (P : 'M[R]_k) m (U : 'M[R]_(k, m)) a : do_rank1 P U a = P + a *: (U *m U^T).
Proof.
rewrite /do_rank1; case: eqP => // e; subst k.
apply/matrixP => i j; rewrite !ord1 /mxtrace !big_ord1 !mxE /=.
by congr (_ + _ * _); rewrite !mxE.
Qed.

Lemma step1_ok P (o : op1 R n) :
  (forall a, (o = A1Div n a \/ o = A1InvScale n a) -> a != 0) ->
  step1 P o = Some (plain1 P o).
Proof.
case: o => //=.
- by move=> a /(_ a (or_introl erefl)) /negbTE ->.
- by move=> a /(_ a (or_intror erefl)) /negbTE ->; rewrite expr2.
- by move=> m U a _; rewrite rank1_ok.
- by move=> i j r _; rewrite set_symE.
Qed.

End Proofs.
