(** * Proofs: owner and view. *)
From mathcomp Require Import all_ssreflect all_algebra.
From Verif Require Import MatBase LibModel CovModel CovSpec CovProofs ViewModel ViewSpec.
Set Implicit Arguments.
Unset Strict Implicit.
Unset Printing Implicit Defensive.
Import GRing.Theory Num.Theory Order.Theory.
Local Open Scope ring_scope.

Section Proofs.
Variable R : rcfType.
Variable L : lib R.
Hypothesis LK : lib_ok L.
Variable n : nat.
Implicit Types (P T : 'M[R]_n) (c : cov R n) (s : store R n) (v : vals R n) (f : facts R n).

Definition knows c (t : option 'M[R]_n) : Prop :=
  match t with Some T => sd_ge0 (sd c) /\ nested c = T | None => True end.

Definition knowss s f : Prop := forall k, knows (s k) (f k).

Lemma knows_tri c t : knows c t -> knows (get_tri L c) t.
Proof. by case: t => //= T [d e]; rewrite get_tri_id. Qed.

Lemma knows_sa c t : knows c t -> knows (get_sa c) t.
Proof. by case: t => //= T; case: c => a b [] //= []. Qed.

Lemma knowss_upd s f i c t : knowss s f -> knows c t -> knowss (upd s i c) (fset f i t).
Proof. by move=> h hc k; rewrite /upd /fset; case: eqP. Qed.

Lemma knowss_same s f i c : knowss s f -> knows c (f i) -> knowss (upd s i c) f.
Proof. by move=> h hc k; rewrite /upd; case: eqP => [->|]. Qed.

Lemma knowss_none s f i : knowss s f -> knowss s (fset f i None).
Proof. by move=> h k; rewrite /fset; case: eqP. Qed.

Lemma knowss_updN s f i c : knowss s f -> knowss (upd s i c) (fset f i None).
Proof. by move=> h; apply: knowss_upd. Qed.

Lemma knows_add s f i j : knowss s f -> knowss (do_add L s i j) (fset f i None).
Proof.
move=> h; rewrite /do_add.
set s1 := if sd_ge0 (sd (s i)) then _ else s.
have h1 : knowss s1 (fset f i None).
  rewrite /s1; case: ifP => _; last exact: knowss_none.
  by apply: knowss_updN; apply: knowss_same => //; apply: knows_tri.
case: ifP => _ //.
have h2 : knowss (upd s1 j (get_sa (s1 j))) (fset f i None).
  by apply: knowss_same => //; apply: knows_sa.
move=> k; rewrite /upd /fset; case: eqP => // ki.
by have := h2 k; rewrite /upd /fset (introF eqP ki).
Qed.

Lemma knows_sub s f i j s' : knowss s f -> do_sub L s i j = Some s' -> knowss s' (fset f i None).
Proof.
move=> h; rewrite /do_sub.
set s1 := if sd_ge0 (sd (s i)) then _ else Some s.
case E : s1 => [t|//] [<-].
have h1 : knowss t (fset f i None).
  move: E; rewrite /s1; case: ifP => _; last by case=> <-; exact: knowss_none.
  case: lrank => // T [<-].
  by apply: knowss_updN; apply: knowss_same => //; apply: knows_tri.
case: ifP => _ //.
have h2 : knowss (upd t j (get_sa (t j))) (fset f i None).
  by apply: knowss_same => //; apply: knows_sa.
move=> k; rewrite /upd /fset; case: eqP => // ki.
by have := h2 k; rewrite /upd /fset (introF eqP ki).
Qed.

(** Owner operations other than reading the factor. *)
Lemma knows_step s f o sb : (forall i, o <> OTri R n i) -> (forall i j, o <> OAssign R n i j) ->
  knowss s f -> step L s o = Some sb ->
  knowss sb.1 (match touches o with Some i => fset f i None | None => f end).
Proof.
move=> nt na h; case: o nt na => /=.
- by move=> i P _ _ [<-]; exact: knowss_updN.
- by move=> i T _ _ [<-]; exact: knowss_updN.
- by move=> i j _ _ [<-]; exact: knowss_updN.
- by move=> i j _ /(_ i j).
- by move=> i j _ _ [<-]; exact: knows_add.
- by move=> i j _ _; case E : do_sub => [s'|//] [<-]; apply: knows_sub E.
- by move=> i a _ _; case: do_mul => //= c [<-]; exact: knowss_updN.
- by move=> i a _ _; case: do_div => //= c [<-]; exact: knowss_updN.
- by move=> i a _ _ [<-]; exact: knowss_updN.
- by move=> i a _ _; case: do_inv_scale => //= c [<-]; exact: knowss_updN.
- by move=> i m U a _ _; case: do_rank => //= c [<-]; exact: knowss_updN.
- by move=> i k l r _ _ [<-]; exact: knowss_updN.
- by move=> i k l _ _ [<-]; apply: knowss_same => //; apply: knows_sa.
- by move=> i _ _ [<-]; apply: knowss_same => //; apply: knows_sa.
- by move=> i /(_ i).
- by move=> i _ _ [<-].
Qed.

Lemma elt_trig T (k l : 'I_n) r : is_trig_mx T -> (l <= k)%N -> is_trig_mx (elt T k l r).
Proof.
move=> /is_trig_mxP t lk; apply/is_trig_mxP => p q pq; rewrite mxE.
case: ifP => [/andP [/eqP e1 /eqP e2]|_]; last exact: t.
by move: pq; rewrite e1 e2 ltnNge lk.
Qed.

Lemma trigD' (A B : 'M[R]_n) : is_trig_mx A -> is_trig_mx B -> is_trig_mx (A + B).
Proof.
by move=> /is_trig_mxP a /is_trig_mxP b; apply/is_trig_mxP => i j ij; rewrite mxE a // b // addr0.
Qed.

Lemma rep_fwd T (Q : 'M[R]_n) : is_trig_mx T -> rep (Cov T Q Fwd) (T *m T^T).
Proof. by move=> t; split=> //=; rewrite trmx_mul trmxK. Qed.

Lemma vstep_ok s v f o : reps s v -> knowss s f -> vallowed v f o ->
  exists sb v' f', [/\ (match o with inl o1 => step L s o1 | inr o2 => vstep L s o2 end) = Some sb,
                       vspec v f o sb.2 v' f', reps sb.1 v' & knowss sb.1 f'].
Proof.
move=> r kn; case: o => [o|o] /= al.
  have [sb e [r' ok]] := step_ok LK r al.
  have [[i ei]|nt] : (exists i, o = OTri R n i) \/ forall i, o <> OTri R n i.
    by case: o {al e ok r'} => *; try (by right); left; eexists.
  - subst o; rewrite /= in e al ok r'; case: e => e; subst sb.
    have [T [eb tT qT]] := ok; exists (upd s i (get_tri L (s i)), VFactor (nested (get_tri L (s i)))).
    exists v, (fset f i (Some T)); split=> //=; first by exists T.
    apply: knowss_upd => //=; split; first exact: get_tri_ge0.
    by case: eb.
  - have na : forall i j, o <> OAssign R n i j by move=> i j eo; rewrite eo in al.
    exists sb, (plain v o), (match touches o with Some i => fset f i None | None => f end); split=> //.
      by case: o nt {na e al r'} ok => // i /(_ i).
    exact: knows_step e.
have F i : f i <> None -> exists T, [/\ f i = Some T, sd_ge0 (sd (s i)), nested (s i) = T,
    is_trig_mx T & T *m T^T = v i].
  case E : (f i) => [T|//] _; exists T; have := kn i; rewrite E => -[d e].
  by have [h _ _] := r i; have [t q] := h d; rewrite -e.
case: o al => /=.
- move=> i Q [/F [T [eT d nT tT qT]] tQ]; eexists; exists (vset v i ((T + Q) *m (T + Q)^T)), (fset f i (Some (T + Q))).
  split; [reflexivity|by exists T| |] => /=.
    by apply: reps_upd => //; rewrite /view_update nT; apply: rep_fwd; exact: trigD'.
  by apply: knowss_upd => //=; rewrite nT.
- move=> i a /F [T [eT d nT tT qT]]; eexists; exists (vset v i ((a *: T) *m (a *: T)^T)), (fset f i (Some (a *: T))).
  split; [reflexivity|by exists T| |] => /=.
    by apply: reps_upd => //; rewrite /view_update nT; apply: rep_fwd; exact: is_trigZ.
  by apply: knowss_upd => //=; rewrite nT.
- move=> i m U a [g h]; have [c e rc] := rank_ok LK (r i) g h.
  rewrite /view_rank -/(do_rank L (s i) U a) e /=; eexists; exists (vset v i (v i + a *: (U *m U^T))), (fset f i None).
  by split; [reflexivity| |apply: reps_upd|apply: knowss_updN].
- move=> i k l x [/F [T [eT d nT tT qT]] lk].
  have e0 : sd_lt0 (sd (s i)) = false by case: (sd (s i)) d.
  eexists; exists (vset v i (elt T k l x *m (elt T k l x)^T)), (fset f i (Some (elt T k l x))).
  split; [reflexivity|by exists T| |] => /=; rewrite /view_elt e0.
    by apply: reps_upd => //; rewrite nT; apply: rep_fwd; exact: elt_trig.
  by apply: knowss_upd => //=; rewrite nT.
- move=> i k l x [/F [T [eT d nT tT qT]] lk].
  eexists; exists (vset v i (elt T k l x *m (elt T k l x)^T)), (fset f i (Some (elt T k l x))).
  split; [reflexivity|by exists T| |] => /=; rewrite /view_set.
    by apply: reps_upd => //; rewrite nT; apply: rep_fwd; exact: elt_trig.
  by apply: knowss_upd => //=; rewrite nT.
- move=> i g; have [h _ _] := rep_get_tri LK g (r i); have [t q] := h (get_tri_ge0 L (s i)).
  eexists; exists v, (fset f i (Some (nested (get_tri L (s i))))).
  split; [reflexivity|by eexists| |] => /=.
    by apply: reps_upd_same => //; apply: rep_get_tri.
  by apply: knowss_upd => //=; split=> //; exact: get_tri_ge0.
- move=> i k l /F [T [eT d nT tT qT]]; eexists; exists v, f.
  by split; [reflexivity|exists T; rewrite nT| |].
Qed.

Lemma vrun_ok s v f os : reps s v -> knowss s f -> vall v f os ->
  exists2 sb, vrun L s os = Some sb & vpath v f os sb.2.
Proof.
elim: os s v f => [|o os IH] s v f r kn /=; first by move=> _; eexists.
move=> [al h]; have [[s1 b] [v' [f' [-> sp r' kn']]]] := vstep_ok r kn al.
have [[s2 bs] -> ok] := IH _ _ _ r' kn' (h _ _ _ sp).
by eexists; [reflexivity|exists v', f'].
Qed.

End Proofs.
