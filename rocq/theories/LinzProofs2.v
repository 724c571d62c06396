(** * Proofs: the linearised transform. *)
From mathcomp Require Import all_ssreflect all_algebra.
From Verif Require Import RingTac MatBase LibModel GaussModel KalmanModel KalmanSpec KalmanProofs.
From Verif Require Import LinzModel LinzSpec LinzProofs LinzProb.
Set Implicit Arguments.
Unset Strict Implicit.
Unset Printing Implicit Defensive.
Import GRing.Theory Num.Theory Order.Theory.
Local Open Scope ring_scope.

Section Transform.
Variable R : rcfType.
Variable L : lib R.
Hypothesis LK : lib_ok L.

(** ** The first-order covariance. *)
Lemma zip_sqrt q m (js : seq 'M[R]_(m, q)) (ns : seq (gd R q)) : each (fun d => rootable (gcov d)) ns ->
  \sum_(c <- [seq mk_blk (p.1 *m sqrt_of L p.2) | p <- zip js (map (@gcov R q) ns)]) bsq c
  = \sum_(p <- zip js (map (@gcov R q) ns)) p.1 *m self_adj p.2 *m p.1^T.
Proof.
elim: ns js => [|d ns IH] [|j js] //=; rewrite ?big_nil // => -[h /IH e].
rewrite !big_cons e; congr (_ + _).
by rewrite /bsq /= trmx_mul mulmxA -(mulmxA j) (sqrt_of_sq LK h).
Qed.

Lemma zip_psd q m (js : seq 'M[R]_(m, q)) (ns : seq (gd R q)) : each (fun d => proper (gcov d)) ns ->
  psd (\sum_(p <- zip js (map (@gcov R q) ns)) p.1 *m self_adj p.2 *m p.1^T).
Proof.
elim: ns js => [|d ns IH] [|j js] /=; rewrite ?big_nil; try by move=> _; exact: psd0.
move=> [h /IH e]; rewrite big_cons; apply: psdD => //=; apply: psd_congr; exact: self_adj_psd.
Qed.

Lemma lz_cov_ok n q m (J0 : 'M[R]_(m, n)) (js : seq 'M[R]_(m, q)) (x : gd R n) (ns : seq (gd R q)) :
  proper (gcov x) -> noise_ok x ns ->
  let c := lz_cov L J0 js (gcov x) (map (@gcov R q) ns) in
  self_adj c = J0 *m self_adj (gcov x) *m J0^T + \sum_(p <- zip js (map (@gcov R q) ns)) p.1 *m self_adj p.2 *m p.1^T
  /\ proper c.
Proof.
case: x => xm xc px nx c; rewrite {}/c.
have pc := psdD (psd_congr J0 (self_adj_psd px)) (zip_psd js (noise_ok_proper nx)).
move: pc; move: nx; rewrite /noise_ok /=.
case: xc px => [P|T] /= px nx pc.
  rewrite foldl_sum big_map; under eq_bigr do rewrite mulmxA.
  by have e := psd_sym pc; rewrite sa_lowerE.
split=> //; last exact: (llq_trig LK).
rewrite (llq_sq LK) -[LHS]/(bsq (hcat _ _)) hcat_sq zip_sqrt //; congr (_ + _).
by rewrite /bsq /= trmx_mul !mulmxA.
Qed.

Lemma lz_crossE n m (J0 : 'M[R]_(m, n)) (c : cval R n) : lz_cross L J0 c = self_adj c *m J0^T.
Proof. by case: c => [P|T] //=; rewrite trmx_mul mulmxA. Qed.

(** ** The second-order terms. *)
Definition hess_gram d m (H : 'I_m -> 'M[R]_d) (P : 'M[R]_d) : 'M[R]_m :=
  \matrix_(i, j) (2%:R^-1 * \tr (P *m H i *m P *m H j)).

Lemma hess_gram_sym d m (H : 'I_m -> 'M[R]_d) P : (hess_gram H P)^T = hess_gram H P.
Proof.
apply/matrixP=> i j; rewrite !mxE; congr (_ * _).
by rewrite -(mulmxA (P *m H j)) mxtrace_mulC !mulmxA.
Qed.

Lemma trace_sq a b (A : 'M[R]_(a, b)) : 0 <= \tr (A *m A^T).
Proof.
apply: sumr_ge0 => i _; rewrite mxE; apply: sumr_ge0 => j _; rewrite mxE -expr2; exact: sqr_ge0.
Qed.

Lemma hess_gram_psd d m (H : 'I_m -> 'M[R]_d) P : psd P -> (forall k, (H k)^T = H k) -> psd (hess_gram H P).
Proof.
move=> pP hs; split; first exact: hess_gram_sym.
move=> v; pose G := \sum_i v i 0 *: H i.
have sG : G^T = G by rewrite /G raddf_sum; apply: eq_bigr => i _; rewrite /= trmxZ hs.
have [T eP] := (psdP P).1 pP.
have -> : qform (hess_gram H P) v = 2%:R^-1 * \tr (P *m G *m P *m G).
  have eB : P *m G = \sum_i v i 0 *: (P *m H i).
    by rewrite /G mulmx_sumr; apply: eq_bigr => i _; rewrite -scalemxAr.
  rewrite -(mulmxA (P *m G)) {}eB qform_bil bilE mulmx_suml raddf_sum mulr_sumr.
  apply: eq_bigr => i _ /=.
  rewrite mulmx_sumr raddf_sum mulr_sumr; apply: eq_bigr => j _ /=.
  rewrite mxE -scalemxAl -scalemxAr scalerA linearZ /= mulmxA; cring.
apply: mulr_ge0; first by rewrite invr_ge0 ler0n.
have -> : \tr (P *m G *m P *m G) = \tr ((T^T *m G *m T) *m (T^T *m G *m T)^T).
  rewrite !trmx_mul trmxK sG {1 2}eP -!mulmxA mxtrace_mulC !mulmxA //.
exact: trace_sq.
Qed.

Lemma second_order_ok d m (H : 'I_m -> 'M[R]_d) (c : cval R d) : proper c -> (forall k, (H k)^T = H k) ->
  let t := second_order_term H c in
  [/\ gmean t = \col_k (2%:R^-1 * \tr (self_adj c *m H k)), self_adj (gcov t) = hess_gram H (self_adj c) & proper (gcov t)].
Proof.
move=> pc hs; have e : sa_lower (hess_gram H (self_adj c)) = hess_gram H (self_adj c).
  by apply: sa_lowerE; exact: hess_gram_sym.
rewrite /second_order_term -/(hess_gram H (self_adj c)) e; split=> //=.
by apply: hess_gram_psd => //; exact: self_adj_psd.
Qed.

Definition hess_mean d m (H : 'I_m -> 'M[R]_d) (P : 'M[R]_d) : 'cV[R]_m := \col_k (2%:R^-1 * \tr (P *m H k)).

Lemma g_add_mom m (a b : gd R m) : proper (gcov a) -> proper (gcov b) ->
  [/\ gmean (g_add L a b) = gmean a + gmean b, self_adj (gcov (g_add L a b)) = self_adj (gcov a) + self_adj (gcov b) &
      proper (gcov (g_add L a b))].
Proof. by move=> pa pb; split=> //; [exact: c_add_val|exact: c_add_proper]. Qed.

Lemma noise_correction_ok q m (hs : seq ('I_m -> 'M[R]_q)) (ns : seq (gd R q)) :
  each (fun d => proper (gcov d)) ns -> each (fun H => forall k, (H k)^T = H k) hs ->
  match noise_correction L hs ns with
  | Some r => [/\ gmean r = \sum_(p <- zip hs ns) hess_mean p.1 (self_adj (gcov p.2)),
       self_adj (gcov r) = \sum_(p <- zip hs ns) hess_gram p.1 (self_adj (gcov p.2)) & proper (gcov r)]
  | None => zip hs ns = [::]
  end.
Proof.
elim: ns hs => [|w ns IH] [|H hs] //= [pw pn] [sH sh].
have [e1 e2 e3] := second_order_ok pw sH.
have := IH hs pn sh; case: noise_correction => [r [f1 f2 f3]|->].
  have [g1 g2 g3] := g_add_mom e3 f3.
  by split; rewrite // big_cons ?g1 ?g2 ?e1 ?e2 ?f1 ?f2.
by split; rewrite ?big_seq1.
Qed.

Lemma correction_ok n q m (H0 : 'I_m -> 'M[R]_n) (hs : seq ('I_m -> 'M[R]_q)) (x : gd R n) (ns : seq (gd R q)) :
  proper (gcov x) -> each (fun d => proper (gcov d)) ns -> (forall k, (H0 k)^T = H0 k) ->
  each (fun H => forall k, (H k)^T = H k) hs ->
  let r := correction L H0 hs x ns in
  [/\ gmean r = hess_mean H0 (self_adj (gcov x)) + \sum_(p <- zip hs ns) hess_mean p.1 (self_adj (gcov p.2)),
      self_adj (gcov r) = hess_gram H0 (self_adj (gcov x)) + \sum_(p <- zip hs ns) hess_gram p.1 (self_adj (gcov p.2)) &
      proper (gcov r)].
Proof.
move=> px pn s0 sh; rewrite /correction.
have [e1 e2 e3] := second_order_ok px s0.
have := noise_correction_ok pn sh; case: noise_correction => [r [f1 f2 f3]|->].
  have [g1 g2 g3] := g_add_mom e3 f3.
  by split; rewrite // ?g1 ?g2 ?e1 ?e2 ?f1 ?f2.
by split; rewrite ?big_nil ?addr0.
Qed.

(** ** The whole transform, order two. *)
Lemma lz_transform_ok n q m (g : linearized R n q m) (x : gd R n) (ns : seq (gd R q)) J0 js H0 hs :
  zjac g (gmean x) (map (@gmean R q) ns) = Some (J0, js) ->
  zhess g (gmean x) (map (@gmean R q) ns) = Some (H0, hs) ->
  proper (gcov x) -> noise_ok x ns -> (forall k, (H0 k)^T = H0 k) -> each (fun H => forall k, (H k)^T = H k) hs ->
  exists y, [/\ lz_transform L 2 g x ns = Some (y, self_adj (gcov x) *m J0^T),
    gmean y = zval g (gmean x) (map (@gmean R q) ns) +
      (hess_mean H0 (self_adj (gcov x)) + \sum_(p <- zip hs ns) hess_mean p.1 (self_adj (gcov p.2))),
    self_adj (gcov y) = J0 *m self_adj (gcov x) *m J0^T
      + \sum_(p <- zip js (map (@gcov R q) ns)) p.1 *m self_adj p.2 *m p.1^T
      + (hess_gram H0 (self_adj (gcov x)) + \sum_(p <- zip hs ns) hess_gram p.1 (self_adj (gcov p.2))) &
    proper (gcov y)].
Proof.
move=> ej eh px nx s0 sh; rewrite /lz_transform ej eh /= lz_crossE.
have [a1 a2] := lz_cov_ok J0 js px nx.
have [b1 b2 b3] := correction_ok px (noise_ok_proper nx) s0 sh.
set out := GD _ _; have [g1 g2 g3] := @g_add_mom m out _ a2 b3.
by eexists; split; first reflexivity; rewrite ?g1 ?g2 ?b1 ?b2 ?a1.
Qed.

(** Order one. *)
Lemma lz_transform1_ok n q m (g : linearized R n q m) (x : gd R n) (ns : seq (gd R q)) J0 js :
  zjac g (gmean x) (map (@gmean R q) ns) = Some (J0, js) ->
  proper (gcov x) -> noise_ok x ns ->
  exists y, [/\ lz_transform L 1 g x ns = Some (y, self_adj (gcov x) *m J0^T),
    gmean y = zval g (gmean x) (map (@gmean R q) ns),
    self_adj (gcov y) = J0 *m self_adj (gcov x) *m J0^T
      + \sum_(p <- zip js (map (@gcov R q) ns)) p.1 *m self_adj p.2 *m p.1^T &
    proper (gcov y)].
Proof.
move=> ej px nx; rewrite /lz_transform ej /= lz_crossE.
have [a1 a2] := lz_cov_ok J0 js px nx.
by eexists; split; first reflexivity.
Qed.

(** ** Finite differences of a function of several arguments. *)
Section Joint.
Variables (n q m : nat) (g : 'cV[R]_n -> seq 'cV[R]_q -> 'cV[R]_m) (x : 'cV[R]_n) (ws : seq 'cV[R]_q).
Variables (J0 : 'M[R]_(m, n)) (J : nat -> 'M[R]_(m, q)) (H0 : 'I_m -> 'M[R]_n) (H : nat -> 'I_m -> 'M[R]_q)
  (C : 'I_m -> nat -> 'M[R]_(n, q)) (D : 'I_m -> nat -> nat -> 'M[R]_q).
Hypothesis hj : quadratic_jointly g x ws J0 J H0 H C D.

Lemma shifted0 : shifted ws (fun _ => 0) = ws.
Proof.
apply: (@eq_from_nth _ 0); rewrite size_mkseq // => k hk; by rewrite nth_mkseq // addr0.
Qed.

Lemma add_col0 (a : 'cV[R]_m) (F : 'I_m -> R) : (forall c, F c = 0) -> a + \col_c F c = a.
Proof. by move=> h; apply/colP=> c; rewrite !mxE h addr0. Qed.

Lemma joint_x : quadratic_at (fun v => g v ws) x J0 H0.
Proof.
case: hj => s0 s1 h; split=> // v; have := h v (fun _ => 0); rewrite shifted0 => ->.
rewrite !big1 ?addr0.
- apply: add_col0 => c; rewrite !big1 ?addr0 // => k _; last by rewrite bil0r.
  by rewrite big1 // => l _; rewrite bil0l.
- by move=> k _; apply/colP=> c; rewrite !mxE qform0.
- by move=> k _; rewrite mulmx0.
Qed.

Lemma joint_w k : (k < size ws)%N -> quadratic_at (fun w => g x (set_nth 0 ws k w)) (nth 0 ws k) (J k) (H k).
Proof.
case: hj => s0 s1 h kw; split=> // v.
have sk w : set_nth 0 ws k (nth 0 ws k + w) = shifted ws (fun l => if l == k then w else 0).
  apply: (@eq_from_nth _ 0); first by rewrite size_set_nth size_mkseq; apply/maxn_idPr.
  move=> l; rewrite size_set_nth (maxn_idPr kw) => hl.
  by rewrite nth_set_nth nth_mkseq //=; case: eqP => [->|]; rewrite ?addr0.
have e0 : set_nth 0 ws k (nth 0 ws k) = ws.
  rewrite -[nth 0 ws k]addr0 sk -[in RHS]shifted0; apply: eq_mkseq => l.
  by case: ifP.
rewrite e0 sk -{1}[x]addr0 h mulmx0 add0r.
have e1 (V : zmodType) (F : nat -> 'cV[R]_q -> V) : (forall l, F l 0 = 0) ->
    \sum_(l < size ws) F l (if l == k :> nat then v else 0) = F k v.
  move=> F0; rewrite (bigD1 (Ordinal kw)) //= eqxx big1 ?addr0 // => l hl.
  by have -> : (l == k :> nat) = false by apply/negbTE; apply: contra hl => /eqP hh; apply/eqP; apply: val_inj.
rewrite (e1 _ (fun l u => J l *m u)); last by move=> l; rewrite mulmx0.
rewrite (e1 _ (fun l u => qforms (H l) u)); last by move=> l; apply/colP=> c; rewrite !mxE qform0.
have -> : qforms H0 0 = 0 by apply/colP=> c; rewrite !mxE qform0.
rewrite add0r; apply: add_col0 => c; rewrite !big1 ?addr0 // => l _; last by rewrite bil0l.
rewrite big1 // => l' nl; case: (l =P k :> nat) => [e|_]; last by rewrite bil0l.
case: (l' =P k :> nat) => [e'|_]; last by rewrite bil0r.
by case/negP: nl; apply/eqP; apply: val_inj; rewrite /= e e'.
Qed.

Variables (hx : 'cV[R]_n) (hws : seq 'cV[R]_q).
Hypothesis hx_ok : deltas_ok hx.
Hypothesis hw_ok : forall k, (k < size ws)%N -> deltas_ok (nth 0 hws k).

Lemma mem_columns d (i : 'I_d) : i \in columns d. Proof. exact: mem_enum. Qed.
Lemma mem_entries d (ij : 'I_d * 'I_d) : ij \in entries d.
Proof.
case: ij => i j; apply/allpairsP; exists (i, j); split=> //=; exact: mem_enum.
Qed.

Lemma jac_term_exact d (f : 'cV[R]_d -> 'cV[R]_m) (h : 'cV[R]_d) order y K E : deltas_ok h ->
  (forall i, i \in order) -> even_fun E -> (forall v, f (y + v) = f y + K *m v + E v) ->
  jac_term f h order y = Some (K, y).
Proof.
move=> ok all ev hf; rewrite /jac_term ok.
have [e1 e2] := visit_pure 0 order (fun i => congr1 snd (jac_columnE f h y i)).
rewrite e1; congr (Some (_, _)); apply/matrixP=> k i.
by rewrite mxE e2 all (jac_exact_col ok i ev hf) -colE mxE.
Qed.

Lemma hess_term_exact d (f : 'cV[R]_d -> 'cV[R]_m) (h : 'cV[R]_d) order y O K : deltas_ok h ->
  (forall i, i \in order) -> odd_fun O -> (forall c, (K c)^T = K c) ->
  (forall v, f (y + v) = f y + O v + 2%:R^-1 *: qforms K v) ->
  exists K', hess_term f h order y = Some (K', y) /\ K' =1 K.
Proof.
move=> ok all od hs hf; rewrite /hess_term ok.
have pure : forall ij, (hess_entry f h y ij).2 = y by case=> i j; rewrite hess_entryE.
have [e1 e2] := visit_pure 0 order pure.
rewrite e1; eexists; split; first reflexivity.
by move=> c; apply/matrixP=> i j; rewrite mxE e2 all hess_entryE /= (fdd_exact ok i j c od hs hf).
Qed.

Lemma qforms_even d (K : 'I_m -> 'M[R]_d) : even_fun (fun v => 2%:R^-1 *: qforms K v).
Proof. by move=> v; congr (_ *: _); apply/colP=> c; rewrite !mxE !qform_bil bilNl bilNr opprK. Qed.

Lemma quad_jac d (f : 'cV[R]_d -> 'cV[R]_m) h order y K Hs : deltas_ok h -> (forall i, i \in order) ->
  quadratic_at f y K Hs -> jac_term f h order y = Some (K, y).
Proof. by move=> ok all [_ hq]; apply: (jac_term_exact ok all (qforms_even Hs)). Qed.

Lemma quad_hess d (f : 'cV[R]_d -> 'cV[R]_m) h order y K Hs : deltas_ok h -> (forall i, i \in order) ->
  quadratic_at f y K Hs -> exists H', hess_term f h order y = Some (H', y) /\ H' =1 Hs.
Proof.
move=> ok all [hs hq]; apply: (hess_term_exact (O := fun v => K *m v) ok all _ hs hq).
by move=> v; rewrite mulmxN.
Qed.

Lemma all_some_map T (s : seq nat) (F : nat -> option T) (G : nat -> T) :
  (forall k, k \in s -> F k = Some (G k)) -> all_some (map F s) = Some (map G s).
Proof.
elim: s => [|k s IH] //= h; rewrite h ?mem_head // IH // => l hl; apply: h.
by rewrite in_cons hl orbT.
Qed.

Lemma fd_jac : zjac (fd_linearization g hx hws) x ws = Some (J0, mkseq J (size ws)).
Proof.
rewrite /= (quad_jac hx_ok (@mem_columns n) joint_x).
rewrite (@all_some_map _ _ _ (fun k => (J k, nth 0 ws k))); last first.
  move=> k; rewrite mem_iota add0n => /andP [_ hk].
  by rewrite (quad_jac (hw_ok hk) (@mem_columns q) (joint_w hk)).
by rewrite -map_comp.
Qed.

Lemma all_some_ex T (s : seq nat) (F : nat -> option T) (Q : nat -> T -> Prop) :
  (forall k, k \in s -> exists a, F k = Some a /\ Q k a) ->
  exists l, [/\ all_some (map F s) = Some l, size l = size s & forall a0 i, (i < size s)%N -> Q (nth 0%N s i) (nth a0 l i)].
Proof.
elim: s => [|k s IH] h; first by exists [::].
have [a [ea qa]] := h k (mem_head _ _).
have [l [el sl ql]] := IH (fun l hl => h l (mem_behead (hl : l \in behead (k :: s)))).
exists (a :: l); split; first by rewrite /= ea el.
  by rewrite /= sl.
by move=> a0 [|i] //= hi; apply: ql.
Qed.

Lemma fd_hess : exists H0' hs', [/\ zhess (fd_linearization g hx hws) x ws = Some (H0', hs'),
  H0' =1 H0, size hs' = size ws & forall k, (k < size ws)%N -> nth (fun _ => 0) hs' k =1 H k].
Proof.
have [K0 [e0 k0]] := quad_hess hx_ok (@mem_entries n) joint_x.
have [k | l [el sl ql]] := @all_some_ex _ (iota 0 (size ws))
  (fun k => hess_term (fun w => g x (set_nth 0 ws k w)) (nth 0 hws k) (entries q) (nth 0 ws k))
  (fun k r => r.1 =1 H k).
  rewrite mem_iota add0n => /andP [_ hk].
  have [K [e1 e2]] := quad_hess (hw_ok hk) (@mem_entries q) (joint_w hk).
  by exists (K, nth 0 ws k).
exists K0, (map fst l); split=> //.
- by rewrite /= e0 el.
- by rewrite size_map sl size_iota.
- move=> k hk; rewrite size_iota in ql sl.
  have := ql (fun _ => 0, 0) k hk; rewrite nth_iota // add0n (nth_map (fun _ => 0, 0)) ?sl //.
Qed.
End Joint.
End Transform.
