(** * Finite differences and the linearised transform (C48, C49). *)
From mathcomp Require Import all_ssreflect all_algebra.
From Verif Require Import RingTac MatBase LibModel GaussModel KalmanModel KalmanSpec KalmanProofs.
From Verif Require Import LinzModel LinzSpec LinzProofs LinzProb LinzProofs2 LinzProofs3.
Set Implicit Arguments.
Unset Strict Implicit.
Unset Printing Implicit Defensive.
Import GRing.Theory Num.Theory Order.Theory.
Local Open Scope ring_scope.

Section FiniteDifferences.
Variables (R : rcfType) (d m : nat) (f : 'cV[R]_d -> 'cV[R]_m) (h : 'cV[R]_d).

(** C49.  With no zero delta, the Jacobian of a polynomial of degree at most two is exact, in whatever order the columns
    are evaluated, and the argument is restored. *)
Theorem finite_difference_jacobian_exact (order : seq 'I_d) (x : 'cV[R]_d) (J : 'M[R]_(m, d)) (H : 'I_m -> 'M[R]_d) :
  (forall i, h i 0 != 0) -> (forall i, i \in order) -> quadratic_at f x J H -> jac_term f h order x = Some (J, x).
Proof. by move=> /forallP ok all hq; exact: (quad_jac ok all hq). Qed.

(** More generally, for every function whose remainder after the linear part is even about the point. *)
Theorem finite_difference_jacobian_even (order : seq 'I_d) (x : 'cV[R]_d) (J : 'M[R]_(m, d)) (E : 'cV[R]_d -> 'cV[R]_m) :
  (forall i, h i 0 != 0) -> (forall i, i \in order) -> even_fun E -> (forall v, f (x + v) = f x + J *m v + E v) ->
  jac_term f h order x = Some (J, x).
Proof. by move=> /forallP ok all; exact: (jac_term_exact ok all). Qed.

(** The Hessians are exact, too: for quadratics, and for every function that differs from one by terms odd about the
    point (cubics, for example). *)
Theorem finite_difference_hessian_exact (order : seq ('I_d * 'I_d)) (x : 'cV[R]_d) (O : 'cV[R]_d -> 'cV[R]_m)
    (H : 'I_m -> 'M[R]_d) :
  (forall i, h i 0 != 0) -> (forall ij, ij \in order) -> odd_fun O -> (forall k, (H k)^T = H k) ->
  (forall v, f (x + v) = f x + O v + 2%:R^-1 *: qforms H v) ->
  exists H', hess_term f h order x = Some (H', x) /\ forall k, H' k = H k.
Proof. by move=> /forallP ok all od hs hf; exact: (hess_term_exact ok all od hs hf). Qed.

(** The approximate Hessians of any function are symmetric, and any function's argument is restored. *)
Theorem finite_difference_hessian_symmetric (order : seq ('I_d * 'I_d)) (x : 'cV[R]_d) :
  (forall i, h i 0 != 0) -> (forall ij, ij \in order) ->
  exists H', hess_term f h order x = Some (H', x) /\ forall k, (H' k)^T = H' k.
Proof.
move=> /forallP ok all; rewrite /hess_term [deltas_ok _]ok.
have pure : forall ij, (hess_entry f h x ij).2 = x by case=> i j; rewrite hess_entryE.
have [e1 e2] := visit_pure 0 order pure.
rewrite e1; eexists; split; first reflexivity.
move=> k; apply/matrixP=> i j; rewrite !mxE !e2 !all !hess_entryE /= /fdd eq_sym.
case: (i =P j) => [->//|_]; rewrite !mxE; congr (_ * _); first by congr (_^-1); cring.
rewrite [h j 0 *: _ + _]addrC [- (h j 0 *: _) + h i 0 *: _]addrC [- (h j 0 *: _) - _]addrC.
rewrite [h j 0 *: _ - _]addrC; abel.
Qed.

Theorem finite_difference_argument_restored (order : seq 'I_d) (x : 'cV[R]_d) :
  (forall i, h i 0 != 0) -> exists J, jac_term f h order x = Some (J, x).
Proof.
move=> /forallP ok; rewrite /jac_term [deltas_ok _]ok.
have [e1 e2] := visit_pure 0 order (fun i => congr1 snd (jac_columnE f h x i)).
by rewrite e1; eexists.
Qed.

(** The order of evaluation, which C++ leaves open for the columns, does not matter for any function. *)
Theorem finite_difference_order_independent (order order' : seq 'I_d) (x : 'cV[R]_d) :
  (forall i, i \in order) -> (forall i, i \in order') -> jac_term f h order x = jac_term f h order' x.
Proof.
move=> a a'; rewrite /jac_term; case: ifP => // _; congr Some.
have [e1 e2] := visit_pure 0 order (fun i => congr1 snd (jac_columnE f h x i)).
have [f1 f2] := visit_pure 0 order' (fun i => congr1 snd (jac_columnE f h x i)).
rewrite e1 f1; congr (_, _); apply/matrixP=> k i; by rewrite !mxE e2 f2 a a'.
Qed.

(** A zero delta makes the results undefined. *)
Theorem finite_difference_zero_delta (order : seq 'I_d) order' (x : 'cV[R]_d) i : h i 0 = 0 ->
  jac_term f h order x = None /\ hess_term f h order' x = None.
Proof.
move=> h0; have hn : deltas_ok h = false by apply/forallP => /(_ i); rewrite h0 eqxx.
by rewrite /jac_term /hess_term hn.
Qed.
End FiniteDifferences.
Print Assumptions finite_difference_jacobian_exact.
Print Assumptions finite_difference_jacobian_even.
Print Assumptions finite_difference_hessian_exact.
Print Assumptions finite_difference_hessian_symmetric.
Print Assumptions finite_difference_argument_restored.
Print Assumptions finite_difference_order_independent.
Print Assumptions finite_difference_zero_delta.

(** A quadratic in two variables, with deltas of different size, at a point other than zero; one order of its columns. *)
Example finite_difference_nonvacuous (R : rcfType) :
  let A (k : 'I_1) : 'M[R]_2 := const_mx 1 in
  let f (x : 'cV[R]_2) : 'cV[R]_1 := 2%:R^-1 *: qforms A x in
  let x : 'cV[R]_2 := const_mx 3%:R in
  [/\ forall i, (\col_(j < 2) (j.+1)%:R : 'cV[R]_2) i 0 != 0,
      forall i : 'I_2, i \in [:: 1; 0],
      quadratic_at f x (const_mx 6%:R) A & f x 0 0 = 18%:R].
Proof.
move=> A f x.
have two : 2%:R^-1 * (2%:R : R) = 1 by rewrite mulVf // two_neq0.
have qA (v : 'cV[R]_2) : qform (A ord0) v = (v 0 0 + v 1 0) * (v 0 0 + v 1 0).
  rewrite qform_bil bilE !big_ord_recl !big_ord0 !mxE.
  have -> : lift ord0 (ord0 : 'I_1) = 1 by apply: val_inj.
  by cring.
split.
- by move=> i; rewrite mxE pnatr_eq0.
- by move=> i; rewrite !inE; case: i => [[|[|]]].
- split=> [k|v]; first by apply/matrixP=> i j; rewrite !mxE.
  apply/colP=> c; rewrite (ord1 c) /f !mxE !qA !mxE !big_ord_recl big_ord0 !mxE.
  have -> : lift ord0 (ord0 : 'I_1) = 1 by apply: val_inj.
  have -> : (6%:R : R) = 2%:R^-1 * 12%:R by rewrite (_ : (12%:R : R) = 2%:R * 6%:R) ?mulrA ?two ?mul1r // -natrM.
  by cring.
- rewrite /f !mxE qA !mxE (_ : (_ + _) * _ = 2%:R * 18%:R); last by rewrite -!natrD -!natrM.
  by rewrite mulrA two mul1r.
Qed.

Section Transform.
Variables (R : rcfType) (L : lib R).
Hypothesis LK : lib_ok L.

(** C48.  The second-order transform of any function with Jacobians J0, js and symmetric Hessians H0, hs. *)
Theorem linearized_second_order n q m (g : linearized R n q m) (x : gd R n) (ns : seq (gd R q)) J0 js H0 hs :
  let P := self_adj (gcov x) in
  let Q (w : gd R q) := self_adj (gcov w) in
  zjac g (gmean x) (map (@gmean R q) ns) = Some (J0, js) ->
  zhess g (gmean x) (map (@gmean R q) ns) = Some (H0, hs) ->
  proper (gcov x) -> each (fun w => if is_chol (gcov x) then rootable (gcov w) else proper (gcov w)) ns ->
  (forall k, (H0 k)^T = H0 k) -> each (fun H => forall k, (H k)^T = H k) hs ->
  exists y, [/\ lz_transform L 2 g x ns = Some (y, P *m J0^T),
    gmean y = zval g (gmean x) (map (@gmean R q) ns) +
      (\col_k (2%:R^-1 * \tr (P *m H0 k)) + \sum_(t <- zip hs ns) \col_k (2%:R^-1 * \tr (Q t.2 *m t.1 k))),
    self_adj (gcov y) =
      J0 *m P *m J0^T + \sum_(t <- zip js ns) t.1 *m Q t.2 *m t.1^T
      + (\matrix_(i, j) (2%:R^-1 * \tr (P *m H0 i *m P *m H0 j))
         + \sum_(t <- zip hs ns) \matrix_(i, j) (2%:R^-1 * \tr (Q t.2 *m t.1 i *m Q t.2 *m t.1 j))) &
    psd (self_adj (gcov y))].
Proof.
move=> P Q ej eh px nx s0 sh; have [y [e1 e2 e3 e4]] := lz_transform_ok LK ej eh px nx s0 sh.
exists y; split=> //; last exact: self_adj_psd.
rewrite e3; congr (_ + _ + _).
elim: (ns) (js) => [|w ns' IH] [|j js'] //=; rewrite ?big_nil // !big_cons /=; by rewrite IH.
Qed.

(** The covariance correction is symmetric and positive semidefinite, and so is that of every noise term. *)
Theorem second_order_correction_psd d m (H : 'I_m -> 'M[R]_d) (c : cval R d) : proper c -> (forall k, (H k)^T = H k) ->
  [/\ gmean (second_order_term H c) = \col_k (2%:R^-1 * \tr (self_adj c *m H k)),
      self_adj (gcov (second_order_term H c)) = \matrix_(i, j) (2%:R^-1 * \tr (self_adj c *m H i *m self_adj c *m H j)) &
      psd (self_adj (gcov (second_order_term H c)))].
Proof.
by move=> pc hs; have [e1 e2 e3] := second_order_ok pc hs; split=> //; exact: self_adj_psd.
Qed.

(** The first-order transform leaves both corrections out. *)
Theorem linearized_first_order n q m (g : linearized R n q m) (x : gd R n) (ns : seq (gd R q)) J0 js :
  let P := self_adj (gcov x) in
  let Q (w : gd R q) := self_adj (gcov w) in
  zjac g (gmean x) (map (@gmean R q) ns) = Some (J0, js) ->
  proper (gcov x) -> each (fun w => if is_chol (gcov x) then rootable (gcov w) else proper (gcov w)) ns ->
  exists y, [/\ lz_transform L 1 g x ns = Some (y, P *m J0^T),
    gmean y = zval g (gmean x) (map (@gmean R q) ns),
    self_adj (gcov y) = J0 *m P *m J0^T + \sum_(t <- zip js ns) t.1 *m Q t.2 *m t.1^T &
    psd (self_adj (gcov y))].
Proof.
move=> P Q ej px nx; have [y [e1 e2 e3 e4]] := lz_transform1_ok LK ej px nx.
exists y; split=> //; last exact: self_adj_psd.
rewrite e3; congr (_ + _).
elim: (ns) (js) => [|w ns' IH] [|j js'] //=; rewrite ?big_nil // !big_cons /=; by rewrite IH.
Qed.

(** ** Exactness.

    [X] is the input and [V k] the k-th noise, as random vectors on some finite probability space; the transform only
    sees their means and covariances, in [x] and [ns]. *)
Section Exact.
Variables (n q m : nat) (g : 'cV[R]_n -> seq 'cV[R]_q -> 'cV[R]_m) (hx : 'cV[R]_n) (hws : seq 'cV[R]_q)
  (x : gd R n) (ns : seq (gd R q)) (n0 : gd R q).
Variables (J0 : 'M[R]_(m, n)) (J : nat -> 'M[R]_(m, q)) (H0 : 'I_m -> 'M[R]_n) (H : nat -> 'I_m -> 'M[R]_q).
Hypothesis hx_ok : forall i, hx i 0 != 0.
Hypothesis hws_ok : forall k, (k < size ns)%N -> forall i, nth 0 hws k i 0 != 0.
Hypothesis px : proper (gcov x).
Hypothesis pn : each (fun w => if is_chol (gcov x) then rootable (gcov w) else proper (gcov w)) ns.
Variables (W : finType) (p : W -> R) (X : W -> 'cV[R]_n) (V : nat -> W -> 'cV[R]_q).
Hypothesis hp : probability p.
Hypothesis hX : has_moments p X (gmean x) (self_adj (gcov x)).
Hypothesis hV : forall k, (k < size ns)%N -> has_moments p (V k) (gmean (nth n0 ns k)) (self_adj (gcov (nth n0 ns k))).

Lemma nth_ws k : (k < size ns)%N -> nth 0 (map (@gmean R q) ns) k = gmean (nth n0 ns k).
Proof. exact: nth_map. Qed.

Lemma fd_whole C D : quadratic_jointly g (gmean x) (map (@gmean R q) ns) J0 J H0 H C D ->
  exists y, [/\ lz_transform L 2 (fd_linearization g hx hws) x ns = Some (y, self_adj (gcov x) *m J0^T),
    gmean y = g (gmean x) (map (@gmean R q) ns) + (hess_mean H0 (self_adj (gcov x))
      + \sum_(k < size ns) hess_mean (H k) (self_adj (gcov (nth n0 ns k)))) &
    self_adj (gcov y) = J0 *m self_adj (gcov x) *m J0^T + \sum_(k < size ns) J k *m self_adj (gcov (nth n0 ns k)) *m (J k)^T
      + (hess_gram H0 (self_adj (gcov x)) + \sum_(k < size ns) hess_gram (H k) (self_adj (gcov (nth n0 ns k))))].
Proof.
move=> hj; have okx : deltas_ok hx by apply/forallP.
have okw k : (k < size (map (@gmean R q) ns))%N -> deltas_ok (nth 0 hws k).
  by rewrite size_map => hk; apply/forallP; exact: hws_ok.
case: (hj) => s0 s1 _.
have ej := fd_jac hj okx okw.
have [H0' [hs' [eh e0 sz eH]]] := fd_hess hj okx okw.
rewrite size_map in sz eH.
have s0' k : (H0' k)^T = H0' k by rewrite e0.
have sh' : each (fun H => forall k, (H k)^T = H k) hs'.
  have : forall i, (i < size hs')%N -> forall k, (nth (fun _ => 0) hs' i k)^T = nth (fun _ => 0) hs' i k.
    by move=> i; rewrite sz => hi k; rewrite eH.
  elim: (hs') => [|K l IH] //= hh; split; first exact: (hh 0%N).
  by apply: IH => i hi; exact: (hh i.+1 hi).
have [y [e1 e2 e3 _]] := lz_transform_ok LK ej eh px pn s0' sh'.
exists y; split=> //.
- rewrite e2 (big_zip (fun _ => 0) n0 (fun K (w : gd R q) => hess_mean K (self_adj (gcov w)))) //.
  congr (_ + (_ + _)); first by apply/colP=> k; rewrite !mxE e0.
  by apply: eq_bigr => k _; apply/colP=> c; rewrite !mxE eH.
- rewrite e3 (big_zip (fun _ => 0) n0 (fun K (w : gd R q) => hess_gram K (self_adj (gcov w)))) //.
  rewrite (big_zip 0 (gcov n0) (fun K (w : cval R q) => K *m self_adj w *m K^T)) ?size_mkseq ?size_map //.
  congr (_ + _ + (_ + _)).
  + by apply: eq_bigr => k _; rewrite nth_mkseq ?size_map // (nth_map n0).
  + by apply/matrixP=> i j; rewrite !mxE !e0.
  + by apply: eq_bigr => k _; apply/matrixP=> i j; rewrite !mxE !eH.
Qed.

(** C48, C49.  For every function of degree at most two in all its arguments together, with finite differences of any
    size, the second-order transform gives the exact mean, if the arguments are uncorrelated. *)
Theorem linearized_exact_mean C D :
  quadratic_jointly g (gmean x) (map (@gmean R q) ns) J0 J H0 H C D ->
  (forall k, (k < size ns)%N -> uncorrelated p X (V k)) ->
  (forall k l, (k < size ns)%N -> (l < size ns)%N -> k != l -> uncorrelated p (V k) (V l)) ->
  exists y c, lz_transform L 2 (fd_linearization g hx hws) x ns = Some (y, c) /\
    gmean y = expect p (fun w => g (X w) (mkseq (fun k => V k w) (size ns))).
Proof.
move=> hj ux uv; have [y [e1 e2 e3]] := fd_whole hj.
exists y, (self_adj (gcov x) *m J0^T); split=> //; rewrite e2.
have sz : size (map (@gmean R q) ns) = size ns by rewrite size_map.
rewrite -[in RHS]sz (@exact_mean _ _ _ hp _ _ _ _ _ _ _ _ _ _ _ V _ (fun k => self_adj (gcov (nth n0 ns k))) hX _ C D hj); first by rewrite sz.
- by move=> k; rewrite sz => hk; rewrite nth_ws //; exact: hV.
- by move=> k; rewrite sz; exact: ux.
- by move=> k l; rewrite sz; exact: uv.
Qed.

(** If moreover the function does not mix its arguments, they are independent and their third and fourth moments are
    Gaussian, the covariance and the cross-covariance are exact, too. *)
Theorem linearized_exact_moments :
  let Y w := g (X w) (mkseq (fun k => V k w) (size ns)) in
  quadratic_separately g (gmean x) (map (@gmean R q) ns) J0 J H0 H ->
  (forall k, (k < size ns)%N -> independent p X (V k)) ->
  (forall k l, (k < size ns)%N -> (l < size ns)%N -> k != l -> independent p (V k) (V l)) ->
  gaussian_moments p X (gmean x) (self_adj (gcov x)) ->
  (forall k, (k < size ns)%N -> gaussian_moments p (V k) (gmean (nth n0 ns k)) (self_adj (gcov (nth n0 ns k)))) ->
  exists y, [/\ lz_transform L 2 (fd_linearization g hx hws) x ns = Some (y, covar p X Y),
    gmean y = expect p Y & self_adj (gcov y) = covar p Y Y].
Proof.
move=> Y hj ix iv gX gV; have [y [e1 e2 e3]] := fd_whole hj.
have sz : size (map (@gmean R q) ns) = size ns by rewrite size_map.
pose Q k := self_adj (gcov (nth n0 ns k)).
have hV' k : (k < size (map (@gmean R q) ns))%N -> has_moments p (V k) (nth 0 (map (@gmean R q) ns) k) (Q k).
  by rewrite sz => hk; rewrite nth_ws //; exact: hV.
have gV' k : (k < size (map (@gmean R q) ns))%N -> gaussian_moments p (V k) (nth 0 (map (@gmean R q) ns) k) (Q k).
  by rewrite sz => hk; rewrite nth_ws //; exact: gV.
have ix' k : (k < size (map (@gmean R q) ns))%N -> independent p X (V k) by rewrite sz; exact: ix.
have iv' k l : (k < size (map (@gmean R q) ns))%N -> (l < size (map (@gmean R q) ns))%N -> k != l ->
  independent p (V k) (V l) by rewrite sz; exact: iv.
have -> : Y = fun w => g (X w) (mkseq (fun k => V k w) (size (map (@gmean R q) ns))) by rewrite sz.
exists y; split.
- by rewrite e1 (exact_cross hp hX hj ix' gX).
- rewrite e2 (exact_mean hp hX hV' hj); first by rewrite sz.
    by move=> k hk; have := independent_uncorrelated hp id id (ix' k hk).
  by move=> k l hk hl kl; have := independent_uncorrelated hp id id (iv' k l hk hl kl).
- by rewrite e3 (exact_cov hp hX hV' hj ix' iv' gX gV') sz.
Qed.
End Exact.
End Transform.
Print Assumptions linearized_second_order.
Print Assumptions second_order_correction_psd.
Print Assumptions linearized_first_order.
Print Assumptions linearized_exact_mean.
Print Assumptions linearized_exact_moments.

(** ** A probability space with two independent scalars whose moments up to the fourth are those of a standard Gaussian
    distribution: the product of two three-point rules. *)
Section Space.
Variable R : rcfType.
Let r : R := Num.sqrt 3%:R.
Definition point3 (i : 'I_3) : R := match val i with 0%N => - r | 1%N => 0 | _ => r end.
Definition weight3 (i : 'I_3) : R := if val i == 1%N then 2%:R / 3%:R else 6%:R^-1.
Definition weight9 (w : 'I_3 * 'I_3) : R := weight3 w.1 * weight3 w.2.
Definition first9 (w : 'I_3 * 'I_3) : 'cV[R]_1 := \col_c point3 w.1.
Definition second9 (w : 'I_3 * 'I_3) : 'cV[R]_1 := \col_c point3 w.2.

Lemma rr : r * r = 3%:R. Proof. by rewrite -expr2 sqr_sqrtr // ler0n. Qed.
Lemma six : (6%:R : R)^-1 = 2%:R^-1 * 3%:R^-1.
Proof. by rewrite -invfM -natrM. Qed.
Lemma n2 : (2%:R : R) != 0. Proof. exact: two_neq0. Qed.
Lemma n3 : (3%:R : R) != 0. Proof. by rewrite pnatr_eq0. Qed.

Lemma sum3 (F : R -> R) : \sum_i weight3 i * F (point3 i) = 6%:R^-1 * (F (- r) + F r) + 2%:R / 3%:R * F 0.
Proof.
rewrite !big_ord_recl big_ord0 /weight3 /point3 /=; cring.
Qed.
Lemma mom0 : \sum_i weight3 i = 1.
Proof.
have := sum3 (fun _ => 1); under eq_bigr do rewrite mulr1; move=> ->.
rewrite six mulr1 mulrDr !mulr1 -mulrDl -mulr2n -mulr_natl mulfV ?n2 // mul1r.
by rewrite -{1}[3%:R^-1]mul1r -mulrDl (_ : 1 + 2%:R = 3%:R) ?mulfV ?n3 //.
Qed.
Lemma mom0' : \sum_i weight3 i * 1 = 1.
Proof. by rewrite -[RHS]mom0; apply: eq_bigr => i _; rewrite mulr1. Qed.
Lemma mom1 : \sum_i weight3 i * point3 i = 0.
Proof. by rewrite (sum3 (fun a => a)) addNr !mulr0 addr0. Qed.
Lemma mom2 : \sum_i weight3 i * (point3 i * point3 i) = 1.
Proof.
rewrite (sum3 (fun a => a * a)) mulrNN rr !mulr0 addr0 (_ : 3%:R + 3%:R = 6%:R) ?mulVf -?natrD ?pnatr_eq0 //.
Qed.
Lemma mom3 : \sum_i weight3 i * (point3 i * point3 i * point3 i) = 0.
Proof. by rewrite (sum3 (fun a => a * a * a)) !mulr0 !mulrNN mulrN addNr mulr0 addr0. Qed.
Lemma mom4 : \sum_i weight3 i * (point3 i * point3 i * point3 i * point3 i) = 3%:R.
Proof.
rewrite (sum3 (fun a => a * a * a * a)) !mulr0 addr0 -(mulrA (- r * - r)) !mulrNN -(mulrA (r * r)) rr.
rewrite (_ : 3%:R * 3%:R + 3%:R * 3%:R = 6%:R * 3%:R); last by rewrite -!natrM -natrD.
by rewrite mulrA mulVf ?mul1r // pnatr_eq0.
Qed.

Lemma expect9 (F G : 'I_3 -> R) :
  expect1 weight9 (fun w => F w.1 * G w.2) = (\sum_i weight3 i * F i) * (\sum_i weight3 i * G i).
Proof.
rewrite /expect1 big_distrlr /= pair_bigA /=; apply: eq_bigr => w _; rewrite /weight9; cring.
Qed.
Lemma expect9l (F : 'I_3 -> R) : expect1 weight9 (fun w => F w.1) = \sum_i weight3 i * F i.
Proof.
rewrite -[RHS]mulr1 -mom0' -expect9; by apply: eq_expect1 => w; rewrite mulr1.
Qed.
Lemma expect9r (F : 'I_3 -> R) : expect1 weight9 (fun w => F w.2) = \sum_i weight3 i * F i.
Proof.
rewrite -[RHS]mul1r -mom0' -expect9; by apply: eq_expect1 => w; rewrite mul1r.
Qed.

Lemma prob9 : probability weight9.
Proof.
by rewrite /probability -mom0' -(expect9l (fun _ => 1)); apply: eq_bigr => w _; rewrite mulr1.
Qed.
Lemma indep9 : independent weight9 first9 second9.
Proof.
move=> phi psi; rewrite /first9 /second9 (expect9 (fun i => phi (\col_c point3 i)) (fun i => psi (\col_c point3 i))).
by rewrite (expect9l (fun i => phi (\col_c point3 i))) (expect9r (fun i => psi (\col_c point3 i))).
Qed.

Lemma moments1 (Z : 'I_3 * 'I_3 -> 'cV[R]_1) : expect1 weight9 (fun w => Z w 0 0) = 0 ->
  expect1 weight9 (fun w => Z w 0 0 * Z w 0 0) = 1 -> has_moments weight9 Z 0 1%:M.
Proof.
move=> e1 e2; have e : expect weight9 Z = 0 by apply/colP=> c; rewrite expectE (ord1 c) e1 mxE.
split=> //; apply/matrixP=> i j; rewrite (covar_centred e e) expectE (ord1 i) (ord1 j) [RHS]mxE -e2.
by apply: eq_expect1 => w; rewrite !subr0 mxE big_ord1 mxE.
Qed.
Lemma gmoments1 (Z : 'I_3 * 'I_3 -> 'cV[R]_1) : expect1 weight9 (fun w => Z w 0 0 * Z w 0 0 * Z w 0 0) = 0 ->
  expect1 weight9 (fun w => Z w 0 0 * Z w 0 0 * Z w 0 0 * Z w 0 0) = 3%:R -> gaussian_moments weight9 Z 0 1%:M.
Proof.
move=> e3 e4; split=> [i j k|i j k l].
  by rewrite (ord1 i) (ord1 j) (ord1 k) -[RHS]e3; apply: eq_expect1 => w; rewrite !mxE !subr0.
rewrite (ord1 i) (ord1 j) (ord1 k) (ord1 l); transitivity (3%:R : R).
  by rewrite -e4; apply: eq_expect1 => w; rewrite !mxE !subr0.
by rewrite !mxE eqxx !mulr1n !mulr1 -[1]/(1%:R) -!natrD.
Qed.

Lemma first9_moments : has_moments weight9 first9 0 1%:M /\ gaussian_moments weight9 first9 0 1%:M.
Proof.
split; [apply: moments1|apply: gmoments1].
- by rewrite -mom1 -expect9l; apply: eq_expect1 => w; rewrite mxE.
- by rewrite -mom2 -expect9l; apply: eq_expect1 => w; rewrite mxE.
- by rewrite -mom3 -expect9l; apply: eq_expect1 => w; rewrite mxE.
- by rewrite -mom4 -expect9l; apply: eq_expect1 => w; rewrite mxE.
Qed.
Lemma second9_moments : has_moments weight9 second9 0 1%:M /\ gaussian_moments weight9 second9 0 1%:M.
Proof.
split; [apply: moments1|apply: gmoments1].
- by rewrite -mom1 -expect9r; apply: eq_expect1 => w; rewrite mxE.
- by rewrite -mom2 -expect9r; apply: eq_expect1 => w; rewrite mxE.
- by rewrite -mom3 -expect9r; apply: eq_expect1 => w; rewrite mxE.
- by rewrite -mom4 -expect9r; apply: eq_expect1 => w; rewrite mxE.
Qed.

Lemma no_other (F : 'I_1 -> R) : \sum_(l < 1 | 0 != l) F l = 0.
Proof. by rewrite big1 // => l; rewrite (ord1 l). Qed.

(** y = x + x^2 + w^2, with input and noise standard: every hypothesis of [linearized_exact_moments] holds. *)
Example linearized_exact_nonvacuous :
  let g (x : 'cV[R]_1) (ws : seq 'cV[R]_1) : 'cV[R]_1 :=
    \col_c (x 0 0 + x 0 0 * x 0 0 + nth 0 ws 0 0 0 * nth 0 ws 0 0 0) in
  let x : gd R 1 := GD 0 (Dense 1%:M) in
  let w : gd R 1 := GD 0 (Dense 1%:M) in
  let V (k : nat) := second9 in
  [/\ quadratic_separately g (gmean x) (map (@gmean R 1) [:: w]) 1%:M (fun _ => 0) (fun _ => 2%:R%:M) (fun _ _ => 2%:R%:M),
      proper (gcov x) /\ each (fun d => if is_chol (gcov x) then rootable (gcov d) else proper (gcov d)) [:: w],
      probability weight9 /\ independent weight9 first9 second9,
      has_moments weight9 first9 (gmean x) (self_adj (gcov x)) /\ has_moments weight9 second9 (gmean w) (self_adj (gcov w)) &
      gaussian_moments weight9 first9 (gmean x) (self_adj (gcov x)) /\
      gaussian_moments weight9 second9 (gmean w) (self_adj (gcov w))].
Proof.
move=> g x w V; have [a1 a2] := first9_moments; have [b1 b2] := second9_moments.
have p1 : psd (1%:M : 'M[R]_1) by rewrite -[1%:M]mulmx1 -{2}[1%:M]trmx1; exact: psd_mulT.
split=> //; last by split; [exact: prob9|exact: indep9].
have t2 : (2%:R%:M : 'M[R]_1)^T = 2%:R%:M by rewrite tr_scalar_mx.
split=> [c|k c|v us] //=.
apply/colP=> c; rewrite (ord1 c) !mxE !big_ord1 !mxE !bil_zero no_other ?big_ord1 !mxE ?add0r ?addr0.
rewrite !qform_bil !bilE !big_ord1 !mxE eqxx !mulr1n !mul0r !mul1r !addr0 !add0r mulrDr !mulrA !mulVf ?n2 // !mul1r.
by rewrite addrA.
Qed.

(** C48.  The covariance is not exact for every quadratic function: y = x w with independent standard x and w has
    variance one, the transform gives zero. *)
Theorem linearized_interaction_refuted (L : lib R) (h : 'cV[R]_1) : lib_ok L -> h 0 0 != 0 ->
  let g (x : 'cV[R]_1) (ws : seq 'cV[R]_1) : 'cV[R]_1 := \col_c (x 0 0 * nth 0 ws 0 0 0) in
  let x : gd R 1 := GD 0 (Dense 1%:M) in
  let w : gd R 1 := GD 0 (Dense 1%:M) in
  let Y u := g (first9 u) [:: second9 u] in
  [/\ quadratic_jointly g 0 [:: 0] 0 (fun _ => 0) (fun _ => 0) (fun _ _ => 0) (fun _ _ => 1%:M) (fun _ _ _ => 0),
      exists2 y, lz_transform L 2 (fd_linearization g h [:: h]) x [:: w] = Some (y, 0) & self_adj (gcov y) = 0 &
      covar weight9 Y Y = 1%:M].
Proof.
move=> LK h0 g x w Y.
have [a1 a2] := first9_moments; have [b1 b2] := second9_moments.
have p1 : psd (1%:M : 'M[R]_1) by rewrite -[1%:M]mulmx1 -{2}[1%:M]trmx1; exact: psd_mulT.
have hj : quadratic_jointly g 0 [:: 0] 0 (fun _ => 0) (fun _ => 0) (fun _ _ => 0) (fun _ _ => 1%:M) (fun _ _ _ => 0).
  split=> [c|k c|v us] //=; rewrite ?trmx0 //.
  apply/colP=> c; rewrite (ord1 c) !mxE !big_ord1 !mxE no_other ?big_ord1 !mxE ?addr0 ?add0r.
  rewrite !qform_bil !bil_zero bilE !big_ord1 !mxE !mul0r !addr0 !add0r !mulr0 !add0r mul1r //.
split=> //.
- have hx : forall i, h i 0 != 0 by move=> i; rewrite (ord1 i).
  have hw : forall k, (k < size [:: w])%N -> forall i, nth 0 [:: h] k i 0 != 0 by case=> // _ i; rewrite (ord1 i).
  have [|y [e1 e2 e3]] := @fd_whole R L LK 1 1 1 g h [:: h] x [:: w] w 0 (fun _ => 0) (fun _ => 0) (fun _ _ => 0) hx hw p1 _ _ _ hj; first by split.
  exists y; first by rewrite e1 trmx0 mulmx0.
  have z P : hess_gram (fun _ : 'I_1 => (0 : 'M[R]_1)) P = 0.
    by apply/matrixP=> i j; rewrite !mxE mulmx0 mxtrace0 mulr0.
  by rewrite e3 !z !big_ord1 z !mul0mx !addr0.
- have e : expect weight9 Y = 0.
    apply/colP=> c; rewrite expectE (ord1 c) [RHS]mxE.
    transitivity ((\sum_i weight3 i * point3 i) * (\sum_i weight3 i * point3 i)); last by rewrite mom1 mul0r.
    rewrite -expect9; by apply: eq_expect1 => u; rewrite !mxE.
  apply/matrixP=> i j; rewrite (covar_centred e e) expectE (ord1 i) (ord1 j) [RHS]mxE eqxx mulr1n.
  transitivity ((\sum_i weight3 i * (point3 i * point3 i)) * (\sum_i weight3 i * (point3 i * point3 i))).
    2: by rewrite mom2 mulr1.
  rewrite -expect9; apply: eq_expect1 => u; rewrite !subr0 mxE big_ord1 !mxE; cring.
Qed.
End Space.
Print Assumptions linearized_interaction_refuted.
