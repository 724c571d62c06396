(** * Proofs: finite differences and the linearised transform. *)
From mathcomp Require Import all_ssreflect all_algebra.
From Verif Require Import RingTac MatBase LibModel GaussModel KalmanModel KalmanSpec KalmanProofs LinzModel LinzSpec.
Set Implicit Arguments.
Unset Strict Implicit.
Unset Printing Implicit Defensive.
Import GRing.Theory Num.Theory Order.Theory.
Local Open Scope ring_scope.

Section FD.
Variable R : rcfType.

Lemma two_neq0 : (2%:R : R) != 0. Proof. by rewrite pnatr_eq0. Qed.
Lemma four_neq0 : (4%:R : R) != 0. Proof. by rewrite pnatr_eq0. Qed.

Section Col.
Variables (d : nat).
Implicit Types (col : 'cV[R]_d) (i j : 'I_d).
Local Notation e i := (delta_mx i (0 : 'I_1) : 'cV[R]_d).

Lemma set_atE col i a : set_at col i (col i 0 + a) = col + a *: e i.
Proof.
apply/colP=> k; rewrite !mxE; case: (k =P i) => [->|_]; by rewrite ?mulr1 ?mulr0 ?addr0.
Qed.
Lemma set_at_id col i : set_at col i (col i 0) = col.
Proof. by apply/colP=> k; rewrite !mxE; case: (k =P i) => [->|]. Qed.
Lemma set_at2 col i a b : set_at (set_at col i a) i b = set_at col i b.
Proof. by apply/colP=> k; rewrite !mxE; case: (k =P i). Qed.
Lemma set_at_swap col i j a b : i != j -> set_at (set_at col i a) j b = set_at (set_at col j b) i a.
Proof.
move=> h; apply/colP=> k; rewrite !mxE; case: (k =P j) => [->|//].
by rewrite eq_sym (negbTE h).
Qed.
Lemma set_at3 col i j a b a' : i != j -> set_at (set_at (set_at col i a) j b) i a' = set_at (set_at col i a') j b.
Proof. by move=> h; rewrite set_at_swap 1?eq_sym // set_at2. Qed.
Lemma set_at_ij col i j a b : i != j -> set_at (set_at col i (col i 0 + a)) j (col j 0 + b) = col + (a *: e i + b *: e j).
Proof.
move=> h; apply/colP=> k; rewrite !mxE; case: (k =P j) => [->|] /=.
  by rewrite eq_sym (negbTE h) mulr0 mulr1 add0r.
by case: (k =P i) => [->|] /=; rewrite ?mulr1 ?mulr0 ?addr0.
Qed.
End Col.

Section Visit.
Variables (d : nat) (T : eqType) (A : Type) (step : 'cV[R]_d -> T -> A * 'cV[R]_d) (a0 : A).

Lemma visit_pure (order : seq T) (col : 'cV[R]_d) : (forall i, (step col i).2 = col) ->
  (visit step a0 order col).2 = col /\
  forall j, (visit step a0 order col).1 j = if j \in order then (step col j).1 else a0.
Proof.
move=> h; rewrite /visit.
have gen : forall (order : seq T) (g : T -> A),
    (foldl (fun s i => let r := step s.2 i in (fun j => if j == i then r.1 else s.1 j, r.2)) (g, col) order).2 = col /\
    forall j, (foldl (fun s i => let r := step s.2 i in (fun j => if j == i then r.1 else s.1 j, r.2)) (g, col) order).1 j
      = if j \in order then (step col j).1 else g j.
  elim=> [|i o IH] g //=; rewrite h.
  have [e1 e2] := IH (fun j => if j == i then (step col i).1 else g j); split=> // j.
  rewrite e2 in_cons; case: (j =P i) => [->|] //=; by case: ifP.
exact: gen.
Qed.
End Visit.

Section Steps.
Variables (d m : nat) (f : 'cV[R]_d -> 'cV[R]_m) (h : 'cV[R]_d).
Implicit Types (col : 'cV[R]_d) (i j : 'I_d).
Local Notation e i := (delta_mx i (0 : 'I_1) : 'cV[R]_d).

Lemma jac_columnE col i :
  jac_column f h col i = ((2%:R * h i 0)^-1 *: (f (col + h i 0 *: e i) - f (col - h i 0 *: e i)), col).
Proof. by rewrite /jac_column !set_at2 set_at_id !set_atE scaleNr. Qed.

Definition fdd col i j : 'cV[R]_m :=
  if i == j then (h i 0 * h i 0)^-1 *: ((f (col + h i 0 *: e i) - f col) - (f col - f (col - h i 0 *: e i)))
  else (4%:R * h i 0 * h j 0)^-1 *:
    ((f (col + (h i 0 *: e i + h j 0 *: e j)) - f (col + (h i 0 *: e i - h j 0 *: e j)))
     - (f (col + (- (h i 0 *: e i) + h j 0 *: e j)) - f (col + (- (h i 0 *: e i) - h j 0 *: e j)))).

Lemma hess_entryE col i j : hess_entry f h col (i, j) = (fdd col i j, col).
Proof.
rewrite /hess_entry /fdd; case: (i =P j) => [_|/eqP n].
  by rewrite !set_at2 set_at_id !set_atE scaleNr.
rewrite !(set_at2, set_at3 _ _ _ _ n) set_at_id set_at_id !set_at_ij // !scaleNr //.
Qed.
(** ** Exactness. *)
Lemma bil_ij (H : 'M[R]_d) i j : bil H (e i) (e j) = H i j.
Proof. by rewrite /bil trmx_delta -rowE -colE !mxE. Qed.

End Steps.

Section Bil.
Variables (a b : nat) (C : 'M[R]_(a, b)).
Lemma bilDl u u' v : bil C (u + u') v = bil C u v + bil C u' v.
Proof. by rewrite /bil trmxD !mulmxDl mxE. Qed.
Lemma bilDr u v v' : bil C u (v + v') = bil C u v + bil C u v'.
Proof. by rewrite /bil mulmxDr mxE. Qed.
Lemma bilZl c u v : bil C (c *: u) v = c * bil C u v.
Proof. by rewrite /bil trmxZ -!scalemxAl mxE. Qed.
Lemma bilZr c u v : bil C u (c *: v) = c * bil C u v.
Proof. by rewrite /bil -scalemxAr mxE. Qed.
Lemma bilNl u v : bil C (- u) v = - bil C u v.
Proof. by rewrite -scaleN1r bilZl mulN1r. Qed.
Lemma bilNr u v : bil C u (- v) = - bil C u v.
Proof. by rewrite -scaleN1r bilZr mulN1r. Qed.
Lemma bil0r u : bil C u 0 = 0.
Proof. by rewrite -(scale0r (0 : 'cV_b)) bilZr mul0r. Qed.
Lemma bil0l v : bil C 0 v = 0.
Proof. by rewrite -(scale0r (0 : 'cV_a)) bilZl mul0r. Qed.
End Bil.
Lemma bilT a b (C : 'M[R]_(a, b)) u v : bil C u v = bil C^T v u.
Proof.
have e : v^T *m C^T *m u = (u^T *m C *m v)^T by rewrite !trmx_mul trmxK mulmxA.
by rewrite /bil e [RHS]mxE.
Qed.
Lemma qform_bil n (A : 'M[R]_n) x : qform A x = bil A x x. Proof. by []. Qed.
Lemma bil_zero a b u v : bil (0 : 'M[R]_(a, b)) u v = 0.
Proof. by rewrite /bil mulmx0 mul0mx mxE. Qed.

Section Exact.
Variables (d m : nat) (f : 'cV[R]_d -> 'cV[R]_m) (h : 'cV[R]_d).
Hypothesis hok : deltas_ok h.
Implicit Types (col x : 'cV[R]_d) (i j : 'I_d).
Local Notation e i := (delta_mx i (0 : 'I_1) : 'cV[R]_d).

Lemma hne i : h i 0 != 0. Proof. by move/forallP: hok. Qed.

Lemma jac_exact_col x J E i : even_fun E -> (forall v, f (x + v) = f x + J *m v + E v) ->
  (jac_column f h x i).1 = J *m e i.
Proof.
move=> ev hf; rewrite jac_columnE /= !hf ev mulmxN.
have -> : f x + J *m (h i 0 *: e i) + E (h i 0 *: e i) - (f x - J *m (h i 0 *: e i) + E (h i 0 *: e i))
  = J *m (h i 0 *: e i) *+ 2 by abel.
rewrite -scalemxAr -scaler_nat !scalerA -mulrA mulVf ?scale1r //.
by rewrite mulf_neq0 ?hne ?two_neq0.
Qed.

Lemma fdd_exact x O (H : 'I_m -> 'M[R]_d) i j c : odd_fun O -> (forall c, (H c)^T = H c) ->
  (forall v, f (x + v) = f x + O v + 2%:R^-1 *: qforms H v) ->
  fdd f h x i j c 0 = H c i j.
Proof.
move=> od hs hf; rewrite /fdd.
have hi := hne i; have hj := hne j.
have hq v k : qforms H v k 0 = bil (H k) v v by rewrite mxE.
have h22 : (2%:R : R)^-1 * 2%:R = 1 by rewrite mulVf ?two_neq0.
case: (i =P j) => [->|_].
  rewrite !hf od !(scalemxE, addmxE, oppmxE) !hq bilNl bilNr opprK !(bilZl, bilZr) bil_ij.
  set o := O _ c 0; set F := f x c 0; set q := H c j j; set t := h j 0 in hj *.
  have -> : F + o + 2%:R^-1 * (t * (t * q)) - F - (F - (F - o + 2%:R^-1 * (t * (t * q))))
          = (2%:R^-1 * 2%:R) * ((t * t) * q) by cring.
  by rewrite h22 mul1r mulrA mulVf ?mul1r // mulf_neq0.
have sH : H c j i = H c i j by rewrite -{1}(hs c) mxE.
have od1 : O (- (h i 0 *: e i) - h j 0 *: e j) = - O (h i 0 *: e i + h j 0 *: e j) by rewrite -opprD od.
have od2 : O (- (h i 0 *: e i) + h j 0 *: e j) = - O (h i 0 *: e i - h j 0 *: e j) by rewrite -od opprB addrC.
rewrite !hf od1 od2 !(scalemxE, addmxE, oppmxE) !hq.
rewrite !(bilDl, bilDr, bilNl, bilNr, bilZl, bilZr) !bil_ij sH.
set o1 := O _ c 0; set o2 := O (_ - _) c 0; set F := f x c 0; set q := H c i j; set qi := H c i i; set qj := H c j j.
set t := h i 0 in hi *; set s := h j 0 in hj *.
set two := 2%:R^-1 in h22 *.
set X := (X in _^-1 * X).
have -> : X = (two * 2%:R) * ((4%:R * t * s) * q) by rewrite /X; cring.
by rewrite h22 mul1r mulrA mulVf ?mul1r // !mulf_neq0 ?four_neq0.
Qed.
End Exact.
End FD.
