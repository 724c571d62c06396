(** * Proofs about rank updates. *)
From mathcomp Require Import all_ssreflect all_algebra.
From Verif Require Import MatBase ShortModel ShortSpec ShortProofs1 ShortProofs2 ShortProofs4 ShortProofs5 ShortProofs7.
From Verif Require Import LdltModel LdltSpec LdltProofs LdltProofs2 RankModel RankSpec.
Set Implicit Arguments.
Unset Strict Implicit.
Unset Printing Implicit Defensive.
Import GRing.Theory Num.Theory Order.Theory.
Local Open Scope ring_scope.

Section P.
Variable R : rcfType.
Implicit Types (m : mat R) (alpha : R).

Lemma updated_at m u alpha i j :
  mat_at (updated m u alpha) i j = mat_at m i j + (\sum_(k < mcols u) mat_at u i k * mat_at u j k) * alpha.
Proof. by rewrite /= big_cons big_seq1. Qed.

Lemma gram_at lo m i j : mrows m = mcols m ->
  mat_at (gram lo m) i j = \sum_(k < mrows m) (if lo then mat_at m i k * mat_at m j k else mat_at m k i * mat_at m k j).
Proof. by move=> q; case: lo; rewrite /= ?q. Qed.

Lemma gram_dims lo m n : mrows m = n -> mcols m = n -> mrows (gram lo m) = n /\ mcols (gram lo m) = n.
Proof. by case: lo => /= e1 e2; rewrite ?e1 ?e2. Qed.

Lemma gram_sym lo m i j : mat_at (gram lo m) i j = mat_at (gram lo m) j i.
Proof. by case: lo => /=; apply: eq_bigr => k _; rewrite mulrC. Qed.

Lemma gram_same lo m w : square m -> same m w -> same (gram lo m) (gram lo w).
Proof.
rewrite /square => q [e1 e2 e]; case: lo; split=> //= i j hi hj; rewrite -?e1 -?e2;
  apply: eq_bigr => k _; by rewrite !e ?q // -q.
Qed.

Lemma updated_same m w u v alpha : mrows u = mrows m -> mrows m = mcols m -> same m w -> same u v -> same (updated m u alpha) (updated w v alpha).
Proof.
move=> q qq [e1 e2 e] [f1 f2 f]; split=> // i j hi hj; rewrite !updated_at e //; congr (_ + _ * _).
by rewrite -f2; apply: eq_bigr => k _; rewrite !f // q // qq.
Qed.

Lemma updated_sym m u alpha : square m -> (forall i j, mat_at m i j = mat_at m j i) -> symmetric (updated m u alpha).
Proof.
move=> q s; split=> // i j _ _; rewrite !updated_at s; congr (_ + _ * _).
by apply: eq_bigr => k _; rewrite mulrC.
Qed.

Lemma form_same m w v : same m w -> quadratic_form m v = quadratic_form w v.
Proof.
case=> e1 e2 e; rewrite /quadratic_form -e1 -e2; apply: eq_bigr => i _; apply: eq_bigr => j _; by rewrite e.
Qed.

Lemma definite_same m w : same m w -> definite m -> definite w.
Proof.
move=> s [[q sy] d]; have [e1 e2 e] := s; split; first split.
- by rewrite /square -e1 -e2.
- move=> i j; rewrite /square in q; rewrite -e1 -e2 => hi hj.
  have hi' : (i < mcols m)%N by rewrite -q.
  have hj' : (j < mrows m)%N by rewrite q.
  by rewrite -(e i j) // -(e j i) // sy.
- by move=> v i; rewrite -e1 -(form_same v s); exact: d.
Qed.

(** The quadratic form of an update. *)
Lemma form_updated m u alpha v : mrows u = mrows m -> square m ->
  quadratic_form (updated m u alpha) v =
  quadratic_form m v + alpha * \sum_(k < mcols u) (\sum_(i < mrows m) v i * mat_at u i k) ^+ 2.
Proof.
move=> q qq; rewrite /square in qq; rewrite /quadratic_form [mrows (updated _ _ _)]/= [mcols (updated _ _ _)]/= -qq.
have t (i j : nat) : v i * mat_at (updated m u alpha) i j * v j =
    v i * mat_at m i j * v j + alpha * \sum_(k < mcols u) (v i * mat_at u i k) * (v j * mat_at u j k).
  rewrite updated_at mulrDr mulrDl; congr (_ + _); rewrite [_ * alpha]mulrC mulrCA -mulrA; congr (_ * _).
  rewrite mulr_sumr mulr_suml; apply: eq_bigr => k _; rewrite -!mulrA; congr (_ * (_ * _)); by rewrite mulrC.
under eq_bigr => i _ do (under eq_bigr => j _ do rewrite t; rewrite big_split /=).
rewrite big_split /=; congr (_ + _).
under eq_bigr => i _ do rewrite -mulr_sumr exchange_big /=.
rewrite -mulr_sumr exchange_big /=; congr (_ * _); apply: eq_bigr => k _.
by rewrite expr2 big_distrlr.
Qed.

Lemma form_gram lo m v : square m -> 0 <= quadratic_form (gram lo m) v.
Proof.
rewrite /square => q; rewrite /quadratic_form; have [-> ->] := gram_dims lo erefl (esym q).
pose c (k i : nat) := v i * (if lo then mat_at m i k else mat_at m k i).
rewrite (_ : \sum_(i < _) _ = \sum_(k < mrows m) (\sum_(i < mrows m) c k i) ^+ 2).
  by apply: sumr_ge0 => k _; exact: sqr_ge0.
under [RHS]eq_bigr => k _ do rewrite expr2 big_distrlr /=.
rewrite [RHS]exchange_big; apply: eq_bigr => i _; rewrite [RHS]exchange_big; apply: eq_bigr => j _ /=.
rewrite gram_at // mulr_sumr mulr_suml; apply: eq_bigr => k _; rewrite /c.
case: (lo); rewrite -!mulrA; congr (_ * (_ * _)); by rewrite mulrC.
Qed.

(** A smaller update of a matrix that is to remain definite keeps it definite. *)
Lemma definite_less m u w alpha : alpha <= 0 -> mrows u = mrows m -> mrows w = mrows m -> square m ->
  definite (updated (updated m u alpha) w alpha) -> symmetric (updated m u alpha) -> definite (updated m u alpha).
Proof.
move=> a0 eu ew q [_ d] sy; split=> // v i hi vi; have := d v i hi vi.
rewrite (form_updated _ _ (_ : mrows w = mrows (updated m u alpha)) (_ : square (updated m u alpha))) // => h.
by apply: (lt_le_trans h); rewrite ger_addl mulr_le0_ge0 // sumr_ge0 // => k _; exact: sqr_ge0.
Qed.


(** *** The library's loop over the columns *)
Definition cols_mat (n : nat) (us : seq (nat -> R)) : mat R := Mat n (size us) (fun i k => nth (fun=> 0) us k i).

Lemma updated_cons m v us alpha n : mrows m = n ->
  same (updated (updated m (column_mat n v) alpha) (cols_mat n us) alpha) (updated m (cols_mat n (v :: us)) alpha).
Proof.
move=> e; split=> // i j _ _; rewrite !updated_at /= big_ord1 big_ord_recl -addrA -mulrDl; congr (_ + _ * _).
Qed.

Lemma gram_triangle_dims lo n f : mrows (gram lo (triangle_of lo n f)) = n /\ square (gram lo (triangle_of lo n f) : mat R).
Proof. by case: lo. Qed.

Lemma lib_updates_ok rk lo n f us alpha : rank_contract rk ->
  match lib_updates rk lo n f us alpha with
  | Val g => same (gram lo (triangle_of lo n g)) (updated (gram lo (triangle_of lo n f)) (cols_mat n us) alpha)
  | Thrown => alpha <= 0 /\ ~ definite (updated (gram lo (triangle_of lo n f)) (cols_mat n us) alpha)
  | _ => False
  end.
Proof.
move=> ok; elim: us f => [|v us IH] f /=.
  by split=> // i j _ _; rewrite updated_at big_ord0 mul0r addr0.
have [rf sf] := gram_triangle_dims lo n f.
have uc := updated_cons v us alpha rf.
have := ok lo n f v alpha; case: (rk lo n f v alpha) => [g|] sg; last first.
  case: sg => a0 nd; split=> // d; apply: nd.
  apply: (@definite_less _ _ (cols_mat n us)) => //; first exact: (definite_same (same_sym uc)).
  by apply: updated_sym => // i j; exact: gram_sym.
have [rg qg] := gram_triangle_dims lo n g.
have us1 : same (updated (gram lo (triangle_of lo n g)) (cols_mat n us) alpha)
    (updated (gram lo (triangle_of lo n f)) (cols_mat n (v :: us)) alpha).
  apply: same_trans uc; apply: updated_same => //; exact: same_refl.
have := IH g; case: (lib_updates rk lo n g us alpha) => //.
- by move=> h s; exact: same_trans s us1.
- by case=> a0 nd; split=> // d; apply: nd; exact: (definite_same (same_sym us1)).
Qed.

Lemma cols_same u : same (cols_mat (orows u) (columns u)) (value u).
Proof.
split=> //=; first by rewrite size_map size_iota.
move=> i j _; rewrite size_map size_iota => hj; by rewrite (nth_map 0%N) ?size_iota // nth_iota.
Qed.

End P.
