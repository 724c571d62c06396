(** * Proofs about slices and tiles. *)
From mathcomp Require Import all_ssreflect.
From Verif Require Import TileModel TileSpec.
Set Implicit Arguments.
Unset Strict Implicit.
Unset Printing Implicit Defensive.

Section P.
Variable A : Type.
Implicit Types (a b : arr A) (bs : seq (arr A)).

Lemma same_refl a : same a a. Proof. by []. Qed.
Lemma same_trans a b c : same a b -> same b c -> same a c.
Proof. by move=> [e1 h1] [e2 h2]; split=> [|ix h]; rewrite ?e1 // h1 // h2 // -e1. Qed.
Lemma same_sym a b : same a b -> same b a.
Proof. by move=> [e h]; split=> // ix; rewrite -e => hx; rewrite h. Qed.

Lemma shift0 ix n : size ix = n -> shift (nseq n 0) ix = ix.
Proof. by move<-; elim: ix => //= i ix IH; rewrite /shift /= in IH *; rewrite IH. Qed.

Lemma fitsE begin sizes ds : size begin = size ds -> size sizes = size ds ->
  le_each (plus_each begin sizes) ds = fits begin sizes ds.
Proof.
elim: ds begin sizes => [|d ds IH] [|b bs] [|s ss] //= [e1] [e2].
by rewrite /le_each /fits /= in IH *; rewrite IH.
Qed.

Lemma in_range_size ds ix : in_range ds ix -> size ix = size ds.
Proof. by elim: ds ix => [|d ds IH] [|i ix] //= /andP[_ /IH->]. Qed.

Lemma in_range_nth ds ix : size ix = size ds -> (forall i, i < size ds -> nth 0 ix i < nth 0 ds i) -> in_range ds ix.
Proof.
elim: ds ix => [|d ds IH] [|i ix] //= [e] h; rewrite /in_range /= (h 0) //=; apply: IH => // j hj; exact: (h j.+1).
Qed.

Lemma nth_in_range ds ix i : in_range ds ix -> i < size ds -> nth 0 ix i < nth 0 ds i.
Proof. by elim: ds ix i => [|d ds IH] [|x ix] [|i] //= /andP[h1 h2] // hi; exact: IH. Qed.

Lemma block_index begin sizes ix : size begin = size sizes -> in_range sizes ix ->
  [/\ le_each begin (shift begin ix), lt_each (shift begin ix) (plus_each begin sizes) &
      minus_each (shift begin ix) begin = ix].
Proof.
elim: sizes begin ix => [|s ss IH] [|b bs] [|i ix] //= [e] /andP[h1 h2].
have [l1 l2 m] := IH _ _ e h2; rewrite /le_each /lt_each /minus_each /shift /= in l1 l2 m *.
by rewrite l1 l2 m leq_addr ltn_add2l h1 addKn.
Qed.

Lemma in_block begin sizes ix : size begin = size sizes -> size ix = size sizes ->
  le_each begin ix -> lt_each ix (plus_each begin sizes) ->
  in_range sizes (minus_each ix begin) /\ shift begin (minus_each ix begin) = ix.
Proof.
elim: sizes begin ix => [|s ss IH] [|b bs] [|i ix] //= [e] [e'].
rewrite /le_each /lt_each /= => /andP[h1 h2] /andP[h3 h4].
have [l1 l2] := IH _ _ e e' h2 h4.
rewrite /in_range /= in l1 *; rewrite /minus_each /shift /= in l1 l2 *; rewrite l1 l2 subnKC // andbT.
by split=> //; rewrite ltn_subLR.
Qed.

(** ** set_slice *)
Lemma set_slice_ok a b begin : size begin = size (dims a) -> size (dims b) = size (dims a) -> fits begin (dims b) (dims a) ->
  exists a', [/\ set_slice a b begin = Val a', dims a' = dims a,
    forall ix, in_range (dims b) ix -> comp a' (shift begin ix) = comp b ix &
    forall ix, in_range (dims a) ix -> (forall jx, in_range (dims b) jx -> ix <> shift begin jx) -> comp a' ix = comp a ix].
Proof.
move=> e1 e2 f; rewrite /set_slice fitsE // f; eexists; split; first by []; first by [].
- by move=> ix h /=; have [-> -> ->] := block_index (etrans e1 (esym e2)) h.
- move=> ix h out /=; case: ifP => // /andP[h1 h2].
  have [r s] := in_block (etrans e1 (esym e2)) (etrans (in_range_size h) (esym e2)) h1 h2.
  by case: (out _ r); rewrite s.
Qed.

Lemma set_slice_undefined a b begin : size begin = size (dims a) -> size (dims b) = size (dims a) ->
  ~~ fits begin (dims b) (dims a) -> set_slice a b begin = Undefined.
Proof. by move=> e1 e2 /negbTE f; rewrite /set_slice fitsE // f. Qed.

(** The nested loops do the same. *)
Lemma foldl_comp (F : arr A -> nat -> arr A) (P : nat -> seq nat -> bool) (v : nat -> seq nat -> option A) n a :
  (forall a i ix, dims (F a i) = dims a /\ comp (F a i) ix = if P i ix then v i ix else comp a ix) ->
  (forall i j ix, P i ix -> P j ix -> i = j) ->
  forall ix, dims (foldl F a (iota 0 n)) = dims a /\
    comp (foldl F a (iota 0 n)) ix = if [pick i : 'I_n | P i ix] is Some i then v i ix else comp a ix.
Proof.
move=> hF hP ix; elim: n => [|n [IH1 IH2]]; first by split=> //=; case: pickP => // -[].
rewrite -addn1 iotaD foldl_cat /= add0n; have [-> ->] := hF (foldl F a (iota 0 n)) n ix; split=> //.
rewrite addn1; case: ifP => pn.
  case: pickP => [i pi|/(_ ord_max)]; last by rewrite /= pn.
  by rewrite (hP _ _ _ pi pn).
rewrite IH2; case: pickP => [i pi|h]; case: pickP => [j pj|h'] //.
- by rewrite (hP _ _ _ pi pj).
- by have := h' (widen_ord (leqnSn n) i); rewrite /= pi.
- have jn : j < n by rewrite ltn_neqAle -ltnS ltn_ord andbT; apply/eqP => jn; rewrite jn pn in pj.
  by have := h (Ordinal jn); rewrite /= pj.
Qed.

Lemma assign_ok b begin ds j j' a : size begin = size ds ->
  dims (assign_slice_elements a b begin ds j j') = dims a /\
  forall ix, comp (assign_slice_elements a b begin ds j j') ix =
    if (take (size j') ix == j') && (size ix == size j' + size ds) &&
       le_each begin (drop (size j') ix) && lt_each (drop (size j') ix) (plus_each begin ds)
    then comp b (j ++ minus_each (drop (size j') ix) begin) else comp a ix.
Proof.
elim: ds begin j j' a => [|d ds IH] [|b0 begin] //= j j' a.
  move=> _; split=> // ix; rewrite /le_each /lt_each /minus_each /= addn0; case: eqP => [->|ne].
    by rewrite take_size eqxx drop_size /= eqxx /= cats0.
  case: ifP => // /andP[/andP[/andP[/eqP t /eqP s] _] _]; case: ne; by have := take_size ix; rewrite s t.
case=> e.
pose P i ix := (take (size (rcons j' (b0 + i))) ix == rcons j' (b0 + i)) && (size ix == size (rcons j' (b0 + i)) + size ds) &&
       le_each begin (drop (size (rcons j' (b0 + i))) ix) && lt_each (drop (size (rcons j' (b0 + i))) ix) (plus_each begin ds).
pose v i ix := comp b (rcons j i ++ minus_each (drop (size (rcons j' (b0 + i))) ix) begin).
have hF a' i ix : dims (assign_slice_elements a' b begin ds (rcons j i) (rcons j' (b0 + i))) = dims a' /\
    comp (assign_slice_elements a' b begin ds (rcons j i) (rcons j' (b0 + i))) ix = if P i ix then v i ix else comp a' ix.
  have [h1 h2] := IH begin (rcons j i) (rcons j' (b0 + i)) a' e; split=> //; exact: h2.
have hP i k ix : P i ix -> P k ix -> i = k.
  move=> /andP[/andP[/andP[/eqP p1 _] _] _] /andP[/andP[/andP[/eqP p2 _] _] _].
  move: p1; rewrite !size_rcons in p2 *; rewrite p2 => /rcons_inj[] /eqP; by rewrite eqn_add2l => /eqP.
have fc := foldl_comp d a hF hP; split=> [|ix]; first by case: (fc [::]).
have [_ ->] := fc ix.
set m := size j'.
have [sm|sm] := leqP (size ix) m.
  case: pickP => [i /andP[/andP[/andP[_ /eqP s] _] _]|_].
    by move: sm; rewrite s size_rcons -/m addSn ltnNge leq_addr.
  case: ifP => // /andP[/andP[/andP[_ /eqP s] _] _]; by move: sm; rewrite s addnS ltnNge leq_addr.
pose x := nth 0 ix m.
have dx : drop m ix = x :: drop m.+1 ix by rewrite (drop_nth 0).
have tx i : (take m.+1 ix == rcons j' i) = (take m ix == j') && (x == i).
  by rewrite (take_nth 0) // eqseq_rcons.
rewrite dx /le_each /lt_each /minus_each /=.
case: pickP => [i|h].
  rewrite /P size_rcons -/m tx => /andP[/andP[/andP[/andP[/eqP t /eqP xi] /eqP s] l1] l2].
  rewrite t eqxx s addSnnS eqxx /= xi leq_addr ltn_add2l ltn_ord /= -/(le_each _ _) -/(lt_each _ _) l1 l2 /=.
  by rewrite /v size_rcons -/m cat_rcons addKn.
case: ifP => // /andP[/andP[/andP[/eqP t /eqP s] /andP[l1 l2]] /andP[l3 l4]].
have hx : x - b0 < d by rewrite ltn_subLR.
have := h (Ordinal hx); rewrite /P size_rcons -/m tx t eqxx /= subnKC // eqxx s addSnnS eqxx /=.
by rewrite /le_each /lt_each l2 l4.
Qed.

Lemma assign_slice_ok a b begin a' : size begin = size (dims a) -> size (dims b) = size (dims a) ->
  set_slice a b begin = Val a' -> same (assign_slice_elements a b begin (dims b) [::] [::]) a'.
Proof.
move=> e1 e2; rewrite /set_slice; case: ifP => // f [<-].
have [h1 h2] := @assign_ok b begin (dims b) [::] [::] a (etrans e1 (esym e2)).
split=> //= ix; rewrite h1 => r; rewrite h2 /= take0 eqxx drop0 /=.
by rewrite add0n (in_range_size r) -e2 eqxx.
Qed.

(** ** get_slice *)
Lemma lib_slice_ok a offs exts : size offs = size (dims a) -> size exts = size (dims a) -> fits offs exts (dims a) ->
  exists s, lib_slice a offs exts = Val s /\ dims s = exts /\ forall ix, comp s ix = comp a (shift offs ix).
Proof. by move=> e1 e2 f; rewrite /lib_slice fitsE // f; eexists; split. Qed.

Lemma size_expand ixs lim d k : size (expand ixs lim d k) = k.
Proof. by rewrite size_map size_iota. Qed.

Lemma get_slice_gen ixs a offs exts : 0 < size offs <= rank a -> size exts = size offs ->
  let o := expand ixs offs (fun=> 0) (rank a) in let e := expand ixs exts (dim a) (rank a) in
  fits o e (dims a) ->
  (returns (get_slice ixs a offs exts) (slice_of a o e) <-> forall i, size offs <= i < rank a -> nth 0 e i = 1).
Proof.
move=> /andP[n0 nk] ee o e f; rewrite /get_slice eqn0Ngt n0 /= /get_slice_impl.
have [s [-> [ds cs]]] := @lib_slice_ok a o e (size_expand _ _ _ _) (size_expand _ _ _ _) f.
rewrite /=; set m := size offs.
have se : size e = rank a by rewrite size_expand.
have key : (take m e ++ nseq (rank a - m) 1 = e) <-> forall i, m <= i < rank a -> nth 0 e i = 1.
  split=> [h i /andP[i1 i2]|h].
    rewrite -h nth_cat size_takel ?se // ltnNge i1 /= nth_nseq ltn_sub2r //; exact: leq_ltn_trans i1 i2.
  rewrite -[RHS](cat_take_drop m); congr cat; apply: (@eq_from_nth _ 0); rewrite size_nseq ?size_drop ?se // => i hi.
  by rewrite nth_nseq hi nth_drop h // leq_addr -ltn_subRL.
split=> [[r [<-] [/= dr _]]|h]; first by apply/key.
eexists; first by []; split=> /=; first by apply/key.
by move=> ix _; rewrite cs.
Qed.

End P.
