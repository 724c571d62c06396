(** * Proofs about slices and splitting. *)
From mathcomp Require Import all_ssreflect.
From Verif Require Import TileModel TileSpec TileProofs TileProofs2 TileProofs3 TileProofs4.
Set Implicit Arguments.
Unset Strict Implicit.
Unset Printing Implicit Defensive.
Arguments set_slice : simpl never.

Section P.
Variable A : Type.
Implicit Types (a b t : arr A) (bs : seq (arr A)).

Lemma expand_leading (lim : seq nat) d r : size lim <= r ->
  expand (iota 0 (size lim)) lim d r = lim ++ [seq d i | i <- iota (size lim) (r - size lim)].
Proof.
move=> h; rewrite /expand; have -> : iota 0 r = iota 0 (size lim) ++ iota (size lim) (r - size lim).
  by rewrite -{2}[size lim]add0n -iotaD subnKC.
rewrite map_cat; congr cat.
  apply: (@eq_from_nth _ 0); first by rewrite size_map size_iota.
  move=> i; rewrite size_map size_iota => hi; rewrite (nth_map 0) ?size_iota // nth_iota // add0n mem_iota add0n hi /=.
  have := @index_uniq _ 0 i (iota 0 (size lim)); rewrite size_iota iota_uniq nth_iota // add0n => -> //.
apply/eq_in_map => i; rewrite mem_iota => /andP[hi _]; by rewrite mem_iota add0n ltnNge hi.
Qed.

Lemma map_const T (x : T) (s : seq nat) : [seq x | _ <- s] = nseq (size s) x.
Proof. by elim: s => //= _ s ->. Qed.

(** The first [size offs] indices, the others one-dimensional. *)
Lemma get_slice_first a offs exts : 0 < size offs <= rank a -> size exts = size offs ->
  (forall i, i < size offs -> nth 0 offs i + nth 0 exts i <= dim a i) ->
  (forall i, size offs <= i < rank a -> dim a i = 1) ->
  let pad x := nseq (rank a - size offs) x in
  returns (get_slice (iota 0 (size offs)) a offs exts) (slice_of a (offs ++ pad 0) (exts ++ pad 1)).
Proof.
move=> h se hf h1 pad; have [_ hr] := andP h.
have eo : expand (iota 0 (size offs)) offs (fun=> 0) (rank a) = offs ++ pad 0.
  by rewrite expand_leading // map_const size_iota.
have ee : expand (iota 0 (size offs)) exts (dim a) (rank a) = exts ++ pad 1.
  rewrite -se expand_leading ?se //; congr cat; rewrite /pad -[in RHS](size_iota (size offs) (rank a - size offs)) -map_const.
  apply/eq_in_map => i; rewrite mem_iota subnKC // => hi; exact: h1.
have := @get_slice_gen _ (iota 0 (size offs)) a offs exts h se; rewrite /= eo ee; case.
  rewrite /fits /shift zip_cat ?se // map_cat all2E size_cat !size_map !size_zip se minnn !size_nseq minnn subnKC // eqxx /=.
  apply/(all_nthP (0, 0)) => i; rewrite size_zip size_cat !size_map !size_zip se minnn !size_nseq minnn subnKC // minnn => hi.
  rewrite nth_zip ?size_cat ?size_map ?size_zip ?se ?minnn ?size_nseq ?minnn ?subnKC //= nth_cat size_map size_zip se minnn.
  case: (ltnP i (size offs)) => hio.
    rewrite (nth_map (0, 0)) ?size_zip ?se ?minnn // nth_zip ?se //=.
    by apply: leq_trans (hf i hio) _; rewrite /dim (set_nth_default 0).
  have hi' : i - size offs < rank a - size offs by rewrite ltn_sub2r // (leq_ltn_trans hio).
  rewrite (nth_map (0, 0)) ?size_zip ?size_nseq ?minnn // nth_zip ?size_nseq //= !nth_nseq hi' add0n.
  by rewrite (set_nth_default 1) // -/(dim a i) h1 // hio.
move=> _; apply=> i /andP[h2 h3]; rewrite nth_cat se ltnNge h2 /= nth_nseq ifT // ltn_sub2r //.
exact: leq_ltn_trans h3.
Qed.

Lemma all_same_refl bs : all_same bs bs. Proof. by []. Qed.

Lemma split_impl_ok a k begin sizes : 0 < k <= rank a -> size begin = k -> (forall s, s \in sizes -> size s = k) ->
  (forall i, i < k -> nth 0 begin i + sumn [seq nth 0 s i | s <- sizes] <= dim a i) ->
  (forall i, k <= i < rank a -> dim a i = 1) ->
  exists2 out, split_impl (iota 0 k) a begin sizes = Val out &
    all_same out [seq slice_of a (shift begin (offsets k sizes p) ++ nseq (rank a - k) 0)
                      (nth [::] sizes p ++ nseq (rank a - k) 1) | p <- iota 0 (size sizes)].
Proof.
move=> hk sb hs hf h1; elim: sizes begin sb hs hf => [|s ss IH] begin sb hs hf; first by exists [::].
have ss_ : size s = k by apply: hs; exact: mem_head.
have q1 : size s = size begin by rewrite ss_.
have q0 : 0 < size begin <= rank a by rewrite sb.
have [||g eg sg] := get_slice_first q0 q1.
- by move=> i; rewrite sb => hi; apply: leq_trans (hf i hi); rewrite leq_add2l leq_addr.
- by rewrite sb.
have sp : size (plus_each begin s) = k by rewrite size_map size_zip q1 minnn.
have np i : i < k -> nth 0 (plus_each begin s) i = nth 0 begin i + nth 0 s i.
  by move=> hi; rewrite (nth_map (0, 0)) ?size_zip ?q1 ?minnn ?sb // nth_zip.
have [||out eo so] := IH (plus_each begin s) sp.
- by move=> s' h; apply: hs; rewrite inE h orbT.
- by move=> i hi; rewrite np // -addnA; exact: hf.
exists (g :: out); first by rewrite /= -{1}sb eg /= eo.
case: so => so hp; split=> /=; first by rewrite so !size_map !size_iota.
have hoff p : shift begin (offsets k (s :: ss) p.+1) = shift (plus_each begin s) (offsets k ss p).
  have so1 (t : seq (seq nat)) q : size (offsets k t q) = k by rewrite size_map size_iota.
  apply: (@eq_from_nth _ 0); first by rewrite !size_map !size_zip !so1 sp sb.
  move=> i; rewrite size_map size_zip so1 sb minnn => hi.
  rewrite !(nth_map (0, 0)) ?size_zip ?so1 ?sp ?sb ?minnn // !nth_zip ?so1 ?sp ?sb //=.
  by rewrite !(nth_map 0) ?size_iota // nth_iota // add0n np // -addnA.
case=> [_|p].
  rewrite /= -sb in sg *; suff -> : shift begin (offsets (size begin) (s :: ss) 0) = begin by [].
  apply: (@eq_from_nth _ 0); first by rewrite !size_map size_zip size_map size_iota minnn.
  move=> i; rewrite size_map size_zip size_map size_iota minnn => hi.
  by rewrite (nth_map (0, 0)) ?size_zip ?size_map ?size_iota ?minnn // nth_zip ?size_map ?size_iota //= (nth_map 0) ?size_iota // addn0.
rewrite !size_map size_iota ltnS => hp'; have := hp p; rewrite !size_map size_iota => /(_ hp').
rewrite !(nth_map 0) ?size_iota // !nth_iota // add0n.
have en x (t : seq (arr A)) : nth none (x :: t) p.+1 = nth none t p by [].
by rewrite !en (nth_map 0) ?size_iota // nth_iota // add1n hoff.
Qed.

Lemma shift_zero k x : size x = k -> shift (nseq k 0) x = x. Proof. exact: shift0. Qed.

Theorem split_first a k sizes : 0 < k <= rank a -> (forall s, s \in sizes -> size s = k) ->
  (forall i, i < k -> sumn [seq nth 0 s i | s <- sizes] <= dim a i) ->
  (forall i, k <= i < rank a -> dim a i = 1) ->
  exists2 out, split (iota 0 k) a sizes = Val out &
    all_same out [seq slice_of a (offsets k sizes p ++ nseq (rank a - k) 0)
                      (nth [::] sizes p ++ nseq (rank a - k) 1) | p <- iota 0 (size sizes)].
Proof.
move=> hk hs hf h1; have hf' i : i < k -> nth 0 (nseq k 0) i + sumn [seq nth 0 s i | s <- sizes] <= dim a i.
  by move=> hi; rewrite nth_nseq hi add0n; exact: hf.
have [out eo so] := split_impl_ok hk (size_nseq k 0) hs hf' h1.
exists out.
  rewrite /split size_iota ifT //; apply/allP => -[i j] /(nthP (0, 0))[p].
  by rewrite size_zip !size_iota minnn => hp; rewrite nth_zip ?size_iota // nth_iota // add0n => -[<- <-]; exact: hf.
suff <- : [seq slice_of a (shift (nseq k 0) (offsets k sizes p) ++ nseq (rank a - k) 0)
                      (nth [::] sizes p ++ nseq (rank a - k) 1) | p <- iota 0 (size sizes)] =
  [seq slice_of a (offsets k sizes p ++ nseq (rank a - k) 0)
                      (nth [::] sizes p ++ nseq (rank a - k) 1) | p <- iota 0 (size sizes)] by [].
by apply/eq_in_map => p _; rewrite shift0 // size_map size_iota.
Qed.

Theorem split_thrown a ixs sizes : (exists2 i, i < size ixs & dim a (nth 0 ixs i) < sumn [seq nth 0 s i | s <- sizes]) ->
  split ixs a sizes = Thrown.
Proof.
move=> [i hi hlt]; rewrite /split ifF //; apply/negP => /allP /(_ (nth 0 ixs i, i)) h.
suff : (nth 0 ixs i, i) \in zip ixs (iota 0 (size ixs)) by move/h => /=; rewrite leqNgt hlt.
apply/(nthP (0, 0)); exists i; first by rewrite size_zip size_iota minnn.
by rewrite nth_zip ?size_iota // nth_iota.
Qed.

Lemma locate_offset ss p x : p < size ss -> x < nth 0 ss p -> locate ss (sumn (take p ss) + x) = (p, x).
Proof.
elim: ss p => [//|s ss IH] [|p] //= hp hx; first by rewrite hx.
by rewrite -addnA ltnNge leq_addr /= addKn IH.
Qed.

Lemma sumn_take_lt ss p x : p < size ss -> x < nth 0 ss p -> sumn (take p ss) + x < sumn ss.
Proof.
elim: ss p => [//|s ss IH] [|p] //= hp hx; first by rewrite (leq_trans hx) // leq_addr.
by rewrite -addnA ltn_add2l; exact: IH.
Qed.

Theorem split_block_diagonal (zero : A) a bs : bs <> [::] -> (forall p, p < size bs -> matrix (nth none bs p)) ->
  same a (block_diagonal zero bs) ->
  exists2 out, split [:: 0; 1] a [seq dims b | b <- bs] = Val out & all_same out bs.
Proof.
move=> nb hb [da ca].
have ra : rank a = 2 by rewrite /rank da.
have dd i : i < 2 -> [seq nth 0 s i | s <- [seq dims b | b <- bs]] = [seq dim b i | b <- bs].
  move=> hi; apply: (@eq_from_nth _ 0); first by rewrite !size_map.
  move=> p; rewrite !size_map => hp; rewrite !(nth_map none) ?(nth_map [::]) ?size_map // ?(nth_map none) //.
  by rewrite /dim (set_nth_default 0) //; case/and3P: (hb p hp) => /eqP->.
have [||||out eo [so hp]] := @split_first a 2 [seq dims b | b <- bs].
- by rewrite ra.
- by move=> s /(nthP [::])[p]; rewrite size_map => hp <-; rewrite (nth_map none) //; case/and3P: (hb p hp) => /eqP->.
- by move=> i hi; rewrite dd // /dim da; move: hi; case: i => [|[|]].
- by rewrite ra => i /andP[h1 h2]; move: h2; rewrite ltnNge h1.
exists out => //; rewrite ra subnn in hp so; rewrite !size_map size_iota in so hp; split=> // p h.
have := hp p h; rewrite (nth_map 0) ?size_iota ?size_map // nth_iota ?size_map // add0n !cats0.
have -> : nth [::] [seq dims b | b <- bs] p = dims (nth none bs p) by rewrite (nth_map none).
move/same_trans; apply; split=> // ix; rewrite [dims (slice_of _ _ _)]/= (dims2 (hb p h)).
case: ix => [|i [|j [|? ?]]] //=; rewrite ?andbF // andbT => /andP[hi hj].
rewrite /shift /= !map_take !dd //=.
have n0 q : nth 0 [seq dim b q | b <- bs] p = dim (nth none bs p) q by rewrite (nth_map none).
rewrite -n0 in hi; rewrite -n0 in hj; have l0 := sumn_take_lt _ hi; have l1 := sumn_take_lt _ hj.
rewrite !size_map in l0 l1; rewrite ca; last by rewrite da /= l0 // l1.
by rewrite /= !locate_offset ?size_map //= eqxx.
Qed.

Theorem split_column a bs : bs <> [::] -> (forall p, p < size bs -> matrix (nth none bs p) /\ dim (nth none bs p) 1 = 1) ->
  same a (joined 0 bs) ->
  exists2 out, split [:: 0] a [seq [:: dim b 0] | b <- bs] = Val out & all_same out bs.
Proof.
move=> nb hb [da ca].
have hd : dims (head none bs) = [:: dim (head none bs) 0; 1].
  case: bs nb hb {da ca} => // b bs _ hb; have [m e] := hb 0 isT; by rewrite [LHS]dims2 //= e.
have {}da : dims a = [:: sumn [seq dim b 0 | b <- bs]; 1] by rewrite da /= hd.
have ra : rank a = 2 by rewrite /rank da.
have dd : [seq nth 0 s 0 | s <- [seq [:: dim b 0] | b <- bs]] = [seq dim b 0 | b <- bs].
  by rewrite -map_comp; apply: eq_map.
have [||||out eo [so hp]] := @split_first a 1 [seq [:: dim b 0] | b <- bs].
- by rewrite ra.
- by move=> s /(nthP [::])[p]; rewrite size_map => hp <-; rewrite (nth_map none).
- by case=> // _; rewrite dd /dim da.
- by rewrite ra /dim da => -[|[|i]].
exists out => //; rewrite ra in hp so; rewrite !size_map size_iota in so hp; split=> // p h.
have := hp p h; rewrite (nth_map 0) ?size_iota ?size_map // nth_iota ?size_map // add0n.
have -> : nth [::] [seq [:: dim b 0] | b <- bs] p = [:: dim (nth none bs p) 0] by rewrite (nth_map none).
have [m e1] := hb p h.
move/same_trans; apply; split; first by rewrite /= dims2 // e1.
move=> ix; rewrite [dims (slice_of _ _ _)]/=.
case: ix => [|i [|j [|? ?]]] //=; rewrite ?andbF // andbT => /andP[hi hj].
rewrite /shift /= map_take dd /= add0n.
have n0 q : nth 0 [seq dim b q | b <- bs] p = dim (nth none bs p) q by rewrite (nth_map none).
rewrite -n0 in hi; have l0 := sumn_take_lt _ hi; rewrite !size_map in l0; rewrite ca; last by rewrite da /= l0 // hj.
by rewrite /= !locate_offset ?size_map.
Qed.

(** ** Reading back what was written *)

Theorem set_get_slice a b offs : 0 < size offs -> size offs = rank a -> rank b = rank a -> fits offs (dims b) (dims a) ->
  exists2 a', set_slice a b offs = Val a' & returns (get_slice (iota 0 (rank a)) a' offs (dims b)) b.
Proof.
move=> s0 so rb hf; have [a' [e da cb _]] := set_slice_ok so rb hf; exists a' => //.
have ra : rank a' = rank a by rewrite /rank da.
have h : 0 < size offs <= rank a' by rewrite s0 ra so leqnn.
have se : size (dims b) = size offs by rewrite so.
have [||g eg sg] := get_slice_first h se.
- move=> i hi; rewrite /dim da; move: hf; rewrite /fits all2E => /andP[sz /(all_nthP (0, 0))].
  rewrite size_zip (eqP sz) minnn => /(_ i); rewrite -/(rank a) -so => /(_ hi); rewrite nth_zip ?(eqP sz) //= /shift.
  rewrite (nth_map (0, 0)) ?size_zip ?se ?minnn // nth_zip ?se //= => le.
  by rewrite (set_nth_default 0) // -/(rank a) -so.
- by move=> i; rewrite ra so => /andP[h1]; rewrite ltnNge h1.
exists g; first by rewrite -so.
apply: same_trans sg _; rewrite ra so subnn !cats0; split=> //= ix r; exact: cb.
Qed.

End P.
