(** * Proofs about component-wise operations: dimensions, in place, several operations. *)
From mathcomp Require Import all_ssreflect.
From Verif Require Import TileModel TileSpec TileProofs TileProofs3 TileProofs4 NaryModel NarySpec NaryProofs.
Set Implicit Arguments.
Unset Strict Implicit.
Unset Printing Implicit Defensive.

Section Auto.
Variables T U S : Type.
Implicit Types (a : src T) (args : seq (src T)) (op : oper T U S).

Lemma all_dims_ok (R : nat -> res (bool * nat)) ds : (forall i, i < size ds -> exists f, R i = Val (f, nth 0 ds i)) ->
  exists fds, all_dims [seq R i | i <- iota 0 (size ds)] = Val fds /\ [seq p.2 | p <- fds] = ds /\ size fds = size ds.
Proof.
suff gen : forall k, (forall i, i < size ds -> exists f, R (k + i) = Val (f, nth 0 ds i)) ->
  exists fds, all_dims [seq R i | i <- iota k (size ds)] = Val fds /\ [seq p.2 | p <- fds] = ds /\ size fds = size ds.
  by move=> h; apply: gen => i /h.
elim: ds => [|d ds IH] k h; first by exists [::].
have [f e] := h 0 isT; rewrite addn0 in e.
have [|fds [e1 [e2 e3]]] := IH k.+1; first by move=> i hi; rewrite addSnnS; exact: (h i.+1).
by exists ((f, d) :: fds); rewrite /= e /= e1 /= e2 e3.
Qed.

Lemma In_mem (X : Type) (Y : eqType) (f : X -> Y) s x : List.In x s -> f x \in map f s.
Proof. by elim: s => //= y s IH [->|/IH h]; rewrite inE ?eqxx // h orbT. Qed.

Lemma leq_foldr_max s x : x \in s -> x <= foldr maxn 0 s.
Proof. by elim: s => //= y s IH; rewrite inE leq_max => /orP[/eqP->|/IH->]; rewrite ?leqnn ?orbT. Qed.

Lemma auto_ok library op args s ds : size ds = foldr maxn 0 [seq size (sdims a) | a <- args] ->
  (forall i, i < size ds -> matching (nth 0 ds i) (dims_along args i) /\ last_not_one (nth 0 ds i) (dims_along args i)) ->
  (forall a, List.In a args -> broadcastable ds a) /\
  exists2 st, size st = size ds & n_ary_operation_auto library op args s = n_ary_impl library ds st op args s.
Proof.
move=> es h; split.
  move=> a ha; split; first by rewrite es; apply: leq_foldr_max; exact: In_mem.
  by move=> i /h[[_ [hm _]] _]; exact: (hm (fixed_at a i, sdim a i) (In_mem (fun a => (fixed_at a i, sdim a i)) ha)).
rewrite /n_ary_operation_auto -es.
have [|fds [e1 [e2 e3]]] := @all_dims_ok (fun i => find_max_dim (dims_along args i)) ds.
  by move=> i /h[h1 h2]; exact: find_max_ok.
by rewrite e1 /= e2; exists [seq p.1 | p <- fds]; rewrite ?size_map.
Qed.

Lemma single_ones st (ds : seq nat) : size st = size ds -> single st ds -> all (fun d => d == 1) ds.
Proof. by elim: ds st => [|d ds IH] [|b st] //= [e] /andP[/andP[_ ->] /IH]; apply. Qed.

End Auto.

(** ** In place *)
Section InPlace.
Variables T S : Type.

Lemma in_place_fold op order (m : seq nat -> T) (s : S) : uniq order ->
  let f s j := let r := op s (m j) j in (r.1.1, r.2) in
  let r := foldl (in_place_visit op) (m, s) order in
  r.2 = (replay f s order).2 /\
  (forall k, k < size order -> Some (r.1 (nth [::] order k)) = ohead (drop k (replay f s order).1)) /\
  (forall ix, ix \notin order -> r.1 ix = m ix).
Proof.
elim: order m s => [|j order IH] m s //= /andP[nj uo].
have [e1 [e2 e3]] := IH (in_place_visit op (m, s) j).1 (in_place_visit op (m, s) j).2 uo.
rewrite -surjective_pairing in e1 e2 e3.
have ex t : replay (fun s1 j0 => let r := op s1 ((in_place_visit op (m, s) j).1 j0) j0 in (r.1.1, r.2)) t order =
   replay (fun s1 j0 => let r := op s1 (m j0) j0 in (r.1.1, r.2)) t order.
  apply: replay_ext => s1 j0 hj /=; case: eqP => // e; move: nj; by rewrite -e hj.
rewrite ex in e1 e2; split; first by rewrite e1.
split=> [[_|k hk]|ix]; first by rewrite /= e3 //= eqxx.
- by rewrite /= e2.
by rewrite inE negb_or => /andP[n1 n2]; rewrite e3 //= (negbTE n1).
Qed.

End InPlace.

(** ** Several nullary operations *)

Lemma nset_mem ds q ixs ks j ix : 
  (forall p, p < size ds -> q + p \in ixs -> nth 0 ks (index (q + p) ixs) < nth 0 ds p) -> uniq ixs -> size ks = size ixs ->
  (ix \in nullary_set ds q ixs ks j) =
  [&& take (size j) ix == j, in_range ds (drop (size j) ix) &
      all (fun p => (q + p \in ixs) ==> (nth 0 (drop (size j) ix) p == nth 0 ks (index (q + p) ixs))) (iota 0 (size ds))].
Proof.
move=> + ui sk; elim: ds q j => [|d ds IH] q j hk /=.
  rewrite inE andbT; apply/eqP/andP => [->|[/eqP e h]]; first by rewrite take_size eqxx drop_size.
  by rewrite -[LHS](cat_take_drop (size j)) e; case: (drop _ _) h => //= *; rewrite cats0.
have hk' p : p < size ds -> q.+1 + p \in ixs -> nth 0 ks (index (q.+1 + p) ixs) < nth 0 ds p.
  by move=> hp; rewrite addSnnS; exact: (hk p.+1).
have sum1 : q \in ixs -> sumn [seq if p.1 == q then p.2 else 0 | p <- zip ixs ks] = nth 0 ks (index q ixs).
  elim: ixs ks ui sk {hk hk' IH} => //= x xs IHx [|k ks] //= /andP[nx ux] [sk]; rewrite inE.
  case: (eqVneq q x) => [e _|ne /= hq]; last by rewrite IHx.
  rewrite -{x}e in nx; rewrite /=; suff -> : sumn [seq if p.1 == q then p.2 else 0 | p <- zip xs ks] = 0 by rewrite addn0.
  elim: xs ks nx {IHx ux sk} => [|y ys IHy] [|z ks] //=; rewrite inE negb_or => /andP[n1 n2].
  by rewrite eq_sym (negbTE n1) IHy.
have tail i : (ix \in nullary_set ds q.+1 ixs ks (rcons j i)) =
  [&& take (size j) ix == j, size j < size ix, nth 0 ix (size j) == i, in_range ds (drop (size j).+1 ix) &
     all (fun p => (q.+1 + p \in ixs) ==> (nth 0 (drop (size j).+1 ix) p == nth 0 ks (index (q.+1 + p) ixs))) (iota 0 (size ds))].
  rewrite IH // size_rcons; case: (ltnP (size j) (size ix)) => hs.
    by rewrite (take_nth 0) // eqseq_rcons -andbA /=.
  rewrite [_ == rcons _ _](_ : _ = false) ?andbF //; apply/eqP => e; move: (congr1 size e).
  by rewrite size_take_min size_rcons => h'; have := geq_minr (size j).+1 (size ix); rewrite h' ltnNge hs.
have shiftall : all (fun p => (q.+1 + p \in ixs) ==> (nth 0 (drop (size j).+1 ix) p == nth 0 ks (index (q.+1 + p) ixs))) (iota 0 (size ds)) =
  all (fun p => (q + p \in ixs) ==> (nth 0 (drop (size j) ix) p == nth 0 ks (index (q + p) ixs))) (iota 1 (size ds)).
  rewrite (iotaDl 1 0) all_map; apply: eq_all => p /=; by rewrite addSnnS add1n !nth_drop addSnnS.
rewrite addn0 nth_drop addn0 -shiftall.
have dr : size j < size ix -> drop (size j) ix = nth 0 ix (size j) :: drop (size j).+1 ix by move=> hs; rewrite (drop_nth 0).
case hq : (q \in ixs) => /=.
  have hk0 := hk 0 isT; rewrite addn0 in hk0; have {}hk0 := hk0 hq.
  rewrite sum1 // tail; case: (ltnP (size j) (size ix)) => hs; last first.
    by rewrite [drop (size j) ix]drop_oversize //= [X in (_ && X) = _]/= !andbF.
  rewrite dr //=; case: eqP => //= _; case: eqP => /= [->|ne]; last by rewrite !andbF.
  by rewrite hk0.
apply/flattenP/idP => [[t /mapP[i]]|].
  rewrite mem_iota add0n => /andP[_ hi] -> {t}; rewrite tail => /and5P[h1 h2 /eqP h3 h4 h5].
  by rewrite h1 dr //= h3 hi h4 h5.
move=> /and3P[h1 h2 h3]; have hs : size j < size ix.
  by rewrite ltnNge; apply/negP => hx; move: h2; rewrite drop_oversize.
move: h2; rewrite dr //= => /andP[h4 h5].
exists (nullary_set ds q.+1 ixs ks (rcons j (nth 0 ix (size j)))); first by apply/mapP; exists (nth 0 ix (size j)) => //; rewrite mem_iota.
by rewrite tail h1 hs eqxx h5.
Qed.

Lemma major_acc ds ix r acc : foldl (fun acc i => acc * nth 1 ds i + nth 0 ix i) acc r =
  acc * foldr muln 1 [seq nth 1 ds i | i <- r] + major_order ds r ix.
Proof.
rewrite /major_order; elim: r acc => [|i r IH] acc /=; first by rewrite muln1 addn0.
by rewrite IH [foldl _ (0 * _ + _) _]IH mul0n add0n mulnDl mulnA addnA.
Qed.

Lemma leaf_mem ds ixs ks j : uniq ixs -> all (fun i => i < size ds) ixs -> size ks = size ixs ->
  (forall p, p < size ixs -> nth 0 ks p < nth 0 ds (nth 0 ixs p)) ->
  (j \in nullary_set ds 0 ixs ks [::]) = in_range ds j && (along ixs j == ks).
Proof.
move=> ui hi sk hk; rewrite nset_mem //; last first.
  by move=> p hp hx; rewrite add0n in hx *; have := hk (index p ixs); rewrite nth_index // index_mem; apply.
rewrite /= take0 drop0 eqxx /=; congr (_ && _); apply/allP/eqP => h.
  apply: (@eq_from_nth _ 0); first by rewrite size_map.
  move=> p; rewrite size_map => hp; rewrite (nth_map 0) //.
  have hm : nth 0 ixs p \in ixs by rewrite mem_nth.
  have := h (nth 0 ixs p); rewrite mem_iota add0n (allP hi _ hm) => /(_ isT).
  by rewrite hm /= index_uniq // => /eqP.
move=> p _; apply/implyP => hp; rewrite add0n in hp *.
by rewrite -h (nth_map 0) ?index_mem // nth_index.
Qed.

Lemma iterate_mem ds ixs done rest cur f ks k j : uniq ixs -> all (fun i => i < size ds) ixs -> ixs = done ++ rest ->
  size ks = size done -> (forall p, p < size done -> nth 0 ks p < nth 0 ds (nth 0 done p)) ->
  all (fun d => 0 < d) ds -> f = foldr muln 1 [seq nth 1 ds i | i <- rest] ->
  ((k, j) \in nullary_iterate ds ixs cur f rest ks) = [&& in_range ds j, along done j == ks & k == cur + major_order ds rest j].
Proof.
move=> ui hi + + + hd; elim: rest done cur f ks => [|i r IH] done cur f ks.
  rewrite cats0 => <- sk hk _; rewrite /= addn0.
  apply/mapP/and3P => [[j0 + [-> ->]]|[h1 h2 /eqP ->]]; first by rewrite leaf_mem // => /andP[-> ->].
  by exists j => //; rewrite leaf_mem // h1.
move=> ei sk hk -> /=.
have hii : i < size ds by apply: (allP hi); rewrite ei mem_cat inE eqxx orbT.
have e1 : nth 1 ds i = nth 0 ds i by apply: set_nth_default.
have di : 0 < nth 1 ds i by rewrite e1; apply: (allP hd); rewrite mem_nth.
rewrite mulKn //; set g := foldr _ _ _.
have step J : J < nth 1 ds i -> ((k, j) \in nullary_iterate ds ixs (cur + g * J) g r (rcons ks J)) =
   [&& in_range ds j, along (rcons done i) j == rcons ks J & k == cur + g * J + major_order ds r j].
  move=> hJ; apply: IH => //; rewrite ?size_rcons ?sk //; first by rewrite cat_rcons.
  move=> p; rewrite ltnS leq_eqVlt => /orP[/eqP->|hp]; first by rewrite -{1}sk !nth_rcons !ltnn !eqxx -e1.
  by rewrite !nth_rcons sk hp; exact: hk.
have mo : major_order ds (i :: r) j = g * nth 0 j i + major_order ds r j.
  by rewrite /major_order /= mul0n add0n major_acc mulnC.
have al : along (rcons done i) j = rcons (along done j) (nth 0 j i) by rewrite /along map_rcons.
apply/flattenP/and3P => [[t /mapP[J]]|[h1 h2 /eqP h3]].
  rewrite mem_iota add0n => hJ -> {t}; rewrite step // al eqseq_rcons => /and3P[-> /andP[-> /eqP eJ] /eqP->].
  by rewrite mo eJ addnA.
have hJ : nth 0 j i < nth 1 ds i by rewrite e1; move: h1 => /(nth_in_range) h; apply: h.
exists (nullary_iterate ds ixs (cur + g * nth 0 j i) g r (rcons ks (nth 0 j i))).
  by apply/mapP; exists (nth 0 j i) => //; rewrite mem_iota.
by rewrite step // h1 al eqseq_rcons h2 eqxx /= h3 mo addnA.
Qed.

Lemma write_fold (X : Type) (w : seq (nat * seq nat)) (v : nat -> seq nat -> option X) k ix (m : seq nat -> option X) :
  (forall k', (k', ix) \in w -> k' = k) -> (k, ix) \in w \/ m ix = v k ix ->
  foldl (fun m p => fun ix => if ix == p.2 then v p.1 ix else m ix) m w ix = v k ix.
Proof.
elim: w m => [|[k1 j] w IH] m h /=; first by case.
move=> h0; apply: IH => [k' hk'|]; first by apply: h; rewrite inE hk' orbT.
rewrite /=; case: (eqVneq ix j) => [e|ne].
  by right; rewrite (h k1) // inE e eqxx.
by case: h0 => [|->]; rewrite ?inE /eq_op /= ?(negbTE ne) ?andbF; [left | right].
Qed.

Lemma row_major_order ds ix : size ix = size ds -> row_major ds ix = major_order ds (iota 0 (size ds)) ix.
Proof.
rewrite /row_major /major_order.
have gen n acc : size ix = size ds -> foldl (fun acc p => acc * p.1 + p.2) acc (zip (drop n ds) (drop n ix)) =
   foldl (fun acc i => acc * nth 1 ds i + nth 0 ix i) acc (iota n (size ds - n)).
  move=> e; move en : (size ds - n) => t; elim: t n en acc => [|t IH] n en acc.
    by rewrite drop_oversize; [case: (drop n ix) | rewrite -subn_eq0 en].
  have hn : n < size ds by rewrite -subn_gt0 en.
  have hx : n < size ix by rewrite e.
  by rewrite [drop n ds](drop_nth 1) // [drop n ix](drop_nth 0) //= IH // subnS en.
by move=> e; have := gen 0 0 e; rewrite !drop0 subn0.
Qed.

Lemma layout_order (left : bool) ds ix : size ix = size ds ->
  fill_place left ds ix = major_order ds (if left then rev (iota 0 (size ds)) else iota 0 (size ds)) ix.
Proof.
move=> e; rewrite /fill_place; case: left; last exact: row_major_order.
rewrite row_major_order ?size_rev // /major_order.
have -> : rev (iota 0 (size ds)) = [seq (size ds).-1 - i | i <- iota 0 (size ds)].
  apply: (@eq_from_nth _ 0); first by rewrite size_rev size_map.
  move=> i; rewrite size_rev size_iota => hi.
  rewrite nth_rev ?size_iota // nth_iota; last by rewrite ltn_subrL /=; case: (size ds) hi.
  by rewrite (nth_map 0) ?size_iota // nth_iota // !add0n -subn1 subnAC subn1 subnS.
suff gen s acc : all (fun i => i < size ds) s -> foldl (fun acc i => acc * nth 1 (rev ds) i + nth 0 (rev ix) i) acc s =
  foldl (fun acc i => acc * nth 1 ds i + nth 0 ix i) acc [seq (size ds).-1 - i | i <- s].
  by apply: gen; apply/allP => i; rewrite mem_iota.
elim: s acc => //= i s IH acc /andP[hi hs].
rewrite !nth_rev ?e // IH //.
have -> : (size ds).-1 - i = size ds - i.+1 by rewrite -subn1 subnAC subn1 subnS.
by [].
Qed.

Lemma nullary_ok (U : Type) (left : bool) ds statics takes ixs (ops : seq (seq nat -> U)) :
  uniq ixs -> all (fun i => i < size ds) ixs -> all (fun d => 0 < d) ds ->
  size ops = foldr muln 1 [seq nth 1 ds i | i <- ixs] ->
  statics && (size ops == foldr muln 1 ds) && ~~ takes = false \/ ixs = (if left then rev (iota 0 (size ds)) else iota 0 (size ds)) ->
  exists2 m, nullary_operations left ds statics takes ixs ops = Val m &
    dims m = ds /\ forall ix, in_range ds ix -> comp m ix = ohead [seq f ix | f <- drop (major_order ds ixs ix) ops].
Proof.
move=> ui hi hd es hb; rewrite /nullary_operations es eqxx -es.
case: ifP => hc.
  eexists; first by []; split=> //= ix r; case: hb => [|->]; first by rewrite hc.
  by rewrite layout_order // (in_range_size r).
eexists; first by []; split=> //= ix r.
set w := nullary_iterate _ _ _ _ _ _.
have hw k : ((k, ix) \in w) = (k == major_order ds ixs ix).
  by rewrite (@iterate_mem ds ixs [::] ixs) // r.
apply: (@write_fold U w (fun k ix => ohead [seq f ix | f <- drop k ops]) (major_order ds ixs ix)).
  by move=> k'; rewrite hw => /eqP.
by left; rewrite hw.
Qed.

(** The place along the indices is one of the operations. *)
Lemma major_lt ds ixs ix : all (fun i => i < size ds) ixs -> in_range ds ix ->
  major_order ds ixs ix < foldr muln 1 [seq nth 1 ds i | i <- ixs].
Proof.
move=> + r; elim: ixs => //= i s IH /andP[hi hs].
rewrite /major_order /= major_acc mul0n add0n.
have h := IH hs; have hx : nth 0 ix i < nth 1 ds i by rewrite (set_nth_default 0) //; exact: nth_in_range.
apply: (@leq_trans ((nth 0 ix i).+1 * foldr muln 1 [seq nth 1 ds i | i <- s])); last by rewrite leq_mul2r hx orbT.
by rewrite mulSn addnC ltn_add2r.
Qed.
