(** * Proofs about concatenation and splitting. *)
From mathcomp Require Import all_ssreflect.
From Verif Require Import TileModel TileSpec TileProofs TileProofs2 TileProofs3.
Set Implicit Arguments.
Unset Strict Implicit.
Unset Printing Implicit Defensive.
Arguments set_slice : simpl never.

Section P.
Variable A : Type.
Variables (zero : A) (near : A -> A -> bool) (conj : A -> A).
Implicit Types (a b t : arr A) (bs row : seq (arr A)) (o : obj A) (args : seq (obj A)).
Notation value := (value zero conj).
Notation concatenate := (concatenate zero near conj).
Notation const_of := (const_of zero).

Lemma foldr_max (s : seq nat) r : {in s, forall x, x <= r} -> r \in s -> foldr maxn 0 s = r.
Proof.
move=> h hr; apply/eqP; rewrite eqn_leq; apply/andP; split.
  elim: s h {hr} => //= x s IH h; rewrite geq_max h ?mem_head //=; apply: IH => y hy; by apply: h; rewrite inE hy orbT.
elim: s hr {h} => //= x s IH; rewrite inE leq_max => /orP[/eqP->|/IH->]; by rewrite ?leqnn ?orbT.
Qed.

Lemma concat_rank_ok ixs bs r : bs <> [::] -> (forall p, p < size bs -> size (dims (nth none bs p)) = r) ->
  {in ixs, forall i, i <= r} -> concat_rank ixs bs = r.
Proof.
move=> nb hb hi; apply: foldr_max.
  move=> x; rewrite mem_cat => /orP[/(nthP 0)[p]|]; last exact: hi.
  by rewrite size_map => hp <-; rewrite (nth_map none) // /rank hb.
rewrite mem_cat; apply/orP; left; case: bs nb hb => //= b bs _ hb; have := hb 0 isT; rewrite /= => <-; exact: mem_head.
Qed.

Lemma concat_dims_ok ixs bs r : (forall p, p < size bs -> size (dims (nth none bs p)) = r) ->
  (forall p q, p < size bs -> q < r -> q \notin ixs -> dim (nth none bs p) q = dim (head none bs) q) ->
  concat_dims ixs r bs = Val [seq if i \in ixs then sumn [seq dim a i | a <- bs] else dim (head none bs) i | i <- iota 0 r].
Proof.
move=> hb hq; rewrite /concat_dims ifT //; apply/allP => i; rewrite mem_iota add0n => /andP[_ hi].
case: (boolP (i \in ixs)) => //= ni.
by apply/(all_nthP none) => p hp; apply/eqP; apply: hq.
Qed.

Lemma joined_dims i bs r : size (dims (head none bs)) = r -> i < r ->
  [seq if q \in [:: i] then sumn [seq dim a q | a <- bs] else dim (head none bs) q | q <- iota 0 r] = dims (joined i bs).
Proof.
move=> e hi; apply: (@eq_from_nth _ 0); first by rewrite size_map size_iota size_set_nth e; apply/esym/maxn_idPr.
move=> q; rewrite size_map size_iota => hq; rewrite (nth_map 0) ?size_iota // nth_iota // add0n inE /= nth_set_nth /=.
by case: eqP => [->//|_]; rewrite /dim (set_nth_default 0) // e.
Qed.

Lemma single_joined i b : i < size (dims b) -> same b (joined i [:: b]).
Proof.
move=> hi; split=> /=.
  apply: (@eq_from_nth _ 0); first by rewrite size_set_nth; apply/esym/maxn_idPr.
  by move=> q hq; rewrite nth_set_nth /= addn0 /dim; case: eqP => // ->; rewrite (set_nth_default 0).
move=> ix r; have h := nth_in_range r hi.
rewrite /dim (set_nth_default 0) // h /=; congr comp; apply: (@eq_from_nth _ 0).
  by rewrite size_set_nth; apply/esym/maxn_idPr; rewrite (in_range_size r).
by move=> q hq; rewrite nth_set_nth /=; case: eqP => // ->.
Qed.

Lemma tile_joined n i bs : 1 < size bs -> joinable i bs -> 1 < size (dims (head none bs)) ->
  (i.+1 == size (dims (head none bs))) || (size (dims (head none bs)) == 2) && (i == 0) ->
  size (dims (head none bs)) + size bs + size bs < n ->
  returns (tile n (dims (joined i bs)) bs) (joined i bs).
Proof.
move=> s1 jb r1 hi hn; case/orP: hi => [/eqP il|/andP[/eqP r2 /eqP i0]].
  have [ds [x0 eh]] : exists ds x0, dims (head none bs) = rcons ds x0 by move: r1; case/lastP: (dims (head none bs)) => [//|ds x0] _; exists ds, x0.
  move: r1 il hn; rewrite eh size_rcons ltnS => d0 [ei] hn.
  have hb p : p < size bs -> exists2 x, dims (nth none bs p) = rcons ds x & 0 < x.
    move=> hp; have [sz hq] := jb p hp; rewrite eh size_rcons in sz hq.
    have [ds' [x ep]] : exists ds' x, dims (nth none bs p) = rcons ds' x by move: sz; case/lastP: (dims (nth none bs p)) => [//|ds' x] _; exists ds', x.
    move: sz; rewrite ep size_rcons => -[sz].
    exists x; last by have [] := hq (size ds) (leqnn _); rewrite /dim ep nth_rcons sz ltnn eqxx.
    congr rcons; apply: (@eq_from_nth _ 1) => // q hh; rewrite sz in hh.
    have [_] := hq q (leqW hh); rewrite ei /dim ep eh !nth_rcons sz hh; apply; by rewrite ltn_eqF.
  have ps q : q < size ds -> 0 < nth 0 ds q.
    move=> hh; have [_ hq] := jb 0 (ltnW s1); rewrite nth0 eh size_rcons in hq.
    by have [] := hq q (leqW hh); rewrite /dim eh nth_rcons hh (set_nth_default 0).
  have ed : dims (joined i bs) = rcons ds (sumn [seq dim b (size ds) | b <- bs]) by rewrite /= eh ei set_nth_last.
  rewrite ed ei; apply: tile_last => //; apply: leq_ltn_trans hn; rewrite leq_add2r addSn.
  exact/leqW/leq_addr.
subst i; have hd : dims (head none bs) = [:: dim (head none bs) 0; dim (head none bs) 1].
  by rewrite /dim; move: r2; case: (dims _) => [|? [|? []]].
have hb p : p < size bs -> matrix (nth none bs p) /\ dim (nth none bs p) 1 = dim (head none bs) 1.
  move=> hp; have [sz hq] := jb p hp; rewrite r2 in sz hq; have [h0 _] := hq 0 isT; have [h1 /(_ isT) e1] := hq 1 isT.
  by rewrite /matrix sz h0 h1.
have -> : dims (joined 0 bs) = [:: sumn [seq dim b 0 | b <- bs]; dim (head none bs) 1] by rewrite /= hd.
apply: tile_vertical => //; apply: leq_trans hn; by rewrite ltnS leq_add2r leq_addl.
Qed.

Lemma in_map_nth args p : p < size args -> List.In (nth (Obj Plain none) args p) args.
Proof. by elim: args p => [|o args IH] [|p] //= h; [left|right; apply: IH]. Qed.

Lemma value_nth args p : p < size args -> nth none [seq value o | o <- args] p = value (nth (Obj Plain none) args p).
Proof. by move=> h; rewrite (nth_map (Obj Plain none)). Qed.

(** All the components of the joined object are [c] if all those of the blocks are. *)
Lemma joined_const i bs c : i < size (dims (head none bs)) ->
  (forall p ix, p < size bs -> comp (nth none bs p) ix = c) ->
  same (Arr (dims (joined i bs)) (fun=> c)) (joined i bs).
Proof.
move=> hi h; split=> //= ix r.
have := nth_in_range r (_ : i < _); rewrite size_set_nth leq_maxl nth_set_nth /= eqxx => /(_ isT) hx.
have [l1 _] := locate_lt hx; rewrite size_map in l1; by rewrite h.
Qed.

Theorem concatenate_one n i args : args <> [::] ->
  let vals := [seq value o | o <- args] in let r := size (dims (head none vals)) in
  joinable i vals -> 1 < r -> (i.+1 == r) || (r == 2) && (i == 0) -> exact_constants zero near args ->
  r + size args + size args < n ->
  returns (concatenate n [:: i] args) (joined i vals).
Proof.
move=> na vals r jb r1 hi ex hn.
have ir : i < r by case/orP: hi => [/eqP<-//|/andP[/eqP-> /eqP->]].
have nv : vals <> [::] by rewrite /vals; case: (args) na.
have hs p : p < size vals -> size (dims (nth none vals p)) = r by move=> hp; have [] := jb p hp.
rewrite /concatenate -/vals (@concat_rank_ok _ _ r) //; last by move=> x; rewrite inE => /eqP->; exact: ltnW.
rewrite concat_dims_ok //; last first.
  by move=> p q hp hq; rewrite inE => ne; have [_ hh] := jb p hp; case: (hh q hq) => _; apply.
rewrite joined_dims // [rbind _ _]/=.
have sv : size vals = size args by rewrite size_map.
case ea : (args) => [|o [|o' os]]; first by rewrite ea in na.
  have ev : vals = [:: value o] by rewrite /vals ea.
  rewrite ev; exists (value o) => //; apply: single_joined; by move: ir; rewrite /r ev.
have s1 : 1 < size vals by rewrite sv ea.
rewrite -ea.
case: ifP => [az|_].
  eexists; first by []; apply: joined_const => // p ix hp.
  have hp' : p < size args by rewrite -sv.
  rewrite value_nth // /value /=.
  by move/all_nthP: az => /(_ (Obj Plain none) p hp'); rewrite /is_zero; case: (okind _).
case: ifP => [/andP[co al]|_]; last first.
  by rewrite /=; apply: tile_joined => //; rewrite sv.
case ec : (const_of o) co al => [c|//] _ al.
eexists; first by []; apply: joined_const => // p ix hp.
have hp' : p < size args by rewrite -sv.
rewrite value_nth //.
have [c' ec' ecc] : exists2 c', const_of (nth (Obj Plain none) args p) = Some c' & c' = c.
  case: p hp {hp'} => [|p] hp; first by exists c; rewrite ?ea.
  have hp' : p < size (o' :: os) by rewrite sv ea in hp.
  rewrite ea /=; move/all_nthP: al => /(_ (Obj Plain none) p hp') /=.
  case ec' : (const_of _) => [c'|//] nr; exists c' => //.
  apply/esym/(ex o (nth (Obj Plain none) args p.+1)) => //; first by rewrite ea; left.
    by apply: in_map_nth; rewrite -sv.
  by rewrite ea.
rewrite /value /= -ecc -ec'; move: ec'; rewrite /const_of; case: (okind _) => //.
Qed.

(** ** Block diagonal *)

Definition cell bs (x y : nat) : arr A :=
  if x == y then nth none bs x else Arr [:: dim (nth none bs x) 0; dim (nth none bs y) 1] (fun=> Some zero).
Definition cells bs := [seq [seq cell bs x y | y <- iota 0 (size bs)] | x <- iota 0 (size bs)].

Lemma cat_cells ixs bs : (ixs == [:: 0; 1]) || (ixs == [:: 1; 0]) ->
  [seq cat_block zero ixs bs p | p <- cat_positions (size bs) ixs 2] = flatten (cells bs).
Proof.
move=> hi; have [h0 h1] : 0 \in ixs /\ 1 \in ixs by case/orP: hi => /eqP->.
rewrite /cat_positions h0 h1 /= cats0 -map_comp /=.
have hc x y : cat_block zero ixs bs [:: x; y] = cell bs x y.
  rewrite /cat_block /cell; case/orP: hi => /eqP-> /=; rewrite eqxx ?andbT ?(eq_sym y); case: eqP => [->//|//].
rewrite map_flatten -map_comp; congr flatten; apply: eq_map => x /=.
by rewrite -map_comp; apply: eq_map => y /=; exact: hc.
Qed.

Lemma size_cells bs : size (flatten (cells bs)) = size bs * size bs.
Proof.
rewrite size_flatten /shape -map_comp (eq_map (_ : _ =1 fun=> size bs)); last first.
  by move=> x /=; rewrite size_map size_iota.
have {}IH k (s : seq nat) : sumn [seq k | _ <- s] = size s * k by elim: s => //= x s ->; rewrite mulSn.
by rewrite IH size_iota.
Qed.

Lemma cell_dims bs x y : (forall p, p < size bs -> matrix (nth none bs p)) -> x < size bs -> y < size bs ->
  dims (cell bs x y) = [:: dim (nth none bs x) 0; dim (nth none bs y) 1].
Proof. by move=> hb hx hy; rewrite /cell; case: eqP => [<-|//]; rewrite [LHS]dims2 // hb. Qed.

Lemma cells_regular bs : (forall p, p < size bs -> matrix (nth none bs p)) -> 0 < size bs ->
  regular (sumn [seq dim b 0 | b <- bs]) (sumn [seq dim b 1 | b <- bs]) (cells bs).
Proof.
move=> hb s0; split.
  move=> r; rewrite /cells -map_comp => /mapP[x]; rewrite mem_iota add0n => /andP[_ hx] ->{r} /=.
  rewrite -map_comp; have e2 : [seq (@dims A \o cell bs x) y | y <- iota 0 (size bs)] =
      [seq [:: dim (nth none bs x) 0; dim (nth none bs y) 1] | y <- iota 0 (size bs)].
    by apply/eq_in_map => y; rewrite mem_iota add0n => /andP[_ hy] /=; rewrite cell_dims.
  rewrite e2; split; first by case: (size bs) s0.
  split; last by rewrite -map_comp -[RHS](congr1 sumn (map_iota_nth none bs (fun b => dim b 1))).
  move=> d /mapP[y]; rewrite mem_iota add0n => /andP[_ hy] ->{d} /=.
  case/and3P: (hb x hx) => _ hx0 _; case/and3P: (hb y hy) => _ _ hy1; split=> //.
  by case: (size bs) s0.
congr sumn; rewrite /cells -map_comp -[RHS](map_iota_nth none bs (fun b => dim b 0)); apply/eq_in_map => x.
rewrite mem_iota add0n => /andP[_ hx] /=.
have -> : head none [seq cell bs x y | y <- iota 0 (size bs)] = cell bs x 0 by case: (size bs) s0.
by rewrite /dim cell_dims.
Qed.

Lemma concat_diagonal n ixs bs : (ixs == [:: 0; 1]) || (ixs == [:: 1; 0]) ->
  (forall p, p < size bs -> matrix (nth none bs p)) -> 1 < size bs -> size bs * size bs + size bs < n ->
  returns (concat_dense zero n ixs [:: sumn [seq dim b 0 | b <- bs]; sumn [seq dim b 1 | b <- bs]] bs) (block_diagonal zero bs).
Proof.
move=> hi hb s1 hn; rewrite /concat_dense ifF; last by case/orP: hi => /eqP->.
rewrite [size [:: _; _]]/= cat_cells //.
have sc : size (cells bs) = size bs by rewrite size_map size_iota.
have [] := tile_grid (cells_regular hb (ltnW s1)) _ (_ : _ < n).
- by rewrite size_cells; case: (size bs) s1 => [//|[//|k]] _; rewrite mulnS mulSn.
- by rewrite size_cells sc.
move=> t -> st; exists t => //; apply: same_trans st _; split=> // ix r.
case: ix r => [|i [|j [|? ?]]] //= r; rewrite ?andbF // andbT in r.
case/andP: r => hi' hj.
have e0 : [seq dim (head none r) 0 | r <- cells bs] = [seq dim b 0 | b <- bs].
  rewrite /cells -map_comp -[RHS](map_iota_nth none bs (fun b => dim b 0)); apply/eq_in_map => x.
  rewrite mem_iota add0n => /andP[_ hx] /=.
  have -> : head none [seq cell bs x y | y <- iota 0 (size bs)] = cell bs x 0 by case: (size bs) s1.
  by rewrite /dim cell_dims // ltnW.
rewrite e0; have [l1 l2] := locate_lt hi'; rewrite size_map in l1; set l := locate _ _ in l1 l2 *.
rewrite /cells (nth_map 0) ?size_iota // nth_iota // add0n.
have e1 : [seq dim b 1 | b <- [seq cell bs l.1 y | y <- iota 0 (size bs)]] = [seq dim b 1 | b <- bs].
  rewrite -map_comp -[RHS](map_iota_nth none bs (fun b => dim b 1)); apply/eq_in_map => y.
  by rewrite mem_iota add0n => /andP[_ hy] /=; rewrite /dim cell_dims.
rewrite e1; have [m1 m2] := locate_lt hj; rewrite size_map in m1; set m := locate _ _ in m1 m2 *.
by rewrite (nth_map 0) ?size_iota // nth_iota // add0n /cell; case: eqP.
Qed.

Lemma locate_sum ss x : x < sumn ss -> x = sumn (take (locate ss x).1 ss) + (locate ss x).2.
Proof.
elim: ss x => //= s ss IH x hx; case: (ltnP x s) => [//|h] /=.
by rewrite -addnA -IH ?subnKC // ltn_subLR.
Qed.

Lemma same_block ss i j : i < sumn ss -> j < sumn ss -> (locate ss i).1 = (locate ss j).1 ->
  (i < j) = ((locate ss i).2 < (locate ss j).2).
Proof.
move=> hi hj e; have q (a b c d f : nat) : a = c + d -> b = c + f -> (a < b) = (d < f) by move=> -> ->; rewrite ltn_add2l.
by apply: q (locate_sum hi) _; rewrite e; exact: locate_sum.
Qed.

Lemma proper_nth args p : (forall p, p < size args -> proper (nth (Obj Plain none) args p)) -> p < size args ->
  matrix (nth none [seq value o | o <- args] p).
Proof. by move=> h hp; rewrite value_nth //; case/andP: (h p hp). Qed.

(** The dimensions of the blocks decide the shape. *)
Lemma locate_dims i bs bs' : [seq dim b i | b <- bs] = [seq dim b i | b <- bs'] ->
  sumn [seq dim b i | b <- bs] = sumn [seq dim b i | b <- bs'].
Proof. by move->. Qed.

Lemma adapt_diagonal k bs args : (if k is (Tri _ | Herm _) then true else false) ->
  conj zero = zero ->
  size bs = size args -> 
  (forall p, p < size args -> dims (nth none bs p) = [:: dim (nth none bs p) 0; dim (nth none bs p) 0] /\
     same (value (Obj k (nth none bs p))) (value (nth (Obj Plain none) args p))) ->
  forall a, same a (block_diagonal zero bs) -> same (value (Obj k a)) (block_diagonal zero [seq value o | o <- args]).
Proof.
move=> hk cz hs hp a [da ca].
have ed i : i < 2 -> [seq dim b i | b <- bs] = [seq dim b i | b <- [seq value o | o <- args]].
  move=> hi; apply: (@eq_from_nth _ 0); first by rewrite !size_map.
  move=> p; rewrite size_map => h; rewrite (nth_map none) // (nth_map none) ?size_map -?hs // value_nth -?hs //.
  by rewrite hs in h; have [_ [/= e _]] := hp p h; rewrite /dim [dims (nth _ _ _)]e.
have e01 : [seq dim b 1 | b <- bs] = [seq dim b 0 | b <- bs].
  apply: (@eq_from_nth _ 0); first by rewrite !size_map.
  move=> p; rewrite size_map => h; rewrite !(nth_map none) //; rewrite hs in h; have [e _] := hp p h.
  by rewrite {1}/dim e.
split; first by rewrite [LHS]da /= !ed.
move=> ix; rewrite [dims (value _)]da => r.
case: ix r => [|i [|j [|? ?]]] //=; rewrite ?andbF // andbT e01 => /andP[hi hj].
rewrite -!ed // e01.
have cc x y : x < sumn [seq dim b 0 | b <- bs] -> y < sumn [seq dim b 0 | b <- bs] ->
    comp a [:: x; y] = comp (block_diagonal zero bs) [:: x; y].
  by move=> hx hy; apply: ca; rewrite da /= hx e01 hy.
have [l1 l2] := locate_lt hi; have [m1 m2] := locate_lt hj.
have sb := same_block hi hj; have sb' := same_block hj hi.
move: cc; rewrite /= e01 => cc.
set S := [seq dim b 0 | b <- bs] in hi hj l1 l2 m1 m2 sb sb' cc *.
rewrite size_map in l1 m1.
have cij := cc i j hi hj; have cji := cc j i hj hi.
have [e|ne] := eqVneq (locate S i).1 (locate S j).1; last first.
  rewrite (negbTE ne) in cij; rewrite eq_sym (negbTE ne) in cji.
  by case: k hk {hp} => //= lo _; rewrite /swap cij ?cji /=; case: ifP => //; rewrite cz.
have {}sb := sb e; have {}sb' := sb' (esym e).
rewrite -e eqxx in cij cji; rewrite e in l1.
rewrite hs in m1; have [dd [d2 c2]] := hp _ m1; rewrite -value_nth // in c2.
rewrite -e in c2 dd.
have -> : comp (nth none [seq value o | o <- args] (locate S i).1) [:: (locate S i).2; (locate S j).2] =
   comp (value (Obj k (nth none bs (locate S i).1))) [:: (locate S i).2; (locate S j).2].
  apply/esym/c2; rewrite /= /odims /= dd /= andbT.
  have nS q : q < size bs -> nth 0 S q = dim (nth none bs q) 0 by move=> hq; rewrite /S (nth_map none).
  move: l2 m2; rewrite !nS ?e // ?hs // => -> ->; by [].
case: k hk {hp d2 c2} => //= lo _; rewrite /outside /= ?sb ?sb' ?cij ?cji //.
Qed.

Lemma single_diagonal b : matrix b -> same b (block_diagonal zero [:: b]).
Proof.
move=> hb; split=> /=; first by rewrite !addn0 -dims2.
move=> ix; rewrite (dims2 hb); case: ix => [|i [|j [|? ?]]] //=; rewrite ?andbF // andbT => /andP[-> ->] //.
Qed.

Theorem concatenate_diag n ixs args : args <> [::] -> (ixs == [:: 0; 1]) || (ixs == [:: 1; 0]) ->
  (forall p, p < size args -> proper (nth (Obj Plain none) args p)) -> conj zero = zero -> one_triangle conj args ->
  size args * size args + size args < n ->
  returns (concatenate n ixs args) (block_diagonal zero [seq value o | o <- args]).
Proof.
move=> na hi pr cz ot hn; set vals := [seq value o | o <- args].
have nv : vals <> [::] by rewrite /vals; case: (args) na.
have sv : size vals = size args by rewrite size_map.
have mv p : p < size vals -> matrix (nth none vals p) by rewrite sv => hp; apply: proper_nth.
have hs p : p < size vals -> size (dims (nth none vals p)) = 2 by move=> hp; case/and3P: (mv p hp) => /eqP.
have [h0 h1 sx] : [/\ 0 \in ixs, 1 \in ixs & size ixs = 2] by case/orP: hi => /eqP->.
rewrite /concatenate -/vals (@concat_rank_ok _ _ 2) //; last by case/orP: hi => /eqP-> x; rewrite !inE => /orP[] /eqP->.
rewrite concat_dims_ok //; last by move=> p [|[|q]] hp //; rewrite ?h0 ?h1.
rewrite [rbind _ _]/= h0 h1 sx /=.
case ea : (args) => [|o [|o' os]]; first by rewrite ea in na.
  have ev : vals = [:: value o] by rewrite /vals ea.
  rewrite ev; exists (value o) => //; apply: single_diagonal; move: (mv 0); rewrite ev; exact.
have s1 : 1 < size vals by rewrite sv ea.
have dense := concat_diagonal hi mv s1; rewrite sv in dense.
rewrite -ea; case: ifP => [az|_].
  eexists; first by []; split=> //= ix r; case: ifP => // _.
  have [l1 l2] : (locate [seq dim b 0 | b <- vals] (nth 0 ix 0)).1 < size vals /\ true.
    case: ix r => [|i [|j [|? ?]]] //=; rewrite ?andbF // andbT => /andP[hx _].
    by have [] := locate_lt hx; rewrite size_map.
  rewrite sv in l1; rewrite value_nth //.
  by move/all_nthP: az => /(_ (Obj Plain none) _ l1); rewrite /is_zero /value /=; case: (okind _).
have sqr p : p < size args -> (if okind (nth (Obj Plain none) args p) is (Tri _ | Herm _) then true else false) ->
    dims (ostored (nth (Obj Plain none) args p)) = [:: dim (ostored (nth (Obj Plain none) args p)) 0; dim (ostored (nth (Obj Plain none) args p)) 0].
  move=> hp; case/andP: (pr p hp) => m; rewrite [LHS]dims2 //; by case: (okind _) => // lo /eqP->.
have ed (bs : seq (arr A)) : size bs = size args -> (forall p, p < size args -> dims (nth none bs p) = dims (nth none vals p)) ->
    [seq dim b 0 | b <- bs] = [seq dim b 0 | b <- vals] /\ [seq dim b 1 | b <- bs] = [seq dim b 1 | b <- vals].
  move=> eb hd; split; apply: (@eq_from_nth _ 0); rewrite ?size_map // => p hp;
  by rewrite eb in hp; rewrite !(nth_map none) ?size_map ?eb // /dim hd.
have adapt k (bs : seq (arr A)) : (if k is (Tri _ | Herm _) then true else false) -> size bs = size args ->
   (forall p, p < size args -> dims (nth none bs p) = dims (nth none vals p)) ->
   (forall p, p < size args -> dims (nth none bs p) = [:: dim (nth none bs p) 0; dim (nth none bs p) 0] /\
     same (value (Obj k (nth none bs p))) (value (nth (Obj Plain none) args p))) ->
   returns (rbind (concat_dense zero n ixs [:: sumn [seq dim a 0 | a <- vals]; sumn [seq dim a 1 | a <- vals]] bs)
     (fun a => Val (value (Obj k a)))) (block_diagonal zero vals).
  move=> hk eb hd hp; have [d0 d1] := ed bs eb hd; rewrite -d0 -d1.
  have mb p : p < size bs -> matrix (nth none bs p).
    rewrite eb => h; move: (mv p); rewrite sv => /(_ h); by rewrite /matrix /dim hd.
  have sb : 1 < size bs by rewrite eb -sv.
  have nb : size bs * size bs + size bs < n by rewrite eb.
  have [a -> sa] := concat_diagonal hi mb sb nb.
  by eexists; [by []|apply: adapt_diagonal hk cz eb hp _ sa].
case et : (tri_of o) => [lo|].
  case: ifP => [at_|_]; last exact: dense.
  have hk p : p < size args -> okind (nth (Obj Plain none) args p) = Tri lo.
    move=> hp; move/all_nthP: at_ => /(_ (Obj Plain none) p hp); rewrite /tri_of; by case: (okind _) => // lo' /eqP[->].
  apply: (adapt (Tri lo)) => // [|p hp|p hp]; first by rewrite size_map.
    by rewrite value_nth // (nth_map (Obj Plain none)).
  rewrite (nth_map (Obj Plain none)) //; split; first by apply: sqr; rewrite ?hk.
  by split=> // ix _; rewrite /value /= hk.
case eh : (herm_of o) => [lo|]; last exact: dense.
case: ifP => [ah|_]; last exact: dense.
have hk p : p < size args -> exists lo', okind (nth (Obj Plain none) args p) = Herm lo'.
  move=> hp; move/all_nthP: ah => /(_ (Obj Plain none) p hp); rewrite /herm_of; case: (okind _) => // lo' _; by exists lo'.
have sq p : p < size args -> odims (nth (Obj Plain none) args p) = [:: dim (ostored (nth (Obj Plain none) args p)) 0; dim (ostored (nth (Obj Plain none) args p)) 0].
  by move=> hp; apply: sqr => //; have [lo' ->] := hk p hp.
have ko : okind o = Herm lo by move: eh; rewrite /herm_of; case: (okind o) => // lo' [->].
apply: (adapt (Herm lo)) => // [|p hp|p hp]; first by rewrite size_map.
  rewrite value_nth // (nth_map (Obj Plain none)) //; case: ifP => // _; by rewrite /= sq.
rewrite (nth_map (Obj Plain none)) //; have {}sq := sq p hp; have [lo' kp] := hk p hp.
case: ifP => [/eqP|]; rewrite /herm_of kp; first by case=> e; split=> //; split=> // ix _; rewrite /value /= kp e.
move=> ne; split; first by rewrite [LHS]/= [dim _ 0]/(nth 1 (swap (odims _)) 0) sq.
split; first by rewrite /= sq.
have cid : forall x, conj x = x.
  case: ot => // -[l hl]; exfalso; move/eqP: ne; apply; congr Some.
  by rewrite (hl _ _ (in_map_nth hp) kp); apply/esym; apply: hl ko; rewrite ea; left.
have {}ne : lo' = ~~ lo by move: ne; case: (lo); case: (lo').
move=> ix; rewrite /= sq; case: ix => [|i [|j [|? ?]]] //=; rewrite ?andbF // => _; rewrite kp ne /outside /=.
have oc (x : option A) : omap conj x = x by case: x => //= x; rewrite cid.
by rewrite !oc; case: (lo) => /=; case: ltngtP => // ->.
Qed.

End P.
