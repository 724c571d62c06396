(** * Proofs about chip-wise operations. *)
From mathcomp Require Import all_ssreflect.
From Verif Require Import TileModel TileSpec TileProofs TileProofs3 TileProofs4 NaryModel NarySpec NaryProofs.
Set Implicit Arguments.
Unset Strict Implicit.
Unset Printing Implicit Defensive.

Section Chip.
Variable A : Type.
Implicit Types (a m c : arr A).

Lemma size_along ixs ix : size (along ixs ix) = size ixs. Proof. by rewrite size_map. Qed.
Lemma size_within ixs ix : size (within ixs ix) = size ix. Proof. by rewrite size_map size_iota. Qed.
Lemma nth_within ixs ix i : i < size ix -> nth 0 (within ixs ix) i = if i \in ixs then 0 else nth 0 ix i.
Proof. by move=> h; rewrite (nth_map 0) ?size_iota // nth_iota. Qed.
Lemma nth_expand ixs lim d k i : i < k -> nth 0 (expand ixs lim d k) i = if i \in ixs then nth 0 lim (index i ixs) else d i.
Proof. by move=> h; rewrite (nth_map 0) ?size_iota // nth_iota. Qed.

Lemma in_rangeP ds ix : size ix = size ds -> (forall i, i < size ds -> nth 0 ix i < nth 0 ds i) -> in_range ds ix.
Proof.
rewrite /in_range; elim: ds ix => [|d ds IH] [|x ix] //= [e] h.
by rewrite (h 0) //= IH // => i hi; exact: (h i.+1).
Qed.
Lemma fitsP b s ds : size b = size ds -> size s = size ds -> (forall i, i < size ds -> nth 0 b i + nth 0 s i <= nth 0 ds i) -> fits b s ds.
Proof.
rewrite /fits /shift; elim: ds b s => [|d ds IH] [|x b] [|y s] //= [e1] [e2] h.
by rewrite (h 0) //= IH // => i hi; exact: (h i.+1).
Qed.
Lemma nth_shift x y i : i < size x -> i < size y -> nth 0 (shift x y) i = nth 0 x i + nth 0 y i.
Proof. by move=> h1 h2; rewrite (nth_map (0, 0)) ?size_zip ?leq_min ?h1 // nth_zip_cond size_zip leq_min h1 h2. Qed.

Lemma size_sh x y : size (shift x y) = minn (size x) (size y).
Proof. by rewrite /shift size_map size_zip. Qed.

Lemma nth_chipped ixs ds i : i < size ds -> nth 0 (chipped ixs ds) i = if i \in ixs then 1 else nth 0 ds i.
Proof. by move=> h; rewrite (nth_map 0) ?size_iota // nth_iota // (set_nth_default 0). Qed.
Lemma size_chipped ixs ds : size (chipped ixs ds) = size ds. Proof. by rewrite size_map size_iota. Qed.

Lemma in_rangeE ds ix : in_range ds ix -> size ix = size ds /\ forall i, i < size ds -> nth 0 ix i < nth 0 ds i.
Proof. by move=> h; split; [exact: in_range_size | move=> i; exact: nth_in_range]. Qed.

Lemma set_chip_ok ixs m c v : uniq ixs -> all (fun i => i < rank m) ixs -> dims c = chipped ixs (dims m) ->
  in_range [seq dim m i | i <- ixs] v ->
  exists m', [/\ set_chip ixs m c v = Val m', dims m' = dims m &
    forall ix, in_range (dims m) ix -> comp m' ix = if along ixs ix == v then comp c (within ixs ix) else comp m ix].
Proof.
move=> ui hi dc rv; rewrite /set_chip ifT; last first.
  apply/allP => i ii; rewrite /dim dc (set_nth_default 0) ?size_chipped ?(allP hi) //.
  by rewrite nth_chipped ?ii //; exact: (allP hi).
set begin := expand _ _ _ _; have [sv nv] := in_rangeE rv; rewrite size_map in sv nv.
have sb : size begin = rank m by rewrite size_map size_iota.
have sc : size (dims c) = rank m by rewrite dc size_chipped.
have fit : fits begin (dims c) (dims m).
  apply: fitsP => // i h; rewrite nth_expand // dc nth_chipped //.
  case: ifP => ii; last by rewrite add0n.
  rewrite addn1; have := nv (index i ixs); rewrite index_mem => /(_ ii).
  by rewrite (nth_map 0) ?index_mem // nth_index // /dim (set_nth_default 0).
have [m' [e1 e2 e3 e4]] := set_slice_ok sb sc fit.
exists m'; split=> // ix r; have [sx nx] := in_rangeE r.
case: eqP => ea; last first.
  rewrite e4 // => jx rj ej; apply: ea; have [sj nj] := in_rangeE rj; rewrite sc in sj nj.
  apply: (@eq_from_nth _ 0); first by rewrite size_along.
  rewrite size_along => p hp; rewrite (nth_map 0) //.
  have hm : nth 0 ixs p \in ixs by rewrite mem_nth.
  have hr := allP hi _ hm; rewrite ej nth_shift ?sb ?sj // nth_expand // hm index_uniq //.
  by move: (nj _ hr); rewrite dc nth_chipped // hm ltnS leqn0 => /eqP->; rewrite addn0.
have rw : in_range (dims c) (within ixs ix).
  apply: in_rangeP; first by rewrite size_within sc.
  rewrite sc => i h; rewrite nth_within ?sx // dc nth_chipped //; case: ifP => // _; exact: nx.
rewrite -e3 //; congr comp.
apply: (@eq_from_nth _ 0); first by rewrite size_sh sb size_within sx minnn.
rewrite sx => i h; rewrite nth_shift ?sb ?size_within ?sx // nth_expand // nth_within ?sx //.
by case: ifP => ii; rewrite ?add0n // addn0 -ea (nth_map 0) ?index_mem // nth_index.
Qed.

(** A run of such steps. *)
Lemma chip_fold ixs ds (F : res (arr A) -> seq nat -> res (arr A)) (g : seq nat -> seq nat -> option A) (P : pred (seq nat)) order m :
  (forall m v, dims m = ds -> P v -> exists m', [/\ F (Val m) v = Val m', dims m' = ds &
     forall ix, in_range ds ix -> comp m' ix = if along ixs ix == v then g v (within ixs ix) else comp m ix]) ->
  dims m = ds -> all P order ->
  exists m', [/\ foldl F (Val m) order = Val m', dims m' = ds &
    forall ix, in_range ds ix -> comp m' ix = if along ixs ix \in order then g (along ixs ix) (within ixs ix) else comp m ix].
Proof.
move=> h; elim: order m => [|v order IH] m dm /=; first by exists m.
move=> /andP[pv po]; have [m1 [e1 d1 c1]] := h m v dm pv; have [m' [e2 d2 c2]] := IH m1 d1 po.
exists m'; rewrite e1; split=> // ix r; rewrite c2 // c1 // inE; case: (eqVneq (along ixs ix) v) => [->|] //=.
by case: ifP.
Qed.

Lemma along_range ixs ds ix : all (fun i => i < size ds) ixs -> in_range ds ix -> in_range [seq nth 1 ds i | i <- ixs] (along ixs ix).
Proof.
move=> hi r; have [sx nx] := in_rangeE r; apply: in_rangeP; first by rewrite !size_map.
rewrite size_map => p hp; rewrite !(nth_map 0) // (set_nth_default 0); last by apply: (allP hi); rewrite mem_nth.
by apply: nx; apply: (allP hi); rewrite mem_nth.
Qed.

Lemma get_chip_ok ixs a v : uniq ixs -> 0 < size ixs -> all (fun i => i < rank a) ixs ->
  (forall i, size ixs <= i < rank a -> i \in ixs \/ dim a i = 1) -> in_range [seq dim a i | i <- ixs] v ->
  returns (get_chip ixs a v) (chip_of a ixs v).
Proof.
move=> ui n0 hi h1 rv; have [sv nv] := in_rangeE rv; rewrite size_map in sv nv.
have hs : size ixs <= rank a.
  by rewrite -(size_iota 0 (rank a)); apply: uniq_leq_size => // i /(allP hi); rewrite mem_iota.
rewrite /get_chip.
have := @get_slice_gen A ixs a v (nseq (size v) 1); rewrite sv n0 hs size_nseq => /(_ isT erefl).
set o := expand _ v _ _; set e := expand _ _ (dim a) _.
have ee : e = chipped ixs (dims a).
  apply: (@eq_from_nth _ 0); rewrite ?size_map ?size_iota // => i h; rewrite nth_expand // nth_chipped // nth_nseq.
  by case: ifP => [ii|]; rewrite ?index_mem ?ii // /dim (set_nth_default 0).
have so : size o = rank a by rewrite size_map size_iota.
have se : size e = rank a by rewrite size_map size_iota.
case=> [|_ q].
  apply: fitsP => // i h; rewrite nth_expand // ee nth_chipped //.
  case: ifP => ii; last by rewrite add0n.
  rewrite addn1; have := nv (index i ixs); rewrite index_mem => /(_ ii).
  by rewrite (nth_map 0) ?index_mem // nth_index // /dim (set_nth_default 0).
have {}q : returns (get_slice ixs a v (nseq (size ixs) 1)) (slice_of a o e).
  apply: q => i /[dup] h' /andP[h2 h3]; rewrite ee nth_chipped //; case: ifP => // ni.
  by case: (h1 i h'); rewrite ?ni // /dim (set_nth_default 0).
move: q => [s e1 [e2 e3]]; exists s => //; rewrite /= in e2 e3; split; first by rewrite e2 ee.
move=> ix; rewrite /= => r; rewrite e3 //; congr comp.
rewrite e2 in r; have [sx nx] := in_rangeE r; rewrite se in sx nx.
apply: (@eq_from_nth _ 0); first by rewrite size_sh so sx minnn size_map size_iota.
rewrite size_sh so sx minnn => i h; rewrite nth_shift ?so ?sx // nth_expand // (nth_map 0) ?size_iota // nth_iota // add0n.
case: ifP => ii; last by rewrite add0n.
by move: (nx i h); rewrite ee nth_chipped // ii ltnS leqn0 => /eqP->; rewrite addn0.
Qed.

Lemma all_chips_ok ixs args v (cs : seq (arr A)) : List.Forall2 (fun a c => returns (get_chip ixs a v) c) args cs ->
  exists2 cs', all_chips ixs args v = Val cs' & List.Forall2 (@same A) cs' cs.
Proof.
elim=> [|a c args' cs0 [c' e1 s1] _ [cs' e2 s2]]; first by exists [::]; [|constructor].
by exists (c' :: cs'); [rewrite /= e1 /= e2 | constructor].
Qed.

Lemma chip_dims_ok (args : seq (arr A)) ds : 0 < size args -> (forall a, List.In a args -> dims a = ds) -> chip_dims args = Val ds.
Proof.
case: args => // a args _ h; rewrite /chip_dims.
have da := h a (or_introl erefl).
have er : foldr maxn 0 [seq rank b | b <- a :: args] = size ds.
  rewrite /= {1}/rank da; apply/maxn_idPl; elim: args h => //= b args IH h.
  rewrite geq_max {1}/rank (h b) ?leqnn /=; last by right; left.
  by apply: IH => c [<-|hc]; [apply: h; left | apply: h; right; right].
rewrite er ifT; last first.
  by apply/allP => i _; apply: all_In => b hb; rewrite /dim da (h b) //; right.
by congr Val; rewrite /dim da; apply: (@eq_from_nth _ 1); rewrite ?size_map ?size_iota // => i hi; rewrite (nth_map 0) ?size_iota // nth_iota.
Qed.

Lemma chipwise_ok ixs op (args : seq (arr A)) ds : uniq ixs -> 0 < size ixs -> 0 < size args ->
  (forall a, List.In a args -> dims a = ds) -> all (fun i => i < size ds) ixs ->
  (forall i, size ixs <= i < size ds -> i \in ixs \/ nth 1 ds i = 1) ->
  (forall cs cs' v, List.Forall2 (@same A) cs cs' -> same (op cs v) (op cs' v)) ->
  (forall v, dims (op [seq chip_of a ixs v | a <- args] v) = chipped ixs ds) ->
  exists m, [/\ chipwise_operation ixs op args = Val m, dims m = ds &
    forall ix, in_range ds ix -> comp m ix = comp (op [seq chip_of a ixs (along ixs ix) | a <- args] (along ixs ix)) (within ixs ix)].
Proof.
move=> ui n0 na hd hi h1 hr hc; rewrite /chipwise_operation.
case ei : ixs n0 => [|i0 is0] // _; rewrite -ei; rewrite (chip_dims_ok na hd) /=.
set lp := loop _ _.
have [_ ml] := loop_once [seq nth 1 ds i | i <- ixs].
have [] := @chip_fold ixs ds (chip_visit ixs op args) (fun v jx => comp (op [seq chip_of a ixs v | a <- args] v) jx)
   (in_range [seq nth 1 ds i | i <- ixs]) lp (Arr ds (fun=> None)) _ erefl.
- move=> m v dm rv; rewrite /chip_visit /=.
  have [|cs' -> s'] := @all_chips_ok ixs args v [seq chip_of a ixs v | a <- args].
    elim: args {na hc lp} hd => [|a args IH] hd /=; first by constructor.
    have da := hd a (or_introl erefl).
    constructor; last by apply: IH => b hb; apply: hd; right.
    apply: get_chip_ok => //; rewrite /rank /dim ?da //; by rewrite ei.
  have sm := hr _ _ v s'; have [d1 c1] := sm; rewrite /=.
  have [||||m' [e1 e2 e3]] := @set_chip_ok ixs m (op cs' v) v => //; rewrite ?/rank ?dm //; first by rewrite d1 hc.
    by rewrite /dim dm.
  exists m'; rewrite e1 e2 dm; split=> // ix r; rewrite e3 ?dm //; case: eqP => // ea; apply: c1.
  rewrite d1 hc; have [sx nx] := in_rangeE r; apply: in_rangeP; first by rewrite size_within size_chipped.
  rewrite size_chipped => i h; rewrite nth_within ?sx // nth_chipped //; case: ifP => // _; exact: nx.
- by apply/allP => v; rewrite ml.
move=> m [e d c]; exists m; split=> // ix r; rewrite c // ml along_range //.
Qed.

(** The first chip is already in place. *)
Lemma chip_loop_false counts j : nullary_chip_loop false counts j = loop counts j.
Proof. by elim: counts j => //= c cs IH j; congr flatten; apply: eq_map => i; exact: IH. Qed.

Lemma chip_loop_mem counts j ix : all (fun x => 0 < x) counts ->
  (ix \in nullary_chip_loop true counts j) =
  [&& take (size j) ix == j, in_range counts (drop (size j) ix) & drop (size j) ix != nseq (size counts) 0].
Proof.
elim: counts j => [|c cs IH] j /=.
  by move=> _; rewrite in_nil; case: (drop (size j) ix) => //=; rewrite !andbF.
move=> /andP[c0 hc]; rewrite mem_cat IH // size_rcons.
case: (ltnP (size j) (size ix)) => hs; last first.
  have n1 i : (take (size j).+1 ix == rcons j i) = false.
    apply/eqP => e; move: (congr1 size e).
    by rewrite size_take_min size_rcons => h'; have := geq_minr (size j).+1 (size ix); rewrite h' ltnNge hs.
  rewrite n1 /= [drop (size j) ix]drop_oversize //= andbF; apply/flattenP => [[t /mapP[i _ ->]]].
  by rewrite chip_loop_false loop_mem size_rcons n1.
rewrite (take_nth 0) // eqseq_rcons [drop (size j) ix](drop_nth 0) //= eqseq_cons -andbA.
set x := nth 0 ix (size j); set d := drop _ _.
case et : (take (size j) ix == j) => /=; last first.
  apply/flattenP => [[t /mapP[i _ ->]]]; rewrite chip_loop_false loop_mem size_rcons (take_nth 0) // eqseq_rcons et //.
apply/idP/idP.
  move=> /orP[/and3P[/eqP-> h1 h2]|/flattenP[t /mapP[i]]]; first by rewrite c0 h1 eqxx.
  rewrite mem_iota => hi -> {t}; rewrite chip_loop_false loop_mem size_rcons (take_nth 0) // eqseq_rcons.
  move=> /andP[/andP[_ /eqP ex] h]; rewrite /x ex -/d /d h; case/andP: hi => i0; rewrite add1n prednK // => ->.
  by rewrite eqn0Ngt i0.
move=> /andP[/andP[h1 h2] h3]; case: (posnP x) => [x0|xp].
  by move: h3; rewrite x0 eqxx /= h2 => ->.
apply/orP; right; apply/flattenP; exists (nullary_chip_loop false cs (rcons j x)).
  by apply/mapP; exists x => //; rewrite mem_iota xp add1n prednK.
by rewrite chip_loop_false loop_mem size_rcons (take_nth 0) // eqseq_rcons et eqxx.
Qed.

Lemma nullary_chipwise_ok ixs (op : seq nat -> arr A) counts cds : uniq ixs -> size counts = size ixs ->
  all (fun i => i < size cds) ixs -> all (fun i => nth 1 cds i == 1) ixs -> all (fun x => 0 < x) counts ->
  (forall v, in_range counts v -> dims (op v) = cds) ->
  let ds := [seq if i \in ixs then nth 0 counts (index i ixs) else nth 1 cds i | i <- iota 0 (size cds)] in
  exists m, [/\ nullary_chipwise ixs op counts = Val m, dims m = ds &
    forall ix, in_range ds ix -> comp m ix = comp (op (along ixs ix)) (within ixs ix)].
Proof.
move=> ui sk hi h1 hc ho ds; rewrite /nullary_chipwise.
set z := nseq _ 0.
have rz : in_range counts z.
  apply: in_rangeP; first by rewrite size_nseq.
  by move=> i h; rewrite nth_nseq if_same; apply: (allP hc); rewrite mem_nth.
have d0 := ho z rz.
have er : foldr maxn 0 (rank (op z) :: [seq i.+1 | i <- ixs]) = size cds.
  rewrite /= {1}/rank d0; apply/maxn_idPl; elim: (ixs) hi => //= i s IH /andP[h hs].
  by rewrite geq_max h IH.
rewrite er.
have -> : [seq if i \in ixs then dim (op z) i * nth 0 counts (index i ixs) else dim (op z) i | i <- iota 0 (size cds)] = ds.
  apply: eq_map => i; rewrite /dim d0; case: ifP => // ii; by rewrite (eqP (allP h1 i ii)) mul1n.
have dc : cds = chipped ixs ds.
  apply: (@eq_from_nth _ 0); first by rewrite size_chipped size_map size_iota.
  move=> i h; rewrite nth_chipped ?size_map ?size_iota // (nth_map 0) ?size_iota // nth_iota // add0n.
  case: ifP => ii; last by rewrite ii (set_nth_default 1).
  by have := allP h1 i ii; rewrite (set_nth_default 0) // => /eqP.
have sd : size ds = size cds by rewrite size_map size_iota.
have ed : [seq nth 1 ds i | i <- ixs] = counts.
  apply: (@eq_from_nth _ 0); first by rewrite size_map.
  rewrite size_map => p hp; rewrite (nth_map 0) // (set_nth_default 0) ?sd; last by apply: (allP hi); rewrite mem_nth.
  have hm : nth 0 ixs p \in ixs by rewrite mem_nth.
  have hr := allP hi _ hm; by rewrite (nth_map 0) ?size_iota // nth_iota // add0n hm index_uniq.
rewrite ifT; last by apply/allP => i ii; rewrite /dim d0; exact: (allP h1).
have step m v : dims m = ds -> in_range counts v -> exists m', [/\ set_chip ixs m (op v) v = Val m', dims m' = ds &
     forall ix, in_range ds ix -> comp m' ix = if along ixs ix == v then comp (op v) (within ixs ix) else comp m ix].
  move=> dm rv; have [||||m' [e1 e2 e3]] := @set_chip_ok ixs m (op v) v => //; rewrite ?/rank ?dm ?sd //.
  - by rewrite ho // -dc.
  - by rewrite /dim dm ed.
  by exists m'; rewrite e1 e2 dm; split=> // ix r; rewrite e3 // dm.
have [m0 [-> dm0 c0]] := step (Arr ds (fun=> None)) z erefl rz.
have [] := @chip_fold ixs ds (fun (r : res (arr A)) v => rbind r (fun m => set_chip ixs m (op v) v)) (fun v jx => comp (op v) jx)
   (in_range counts) (nullary_chip_loop true counts [::]) m0 _ dm0.
- by move=> m v dm rv; have [m' [e1 e2 e3]] := step m v dm rv; exists m'.
- by apply/allP => v; rewrite chip_loop_mem //= drop0 => /andP[_ /andP[]].
move=> m [e d c]; exists m; split=> // ix r; rewrite c // chip_loop_mem //= take0 drop0 /=.
have := @along_range ixs ds ix; rewrite sd ed => /(_ hi r) -> /=.
by rewrite sk -/z c0 //; case: eqP => //= ->.
Qed.

End Chip.
