(** * Proofs about component-wise operations. *)
From mathcomp Require Import all_ssreflect.
From Verif Require Import TileModel TileSpec TileProofs TileProofs3 NaryModel NarySpec.
Set Implicit Arguments.
Unset Strict Implicit.
Unset Printing Implicit Defensive.

(** ** Loops *)

Lemma uniq_flatten_key (X Y : eqType) (key : Y -> X) (f : X -> seq Y) (s : seq X) : uniq s ->
  (forall x, x \in s -> uniq (f x)) -> (forall x y, x \in s -> y \in f x -> key y = x) -> uniq (flatten [seq f x | x <- s]).
Proof.
elim: s => //= x s IH /andP[xs us] hu hk; rewrite cat_uniq hu ?mem_head //= IH //=; first last.
- by move=> z y hz; apply: hk; rewrite inE hz orbT.
- by move=> z hz; apply: hu; rewrite inE hz orbT.
rewrite andbT; apply/hasPn => y /flattenP[t /mapP[z hz ->] hy]; apply/negP => hy'.
have e1 := hk x y (mem_head _ _) hy'; have e2 : key y = z by apply: hk hy; rewrite inE hz orbT.
by move: xs; rewrite -e1 e2 hz.
Qed.

Lemma loop_mem ds j ix : (ix \in loop ds j) = (take (size j) ix == j) && in_range ds (drop (size j) ix).
Proof.
elim: ds j => [|d ds IH] j /=.
  rewrite inE; apply/eqP/andP => [->|[/eqP e h]]; first by rewrite take_size eqxx drop_size.
  by rewrite -[LHS](cat_take_drop (size j)) e; case: (drop _ _) h => //= *; rewrite cats0.
apply/flattenP/andP => [[t /mapP[i]]|[/eqP e h]].
  rewrite mem_iota add0n => /andP[_ hi] -> {t}; rewrite IH size_rcons => /andP[/eqP e h].
  have hs : size j < size ix.
    by rewrite ltnNge; apply/negP => hx; move: (congr1 size e); rewrite size_take_min size_rcons => h'; have := geq_minr (size j).+1 (size ix); rewrite h' ltnNge hx.
  move: e; rewrite (take_nth 0) // => /rcons_inj[e1 e2]; rewrite e1 eqxx; split=> //.
  by rewrite (drop_nth 0) //= e2 hi.
case ed : (drop (size j) ix) h => [//|i r] /= /andP[hi hr].
have hs : size j < size ix by rewrite ltnNge; apply/negP => /drop_oversize; rewrite ed.
exists (loop ds (rcons j i)); first by apply/mapP; exists i => //; rewrite mem_iota.
move: ed; rewrite (drop_nth 0) // => -[e1 e2]; by rewrite IH size_rcons (take_nth 0) // e e1 eqxx e2.
Qed.

Lemma loop_uniq ds j : uniq (loop ds j).
Proof.
elim: ds j => //= d ds IH j; apply: (@uniq_flatten_key _ _ (fun y => nth 0 y (size j))); rewrite ?iota_uniq //.
move=> i y _; rewrite loop_mem => /andP[/eqP e _].
have := congr1 (fun s => nth 0 s (size j)) e; by rewrite size_rcons nth_take // nth_rcons ltnn eqxx.
Qed.

Lemma loop_once ds : each_once ds (loop ds [::]).
Proof. by split; [exact: loop_uniq|move=> ix; rewrite loop_mem take0 drop0]. Qed.

Section Nary.
Variables T U S : Type.
Implicit Types (a : src T) (args : seq (src T)) (op : oper T U S).

Lemma read_broadcast ds a ix : broadcastable ds a -> in_range ds ix -> sat a (read_at a ix) = broadcast a ix.
Proof.
move=> [hs hd] r; rewrite /broadcast; congr sat; apply/eq_in_map => i; rewrite mem_iota add0n => /andP[_ hi].
have hi' : i < size ds by exact: leq_trans hs.
have hr := nth_in_range r hi'.
case: (hd i hi') => ->; last by rewrite hr; case: eqP => // e; move: hr; rewrite e; case: (nth 0 ix i).
by rewrite eqxx; case: (nth 0 ix i).
Qed.

Lemma replay_fold op args order m s : uniq order ->
  let f s j := call op s [seq sat a (read_at a j) | a <- args] (if takes_indices op then j else [::]) in
  let r := foldl (visit op args) (m, s) order in
  r.2 = (replay f s order).2 /\
  (forall k, k < size order -> r.1 (nth [::] order k) = ohead (drop k (replay f s order).1)) /\
  (forall ix, ix \notin order -> r.1 ix = m ix).
Proof.
move=> + f; elim: order m s => [|j order IH] m s //= /andP[nj uo].
have [e1 [e2 e3]] := IH (visit op args (m, s) j).1 (visit op args (m, s) j).2 uo.
rewrite -surjective_pairing in e1 e2 e3; split; first by rewrite e1.
split=> [[_|k hk]|ix]; first by rewrite /= e3 //= eqxx.
- by rewrite /= e2.
by rewrite inE negb_or => /andP[n1 n2]; rewrite e3 //= (negbTE n1).
Qed.

Lemma replay_ext (f g : S -> seq nat -> U * S) s order : (forall s j, j \in order -> f s j = g s j) -> replay f s order = replay g s order.
Proof.
elim: order s => //= j r IH s h; rewrite (h s j) ?mem_head // IH // => s' i hi; by apply: h; rewrite inE hi orbT.
Qed.

Lemma replay_pure (f : S -> seq nat -> U * S) (g : seq nat -> U) s order : (forall s j, (f s j).1 = g j) ->
  (replay f s order).1 = map g order.
Proof. by move=> h; elim: order s => //= j r IH s; rewrite IH h. Qed.

Lemma eq_map_In (X Y : Type) (f g : X -> Y) (s : seq X) : (forall x, List.In x s -> f x = g x) -> map f s = map g s.
Proof. by elim: s => //= x s IH h; rewrite h ?IH //; [move=> y hy; apply: h; right|left]. Qed.

Lemma all_In (X : Type) (p : X -> bool) (s : seq X) : (forall x, List.In x s -> p x) -> all p s.
Proof. by elim: s => //= x s IH h; rewrite h ?IH //; [move=> y hy; apply: h; right|left]. Qed.

Lemma In_all (X : Type) (p : X -> bool) (s : seq X) x : all p s -> List.In x s -> p x.
Proof. by elim: s => //= y s IH /andP[hy hs] [<-//|/IH]; apply. Qed.

Lemma reads ds args ix : (forall a, List.In a args -> broadcastable ds a) -> in_range ds ix ->
  [seq sat a (read_at a ix) | a <- args] = [seq broadcast a ix | a <- args].
Proof. by move=> h r; apply: eq_map_In => a ha; apply: read_broadcast r; exact: h. Qed.



Lemma n_ary_run library ds statics op args s : (forall a, List.In a args -> broadcastable ds a) ->
  varies op args -> ~~ (takes_indices op && library) -> ~~ single statics ds ->
  exists2 order, each_once ds order &
    let q := replay (calls op args) s order in
    exists2 m, n_ary_impl library ds statics op args s = Val (m, q.2) &
      dims m = ds /\ forall k, k < size order -> comp m (nth [::] order k) = ohead (drop k q.1).
Proof.
move=> hb hv hl hs; exists (loop ds [::]); first exact: loop_once.
have [u mm] := loop_once ds.
rewrite /n_ary_impl ifF; last first.
  by move: hv; rewrite /varies; case: takes_indices => /=; rewrite ?andbF //= andbT lt0n orbC; case: (_ == 0) => //= /negbTE->.
rewrite (negbTE hl) -/(single statics ds) (negbTE hs) ifT; last by apply: all_In => a /hb[].
have [e1 [e2 _]] := replay_fold op args (fun=> None) s u.
have er : replay (fun s j => call op s [seq sat a (read_at a j) | a <- args] (if takes_indices op then j else [::])) s (loop ds [::]) =
    replay (calls op args) s (loop ds [::]).
  by apply: replay_ext => s' j hj; rewrite /calls (reads hb) // -mm.
rewrite er in e1 e2; rewrite -e1; eexists; first by []; by [].
Qed.

Lemma proper_const args : (forall a, List.In a args -> proper_src a) -> all (fun a => isSome (sconst a)) args ->
  forall ix, pmap (fun a => sconst a) args = [seq broadcast a ix | a <- args].
Proof.
move=> hp; elim: args hp => //= a args IH hp /andP[ha hs] ix.
case e : (sconst a) ha => [c|//] _ /=; rewrite (IH _ hs ix); last by move=> b hb; apply: hp; right.
by rewrite /broadcast (hp a (or_introl erefl) c e).
Qed.

Lemma single_zero statics ds ix : size statics = size ds -> single statics ds -> in_range ds ix -> ix = nseq (size ds) 0.
Proof.
elim: ds statics ix => [|d ds IH] [|b st] [|x ix] //= [e] /andP[/andP[_ /eqP/= dd] hs] /andP[hx hr].
rewrite dd in hx; by rewrite (IH st ix) //; case: x hx.
Qed.

(** Values, for an operation whose results do not depend on its state. *)
Lemma n_ary_values library ds statics op f args s : size statics = size ds -> 0 < size args ->
  (forall a, List.In a args -> broadcastable ds a /\ proper_src a) -> pure op f ->
  ~~ (takes_indices op && (library || single statics ds)) ->
  exists m s', n_ary_impl library ds statics op args s = Val (m, s') /\ dims m = ds /\
    forall ix, in_range ds ix -> comp m ix = Some (f [seq broadcast a ix | a <- args] (if takes_indices op then ix else [::])).
Proof.
move=> es na hb hf hl.
have hb1 a : List.In a args -> broadcastable ds a by case/hb.
have hb2 a : List.In a args -> proper_src a by case/hb.
case hv : (varies op args); last first.
  move/negbT: hv; rewrite /varies !negb_or negbK => /andP[/andP[hi hc] hz].
  rewrite /n_ary_impl lt0n hz hc hi /=; do 2!eexists; split; first by [].
  by split=> //= ix r; rewrite hf (negbTE hi) (proper_const hb2 hc ix).
case hs : (single statics ds).
  rewrite hs orbT andbT in hl; move: hv; rewrite /varies (negbTE hl) /= orbC eqn0Ngt na /= => hc.
  rewrite /n_ary_impl na /= (negbTE hc) (negbTE hl) /= -/(single statics ds) hs.
  do 2!eexists; split; first by []; split=> //= ix r; rewrite hf; congr (Some (f _ _)); apply: eq_map_In => a ha.
  rewrite /broadcast; congr sat; have := single_zero es hs r => ->; have [hs' _] := hb1 a ha.
  apply: (@eq_from_nth _ 0); first by rewrite size_nseq size_map size_iota.
  move=> i; rewrite size_nseq => hi; rewrite (nth_map 0) ?size_iota // nth_iota // !nth_nseq hi add0n.
  by case: ifP => //; rewrite if_same.
rewrite hs orbF in hl.
have [order [uo mo] [m em [dm cm]]] := n_ary_run s hb1 hv hl (negbT hs).
exists m, (replay (calls op args) s order).2; split=> //; split=> // ix r.
have hi : ix \in order by rewrite mo.
have hk : index ix order < size order by rewrite index_mem.
have := cm _ hk; rewrite nth_index // => ->.
rewrite (@replay_pure _ (fun j => f [seq broadcast a j | a <- args] (if takes_indices op then j else [::]))); last by move=> *; rewrite /calls hf.
by rewrite -map_drop (drop_nth [::]) //= nth_index.
Qed.

(** ** Dimensions from the arguments *)

Lemma find_max_ok D dims : matching D dims -> last_not_one D dims ->
  exists f, find_max_dim dims = Val (f, D).
Proof.
move=> [D0 [hd hx]] hl.
suff [f [m [e hm hD hf]]] : exists f m, [/\ find_max_dim dims = Val (f, m), m = 1 \/ m = D,
    (exists2 p, p \in dims & p.2 = D) -> m = D & f -> m = D].
  by exists f; rewrite e hD.
have ne : dims <> [::] by case: hx => p; case: (dims).
elim: dims hd {hx} hl ne => //= -[fa a] r IH hd hl _.
case: r IH hd hl => [|p r] IH hd hl.
  have ha := hd (fa, a) (mem_head _ _); exists fa, a; rewrite /= in ha; split=> //.
  - by rewrite /= ifF //; case: ha => ->; apply/negbTE; rewrite -lt0n.
  - by move=> [q]; rewrite inE => /eqP->.
  - by move=> h; case: ha => // e; case: hl => [->//|]; rewrite e h.
have [||f [m [e hm hD hf]]] := IH _ hl; [by move=> q hq; apply: hd; rewrite inE hq orbT|by []|].
have ha : a = 1 \/ a = D by apply: (hd (fa, a)); exact: mem_head.
rewrite e /=.
have ex : (exists2 q, q \in (fa, a) :: p :: r & q.2 = D) -> a <> D -> m = D.
  by move=> [q]; rewrite inE => /orP[/eqP->//|hq] eq _; apply: hD; exists q.
case: fa ha ex {hd hl} => ha ex; case: f hf e => hf e.
- have {}hf := hf isT; subst m; exists true, D; split=> //.
  by case: eqP => //=; case: eqP => //= h1 h2; case: ha.
- case: (eqVneq a 1) => [a1|a1]; rewrite ?andbF /=.
    exists false, m; split=> // h; case: (eqVneq D 1) => [d1|/eqP d1].
      by case: hm => // ->.
    by apply: ex => // aD; apply: d1; rewrite -aD.
  have aD : a = D by case: ha a1 => // ->; rewrite eqxx.
  subst a; exists true, D; split=> //.
  by case: hm => ->; rewrite ?eqxx ?andbF ?(negbTE a1).
- have {}hf := hf isT; subst m; case: (eqVneq D 1) => [d1|d1]; rewrite ?andbF /=.
    have a1 : a = 1 by case: ha => //; rewrite d1.
    exists false, a; rewrite a1 d1; split=> //; by left.
  exists true, D; rewrite andbT ifF; last by case: ha => ->; rewrite eqxx ?andbF.
  by split.
- case: (eqVneq a m) => [am|am] /=.
    by exists false, m; split=> //= h; case: (eqVneq a D) => [<-//|/eqP nd]; exact: ex.
  case: (eqVneq a 1) => [a1|a1] /=.
    exists false, m; split=> // h; case: (eqVneq a D) => [aD|/eqP nd]; last exact: ex.
    by case: hm => // mm; move: am; rewrite mm a1.
  have aD : a = D by case: ha a1 => // ->; rewrite eqxx.
  have m1 : m = 1 by case: hm => // mm; move: am; rewrite mm aD eqxx.
  by exists false, a; rewrite m1 eqxx /= aD D0; split=> //; right.
Qed.

Lemma find_max_dynamic dims f D : all (fun p => ~~ p.1) dims -> find_max_dim dims = Val (f, D) -> f = false /\ matching D dims.
Proof.
elim: dims f D => //= -[fa a] r IH f D /andP[/negbTE /= -> hr].
case: r IH hr => [|p r] IH hr.
  case: eqP => // h [<- <-]; split=> //; split; first by rewrite lt0n; apply/eqP.
  by split; [move=> q; rewrite inE => /eqP->; right|exists (false, a); rewrite ?mem_head].
case e : (find_max_dim (p :: r)) => [[f' m]|||| ] //=.
have [ef [m0 [h1 [q hq eq]]]] := IH _ _ hr e; rewrite ef /=.
case: (eqVneq a m) => [am|am] /=.
  move=> [<- <-]; split=> //; split=> //; split; last by exists q; rewrite // inE hq orbT.
  by move=> z; rewrite inE => /orP[/eqP->|/h1//] /=; right.
case: (eqVneq a 1) => [a1|a1] /=.
  move=> [<- <-]; split=> //; split=> //; split; last by exists q; rewrite // inE hq orbT.
  by move=> z; rewrite inE => /orP[/eqP->|/h1//] /=; left.
case: (eqVneq m 1) => //= m1; case: ifP => // a0 [<- <-]; split=> //.
have {}a0 : 0 < a by rewrite m1 in a0.
split=> //; split; last by exists (false, a); rewrite ?mem_head.
by move=> z; rewrite inE => /orP[/eqP->|/h1 [->|->]] /=; [right|left|left].
Qed.
End Nary.
