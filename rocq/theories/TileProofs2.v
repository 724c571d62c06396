(** * Proofs about tiles and concatenations. *)
From mathcomp Require Import all_ssreflect.
From Verif Require Import TileModel TileSpec TileProofs.
Set Implicit Arguments.
Unset Strict Implicit.
Unset Printing Implicit Defensive.
Arguments set_slice : simpl never.

Section P.
Variable A : Type.
Implicit Types (a b t : arr A) (bs row : seq (arr A)).

Lemma locate_lt ss x : x < sumn ss -> (locate ss x).1 < size ss /\ (locate ss x).2 < nth 0 ss (locate ss x).1.
Proof.
elim: ss x => //= s ss IH x h; case: (ltnP x s) => /= sx; first by [].
have h' : x - s < sumn ss by rewrite ltn_subLR.
have [h1 h2] := IH _ h'; by split.
Qed.

(** One row of blocks. *)
Lemma tile_row row rest n h w hgt bsz t H W : dims t = [:: H; W] -> row <> [::] ->
  (forall d, d \in [seq dims b | b <- row] -> [/\ size d = 2, nth 0 d 0 = hgt & 0 < nth 0 d 1]) ->
  h + hgt <= H -> w + sumn [seq dim b 1 | b <- row] = W -> nth 0 bsz 0 = hgt -> size row <= n ->
  exists t', [/\ dims t' = [:: H; W],
    forall i j, comp t' [:: i; j] =
      if (h <= i < h + hgt) && (w <= j < W) then
        let m := locate [seq dim b 1 | b <- row] (j - w) in comp (nth none row m.1) [:: i - h; m.2]
      else comp t [:: i; j] &
    tile_impl n 1 (TS [:: h; w] bsz t) (row ++ rest) = tile_impl (n - size row) 0 (TS [:: h + hgt; 0] bsz t') rest].
Proof.
elim: row n w t => [//|b row IH] [//|n] w t dt _ hb hH hW hz hn.
have [s2 d0 d1] := hb (dims b) (mem_head _ _).
have db : dims b = [:: hgt; dim b 1].
  by move: s2 d0 d1; rewrite /dim; case: (dims b) => [|? [|? []]] //= _ <-.
have dmb : dim b 0 = hgt by rewrite /dim db.
rewrite /= in hW hn *; rewrite /rank dt /= /dim dt /=.
have fit : le_each (plus_each [:: h; w] (dims b)) (dims t).
  by rewrite db dt /le_each /= hH -hW addnA leq_addr.
rewrite {1}/set_slice fit /=.
rewrite -[nth 1 (dims b) 0]/(dim b 0) dmb hz eqxx !andbF /= -[nth 1 (dims b) 1]/(dim b 1).
set t1 := Arr (dims t) _.
have dt1 : dims t1 = [:: H; W] by [].
have c1 i j : comp t1 [:: i; j] = if (h <= i < h + hgt) && (w <= j < w + dim b 1) then comp b [:: i - h; j - w] else comp t [:: i; j].
  rewrite /t1 /= db /le_each /lt_each /minus_each /= !andbT; congr (if _ then _ else _).
  by rewrite andbACA.
have [row0|row0] := eqVneq (size row) 0.
  move/size0nil: row0 => r0; subst row; rewrite /= addn0 in hW; rewrite hW ltnn eqxx.
  exists t1; split=> //; last by rewrite subn1.
  move=> i j; rewrite c1 hW; case: ifP => // /andP[_ /andP[j1 j2]] /=.
  by rewrite ltn_subLR // hW j2.
have lw : w + dim b 1 < W.
  rewrite -hW addnA -[X in X < _]addn0 ltn_add2l.
  case: row row0 {hW hn IH} hb => //= b' row _ hb; have [|_ _] := hb (dims b'); first by rewrite !inE eqxx orbT.
  rewrite /dim; case: (dims b') => [|? [|? ?]] //= p; by rewrite addn_gt0 p.
rewrite lw.
have q1 : row <> [::] by move=> r0; rewrite r0 in row0.
have q2 d : d \in [seq dims b | b <- row] -> [/\ size d = 2, nth 0 d 0 = hgt & 0 < nth 0 d 1].
  by move=> hd; apply: hb; rewrite inE hd orbT.
have q3 : w + dim b 1 + sumn [seq dim b 1 | b <- row] = W by rewrite -addnA.
have [t' [h1 h2 h3]] := IH n (w + dim b 1) t1 dt1 q1 q2 hH q3 hz hn.
exists t'; split=> // i j; rewrite h2 c1.
case hi : (h <= i < h + hgt) => //=.
have [jw|wj] := ltnP j w; first by rewrite leqNgt (ltn_addr _ jw) /=.
have [jl|jl] := ltnP j (w + dim b 1); first by rewrite (ltn_trans jl lw) /= ltn_subLR // jl.
rewrite ltnNge [j - w < _]ltnNge leq_subRL // jl /= subnDA.
by case: ifP.
Qed.

(** A grid. *)
Lemma tile_rows rows n h bsz t H W : dims t = [:: H; W] ->
  (forall r, r \in [seq [seq dims b | b <- r'] | r' <- rows] ->
        r != [::] /\ (forall d, d \in r -> [/\ size d = 2, nth 0 d 0 = nth 0 (head [::] r) 0, 0 < nth 0 d 0 & 0 < nth 0 d 1]) /\
        sumn [seq nth 0 d 1 | d <- r] = W) ->
  h + sumn [seq dim (head none r) 0 | r <- rows] = H -> size (flatten rows) + size rows < n ->
  exists t' st, [/\ tile_impl n 0 (TS [:: h; 0] bsz t) (flatten rows) = Val st, tarr st = t', dims t' = [:: H; W] &
    forall i j, j < W -> comp t' [:: i; j] =
      if h <= i < H then comp (grid H W rows) [:: i - h; j] else comp t [:: i; j]].
Proof.
elim: rows n h bsz t => [|r rows IH] n h bsz t dt hr hH hn.
  rewrite /= addn0 in hH; case: n hn => // n _ /=; exists t, (TS [:: h; 0] bsz t); split=> // i j _.
  by rewrite hH ltnNge; case: leqP.
have [rn [rd rW]] := hr _ (mem_head _ _).
case: n hn => // n hn; case: r rn rd rW hr hH hn => [//|b r] _ rd rW hr hH hn.
have [s2 _ d0 d1] := rd (dims b) (mem_head _ _).
have [e0 e1] : dim b 0 = nth 0 (dims b) 0 /\ dim b 1 = nth 0 (dims b) 1.
  by rewrite /dim; move: s2; case: (dims b) => [|? [|? []]].
rewrite /= in hH; rewrite /= /rank dt /=.
have hl : h < H by rewrite -hH -[X in X < _]addn0 ltn_add2l e0 addn_gt0 d0.
rewrite {1}/dim dt /= hl.
have wd (q : seq (arr A)) : (forall d : seq nat, d \in [seq dims b' | b' <- q] -> size d = 2) ->
    [seq dim b 1 | b <- q] = [seq nth 0 d 1 | d <- [seq dims b' | b' <- q]].
  elim: q => //= b' q IHq hq; rewrite IHq; last by move=> d hd; apply: hq; rewrite inE hd orbT.
  by congr cons; have := hq (dims b') (mem_head _ _); rewrite /dim; case: (dims b') => [|? [|? []]].
have wr : [seq dim b 1 | b <- b :: r] = [seq nth 0 d 1 | d <- [seq dims b' | b' <- b :: r]].
  by apply: wd => d /rd[].
have hsz : size (b :: r) <= n.
  move: hn; rewrite ltnS /= size_cat; apply: leq_trans; by rewrite addSn ltnS -addnA leq_addr.
have q2 d : d \in [seq dims b | b <- b :: r] -> [/\ size d = 2, nth 0 d 0 = dim b 0 & 0 < nth 0 d 1].
  by move=> /rd[q1 q2 q3 q4]; split=> //; rewrite e0.
have q3 : h + dim b 0 <= H by rewrite -hH leq_add2l leq_addr.
have q4 : 0 + sumn [seq dim b 1 | b <- b :: r] = W by rewrite add0n wr.
have bn : b :: r <> [::] by [].
have [t1 [dt1 c1 ->]] := @tile_row (b :: r) (flatten rows) n h 0 (dim b 0) (set_nth 0 [:: dim b 0; dim b 1] 0 (dim b 0)) t H W dt bn q2 q3 q4 erefl hsz.
have q6 : h + dim b 0 + sumn [seq dim (head none r) 0 | r <- rows] = H by rewrite -addnA.
have q7 : size (flatten rows) + size rows < n - size (b :: r).
  by rewrite ltn_subRL; move: hn; rewrite /= size_cat ltnS addnS addnA !addSn.
have [t' [st [h1 h2 h3 h4]]] := IH (n - size (b :: r)) (h + dim b 0) (set_nth 0 [:: dim b 0; dim b 1] 0 (dim b 0)) t1 dt1 (fun q hq => hr q (@mem_behead _ (_ :: _) q hq)) q6 q7.
exists t', st; split=> // i j jW; rewrite h4 // c1 jW andbT subn0.
have [ih|hi] := ltnP i h.
  by rewrite /= leqNgt (ltn_addr _ ih).
have [il|il] := ltnP i (h + dim b 0).
  by rewrite (leq_trans il) /= ?ltn_subLR // ?il // -hH leq_add2l leq_addr.
rewrite /=; case: ifP => // iH.
rewrite ltnNge leq_subRL // il /= -subnDA.
by [].
Qed.

Lemma tile_grid n h w (rows : seq (seq (arr A))) : regular h w rows -> 1 < size (flatten rows) -> size (flatten rows) + size rows < n ->
  returns (tile n [:: h; w] (flatten rows)) (grid h w rows).
Proof.
move=> [r1 r2] s1 hn.
have [t' [st [e1 e2 e3 e4]]] := @tile_rows rows n 0 [::] (Arr [:: h; w] (fun=> None)) h w erefl r1 r2 hn.
exists t'; last first.
  split=> // ix; rewrite e3 => /[dup] /in_range_size; case: ix => [|i [|j []]] //= _ /and3P[hi hj _].
  by rewrite e4 // hi subn0.
rewrite /tile; case: (flatten rows) s1 e1 => [|b [|b' bs]] // _ e1; by rewrite e1 /= e2.
Qed.

End P.
