(** * Proofs about concatenation. *)
From mathcomp Require Import all_ssreflect.
From Verif Require Import TileModel TileSpec TileProofs TileProofs2.
Set Implicit Arguments.
Unset Strict Implicit.
Unset Printing Implicit Defensive.
Arguments set_slice : simpl never.

Section P.
Variable A : Type.
Implicit Types (a b t : arr A) (bs row : seq (arr A)).

Lemma map_iota_nth T U (x : T) (s : seq T) (f : T -> U) : [seq f (nth x s p) | p <- iota 0 (size s)] = map f s.
Proof. by rewrite -[in RHS](mkseq_nth x s) /mkseq -map_comp. Qed.

Lemma dims2 b : matrix b -> dims b = [:: dim b 0; dim b 1].
Proof. by rewrite /matrix /dim; case: (dims b) => [|? [|? []]]. Qed.

Lemma locate_nil x : locate [::] x = (0, x). Proof. by []. Qed.

(** Matrices side by side. *)
Lemma tile_horizontal n bs h : (forall p, p < size bs -> matrix (nth none bs p) /\ dim (nth none bs p) 0 = h) ->
  1 < size bs -> (size bs).+1 < n ->
  returns (tile n [:: h; sumn [seq dim b 1 | b <- bs]] bs) (joined 1 bs).
Proof.
move=> hb s1 hn.
have hd : dims (head none bs) = [:: h; dim (head none bs) 1].
  by have [m <-] := hb 0 (ltnW s1); rewrite -nth0; exact: dims2.
have reg : regular h (sumn [seq dim b 1 | b <- bs]) [:: bs].
  split; last by rewrite /= addn0 /dim hd.
  move=> r; rewrite inE => /eqP->; split; first by case: bs s1 {hb hn hd}.
  split; last first.
    congr sumn; rewrite -map_comp; rewrite -!(map_iota_nth none); apply/eq_in_map => p; rewrite mem_iota /= => hp.
    by have [m _] := hb p hp; rewrite [in LHS]dims2.
  move=> d /(nthP [::])[p]; rewrite size_map => hp <-; rewrite (nth_map none) //.
  have [m e] := hb p hp; rewrite [dims _]dims2 // e /=; case/and3P: m => _ m0 m1; split=> //; last by rewrite -e.
  by case: bs s1 hd {hb hp hn m0 m1 e} => //= b0 bs' _ ->.
have g1 : 1 < size (flatten [:: bs]) by rewrite /= cats0.
have g2 : size (flatten [:: bs]) + size [:: bs] < n by rewrite /= cats0 addn1.
have [t e s] := tile_grid reg g1 g2.
exists t; first by rewrite -e /= cats0.
apply: (same_trans s); split; first by rewrite /= hd.
move=> ix /[dup] /in_range_size; case: ix => [|i [|j []]] //= _ /and3P[hi hj _].
have -> : dim (head none bs) 0 = h by rewrite /dim hd.
by rewrite hi.
Qed.

(** Matrices on top of each other. *)
Lemma tile_vertical n bs w : (forall p, p < size bs -> matrix (nth none bs p) /\ dim (nth none bs p) 1 = w) ->
  1 < size bs -> size bs + size bs < n ->
  returns (tile n [:: sumn [seq dim b 0 | b <- bs]; w] bs) (joined 0 bs).
Proof.
move=> hb s1 hn; set rows := [seq [:: b] | b <- bs].
have fl : flatten rows = bs by rewrite /rows; elim: (bs) => //= b q ->.
have hd : dims (head none bs) = [:: dim (head none bs) 0; w].
  by have [m <-] := hb 0 (ltnW s1); rewrite -nth0; exact: dims2.
have hs : [seq dim (head none r) 0 | r <- rows] = [seq dim b 0 | b <- bs] by rewrite /rows -map_comp.
have reg : regular (sumn [seq dim b 0 | b <- bs]) w rows.
  split; last by rewrite hs.
  move=> r /(nthP [::])[p]; rewrite !size_map => hp <-; rewrite (nth_map [::]) ?size_map // (nth_map none) //=.
  have [m e] := hb p hp; rewrite [dims _]dims2 // e; split=> //; split; last by rewrite addn0.
  move=> d; rewrite inE => /eqP-> /=; case/and3P: m => _ m0 m1; by rewrite -e.
have g1 : 1 < size (flatten rows) by rewrite fl.
have g2 : size (flatten rows) + size rows < n by rewrite fl size_map.
have [t e s] := tile_grid reg g1 g2.
exists t; first by rewrite -e fl.
apply: (same_trans s); split; first by rewrite /= hd.
move=> ix /[dup] /in_range_size; case: ix => [|i [|j []]] //= _ /and3P[hi hj _].
rewrite hs; set l := locate _ i.
have [l1 l2] := locate_lt hi; rewrite -/l size_map in l1 l2.
rewrite (nth_map none) //=; have [m e'] := hb _ l1; by rewrite e' hj.
Qed.

(** Along the last index, for any number of indices. *)
Lemma zip_app (s t : seq nat) x y : size s = size t -> zip (rcons s x) (rcons t y) = rcons (zip s t) (x, y).
Proof. by elim: s t => [|a s IH] [|b t] //= [e]; rewrite IH. Qed.

Lemma set_nth_last (s : seq nat) x y : set_nth 0 (rcons s x) (size s) y = rcons s y.
Proof. by elim: s => //= a s ->. Qed.

Lemma nth_last_rcons (s : seq nat) x d : nth d (rcons s x) (size s) = x.
Proof. by rewrite nth_rcons ltnn eqxx. Qed.

Lemma zeros_le ix n : size ix = n -> le_each (nseq n 0) ix.
Proof. by move<-; elim: ix => //= i ix IH; rewrite /le_each /=. Qed.

Lemma zeros_plus ds n : size ds = n -> plus_each (nseq n 0) ds = ds.
Proof. exact: shift0. Qed.

Lemma zeros_minus ix n : size ix = n -> minus_each ix (nseq n 0) = ix.
Proof. by move<-; elim: ix => //= i ix IH; rewrite /minus_each /= in IH *; rewrite IH subn0. Qed.

Lemma in_range_lt ds ix : in_range ds ix -> lt_each ix ds.
Proof. by elim: ds ix => [|d ds IH] [|i ix] //= /andP[h1 h2]; rewrite /lt_each /= h1 /=; exact: IH. Qed.

Lemma in_range_rcons ds d ix : in_range (rcons ds d) ix -> exists ix' x, [/\ ix = rcons ix' x, in_range ds ix' & x < d].
Proof.
move=> h; have := in_range_size h; rewrite size_rcons; case/lastP: ix h => // ix x h; rewrite size_rcons => -[e].
exists ix, x; split=> //; last by have := nth_in_range h (_ : size ds < _); rewrite size_rcons leqnn !nth_rcons e ltnn eqxx; exact.
apply: in_range_nth => // i hi; have := nth_in_range h (_ : i < _); rewrite size_rcons leqW // => /(_ isT).
by rewrite !nth_rcons e hi.
Qed.

Lemma le_each_refl s : le_each s s.
Proof. by elim: s => //= a s IH; rewrite /le_each /= leqnn. Qed.

Lemma tile_implE n d (st : tstate A) b bs : tile_impl n.+1 d st (b :: bs) =
      let k := rank (tarr st) in
      let bsz0 := if d == 0 then [seq dim b i | i <- iota 0 k] else tbsz st in
      let cur := nth 0 (tpos st) d in
      let lim := dim (tarr st) d in
      if d == k.-1 then
        rbind (set_slice (tarr st) b (tpos st)) (fun t =>
          if (0 < cur) && has (fun i => (i != d) && (dim b i != nth 0 bsz0 i)) (iota 0 k) then Thrown
          else
            let cur' := cur + dim b d in
            if cur' < lim then tile_impl n d (TS (set_nth 0 (tpos st) d cur') bsz0 t) bs
            else if cur' == lim then
              (if d is d'.+1 then
                 let p := set_nth 0 (tpos st) d 0 in
                 tile_impl n d' (TS (set_nth 0 p d' (nth 0 p d' + dim b d')) bsz0 t) bs
               else Rejected)
            else Thrown)
      else
        let bsz1 := set_nth 0 bsz0 d (dim b d) in
        if cur < lim then tile_impl n d.+1 (TS (tpos st) bsz1 (tarr st)) (b :: bs)
        else if d is d'.+1 then
          (if lim < cur then Thrown
           else
             let p := set_nth 0 (tpos st) d 0 in
             tile_impl n d' (TS (set_nth 0 p d' (nth 0 p d' + dim b d')) bsz1 (tarr st)) (b :: bs))
        else Thrown.
Proof. by []. Qed.

Lemma tile_last_loop bs n w bsz t ds W : 0 < size ds -> dims t = rcons ds W -> bs <> [::] ->
  (forall p, p < size bs -> exists2 x, dims (nth none bs p) = rcons ds x & 0 < x) ->
  w + sumn [seq dim b (size ds) | b <- bs] = W -> (forall i, i < size ds -> nth 0 bsz i = nth 0 ds i) -> size bs < n ->
  exists st, [/\ tile_impl n (size ds) (TS (rcons (nseq (size ds) 0) w) bsz t) bs = Val st, dims (tarr st) = rcons ds W &
    forall ix x, in_range ds ix -> x < W -> comp (tarr st) (rcons ix x) =
      if w <= x then let m := locate [seq dim b (size ds) | b <- bs] (x - w) in comp (nth none bs m.1) (rcons ix m.2)
      else comp t (rcons ix x)].
Proof.
move=> s0; elim: bs n w t => [//|b bs IH] [//|n] w t dt _ hb hW hz hn.
have [wb db wb0] := hb 0 isT; rewrite /= in db.
have lb : dim b (size ds) = wb by rewrite /dim db nth_last_rcons.
rewrite /= lb in hW hn; rewrite [map _ (b :: bs)]/= lb.
have ds0 : (size ds == 0) = false by rewrite eqn0Ngt s0.
rewrite tile_implE [tarr _]/= [tpos _]/= [tbsz _]/= /rank dt size_rcons -pred_Sn eqxx ds0; cbv zeta.
have fit : le_each (plus_each (rcons (nseq (size ds) 0) w) (dims b)) (dims t).
  rewrite db dt /plus_each zip_app ?size_nseq // map_rcons /= -/(plus_each _ _) zeros_plus // /le_each zip_app // all_rcons /= -hW addnA leq_addr /=.
  exact: le_each_refl.
rewrite {1}/set_slice fit /rbind.
set t1 := Arr (dims t) _.
have bad : has (fun i => (i != size ds) && (dim b i != nth 0 bsz i)) (iota 0 (size ds).+1) = false.
  apply/negbTE/hasPn => i; rewrite mem_iota add0n leq0n ltnS leq_eqVlt => /orP[/eqP->|hi]; first by rewrite eqxx.
  by rewrite (hz i) // /dim db nth_rcons hi (set_nth_default 0) // eqxx andbF.
rewrite bad andbF lb.
have -> : nth 0 (rcons (nseq (size ds) 0) w) (size ds) = w by rewrite -{2}(size_nseq (size ds) 0) nth_last_rcons.
have -> : dim t (size ds) = W by rewrite /dim dt nth_last_rcons.
have c1 ix x : in_range ds ix -> x < W ->
    comp t1 (rcons ix x) = if w <= x < w + wb then comp b (rcons ix (x - w)) else comp t (rcons ix x).
  move=> hx xW; have sx := in_range_size hx.
  rewrite /t1 /= db /plus_each !zip_app ?size_nseq // map_rcons -/(plus_each _ _) zeros_plus //.
  rewrite /le_each /lt_each /minus_each !zip_app ?size_nseq // !all_rcons map_rcons /=.
  rewrite -/(le_each _ _) -/(lt_each _ _) -/(minus_each _ _) zeros_le // in_range_lt // zeros_minus // !andbT.
  by [].
have setw v : set_nth 0 (rcons (nseq (size ds) 0) w) (size ds) v = rcons (nseq (size ds) 0) v.
  by have := set_nth_last (nseq (size ds) 0) w v; rewrite size_nseq.
have [bs0|bs0] := eqVneq (size bs) 0.
  move/size0nil: bs0 => ?; subst bs; rewrite /= addn0 in hW; rewrite hW ltnn eqxx.
  case es : (size ds) s0 => [//|k] _; case: n hn => // n _ /=.
  eexists; split; first by []; first by rewrite /= dt.
  move=> ix x hx xW; rewrite [tarr _]/= c1 // hW xW andbT; case: (leqP w x) => //= wx.
  by rewrite ltn_subLR // hW xW.
have [w2 db2 w20] : exists2 x, dims (nth none bs 0) = rcons ds x & 0 < x by apply: (hb 1); rewrite ltnS lt0n.
have lw : w + wb < W.
  rewrite -hW addnA -[X in X < _]addn0 ltn_add2l; case: bs bs0 db2 {hW hb hn IH} => //= b' bs _ db2.
  by rewrite {1}/dim db2 nth_last_rcons addn_gt0 w20.
rewrite lw setw.
have q1 : bs <> [::] by move=> e; rewrite e in bs0.
have q2 p : p < size bs -> exists2 x, dims (nth none bs p) = rcons ds x & 0 < x by move=> hp; apply: (hb p.+1).
have q3 : w + wb + sumn [seq dim b (size ds) | b <- bs] = W by rewrite -addnA.
have [st [h1 h2 h3]] := IH n (w + wb) t1 dt q1 q2 q3 hz hn.
exists st; split=> //.
move=> ix x hx xW; rewrite h3 // c1 //.
have [xw|wx] := ltnP x w; first by rewrite leqNgt (ltn_addr _ xw).
have [xl|xl] := ltnP x (w + wb); first by rewrite /= ltn_subLR // xl.
by rewrite /= ltnNge leq_subRL // xl /= subnDA.
Qed.

Lemma tile_climb b bs n d t ds W bsz : dims t = rcons ds W -> (forall i, i < size ds -> 0 < nth 0 ds i) ->
  (exists x, dims b = rcons ds x) -> d < size ds -> (0 < d -> forall i, i < (size ds).+1 -> nth 0 bsz i = dim b i) ->
  exists bsz', (forall i, i < (size ds).+1 -> nth 0 bsz' i = dim b i) /\
    tile_impl (n + (size ds - d)) d (TS (nseq (size ds).+1 0) bsz t) (b :: bs) =
    tile_impl n (size ds) (TS (nseq (size ds).+1 0) bsz' t) (b :: bs).
Proof.
move=> dt pos [x db] hd; move eqk : (size ds - d) => k; elim: k d bsz eqk hd => [|k IH] d bsz ek hd hz.
  by move/eqP: ek; rewrite subn_eq0 leqNgt hd.
rewrite addnS tile_implE ![tarr _]/= ![tpos _]/(nseq (size ds).+1 0) ![tbsz _]/= /rank dt size_rcons -pred_Sn (ltn_eqF hd); cbv zeta; rewrite -!/(nseq (size ds).+1 0) nth_nseq if_same.
have -> : dim t d = nth 0 ds d by rewrite /dim dt nth_rcons hd (set_nth_default 0).
rewrite pos //.
set bsz1 := set_nth _ _ _ _.
have hz1 i : i < (size ds).+1 -> nth 0 bsz1 i = dim b i.
  move=> hi; rewrite nth_set_nth /=; case: eqP => [->//|_]; case: eqP => [_|/eqP d0]; last by apply: hz; rewrite ?lt0n.
  by rewrite -[_ :: _]/(map (dim b) (iota 0 (size ds).+1)) (nth_map 0) ?size_iota // nth_iota.
have [dl|dl] := eqVneq d.+1 (size ds).
  have -> : k = 0 by apply/eqP; rewrite -eqSS -ek -dl subSnn.
  by rewrite addn0 dl; exists bsz1.
have k1 : size ds - d.+1 = k by rewrite subnS ek.
have k2 : d.+1 < size ds by rewrite ltn_neqAle dl.
have [bsz' [h1 h2]] := IH d.+1 bsz1 k1 k2 (fun _ => hz1).
by exists bsz'; split=> //; rewrite -h2.
Qed.

Lemma tile_two n ds bs : 1 < size bs ->
  tile n ds bs = rbind (tile_impl n 0 (TS (nseq (size ds) 0) [::] (Arr ds (fun=> None))) bs) (fun st => Val (tarr st)).
Proof. by case: bs => [|b [|b' bs]]. Qed.

Lemma tile_last n bs ds : 0 < size ds -> (forall i, i < size ds -> 0 < nth 0 ds i) ->
  (forall p, p < size bs -> exists2 x, dims (nth none bs p) = rcons ds x & 0 < x) ->
  1 < size bs -> size ds + size bs < n ->
  returns (tile n (rcons ds (sumn [seq dim b (size ds) | b <- bs])) bs) (joined (size ds) bs).
Proof.
move=> s0 pos hb s1 hn; set W := sumn _.
have [x0 d0 _] := hb 0 (ltnW s1).
pose t := Arr (rcons ds W) (fun=> @None A).
case: bs s1 hb hn @W d0 @t => [//|b bs] s1 hb hn W d0 t; rewrite /= in d0.
have [bsz' [hz e]] := @tile_climb b bs (n - size ds) 0 t ds W [::] erefl pos (ex_intro _ x0 d0) s0 (fun h => False_ind _ (notF h)).
rewrite subn0 subnK in e; last by apply: ltnW; apply: leq_trans hn; rewrite ltnS leq_addr.
have q2 : 0 + sumn [seq dim b (size ds) | b <- b :: bs] = W by rewrite add0n.
have q3 i : i < size ds -> nth 0 bsz' i = nth 0 ds i.
  by move=> hi; rewrite hz ?leqW // /dim d0 nth_rcons hi (set_nth_default 0).
have q4 : size (b :: bs) < n - size ds by rewrite ltn_subRL.
have q0 : b :: bs <> [::] by [].
have [st [e1 e2 e3]] := @tile_last_loop (b :: bs) (n - size ds) 0 bsz' t ds W s0 erefl q0 hb q2 q3 q4.
have nz : rcons (nseq (size ds) 0) 0 = nseq (size ds).+1 0 by elim: (size ds) => //= m ->.
exists (tarr st).
  by rewrite tile_two // size_rcons -/t e -nz e1.
split; first by rewrite e2 /= d0 set_nth_last.
move=> ix; rewrite e2 => /in_range_rcons[ix' [x [-> r xW]]]; rewrite e3 // subn0 [comp (joined _ _) _]/=.
by rewrite -(in_range_size r) nth_last_rcons set_nth_last.
Qed.

End P.
