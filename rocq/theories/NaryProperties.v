(** * Component-wise and chip-wise operations. *)
From mathcomp Require Import all_ssreflect.
From Verif Require Import TileModel TileSpec NaryModel NarySpec TileProofs NaryProofs NaryProofs2 NaryProofs3.
Set Implicit Arguments.
Unset Strict Implicit.
Unset Printing Implicit Defensive.

(** Arguments for the examples: a matrix of fixed or dynamic size, and an operation that adds and counts its calls. *)
Definition table (fixed : bool) h w : src nat :=
  Src [:: h; w] (fun ix => 10 * nth 0 ix 0 + nth 0 ix 1) None [:: fixed; fixed].
Definition adding (indices : bool) : oper nat nat nat := Oper indices (fun s xs j => (sumn xs + sumn j, s.+1)).
Lemma adding_pure b : pure (adding b) (fun xs j => sumn xs + sumn j). Proof. by []. Qed.
Lemma table_broadcast f : forall a, List.In a [:: table f 2 3; table f 2 1; table f 1 3] -> broadcastable [:: 2; 3] a /\ proper_src a.
Proof. by move=> a [<-|[<-|[<-|//]]]; split=> //; split=> // -[|[|i]] // _; by [left | right]. Qed.

(** ** Result of given dimensions *)

Lemma check_ok (T : Type) (args : seq (src T)) ds : (forall a, List.In a args -> broadcastable ds a) -> check_dims ds args.
Proof.
move=> h; apply/allP => i; rewrite mem_iota add0n => hi; apply: all_In => a ha; have [_ /(_ i hi)] := h a ha.
by case=> ->; rewrite eqxx ?orbT.
Qed.

(** Every index of the result is visited once, with the operation called on the components there. *)
Theorem n_ary_each_once_partial (T U S : Type) library ds statics (op : oper T U S) args s :
  all (fun d => d != 0) ds -> (forall a, List.In a args -> broadcastable ds a) -> varies op args ->
  ~~ (takes_indices op && library) -> ~~ single statics ds ->
  exists2 order, each_once ds order &
    let q := replay (calls op args) s order in
    exists2 m, n_ary_operation library ds statics op args s = Val (m, q.2) &
      dims m = ds /\ forall k, k < size order -> comp m (nth [::] order k) = ohead (drop k q.1).
Proof. by move=> hd hb hv hl hs; rewrite /n_ary_operation hd (check_ok hb); exact: n_ary_run. Qed.
Example n_ary_each_once_case : let args := [:: table false 2 3; table false 2 1; table false 1 3] in
  [/\ forall a, List.In a args -> broadcastable [:: 2; 3] a, varies (adding true) args & ~~ single [:: false; false] [:: 2; 3]].
Proof. by split=> // a ha; have [] := table_broadcast ha. Qed.
Print Assumptions n_ary_each_once_partial.

Theorem n_ary_values_partial (T U S : Type) library ds statics (op : oper T U S) f args s :
  size statics = size ds -> 0 < size args -> all (fun d => d != 0) ds ->
  (forall a, List.In a args -> broadcastable ds a /\ proper_src a) -> pure op f ->
  ~~ (takes_indices op && (library || single statics ds)) ->
  exists m s', n_ary_operation library ds statics op args s = Val (m, s') /\ dims m = ds /\
    forall ix, in_range ds ix -> comp m ix = Some (f [seq broadcast a ix | a <- args] (if takes_indices op then ix else [::])).
Proof.
move=> es na hd hb hf hl; rewrite /n_ary_operation hd check_ok; first exact: n_ary_values.
by move=> a /hb[].
Qed.
Example n_ary_values_case : forall a, List.In a [:: table true 2 3; table true 2 1; table true 1 3] -> broadcastable [:: 2; 3] a /\ proper_src a.
Proof. exact: table_broadcast. Qed.
Print Assumptions n_ary_values_partial.

(** Dimensions that cannot be matched are always reported. *)
Theorem n_ary_mismatch_reported (T U S : Type) library ds statics (op : oper T U S) args s a i :
  List.In a args -> i < size ds -> sdim a i <> 1 -> sdim a i <> nth 0 ds i ->
  n_ary_operation library ds statics op args s = Thrown.
Proof.
move=> ha hi h1 h2; rewrite /n_ary_operation [check_dims _ _](_ : _ = false) ?andbF //.
apply/negbTE/allPn; exists i; first by rewrite mem_iota.
apply/negP => h; have := In_all h ha; by move=> /orP[/eqP|/eqP].
Qed.
Example n_ary_mismatch_case : sdim (table true 2 2) 1 <> 1 /\ sdim (table true 2 2) 1 <> nth 0 [:: 2; 3] 1. Proof. by []. Qed.
Print Assumptions n_ary_mismatch_reported.

(** An operation that wants the indices cannot be applied to a 1×1 matrix of fixed size. *)
Theorem n_ary_indices_single_refuted (T U S : Type) library (op : oper T U S) args s :
  takes_indices op -> (forall a, List.In a args -> broadcastable [:: 1; 1] a) -> 0 < size args ->
  n_ary_operation library [:: 1; 1] [:: true; true] op args s = Rejected.
Proof.
move=> ht hb n0; rewrite /n_ary_operation (check_ok hb) /= /n_ary_impl ht andbF /=.
by case: library => //; case: args n0 {hb}.
Qed.
Example n_ary_indices_single_case : takes_indices (adding true) /\ broadcastable [:: 1; 1] (table true 1 1).
Proof. by split=> //; split=> // -[|[|i]] // _; left. Qed.
Print Assumptions n_ary_indices_single_refuted.

(** Where the library has a version of its own for operations on arguments and indices, the call does not compile. *)
Theorem n_ary_library_refuted (T U S : Type) ds statics (op : oper T U S) args s :
  takes_indices op -> all (fun d => d != 0) ds -> (forall a, List.In a args -> broadcastable ds a) -> 0 < size args ->
  n_ary_operation true ds statics op args s = Rejected.
Proof.
move=> ht hd hb n0; rewrite /n_ary_operation hd (check_ok hb) /= /n_ary_impl ht andbF /=.
by case: args n0 {hb}.
Qed.
Example n_ary_library_case : takes_indices (adding true) /\ forall a, List.In a [:: table true 2 3; table true 2 1; table true 1 3] -> broadcastable [:: 2; 3] a.
Proof. by split=> // a ha; have [] := table_broadcast ha. Qed.
Print Assumptions n_ary_library_refuted.

(** With known constants and an operation that has a state, only one call is made. *)
Theorem n_ary_constants_once (T U S : Type) library ds statics (op : oper T U S) args s cs :
  takes_indices op = false -> 0 < size args -> [seq sconst a | a <- args] = [seq Some c | c <- cs] ->
  all (fun d => d != 0) ds -> (forall a, List.In a args -> broadcastable ds a) ->
  exists2 m, n_ary_operation library ds statics op args s = Val (m, (call op s cs [::]).2) &
    dims m = ds /\ forall ix, comp m ix = Some (call op s cs [::]).1.
Proof.
move=> ht n0 hc hd hb; rewrite /n_ary_operation hd (check_ok hb) /= /n_ary_impl n0 ht /=.
have -> : pmap (fun a : src T => sconst a) args = cs.
  by elim: args cs hc {n0 hb} => [|a args IH] [|c cs] //= [-> /IH->].
have -> : all (fun a : src T => isSome (sconst a)) args; last by eexists.
by elim: args cs hc {n0 hb} => [|a args IH] [|c cs] //= [-> /IH].
Qed.
Example n_ary_constants_case : [seq sconst a | a <- [:: Src [:: 2; 3] (fun=> 7) (Some 7) [:: true; true]]] = [seq Some c | c <- [:: 7]].
Proof. by []. Qed.
Print Assumptions n_ary_constants_once.

(** ** Dimensions from the arguments *)

Theorem n_ary_auto_values_partial (T U S : Type) library ds (op : oper T U S) f args s :
  0 < size args -> size ds = foldr maxn 0 [seq size (sdims a) | a <- args] ->
  (forall i, i < size ds -> matching (nth 0 ds i) (dims_along args i) /\ last_not_one (nth 0 ds i) (dims_along args i)) ->
  (forall a, List.In a args -> proper_src a) -> pure op f ->
  ~~ (takes_indices op && (library || all (fun d => d == 1) ds)) ->
  exists m s', n_ary_operation_auto library op args s = Val (m, s') /\ dims m = ds /\
    forall ix, in_range ds ix -> comp m ix = Some (f [seq broadcast a ix | a <- args] (if takes_indices op then ix else [::])).
Proof.
move=> n0 es h hp hf hl; have [hb [st est ->]] := auto_ok library op s es h.
apply: n_ary_values => //; first by move=> a ha; split; [exact: hb | exact: hp].
apply: contra hl => /andP[-> /orP[->//|hs]]; by rewrite (single_ones est hs) orbT.
Qed.
Example n_ary_auto_case : let args := [:: table true 2 1; table false 1 3; table true 2 3] in
  size [:: 2; 3] = foldr maxn 0 [seq size (sdims a) | a <- args] /\
  forall i, i < 2 -> matching (nth 0 [:: 2; 3] i) (dims_along args i) /\ last_not_one (nth 0 [:: 2; 3] i) (dims_along args i).
Proof.
split=> // -[|[|i]] // _ /=; split; try by right.
  split=> //; split=> [p|]; last by exists (true, 2).
  by rewrite !inE => /or3P[]/eqP->; by [left | right].
split=> //; split=> [p|]; last by exists (true, 3).
by rewrite !inE => /or3P[]/eqP->; by [left | right].
Qed.
Print Assumptions n_ary_auto_values_partial.

(** Between dynamic dimensions a mismatch is always reported. *)
Theorem n_ary_auto_dynamic_checked (T U S : Type) library (op : oper T U S) args s r i :
  i < foldr maxn 0 [seq size (sdims a) | a <- args] -> (forall a, List.In a args -> fixed_at a i = false) ->
  n_ary_operation_auto library op args s = Val r -> exists D, matching D (dims_along args i).
Proof.
move=> hi hf; rewrite /n_ary_operation_auto.
set R := fun i => find_max_dim (dims_along args i); set n := foldr _ _ _ in hi *.
case e : (all_dims _) => [fds| | | |] //= _.
have gen k m fds0 : all_dims [seq R i | i <- iota k m] = Val fds0 -> forall j, k <= j < k + m -> exists p, R j = Val p.
  elim: m k fds0 => [|m IH] k fds0 /=; first by move=> _ j; rewrite addn0 ltnNge => /andP[->].
  case e1 : (R k) => [p| | | |] //=; case e2 : (all_dims _) => [q| | | |] //= _ j /andP[h1 h2].
  move: h1; rewrite leq_eqVlt => /orP[/eqP<-|h1]; first by exists p.
  by apply: (IH k.+1 q e2); rewrite h1 addSnnS.
have [[f D] er] := gen 0 n fds e i hi.
have [|_ hm] := find_max_dynamic _ er; last by exists D.
by apply/allP => p; rewrite /dims_along; elim: args hf {n hi e er R gen} => //= a args IH hf; rewrite inE => /orP[/eqP->|]; [rewrite (hf a) //; left | apply: IH => b hb; apply: hf; right].
Qed.
Example n_ary_auto_dynamic_case : exists r, n_ary_operation_auto false (adding true) [:: table false 2 1; table false 1 3] 0 = Val r.
Proof. by eexists. Qed.
Print Assumptions n_ary_auto_dynamic_checked.

(** Between fixed dimensions it is not: the narrower argument's first column is used for the columns it lacks. *)
Theorem n_ary_auto_fixed_refuted :
  exists m s, n_ary_operation_auto false (adding false) [:: table true 2 3; table true 2 2] 0 = Val (m, s) /\ dims m = [:: 2; 3] /\
    comp m [:: 1; 2] = Some (12 + 10).
Proof. by do 2!eexists; split; [|split]. Qed.
Print Assumptions n_ary_auto_fixed_refuted.

(** The same arguments are accepted in one order and rejected in the other. *)
Theorem n_ary_auto_order_refuted (U S : Type) library (op : oper nat U S) s n : 1 < n ->
  n_ary_operation_auto library op [:: table true n 1; table true 1 1] s = Rejected /\
  forall f, pure op f -> takes_indices op = false -> exists m s', n_ary_operation_auto library op [:: table true 1 1; table true n 1] s = Val (m, s').
Proof.
move=> hn; split.
  by case: n hn => [|[|n]].
move=> f hf ht; have [||||||m [s' [-> _]]] := @n_ary_auto_values_partial nat U S library [:: n; 1] op f [:: table true 1 1; table true n 1] s => //.
- move=> [|[|i]] // _ /=; split.
  + split; first exact: ltnW; split=> [p|]; last by exists (true, n); rewrite ?inE ?eqxx ?orbT.
    by rewrite /dims_along /= !inE => /orP[]/eqP->; [left | right].
  + by right=> -[e]; rewrite /sdim /= in e; rewrite e in hn.
  + split=> //; split=> [p|]; last by exists (true, 1).
    by rewrite /dims_along /= !inE => /orP[]/eqP->; left.
  + by left.
- by move=> a [<-|[<-|//]].
- by rewrite ht.
by exists m, s'.
Qed.
Example n_ary_auto_order_case : pure (adding false) (fun xs j => sumn xs + sumn j). Proof. by []. Qed.
Print Assumptions n_ary_auto_order_refuted.

(** ** In place *)

Theorem unary_in_place_each_once (T S : Type) (op : S -> T -> seq nat -> (T * option T) * S) ds m (s : S) :
  exists2 order, each_once ds order &
    let f s j := let r := op s (m j) j in (r.1.1, r.2) in
    let r := unary_operation_in_place op ds m s in
    [/\ r.2 = (replay f s order).2,
        forall k, k < size order -> Some (r.1 (nth [::] order k)) = ohead (drop k (replay f s order).1) &
        forall ix, ~~ in_range ds ix -> r.1 ix = m ix].
Proof.
exists (loop ds [::]); first exact: loop_once.
have [u ml] := loop_once ds; have [e1 [e2 e3]] := in_place_fold op m s u.
by split=> // ix; rewrite -ml; exact: e3.
Qed.
Print Assumptions unary_in_place_each_once.
(** What the operation returns is not used: one that returns the new value, without changing its argument, does nothing. *)
Theorem unary_in_place_result_refuted (T : Type) (g : T -> T) ds m ix :
  (unary_operation_in_place (fun (s : unit) x j => ((x, Some (g x)), s)) ds m tt).1 ix = m ix.
Proof.
rewrite /unary_operation_in_place.
suff gen l m' : m' ix = m ix -> (foldl (in_place_visit (fun (s : unit) x j => ((x, Some (g x)), s))) (m', tt) l).1 ix = m ix by exact: gen.
elim: l m' => //= j l IH m' e; rewrite /in_place_visit /=; apply: IH.
by case: eqP => // <-.
Qed.
Print Assumptions unary_in_place_result_refuted.

(** ** Several operations without arguments *)

Theorem nullary_each_operation_partial (U : Type) left ds statics takes ixs (ops : seq (seq nat -> U)) (d : seq nat -> U) :
  uniq ixs -> all (fun i => i < size ds) ixs -> all (fun d => 0 < d) ds ->
  size ops = foldr muln 1 [seq nth 1 ds i | i <- ixs] ->
  statics && (size ops == foldr muln 1 ds) && ~~ takes = false \/ ixs = (if left then rev (iota 0 (size ds)) else iota 0 (size ds)) ->
  exists2 m, nullary_operations left ds statics takes ixs ops = Val m &
    dims m = ds /\ forall ix, in_range ds ix -> comp m ix = Some (nth d ops (major_order ds ixs ix) ix).
Proof.
move=> ui hi hd es hb; have [m e [dm c]] := nullary_ok ui hi hd es hb; exists m => //; split=> // ix r.
rewrite c // (drop_nth d) //= es; exact: major_lt.
Qed.
Example nullary_columns_case : [/\ uniq [:: 1], all (fun i => i < 2) [:: 1], size [:: fun=> 5; fun=> 6; fun _ : seq nat => 7] = foldr muln 1 [seq nth 1 [:: 2; 3] i | i <- [:: 1]]
  & true && (3 == foldr muln 1 [:: 2; 3]) && ~~ false = false].
Proof. by []. Qed.
Print Assumptions nullary_each_operation_partial.

(** One operation for each element of a matrix of fixed size: the order is the layout of the pattern, not that of the indices. *)
Theorem nullary_element_order_refuted (left : bool) :
  let ixs := if left then [:: 0; 1] else [:: 1; 0] in
  exists2 m, nullary_operations left [:: 2; 3] true false ixs [seq (fun=> k) | k <- iota 4 6] = Val m &
    comp m [:: 0; 1] <> Some (nth 0 (iota 4 6) (major_order [:: 2; 3] ixs [:: 0; 1])).
Proof. by case: left; eexists. Qed.
Print Assumptions nullary_element_order_refuted.

(** ** Chip by chip *)

Theorem chipwise_values_partial (A : Type) ixs op (args : seq (arr A)) ds : uniq ixs -> 0 < size ixs -> 0 < size args ->
  (forall a, List.In a args -> dims a = ds) -> all (fun i => i < size ds) ixs ->
  (forall i, size ixs <= i < size ds -> i \in ixs \/ nth 1 ds i = 1) ->
  (forall cs cs' v, List.Forall2 (@same A) cs cs' -> same (op cs v) (op cs' v)) ->
  (forall v, dims (op [seq chip_of a ixs v | a <- args] v) = chipped ixs ds) ->
  exists m, [/\ chipwise_operation ixs op args = Val m, dims m = ds &
    forall ix, in_range ds ix -> comp m ix = comp (op [seq chip_of a ixs (along ixs ix) | a <- args] (along ixs ix)) (within ixs ix)].
Proof. exact: chipwise_ok. Qed.
Definition number (h w : nat) : arr nat := Arr [:: h; w] (fun ix => Some (10 * nth 0 ix 0 + nth 0 ix 1)).
Definition first_of (cs : seq (arr nat)) (v : seq nat) : arr nat := if cs is c :: _ then c else Arr [::] (fun=> None).
Example chipwise_case : [/\ forall i, 1 <= i < 2 -> i \in [:: 1] \/ nth 1 [:: 2; 3] i = 1,
  forall cs cs' v, List.Forall2 (@same nat) cs cs' -> same (first_of cs v) (first_of cs' v) &
  forall v, dims (first_of [seq chip_of a [:: 1] v | a <- [:: number 2 3]] v) = chipped [:: 1] [:: 2; 3]].
Proof. by split=> // [[|[|i]] // _|cs cs' v [] //]; left. Qed.
Print Assumptions chipwise_values_partial.

(** By columns, for any matrices of the same size. *)
Theorem chipwise_columns (A : Type) op (args : seq (arr A)) h w : 0 < size args ->
  (forall a, List.In a args -> dims a = [:: h; w]) ->
  (forall cs cs' v, List.Forall2 (@same A) cs cs' -> same (op cs v) (op cs' v)) ->
  (forall v, dims (op [seq chip_of a [:: 1] v | a <- args] v) = [:: h; 1]) ->
  exists m, [/\ chipwise_operation [:: 1] op args = Val m, dims m = [:: h; w] &
    forall i j, i < h -> j < w -> comp m [:: i; j] = comp (op [seq chip_of a [:: 1] [:: j] | a <- args] [:: j]) [:: i; 0]].
Proof.
move=> n0 hd hr hc; have h1 i : 1 <= i < 2 -> i \in [:: 1] \/ nth 1 [:: h; w] i = 1 by case: i => [|[|i]] // _; left.
have [m [e d c]] := @chipwise_ok A [:: 1] op args [:: h; w] isT isT n0 hd isT h1 hr hc.
by exists m; split=> // i j hi hj; rewrite c //= /in_range /= hi hj.
Qed.
Example chipwise_columns_case : forall v, dims (first_of [seq chip_of a [:: 1] v | a <- [:: number 2 3]] v) = [:: 2; 1]. Proof. by []. Qed.
Print Assumptions chipwise_columns.

(** By rows, most of the result is never written. *)
Theorem chipwise_rows_refuted :
  exists2 m, chipwise_operation [:: 0] first_of [:: number 2 3] = Val m & comp m [:: 1; 1] = None.
Proof. by eexists. Qed.
Print Assumptions chipwise_rows_refuted.

(** A vector is not repeated to fill the size of a matrix. *)
Theorem chipwise_replication_refuted (A : Type) i0 ixs op (a b : arr A) i : i < maxn (rank a) (rank b) -> dim b i <> dim a i ->
  chipwise_operation (i0 :: ixs) op [:: a; b] = Thrown.
Proof.
move=> hi hd; rewrite /chipwise_operation /chip_dims ifF //; apply/negbTE/allPn; exists i; first by rewrite mem_iota /= maxn0.
by rewrite /= andbT; apply/eqP.
Qed.
Example chipwise_replication_case : dim (number 3 1) 1 <> dim (number 3 4) 1. Proof. by []. Qed.
Print Assumptions chipwise_replication_refuted.

Theorem nullary_chipwise_values_partial (A : Type) ixs (op : seq nat -> arr A) counts cds : uniq ixs -> size counts = size ixs ->
  all (fun i => i < size cds) ixs -> all (fun i => nth 1 cds i == 1) ixs -> all (fun x => 0 < x) counts ->
  (forall v, in_range counts v -> dims (op v) = cds) ->
  let ds := [seq if i \in ixs then nth 0 counts (index i ixs) else nth 1 cds i | i <- iota 0 (size cds)] in
  exists m, [/\ nullary_chipwise ixs op counts = Val m, dims m = ds &
    forall ix, in_range ds ix -> comp m ix = comp (op (along ixs ix)) (within ixs ix)].
Proof. exact: nullary_chipwise_ok. Qed.
Example nullary_chipwise_case : all (fun i => nth 1 [:: 1; 3] i == 1) [:: 0] /\ forall v, dims ((fun v : seq nat => number 1 3) v) = [:: 1; 3].
Proof. by []. Qed.
Print Assumptions nullary_chipwise_values_partial.
