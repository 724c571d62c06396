(** * Proofs: views, copies of views, lifetimes. *)
From mathcomp Require Import all_ssreflect all_algebra.
From Verif Require Import MatBase LibModel CovModel CovSpec CovProofs SqrtModel SqrtSpec SqrtProofs View4Model View4Spec.
Set Implicit Arguments.
Unset Strict Implicit.
Unset Printing Implicit Defensive.
Import GRing.Theory Num.Theory Order.Theory.
Local Open Scope ring_scope.

Section Generic.
Variable R : rcfType.
Variable n : nat.
Notation M := 'M[R]_n.
Variables cv bk : M -> M.
Variables wop oop : Type.
Variable wact : vkind -> wop -> act R n.
Variable ostep : M -> oop -> option M.
Variable wtyped : vkind -> wop -> Prop.
Variable wok : wop -> M -> Prop.
Variable wresult : wop -> M -> M -> Prop.
Variable ook : oop -> M -> Prop.
Variable oresult : oop -> M -> M -> Prop.
Variable convertible : M -> Prop.
Variable converted : M -> M -> Prop.

(** What an operation on a view does to the owner's matrix. *)
Definition effect (a : act R n) (N : M) : option M :=
  match a with Through f => Some (bk (f (cv N))) | Replace X => Some (bk X) | Direct g => g N end.

Definition through_ok (k : vkind) (a : act R n) : Prop :=
  match a with Direct _ => True | _ => k = KConv end.

Hypothesis ook_ok : forall o N, ook o N -> exists2 N', ostep N o = Some N' & oresult o N N'.
Hypothesis wok_ok : forall k w N, wtyped k w -> wok w N ->
  through_ok k (wact k w) /\ exists2 N', effect (wact k w) N = Some N' & wresult w N N'.
Hypothesis cv_ok : forall N, convertible N -> converted N (cv N).

Notation sys := (sys R n).
Notation view := (view R n).
Notation sstate := (sstate R n).

(** The state of the program and the abstract state. *)
Definition vrel (s : sys) (k : nat) (v : view) (u : sview) : Prop :=
  [/\ vown v = shows u, vkd v = skind u,
      vkd v <> KChain,
      vloc v \in k :: ancestors u &
      (vkd v = KBack -> varg v \in ancestors u)] /\
  [/\ views s (vloc v) <> Unborn,
      (forall w, views s (vloc v) = Alive w -> [/\ vkd w = KConv, vloc w = vloc v & vown w = vown v]),
      (vkd v = KBack -> views s (varg v) <> Unborn) &
      (vkd v = KBack -> forall a, views s (varg v) = Alive a -> vloc a = vloc v)] /\
  (forall a, a \in ancestors u -> views s a <> Unborn).

Definition srel (s : sys) (t : sstate) : Prop :=
  (forall i, owners s i = value t i) /\
  (forall k, match views s k, known t k with
             | Unborn, Unborn | Dead, Dead => True
             | Alive v, Alive u => vrel s k v u
             | _, _ => False
             end).

Lemma srel_alive s t k u : srel s t -> known t k = Alive u -> exists2 v, views s k = Alive v & vrel s k v u.
Proof. by case=> _ /(_ k); case E : (views s k) => [|v|] // + e; rewrite e // => h; exists v. Qed.

Lemma srel_unborn s t k : srel s t -> known t k = Unborn -> views s k = Unborn.
Proof. by case=> _ /(_ k); case E : (views s k) => [|v|] // + e; rewrite e. Qed.

Lemma srel_exists s t k : srel s t -> exists_ (known t k) -> exists v, views s k = Alive v.
Proof. by move=> h [u e]; have [v ev _] := srel_alive h e; exists v. Qed.

(** Changing only the owners. *)
Lemma srel_owner s t i x : srel s t ->
  srel (Sys (sput (owners s) i x) (views s)) (SState (sset (value t) i x) (known t)).
Proof.
case=> h1 h2; split=> [j|k]; first by rewrite /= /sput /sset; case: eqP.
by have := h2 k => /=; case: (views s k) => [|v|]; case: (known t k) => [|u|].
Qed.

(** Changing only the store of a view. *)
Lemma srel_store s t l w X : srel s t -> views s l = Alive w ->
  srel (put_view s l (View (vown w) (vkd w) (vloc w) (varg w) X)) t.
Proof.
case=> h1 h2 el; split=> [i|k] //=.
have E j : (sput (views s) l (Alive (View (vown w) (vkd w) (vloc w) (varg w) X)) j = Unborn) <-> (views s j = Unborn).
  by rewrite /sput; case: eqP => [->|] //; rewrite el.
have F j v : sput (views s) l (Alive (View (vown w) (vkd w) (vloc w) (varg w) X)) j = Alive v ->
   exists2 v0, views s j = Alive v0 & [/\ vown v = vown v0, vkd v = vkd v0, vloc v = vloc v0 & varg v = varg v0].
  rewrite /sput; case: eqP => [->|_ ->]; last by exists v.
  by case=> <-; exists w.
have := h2 k.
have V v v0 u : vown v = vown v0 -> vkd v = vkd v0 -> vloc v = vloc v0 -> varg v = varg v0 -> vrel s k v0 u ->
   vrel (put_view s l (View (vown w) (vkd w) (vloc w) (varg w) X)) k v u.
  move=> e1 e2 e3 e4 [[a1 a2 a3 a4 a5] [[b1 b2 b3 b4] c]].
  split; first by rewrite e1 e2 e3 e4.
  rewrite e1 e2 e3 e4; split; last by move=> a /c; rewrite /= E.
  split; rewrite /=.
  - by rewrite E.
  - by move=> x /F [x0 /b2 [p1 p2 p3] [-> -> -> _]].
  - by move=> /b3; rewrite E.
  - by move=> /b4 q x /F [x0 /q <- [_ _ -> _]].
rewrite {1}/sput; case: eqP => [e|nk].
  subst k; rewrite el; case ek : (known t l) => [|u|] // h.
  by apply: (V _ w).
case ev : (views s k) => [|v|]; case ek : (known t k) => [|u|] // h.
by apply: (V _ v).
Qed.

(** A new view. *)
Lemma srel_new s t k v u : srel s t -> known t k = Unborn ->
  vrel (put_view s k v) k v u ->
  srel (put_view s k v) (SState (value t) (sset (known t) k (Alive u))).
Proof.
move=> h ek hv; have ev := srel_unborn h ek.
case: h => h1 h2; split=> // j /=; rewrite /sput /sset; case: eqP => [->|nj] //.
have := h2 j; case evj : (views s j) => [|vj|]; case ekj : (known t j) => [|uj|] //.
have E a : views s a <> Unborn -> sput (views s) k (Alive v) a = views s a.
  by rewrite /sput; case: eqP => [->|].
case=> [[a1 a2 a3 a4 a5] [[b1 b2 b3 b4] c]]; split=> //; split.
  split=> /=.
  - by rewrite E.
  - by rewrite E.
  - by move=> q; rewrite E; exact: b3.
  - by move=> q; rewrite E; [exact: b4|exact: b3].
by move=> a ia /=; rewrite E; exact: c.
Qed.

(** A view that goes. *)
Lemma srel_kill s t k v : srel s t -> views s k = Alive v ->
  srel (Sys (owners s) (sput (views s) k Dead)) (SState (value t) (sset (known t) k Dead)).
Proof.
case=> h1 h2 ek; split=> // j /=; rewrite /sput /sset; case: eqP => [_|nj] //.
have := h2 j; case evj : (views s j) => [|vj|]; case ekj : (known t j) => [|uj|] //.
case=> [[a1 a2 a3 a4 a5] [[b1 b2 b3 b4] c]]; split=> //; split.
  split=> /=; rewrite /sput; case: eqP => // _; try (by move=> ? ?); try exact: b1; try exact: b2; try exact: b3; exact: b4.
by move=> a ia /=; rewrite /sput; case: eqP => // _; exact: c.
Qed.

(** The parts of a usable view. *)
Lemma usable_parts s t k u N : srel s t -> usable t k u N ->
  exists v w, [/\ views s k = Alive v, vrel s k v u, views s (vloc v) = Alive w & owners s (vown v) = Alive N].
Proof.
move=> h [ek ha en]; have [v ev hv] := srel_alive h ek.
have [w ew] : exists w, views s (vloc v) = Alive w.
  case: hv => [[_ _ _ + _] _]; rewrite in_cons => /orP [/eqP->|il]; first by exists v.
  exact: srel_exists h (ha _ il).
exists v, w; split=> //; case: hv => [[-> _ _ _ _] _].
by case: h => -> _.
Qed.

Lemma forward_ok s t k u N v w : srel s t -> usable t k u N ->
  views s k = Alive v -> vrel s k v u -> views s (vloc v) = Alive w -> owners s (vown v) = Alive N ->
  let s' := put_view s (vloc v) (View (vown w) (vkd w) (vloc w) (varg w) (cv N)) in
  [/\ forward cv s v = Done s', srel s' t & linked s' v = Done (cv N)].
Proof.
move=> h [ek ha en] ev hv ew eo s'.
case: (hv) => [[a1 a2 a3 a4 a5] [[b1 b2 b3 b4] c]].
have [p1 p2 p3] := b2 _ ew.
split.
- by rewrite /forward ew /= p1 p3 eo /= /s' p1 p3.
- exact: srel_store.
- rewrite /linked.
  have Q : views s' (vloc v) = Alive (View (vown w) (vkd w) (vloc w) (varg w) (cv N)) by rewrite /= /sput eqxx.
  case E : (vkd v); try by rewrite Q.
  have [a ea] := srel_exists h (ha _ (a5 E)).
  have la := b4 E _ ea.
  have [a' ea' la'] : exists2 a', views s' (varg v) = Alive a' & vloc a' = vloc v.
    rewrite /= /sput; case: eqP => [eq|_]; last by exists a.
    exists (View (vown w) (vkd w) (vloc w) (varg w) (cv N)) => //=.
  by move: s' Q ea' => s' Q ea'; rewrite ea' /= la' Q.
Qed.

Lemma act_ok s t k u N v w a N' : srel s t -> usable t k u N ->
  views s k = Alive v -> vrel s k v u -> views s (vloc v) = Alive w -> owners s (vown v) = Alive N ->
  through_ok (vkd v) a -> effect a N = Some N' ->
  exists2 s', do_act cv bk s v a = Done s' & srel s' (SState (sset (value t) (shows u) (Alive N')) (known t)).
Proof.
move=> h hu ev hv ew eo ta ef.
have [fe fr fl] := forward_ok h hu ev hv ew eo.
have [[a1 a2 a3 a4 a5] [[b1 b2 b3 b4] c]] := hv.
have [p1 p2 p3] := b2 _ ew.
case: a ta ef => [f|X|g] /=.
- move=> kc [<-]; rewrite fe /= fl /= /set_linked.
  set s1 := put_view _ _ _.
  have Q : views s1 (vloc v) = Alive (View (vown w) (vkd w) (vloc w) (varg w) (cv N)) by rewrite /= /sput eqxx.
  rewrite Q /=; set s2 := put_view s1 _ _.
  have r2 : srel s2 t by apply: (@srel_store s1 t _ _ _ fr Q).
  rewrite /reverse; have -> : views s2 (vloc v) = Alive (View (vown w) (vkd w) (vloc w) (varg w) (f (cv N))).
    by rewrite /= /sput eqxx.
  rewrite /= p3 eo /=; eexists; first by reflexivity.
  by rewrite -a1; exact: srel_owner.
- move=> kc [<-]; rewrite /set_linked ew /=; set s2 := put_view _ _ _.
  have r2 : srel s2 t by apply: srel_store.
  rewrite /reverse; have -> : views s2 (vloc v) = Alive (View (vown w) (vkd w) (vloc w) (varg w) X).
    by rewrite /= /sput eqxx.
  rewrite /= p3 eo /=; eexists; first by reflexivity.
  by rewrite -a1; exact: srel_owner.
- move=> _ e; rewrite eo /= e; eexists; first by reflexivity.
  by rewrite -a1; exact: srel_owner.
Qed.

Lemma step4_ok s t o : srel s t -> allowed4 wtyped wok ook convertible t o ->
  exists s' b t', [/\ step4 cv bk wact ostep s o = Done (s', b), spec4 wresult oresult converted t o b t' & srel s' t'].
Proof.
move=> h; case: o => [i N|i o|i|i|k i|k j|k j|k j|k|k w|k j|k|k] /=.
- move=> e; have -> : owners s i = Unborn by case: h => ->.
  by do 3!eexists; split; [reflexivity|split; reflexivity|exact: srel_owner].
- case=> N e /ook_ok [N' e' r]; have -> : owners s i = Alive N by case: h => ->.
  by rewrite /= e'; do 3!eexists; split; [reflexivity|exists N, N'; split; eauto|exact: srel_owner].
- case=> N e; have -> : owners s i = Alive N by case: h => ->.
  by do 3!eexists; split; [reflexivity|exists N; split; eauto|exact: h].
- case=> N e; have -> : owners s i = Alive N by case: h => ->.
  by do 3!eexists; split; [reflexivity|split; reflexivity|exact: srel_owner].
- case=> ek [N e]; rewrite (srel_unborn h ek) /=.
  have -> : owners s i = Alive N by case: h => ->.
  do 3!eexists; split; [reflexivity|split; reflexivity|apply: srel_new => //].
  have Q : views (put_view s k (View i KConv k k 0)) k = Alive (View i KConv k k 0) by rewrite /= /sput eqxx.
  split; first by split=> //=; rewrite in_cons eqxx.
  split=> //; split=> //=; rewrite -?/(views (put_view s k (View i KConv k k 0)) k) ?Q //.
  by rewrite /sput eqxx.
  by move=> w; rewrite /sput eqxx => -[<-].
- case=> ek [u eu]; have [v ev hv] := srel_alive h eu; rewrite (srel_unborn h ek) /= ev /=.
  have ekv := srel_unborn h ek.
  do 3!eexists; split; [reflexivity|by exists u; split; eauto|apply: srel_new => //].
  have E a : views s a <> Unborn -> sput (views s) k (Alive v) a = views s a.
    by rewrite /sput; case: eqP => [->|].
  have nj : views s j <> Unborn by rewrite ev.
  case: hv => [[a1 a2 a3 a4 a5] [[b1 b2 b3 b4] c]].
  split; first by split=> //=; [rewrite in_cons a4 orbT|move=> q; rewrite in_cons a5 ?orbT].
  split; last by move=> a /=; rewrite in_cons => /orP [/eqP->|/c q]; rewrite E.
  split=> /=.
  + by rewrite E.
  + by rewrite E.
  + by move=> q; rewrite E; exact: b3.
  + by move=> q; rewrite E; [exact: b4|exact: b3].
- case=> ek [u eu ku]; have [v ev hv] := srel_alive h eu; rewrite (srel_unborn h ek) /= ev /=.
  have ekv := srel_unborn h ek.
  do 3!eexists; split; [reflexivity|by exists u; split; eauto|apply: srel_new => //].
  set v' := View _ _ _ _ _.
  have E a : views s a <> Unborn -> sput (views s) k (Alive v') a = views s a.
    by rewrite /sput; case: eqP => [->|].
  have nj : views s j <> Unborn by rewrite ev.
  case: hv => [[a1 a2 a3 a4 a5] [[b1 b2 b3 b4] c]].
  split; first by split=> //=; [rewrite in_cons a4 orbT|rewrite in_cons eqxx].
  split; last by move=> a /=; rewrite in_cons => /orP [/eqP->|/c q]; rewrite E.
  split=> /=.
  + by rewrite E.
  + by rewrite E.
  + by move=> q; rewrite E.
  + by move=> q; rewrite E // => a; rewrite ev => -[<-].
- by [].
- case=> u eu; have [v ev hv] := srel_alive h eu; rewrite ev /=.
  by do 3!eexists; split; [reflexivity|split; reflexivity|exact: srel_kill ev].
- case=> u [N [hu tw ow]]; have [v [w' [ev hv ew eo]]] := usable_parts h hu.
  have kv : vkd v = skind u by case: hv => [[]].
  have [ta [N' ef r]] := wok_ok tw ow; rewrite -kv in ta ef.
  have [s' es rs] := act_ok h hu ev hv ew eo ta ef.
  by rewrite ev /= es /=; do 3!eexists; split; [reflexivity|exists u, N, N'; split; eauto|exact: rs].
- case=> u [N [u' [N' [hu hu' ku ku']]]].
  have [v [w [ev hv ew eo]]] := usable_parts h hu.
  have [v' [w' [ev' hv' ew' eo']]] := usable_parts h hu'.
  rewrite ev /= ev' /=; case: eqP => [e|ne].
    subst j; exists s, None, t; split=> //; exists u, N, u, N; split=> //; rewrite eqxx.
  rewrite eo' /= eo /=; do 3!eexists; split; [reflexivity|by exists u, N, u', N'; split; eauto; rewrite (introF eqP ne)|].
  have -> : shows u = vown v by case: hv => [[->]].
  exact: srel_owner.
- case=> u [N [hu cn]]; have [v [w [ev hv ew eo]]] := usable_parts h hu.
  have [fe fr fl] := forward_ok h hu ev hv ew eo.
  rewrite ev /= /read_conv fe /= fl /=; do 3!eexists; split; [reflexivity| |exact: fr].
  by exists u, N, (cv N); split=> //; exact: cv_ok.
- case=> u [N hu]; have [v [w [ev hv ew eo]]] := usable_parts h hu.
  by rewrite ev /= /read_nest eo /=; do 3!eexists; split; [reflexivity|exists u, N; split; eauto|exact: h].
Qed.

Lemma run4_ok s t os : srel s t -> all4 wtyped wok wresult ook oresult convertible converted t os ->
  exists2 sb, run4 cv bk wact ostep s os = Done sb & path4 wresult oresult converted t os sb.2.
Proof.
elim: os s t => [|o os IH] s t h /=; first by exists (s, [::]).
case=> al next; have [s1 [b [t1 [e sp h1]]]] := step4_ok h al.
have [[s2 bs] e2 p2] := IH _ _ h1 (next _ _ sp).
by rewrite e /= e2 /=; exists (s2, b :: bs) => //; exists t1.
Qed.

Lemma srel0 : srel (@sys0 R n) (@sstate0 R n). Proof. by []. Qed.

End Generic.

Section Families.
Variable R : rcfType.
Variable L : lib R.
Hypothesis LK : lib_ok L.
Variable n : nat.
Notation M := 'M[R]_n.

Lemma set_elt_spec (T : M) i j r : set_elt T i j r = \matrix_(p, q) if (p == i) && (q == j) then r else T p q.
Proof. by []. Qed.

Lemma run_sa_ok os : all_sa (@sstate0 R n) os ->
  exists2 sb, run_sa L (@sys0 R n) os = Done sb & path_sa (@sstate0 R n) os sb.2.
Proof.
apply: run4_ok; last exact: srel0.
- by case=> [Q|o] N /= h; [exists Q|exists (plain1 N o) => //; apply: step1_ok => a; case=> e; move: h; rewrite e].
- move=> k w N tw; case: w tw => [Q|Q|Q|a|a|m U a|i j r|T|P|o] tw ow /=.
  + by case: k tw => // _; split=> //; eexists; first reflexivity; case: ow => g _; rewrite /to_sa /to_tri lchol_cholf.
  + by case: k tw => // _; split=> //; eexists; first reflexivity; case: ow => g _; rewrite /to_sa /to_tri lchol_cholf.
  + by case: k tw => // _; split=> //; eexists; first reflexivity; case: ow => g _; rewrite /to_sa /to_tri lchol_cholf.
  + by split=> //; eexists; first reflexivity; rewrite expr2.
  + move: ow; rewrite /r_ok => a0; rewrite (negbTE a0); split=> //.
    by eexists; first reflexivity; rewrite expr2.
  + by split=> //; eexists; first reflexivity.
  + by case: k tw => // _; split=> //; eexists; first reflexivity; case: ow => g _; rewrite /to_sa /to_tri lchol_cholf.
  + by case: k tw => // _; split=> //; eexists; first reflexivity.
  + by split=> //; eexists; first reflexivity.
  + split=> //; exists (plain1 N o) => //; apply: step1_ok => a; case=> e; by move: ow; rewrite /r_ok e.
- by move=> N g; rewrite /to_tri lchol_cholf.
Qed.

Lemma sqT (a : R) (T : M) : square (a *: T) = (a ^+ 2) *: square T.
Proof. by rewrite /square linearZ /= -scalemxAl -scalemxAr scalerA expr2. Qed.

Lemma llq_row (T Q : M) : square (llq L (row_mx T Q)) = square T + square Q.
Proof. by rewrite /square (llq_sq LK) tr_row_mx mul_row_col. Qed.

Lemma trigZ (a : R) (T : M) : is_trig_mx T -> is_trig_mx (a *: T).
Proof. by move=> /is_trig_mxP h; apply/is_trig_mxP => i j ij; rewrite mxE h ?mulr0. Qed.

Lemma sqrt_inv_sq (a : R) : 0 < a -> ((Num.sqrt a)^-1) ^+ 2 = a^-1.
Proof. by move=> a0; rewrite exprVn sqr_sqrtr // ltW. Qed.

Lemma run_tri_ok os : all_tri (@sstate0 R n) os ->
  exists2 sb, run_tri L (@sys0 R n) os = Done sb & path_tri (@sstate0 R n) os sb.2.
Proof.
apply: run4_ok; last exact: srel0.
- case=> [Q|o] T /=; first by move=> h; exists Q.
  by case=> tT al; have [T' e [r t]] := qstep1_ok LK tT al; exists T'.
- move=> k w T tw [tT]; case: w tw => [Q|Q|a|a|a|a|m U a|i j r|P|X|o] tw ow /=.
  + split=> //; eexists; first reflexivity; have [_ e] := good_chol LK ow.
    by split; [exact: llq_trig|rewrite llq_row /square e].
  + split=> //; case: ow => gQ pd; have [_ e] := good_chol LK gQ.
    have pd' : posdef (T *m T^T + -1 *: (lchol L Q *m (lchol L Q)^T)) by rewrite e scaleN1r.
    have [T' eT] := lrank_total LK tT (or_intror pd').
    have [tT' sT'] := lrank_sound LK tT eT.
    by exists T' => //; split=> //; rewrite /square sT' e scaleN1r.
  + split=> //; move: ow; rewrite le_eqVlt => /orP [/eqP <-|a0].
      rewrite ltxx; exists 0 => //; split; first exact: mx0_is_trig.
      by rewrite scale0r /square mul0mx.
    by rewrite a0; eexists; first reflexivity; split; [exact: trigZ|rewrite sqT sqr_sqrtr // ltW].
  + by split=> //; rewrite ow; eexists; first reflexivity; split; [exact: trigZ|rewrite sqT sqrt_inv_sq].
  + by split=> //; eexists; first reflexivity; split; [exact: trigZ|rewrite sqT].
  + by split=> //; rewrite (negbTE ow); eexists; first reflexivity; split; [exact: trigZ|rewrite sqT exprVn].
  + split=> //; have [T' eT] := lrank_total LK tT ow.
    by have [tT' sT'] := lrank_sound LK tT eT; exists T'.
  + case: k tw => // _; split=> //; eexists; first reflexivity.
    by rewrite /to_tri /to_sa set_symE -/(square T); have [t e] := good_chol LK ow.
  + case: k tw => // _; split=> //; eexists; first reflexivity.
    by rewrite /to_tri; have [t e] := good_chol LK ow.
  + by split=> //; exists X.
  + by split=> //; have [T' e [r t]] := qstep1_ok LK tT ow; exists T'.
- by [].
Qed.

End Families.
