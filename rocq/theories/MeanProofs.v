(** Proofs about means with angular coordinates. *)
From Coq Require Import Reals List ZArith Lia Lra.
From Verif Require Import PatModel PatSpec PatProofs PatProofs2 PatProofs3 PatProofs4 MeanModel MeanSpec.
From Verif Require PatProperties.
Import ListNotations.
Local Open Scope R_scope.

Lemma tag_map (f : nat -> bool) (c : list R) : forall k, map sv (map2 (fun i x => SR x (f i)) (seq k (length c)) c) = c.
Proof. induction c as [|x c IH]; intros k; cbn; [reflexivity |]. now rewrite IH. Qed.
Lemma tag_sv z c : map sv (tag z c) = c.
Proof. apply tag_map. Qed.
Lemma tag_len z c : length (tag z c) = length c.
Proof. now rewrite <- (tag_sv z c) at 2; rewrite map_length. Qed.
Lemma map2_len {A B C} (f : A -> B -> C) a b : length a = length b -> length (map2 f a b) = length a.
Proof. revert b. induction a as [|x a IH]; intros [|y b] H; cbn in *; try lia. now rewrite IH by lia. Qed.

(** ** Wrapping a column *)
Section Wrap.
Variables (fast : bool) (ds : list desc).
Hypothesis V : Forall valid ds.
Hypothesis F : fast = true -> Forall limits_not_pi ds.

Lemma in_range_len c : each in_range1 ds c -> length c = get_dimension ds.
Proof.
  intros H. apply (PatProperties.wrap_fixes_range ds c V) in H.
  pose proof (PatProperties.conversion_lengths fast ds (map pos c) c) as K. now apply K.
Qed.
Lemma wrap_column_ok z c : length c = get_dimension ds ->
  exists u s, wrap_column fast ds z c = Ret u /\ each in_range1 ds u /\
    to_stat ds (tag (z 0%nat) c) = Ret s /\ to_stat ds (map pos u) = Ret s.
Proof.
  intros L. unfold wrap_column. destruct (PatProperties.to_stat_total ds (tag (z 0%nat) c)) as (s & Hs); [now rewrite tag_len |].
  assert (N : each2 normalised1 ds (map sv (tag (z 1%nat) s)) s).
  { rewrite tag_sv. apply (PatProofs4.each2_self on_manifold1 on_manifold1); [apply manifold_normalised |]. exact (PatProperties.to_stat_on_manifold _ _ _ Hs). }
  destruct (PatProperties.to_from_normalises fast ds _ _ V N) as (u & Hu & Ht).
  assert (Rg : each in_range1 ds u) by (apply (PatProperties.from_stat_in_range fast ds _ u V F (ex_intro _ s N) Hu)).
  exists u, s. split; [| auto]. destruct (get_is_euclidean ds) eqn:E; [| now rewrite Hs; cbn [bind]].
  destruct (PatProperties.euclidean_transparent fast ds (tag (z 0%nat) c) E) as (D & T & _); [now rewrite tag_len |].
  rewrite Hs in T. injection T as ->. unfold values in *.
  destruct (PatProperties.euclidean_transparent fast ds (tag (z 1%nat) (map sv (tag (z 0%nat) c))) E) as (_ & _ & T & _); [now rewrite !tag_sv, tag_len |].
  rewrite Hu in T. injection T as ->. unfold values. now rewrite !tag_sv.
Qed.
Lemma wrap_angles_ok z m : Forall (fun c => length c = get_dimension ds) m ->
  exists m', wrap_angles fast ds z m = Ret m' /\ in_range ds m' /\ length m' = length m.
Proof.
  unfold wrap_angles. generalize 0%nat. induction m as [|c m IH]; intros j H; cbn [each_column].
  - exists []. repeat split. constructor.
  - inversion H; subst. destruct (wrap_column_ok (z j) c) as (u & s & -> & R1 & _); [assumption |]. destruct (IH (S j)) as (m' & -> & R2 & L); [assumption |].
    exists (u :: m'). cbn. repeat split; [now constructor | now rewrite L].
Qed.
End Wrap.

(** ** Histories *)
Definition good (ds : list desc) (n : nat) (e : state) : Prop := forall x m, e x = Some m -> in_range ds m /\ length m = n.
Lemma update_good ds n e x m : good ds n e -> in_range ds m -> length m = n -> good ds n (update e x m).
Proof. intros G H L y m' E. unfold update in E. destruct (Nat.eqb y x); [injection E as <-; auto | now apply (G y)]. Qed.
Lemma fits_spec d n m : fits d n m = true -> length m = n /\ Forall (fun c => length c = d) m.
Proof.
  unfold fits. intros H. apply andb_prop in H as [H1 H2]. apply Nat.eqb_eq in H1. split; [exact H1 |].
  rewrite forallb_forall in H2. apply Forall_forall. intros c Hc. now apply Nat.eqb_eq, H2.
Qed.
Lemma map2_forall {A} (P : list A -> Prop) f (a b : list (list A)) :
  (forall x y, P x -> P y -> P (f x y)) -> Forall P a -> Forall P b -> Forall P (map2 f a b).
Proof. intros K Ha. revert b. induction Ha as [|x a Hx Ha IH]; intros [|y b] Hb; cbn; auto. inversion Hb; subst. constructor; auto. Qed.

Section Run.
Variables (fast : bool) (ds : list desc) (n : nat).
Hypothesis V : Forall valid ds.
Hypothesis F : fast = true -> Forall limits_not_pi ds.

Let sized (m : matrix) := Forall (fun c => length c = get_dimension ds) m.
Lemma range_sized m : in_range ds m -> sized m.
Proof. apply Forall_impl. intros c. apply (in_range_len fast); assumption. Qed.
Lemma op_sized f a b : sized a -> sized b -> sized (map2 (map2 f) a b).
Proof. apply map2_forall. intros x y Hx Hy. cbv beta in *. rewrite map2_len; congruence. Qed.
Lemma scale_sized s a : sized a -> sized (scale s a).
Proof. intros H. unfold scale, sized. apply Forall_map. eapply Forall_impl; [| exact H]. intros c. now rewrite map_length. Qed.

Lemma store_good e x z m e' : good ds n e -> sized m -> length m = n -> store fast ds e x z m = Ret e' -> good ds n e'.
Proof.
  intros G S L H. unfold store in H. destruct (wrap_angles_ok fast ds V F z m S) as (m' & E & I & L'). rewrite E in H. injection H as <-.
  apply update_good; [exact G | exact I | congruence].
Qed.
Lemma from_stat_good z m m' : forall j, Forall (fun c => exists t, each2 normalised1 ds c t) m ->
  each_column (fun j c => from_stat fast ds (tag (z j 1%nat) c)) j m = Ret m' -> in_range ds m' /\ length m' = length m.
Proof.
  revert m'. induction m as [|c m IH]; intros m' j N H; cbn [each_column] in H; [injection H as <-; repeat split; constructor |].
  apply bind_ret in H as (x & Hx & H). apply bind_ret in H as (y & Hy & H). injection H as <-. inversion N; subst.
  destruct (IH y (S j)) as [I L]; auto. split; [| cbn; now rewrite L]. constructor; [| exact I].
  apply (PatProperties.from_stat_in_range fast ds _ x V F) in Hx; [exact Hx |]. now rewrite tag_sv.
Qed.
Lemma step_good e op e' : good ds n e -> directed ds op -> step fast ds n e op = Ret e' -> good ds n e'.
Proof.
  intros G D H.
  assert (W : forall y k, with_mean e y k = Ret e' -> exists a, e y = Some a /\ k a = Ret e' /\ sized a /\ length a = n).
  { intros y k K. unfold with_mean in K. destruct (e y) as [a|] eqn:E; [| discriminate]. destruct (G y a E). exists a. auto using range_sized. }
  assert (M : forall d m k, with_matrix n d m k = Ret e' -> k = Ret e' /\ length m = n /\ Forall (fun c => length c = d) m).
  { intros d m k K. unfold with_matrix in K. destruct (fits d n m) eqn:E; [| discriminate]. apply fits_spec in E as []. auto. }
  destruct op; cbn [step] in H.
  - apply M in H as (H & L & S). eapply store_good; eauto.
  - unfold with_mean in H. destruct (e y) as [a|] eqn:E; [| discriminate]. injection H as <-. destruct (G y a E). now apply update_good.
  - apply M in H as (H & L & S). apply bind_ret in H as (m' & H & U). injection U as <-. cbn in D.
    destruct (from_stat_good z m m' 0%nat D H) as [I L']. apply update_good; [exact G | exact I | congruence].
  - apply W in H as (a & Ea & H & Sa & La). apply W in H as (b & Eb & H & Sb & Lb).
    eapply store_good; [exact G | | | exact H]; [now apply op_sized | unfold plus; rewrite map2_len; congruence].
  - apply W in H as (a & Ea & H & Sa & La). apply M in H as (H & Lb & Sb).
    eapply store_good; [exact G | | | exact H]; [now apply op_sized | unfold plus; rewrite map2_len; congruence].
  - apply W in H as (a & Ea & H & Sa & La). apply W in H as (b & Eb & H & Sb & Lb).
    eapply store_good; [exact G | | | exact H]; [now apply op_sized | unfold minus; rewrite map2_len; congruence].
  - apply W in H as (a & Ea & H & Sa & La). apply M in H as (H & Lb & Sb).
    eapply store_good; [exact G | | | exact H]; [now apply op_sized | unfold minus; rewrite map2_len; congruence].
  - apply W in H as (a & Ea & H & Sa & La). eapply store_good; [exact G | | | exact H]; [now apply scale_sized | unfold scale; now rewrite map_length].
  - apply W in H as (a & Ea & H & Sa & La). destruct (Req_EM_T s 0); [discriminate |].
    eapply store_good; [exact G | | | exact H]; [now apply scale_sized | unfold scale; now rewrite map_length].
  - apply W in H as (a & Ea & H & Sa & La). apply W in H as (b & Eb & H & Sb & Lb).
    eapply store_good; [exact G | | | exact H]; [now apply op_sized | unfold plus; rewrite map2_len; congruence].
  - apply W in H as (a & Ea & H & Sa & La). eapply store_good; [exact G | | | exact H]; [now apply scale_sized | unfold scale; now rewrite map_length].
Qed.
Theorem run_good ops : forall e e', good ds n e -> Forall (directed ds) ops -> run fast ds n e ops = Ret e' -> good ds n e'.
Proof.
  induction ops as [|op ops IH]; intros e e' G D H; cbn in H; [injection H as <-; exact G |]. apply bind_ret in H as (e1 & H1 & H). inversion D; subst.
  apply (IH e1); auto. eapply step_good; eauto.
Qed.
End Run.

(** ** Patterns of numbers and angles *)
Lemma same_app k1 k2 v1 v2 w1 w2 : same_column k1 v1 w1 -> same_column k2 v2 w2 -> same_column (k1 ++ k2) (v1 ++ v2) (w1 ++ w2).
Proof. intros H. induction H; cbn; [auto |]. intros. constructor; auto. Qed.
Lemma same_none v : same_column (repeat None (length v)) v v.
Proof. induction v as [|x v IH]; cbn; constructor; [reflexivity | exact IH]. Qed.
Lemma same_sym ks v w : same_column ks v w -> same_column ks w v.
Proof.
  intros H. induction H as [|[[mn mx]|] ks a v b w S _ IH]; constructor; auto.
  - destruct S as (t & ->). exists (- t)%Z. rewrite opp_IZR. ring.
  - now symmetry.
Qed.
Lemma same_trans ks u v w : same_column ks u v -> same_column ks v w -> same_column ks u w.
Proof.
  intros H. revert w. induction H as [|[[mn mx]|] ks a u b v S _ IH]; intros w K; inversion K as [|? ? ? ? ? ? S']; subst; constructor; auto.
  - destruct S as (t & ->). destruct S' as (t' & ->). exists (t + t')%Z. rewrite plus_IZR. ring.
  - cbn in *. congruence.
Qed.
Lemma same_plus ks v w v' w' : same_column ks v w -> same_column ks v' w' -> same_column ks (map2 Rplus v v') (map2 Rplus w w').
Proof.
  intros H. revert v' w'. induction H as [|[[mn mx]|] ks a v b w S _ IH]; intros v' w' K; inversion K as [|? ? ? ? ? ? S']; subst; cbn; constructor; auto.
  - destruct S as (t & ->). destruct S' as (t' & ->). exists (t + t')%Z. rewrite plus_IZR. ring.
  - cbn in *. congruence.
Qed.
Lemma same_minus ks v w v' w' : same_column ks v w -> same_column ks v' w' -> same_column ks (map2 Rminus v v') (map2 Rminus w w').
Proof.
  intros H. revert v' w'. induction H as [|[[mn mx]|] ks a v b w S _ IH]; intros v' w' K; inversion K as [|? ? ? ? ? ? S']; subst; cbn; constructor; auto.
  - destruct S as (t & ->). destruct S' as (t' & ->). exists (t - t')%Z. rewrite minus_IZR. ring.
  - cbn in *. congruence.
Qed.
Lemma same_scale ks v w (k : Z) : same_column ks v w -> same_column ks (map (fun x => x * IZR k) v) (map (fun x => x * IZR k) w).
Proof.
  intros H. induction H as [|[[mn mx]|] ks a v b w S _ IH]; cbn; constructor; auto.
  - destruct S as (t & ->). exists (t * k)%Z. rewrite mult_IZR. ring.
  - cbn in *. congruence.
Qed.
Lemma kinds1_len d ks : kinds1 d = Some ks -> length ks = dim d.
Proof. revert ks. induction d; cbn; intros ks H; try discriminate; [injection H as <-; apply repeat_length | injection H as <-; reflexivity | auto]. Qed.
Lemma kinds_len ds ks : kinds ds = Some ks -> length ks = get_dimension ds.
Proof.
  rewrite get_dimension_sum. revert ks. induction ds as [|d ds IH]; cbn; intros ks H; [now injection H as <- |].
  destruct (kinds1 d) eqn:E; [| discriminate]. destruct (kinds ds); [| discriminate]. injection H as <-.
  rewrite app_length, (kinds1_len _ _ E), (IH _ eq_refl). reflexivity.
Qed.

Lemma turn_same mn mx a b : mn <= 0 -> 0 < mx -> cos (turn mn mx a) = cos (turn mn mx b) -> sin (turn mn mx a) = sin (turn mn mx b) ->
  exists t : Z, b = a + IZR t * (mx - mn).
Proof.
  intros H0 H1 C S. destruct (same_direction _ _ (eq_sym C) (eq_sym S)) as (k & K). exists k. unfold turn in K.
  pose proof PI_RGT_0. apply (Rmult_eq_reg_l (2 * PI / (mx - mn))).
  - replace (2 * PI / (mx - mn) * b) with (2 * PI * b / (mx - mn)) by (field; lra). rewrite K. field. lra.
  - apply Rgt_not_eq. apply Rdiv_lt_0_compat; lra.
Qed.
Lemma same_stat1 d ks v u s : valid d -> kinds1 d = Some ks -> call to_stat1 dim d v s -> call to_stat1 dim d u s -> same_column ks (map sv v) (map sv u).
Proof.
  intros Vd K [Lv Ev] [Lu Eu]. apply (to_stat1_encodes d v s Vd Lv) in Ev. apply (to_stat1_encodes d u s Vd Lu) in Eu.
  revert ks v u s Vd K Lv Lu Ev Eu. induction d; cbn; intros ks v u s Vd K Lv Lu Ev Eu; try discriminate.
  - injection K as <-. subst s. rewrite Eu. replace n with (length (map sv u)) by now rewrite map_length. apply same_none.
  - injection K as <-. destruct Ev as (a & -> & ->). destruct Eu as (b & -> & E). injection E as E1 E2.
    constructor; [| constructor]. cbn. now apply turn_same.
  - eauto.
Qed.
Lemma same_stat ds ks v u s : Forall valid ds -> kinds ds = Some ks -> to_stat ds v = Ret s -> to_stat ds u = Ret s ->
  same_column ks (map sv v) (map sv u).
Proof.
  intros V K A B. apply to_stat_iff in A. apply to_stat_iff in B. revert ks u V K B.
  induction A as [|d ds v vs w ws P A IH]; intros ks u V K B.
  - inversion B; subst. cbn in K. injection K as <-. constructor.
  - inversion B as [|d' ds' v' vs' w' ws' P' B' E1 E2 E3]; subst. inversion V; subst. cbn [kinds] in K.
    destruct (kinds1 d) as [k1|] eqn:K1; [| discriminate]. destruct (kinds ds) as [k2|]; [| discriminate]. injection K as <-.
    apply app_inj_len in E3 as [-> ->]; [| rewrite (to_stat1_length _ _ _ (proj2 P)), (to_stat1_length _ _ _ (proj2 P')); reflexivity].
    rewrite !map_app. apply same_app; [eapply same_stat1; eauto | auto].
Qed.

Definition within (k : option (R * R)) (a : R) : Prop := match k with None => True | Some (mn, mx) => mn <= a < mx end.
Lemma range_within1 d ks u : kinds1 d = Some ks -> in_range1 d u -> Forall2 within ks u.
Proof.
  revert ks. induction d; cbn; intros ks K H; try discriminate.
  - injection K as <-. subst n. induction u; cbn; constructor; [exact I | assumption].
  - injection K as <-. destruct H as (a & -> & H). constructor; [exact H | constructor].
  - auto.
Qed.
Lemma range_within ds ks u : kinds ds = Some ks -> each in_range1 ds u -> Forall2 within ks u.
Proof.
  intros K H. revert ks K. induction H as [|d ds w ws P H IH]; intros ks K; cbn [kinds] in K.
  - injection K as <-. constructor.
  - destruct (kinds1 d) as [k1|] eqn:K1; [| discriminate]. destruct (kinds ds) as [k2|]; [| discriminate]. injection K as <-.
    apply Forall2_app; [now apply (range_within1 d) | auto].
Qed.
Lemma kinds_order ds ks : Forall valid ds -> kinds ds = Some ks -> Forall (fun k => match k with None => True | Some (mn, mx) => mn < mx end) ks.
Proof.
  intros V. revert ks. induction V as [|d ds Vd V IH]; cbn; intros ks K; [injection K as <-; constructor |].
  destruct (kinds1 d) as [k1|] eqn:K1; [| discriminate]. destruct (kinds ds) as [k2|]; [| discriminate]. injection K as <-.
  apply Forall_app. split; [| auto]. revert k1 Vd K1. clear. induction d; cbn; intros k1 Vd K1; try discriminate.
  - injection K1 as <-. induction n; cbn; constructor; auto.
  - injection K1 as <-. constructor; [lra | constructor].
  - auto.
Qed.
Lemma same_unique ks u v : Forall (fun k => match k with None => True | Some (mn, mx) => mn < mx end) ks ->
  Forall2 within ks u -> Forall2 within ks v -> same_column ks u v -> u = v.
Proof.
  intros O A B H. induction H as [|[[mn mx]|] ks a u b v S H IH]; [reflexivity | |]; inversion O; inversion A; inversion B; subst; f_equal; auto.
  destruct S as (t & ->). cbn in *. symmetry. apply (unique_rep mn (mx - mn) _ _ t); lra.
Qed.

Section Flat.
Variables (fast : bool) (ds : list desc) (ks : list (option (R * R))) (n : nat).
Hypothesis V : Forall valid ds.
Hypothesis F : fast = true -> Forall limits_not_pi ds.
Hypothesis K : kinds ds = Some ks.

Lemma wrap_same z c u : length c = get_dimension ds -> wrap_column fast ds z c = Ret u -> same_column ks c u.
Proof.
  intros L H. destruct (wrap_column_ok fast ds V F z c L) as (u' & s & E & _ & A & B). rewrite E in H. injection H as <-.
  rewrite <- (tag_sv (z 0%nat) c). replace u' with (map sv (map pos u')) by (rewrite map_map; apply map_id). apply (same_stat ds ks _ _ s); auto.
Qed.
Lemma wrap_unique c c' z z' u u' : length c = get_dimension ds -> length c' = get_dimension ds -> same_column ks c c' ->
  wrap_column fast ds z c = Ret u -> wrap_column fast ds z' c' = Ret u' -> u = u'.
Proof.
  intros L L' S H H'. pose proof (wrap_same _ _ _ L H) as A. pose proof (wrap_same _ _ _ L' H') as B.
  destruct (wrap_column_ok fast ds V F z c L) as (u1 & s1 & E1 & R1 & _). rewrite E1 in H. injection H as <-.
  destruct (wrap_column_ok fast ds V F z' c' L') as (u2 & s2 & E2 & R2 & _). rewrite E2 in H'. injection H' as <-.
  apply (same_unique ks); [now apply (kinds_order ds) | now apply (range_within ds) | now apply (range_within ds) |].
  exact (same_trans ks _ _ _ (same_sym _ _ _ A) (same_trans ks _ _ _ S B)).
Qed.
Lemma each_column_same z m m' : forall j, Forall (fun c => length c = get_dimension ds) m ->
  each_column (fun j => wrap_column fast ds (z j)) j m = Ret m' -> Forall2 (same_column ks) m m'.
Proof.
  revert m'. induction m as [|c m IH]; intros m' j L H; cbn [each_column] in H; [injection H as <-; constructor |].
  apply bind_ret in H as (x & Hx & H). apply bind_ret in H as (y & Hy & H). injection H as <-. inversion L; subst.
  constructor; [eapply wrap_same; eauto | eapply IH; eauto].
Qed.

Let alike (p m : matrix) := Forall2 (same_column ks) p m.
Definition agree (p e : state) : Prop :=
  forall x, match p x, e x with None, None => True | Some a, Some b => alike a b | _, _ => False end.
Lemma alike_op f : (forall v w v' w', same_column ks v w -> same_column ks v' w' -> same_column ks (map2 f v v') (map2 f w w')) ->
  forall a b a' b', alike a b -> alike a' b' -> alike (map2 (map2 f) a a') (map2 (map2 f) b b').
Proof. intros H a b a' b' A. revert a' b'. induction A; intros a' b' B; inversion B; subst; cbn; constructor; auto. now apply IHA. Qed.
Lemma alike_scale k a b : alike a b -> alike (map (map (fun v => v * IZR k)) a) (scale (IZR k) b).
Proof. intros A. induction A; cbn; constructor; [now apply same_scale | assumption]. Qed.
Lemma same_col_refl v : length v = length ks -> same_column ks v v.
Proof.
  generalize ks. clear. induction v as [|x v IH]; intros [|k ks] H; cbn in H; try lia; [constructor |]. constructor; [| apply IH; lia].
  destruct k as [[mn mx]|]; [exists 0%Z; ring | reflexivity].
Qed.
Lemma agree_update p e x a b : agree p e -> alike a b -> agree (update p x a) (update e x b).
Proof. intros A H y. unfold update. destruct (Nat.eqb y x); [exact H | apply A]. Qed.
Lemma store_agree p e x z q m e' : agree p e -> alike q m -> Forall (fun c => length c = get_dimension ds) m ->
  store fast ds e x z m = Ret e' -> agree (update p x q) e'.
Proof.
  intros A Q S H. unfold store in H. apply bind_ret in H as (m' & W & H). injection H as <-. apply agree_update; [exact A |].
  apply each_column_same in W; [| exact S]. clear - Q W. revert m' W. induction Q; intros m' W; inversion W; subst; constructor; [eapply same_trans; eauto | now apply IHQ].
Qed.
Lemma alike_refl m : Forall (fun c => length c = get_dimension ds) m -> alike m m.
Proof. intros H. induction H; constructor; [apply same_col_refl; now rewrite (kinds_len ds) | assumption]. Qed.

Lemma step_agree p e op e' : agree p e -> good ds n e -> whole op -> step fast ds n e op = Ret e' -> agree (plain_step p op) e'.
Proof.
  intros A G D H.
  assert (W : forall y k, with_mean e y k = Ret e' -> exists a q, e y = Some a /\ p y = Some q /\ alike q a /\ k a = Ret e' /\ Forall (fun c => length c = get_dimension ds) a).
  { intros y k Hk. unfold with_mean in Hk. destruct (e y) as [a|] eqn:E; [| discriminate]. pose proof (A y) as Ay. rewrite E in Ay.
    destruct (p y) as [q|]; [| contradiction]. exists a, q. repeat split; auto. destruct (G y a E) as [Rg _]. exact (range_sized fast ds V a Rg). }
  assert (M : forall d m k, with_matrix n d m k = Ret e' -> k = Ret e' /\ Forall (fun c => length c = d) m).
  { intros d m k Hk. unfold with_matrix in Hk. destruct (fits d n m) eqn:E; [| discriminate]. apply fits_spec in E as []. auto. }
  destruct op; cbn [step plain_step whole] in *.
  - apply M in H as (H & S). eapply store_agree; eauto using alike_refl.
  - apply W in H as (a & q & Ea & Eq & Qa & H & Sa). injection H as <-. rewrite Eq. now apply agree_update.
  - contradiction.
  - apply W in H as (a & q & Ea & Eq & Qa & H & Sa). apply W in H as (b & r & Eb & Er & Qb & H & Sb). rewrite Eq, Er.
    eapply store_agree; [exact A | | | exact H]; [apply alike_op; auto using same_plus | now apply op_sized].
  - apply W in H as (a & q & Ea & Eq & Qa & H & Sa). apply M in H as (H & Sb). rewrite Eq.
    eapply store_agree; [exact A | | | exact H]; [apply alike_op; auto using same_plus, alike_refl | now apply op_sized].
  - apply W in H as (a & q & Ea & Eq & Qa & H & Sa). apply W in H as (b & r & Eb & Er & Qb & H & Sb). rewrite Eq, Er.
    eapply store_agree; [exact A | | | exact H]; [apply alike_op; auto using same_minus | now apply op_sized].
  - apply W in H as (a & q & Ea & Eq & Qa & H & Sa). apply M in H as (H & Sb). rewrite Eq.
    eapply store_agree; [exact A | | | exact H]; [apply alike_op; auto using same_minus, alike_refl | now apply op_sized].
  - apply W in H as (a & q & Ea & Eq & Qa & H & Sa). rewrite Eq. destruct D as (k & ->).
    eapply store_agree; [exact A | | | exact H]; [now apply alike_scale | now apply scale_sized].
  - apply W in H as (a & q & Ea & Eq & Qa & H & Sa). rewrite Eq. destruct (Req_EM_T s 0); [discriminate |]. destruct D as (k & Dk). rewrite Dk in *.
    eapply store_agree; [exact A | | | exact H]; [now apply alike_scale | now apply scale_sized].
  - apply W in H as (a & q & Ea & Eq & Qa & H & Sa). apply W in H as (b & r & Eb & Er & Qb & H & Sb). rewrite Eq, Er.
    eapply store_agree; [exact A | | | exact H]; [apply alike_op; auto using same_plus | now apply op_sized].
  - apply W in H as (a & q & Ea & Eq & Qa & H & Sa). rewrite Eq. destruct D as (k & ->).
    eapply store_agree; [exact A | | | exact H]; [now apply alike_scale | now apply scale_sized].
Qed.
Lemma whole_directed op : whole op -> directed ds op.
Proof. destruct op; cbn; auto. contradiction. Qed.
Lemma run_agree ops : forall p e e', agree p e -> good ds n e -> Forall whole ops -> run fast ds n e ops = Ret e' ->
  agree (fold_left plain_step ops p) e' /\ good ds n e'.
Proof.
  induction ops as [|op ops IH]; intros p e e' A G D H; cbn in H |- *; [injection H as <-; auto |].
  apply bind_ret in H as (e1 & H1 & H). inversion D; subst.
  apply (IH _ e1); auto; [eapply step_agree; eauto | eapply (step_good fast ds n V F); eauto using whole_directed].
Qed.
Lemma alike_len a b : alike a b -> Forall (fun c => length c = get_dimension ds) a.
Proof.
  intros A. induction A; constructor; auto. rewrite <- (kinds_len ds ks K). clear - H. induction H; cbn; congruence.
Qed.
Theorem run_flat ops e x m z : Forall whole ops -> run fast ds n (fun _ => None) ops = Ret e -> e x = Some m ->
  exists p, plain_run ops x = Some p /\ wrap_angles fast ds z p = Ret m.
Proof.
  intros D H E. destruct (run_agree ops (fun _ => None) (fun _ => None) e) as [A G]; auto; [intros y; exact I | intros y; discriminate |].
  specialize (A x). rewrite E in A. unfold plain_run. destruct (fold_left plain_step ops (fun _ => None) x) as [p|]; [| contradiction].
  exists p. split; [reflexivity |]. pose proof (alike_len p m A) as S. destruct (wrap_angles_ok fast ds V F z p S) as (m' & W & I & _). rewrite W. f_equal.
  apply each_column_same in W; [| exact S]. destruct (G x m E) as [I' _]. clear - V K A W I I'. revert m A I'.
  induction W as [|c u p m' S W IH]; intros m A I'; inversion A; subst; [reflexivity |]. inversion I; inversion I'; subst. f_equal; [| now apply IH].
  apply (same_unique ks); [now apply (kinds_order ds) | now apply (range_within ds) | now apply (range_within ds) |].
  eapply same_trans; [apply same_sym; exact S | assumption].
Qed.
End Flat.

(** ** Sample points *)
Lemma wrap_angles_unique fast ds ks z z' m m' : Forall valid ds -> (fast = true -> Forall limits_not_pi ds) -> kinds ds = Some ks ->
  Forall2 (same_column ks) m m' -> wrap_angles fast ds z m = wrap_angles fast ds z' m'.
Proof.
  intros V F K. unfold wrap_angles. generalize 0%nat. intros j H. revert j.
  induction H as [|c c' m m' S H IH]; intros j; cbn [each_column]; [reflexivity |]. rewrite (IH (Datatypes.S j)). clear IH.
  assert (L : forall v w, same_column ks v w -> length v = get_dimension ds /\ length w = get_dimension ds).
  { rewrite <- (kinds_len ds ks K). clear. intros v w H. induction H; cbn; lia. }
  destruct (L _ _ S) as [L1 L2]. destruct (wrap_column_ok fast ds V F (z j) c L1) as (u & s & E & _).
  destruct (wrap_column_ok fast ds V F (z' j) c' L2) as (u' & s' & E' & _). rewrite E, E'.
  now rewrite (wrap_unique fast ds ks V F K c c' _ _ u u' L1 L2 S E E').
Qed.
Theorem sample_turns fast ds ks z wm wc m m' : Forall valid ds -> (fast = true -> Forall limits_not_pi ds) -> kinds ds = Some ks ->
  Forall2 (same_column ks) m m' -> sample_transform fast ds z wm wc m = sample_transform fast ds z wm wc m'.
Proof. intros V F K H. unfold sample_transform. now rewrite (wrap_angles_unique fast ds ks z z m m' V F K H). Qed.

Lemma each2_one {A B} (P : desc -> list A -> list B -> Prop) d v s : each2 P [d] v s -> P d v s.
Proof. intros H. inversion H as [|? ? ? ? ? ? Q E]; subst. inversion E; subst. now rewrite !app_nil_r. Qed.
Lemma each_one {A} (P : desc -> list A -> Prop) d v : each P [d] v -> P d v.
Proof. intros H. inversion H as [|? ? ? ? Q E]; subst. inversion E; subst. now rewrite !app_nil_r. Qed.

Section Angle.
Variables (fast : bool) (mn mx : R).
Hypothesis H0 : mn <= 0.
Hypothesis H1 : 0 < mx.
Hypothesis F : fast = true -> ~ (mn = - PI /\ mx = PI).
Let ds := [Ang mn mx].
Let VV : Forall valid ds. Proof. constructor; [exact (conj H0 H1) | constructor]. Qed.
Let FF : fast = true -> Forall limits_not_pi ds. Proof. intros E. constructor; [now apply F | constructor]. Qed.

Lemma to_angle z a : to_stat ds (tag z [a]) = Ret [cos (turn mn mx a); sin (turn mn mx a)].
Proof.
  destruct (PatProperties.to_stat_total ds (tag z [a])) as (s & Hs); [reflexivity |]. rewrite Hs. f_equal.
  apply (PatProperties.to_stat_encodes_position _ _ _ VV) in Hs. rewrite tag_sv in Hs. apply each2_one in Hs.
  destruct Hs as (a' & E & ->). now injection E as <-.
Qed.
Lemma each_to_angle (z : nat -> nat -> bool) values : forall j,
  each_column (fun j c => to_stat ds (tag (z j) c)) j (row values) = Ret (map (fun v => [cos (turn mn mx v); sin (turn mn mx v)]) values).
Proof. induction values as [|v values IH]; intros j; [reflexivity |]. cbn [row map each_column]. rewrite to_angle. cbn [bind]. unfold row in IH. now rewrite IH. Qed.
Lemma weighted_angle w values : weighted 2 w (map (fun v => [cos (turn mn mx v); sin (turn mn mx v)]) values) =
  [resultant cos mn mx w values; resultant sin mn mx w values].
Proof. revert values. induction w as [|a w IH]; intros [|v values]; try reflexivity. cbn [map weighted]. rewrite IH. reflexivity. Qed.

Lemma from_angle z X Y : 0 < X * X + Y * Y ->
  exists m, from_stat fast ds (tag z [X; Y]) = Ret [m] /\ mn <= m < mx /\
    X = sqrt (X * X + Y * Y) * cos (turn mn mx m) /\ Y = sqrt (X * X + Y * Y) * sin (turn mn mx m).
Proof.
  intros P. set (k := sqrt (X * X + Y * Y)). assert (Pk : 0 < k) by now apply sqrt_lt_R0.
  assert (Kk : k * k = X * X + Y * Y) by (apply sqrt_sqrt; lra).
  assert (N : each2 normalised1 ds (map sv (tag z [X; Y])) [X / k; Y / k]).
  { rewrite tag_sv. apply (each2_cons normalised1 (Ang mn mx) [] [X; Y] [] [X / k; Y / k] []); [| constructor].
    exists (X / k), (Y / k), k. split; [exact Pk |]. split; [f_equal; [| f_equal]; field; lra |]. split; [reflexivity |].
    replace (X / k * (X / k) + Y / k * (Y / k)) with ((X * X + Y * Y) / (k * k)) by (field; lra). rewrite <- Kk. field. lra. }
  destruct (PatProperties.to_from_normalises fast ds _ _ VV N) as (v & Hv & Ht).
  assert (Rg := PatProperties.from_stat_in_range fast ds _ v VV FF (ex_intro _ _ N) Hv).
  apply each_one in Rg. destruct Rg as (m & -> & Hm). exists m. split; [exact Hv |]. split; [exact Hm |].
  change (map pos [m]) with (tag (fun _ => false) [m]) in Ht. rewrite to_angle in Ht. injection Ht as -> ->. 
  split; field; lra.
Qed.

Lemma wrap_row z values : exists ys, wrap_angles fast ds z (row values) = Ret (row ys) /\
  Forall2 (fun v y => mn <= y < mx /\ exists t : Z, y = v + IZR t * (mx - mn)) values ys.
Proof.
  unfold wrap_angles. generalize 0%nat. induction values as [|v values IH]; intros j; [exists []; split; [reflexivity | constructor] |].
  destruct (IH (S j)) as (ys & E & A). cbn [row map each_column].
  destruct (wrap_column_ok fast ds VV FF (z j) [v] eq_refl) as (u & s & W & Rg & _).
  pose proof (wrap_same fast ds [Some (mn, mx)] VV FF eq_refl (z j) [v] u eq_refl W) as S. inversion S as [|? ? ? ? b ? S1 S2]; subst. inversion S2; subst.
  rewrite W. cbn [bind]. unfold row in E. rewrite E. cbn [bind]. exists (b :: ys). split; [reflexivity |]. constructor; [| exact A].
  apply (range_within ds [Some (mn, mx)]) in Rg; [| reflexivity]. inversion Rg; subst. split; [assumption | exact S1].
Qed.
Lemma turn_shift a (t : Z) : turn mn mx (a + IZR t * (mx - mn)) = turn mn mx a + 2 * IZR t * PI.
Proof. unfold turn. field. lra. Qed.
Lemma resultant_turns w values ys : Forall2 (fun v y => mn <= y < mx /\ exists t : Z, y = v + IZR t * (mx - mn)) values ys ->
  resultant cos mn mx w ys = resultant cos mn mx w values /\ resultant sin mn mx w ys = resultant sin mn mx w values.
Proof.
  intros H. revert w. induction H as [|v y values ys [_ (t & ->)] H IH]; intros [|a w]; cbn [resultant]; auto.
  destruct (IH w) as [-> ->]. rewrite turn_shift, cos_periodZ, sin_periodZ. auto.
Qed.
Lemma covariance_row w ys m : covariance w (deviations (row ys) [m]) 0 0 = sum_squares w ys m.
Proof. revert ys. induction w as [|a w IH]; intros [|y ys]; try reflexivity. cbn. unfold deviations, row in IH. now rewrite <- IH. Qed.

Theorem sample_direction z wm wc values :
  0 < resultant cos mn mx wm values * resultant cos mn mx wm values + resultant sin mn mx wm values * resultant sin mn mx wm values ->
  exists m ys cov r, sample_transform fast ds z wm wc (row values) = Ret ([m], cov) /\ mn <= m < mx /\ 0 < r /\
    r * cos (turn mn mx m) = resultant cos mn mx wm values /\ r * sin (turn mn mx m) = resultant sin mn mx wm values /\
    Forall2 (fun v y => mn <= y < mx /\ exists t : Z, y = v + IZR t * (mx - mn)) values ys /\
    cov 0%nat 0%nat = sum_squares wc ys m.
Proof.
  intros P. unfold sample_transform. destruct (wrap_row z values) as (ys & -> & A). cbn [bind]. unfold sample_mean. rewrite (each_to_angle (fun j => z j 2%nat)).
  cbn [bind]. change (get_stat_dimension ds) with 2%nat. rewrite weighted_angle. destruct (resultant_turns wm values ys A) as [-> ->].
  destruct (from_angle (z 0%nat 3%nat) _ _ P) as (m & -> & Hm & C & S). cbn [bind].
  exists m, ys, (covariance wc (deviations (row ys) [m])), (sqrt (resultant cos mn mx wm values * resultant cos mn mx wm values + resultant sin mn mx wm values * resultant sin mn mx wm values)).
  split; [reflexivity |]. split; [exact Hm |]. split; [now apply sqrt_lt_R0 |]. split; [now symmetry |]. split; [now symmetry |]. split; [exact A |]. apply covariance_row.
Qed.

Lemma turn_plus a b : turn mn mx (a + b) = turn mn mx a + turn mn mx b.
Proof. unfold turn. field. lra. Qed.
Lemma resultant_shift w values c :
  resultant cos mn mx w (map (fun v => v + c) values) =
    cos (turn mn mx c) * resultant cos mn mx w values - sin (turn mn mx c) * resultant sin mn mx w values /\
  resultant sin mn mx w (map (fun v => v + c) values) =
    sin (turn mn mx c) * resultant cos mn mx w values + cos (turn mn mx c) * resultant sin mn mx w values.
Proof.
  revert values. induction w as [|a w IH]; intros [|v values]; cbn [map resultant]; [lra | lra | lra |].
  destruct (IH values) as [-> ->]. rewrite turn_plus, cos_plus, sin_plus. split; ring.
Qed.
Lemma same_ray r r' a b : 0 < r -> 0 < r' -> r * cos a = r' * cos b -> r * sin a = r' * sin b -> cos a = cos b /\ sin a = sin b.
Proof.
  intros P P' C S. pose proof (cs1 a) as A. pose proof (cs1 b) as B.
  assert (E : r * r = r' * r').
  { replace (r * r) with ((r * cos a) * (r * cos a) + (r * sin a) * (r * sin a)) by (replace (r * r) with (r * r * (cos a * cos a + sin a * sin a)) by (rewrite A; ring); ring).
    rewrite C, S. replace (r' * r') with (r' * r' * (cos b * cos b + sin b * sin b)) by (rewrite B; ring). ring. }
  assert (r = r') by nra. subst r'. split; apply (Rmult_eq_reg_l r); auto; lra.
Qed.
Lemma same_turn r r' a b : 0 < r -> 0 < r' -> r * cos (turn mn mx a) = r' * cos (turn mn mx b) -> r * sin (turn mn mx a) = r' * sin (turn mn mx b) ->
  exists t : Z, b = a + IZR t * (mx - mn).
Proof. intros P P' C S. destruct (same_ray r r' _ _ P P' C S). now apply turn_same. Qed.

Theorem sample_rotates z z' wm wc values c m cov m' cov' :
  0 < resultant cos mn mx wm values * resultant cos mn mx wm values + resultant sin mn mx wm values * resultant sin mn mx wm values ->
  sample_transform fast ds z wm wc (row values) = Ret ([m], cov) ->
  sample_transform fast ds z' wm wc (row (map (fun v => v + c) values)) = Ret ([m'], cov') ->
  exists t : Z, m' = m + c + IZR t * (mx - mn).
Proof.
  intros P A B. destruct (sample_direction z wm wc values P) as (m1 & ys & cov1 & r & A1 & _ & Pr & C & S & _). rewrite A in A1. injection A1 as <- <-.
  destruct (resultant_shift wm values c) as [EC ES].
  destruct (sample_direction z' wm wc (map (fun v => v + c) values)) as (m2 & ys2 & cov2 & r2 & B1 & _ & Pr2 & C2 & S2 & _).
  { rewrite EC, ES. pose proof (cs1 (turn mn mx c)) as Q.
    set (X := resultant cos mn mx wm values) in *. set (Y := resultant sin mn mx wm values) in *. set (cc := cos (turn mn mx c)) in *. set (sc := sin (turn mn mx c)) in *.
    replace ((cc * X - sc * Y) * (cc * X - sc * Y) + (sc * X + cc * Y) * (sc * X + cc * Y)) with ((cc * cc + sc * sc) * (X * X + Y * Y)) by ring. rewrite Q. lra. }
  rewrite B in B1. injection B1 as <- <-. apply (same_turn r r2); auto.
  - rewrite C2, EC, turn_plus, cos_plus, <- C, <- S. ring.
  - rewrite S2, ES, turn_plus, sin_plus, <- C, <- S. ring.
Qed.
Theorem sample_balanced z wm wc centre devs : resultant sin mn mx wm devs = 0 -> 0 < resultant cos mn mx wm devs ->
  exists m cov (t : Z), sample_transform fast ds z wm wc (row (map (fun v => v + centre) devs)) = Ret ([m], cov) /\
    mn <= m < mx /\ m = centre + IZR t * (mx - mn).
Proof.
  intros S C. destruct (resultant_shift wm devs centre) as [EC ES]. rewrite S in EC, ES.
  destruct (sample_direction z wm wc (map (fun v => v + centre) devs)) as (m & ys & cov & r & A & Hm & Pr & C2 & S2 & _).
  { rewrite EC, ES. pose proof (cs1 (turn mn mx centre)) as Q. set (X := resultant cos mn mx wm devs) in *.
    set (cc := cos (turn mn mx centre)) in *. set (sc := sin (turn mn mx centre)) in *.
    replace ((cc * X - sc * 0) * (cc * X - sc * 0) + (sc * X + cc * 0) * (sc * X + cc * 0)) with ((cc * cc + sc * sc) * (X * X)) by ring. rewrite Q. nra. }
  destruct (same_turn (resultant cos mn mx wm devs) r centre m) as (t & T); auto; [rewrite C2, EC; ring | rewrite S2, ES; ring |].
  exists m, cov, t. auto.
Qed.
Lemma in_range_unique v y : mn <= v < mx -> mn <= y < mx -> (exists t : Z, y = v + IZR t * (mx - mn)) -> y = v.
Proof. intros A B (t & E). apply (unique_rep mn (mx - mn) _ _ t); lra. Qed.
Lemma all_in_range values ys : Forall (fun v => mn <= v < mx) values ->
  Forall2 (fun v y => mn <= y < mx /\ exists t : Z, y = v + IZR t * (mx - mn)) values ys -> ys = values.
Proof. intros A H. induction H as [|v y values ys [Hy T] H IH]; [reflexivity |]. inversion A; subst. f_equal; [now apply in_range_unique | auto]. Qed.
Lemma sum_squares_shift w values c y : sum_squares w (map (fun v => v + c) values) (y + c) = sum_squares w values y.
Proof. revert values. induction w as [|a w IH]; intros [|v values]; cbn; try reflexivity. rewrite IH. replace (v + c - (y + c)) with (v - y) by ring. reflexivity. Qed.
Theorem sample_covariance z z' wm wc values c m cov m' cov' :
  0 < resultant cos mn mx wm values * resultant cos mn mx wm values + resultant sin mn mx wm values * resultant sin mn mx wm values ->
  Forall (fun v => mn <= v < mx /\ mn <= v + c < mx) values -> mn <= m + c < mx ->
  sample_transform fast ds z wm wc (row values) = Ret ([m], cov) ->
  sample_transform fast ds z' wm wc (row (map (fun v => v + c) values)) = Ret ([m'], cov') ->
  m' = m + c /\ cov 0%nat 0%nat = sum_squares wc values m /\ cov' 0%nat 0%nat = cov 0%nat 0%nat.
Proof.
  intros P In Im A B. pose proof (sample_rotates z z' wm wc values c m cov m' cov' P A B) as T.
  destruct (sample_direction z wm wc values P) as (m1 & ys & cov1 & r & A1 & _ & _ & _ & _ & Q & Cv). rewrite A in A1. injection A1 as <- <-.
  destruct (resultant_shift wm values c) as [EC ES].
  destruct (sample_direction z' wm wc (map (fun v => v + c) values)) as (m2 & ys2 & cov2 & r2 & B1 & Hm2 & _ & _ & _ & Q2 & Cv2).
  { rewrite EC, ES. pose proof (cs1 (turn mn mx c)) as Q'.
    set (X := resultant cos mn mx wm values) in *. set (Y := resultant sin mn mx wm values) in *. set (cc := cos (turn mn mx c)) in *. set (sc := sin (turn mn mx c)) in *.
    replace ((cc * X - sc * Y) * (cc * X - sc * Y) + (sc * X + cc * Y) * (sc * X + cc * Y)) with ((cc * cc + sc * sc) * (X * X + Y * Y)) by ring. rewrite Q'. lra. }
  rewrite B in B1. injection B1 as <- <-.
  assert (E1 : ys = values) by (apply all_in_range; [eapply Forall_impl; [| exact In]; cbn; intros ? []; assumption | exact Q]).
  assert (E2 : ys2 = map (fun v => v + c) values) by (apply all_in_range; [apply Forall_map; eapply Forall_impl; [| exact In]; cbn; intros ? []; assumption | exact Q2]).
  assert (E : m' = m + c) by now apply in_range_unique. split; [exact E |]. rewrite Cv, Cv2, E1, E2, E. split; [reflexivity | apply sum_squares_shift].
Qed.
End Angle.

(** ** The update *)
Theorem update_range fast dx dy z gain x y m u : Forall valid dx -> (fast = true -> Forall limits_not_pi dx) ->
  length x = get_dimension dx -> (forall v, length (gain v) = get_dimension dx) ->
  update_mean fast dx dy z gain x y m = Ret u -> each in_range1 dx u.
Proof.
  intros V F L G H. unfold update_mean in H. apply bind_ret in H as (m' & _ & H).
  destruct (wrap_column_ok fast dx V F (z 1%nat) (map2 Rplus x (gain (map2 Rminus m' y)))) as (u' & s & E & Rg & _); [rewrite map2_len; rewrite ?G; congruence |].
  rewrite E in H. now injection H as <-.
Qed.
Theorem update_turns fast dx dy ks z gain x y m m' : Forall valid dy -> (fast = true -> Forall limits_not_pi dy) -> kinds dy = Some ks ->
  same_column ks m m' -> update_mean fast dx dy z gain x y m = update_mean fast dx dy z gain x y m'.
Proof.
  intros V F K S. unfold update_mean.
  assert (W : wrap_column fast dy (z 0%nat) m = wrap_column fast dy (z 0%nat) m').
  { assert (L : forall v w, same_column ks v w -> length v = get_dimension dy /\ length w = get_dimension dy).
    { rewrite <- (kinds_len dy ks K). clear. intros v w H. induction H; cbn; lia. }
    destruct (L _ _ S) as [L1 L2]. destruct (wrap_column_ok fast dy V F (z 0%nat) m L1) as (u & s & E & _).
    destruct (wrap_column_ok fast dy V F (z 0%nat) m' L2) as (u' & s' & E' & _). rewrite E, E'.
    now rewrite (wrap_unique fast dy ks V F K m m' _ _ u u' L1 L2 S E E'). }
  now rewrite W.
Qed.
Section Update.
Variables (fast : bool) (mn mx : R).
Hypothesis H0 : mn <= 0.
Hypothesis H1 : 0 < mx.
Hypothesis F : fast = true -> ~ (mn = - PI /\ mx = PI).
Lemma wrap_one z v : exists u, wrap_column fast [Ang mn mx] z [v] = Ret [u] /\ mn <= u < mx /\ exists t : Z, u = v + IZR t * (mx - mn).
Proof.
  destruct (wrap_row fast mn mx H0 H1 F (fun _ => z) [v]) as (ys & E & A). inversion A as [|? u ? ? P A']; subst. inversion A'; subst.
  exists u. split; [| exact P]. unfold wrap_angles in E. cbn [row map each_column] in E. apply bind_ret in E as (x & E & E'). cbn in E'. injection E' as ->. exact E.
Qed.
Lemma wrap_one_in z v : mn <= v < mx -> wrap_column fast [Ang mn mx] z [v] = Ret [v].
Proof. intros I. destruct (wrap_one z v) as (u & E & Iu & T). rewrite E. f_equal. f_equal. now apply (in_range_unique mn mx H0 H1). Qed.
Lemma wrap_one_is z v u : mn <= u < mx -> (exists t : Z, u = v + IZR t * (mx - mn)) -> wrap_column fast [Ang mn mx] z [v] = Ret [u].
Proof.
  intros I (t & T). destruct (wrap_one z v) as (u' & E & Iu & (t' & T')). rewrite E. f_equal. f_equal.
  apply (in_range_unique mn mx H0 H1); auto. exists (t' - t)%Z. rewrite minus_IZR. lra.
Qed.
Theorem update_rotates z z' k x y m c u u' : mn <= m < mx -> mn <= m + c < mx ->
  update_mean fast [Ang mn mx] [Ang mn mx] z (map (fun v => k * v)) [x] [y] [m] = Ret [u] ->
  update_mean fast [Ang mn mx] [Ang mn mx] z' (map (fun v => k * v)) [x + c] [y + c] [m + c] = Ret [u'] ->
  (exists t : Z, u = x + k * (m - y) + IZR t * (mx - mn)) /\ exists t : Z, u' = u + c + IZR t * (mx - mn).
Proof.
  intros I I' A B. unfold update_mean in A, B. rewrite (wrap_one_in _ m I) in A. rewrite (wrap_one_in _ _ I') in B. cbn [bind map2 map] in A, B.
  destruct (wrap_one (z 1%nat) (x + k * (m - y))) as (u1 & E1 & _ & (t1 & T1)). rewrite E1 in A. injection A as <-.
  destruct (wrap_one (z' 1%nat) (x + c + k * (m + c - (y + c)))) as (u2 & E2 & _ & (t2 & T2)). rewrite E2 in B. injection B as <-.
  split; [now exists t1 |]. exists (t2 - t1)%Z. rewrite minus_IZR. replace (m + c - (y + c)) with (m - y) in T2 by ring. lra.
Qed.
End Update.
