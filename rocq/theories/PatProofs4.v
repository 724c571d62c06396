From Coq Require Import Reals List ZArith Lra Lia Bool.
From Verif Require Import PatModel PatSpec PatProofs PatProofs2 PatProofs3.
Import ListNotations.
Local Open Scope R_scope.

Lemma valid_in ds d : Forall valid ds -> In d ds -> valid d.
Proof. intros H. rewrite Forall_forall in H. auto. Qed.

Lemma each2_lengths {A B} (P : desc -> list A -> list B -> Prop) ds v w :
  (forall d v w, P d v w -> length w = length v) -> each2 P ds v w -> length w = length v.
Proof. intros H E. induction E; [reflexivity|]. rewrite !app_length, IHE, (H _ _ _ H0). reflexivity. Qed.

Lemma wrap_in_range_pf ds v w : Forall valid ds -> wrap ds v = Ret w ->
  length w = length v /\ each in_range1 ds w.
Proof.
  intros HV H. apply wrap_iff in H. split.
  - eapply each2_lengths; [|exact H]. intros d v0 w0 [L E]. rewrite L. eapply wrap1_length; eassumption.
  - eapply each2_each; [|exact H]. intros d v0 w0 I [L E]. eapply wrap1_range; eauto using valid_in.
Qed.

Lemma in_range1_length d w : in_range1 d w -> length w = dim d.
Proof.
  revert w; induction d; cbn; intros w H; auto.
  - destruct H as [? [-> _]]; reflexivity.
  - destruct H as [? [-> _]]; reflexivity.
  - destruct H as [? [-> _]]; reflexivity.
  - destruct H as [? [? [-> _]]]; destruct dfirst; reflexivity.
  - destruct H as [? [? [? [-> _]]]]; destruct o; reflexivity.
Qed.

Lemma wrap_fix_pf ds w : Forall valid ds -> each in_range1 ds w -> wrap ds (map pos w) = Ret w.
Proof.
  intros HV H. apply wrap_iff. induction H as [|d ds w ws H E IH]; [constructor|].
  rewrite map_app. inversion HV; subst. constructor; [|auto].
  split; [rewrite map_length; apply in_range1_length; assumption|]. apply wrap1_fix; assumption.
Qed.

Lemma wrap_idempotent_pf ds v w : Forall valid ds -> wrap ds v = Ret w -> wrap ds (map pos w) = Ret w.
Proof. intros HV H. apply wrap_fix_pf; [exact HV|]. eapply wrap_in_range_pf; eassumption. Qed.

Lemma to_stat_defined_pf ds v : length v = get_dimension ds -> exists s, to_stat ds v = Ret s.
Proof.
  intros HL. rewrite get_dimension_sum in HL.
  assert (X : exists s, each2 (call to_stat1 dim) ds v s).
  { revert v HL; induction ds as [|d ds IH]; intros v HL; cbn in HL.
    - destruct v; [|discriminate]. exists []. constructor.
    - fold (sizes dim ds) in HL. rewrite <- (firstn_skipn (dim d) v).
      destruct (IH (skipn (dim d) v)) as [s Hs]. { rewrite skipn_length. lia. }
      assert (L : length (firstn (dim d) v) = dim d) by (rewrite firstn_length; lia).
      destruct (to_stat1_defined d _ L) as [s1 Hs1].
      exists (s1 ++ s). constructor; [split|]; assumption. }
  destruct X as [s X]. exists s. apply to_stat_iff, X.
Qed.

Lemma from_stat_defined_pf fast ds v : length v = get_stat_dimension ds -> exists s, from_stat fast ds v = Ret s.
Proof.
  intros HL. rewrite get_stat_dimension_sum in HL.
  assert (X : exists s, each2 (call (from_stat1 fast) stat_dim) ds v s).
  { revert v HL; induction ds as [|d ds IH]; intros v HL; cbn in HL.
    - destruct v; [|discriminate]. exists []. constructor.
    - fold (sizes stat_dim ds) in HL. rewrite <- (firstn_skipn (stat_dim d) v).
      destruct (IH (skipn (stat_dim d) v)) as [s Hs]. { rewrite skipn_length. lia. }
      assert (L : length (firstn (stat_dim d) v) = stat_dim d) by (rewrite firstn_length; lia).
      destruct (from_stat1_defined fast d _ L) as [s1 Hs1].
      exists (s1 ++ s). constructor; [split|]; assumption. }
  destruct X as [s X]. exists s. apply from_stat_iff, X.
Qed.

Lemma each2_sizes f size ds v w : each2 (call f size) ds v w -> length v = sizes size ds.
Proof. apply each2_len. Qed.

Lemma wrap_same_point_pf ds v w : Forall valid ds -> wrap ds v = Ret w ->
  exists s, to_stat ds v = Ret s /\ to_stat ds (map pos w) = Ret s.
Proof.
  intros HV H. apply wrap_iff in H.
  destruct (to_stat_defined_pf ds v) as [s Hs].
  { rewrite get_dimension_sum. eapply each2_len; exact H. }
  exists s. split; [exact Hs|]. apply to_stat_iff in Hs. apply to_stat_iff.
  assert (J : each2 (fun d w s => call to_stat1 dim d (map pos w) s) ds w s).
  { eapply (each2_join _ _ _ dim ds v w s); [| | |exact H|exact Hs].
    - intros d v0 w0 [L _]; exact L.
    - intros d v0 w0 [L _]; exact L.
    - intros d v0 w0 u I [L E] [L' E']. split.
      + rewrite map_length. eapply wrap1_length; eassumption.
      + rewrite <- E'. apply wrap1_same_point; eauto using valid_in. }
  rewrite <- (map_id s). eapply each2_map; [|exact J]. intros d v0 w0 _ C. rewrite map_id. exact C.
Qed.

Lemma to_stat_encodes_pf ds v s : Forall valid ds -> to_stat ds v = Ret s -> each2 encodes1 ds (map sv v) s.
Proof.
  intros HV H. apply to_stat_iff in H. rewrite <- (map_id s). eapply each2_map; [|exact H].
  intros d v0 w I [L E]. rewrite map_id. apply to_stat1_encodes; eauto using valid_in.
Qed.

Lemma no_fast_false d : no_fast false d.
Proof. induction d; cbn; auto. Qed.

Lemma no_fast_limits fast d : limits_not_pi d -> no_fast fast d.
Proof.
  induction d; cbn; auto; intros H; unfold unscaled; destruct fast; auto;
    destruct (Req_EM_T mn (- PI)); auto; destruct (Req_EM_T mx PI); auto; tauto.
Qed.

(** blocks of a mapped vector *)
Lemma each2_unmap {A B C} (P : desc -> list A -> list B -> Prop) (f : C -> B) (size : desc -> nat) ds v w :
  each2 P ds v (map f w) -> each2 (fun d v w => P d v (map f w)) ds v w.
Proof.
  remember (map f w) as u eqn:E. intros H. revert w E.
  induction H as [|d ds v vs u us p H IH]; intros w E.
  - destruct w; [constructor|discriminate].
  - assert (X : exists w1 w2, w = w1 ++ w2 /\ map f w1 = u /\ map f w2 = us).
    { symmetry in E. apply map_eq_app in E as [w1 [w2 [-> [E1 E2]]]]. eauto. }
    destruct X as [w1 [w2 [-> [<- <-]]]]. constructor; auto.
Qed.

Lemma each2_flip {A B} (P : desc -> list A -> list B -> Prop) ds v w :
  each2 P ds v w -> each2 (fun d w v => P d v w) ds w v.
Proof. intros H; induction H; constructor; auto. Qed.

Lemma from_to_pf fast ds v w s s' : Forall valid ds -> (fast = true -> Forall limits_not_pi ds) ->
  wrap ds v = Ret w -> to_stat ds v = Ret s -> map sv s' = s ->
  exists w', from_stat fast ds s' = Ret w' /\ same_coords ds w' w.
Proof.
  intros HV HF HW HS HE. apply wrap_iff in HW. apply to_stat_iff in HS. subst s.
  assert (NF : forall d, In d ds -> no_fast fast d).
  { intros d I. destruct fast; [|apply no_fast_false]. apply no_fast_limits.
    specialize (HF eq_refl). rewrite Forall_forall in HF. auto. }
  clear HF.
  apply (each2_unmap _ _ dim) in HS.
  assert (J : each2 (fun d w s => exists w', call (from_stat1 fast) stat_dim d s w' /\
    length w' = dim d /\ length w = dim d /\ same_coord1 d w' w) ds w s').
  { eapply (each2_join _ _ _ dim ds v w s'); [| | |exact HW|exact HS].
    - intros d v0 w0 [L _]; exact L.
    - intros d v0 w0 [L _]; exact L.
    - intros d v0 w0 u I [L E] [L' E'].
      destruct (from_to1 fast d v0 w0 _ u (valid_in _ _ HV I) (NF d I) L E E' eq_refl) as [w' [F S]].
      exists w'. split; [split; [|exact F]; rewrite <- (map_length sv u); eapply to_stat1_length; eassumption|].
      split; [eapply from_stat1_length; eassumption|]. split; [eapply wrap1_length; eassumption|exact S]. }
  clear -J.
  assert (K : exists w', each2 (call (from_stat1 fast) stat_dim) ds s' w' /\ same_coords ds w' w).
  { induction J as [|d ds w ws s ss [w' [C S]] J IH].
    - exists []. split; constructor.
    - destruct IH as [ws' [C' S']]. exists (w' ++ ws'). split; constructor; assumption. }
  destruct K as [w' [C S]]. exists w'. split; [|exact S]. apply from_stat_iff, C.
Qed.

Lemma to_from_pf fast ds s t : Forall valid ds -> each2 normalised1 ds (map sv s) t ->
  exists v, from_stat fast ds s = Ret v /\ to_stat ds (map pos v) = Ret t.
Proof.
  intros HV H.
  assert (NL : forall d s t, normalised1 d s t -> length s = stat_dim d).
  { clear. induction d; cbn; intros s t H; eauto.
    - tauto.
    - destruct H as [? [_ [-> _]]]; reflexivity.
    - destruct H as [? [? [? [_ [-> _]]]]]; reflexivity.
    - destruct H as [? [? [? [_ [_ [-> _]]]]]]; reflexivity.
    - destruct H as [? [? [? [? [_ [_ [_ [-> _]]]]]]]]; destruct dfirst; reflexivity.
    - destruct H as [? [? [? [? [? [_ [_ [_ [-> _]]]]]]]]]; reflexivity. }
  assert (X : exists v, each2 (call (from_stat1 fast) stat_dim) ds s v /\ each2 (call to_stat1 dim) ds (map pos v) t).
  { remember (map sv s) as u eqn:E. revert s E. induction H as [|d ds u us t ts N H IH]; intros s E.
    - destruct s; [|discriminate]. exists []. split; constructor.
    - symmetry in E. apply map_eq_app in E as [s1 [s2 [-> [E1 E2]]]]. subst u us.
      inversion HV; subst. destruct (IH H3 s2 eq_refl) as [v2 [A B]].
      assert (L : length s1 = stat_dim d) by (rewrite <- (map_length sv s1); eapply NL; eassumption).
      destruct (from_stat1_defined fast d s1 L) as [v1 F].
      exists (v1 ++ v2). rewrite map_app. split; constructor; auto.
      + split; assumption.
      + split; [rewrite map_length; eapply from_stat1_length; eassumption|].
        eapply from_to_stat1; eassumption. }
  destruct X as [v [A B]]. exists v. split; [apply from_stat_iff, A|apply to_stat_iff, B].
Qed.

Lemma each2_self {A} (P Q : desc -> list A -> Prop) (R : desc -> list A -> list A -> Prop) ds v :
  (forall d v, P d v -> R d v v) -> each P ds v -> each2 R ds v v.
Proof. intros H E; induction E; constructor; auto. Qed.

Lemma to_stat_manifold_pf ds v s : to_stat ds v = Ret s -> each on_manifold1 ds s.
Proof.
  intros H. apply to_stat_iff in H. eapply each2_each; [|exact H].
  intros d v0 w I [L E]. eapply to_stat1_manifold; eassumption.
Qed.

Lemma to_from_manifold_pf fast ds s : Forall valid ds -> each on_manifold1 ds (map sv s) ->
  exists v, from_stat fast ds s = Ret v /\ to_stat ds (map pos v) = Ret (map sv s).
Proof.
  intros HV H. apply to_from_pf; [exact HV|].
  apply (each2_self on_manifold1 on_manifold1); [apply manifold_normalised|exact H].
Qed.

Lemma same_blocks {A B} (P : desc -> list A -> list B -> Prop) (Q : desc -> list B -> Prop) ds v w
   (size : desc -> nat) :
  (forall d v w, P d v w -> length w = size d) -> (forall d w, Q d w -> length w = size d) ->
  each2 P ds v w -> each Q ds w -> each2 (fun d v w => P d v w /\ Q d w) ds v w.
Proof.
  intros HP HQ E. induction E as [|d ds v vs w ws p E IH]; intros F; [constructor|].
  inversion F as [|d' ds' w' ws' q F' Ed Ew]; subst.
  apply app_inj_len in Ew as [-> ->]; [|rewrite (HQ _ _ q), (HP _ _ _ p); reflexivity].
  constructor; auto.
Qed.

Lemma same_coord1_length d v w : same_coord1 d v w -> length v = length w.
Proof.
  revert v w; induction d; cbn; intros v w H; subst; auto.
  destruct H as [->|[? [? [? [? [-> [-> _]]]]]]]; [reflexivity|]. destruct o; reflexivity.
Qed.

Lemma canonical_pf ds v v' w w' : Forall valid ds -> wrap ds v = Ret w -> wrap ds v' = Ret w' ->
  (to_stat ds v = to_stat ds v' <-> same_coords ds w w').
Proof.
  intros HV H H'.
  destruct (wrap_in_range_pf _ _ _ HV H) as [_ R1]. destruct (wrap_in_range_pf _ _ _ HV H') as [_ R2].
  destruct (wrap_same_point_pf _ _ _ HV H) as [s [S1 S2]]. destruct (wrap_same_point_pf _ _ _ HV H') as [s' [S1' S2']].
  rewrite S1, S1'.
  apply to_stat_iff in S2. apply to_stat_iff in S2'. clear - HV R1 R2 S2 S2'. split.
  - intros [= ->]. revert w' R2 s' S2 S2'. 
    unfold same_coords. induction R1 as [|d ds w ws r R1 IH]; intros w' R2 s S2 S2'.
    + inversion R2; subst. constructor.
    + inversion R2 as [|d' ds' w1 ws1 r' R2' Ed Ew]; subst. inversion HV; subst.
      rewrite map_app in S2, S2'. 
      inversion S2 as [|d1 ds1 a1 as1 b1 bs1 [L1 E1] S2b Ed Ev Eb]; subst.
      inversion S2' as [|d2 ds2 a2 as2 b2 bs2 [L2 E2] S2b' Ed Ev' Eb]; subst.
      apply app_inj_len in Ev as [-> ->]; [|rewrite map_length, L1; symmetry; apply in_range1_length; assumption].
      apply app_inj_len in Ev' as [-> ->]; [|rewrite map_length, L2; symmetry; apply in_range1_length; assumption].
      pose proof (to_stat1_length _ _ _ E1) as M1. pose proof (to_stat1_length _ _ _ E2) as M2.
      apply app_inj_len in Eb as [-> ->]; [|congruence].
      constructor; [|eapply IH; eauto]. split; [apply in_range1_length; assumption|].
      split; [apply in_range1_length; assumption|]. eapply in_range1_unique; eassumption.
  - intros C. f_equal. unfold same_coords in C. revert s s' S2 S2' R1 R2.
    induction C as [|d ds w ws w' ws' [LW [LW' c]] C IH]; intros s s' S2 S2' R1 R2.
    + inversion S2; subst. inversion S2'; subst. reflexivity.
    + inversion HV; subst. rewrite map_app in S2, S2'.
      inversion S2 as [|d1 ds1 a1 as1 b1 bs1 [L1 E1] S2b Ed Ev Eb]; subst.
      inversion S2' as [|d2 ds2 a2 as2 b2 bs2 [L2 E2] S2b' Ed Ev' Eb]; subst.
      inversion R1 as [|d3 ds3 w3 ws3 r3 R1' Ed3 Ew3]; subst.
      inversion R2 as [|d4 ds4 w4 ws4 r4 R2' Ed4 Ew4]; subst.
      pose proof (in_range1_length _ _ r3) as L3. pose proof (in_range1_length _ _ r4) as L4.
      apply app_inj_len in Ew3 as [-> ->]; [|congruence].
      apply app_inj_len in Ew4 as [-> ->]; [|congruence].
      apply app_inj_len in Ev as [-> ->]; [|rewrite map_length, L1; symmetry; assumption].
      apply app_inj_len in Ev' as [-> ->]; [|rewrite map_length, L2; symmetry; assumption].
      pose proof (same_coord1_stat _ _ _ _ H1 r3 r4 c E1) as X. rewrite E2 in X. injection X as ->.
      f_equal. eapply IH; eassumption.
Qed.

(** ** C07: block structure *)
Lemma single_wrap d v w : wrap [d] v = Ret w <-> call wrap1 dim d v w.
Proof.
  rewrite wrap_iff. split.
  - intros H. inversion H as [|d' ds' v' vs w' ws C H' A B D]; subst. inversion H'; subst. rewrite !app_nil_r. exact C.
  - intros C. rewrite <- (app_nil_r v), <- (app_nil_r w). constructor; [exact C|constructor].
Qed.
Lemma single_to d v w : to_stat [d] v = Ret w <-> call to_stat1 dim d v w.
Proof.
  rewrite to_stat_iff. split.
  - intros H. inversion H as [|d' ds' v' vs w' ws C H' A B D]; subst. inversion H'; subst. rewrite !app_nil_r. exact C.
  - intros C. rewrite <- (app_nil_r v), <- (app_nil_r w). constructor; [exact C|constructor].
Qed.
Lemma single_from fast d v w : from_stat fast [d] v = Ret w <-> call (from_stat1 fast) stat_dim d v w.
Proof.
  rewrite from_stat_iff. split.
  - intros H. inversion H as [|d' ds' v' vs w' ws C H' A B D]; subst. inversion H'; subst. rewrite !app_nil_r. exact C.
  - intros C. rewrite <- (app_nil_r v), <- (app_nil_r w). constructor; [exact C|constructor].
Qed.

Lemma each2_iff {A B} (P Q : desc -> list A -> list B -> Prop) ds v w :
  (forall d v w, P d v w <-> Q d v w) -> each2 P ds v w <-> each2 Q ds v w.
Proof. intros H. split; intros E; induction E; constructor; auto; apply H; assumption. Qed.

Lemma componentwise_pf fast ds v w :
  (wrap ds v = Ret w <-> each2 (fun d v w => wrap [d] v = Ret w) ds v w) /\
  (to_stat ds v = Ret w <-> each2 (fun d v w => to_stat [d] v = Ret w) ds v w) /\
  (from_stat fast ds v = Ret w <-> each2 (fun d v w => from_stat fast [d] v = Ret w) ds v w).
Proof.
  rewrite wrap_iff, to_stat_iff, from_stat_iff. split; [|split]; apply each2_iff; intros; symmetry;
    [apply single_wrap|apply single_to|apply single_from].
Qed.

Definition cat2 (a b : res (list R)) : res (list R) := bind a (fun x => bind b (fun y => Ret (x ++ y))).

Lemma traverse_shift f size ds pre v post out :
  length v = sizes size ds ->
  traverse f size ds (pre ++ v ++ post) (length pre) out = bind (traverse f size ds v 0 []) (fun w => Ret (out ++ w)).
Proof.
  revert pre v post out; induction ds as [|d ds IH]; intros pre v post out HL; cbn [sizes fold_right] in HL.
  - cbn. rewrite app_nil_r. reflexivity.
  - fold (sizes size ds) in HL. rewrite <- (firstn_skipn (size d) v).
    set (a := firstn (size d) v). set (b := skipn (size d) v).
    assert (La : length a = size d) by (unfold a; rewrite firstn_length; lia).
    assert (Lb : length b = sizes size ds) by (unfold b; rewrite skipn_length; lia).
    clearbody a b. cbn [traverse]. unfold slice. rewrite !app_length, La.
    destruct (Nat.leb_spec (length pre + size d) (length pre + (size d + length b + length post))); [|lia].
    destruct (Nat.leb_spec (0 + size d) (size d + length b)); [|lia].
    rewrite skipn_app, skipn_all, Nat.sub_diag. cbn [app skipn bind].
    rewrite <- !app_assoc, !firstn_app, <- La, firstn_all, Nat.sub_diag, !firstn_O, !app_nil_r.
    destruct (f d a) as [o| | |]; cbn [bind]; try reflexivity.
    rewrite La. pose proof (IH (pre ++ a) b post (out ++ o) Lb) as I1.
    rewrite app_length, La, <- !app_assoc in I1. rewrite I1.
    pose proof (IH a b [] o Lb) as I2. rewrite La, app_nil_r in I2. cbn [app Nat.add]. rewrite I2.
    destruct (traverse f size ds b 0 []); cbn [bind]; try reflexivity. rewrite app_assoc. reflexivity.
Qed.

Lemma traverse_app f size ds1 ds2 v i out :
  traverse f size (ds1 ++ ds2) v i out =
  bind (traverse f size ds1 v i out) (fun o => traverse f size ds2 v (i + sizes size ds1) o).
Proof.
  revert i out; induction ds1 as [|d ds1 IH]; intros i out; cbn [app traverse sizes fold_right bind].
  - rewrite Nat.add_0_r. reflexivity.
  - destruct (slice v i (size d)) as [x| | |]; cbn [bind]; try reflexivity.
    destruct (f d x) as [y| | |]; cbn [bind]; try reflexivity.
    rewrite IH. fold (sizes size ds1). rewrite Nat.add_assoc. reflexivity.
Qed.

Lemma sizes_app size a b : sizes size (a ++ b) = (sizes size a + sizes size b)%nat.
Proof.
  induction a as [|d a IH]; cbn; [reflexivity|]. fold (sizes size (a ++ b)) (sizes size a). rewrite IH. lia.
Qed.

Lemma traverse_cat f size ds1 ds2 v1 v2 :
  length v1 = sizes size ds1 ->
  checked (sizes size (ds1 ++ ds2)) (v1 ++ v2) (traverse f size (ds1 ++ ds2) (v1 ++ v2) 0 []) =
  bind (if Nat.eqb (length v2) (sizes size ds2) then Ret tt else Undef) (fun _ =>
  bind (checked (sizes size ds1) v1 (traverse f size ds1 v1 0 [])) (fun w1 =>
  bind (checked (sizes size ds2) v2 (traverse f size ds2 v2 0 [])) (fun w2 => Ret (w1 ++ w2)))).
Proof.
  intros H1. unfold checked. rewrite sizes_app, app_length, H1, Nat.eqb_refl.
  destruct (Nat.eqb_spec (sizes size ds1 + length v2) (sizes size ds1 + sizes size ds2));
  destruct (Nat.eqb_spec (length v2) (sizes size ds2)); cbn [bind]; try lia; try reflexivity.
  rewrite traverse_app.
  pose proof (traverse_shift f size ds1 [] v1 v2 [] H1) as S1. cbn [app length] in S1. rewrite S1.
  destruct (traverse f size ds1 v1 0 []) as [w1| | |]; cbn [bind app]; try reflexivity.
  pose proof (traverse_shift f size ds2 v1 v2 [] w1) as S2. rewrite app_nil_r, H1 in S2. cbn [Nat.add].
  apply S2. assumption.
Qed.

Lemma concat_pf fast ds1 ds2 v1 v2 u1 u2 :
  length v1 = get_dimension ds1 -> length v2 = get_dimension ds2 ->
  length u1 = get_stat_dimension ds1 -> length u2 = get_stat_dimension ds2 ->
  wrap (ds1 ++ ds2) (v1 ++ v2) = cat2 (wrap ds1 v1) (wrap ds2 v2) /\
  to_stat (ds1 ++ ds2) (v1 ++ v2) = cat2 (to_stat ds1 v1) (to_stat ds2 v2) /\
  from_stat fast (ds1 ++ ds2) (u1 ++ u2) = cat2 (from_stat fast ds1 u1) (from_stat fast ds2 u2).
Proof.
  unfold wrap, to_stat, from_stat, cat2. rewrite !get_dimension_sum, !get_stat_dimension_sum. intros A B C D.
  rewrite !traverse_cat by assumption. rewrite B, D, !Nat.eqb_refl. cbn [bind]. auto.
Qed.

(** ** C08 *)
Lemma euclid_forall ds : get_is_euclidean ds = true <-> Forall (fun d => is_euclid d = true) ds.
Proof.
  unfold get_is_euclidean. assert (X : forall b, fold_left (fun a d => a && is_euclid d)%bool ds b = true <->
     b = true /\ Forall (fun d => is_euclid d = true) ds).
  { induction ds as [|d ds IH]; intros b; cbn.
    - split; [intros ->; auto|tauto].
    - rewrite IH. rewrite andb_true_iff. split.
      + intros [[A B] C]. split; [exact A|]. constructor; assumption.
      + intros [A B]. inversion B; subst. auto. }
  rewrite X. tauto.
Qed.

Lemma euclid_sizes ds : Forall (fun d => is_euclid d = true) ds -> sizes stat_dim ds = sizes dim ds.
Proof.
  induction 1 as [|d ds H HE IH]; [reflexivity|]. cbn. rewrite (euclid_dims d H). f_equal. apply IH.
Qed.

Lemma euclid_each (f : desc -> list sr -> res (list R)) size ds v :
  (forall d v, is_euclid d = true -> length v = size d -> f d v = Ret (map sv v)) ->
  Forall (fun d => is_euclid d = true) ds -> length v = sizes size ds -> each2 (call f size) ds v (map sv v).
Proof.
  intros Hf HE. revert v. induction HE as [|d ds H HE IH]; intros v HL; cbn in HL.
  - destruct v; [constructor|discriminate].
  - fold (sizes size ds) in HL. rewrite <- (firstn_skipn (size d) v), map_app.
    assert (L : length (firstn (size d) v) = size d) by (rewrite firstn_length; lia).
    constructor; [split; [exact L|apply Hf; assumption]|]. apply IH. rewrite skipn_length. lia.
Qed.

Lemma euclid_transparent_pf fast ds v : get_is_euclidean ds = true -> length v = get_dimension ds ->
  get_stat_dimension ds = get_dimension ds /\
  to_stat ds v = Ret (values v) /\ from_stat fast ds v = Ret (values v) /\ wrap ds v = Ret (values v).
Proof.
  rewrite euclid_forall, get_stat_dimension_sum, get_dimension_sum, to_stat_iff, from_stat_iff, wrap_iff.
  intros HE HL. rewrite (euclid_sizes ds HE). split; [reflexivity|]. unfold values.
  split; [|split]; apply euclid_each; try assumption.
  - apply to_stat1_euclid.
  - intros d u He Hl. apply from_stat1_euclid; [exact He|]. rewrite Hl. apply euclid_dims, He.
  - rewrite (euclid_sizes ds HE). exact HL.
  - apply wrap1_euclid.
Qed.

(** ** C09 *)
Lemma intmax_eq : intmax_bound = int64_bound.
Proof. unfold intmax_bound, int64_bound. f_equal. Qed.

Lemma singleton_wrap d v : length v = dim d -> wrap [d] v = wrap1 d v.
Proof.
  intros HL. unfold wrap, checked. rewrite get_dimension_sum. cbn [sizes fold_right]. rewrite Nat.add_0_r, HL, Nat.eqb_refl.
  cbn [traverse]. unfold slice. cbn [Nat.add]. rewrite HL, Nat.leb_refl. cbn [bind skipn].
  rewrite <- HL, firstn_all. destruct (wrap1 d v); reflexivity.
Qed.

Lemma angle_outcomes_pf mn mx a : mn <= 0 -> 0 < mx ->
  let q := turns mn mx (sv a) in
  (mn <= sv a < mx -> wrap [Ang mn mx] [a] = Ret [sv a]) /\
  (~ (mn <= sv a < mx) ->
     ((exists w, wrap [Ang mn mx] [a] = Ret w) <-> - int64_bound <= q < int64_bound) /\
     (wrap [Ang mn mx] [a] = Throws <-> (q < - int64_bound \/ int64_bound < q)) /\
     (wrap [Ang mn mx] [a] = Undef <-> q = int64_bound)).
Proof.
  intros H1 H2 q. rewrite singleton_wrap by reflexivity. cbn [wrap1].
  destruct (wrap_phi_mod_cases mn mx H1 H2 (sv a)) as [A B]. rewrite intmax_eq in B.
  split; [intros H; rewrite (A H); reflexivity|].
  intros H. destruct (B H) as [B1 [B2 B3]]. fold (turns mn mx (sv a)) in B1, B2, B3. fold q in B1, B2, B3.
  split; [|split].
  - rewrite B1. split.
    + intros [w E]. apply bind_ret in E as [x [E _]]. eauto.
    + intros [w E]. rewrite E. cbn. eauto.
  - rewrite B2. split; destruct (wrap_phi_mod mn mx (sv a)); cbn; congruence.
  - rewrite B3. split; destruct (wrap_phi_mod mn mx (sv a)); cbn; congruence.
Qed.

Lemma fmod_cases x y : 0 < y -> sv x <> 0 -> let q := sv x / y in
  ((exists m, fmod x y = Ret m) <-> - int64_bound <= q < int64_bound) /\
  (fmod x y = Throws <-> (q < - int64_bound \/ int64_bound < q)) /\
  (fmod x y = Undef <-> q = int64_bound).
Proof.
  intros Hy Hx q. unfold fmod. rewrite intmax_eq. fold q.
  assert (0 < int64_bound) by (unfold int64_bound; apply IZR_lt; lia).
  destruct (Req_EM_T y 0); [lra|]. destruct (Req_EM_T (sv x) 0); [tauto|].
  destruct (Rlt_dec _ _); [|destruct (Rlt_dec _ _); [|destruct (Req_EM_T _ _)]];
    (split; [split; [intros [? E]; try discriminate; try lra|intros; try (eexists; reflexivity); lra]|]);
    (split; split; intros; try discriminate; try reflexivity; try lra).
Qed.

Lemma inclination_outcomes_pf down i : 0 < down ->
  let q := Rabs (sv i) / (down * 2) in
  (0 <= sv i <= down -> wrap [Incl down] [i] = Ret [sv i]) /\
  (~ (0 <= sv i <= down) ->
     ((exists w, wrap [Incl down] [i] = Ret w) <-> q < int64_bound) /\
     (wrap [Incl down] [i] = Throws <-> int64_bound < q) /\
     (wrap [Incl down] [i] = Undef <-> q = int64_bound)).
Proof.
  intros Hd q. rewrite singleton_wrap by reflexivity. cbn [wrap1].
  split; [intros H; rewrite (incl_wrap_id down _ H); reflexivity|]. intros H.
  assert (E : exists g, incl_wrap down (sv i) = bind (fmod (pos (Rabs (sv i))) (down * 2)) (fun m => Ret (g m))).
  { unfold incl_wrap. exists (fun am => if Rlt_dec down (sv am) then down * 2 - sv am else sv am).
    assert (X : forall m, bind m (fun am => if Rlt_dec down (sv am) then Ret (down * 2 - sv am) else Ret (sv am)) =
        bind m (fun m => Ret (if Rlt_dec down (sv m) then down * 2 - sv m else sv m))).
    { intros [m| | |]; cbn; try reflexivity. destruct (Rlt_dec down (sv m)); reflexivity. }
    destruct (Rle_dec 0 (sv i)); [destruct (Rle_dec (sv i) down); [lra|]|]; apply X. }
  destruct E as [g E]. rewrite E. clear E.
  assert (NZ : sv (pos (Rabs (sv i))) <> 0).
  { cbn. unfold Rabs. destruct (Rcase_abs (sv i)); lra. }
  destruct (fmod_cases (pos (Rabs (sv i))) (down * 2) ltac:(lra) NZ) as [B1 [B2 B3]]. cbn [pos sv] in *.
  fold q in B1, B2, B3.
  assert (Q : 0 <= q). { unfold q. apply Rmult_le_pos; [apply Rabs_pos|]. left. apply Rinv_0_lt_compat. lra. }
  assert (0 < int64_bound) by (unfold int64_bound; apply IZR_lt; lia).
  split; [|split].
  - transitivity (exists m, fmod (pos (Rabs (sv i))) (down * 2) = Ret m).
    + split.
      * intros [w E]. apply bind_ret in E as [x [E _]]. apply bind_ret in E as [m [E _]]. eauto.
      * intros [m E]. change (pos (Rabs (sv i))) with (pos (Rabs (sv i))). rewrite E. cbn. eauto.
    + rewrite B1. lra.
  - transitivity (fmod (pos (Rabs (sv i))) (down * 2) = Throws); [|rewrite B2; lra].
    destruct (fmod (pos (Rabs (sv i))) (down * 2)); cbn; split; congruence.
  - transitivity (fmod (pos (Rabs (sv i))) (down * 2) = Undef); [|rewrite B3; lra].
    destruct (fmod (pos (Rabs (sv i))) (down * 2)); cbn; split; congruence.
Qed.

(** ** C10, C11 *)
Lemma from_range_pf fast ds s v : Forall valid ds -> (fast = true -> Forall limits_not_pi ds) ->
  each2 normalised1 ds (map sv s) (map sv s) \/ (exists t, each2 normalised1 ds (map sv s) t) ->
  from_stat fast ds s = Ret v -> each in_range1 ds v.
Proof.
  intros HV HF HN H. assert (N : exists t, each2 normalised1 ds (map sv s) t) by (destruct HN; eauto). clear HN.
  destruct N as [t N]. apply from_stat_iff in H.
  assert (NF : forall d, In d ds -> no_fast fast d).
  { intros d I. destruct fast; [|apply no_fast_false]. apply no_fast_limits.
    specialize (HF eq_refl). rewrite Forall_forall in HF. auto. }
  assert (NL : forall d s t, normalised1 d s t -> length s = stat_dim d).
  { clear. induction d; cbn; intros s t H; eauto.
    - tauto.
    - destruct H as [? [_ [-> _]]]; reflexivity.
    - destruct H as [? [? [? [_ [-> _]]]]]; reflexivity.
    - destruct H as [? [? [? [_ [_ [-> _]]]]]]; reflexivity.
    - destruct H as [? [? [? [? [_ [_ [_ [-> _]]]]]]]]; destruct dfirst; reflexivity.
    - destruct H as [? [? [? [? [? [_ [_ [_ [-> _]]]]]]]]]; reflexivity. }
  clear HF. remember (map sv s) as u eqn:E. revert s v E H. induction N as [|d ds u us t ts n N IH]; intros s v E H.
  - inversion H; subst. constructor.
  - inversion H as [|d1 ds1 a1 as1 b1 bs1 [L1 E1] H' Ed Ev Eb]; subst. inversion HV; subst.
    rewrite map_app in E. apply app_inj_len in E as [-> ->]; [|rewrite map_length, L1; eapply NL; eassumption].
    constructor.
    + eapply from_stat1_range; try eassumption; [apply NF; left; reflexivity|]. right. eauto.
    + eapply IH; try eassumption; [intros; apply NF; right; assumption|reflexivity].
Qed.

Lemma angle_from_range_pf mn mx x y : mn <= 0 -> 0 < mx ->
  exists a, from_stat false [Ang mn mx] [x; y] = Ret [a] /\ mn <= a < mx.
Proof.
  intros H1 H2. exists (ang_from false mn mx x y). split; [|apply ang_from_spec; auto].
  apply single_from. split; reflexivity.
Qed.

Lemma angle_from_range_limits_pf fast mn mx x y : mn <= 0 -> 0 < mx -> ~ (mn = - PI /\ mx = PI) ->
  exists a, from_stat fast [Ang mn mx] [x; y] = Ret [a] /\ mn <= a < mx.
Proof.
  intros H1 H2 H3. exists (ang_from fast mn mx x y). split; [apply single_from; split; reflexivity|].
  apply ang_from_spec; auto. apply (no_fast_limits fast (Ang mn mx)). exact H3.
Qed.

Lemma angle_from_closed_pf fast mn mx x y : mn <= 0 -> 0 < mx ->
  exists a, from_stat fast [Ang mn mx] [x; y] = Ret [a] /\ mn <= a <= mx /\
    (a = mx -> sv x <= 0 /\ sv y = 0 /\ signbit y = false).
Proof.
  intros H1 H2. exists (ang_from fast mn mx x y). split; [apply single_from; split; reflexivity|].
  destruct (unscaled fast mn mx) eqn:U.
  - pose proof (unscaled_true _ _ _ U) as [_ [-> ->]]. unfold ang_from. rewrite U.
    pose proof (atan2_range y x) as A. split; [lra|].
    intros E. destruct (Rlt_dec (sv x) 0); [|destruct (Req_EM_T (sv x) 0)].
    + unfold atan2 in E. pose proof PI_RGT_0.
      destruct (Rlt_dec 0 (sv x)); [lra|]. destruct (Rlt_dec (sv x) 0); [|lra].
      destruct (Rlt_dec 0 (sv y)).
      { assert (atan (sv y / sv x) = 0) by lra. assert (sv y / sv x < 0).
        { unfold Rdiv. assert (/ sv x < 0) by (apply Rinv_lt_0_compat; lra). nra. }
        pose proof (atan_increasing _ _ H3). rewrite atan_0 in H4. lra. }
      destruct (Rlt_dec (sv y) 0).
      { pose proof (atan_bound (sv y / sv x)). lra. }
      unfold copysign in E. destruct (signbit y) eqn:S; [rewrite Rabs_pos_eq in E by lra; lra|].
      repeat split; lra.
    + unfold atan2 in E. pose proof PI_RGT_0. destruct (Rlt_dec 0 (sv x)); [lra|]. destruct (Rlt_dec (sv x) 0); [lra|].
      destruct (Rlt_dec 0 (sv y)); [lra|]. destruct (Rlt_dec (sv y) 0); [lra|].
      destruct (signbit x); [|lra].
      unfold copysign in E. destruct (signbit y) eqn:S; [rewrite Rabs_pos_eq in E by lra; lra|]. repeat split; lra.
    + unfold atan2 in E. destruct (Rlt_dec 0 (sv x)); [|lra]. pose proof (atan_bound (sv y / sv x)). pose proof PI_RGT_0. lra.
  - destruct (ang_from_spec mn mx H1 H2 fast x y U) as [A _]. split; [lra|]. intros; lra.
Qed.

Lemma angle_from_pi_pf : from_stat true [Ang (- PI) PI] [SR (-1) false; SR 0 false] = Ret [PI].
Proof.
  apply single_from. split; [reflexivity|]. cbn [from_stat1]. unfold ang_from.
  replace (unscaled true (- PI) PI) with true.
  - unfold atan2. cbn [sv]. destruct (Rlt_dec 0 (-1)); [lra|]. destruct (Rlt_dec (-1) 0); [|lra].
    destruct (Rlt_dec 0 0); [lra|]. destruct (Rlt_dec 0 0); [lra|].
    unfold copysign, signbit. cbn [sv sz]. destruct (Rlt_dec 0 0); [lra|]. destruct (Req_EM_T 0 0); [|lra].
    rewrite Rabs_pos_eq; [reflexivity|]. pose proof PI_RGT_0; lra.
  - unfold unscaled. destruct (Req_EM_T (- PI) (- PI)); [|lra]. destruct (Req_EM_T PI PI); [reflexivity|lra].
Qed.

Lemma spherical_from_range_pf fast o mn mx down d x y z :
  mn <= 0 -> 0 < mx -> 0 < down ->
  exists i a, from_stat fast [Spher o mn mx down] [d; x; y; z] = Ret (sph o (sv d) i a) /\
    0 <= i <= down /\ mn <= a < mx.
Proof.
  intros V1 V2 V3. destruct (spher_from mn mx down d x y z) as [[r i] a] eqn:E.
  destruct (spher_from_range mn mx down V1 V2 V3 _ _ _ _ _ _ _ E) as [-> [B C]].
  exists i, a. split; [|split; assumption]. apply single_from. split; [reflexivity|].
  cbn [from_stat1]. rewrite E, sput_sph. reflexivity.
Qed.

(** ** C12 *)
Lemma dim_strip d : dim (strip d) = dim d.
Proof. induction d; cbn; auto. Qed.
Lemma stat_dim_strip d : stat_dim (strip d) = stat_dim d.
Proof. induction d; cbn; auto. Qed.
Lemma is_euclid_strip d : is_euclid (strip d) = is_euclid d.
Proof. induction d; cbn; auto. Qed.

Lemma to_stat1_strip d v : length v = dim d -> to_stat1 (strip d) v = to_stat1 d v.
Proof. intros HL. induction d; try reflexivity. rewrite to_stat1_any by exact HL. apply IHd. exact HL. Qed.
Lemma from_stat1_strip fast d v : length v = stat_dim d -> from_stat1 fast (strip d) v = from_stat1 fast d v.
Proof. intros HL. induction d; try reflexivity. rewrite from_stat1_any by exact HL. apply IHd. exact HL. Qed.
Lemma wrap1_strip d v : length v = dim d -> wrap1 (strip d) v = wrap1 d v.
Proof. intros HL. induction d; try reflexivity. rewrite wrap1_any by exact HL. apply IHd. exact HL. Qed.

Lemma traverse_strip f size ds v i out :
  (forall d v, length v = size d -> f (strip d) v = f d v) -> (forall d, size (strip d) = size d) ->
  traverse f size (map strip ds) v i out = traverse f size ds v i out.
Proof.
  intros Hf Hs. revert i out; induction ds as [|d ds IH]; intros i out; cbn [map traverse]; [reflexivity|].
  rewrite Hs. unfold slice. destruct (Nat.leb_spec (i + size d) (length v)); cbn [bind]; [|reflexivity].
  rewrite Hf by (rewrite firstn_length, skipn_length; lia).
  destruct (f d _); cbn [bind]; auto.
Qed.

Lemma sizes_strip size ds : (forall d, size (strip d) = size d) -> sizes size (map strip ds) = sizes size ds.
Proof. intros H. induction ds; cbn; [reflexivity|]. rewrite H. f_equal. apply IHds. Qed.

Lemma any_transparent_pf fast ds v :
  get_dimension (map strip ds) = get_dimension ds /\
  get_stat_dimension (map strip ds) = get_stat_dimension ds /\
  get_is_euclidean (map strip ds) = get_is_euclidean ds /\
  to_stat (map strip ds) v = to_stat ds v /\
  from_stat fast (map strip ds) v = from_stat fast ds v /\
  wrap (map strip ds) v = wrap ds v.
Proof.
  unfold to_stat, from_stat, wrap. rewrite !get_dimension_sum, !get_stat_dimension_sum.
  rewrite !(sizes_strip dim _ dim_strip), !(sizes_strip stat_dim _ stat_dim_strip).
  split; [reflexivity|]. split; [reflexivity|]. split.
  { unfold get_is_euclidean. generalize true. induction ds as [|d ds IH]; intros b; cbn; [reflexivity|].
    rewrite is_euclid_strip. apply IH. }
  rewrite !traverse_strip; auto using dim_strip, stat_dim_strip, to_stat1_strip, from_stat1_strip, wrap1_strip.
Qed.

(** ** C13 *)
Lemma conversion_lengths_pf fast ds v w :
  (to_stat ds v = Ret w -> length v = get_dimension ds /\ length w = get_stat_dimension ds) /\
  (from_stat fast ds v = Ret w -> length v = get_stat_dimension ds /\ length w = get_dimension ds) /\
  (wrap ds v = Ret w -> length v = get_dimension ds /\ length w = get_dimension ds).
Proof.
  rewrite to_stat_iff, from_stat_iff, wrap_iff, get_dimension_sum, get_stat_dimension_sum.
  assert (X : forall f si so, (forall d v w, f d v = Ret w -> length w = so d) ->
     each2 (call f si) ds v w -> length v = sizes si ds /\ length w = sizes so ds).
  { intros f si so Hf E. induction E as [|d ds v vs w ws [L E1] E IH]; [auto|].
    destruct IH as [A B]. cbn. rewrite !app_length. fold (sizes si ds) (sizes so ds). rewrite A, B, L, (Hf _ _ _ E1). auto. }
  split; [|split]; apply X; eauto using to_stat1_length, wrap1_length.
  intros; eapply from_stat1_length; eassumption.
Qed.

Lemma dims_additive_pf a b :
  get_dimension (a ++ b) = (get_dimension a + get_dimension b)%nat /\
  get_stat_dimension (a ++ b) = (get_stat_dimension a + get_stat_dimension b)%nat /\
  get_is_euclidean (a ++ b) = (get_is_euclidean a && get_is_euclidean b)%bool.
Proof.
  rewrite !get_dimension_sum, !get_stat_dimension_sum, !sizes_app. split; [reflexivity|]. split; [reflexivity|].
  apply eq_true_iff_eq. rewrite andb_true_iff, !euclid_forall, Forall_app. reflexivity.
Qed.

Lemma dims_single_pf d : get_dimension [d] = dim d /\ get_stat_dimension [d] = stat_dim d /\
  get_is_euclidean [d] = is_euclid d.
Proof. cbn. auto. Qed.

(** ** The C++23 path *)
Lemma cxx23_refuted_pf :
  exists ds s v, Forall valid ds /\ from_stat false ds s = Ret v /\ from_stat_dynamic_cxx23 ds s <> Ret v.
Proof.
  exists [Ang (- PI) PI], [SR 1 false; SR 0 false], [ang_from false (-PI) PI (SR 1 false) (SR 0 false)].
  split; [|split].
  - constructor; [|constructor]. cbn. pose proof PI_RGT_0; lra.
  - apply single_from. split; reflexivity.
  - cbn. unfold from_stat_dynamic_cxx23, checked. cbn. discriminate.
Qed.

Lemma polar_outcomes_pf df mn mx r a : mn <= 0 -> 0 < mx ->
  let b := if signbit r then sv a + (mx - mn) * (1 / 2) else sv a in
  let q := turns mn mx b in
  let out := wrap [Polar df mn mx] (pol df r a) in
  (mn <= b < mx -> out = Ret (pol df (Rabs (sv r)) b)) /\
  (~ (mn <= b < mx) ->
     ((exists w, out = Ret w) <-> - int64_bound <= q < int64_bound) /\
     (out = Throws <-> (q < - int64_bound \/ int64_bound < q)) /\
     (out = Undef <-> q = int64_bound)).
Proof.
  intros H1 H2 b q out. unfold out. rewrite singleton_wrap by (destruct df; reflexivity). cbn [wrap1].
  rewrite pget_pol. unfold polar_wrap. fold b.
  destruct (wrap_phi_mod_cases mn mx H1 H2 b) as [A B]. rewrite intmax_eq in B.
  split; [intros H; rewrite (A H); cbn; rewrite pput_pol; reflexivity|].
  intros H. destruct (B H) as [B1 [B2 B3]]. fold (turns mn mx b) in B1, B2, B3. fold q in B1, B2, B3.
  split; [|split].
  - rewrite B1. split.
    + intros [w E]. apply bind_ret in E as [x [E _]]. apply bind_ret in E as [x' [E _]]. eauto.
    + intros [w E]. rewrite E. cbn. eauto.
  - rewrite B2. split; destruct (wrap_phi_mod mn mx b); cbn; congruence.
  - rewrite B3. split; destruct (wrap_phi_mod mn mx b); cbn; congruence.
Qed.

Lemma spherical_returns_pf o mn mx down r i a : mn <= 0 -> 0 < mx -> 0 < down ->
  Rabs (sv i / (down * 2)) < int64_bound -> Rabs (turns mn mx (sv a)) + 1 < int64_bound ->
  exists w, wrap [Spher o mn mx down] (sph o r i a) = Ret w.
Proof.
  intros V1 V2 V3 Hi Ha. rewrite singleton_wrap by (destruct o; reflexivity). cbn [wrap1]. rewrite sget_sph.
  unfold spher_wrap. rewrite <- intmax_eq in *.
  destruct (fmod_returns i (down * 2)) as [m ->]; [lra| |].
  { apply Rabs_def2 in Hi. lra. }
  cbn [bind]. set (fl := xorb _ _). unfold spher_wrap_phi.
  destruct (fmod_returns (pos ((if fl then sv a + (mx - mn) * (1 / 2) else sv a) - mn)) (mx - mn)) as [m' ->]; [lra| |].
  { cbn [pos sv]. unfold turns in Ha. assert (X := Rabs_def2 ((sv a - mn) / (mx - mn)) (intmax_bound - 1) ltac:(lra)).
    destruct fl; [|lra]. replace ((sv a + (mx - mn) * (1 / 2) - mn) / (mx - mn)) with ((sv a - mn) / (mx - mn) + 1 / 2) by (field; lra).
    lra. }
  cbn [bind]. eauto.
Qed.
