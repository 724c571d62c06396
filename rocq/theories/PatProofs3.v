From Coq Require Import Reals List ZArith Lra Lia Bool.
From Verif Require Import PatModel PatSpec PatProofs PatProofs2.
Import ListNotations.
Local Open Scope R_scope.

(** ** Outcome plumbing *)

Lemma bind_ret {A B} (m : res A) (f : A -> res B) b :
  bind m f = Ret b <-> exists a, m = Ret a /\ f a = Ret b.
Proof.
  split.
  - destruct m as [a| | |]; cbn; try discriminate. eauto.
  - intros [a [-> H]]. exact H.
Qed.

Lemma generate_get {A} (v pre : list A) :
  generate (fun i => get_element (pre ++ v) (length pre + i)) (length v) = Ret v.
Proof.
  revert pre. induction v as [|x v IH]; intros pre; cbn [generate length]; [reflexivity|].
  unfold get_element at 1. rewrite Nat.add_0_r, nth_error_app2, Nat.sub_diag by lia. cbn [nth_error bind].
  specialize (IH (pre ++ [x])). rewrite <- app_assoc, app_length in IH. cbn [app length] in IH.
  replace (generate (fun i => get_element (pre ++ x :: v) (length pre + S i)) (length v))
    with (generate (fun i => get_element (pre ++ x :: v) (length pre + 1 + i)) (length v)).
  - rewrite IH. reflexivity.
  - assert (X : forall n (f g : nat -> res A), (forall i, f i = g i) -> generate f n = generate g n).
    { clear. induction n as [|n IH]; intros f g H; cbn [generate]; [reflexivity|].
      rewrite H. destruct (g O); cbn [bind]; try reflexivity. rewrite (IH _ (fun i => g (S i))); auto. }
    apply X. intros i. f_equal. lia.
Qed.

Lemma generate_get0 {A} (v : list A) : generate (get_element v) (length v) = Ret v.
Proof. exact (generate_get v []). Qed.

Lemma generate_map {A B} (f : A -> B) (v : list A) :
  generate (fun i => bind (get_element v i) (fun x => Ret (f x))) (length v) = Ret (map f v).
Proof.
  assert (X : forall n (g h : nat -> res B), (forall i, g i = h i) -> generate g n = generate h n).
  { clear. induction n as [|n IH]; intros g h H; cbn [generate]; [reflexivity|].
    rewrite H. destruct (h O); cbn [bind]; try reflexivity. rewrite (IH _ (fun i => h (S i))); auto. }
  rewrite <- (generate_get0 (map f v)), map_length. apply X. intros i. unfold get_element.
  rewrite nth_error_map. destruct (nth_error v i); reflexivity.
Qed.

(** ** Lengths *)

Lemma euclid_dims d : is_euclid d = true -> stat_dim d = dim d.
Proof. induction d; cbn; try discriminate; auto. Qed.

Lemma pget_some {A} df (v : list A) p : pget df v = Some p -> length v = 2%nat /\ v = pol df (fst p) (snd p).
Proof.
  unfold pget. destruct v as [|x [|y [|]]]; try discriminate. intros [= <-]. split; [reflexivity|].
  destruct df; reflexivity.
Qed.

Lemma sget_some {A} o (v : list A) d i a : sget o v = Some (d, i, a) -> length v = 3%nat /\ v = sph o d i a.
Proof.
  unfold sget. destruct v as [|x [|y [|z [|]]]]; try discriminate. intros [= H]. split; [reflexivity|].
  destruct o; injection H as <- <- <-; reflexivity.
Qed.

Lemma pget_pol {A} df (r a : A) : pget df (pol df r a) = Some (r, a).
Proof. destruct df; reflexivity. Qed.
Lemma pput_pol {A} df (r a : A) : pput df r a = pol df r a.
Proof. destruct df; reflexivity. Qed.
Lemma sget_sph {A} o (r i a : A) : sget o (sph o r i a) = Some (r, i, a).
Proof. destruct o; reflexivity. Qed.
Lemma sput_sph {A} o (r i a : A) : sput o r i a = sph o r i a.
Proof. destruct o; reflexivity. Qed.
Lemma pget_len {A} df (v : list A) : length v = 2%nat -> exists r a, v = pol df r a.
Proof. destruct v as [|x [|y [|]]]; try discriminate. intros _. destruct df; [exists x, y|exists y, x]; reflexivity. Qed.
Lemma sget_len {A} o (v : list A) : length v = 3%nat -> exists r i a, v = sph o r i a.
Proof.
  destruct v as [|x [|y [|z [|]]]]; try discriminate. intros _.
  destruct o; [exists x,y,z|exists x,z,y|exists y,x,z|exists y,z,x|exists z,x,y|exists z,y,x]; reflexivity.
Qed.
Lemma map_pol {A B} (f : A -> B) df r a : map f (pol df r a) = pol df (f r) (f a).
Proof. destruct df; reflexivity. Qed.
Lemma map_sph {A B} (f : A -> B) o r i a : map f (sph o r i a) = sph o (f r) (f i) (f a).
Proof. destruct o; reflexivity. Qed.
Lemma pol_inj {A} df (r a r' a' : A) : pol df r a = pol df r' a' -> r = r' /\ a = a'.
Proof. destruct df; intros [= -> ->]; auto. Qed.
Lemma sph_inj {A} o (r i a r' i' a' : A) : sph o r i a = sph o r' i' a' -> r = r' /\ i = i' /\ a = a'.
Proof. destruct o; intros [= -> -> ->]; auto. Qed.

Lemma len1 {A} (v : list A) : length v = 1%nat -> exists x, v = [x].
Proof. destruct v as [|x [|]]; try discriminate. eauto. Qed.
Lemma len2 {A} (v : list A) : length v = 2%nat -> exists x y, v = [x; y].
Proof. destruct v as [|x [|y [|]]]; try discriminate. eauto. Qed.
Lemma len3 {A} (v : list A) : length v = 3%nat -> exists x y z, v = [x; y; z].
Proof. destruct v as [|x [|y [|z [|]]]]; try discriminate. eauto. Qed.
Lemma len4 {A} (v : list A) : length v = 4%nat -> exists x y z w, v = [x; y; z; w].
Proof. destruct v as [|x [|y [|z [|w [|]]]]]; try discriminate. eauto. Qed.

(** Type erasure is transparent (Any.hpp), for a call returning as many values as declared. *)
Lemma any_call_eq e f n m v :
  length v = n -> (e = true -> m = n /\ f v = Ret (map sv v)) -> (forall o, f v = Ret o -> length o = m) ->
  any_call e f n m v = f v.
Proof.
  intros Hn He Hl. unfold any_call. destruct e.
  - destruct (He eq_refl) as [-> ->]. rewrite <- Hn. apply generate_map.
  - rewrite <- Hn at 1. rewrite generate_get0. cbn [bind].
    destruct (f v) as [o| | |] eqn:E; cbn [bind]; try reflexivity.
    rewrite <- (Hl o eq_refl). apply generate_get0.
Qed.

Lemma to_stat1_euclid d v : is_euclid d = true -> length v = dim d -> to_stat1 d v = Ret (map sv v).
Proof.
  revert v; induction d; cbn [is_euclid dim to_stat1]; intros v He Hl; try discriminate.
  - rewrite Hl, Nat.eqb_refl. reflexivity.
  - unfold any_call. rewrite He, euclid_dims, <- Hl by exact He. apply generate_map.
Qed.

Lemma from_stat1_euclid fast d v : is_euclid d = true -> length v = dim d -> from_stat1 fast d v = Ret (map sv v).
Proof.
  revert v; induction d; cbn [is_euclid dim from_stat1]; intros v He Hl; try discriminate.
  - rewrite Hl, Nat.eqb_refl. reflexivity.
  - unfold any_call. rewrite He, <- Hl. apply generate_map.
Qed.

Lemma wrap1_euclid d v : is_euclid d = true -> length v = dim d -> wrap1 d v = Ret (map sv v).
Proof.
  revert v; induction d; cbn [is_euclid dim wrap1]; intros v He Hl; try discriminate.
  - rewrite Hl, Nat.eqb_refl. reflexivity.
  - unfold any_call. rewrite He, <- Hl. apply generate_map.
Qed.

Lemma generate_length {A} (g : nat -> res A) n o : generate g n = Ret o -> length o = n.
Proof.
  revert g o; induction n as [|n IH]; cbn [generate]; intros g o H.
  - injection H as <-. reflexivity.
  - apply bind_ret in H as [x [_ H]]. apply bind_ret in H as [l [E H]]. injection H as <-. cbn. f_equal. eauto.
Qed.

Lemma any_call_length e f n m v o : any_call e f n m v = Ret o -> length o = m.
Proof.
  unfold any_call. destruct e; intros H.
  - eapply generate_length; eassumption.
  - apply bind_ret in H as [d [_ H]]. apply bind_ret in H as [o' [_ H]]. eapply generate_length; eassumption.
Qed.

Lemma to_stat1_length d v s : to_stat1 d v = Ret s -> length s = stat_dim d.
Proof.
  destruct d; cbn [to_stat1 stat_dim].
  - destruct (Nat.eqb_spec (length v) n); [|discriminate]. intros [= <-]. rewrite map_length. assumption.
  - destruct v as [|x [|]]; try discriminate. intros [= <-]. reflexivity.
  - destruct v as [|x [|]]; try discriminate. intros [= <-]. reflexivity.
  - destruct v as [|x [|]]; try discriminate. intros [= <-]. reflexivity.
  - destruct (pget dfirst v) as [[? ?]|]; [|discriminate]. unfold polar_to.
    destruct dfirst; intros [= <-]; reflexivity.
  - destruct (sget o v) as [[[? ?] ?]|]; [|discriminate]. intros [= <-]. reflexivity.
  - apply any_call_length.
Qed.

Lemma from_stat1_length fast d v s : from_stat1 fast d v = Ret s -> length s = dim d.
Proof.
  destruct d; cbn [from_stat1 dim].
  - destruct (Nat.eqb_spec (length v) n); [|discriminate]. intros [= <-]. rewrite map_length. assumption.
  - destruct v as [|x [|]]; try discriminate. intros [= <-]. reflexivity.
  - destruct v as [|x [|y [|]]]; try discriminate. intros [= <-]. reflexivity.
  - destruct v as [|x [|y [|]]]; try discriminate. intros [= <-]. reflexivity.
  - destruct v as [|x [|y [|z [|]]]]; try discriminate. destruct dfirst; intros [= <-]; reflexivity.
  - destruct v as [|x [|y [|z [|w [|]]]]]; try discriminate.
    destruct (spher_from mn mx down x y z w) as [[? ?] ?]. intros [= <-]. destruct o; reflexivity.
  - apply any_call_length.
Qed.

Lemma wrap1_length d v s : wrap1 d v = Ret s -> length s = dim d.
Proof.
  destruct d; cbn [wrap1 dim].
  - destruct (Nat.eqb_spec (length v) n); [|discriminate]. intros [= <-]. rewrite map_length. assumption.
  - destruct v as [|x [|]]; try discriminate. intros [= <-]. reflexivity.
  - destruct v as [|x [|]]; try discriminate. intros H. apply bind_ret in H as [w [_ H]]. injection H as <-. reflexivity.
  - destruct v as [|x [|]]; try discriminate. intros H. apply bind_ret in H as [w [_ H]]. injection H as <-. reflexivity.
  - destruct (pget dfirst v) as [[? ?]|]; [|discriminate]. intros H. apply bind_ret in H as [w [_ H]].
    injection H as <-. destruct dfirst; reflexivity.
  - destruct (sget o v) as [[[? ?] ?]|]; [|discriminate]. intros H. apply bind_ret in H as [[[? ?] ?] [_ H]].
    injection H as <-. destruct o; reflexivity.
  - apply any_call_length.
Qed.

Lemma to_stat1_any d v : length v = dim d -> to_stat1 (AnyD d) v = to_stat1 d v.
Proof.
  intros Hl. cbn [to_stat1]. apply any_call_eq; [exact Hl| |apply to_stat1_length].
  intros He. split; [apply euclid_dims, He|apply to_stat1_euclid; assumption].
Qed.

Lemma from_stat1_any fast d v : length v = stat_dim d -> from_stat1 fast (AnyD d) v = from_stat1 fast d v.
Proof.
  intros Hl. cbn [from_stat1]. apply any_call_eq; [exact Hl| |apply from_stat1_length].
  intros He. split; [symmetry; apply euclid_dims, He|apply from_stat1_euclid; [exact He|]].
  rewrite Hl. apply euclid_dims, He.
Qed.

Lemma wrap1_any d v : length v = dim d -> wrap1 (AnyD d) v = wrap1 d v.
Proof.
  intros Hl. cbn [wrap1]. apply any_call_eq; [exact Hl| |apply wrap1_length].
  intros He. split; [reflexivity|apply wrap1_euclid; assumption].
Qed.

(** ** One descriptor *)

Lemma wrap1_range d v w : valid d -> length v = dim d -> wrap1 d v = Ret w -> in_range1 d w.
Proof.
  revert v w; induction d; intros v w HV HL H.
  7: { rewrite wrap1_any in H by exact HL. cbn in *. eauto. }
  all: cbn [valid dim wrap1 in_range1] in *.
  - rewrite HL, Nat.eqb_refl in H. injection H as <-. rewrite map_length. exact HL.
  - destruct (len1 _ HL) as [x ->]. injection H as <-. eexists; split; [reflexivity|]. apply Rabs_pos.
  - destruct (len1 _ HL) as [x ->]. apply bind_ret in H as [a [E H]]. injection H as <-.
    exists a. split; [reflexivity|]. apply (wrap_phi_mod_spec mn mx (proj1 HV) (proj2 HV) _ _ E).
  - destruct (len1 _ HL) as [x ->]. apply bind_ret in H as [a [E H]]. injection H as <-.
    exists a. split; [reflexivity|]. apply (incl_wrap_spec down HV _ _ E).
  - destruct (pget_len dfirst _ HL) as [r [a ->]]. rewrite pget_pol in H.
    apply bind_ret in H as [[r' a'] [E H]]. injection H as <-. cbn [fst snd]. rewrite pput_pol.
    exists r', a'. split; [reflexivity|]. unfold polar_wrap in E. apply bind_ret in E as [p [E E']].
    injection E' as <- <-. split; [apply Rabs_pos|]. apply (wrap_phi_mod_spec mn mx (proj1 HV) (proj2 HV) _ _ E).
  - destruct (sget_len o _ HL) as [r [i [a ->]]]. rewrite sget_sph in H.
    apply bind_ret in H as [[[r' i'] a'] [E H]]. injection H as <-. rewrite sput_sph.
    exists r', i', a'. split; [reflexivity|]. destruct HV as [V1 [V2 V3]].
    destruct (spher_wrap_spec mn mx down V1 V2 V3 _ _ _ _ _ _ E) as [-> [B [C _]]].
    split; [apply Rabs_pos|]. split; assumption.
Qed.

Lemma wrap1_fix d w : valid d -> in_range1 d w -> wrap1 d (map pos w) = Ret w.
Proof.
  assert (M : forall w, map sv (map pos w) = w).
  { intros w0. rewrite map_map. cbn. apply map_id. }
  revert w; induction d; intros w HV H.
  7: { cbn [valid in_range1] in *. specialize (IHd w HV H).
       rewrite wrap1_any; [exact IHd|]. rewrite map_length.
       destruct (wrap1 d (map pos w)) eqn:E; try discriminate. injection IHd as ->.
       apply wrap1_length in E. exact E. }
  all: cbn [valid in_range1 wrap1] in *.
  - rewrite map_length, H, Nat.eqb_refl, M. reflexivity.
  - destruct H as [r [-> Hr]]. cbn. rewrite Rabs_pos_eq by exact Hr. reflexivity.
  - destruct H as [a [-> Ha]]. cbn. rewrite wrap_phi_mod_id by assumption. reflexivity.
  - destruct H as [a [-> Ha]]. cbn. rewrite incl_wrap_id by assumption. reflexivity.
  - destruct H as [r [a [-> [Hr Ha]]]]. rewrite map_pol, pget_pol. unfold polar_wrap.
    rewrite signbit_posR by exact Hr. cbn [pos sv]. rewrite wrap_phi_mod_id by assumption. cbn [bind fst snd].
    rewrite pput_pol, Rabs_pos_eq by exact Hr. reflexivity.
  - destruct H as [r [i [a [-> [Hr [Hi Ha]]]]]]. rewrite map_sph, sget_sph.
    destruct HV as [V1 [V2 V3]]. rewrite (spher_wrap_id mn mx down V1 V2 V3) by assumption.
    cbn [bind]. rewrite sput_sph. reflexivity.
Qed.

Lemma to_stat1_defined d v : length v = dim d -> exists s, to_stat1 d v = Ret s.
Proof.
  revert v; induction d; intros v HL.
  7: { rewrite to_stat1_any by exact HL. cbn in HL. eauto. }
  all: cbn [dim to_stat1] in *.
  - rewrite HL, Nat.eqb_refl. eauto.
  - destruct (len1 _ HL) as [x ->]. eauto.
  - destruct (len1 _ HL) as [x ->]. eauto.
  - destruct (len1 _ HL) as [x ->]. eauto.
  - destruct (pget_len dfirst _ HL) as [r [a ->]]. rewrite pget_pol. unfold polar_to. eauto.
  - destruct (sget_len o _ HL) as [r [i [a ->]]]. rewrite sget_sph. eauto.
Qed.

Lemma from_stat1_defined fast d v : length v = stat_dim d -> exists s, from_stat1 fast d v = Ret s.
Proof.
  revert v; induction d; intros v HL.
  7: { rewrite from_stat1_any by exact HL. cbn in HL. eauto. }
  all: cbn [stat_dim from_stat1] in *.
  - rewrite HL, Nat.eqb_refl. eauto.
  - destruct (len1 _ HL) as [x ->]. eauto.
  - destruct (len2 _ HL) as [x [y ->]]. eauto.
  - destruct (len2 _ HL) as [x [y ->]]. eauto.
  - destruct (len3 _ HL) as [x [y [z ->]]]. destruct dfirst; eauto.
  - destruct (len4 _ HL) as [x [y [z [t ->]]]]. destruct (spher_from _ _ _ _ _ _ _) as [[? ?] ?]. eauto.
Qed.

Lemma wrap1_same_point d v w : valid d -> length v = dim d -> wrap1 d v = Ret w ->
  to_stat1 d (map pos w) = to_stat1 d v.
Proof.
  assert (M : forall w, map sv (map pos w) = w).
  { intros w0. rewrite map_map. cbn. apply map_id. }
  revert v w; induction d; intros v w HV HL H.
  7: { rewrite wrap1_any in H by exact HL. cbn [valid dim] in *.
       rewrite !to_stat1_any; [eauto|exact HL|]. rewrite map_length. apply (wrap1_length _ _ _ H). }
  all: cbn [valid dim wrap1 to_stat1] in *.
  - rewrite HL, Nat.eqb_refl in *. injection H as <-. rewrite !map_length, HL, Nat.eqb_refl, M. reflexivity.
  - destruct (len1 _ HL) as [x ->]. injection H as <-. cbn. rewrite Rabs_Rabsolu. reflexivity.
  - destruct (len1 _ HL) as [x ->]. apply bind_ret in H as [a [E H]]. injection H as <-. cbn.
    destruct (wrap_phi_mod_spec mn mx (proj1 HV) (proj2 HV) _ _ E) as [_ [k ->]].
    rewrite ang_scale_shift, cos_periodZ, sin_periodZ by tauto. reflexivity.
  - destruct (len1 _ HL) as [x ->]. apply bind_ret in H as [a [E H]]. injection H as <-. cbn.
    destruct (incl_wrap_stat down HV _ _ E) as [-> ->]. reflexivity.
  - destruct (pget_len dfirst _ HL) as [r [a ->]]. rewrite pget_pol in *.
    apply bind_ret in H as [[r' a'] [E H]]. injection H as <-. cbn [fst snd]. rewrite pput_pol, map_pol, pget_pol.
    unfold polar_wrap in E. apply bind_ret in E as [p [E E']]. injection E' as <- <-.
    unfold polar_to. cbn [pos sv]. rewrite signbit_posR, Rabs_Rabsolu by apply Rabs_pos.
    destruct (wrap_phi_mod_spec mn mx (proj1 HV) (proj2 HV) _ _ E) as [_ [k ->]].
    rewrite ang_scale_shift, cos_periodZ, sin_periodZ by tauto.
    destruct (signbit r).
    + rewrite ang_scale_half, neg_cos, neg_sin by tauto.
      replace (1 * - cos (ang_scale mn mx (sv a))) with (-1 * cos (ang_scale mn mx (sv a))) by ring.
      replace (1 * - sin (ang_scale mn mx (sv a))) with (-1 * sin (ang_scale mn mx (sv a))) by ring.
      reflexivity.
    + reflexivity.
  - destruct (sget_len o _ HL) as [r [i [a ->]]]. rewrite sget_sph in *.
    apply bind_ret in H as [[[r' i'] a'] [E H]]. injection H as <-. rewrite sput_sph, map_sph, sget_sph.
    destruct HV as [V1 [V2 V3]].
    destruct (spher_wrap_spec mn mx down V1 V2 V3 _ _ _ _ _ _ E) as [-> [B [C [X [Y Z]]]]].
    unfold spher_to. cbn [pos sv]. rewrite signbit_posR by apply Rabs_pos.
    rewrite X, Y, Z, flip_d_abs. rewrite !Rmult_1_l. reflexivity.
Qed.

(** No fast path: no scalar type for which the limits equal the rounded pi, or limits other than +-pi. *)
Fixpoint no_fast (fast : bool) (d : desc) : Prop :=
  match d with
  | Ang mn mx => unscaled fast mn mx = false
  | Polar _ mn mx => unscaled fast mn mx = false
  | AnyD d => no_fast fast d
  | _ => True
  end.

Lemma from_stat1_range fast d s v : valid d -> no_fast fast d -> length s = stat_dim d ->
  on_manifold1 d (map sv s) \/ (exists t, normalised1 d (map sv s) t) -> from_stat1 fast d s = Ret v -> in_range1 d v.
Proof.
  revert s v; induction d; intros s v HV HF HL HM H.
  7: { rewrite from_stat1_any in H by exact HL. cbn in *. eauto. }
  all: cbn [valid no_fast stat_dim from_stat1 in_range1 on_manifold1 normalised1] in *.
  - rewrite HL, Nat.eqb_refl in H. injection H as <-. rewrite map_length. exact HL.
  - destruct (len1 _ HL) as [x ->]. injection H as <-. exists (sv x). split; [reflexivity|].
    destruct HM as [[r [[= ->] Hr]]|[t [r [Hr [[= ->] _]]]]]; exact Hr.
  - destruct (len2 _ HL) as [x [y ->]]. injection H as <-. eexists; split; [reflexivity|].
    apply ang_from_spec; tauto.
  - destruct (len2 _ HL) as [x [y ->]]. injection H as <-. eexists; split; [reflexivity|].
    apply incl_from_range, HV.
  - destruct (len3 _ HL) as [x [y [z ->]]].
    destruct dfirst; injection H as <-.
    + exists (sv x). eexists; split; [reflexivity|]. split; [|apply ang_from_spec; tauto].
      destruct HM as [[r [? [? [[= -> _ _] [Hr _]]]]]|[t [r [? [? [? [_ [Hr [_ [[= -> _ _] _]]]]]]]]]]; exact Hr.
    + exists (sv z). eexists; split; [reflexivity|]. split; [|apply ang_from_spec; tauto].
      destruct HM as [[r [? [? [[= _ _ ->] [Hr _]]]]]|[t [r [? [? [? [_ [Hr [_ [[= _ _ ->] _]]]]]]]]]]; exact Hr.
  - destruct (len4 _ HL) as [x [y [z [t ->]]]].
    destruct (spher_from mn mx down x y z t) as [[r i] a] eqn:E. injection H as <-. rewrite sput_sph.
    exists r, i, a. split; [reflexivity|]. destruct HV as [V1 [V2 V3]].
    destruct (spher_from_range mn mx down V1 V2 V3 _ _ _ _ _ _ _ E) as [-> [B C]].
    split; [|split; assumption].
    destruct HM as [[q [? [? [? [[= -> _ _ _] [Hr _]]]]]]|[u [q [? [? [? [? [_ [Hr [_ [[= -> _ _ _] _]]]]]]]]]]]; exact Hr.
Qed.

Lemma to_stat1_manifold d v s : length v = dim d -> to_stat1 d v = Ret s -> on_manifold1 d s.
Proof.
  revert v s; induction d; intros v s HL H.
  7: { rewrite to_stat1_any in H by exact HL. cbn in *. eauto. }
  all: cbn [dim to_stat1 on_manifold1] in *.
  - rewrite HL, Nat.eqb_refl in H. injection H as <-. rewrite map_length. exact HL.
  - destruct (len1 _ HL) as [x ->]. injection H as <-. eexists; split; [reflexivity|]. apply Rabs_pos.
  - destruct (len1 _ HL) as [x ->]. injection H as <-. do 2 eexists; split; [reflexivity|]. apply cs1.
  - destruct (len1 _ HL) as [x ->]. injection H as <-. do 2 eexists; split; [reflexivity|].
    split; [|apply Rabs_pos]. rewrite <- Rabs_mult, (Rabs_pos_eq (_ * _)).
    + apply cs1.
    + apply Rle_0_sqr.
  - destruct (pget_len dfirst _ HL) as [r [a ->]]. rewrite pget_pol in H. unfold polar_to in H.
    injection H as <-. exists (Rabs (sv r)). do 2 eexists. split; [reflexivity|]. split; [apply Rabs_pos|].
    pose proof (cs1 (ang_scale mn mx (sv a))). destruct (signbit r); lra.
  - destruct (sget_len o _ HL) as [r [i [a ->]]]. rewrite sget_sph in H. injection H as <-.
    unfold spher_to. do 4 eexists. split; [reflexivity|]. rewrite flip_d_abs. split; [apply Rabs_pos|].
    pose proof (cs1 (ang_scale mn mx (sv a))) as A. pose proof (cs1 (incl_scale down (sv i))) as B.
    set (cp := cos (ang_scale mn mx (sv a))) in *. set (sp := sin (ang_scale mn mx (sv a))) in *.
    set (ct := cos (incl_scale down (sv i))) in *. set (st := sin (incl_scale down (sv i))) in *.
    destruct (signbit r);
    [replace (-1 * (st * cp) * (-1 * (st * cp)) + -1 * (st * sp) * (-1 * (st * sp)) + -1 * ct * (-1 * ct))
       with (st * st * (cp * cp + sp * sp) + ct * ct) by ring
    |replace (1 * (st * cp) * (1 * (st * cp)) + 1 * (st * sp) * (1 * (st * sp)) + 1 * ct * (1 * ct))
       with (st * st * (cp * cp + sp * sp) + ct * ct) by ring];
    rewrite A; lra.
Qed.

Lemma from_to_stat1 fast d s t v : valid d -> length s = stat_dim d ->
  normalised1 d (map sv s) t -> from_stat1 fast d s = Ret v -> to_stat1 d (map pos v) = Ret t.
Proof.
  assert (M : forall w, map sv (map pos w) = w).
  { intros w0. rewrite map_map. cbn. apply map_id. }
  revert s t v; induction d; intros s t v HV HL HM H.
  7: { rewrite from_stat1_any in H by exact HL. cbn [valid stat_dim normalised1] in *.
       rewrite to_stat1_any; [eauto|]. rewrite map_length. apply (from_stat1_length _ _ _ _ H). }
  all: cbn [valid stat_dim from_stat1 normalised1 to_stat1] in *.
  - rewrite HL, Nat.eqb_refl in H. injection H as <-. destruct HM as [_ ->].
    rewrite !map_length, HL, Nat.eqb_refl, M. reflexivity.
  - destruct (len1 _ HL) as [x ->]. injection H as <-. destruct HM as [r [Hr [[= E] ->]]]. cbn.
    rewrite Rabs_pos_eq, E by lra. reflexivity.
  - destruct (len2 _ HL) as [x [y ->]]. injection H as <-. destruct HM as [c [sn [k [Hk [[= Ex Ey] [-> H1]]]]]].
    cbn. destruct (ang_from_to mn mx (proj1 HV) (proj2 HV) fast k c sn x y) as [-> ->]; try assumption. reflexivity.
  - destruct (len2 _ HL) as [x [y ->]]. injection H as <-. destruct HM as [c [sn [k [Hk [Hs [[= Ex Ey] [-> H1]]]]]]].
    cbn. destruct (incl_from_to down HV k c sn x y) as [-> ->]; try assumption. reflexivity.
  - destruct HM as [r [c [sn [k [Hk [Hr [H1 [ES ->]]]]]]]].
    destruct (len3 _ HL) as [x [y [z ->]]].
    destruct dfirst; injection H as <-; injection ES as E1 E2 E3; unfold polar_to, pput; cbn [map pget pos sv].
    + rewrite signbit_posR, Rabs_pos_eq, E1 by lra.
      destruct (ang_from_to mn mx (proj1 HV) (proj2 HV) fast k c sn y z) as [-> ->]; try assumption.
      rewrite !Rmult_1_l. reflexivity.
    + rewrite signbit_posR, Rabs_pos_eq, E3 by lra.
      destruct (ang_from_to mn mx (proj1 HV) (proj2 HV) fast k c sn x y) as [-> ->]; try assumption.
      rewrite !Rmult_1_l. reflexivity.
  - destruct HM as [r [cx [cy [cz [k [Hk [Hr [H1 [ES ->]]]]]]]]].
    destruct (len4 _ HL) as [d [x [y [z ->]]]]. injection ES as E1 E2 E3 E4.
    destruct (spher_from mn mx down d x y z) as [[r' i] a] eqn:E. injection H as <-.
    rewrite sput_sph, map_sph, sget_sph. destruct HV as [V1 [V2 V3]].
    destruct (spher_from_range mn mx down V1 V2 V3 _ _ _ _ _ _ _ E) as [-> [B C]].
    destruct (spher_from_to mn mx down V1 V2 V3 k cx cy cz d x y z _ _ _ Hk H1 E2 E3 E4 E) as [X [Y Z]].
    unfold spher_to; cbn [pos sv]. rewrite signbit_posR by lra. rewrite X, Y, Z, !Rmult_1_l, E1. reflexivity.
Qed.

Lemma manifold_normalised d s : on_manifold1 d s -> normalised1 d s s.
Proof.
  revert s; induction d; intros s; cbn [on_manifold1 normalised1]; try exact (IHd s).
  - auto.
  - intros [r [-> H]]. eauto.
  - intros [x [y [-> H]]]. exists x, y, 1. rewrite !Rmult_1_l. repeat split; try lra.
  - intros [x [y [-> [H H']]]]. exists x, y, 1. rewrite !Rmult_1_l. repeat split; try lra.
  - intros [r [x [y [-> [H H']]]]]. exists r, x, y, 1. rewrite !Rmult_1_l. repeat split; try lra.
  - intros [r [x [y [z [-> [H H']]]]]]. exists r, x, y, z, 1. rewrite !Rmult_1_l. repeat split; try lra.
Qed.

Lemma same_coord1_refl d v : same_coord1 d v v.
Proof. induction d; cbn; auto. Qed.

(** Two in-range coordinates with the same stat vector coincide (up to the azimuth at a pole). *)
Lemma in_range1_unique d v w s : valid d -> in_range1 d v -> in_range1 d w ->
  to_stat1 d (map pos v) = Ret s -> to_stat1 d (map pos w) = Ret s -> same_coord1 d v w.
Proof.
  assert (M : forall w, map sv (map pos w) = w).
  { intros w0. rewrite map_map. cbn. apply map_id. }
  assert (LR : forall d w, in_range1 d w -> length w = dim d).
  { clear. induction d; cbn; intros w H; auto.
    - destruct H as [? [-> _]]; reflexivity.
    - destruct H as [? [-> _]]; reflexivity.
    - destruct H as [? [-> _]]; reflexivity.
    - destruct H as [? [? [-> _]]]; destruct dfirst; reflexivity.
    - destruct H as [? [? [? [-> _]]]]; destruct o; reflexivity. }
  revert v w s; induction d; intros v w s HV H1 H2 E1 E2.
  7: { cbn [valid in_range1 same_coord1] in *.
       rewrite to_stat1_any in E1 by (rewrite map_length; auto).
       rewrite to_stat1_any in E2 by (rewrite map_length; auto). eauto. }
  all: cbn [valid in_range1 same_coord1 to_stat1] in *.
  - rewrite map_length, H1, Nat.eqb_refl, M in E1. rewrite map_length, H2, Nat.eqb_refl, M in E2. congruence.
  - destruct H1 as [r [-> Hr]]. destruct H2 as [r' [-> Hr']]. cbn in E1, E2.
    rewrite Rabs_pos_eq in E1, E2 by assumption. congruence.
  - destruct H1 as [a [-> Ha]]. destruct H2 as [b [-> Hb]]. cbn in E1, E2.
    injection E1 as <-. injection E2 as X Y. f_equal. symmetry.
    apply (ang_unique mn mx); try tauto.
  - destruct H1 as [a [-> Ha]]. destruct H2 as [b [-> Hb]]. cbn in E1, E2.
    injection E1 as <-. injection E2 as X Y. f_equal. symmetry. apply (incl_unique down HV); assumption.
  - destruct H1 as [r [a [-> [Hr Ha]]]]. destruct H2 as [r' [b [-> [Hr' Hb]]]].
    rewrite map_pol, pget_pol in E1, E2. unfold polar_to in E1, E2. cbn [pos sv] in E1, E2.
    rewrite signbit_posR, Rabs_pos_eq in E1, E2 by assumption. rewrite !Rmult_1_l in E1, E2.
    injection E1 as <-.
    assert (X : r' = r /\ cos (ang_scale mn mx b) = cos (ang_scale mn mx a) /\ sin (ang_scale mn mx b) = sin (ang_scale mn mx a)).
    { destruct dfirst; injection E2 as ? ? ?; auto. }
    destruct X as [-> [X Y]]. f_equal. symmetry. apply (ang_unique mn mx); tauto.
  - destruct H1 as [r [i [a [-> [Hr [Hi Ha]]]]]]. destruct H2 as [r' [i' [b [-> [Hr' [Hi' Hb]]]]]].
    rewrite map_sph, sget_sph in E1, E2. unfold spher_to in E1, E2. cbn [pos sv] in E1, E2.
    rewrite signbit_posR in E1, E2 by assumption. rewrite !Rmult_1_l in E1, E2.
    injection E1 as <-. injection E2 as -> X Y Z. destruct HV as [V1 [V2 V3]].
    destruct (spher_unique mn mx down V1 V2 V3 i a i' b) as [-> [->|P]]; try assumption; try (symmetry; assumption).
    + left. reflexivity.
    + right. exists r, i', a, b. auto.
Qed.

Lemma same_coord1_stat d v w s : valid d -> in_range1 d v -> in_range1 d w -> same_coord1 d v w ->
  to_stat1 d (map pos v) = Ret s -> to_stat1 d (map pos w) = Ret s.
Proof.
  intros HV H1 H2 HS E.
  assert (LR : forall d w, in_range1 d w -> length w = dim d).
  { clear. induction d; cbn; intros w H; auto.
    - destruct H as [? [-> _]]; reflexivity.
    - destruct H as [? [-> _]]; reflexivity.
    - destruct H as [? [-> _]]; reflexivity.
    - destruct H as [? [? [-> _]]]; destruct dfirst; reflexivity.
    - destruct H as [? [? [? [-> _]]]]; destruct o; reflexivity. }
  revert v w s HV H1 H2 HS E; induction d; intros v w s HV H1 H2 HS E; cbn [same_coord1] in HS; try (subst w; exact E).
  - destruct HS as [->|[r [i [a [a' [-> [-> P]]]]]]]; [exact E|].
    cbn [to_stat1] in *. rewrite map_sph, sget_sph in *. injection E as <-. unfold spher_to; cbn [pos sv].
    cbn in HV. destruct HV as [_ [_ Hd]].
    assert (S : sin (incl_scale down i) = 0).
    { unfold incl_scale. destruct P as [-> | ->].
      - rewrite Rmult_0_l. apply sin_0.
      - replace (down * (PI / down)) with PI by (field; lra). apply sin_PI. }
    rewrite S, !Rmult_0_l. reflexivity.
  - cbn [valid in_range1] in *. rewrite to_stat1_any in * by (rewrite map_length; auto). eauto.
Qed.

(** from_stat_space after to_stat_space *)
Lemma from_to1 fast d v w s s' : valid d -> no_fast fast d -> length v = dim d ->
  wrap1 d v = Ret w -> to_stat1 d v = Ret s -> map sv s' = s ->
  exists w', from_stat1 fast d s' = Ret w' /\ same_coord1 d w' w.
Proof.
  intros HV HF HL HW HS HE.
  assert (HLs : length s' = stat_dim d).
  { rewrite <- (map_length sv), HE. apply (to_stat1_length _ _ _ HS). }
  destruct (from_stat1_defined fast d s' HLs) as [w' Hw']. exists w'. split; [exact Hw'|].
  assert (HM : on_manifold1 d (map sv s')) by (rewrite HE; eapply to_stat1_manifold; eassumption).
  apply (in_range1_unique d w' w s); try assumption.
  - eapply from_stat1_range; eauto.
  - eapply wrap1_range; eassumption.
  - rewrite <- HE. eapply from_to_stat1; try eassumption. apply manifold_normalised, HM.
  - rewrite <- HS. apply wrap1_same_point; assumption.
Qed.

(** Encoding of the ordinary-space position. *)
Lemma to_stat1_encodes d v s : valid d -> length v = dim d -> to_stat1 d v = Ret s -> encodes1 d (map sv v) s.
Proof.
  revert v s; induction d; intros v s HV HL H.
  7: { rewrite to_stat1_any in H by exact HL. cbn in *. eauto. }
  all: cbn [valid dim to_stat1 encodes1] in *.
  - rewrite HL, Nat.eqb_refl in H. injection H as <-. reflexivity.
  - destruct (len1 _ HL) as [x ->]. injection H as <-. do 2 eexists; split; [reflexivity|]. split; [reflexivity|].
    split; [apply Rabs_pos|]. unfold Rabs. destruct (Rcase_abs (sv x)); auto.
  - destruct (len1 _ HL) as [x ->]. injection H as <-. eexists; split; [reflexivity|].
    replace (ang_scale mn mx (sv x)) with (turn mn mx (sv x)) by (unfold turn, ang_scale; field; lra). reflexivity.
  - destruct (len1 _ HL) as [x ->]. injection H as <-. do 3 eexists; split; [reflexivity|]. split; [reflexivity|].
    split; [apply Rabs_pos|].
    replace (incl_scale down (sv x)) with (tilt down (sv x)) by (unfold tilt, incl_scale; field; lra).
    split; [reflexivity|]. unfold Rabs. destruct (Rcase_abs _); auto.
  - destruct (pget_len dfirst _ HL) as [r [a ->]]. rewrite pget_pol in H. rewrite map_pol.
    pose proof (to_stat1_manifold (Polar dfirst mn mx) (pol dfirst r a) s) as HM.
    cbn [dim to_stat1 on_manifold1] in HM. rewrite pget_pol in HM.
    destruct (HM HL H) as [r' [x [y [ES [Hr' H1]]]]]. rewrite ES in *. clear HM.
    exists (sv r), (sv a), r', x, y. split; [reflexivity|]. split; [reflexivity|]. split; [exact Hr'|]. split; [exact H1|].
    unfold polar_to in H.
    replace (turn mn mx (sv a)) with (ang_scale mn mx (sv a)) by (unfold turn, ang_scale; field; lra).
    assert (X : r' = Rabs (sv r) /\ x = (if signbit r then -1 else 1) * cos (ang_scale mn mx (sv a)) /\
                y = (if signbit r then -1 else 1) * sin (ang_scale mn mx (sv a))).
    { destruct dfirst; injection H as ? ? ?; auto. }
    destruct X as [-> [-> ->]]. rewrite <- (flip_d_abs r). destruct (signbit r); split; ring.
  - destruct (sget_len o _ HL) as [r [i [a ->]]]. rewrite sget_sph in H. rewrite map_sph.
    pose proof (to_stat1_manifold (Spher o mn mx down) (sph o r i a) s) as HM.
    cbn [dim to_stat1 on_manifold1] in HM. rewrite sget_sph in HM.
    destruct (HM HL H) as [r' [x [y [z [ES [Hr' H1]]]]]]. rewrite ES in *. clear HM.
    exists (sv r), (sv i), (sv a), r', x, y, z. do 2 (split; [reflexivity|]). split; [exact Hr'|]. split; [exact H1|].
    unfold spher_to in H.
    replace (turn mn mx (sv a)) with (ang_scale mn mx (sv a)) by (unfold turn, ang_scale; field; lra).
    replace (tilt down (sv i)) with (incl_scale down (sv i)) by (unfold tilt, incl_scale; field; lra).
    injection H as <- <- <- <-. destruct (signbit r); repeat split; ring.
Qed.

(** ** Collections *)

Definition sizes (size : desc -> nat) (ds : list desc) : nat := fold_right (fun d a => (size d + a)%nat) 0%nat ds.

Lemma fold_left_sum (size : desc -> nat) ds a :
  fold_left (fun a d => (a + size d)%nat) ds a = (a + sizes size ds)%nat.
Proof.
  revert a; induction ds as [|d ds IH]; intros a; cbn [fold_left sizes fold_right]; [lia|].
  rewrite IH. unfold sizes. lia.
Qed.

Lemma get_dimension_sum ds : get_dimension ds = sizes dim ds.
Proof. unfold get_dimension. rewrite fold_left_sum. reflexivity. Qed.
Lemma get_stat_dimension_sum ds : get_stat_dimension ds = sizes stat_dim ds.
Proof. unfold get_stat_dimension. rewrite fold_left_sum. reflexivity. Qed.

Definition call (f : desc -> list sr -> res (list R)) (size : desc -> nat) (d : desc) (v : list sr) (w : list R) : Prop :=
  length v = size d /\ f d v = Ret w.

Lemma skipn_add {A} (v : list A) i n : skipn (i + n) v = skipn n (skipn i v).
Proof. revert v; induction i as [|i IH]; intros v; cbn; [reflexivity|]. destruct v; [rewrite skipn_nil; reflexivity|apply IH]. Qed.

Lemma traverse_fw f size ds v i out r :
  (i + sizes size ds <= length v)%nat ->
  traverse f size ds v i out = Ret r ->
  exists w, r = out ++ w /\ each2 (call f size) ds (firstn (sizes size ds) (skipn i v)) w.
Proof.
  revert i out; induction ds as [|d ds IH]; intros i out HL; cbn [traverse sizes fold_right].
  - intros [= <-]. exists []. rewrite app_nil_r. split; [reflexivity|constructor].
  - intros H. apply bind_ret in H as [s [Es H]]. apply bind_ret in H as [o [Eo H]].
    cbn [sizes fold_right] in HL. fold (sizes size ds) in *.
    destruct (IH (i + size d)%nat (out ++ o)) as [w [-> HE]]; [lia|exact H|].
    exists (o ++ w). rewrite app_assoc. split; [reflexivity|].
    unfold slice in Es. destruct (Nat.leb_spec (i + size d) (length v)); [|discriminate]. injection Es as <-.
    rewrite skipn_add in HE.
    replace (firstn (size d + sizes size ds) (skipn i v))
      with (firstn (size d) (skipn i v) ++ firstn (sizes size ds) (skipn (size d) (skipn i v))).
    + constructor; [|exact HE]. split; [|exact Eo]. rewrite firstn_length, skipn_length. lia.
    + symmetry. rewrite <- (firstn_skipn (size d) (skipn i v)) at 1.
      rewrite firstn_app, firstn_firstn, Nat.min_r by lia.
      f_equal. rewrite firstn_length, skipn_length, Nat.min_l by lia. f_equal. lia.
Qed.

Lemma traverse_bw f size ds pre v post w out :
  each2 (call f size) ds v w ->
  traverse f size ds (pre ++ v ++ post) (length pre) out = Ret (out ++ w).
Proof.
  intros H. revert pre post out. induction H as [|d ds v vs w ws [HL HF] HE IH]; intros pre post out; cbn [traverse].
  - rewrite app_nil_r. reflexivity.
  - unfold slice. rewrite !app_length, HL.
    destruct (Nat.leb_spec (length pre + size d) (length pre + (size d + length vs + length post))); [|lia].
    rewrite skipn_app, skipn_all, Nat.sub_diag. cbn [app skipn].
    rewrite <- !app_assoc, firstn_app, <- HL, firstn_all, Nat.sub_diag, firstn_O, app_nil_r. cbn [bind].
    rewrite HF. cbn [bind].
    specialize (IH (pre ++ v) post (out ++ w)). rewrite app_length, <- !app_assoc in IH. rewrite IH. reflexivity.
Qed.

Lemma each2_len f size ds v w : each2 (call f size) ds v w -> length v = sizes size ds.
Proof.
  induction 1 as [|d ds v vs w ws [HL HF] HE IH]; cbn [sizes fold_right length]; [reflexivity|].
  rewrite app_length, HL. fold (sizes size ds). lia.
Qed.

Lemma traverse_iff f size ds v w n : n = sizes size ds ->
  checked n v (traverse f size ds v 0 []) = Ret w <-> each2 (call f size) ds v w.
Proof.
  intros ->. unfold checked. split.
  - destruct (Nat.eqb_spec (length v) (sizes size ds)) as [E|]; [|discriminate]. intros H.
    assert (LE : (0 + sizes size ds <= length v)%nat) by lia.
    destruct (traverse_fw _ _ _ _ _ _ _ LE H) as [w' [-> HE]].
    cbn [app skipn] in HE |- *. rewrite <- E, firstn_all in HE. exact HE.
  - intros H. rewrite (each2_len _ _ _ _ _ H), Nat.eqb_refl.
    pose proof (traverse_bw f size ds [] v [] w [] H) as T. cbn [app length] in T. rewrite app_nil_r in T. exact T.
Qed.

Lemma wrap_iff ds v w : wrap ds v = Ret w <-> each2 (call wrap1 dim) ds v w.
Proof. apply traverse_iff, get_dimension_sum. Qed.
Lemma to_stat_iff ds v w : to_stat ds v = Ret w <-> each2 (call to_stat1 dim) ds v w.
Proof. apply traverse_iff, get_dimension_sum. Qed.
Lemma from_stat_iff fast ds v w : from_stat fast ds v = Ret w <-> each2 (call (from_stat1 fast) stat_dim) ds v w.
Proof. apply traverse_iff, get_stat_dimension_sum. Qed.

(** Lifting lemmas. *)
Lemma each2_each {A B} (P : desc -> list A -> list B -> Prop) (Q : desc -> list B -> Prop) ds v w :
  (forall d v w, In d ds -> P d v w -> Q d w) -> each2 P ds v w -> each Q ds w.
Proof.
  intros H E. induction E; constructor.
  - eapply H; [left; reflexivity|eassumption].
  - apply IHE. intros. eapply H; [right|]; eassumption.
Qed.

Lemma each2_each_l {A B} (P : desc -> list A -> list B -> Prop) (Q : desc -> list A -> Prop) ds v w :
  (forall d v w, In d ds -> P d v w -> Q d v) -> each2 P ds v w -> each Q ds v.
Proof.
  intros H E. induction E; constructor.
  - eapply H; [left; reflexivity|eassumption].
  - apply IHE. intros. eapply H; [right|]; eassumption.
Qed.

Lemma each2_map {A B C D} (P : desc -> list A -> list B -> Prop) (Q : desc -> list C -> list D -> Prop)
    (f : A -> C) (g : B -> D) ds v w :
  (forall d v w, In d ds -> P d v w -> Q d (map f v) (map g w)) ->
  each2 P ds v w -> each2 Q ds (map f v) (map g w).
Proof.
  intros H E. induction E; [constructor|]. rewrite !map_app. constructor.
  - apply H; [left; reflexivity|assumption].
  - apply IHE. intros. apply H; [right|]; assumption.
Qed.

Lemma app_inj_len {A} (a b c d : list A) : length a = length b -> a ++ c = b ++ d -> a = b /\ c = d.
Proof.
  revert b; induction a as [|x a IH]; intros [|y b]; cbn; intros L E; try discriminate; auto.
  injection E as -> E. destruct (IH b ltac:(lia) E) as [-> ->]. auto.
Qed.

(** Two relations over the same first vector, with the first one fixing block lengths. *)
Lemma each2_join {A B C} (P : desc -> list A -> list B -> Prop) (Q : desc -> list A -> list C -> Prop)
    (S : desc -> list B -> list C -> Prop) (size : desc -> nat) ds v w u :
  (forall d v w, P d v w -> length v = size d) -> (forall d v u, Q d v u -> length v = size d) ->
  (forall d v w u, In d ds -> P d v w -> Q d v u -> S d w u) ->
  each2 P ds v w -> each2 Q ds v u -> each2 S ds w u.
Proof.
  intros HP HQ H E. revert u. induction E as [|d ds v vs w ws p E IH]; intros u EQ.
  - inversion EQ; subst. constructor.
  - inversion EQ as [|d' ds' v' vs' u' us' q EQ' Ed Ev Eu]; subst.
    assert (v' = v /\ vs' = vs) as [-> ->].
    { pose proof (HP _ _ _ p) as L1. pose proof (HQ _ _ _ q) as L2.
      assert (L : length v' = length v) by congruence.
      exact (app_inj_len _ _ _ _ L Ev). }
    constructor; [eapply H; eauto; left; reflexivity|].
    apply IH; [|exact EQ']. intros. eapply H; eauto. right; assumption.
Qed.

(** Existence, blockwise. *)
Lemma each2_exists {A B C} (P : desc -> list A -> list B -> Prop) (Q : desc -> list A -> list C -> Prop) ds v w :
  (forall d v w, In d ds -> P d v w -> exists u, Q d v u) -> each2 P ds v w -> exists u, each2 Q ds v u.
Proof.
  intros H E. induction E as [|d ds v vs w ws p E IH]; [exists []; constructor|].
  destruct (H d v w (or_introl eq_refl) p) as [u q].
  destruct IH as [us qs]. { intros. eapply H; [right|]; eassumption. }
  exists (u ++ us). constructor; assumption.
Qed.
