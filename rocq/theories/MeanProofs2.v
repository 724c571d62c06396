(** Means with angular coordinates: cases across the cut. *)
From Coq Require Import Reals List ZArith Lra Lia.
From Verif Require Import PatModel PatSpec MeanModel MeanSpec MeanProofs.
From Verif Require PatProperties.
Import ListNotations.
Local Open Scope R_scope.

Lemma pi_small : ~ (-180 = - PI /\ 180 = PI).
Proof. pose proof PI_4. lra. Qed.
Lemma deg z v u : -180 <= u < 180 -> (exists t : Z, u = v + IZR t * (180 - -180)) -> wrap_column true [Ang (-180) 180] z [v] = Ret [u].
Proof. intros I T. apply wrap_one_is; auto; try lra. intros _. exact pi_small. Qed.

(** ** With the limits -pi, pi *)
Lemma pi_kept : exists e, run true [Ang (- PI) PI] 1 (fun _ => None) [FromMatrix 0 [[PI]] no] = Ret e /\ e 0%nat = Some [[PI]].
Proof.
  assert (E : wrap_column true [Ang (- PI) PI] (no 0%nat) [PI] = Ret [PI]).
  { unfold wrap_column. cbn [get_is_euclidean]. 
    change (to_stat [Ang (- PI) PI] (tag (no 0%nat 0%nat) [PI])) with (to_stat [Ang (- PI) PI] [SR PI false]).
    replace (to_stat [Ang (- PI) PI] [SR PI false]) with (Ret [-1; 0]).
    - exact PatProperties.angle_from_stat_upper_limit_refuted.
    - change [SR PI false] with (tag (fun _ => false) [PI]). pose proof PI_RGT_0.
      destruct (PatProperties.to_stat_total [Ang (- PI) PI] (tag (fun _ => false) [PI])) as (s & Hs); [reflexivity |]. rewrite Hs. f_equal.
      assert (V : Forall valid [Ang (- PI) PI]) by (constructor; [split; lra | constructor]).
      apply (PatProperties.to_stat_encodes_position _ _ _ V) in Hs. rewrite tag_sv in Hs. apply each2_one in Hs. destruct Hs as (a & E & ->). injection E as <-.
      replace (turn (- PI) PI PI) with PI by (unfold turn; field; lra). now rewrite cos_PI, sin_PI. }
  eexists. split; [cbn [run step with_matrix fits]|].
  - replace (with_matrix 1 (get_dimension [Ang (- PI) PI]) [[PI]] (store true [Ang (- PI) PI] (fun _ => None) 0 no [[PI]]))
      with (store true [Ang (- PI) PI] (fun _ => None) 0 no [[PI]]) by reflexivity.
    unfold store, wrap_angles. cbn [each_column]. rewrite E. cbn [bind]. reflexivity.
  - reflexivity.
Qed.

(** ** Halves *)
Lemma store_row e x z v u : -180 <= u < 180 -> (exists t : Z, u = v + IZR t * (180 - -180)) ->
  store true [Ang (-180) 180] e x z [[v]] = Ret (MeanModel.update e x [[u]]).
Proof. intros I T. unfold store, wrap_angles. cbn [each_column]. rewrite (deg _ v u I T). reflexivity. Qed.
Lemma halves : exists e, run true [Ang (-180) 180] 1 (fun _ => None) [FromMatrix 0 [[360]] no; Times 0 (/ 2) no] = Ret e /\
  e 0%nat = Some [[0]] /\ plain_run [FromMatrix 0 [[360]] no; Times 0 (/ 2) no] 0%nat = Some [[360 * / 2]] /\
  wrap_angles true [Ang (-180) 180] no [[360 * / 2]] = Ret [[-180]].
Proof.
  exists (MeanModel.update (MeanModel.update (fun _ => None) 0 [[0]]) 0 [[0]]). split; [| split; [reflexivity | split; [reflexivity |]]].
  - cbn [run step].
    change (with_matrix 1 (get_dimension [Ang (-180) 180]) [[360]] (store true [Ang (-180) 180] (fun _ => None) 0 no [[360]]))
      with (store true [Ang (-180) 180] (fun _ => None) 0 no [[360]]).
    rewrite (store_row _ 0 no 360 0); [| lra | exists (-1)%Z; lra]. cbn [bind with_mean MeanModel.update Nat.eqb scale map].
    rewrite (store_row _ 0 no (0 * / 2) 0); [reflexivity | lra | exists 0%Z; lra].
  - unfold wrap_angles. cbn [each_column]. rewrite (deg _ (360 * / 2) (-180)); [reflexivity | lra | exists (-1)%Z; lra].
Qed.

(** ** Sample points on both sides of the cut *)
Lemma cut_values : resultant cos (-180) 180 [/ 2; / 2] [-1; 1] = cos (turn (-180) 180 1) /\ resultant sin (-180) 180 [/ 2; / 2] [-1; 1] = 0.
Proof.
  cbn [resultant]. replace (turn (-180) 180 (-1)) with (- turn (-180) 180 1) by (unfold turn; field). rewrite cos_neg, sin_neg. split; field.
Qed.
Lemma cut_cos : 0 < cos (turn (-180) 180 1).
Proof. apply cos_gt_0; unfold turn; pose proof PI_RGT_0; lra. Qed.
Lemma near_zero : exists cov, sample_transform true [Ang (-180) 180] no [/ 2; / 2] [/ 2; / 2] (row [-1; 1]) = Ret ([0], cov) /\ cov 0%nat 0%nat = 1.
Proof.
  destruct cut_values as [C S]. pose proof cut_cos as P.
  destruct (sample_direction true (-180) 180) with (z := no) (wm := [/ 2; / 2]) (wc := [/ 2; / 2]) (values := [-1; 1])
    as (m & ys & cov & r & E & I & Pr & _ & _ & Q & Cv); [lra | lra | intros _; exact pi_small | rewrite C, S; nra |].
  destruct (sample_balanced true (-180) 180) with (z := no) (wm := [/ 2; / 2]) (wc := [/ 2; / 2]) (centre := 0) (devs := [-1; 1])
    as (m' & cov' & t & E' & I' & T); [lra | lra | intros _; exact pi_small | exact S | rewrite C; exact P |].
  cbn [map] in E'. replace (-1 + 0) with (-1) in E' by ring. replace (1 + 0) with 1 in E' by ring. rewrite E in E'. injection E' as -> ->.
  assert (m' = 0) by (apply (in_range_unique (-180) 180); [lra | lra | lra | exact I | now exists t]). clear T. subst m'.
  exists cov'. split; [exact E |]. rewrite Cv. apply (all_in_range (-180) 180) in Q; [| lra | lra | repeat constructor; lra]. subst ys. cbn. field.
Qed.
Lemma near_cut : exists cov, sample_transform true [Ang (-180) 180] no [/ 2; / 2] [/ 2; / 2] (row [179; 181]) = Ret ([-180], cov) /\ cov 0%nat 0%nat = 64441.
Proof.
  destruct cut_values as [C S]. pose proof cut_cos as P.
  destruct (resultant_shift (-180) 180 ltac:(lra) ltac:(lra) [/ 2; / 2] [-1; 1] 180) as [EC ES].
  cbn [map] in EC, ES. replace (-1 + 180) with 179 in EC, ES by ring. replace (1 + 180) with 181 in EC, ES by ring. rewrite C, S in EC, ES.
  destruct (sample_balanced true (-180) 180) with (z := no) (wm := [/ 2; / 2]) (wc := [/ 2; / 2]) (centre := 180) (devs := [-1; 1])
    as (m' & cov' & t & E' & I' & T); [lra | lra | intros _; exact pi_small | exact S | rewrite C; exact P |].
  cbn [map] in E'. replace (-1 + 180) with 179 in E' by ring. replace (1 + 180) with 181 in E' by ring.
  destruct (sample_direction true (-180) 180) with (z := no) (wm := [/ 2; / 2]) (wc := [/ 2; / 2]) (values := [179; 181])
    as (m & ys & cov & r & E & I & Pr & _ & _ & Q & Cv); [lra | lra | intros _; exact pi_small | |].
  { rewrite EC, ES. replace (turn (-180) 180 180) with PI by (unfold turn; field). rewrite cos_PI, sin_PI. nra. }
  rewrite E in E'. injection E' as -> ->.
  assert (m' = -180) by (apply (in_range_unique (-180) 180); [lra | lra | lra | exact I | exists (t + 1)%Z; rewrite plus_IZR; lra]). clear T. subst m'.
  exists cov'. split; [exact E |]. rewrite Cv. inversion Q as [|? y1 ? ? [I1 T1] Q1]; subst. inversion Q1 as [|? y2 ? ? [I2 T2] Q2]; subst. inversion Q2; subst.
  assert (y1 = 179) by (apply (in_range_unique (-180) 180); auto; lra). subst y1.
  assert (y2 = -179). { apply (in_range_unique (-180) 180); auto; try lra. destruct T2 as (t2 & ->). exists (t2 + 1)%Z. rewrite plus_IZR. lra. }
  subst y2. cbn. field.
Qed.

(** ** Measurements on both sides of the cut *)
Lemma update_near_zero : update_mean true [Ang (-180) 180] [Ang (-180) 180] no half [-1] [-1] [1] = Ret [0].
Proof.
  unfold update_mean. rewrite (deg _ 1 1); [| lra | exists 0%Z; lra]. cbn [bind map2 map half].
  rewrite (deg _ _ 0); [reflexivity | lra | exists 0%Z; lra].
Qed.
Lemma update_near_cut : update_mean true [Ang (-180) 180] [Ang (-180) 180] no half [179] [179] [181] = Ret [0].
Proof.
  unfold update_mean. rewrite (deg _ 181 (-179)); [| lra | exists (-1)%Z; lra]. cbn [bind map2 map half].
  rewrite (deg _ _ 0); [reflexivity | lra | exists 0%Z; lra].
Qed.

(** ** Distances *)
Lemma distance_wrap z r : wrap_column true [Dist] z [r] = Ret [Rabs r].
Proof.
  destruct (wrap_column_ok true [Dist]) with (z := z) (c := [r]) as (u & s & E & I & A & B);
    [constructor; [exact Logic.I | constructor] | intros _; constructor; [exact Logic.I | constructor] | reflexivity |].
  rewrite E. f_equal. assert (V : Forall valid [Dist]) by (constructor; [exact Logic.I | constructor]).
  apply (PatProperties.to_stat_encodes_position _ _ _ V) in A. apply (PatProperties.to_stat_encodes_position _ _ _ V) in B.
  apply each2_one in A. apply each2_one in B. apply each_one in I. rewrite tag_sv in A. destruct A as (a & a' & A1 & A2 & A3 & A4). injection A1 as <-.
  destruct B as (b & b' & B1 & B2 & B3 & B4). rewrite A2 in B2. injection B2 as <-.
  destruct I as (q & -> & Hq). cbn in B1. injection B1 as <-. f_equal.
  destruct (Rcase_abs r) as [N|N]; [rewrite Rabs_left by lra | rewrite Rabs_right by lra]; lra.
Qed.
Lemma distances : exists e, run true [Dist] 1 (fun _ => None) [FromMatrix 0 [[-1]] no; PlusMatrix 0 [[1]] no] = Ret e /\
  e 0%nat = Some [[2]] /\ plain_run [FromMatrix 0 [[-1]] no; PlusMatrix 0 [[1]] no] 0%nat = Some [[-1 + 1]] /\
  wrap_angles true [Dist] no [[-1 + 1]] = Ret [[0]].
Proof.
  exists (MeanModel.update (MeanModel.update (fun _ => None) 0 [[1]]) 0 [[2]]). split; [| split; [reflexivity | split; [reflexivity |]]].
  - cbn [run step].
    change (with_matrix 1 (get_dimension [Dist]) [[-1]] (store true [Dist] (fun _ => None) 0 no [[-1]])) with (store true [Dist] (fun _ => None) 0 no [[-1]]).
    unfold store, wrap_angles. cbn [each_column]. rewrite distance_wrap. replace (Rabs (-1)) with 1 by (rewrite Rabs_left; lra).
    cbn [bind with_mean MeanModel.update Nat.eqb plus map2].
    change (with_matrix 1 (get_dimension [Dist]) [[1]] (store true [Dist] (MeanModel.update (fun _ => None) 0 [[1]]) 0 no [[1 + 1]]))
      with (store true [Dist] (MeanModel.update (fun _ => None) 0 [[1]]) 0 no [[1 + 1]]).
    unfold store, wrap_angles. cbn [each_column]. rewrite distance_wrap. replace (Rabs (1 + 1)) with 2 by (rewrite Rabs_right; lra). reflexivity.
  - unfold wrap_angles. cbn [each_column]. rewrite distance_wrap. replace (Rabs (-1 + 1)) with 0 by (replace (-1 + 1) with 0 by ring; now rewrite Rabs_R0). reflexivity.
Qed.
