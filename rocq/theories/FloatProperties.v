(** * Properties of angles and spherical coordinates in IEEE 754 arithmetic. *)
From Coq Require Import ZArith Reals Lra Lia Psatz Bool.
From Flocq Require Import Core Relative IEEE754.BinarySingleNaN.
From Verif Require Import FloatModel FloatSpec FloatProofs1 FloatProofs2 FloatProofs3 FloatProofs4 FloatProofs5 FloatProofs6 FloatProofs7 FloatProofs8.
Local Open Scope R_scope.

(** The value of a closed term. *)
Lemma value_SF {p e} (x : binary_float p e) s : B2SF x = s -> B2R x = SF2R radix2 s.
Proof. intros <-. symmetry. apply SF2R_B2SF. Qed.
Lemma finite_SF {p e} (x : binary_float p e) s : B2SF x = s -> is_finite x = is_finite_SF s.
Proof. intros <-. now rewrite is_finite_SF_B2SF. Qed.
Ltac value := erewrite value_SF by (vm_compute; reflexivity); unfold SF2R, F2R; cbn [Fnum Fexp cond_Zopp]; simpl bpow; simpl IZR.
Ltac fin := erewrite finite_SF by (vm_compute; reflexivity); reflexivity.
(** The result of a closed call. *)
Definition sfres {p e} (o : fres (binary_float p e)) : fres SpecFloat.spec_float :=
  match o with FVal x => FVal (B2SF x) | FThrown => FThrown | FUB => FUB | FRunning => FRunning end.
Lemma sfres_val {p e} (o : fres (binary_float p e)) s : sfres o = FVal s -> exists x, o = FVal x /\ B2SF x = s.
Proof. destruct o as [x| | |]; try discriminate. intros E. injection E as E. now exists x. Qed.

Section Fmt.
(** The scalar type and the type of the limits, which is at least as wide. *)
Context {prec emax : Z} {Hp : Prec_gt_0 prec} {Hx : Prec_lt_emax prec emax}.
Context {lprec lemax : Z} {Hlp : Prec_gt_0 lprec} {Hlx : Prec_lt_emax lprec lemax}.
Notation fl := (binary_float prec emax).
Notation lim := (binary_float lprec lemax).
Notation near := (nearest prec emax).

(** C26: wrap on a range [-M, M), for angles within one and a half turns: a finite value, not below the lower limit (as a
    scalar), below the upper limit (exactly), and the same angle up to three gaps.  Missing: larger angles, where the claim
    is false (wrap_large_refuted). *)
Theorem wrap_symmetric_partial (M : lim) (phi : fl) : (2 <= prec <= lprec)%Z -> (65 <= emax <= lemax)%Z ->
  is_finite M = true -> normal emax <= B2R M <= bpow radix2 (emax - 4) ->
  is_finite phi = true -> - (3 * near (B2R M)) <= B2R phi < 3 * near (B2R M) ->
  exists r : fl, fwrap (Bopp M) M phi = FVal r /\ is_finite r = true /\ half_open (- near (B2R M)) (B2R M) (B2R r) /\
    same_angle (2 * near (B2R M)) 2 (3 * gap prec emax (near (B2R M))) (B2R r) (B2R phi).
Proof.
  intros [H1 H2] [H3 H4] FM [M1 M2] Fphi B.
  assert (M1' : bpow radix2 (3 - emax - prec + prec - 1) <= B2R M).
  { replace (3 - emax - prec + prec - 1)%Z with (2 - emax)%Z by lia. exact M1. }
  destruct (wrap_sym H1 H3 H2 H4 M FM M1' M2 phi Fphi B) as (r & E & Fr & R & C).
  exists r. split; [exact E |]. split; [exact Fr |]. split; [exact R |]. exact C.
Qed.

(** C26: wrap on a range [0, M): a finite value from 0 to M, below M and exactly the same angle when phi is not negative.
    Missing: larger angles; and for small negative angles the excluded end M is returned (wrap_half_open_refuted). *)
Theorem wrap_positive_partial (M : lim) (phi : fl) : (2 <= prec <= lprec)%Z -> (65 <= emax <= lemax)%Z ->
  is_finite M = true -> normal emax <= B2R M <= bpow radix2 (emax - 4) ->
  is_finite phi = true -> - near (B2R M) <= B2R phi < 2 * near (B2R M) ->
  exists r : fl, fwrap (B754_zero false) M phi = FVal r /\ is_finite r = true /\ 0 <= B2R r <= near (B2R M) /\
    (0 <= B2R phi -> half_open 0 (B2R M) (B2R r) /\ same_angle (near (B2R M)) 1 0 (B2R r) (B2R phi)) /\
    (- near (B2R M) < B2R phi < 0 -> B2R r = near (B2R phi + near (B2R M))).
Proof.
  intros [H1 H2] [H3 H4] FM [M1 M2] Fphi B.
  assert (M1' : bpow radix2 (3 - emax - prec + prec - 1) <= B2R M).
  { replace (3 - emax - prec + prec - 1)%Z with (2 - emax)%Z by lia. exact M1. }
  destruct (wrap_pos H1 H3 H2 H4 M FM M1' M2 phi Fphi B) as (r & E & Fr & R & C & D).
  exists r. split; [exact E |]. split; [exact Fr |]. split; [exact R |]. split.
  - intros P. destruct (C P) as (C1 & k & C2 & C3). split; [unfold half_open; lra |].
    exists k. split; [exact C2 |]. rewrite C3, Rminus_eq_0, Rabs_R0. lra.
  - intros P. rewrite (D ltac:(lra)), Rlt_bool_true by (apply P). reflexivity.
Qed.

(** C26, refuted for every range [0, M): some finite angle is wrapped to the excluded end. *)
Theorem wrap_half_open_refuted (M : lim) : (2 <= prec <= lprec)%Z -> (65 <= emax <= lemax)%Z ->
  is_finite M = true -> 8 * normal emax <= B2R M <= bpow radix2 (emax - 4) ->
  exists phi r : fl, is_finite phi = true /\ fwrap (B754_zero false) M phi = FVal r /\ B2R r = near (B2R M).
Proof.
  intros [H1 H2] [H3 H4] FM [M1 M2].
  assert (E8 : bpow radix2 (3 - emax - prec + prec + 2) = 8 * normal emax).
  { unfold normal. replace (3 - emax - prec + prec + 2)%Z with (3 + (2 - emax))%Z by lia. rewrite bpow_plus. simpl (bpow radix2 3). lra. }
  assert (M1' : bpow radix2 (3 - emax - prec + prec + 2) <= B2R M) by (now rewrite E8).
  apply (wrap_pos_end H1 H3 H2 H4 M FM); [| exact M2 | exact M1'].
  eapply Rle_trans; [apply bpow_le | exact M1']. lia.
Qed.

(** C85: from_stat_space of an angle on [-M, M), given the arc tangent: a finite value in the range, and exactly a whole
    number of turns away from the scaled arc tangent. *)
Theorem from_stat_symmetric (M : lim) (pi2 angle : fl) : (2 <= prec <= lprec)%Z -> (65 <= emax <= lemax)%Z ->
  is_finite M = true -> 8 * normal emax <= B2R M <= bpow radix2 (emax - 4) ->
  6 <= B2R pi2 -> is_finite angle = true -> -4 <= B2R angle <= 4 ->
  let r := ang_from_stat pi2 (Bopp M) M angle in
  is_finite r = true /\ half_open (- near (B2R M)) (near (B2R M)) (B2R r) /\
  same_angle (2 * near (B2R M)) 1 0 (B2R r) (near (B2R angle * near (2 * near (B2R M) / B2R pi2))).
Proof.
  intros [H1 H2] [H3 H4] FM [M1 M2] H6 Fa Ba r.
  assert (M1' : bpow radix2 (3 - emax - prec + prec + 2) <= B2R M).
  { replace (3 - emax - prec + prec + 2)%Z with (3 + (2 - emax))%Z by lia. rewrite bpow_plus. simpl (bpow radix2 3).
    unfold normal in M1. lra. }
  destruct (ang_sym H1 H3 H4 M FM M1' M2 pi2 angle H6 Fa ltac:(now apply Rabs_le)) as (A & B & k & K1 & K2).
  split; [exact A |]. split; [exact B |]. exists k. split; [exact K1 |].
  unfold r. rewrite K2. unfold nearest at 1 2 3. rewrite Rminus_eq_0, Rabs_R0. lra.
Qed.

(** C85: on [0, M) the value is from 0 to M, and below M if the arc tangent is not negative. *)
Theorem from_stat_positive_partial (M : lim) (pi2 angle : fl) : (2 <= prec <= lprec)%Z -> (65 <= emax <= lemax)%Z ->
  is_finite M = true -> 8 * normal emax <= B2R M <= bpow radix2 (emax - 4) ->
  6 <= B2R pi2 -> is_finite angle = true -> -4 <= B2R angle <= 4 ->
  let r := ang_from_stat pi2 (B754_zero false) M angle in
  is_finite r = true /\ 0 <= B2R r <= near (B2R M) /\ (0 <= B2R angle -> half_open 0 (near (B2R M)) (B2R r)).
Proof.
  intros [H1 H2] [H3 H4] FM [M1 M2] H6 Fa Ba r.
  assert (M1' : bpow radix2 (3 - emax - prec + prec + 2) <= B2R M).
  { replace (3 - emax - prec + prec + 2)%Z with (3 + (2 - emax))%Z by lia. rewrite bpow_plus. simpl (bpow radix2 3).
    unfold normal in M1. lra. }
  destruct (ang_pos H1 H3 H4 M FM M1' M2 pi2 angle H6 Fa ltac:(now apply Rabs_le)) as (A & B & C).
  split; [exact A |]. split; [exact B |]. intros P. specialize (C P). unfold half_open. unfold nearest. fold r in B, C. lra.
Qed.

(** C86: the library's square root, when it returns, is within 4/3 of a gap of the true root. *)
Theorem sqrt_accuracy (a r : fl) fuel : (6 <= prec)%Z -> (65 <= emax)%Z -> (prec + 4 <= emax)%Z ->
  is_finite a = true -> 2 * tiny prec emax <= B2R a -> fsqrt fuel a = FVal r ->
  is_finite r = true /\ 0 < B2R r /\ Rabs (B2R r - sqrt (B2R a)) <= 4 / 3 * gap prec emax (B2R r).
Proof. intros H1 H2 H3. now apply fsqrt_accurate. Qed.

Lemma eventually_add {A} (run : nat -> A) r n : (forall k, run (n + k)%nat = r) -> eventually run r.
Proof. intros H. exists n. intros fuel L. replace fuel with (n + (fuel - n))%nat by lia. apply H. Qed.

(** C86: the square root returns for every argument: finite or not, negative, zero or denormal. *)
Theorem sqrt_returns (a : fl) : (6 <= prec)%Z -> (65 <= emax)%Z -> (prec + 4 <= emax)%Z ->
  exists r, eventually (fun fuel => fsqrt fuel a) (FVal r).
Proof. intros H1 H2 H3. destruct (fsqrt_total H1 H2 H3 a) as (f & r & E). exists r. now apply eventually_add with f. Qed.

(** C86: of a finite argument of at least twice the smallest positive number it returns the root, if that is a number of the
    format, or else one of the two numbers around it. *)
Theorem sqrt_faithful (a : fl) : (6 <= prec)%Z -> (65 <= emax)%Z -> (prec + 4 <= emax)%Z ->
  is_finite a = true -> 2 * tiny prec emax <= B2R a ->
  exists r, eventually (fun fuel => fsqrt fuel a) (FVal r) /\ is_finite r = true /\ 0 < B2R r /\ next_to (sqrt (B2R a)) r.
Proof.
  intros H1 H2 H3 Fa Pa. destruct (fsqrt_total H1 H2 H3 a) as (f & r & E). exists r.
  destruct (fsqrt_next_to H1 H2 H3 a Fa Pa (f + 0) r (E 0%nat)) as (A & B & C & _).
  split; [now apply eventually_add with f |]. split; [exact A |]. split; [exact B | exact C].
Qed.

(** C86: hypot returns for all arguments; of finite ones it is within 6 units of 2^-prec (and the smallest positive number)
    of the true value, and it does not overflow if the true value is below a quarter of the range. *)
Theorem hypot_accuracy (x y : fl) : (6 <= prec)%Z -> (65 <= emax)%Z -> (prec + 4 <= emax)%Z ->
  let h := sqrt (B2R x * B2R x + B2R y * B2R y) in
  exists r, eventually (fun fuel => fhypot fuel x y) (FVal r) /\
    (is_finite x = true -> is_finite y = true -> is_finite r = true ->
      Rabs (B2R r - h) <= 6 * bpow radix2 (- prec) * h + tiny prec emax) /\
    (is_finite x = true -> is_finite y = true -> h <= bpow radix2 (emax - 2) -> is_finite r = true).
Proof.
  intros H1 H2 H3 h. destruct (fhypot_total H1 H2 H3 x y) as (f & r & E). exists r.
  split; [now apply eventually_add with f |].
  split; intros Fx Fy; apply (fhypot_accurate H1 H2 H3 x y (f + 0) r Fx Fy (E 0%nat)).
Qed.

(** C27: from_stat_space of a spherical triple returns for all arguments, whatever the arc cosine is. *)
Theorem spherical_returns (acos : fl -> fl) (pi pi2 : fl) (mn mx down : lim) (d x y z : fl) :
  (6 <= prec)%Z -> (65 <= emax)%Z -> (prec + 4 <= emax)%Z ->
  exists r, eventually (fun fuel => spher_from_stat acos pi pi2 fuel mn mx down d x y z) (FVal r).
Proof.
  intros H1 H2 H3. destruct (spher_total H1 H2 H3 acos pi pi2 mn mx down d x y z) as (f & r & E). exists r.
  now apply eventually_add with f.
Qed.

(** C86: hypot of two finite numbers is never below the absolute value of either, or overflows. *)
Theorem hypot_at_least (x y r : fl) fuel : (2 <= prec)%Z -> (65 <= emax)%Z -> is_finite x = true -> is_finite y = true ->
  fhypot fuel x y = FVal r ->
  r = B754_infinity false \/ (is_finite r = true /\ Rabs (B2R x) <= B2R r /\ Rabs (B2R y) <= B2R r).
Proof. intros H1 H2. now apply fhypot_ge. Qed.

(** C27: from_stat_space of a spherical triple: the distance is kept and the longitude is finite for all finite inputs;
    the inclination is finite if z = 0, or if z^2 is not tiny and max(|x|,|y|)^2 is at least 16 u z^2 with u = 2^-prec.
    Missing: points close to the pole, where the claim is false (spherical_finite_refuted). *)
Theorem spherical_finite_partial (acos : fl -> fl) (pi pi2 : fl) (mn mx down : lim) fuel (d x y z d' theta phi : fl) :
  (6 <= prec <= lprec)%Z -> (65 <= emax <= lemax)%Z -> (prec + 4 <= emax)%Z ->
  acos_finite acos -> 3 <= B2R pi <= 4 -> 6 <= B2R pi2 <= 8 ->
  is_finite mn = true -> is_finite mx = true -> is_finite down = true ->
  Rabs (B2R mn) <= bpow radix2 (emax - 8) -> Rabs (B2R mx) <= bpow radix2 (emax - 8) -> Rabs (B2R down) <= bpow radix2 (emax - 8) ->
  is_finite d = true -> is_finite x = true -> is_finite y = true -> is_finite z = true ->
  spher_from_stat acos pi pi2 fuel mn mx down d x y z = FVal (d', theta, phi) ->
  d' = d /\ is_finite phi = true /\
  (B2R z = 0 \/ (tiny prec emax * bpow radix2 (2 * prec) <= B2R z * B2R z /\
    16 * bpow radix2 (- prec) * (B2R z * B2R z) <= Rmax (Rabs (B2R x)) (Rabs (B2R y)) * Rmax (Rabs (B2R x)) (Rabs (B2R y))) ->
   is_finite theta = true).
Proof.
  intros [H1 H2] [H3 H4] H5 Ha Hpi Hpi2 F1 F2 F3 B1 B2 B3 Fd Fx Fy Fz E.
  assert (T : tiny prec emax * bpow radix2 (2 * prec) = bpow radix2 (3 - emax - prec + 2 * prec)) by (unfold tiny; now rewrite <- bpow_plus).
  rewrite T. revert Fd Fx Fy Fz E. apply spher_finite; try assumption; lia.
Qed.
End Fmt.
Print Assumptions wrap_symmetric_partial.
Print Assumptions wrap_positive_partial.
Print Assumptions wrap_half_open_refuted.
Print Assumptions from_stat_symmetric.
Print Assumptions from_stat_positive_partial.
Print Assumptions sqrt_accuracy.
Print Assumptions sqrt_returns.
Print Assumptions sqrt_faithful.
Print Assumptions hypot_accuracy.
Print Assumptions spherical_returns.
Print Assumptions hypot_at_least.
Print Assumptions spherical_finite_partial.

(** ** The predefined descriptors in double precision. *)
Lemma normal_le k : (2 - 1024 + 3 <= k)%Z -> 8 * normal 1024 <= bpow radix2 k.
Proof.
  intros H. replace (8 * normal 1024) with (bpow radix2 (3 + (2 - 1024))); [apply bpow_le; lia |].
  rewrite bpow_plus. unfold normal. simpl (bpow radix2 3). lra.
Qed.
Lemma big_ge n k : (0 <= n)%Z -> (n <= 2 ^ 10)%Z -> (10 <= k)%Z -> IZR n <= bpow radix2 k.
Proof.
  intros. apply Rle_trans with (bpow radix2 10); [| now apply bpow_le]. rewrite <- IZR_Zpower by lia. now apply IZR_le.
Qed.

Lemma v180 : B2R (ld 180) = 180. Proof. value. lra. Qed.
Lemma v360 : B2R (ld 360) = 360. Proof. value. lra. Qed.
Lemma n_int n : (0 <= n < 2 ^ 10)%Z -> nearest 53 1024 (IZR n) = IZR n.
Proof.
  intros H. apply rnd_F. apply generic_format_FLT. exists (Float radix2 n 0); cbn [Fnum Fexp]; [unfold F2R; cbn; lra | | lia].
  rewrite Z.abs_eq by lia. apply Z.lt_trans with (2 ^ 10)%Z; [lia | reflexivity].
Qed.

(** Degrees: every double from -540 to 540 is wrapped into [-180, 180). *)
Theorem wrap_degrees (phi : float64) : is_finite phi = true -> half_open (-540) 540 (B2R phi) ->
  exists r, fwrap (ld (-180)) (ld 180) phi = FVal r /\ is_finite r = true /\ half_open (-180) 180 (B2R r) /\
    same_angle 360 2 (3 * gap 53 1024 180) (B2R r) (B2R phi).
Proof.
  intros Fphi H.
  replace (ld (-180)) with (Bopp (ld 180)) by (apply B2SF_inj; vm_compute; reflexivity).
  pose proof (n_int 180 ltac:(lia)) as N.
  destruct (wrap_symmetric_partial (prec := 53) (emax := 1024) (ld 180) phi) as (r & A & B & C & D); try lia; [fin | | exact Fphi | |].
  - rewrite v180. split; [| apply big_ge; lia]. pose proof (normal_le 0 ltac:(lia)). pose proof (bpow_gt_0 radix2 (2 - 1024)).
    unfold normal in *. simpl (bpow radix2 0) in *. lra.
  - rewrite v180, N. unfold half_open in H. lra.
  - exists r. rewrite v180, N in *. replace (2 * 180) with 360 in D by lra. tauto.
Qed.
Print Assumptions wrap_degrees.
Example wrap_degrees_ex : exists r : float64, fwrap (ld (-180)) (ld 180) (of_Z 190) = FVal r /\ B2R r = -170.
Proof.
  destruct (sfres_val (fwrap (ld (-180)) (ld 180) (of_Z 190 : float64)) _ ltac:(vm_compute; reflexivity)) as (r & A & B).
  exists r. split; [exact A |]. rewrite (value_SF _ _ B). unfold SF2R, F2R. cbn [Fnum Fexp cond_Zopp]. simpl bpow. simpl IZR. lra.
Qed.

(** PositiveDegrees: every double from 0 to 720 is wrapped exactly into [0, 360); for those from -360 to 0 only [0, 360]. *)
Theorem wrap_positive_degrees (phi : float64) : is_finite phi = true -> half_open (-360) 720 (B2R phi) ->
  exists r, fwrap (B754_zero false) (ld 360) phi = FVal r /\ is_finite r = true /\ 0 <= B2R r <= 360 /\
    (0 <= B2R phi -> half_open 0 360 (B2R r) /\ same_angle 360 1 0 (B2R r) (B2R phi)).
Proof.
  intros Fphi H. pose proof (n_int 360 ltac:(lia)) as N.
  destruct (wrap_positive_partial (prec := 53) (emax := 1024) (ld 360) phi) as (r & A & B & C & D & _); try lia; [fin | | exact Fphi | |].
  - rewrite v360. split; [| apply big_ge; lia]. pose proof (normal_le 0 ltac:(lia)). pose proof (bpow_gt_0 radix2 (2 - 1024)).
    unfold normal in *. simpl (bpow radix2 0) in *. lra.
  - rewrite v360, N. unfold half_open in H. lra.
  - exists r. rewrite v360, N in *. tauto.
Qed.
Print Assumptions wrap_positive_degrees.

(** C26, refuted: minus 2^-70 degrees is wrapped to 360, outside [0, 360). *)
Theorem wrap_positive_degrees_refuted : exists phi r : float64, is_finite phi = true /\ B2R phi = - bpow radix2 (-70) /\
  fwrap (B754_zero false) (ld 360) phi = FVal r /\ B2R r = 360.
Proof.
  destruct (sfres_val (fwrap (B754_zero false) (ld 360) (of_me (-1) (-70) : float64)) _ ltac:(vm_compute; reflexivity)) as (r & A & B).
  exists (of_me (-1) (-70)), r. split; [fin |]. split; [value; lra |]. split; [exact A |].
  rewrite (value_SF _ _ B). unfold SF2R, F2R. cbn [Fnum Fexp cond_Zopp]. simpl bpow. simpl IZR. lra.
Qed.
Print Assumptions wrap_positive_degrees_refuted.

(** C26, refuted: 10^18 radians is wrapped to more than 100, far outside [-pi, pi). *)
Theorem wrap_large_refuted : exists phi r : float64, is_finite phi = true /\ B2R phi = 10 ^ 18 /\
  fwrap (Bopp pi_ld) pi_ld phi = FVal r /\ is_finite r = true /\ 100 < B2R r.
Proof.
  destruct (sfres_val (fwrap (Bopp pi_ld) pi_ld (of_Z (10 ^ 18) : float64)) _ ltac:(vm_compute; reflexivity)) as (r & A & B).
  exists (of_Z (10 ^ 18)), r. split; [fin |]. split; [value; lra |]. split; [exact A |]. split; [rewrite (finite_SF _ _ B); reflexivity |].
  rewrite (value_SF _ _ B). unfold SF2R, F2R. cbn [Fnum Fexp cond_Zopp]. simpl bpow. simpl IZR. lra.
Qed.
Print Assumptions wrap_large_refuted.

(** C26, refuted: 10^30 degrees gives an exception instead of an angle. *)
Theorem wrap_throws_refuted : exists phi : float64, is_finite phi = true /\ fwrap (ld (-180)) (ld 180) phi = FThrown.
Proof.
  exists (of_Z (10 ^ 30)). split; [fin |].
  assert (E : sfres (fwrap (ld (-180)) (ld 180) (of_Z (10 ^ 30) : float64)) = FThrown) by (vm_compute; reflexivity).
  destruct (fwrap _ _ _); try discriminate. reflexivity.
Qed.
Print Assumptions wrap_throws_refuted.

(** C85, refuted for [0, M): a small negative arc tangent gives the excluded end. *)
Theorem from_stat_positive_refuted : exists angle : float64, is_finite angle = true /\ - (1 / 10 ^ 20) < B2R angle < 0 /\
  B2R (ang_from_stat two_pi_d (B754_zero false) (ld 360) angle) = 360.
Proof. exists (of_me (-1) (-70)). split; [fin |]. split; [value; lra | value; lra]. Qed.
Print Assumptions from_stat_positive_refuted.

(** Degrees: the value lies in [-180, 180) for every arc tangent. *)
Theorem from_stat_degrees (angle : float64) : is_finite angle = true -> -4 <= B2R angle <= 4 ->
  let r := ang_from_stat two_pi_d (ld (-180)) (ld 180) angle in is_finite r = true /\ half_open (-180) 180 (B2R r).
Proof.
  intros Fa Ba. replace (ld (-180)) with (Bopp (ld 180)) by (apply B2SF_inj; vm_compute; reflexivity).
  pose proof (n_int 180 ltac:(lia)) as N.
  assert (P : 6 <= B2R two_pi_d) by (value; lra).
  destruct (from_stat_symmetric (prec := 53) (emax := 1024) (ld 180) two_pi_d angle) as (A & B & _); try assumption; try lia; [fin | |].
  - rewrite v180. split; [| apply big_ge; lia]. pose proof (normal_le 0 ltac:(lia)). simpl (bpow radix2 0) in *. lra.
  - rewrite v180, N in B. tauto.
Qed.
Print Assumptions from_stat_degrees.
Example from_stat_degrees_ex : B2R (ang_from_stat two_pi_d (ld (-180)) (ld 180) pi_d) = -180.
Proof. value. lra. Qed.

(** C86, refuted: the square root of the smallest positive double is zero. *)
Theorem sqrt_denormal_refuted : exists a r : float64, is_finite a = true /\ 0 < B2R a /\ fsqrt 0 a = FVal r /\ B2R r = 0.
Proof.
  destruct (sfres_val (fsqrt 0 (of_me 1 (-1074) : float64)) _ ltac:(vm_compute; reflexivity)) as (r & A & B).
  exists (of_me 1 (-1074)), r. split; [fin |]. split.
  - erewrite value_SF by (vm_compute; reflexivity). unfold SF2R. apply F2R_gt_0. cbn. lia.
  - split; [exact A |]. rewrite (value_SF _ _ B). reflexivity.
Qed.
Print Assumptions sqrt_denormal_refuted.

(** C86, refuted: the square root of the square of 0.84 (as a double) is below it. *)
Definition z084 : float64 := of_me 7566047373982433 (-53).
Theorem sqrt_of_square_refuted : exists r, fsqrt 60 (fmul z084 z084) = FVal r /\ 0 < B2R r < B2R z084.
Proof.
  destruct (sfres_val (fsqrt 60 (fmul z084 z084)) _ ltac:(vm_compute; reflexivity)) as (r & A & B).
  exists r. split; [exact A |]. rewrite (value_SF _ _ B). value. unfold SF2R, F2R. cbn [Fnum Fexp cond_Zopp]. simpl bpow. simpl IZR. lra.
Qed.
Print Assumptions sqrt_of_square_refuted.

(** C27, refuted: from_stat_space of (1; 0, 0, 0.84) has a NaN inclination. *)
Theorem spherical_finite_refuted (acos : float64 -> float64) : acos_nan_above_1 acos ->
  exists x y z theta phi : float64, is_finite x = true /\ is_finite y = true /\ is_finite z = true /\
    spher_from_stat acos pi_d two_pi_d 60 (Bopp pi_ld) pi_ld pi_ld (of_Z 1) x y z = FVal (of_Z 1, theta, phi) /\
    theta = B754_nan.
Proof.
  intros H. exists fzero, fzero, z084. unfold spher_from_stat. cbv zeta.
  destruct (sfres_val (fhypot 60 (fzero : float64) fzero) _ ltac:(vm_compute; reflexivity)) as (hxy & A & B).
  assert (Z : hxy = fzero) by (apply B2SF_inj; rewrite B; vm_compute; reflexivity). subst hxy.
  destruct (sfres_val (fsqrt 60 (fadd (fmul fzero fzero) (fmul z084 z084))) _ ltac:(vm_compute; reflexivity)) as (h & C & D).
  rewrite A. cbn [fbind]. rewrite C. cbn [fbind]. eexists. eexists.
  split; [reflexivity |]. split; [reflexivity |]. split; [fin |]. split; [reflexivity |].
  assert (Eh : h = of_me 7566047373982432 (-53)) by (apply B2SF_inj; rewrite D; vm_compute; reflexivity). subst h.
  unfold calc_theta. replace (feq (of_me 7566047373982432 (-53)) fzero) with false by (vm_compute; reflexivity).
  rewrite H; [| fin |].
  - destruct (fdiv _ _); reflexivity.
  - value. lra.
Qed.
Print Assumptions spherical_finite_refuted.

(** An arc cosine that meets both contracts. *)
Definition acos_ex (t : float64) : float64 := if fle (of_Z (-1)) t && fle t (of_Z 1) then of_Z 1 else B754_nan.
Example acos_ex_ok : acos_finite acos_ex /\ acos_nan_above_1 acos_ex.
Proof.
  assert (V1 : B2R (of_Z 1 : float64) = 1) by (value; lra). assert (Vm : B2R (of_Z (-1) : float64) = -1) by (value; lra).
  assert (F1 : is_finite (of_Z 1 : float64) = true) by fin. assert (Fm : is_finite (of_Z (-1) : float64) = true) by fin.
  split; intros t Ft Bt; unfold acos_ex; rewrite !fle_spec by assumption; rewrite V1, Vm.
  - rewrite !Rle_bool_true by lra. cbn [andb]. rewrite V1. split; [exact F1 | lra].
  - rewrite (Rle_bool_false _ 1) by lra. now rewrite andb_false_r.
Qed.
Example spherical_finite_ex : exists theta phi : float64,
  spher_from_stat acos_ex pi_d two_pi_d 60 (Bopp pi_ld) pi_ld pi_ld (of_Z 1) (of_Z 3) (of_Z 4) (of_Z 12) = FVal (of_Z 1, theta, phi) /\
  is_finite theta = true /\ is_finite phi = true.
Proof.
  destruct (sfres_val (fhypot 60 (of_Z 3 : float64) (of_Z 4)) _ ltac:(vm_compute; reflexivity)) as (hxy & A & B).
  assert (Eh : hxy = of_Z 5) by (apply B2SF_inj; rewrite B; vm_compute; reflexivity). subst hxy.
  destruct (sfres_val (fsqrt 60 (fadd (fmul (of_Z 5) (of_Z 5)) (fmul (of_Z 12) (of_Z 12) : float64))) _ ltac:(vm_compute; reflexivity)) as (h & C & D).
  destruct (spher_from_stat acos_ex pi_d two_pi_d 60 (Bopp pi_ld) pi_ld pi_ld (of_Z 1) (of_Z 3) (of_Z 4) (of_Z 12)) as [[[d' theta] phi]| | |] eqn:E.
  - exists theta, phi.
    destruct (spherical_finite_partial (prec := 53) (emax := 1024) acos_ex pi_d two_pi_d (Bopp pi_ld) pi_ld pi_ld 60 (of_Z 1) (of_Z 3) (of_Z 4) (of_Z 12) d' theta phi) as (G1 & G2 & G3);
      try lia; try (fin); try exact (proj1 acos_ex_ok); try (value; lra); try exact E.
    1-3: (apply Rle_trans with 4; [value; apply Rabs_le; split; lra | apply (big_ge 4); lia]).
    subst d'. split; [reflexivity |]. split; [| exact G2]. apply G3. right.
    assert (V3 : B2R (of_Z 3 : float64) = 3) by (value; lra). assert (V4 : B2R (of_Z 4 : float64) = 4) by (value; lra).
    assert (V12 : B2R (of_Z 12 : float64) = 12) by (value; lra). rewrite V3, V4, V12. split.
    + unfold tiny. rewrite <- bpow_plus. apply Rle_trans with (bpow radix2 0); [apply bpow_le; lia | simpl; lra].
    + rewrite (Rabs_pos_eq 3), (Rabs_pos_eq 4), Rmax_right by lra.
      assert (Q : bpow radix2 (-53) <= bpow radix2 (-10)) by (apply bpow_le; lia). simpl (bpow radix2 (-10)) in Q.
      change (- (53))%Z with (-53)%Z. set (t := bpow radix2 (-53)) in *. lra.
  - exfalso. unfold spher_from_stat in E. cbv zeta in E. rewrite A in E. cbn [fbind] in E. rewrite C in E. discriminate.
  - exfalso. unfold spher_from_stat in E. cbv zeta in E. rewrite A in E. cbn [fbind] in E. rewrite C in E. discriminate.
  - exfalso. unfold spher_from_stat in E. cbv zeta in E. rewrite A in E. cbn [fbind] in E. rewrite C in E. discriminate.
Qed.
Example sqrt_faithful_ex : exists r : float64, fsqrt 60 (of_Z 9) = FVal r /\ B2R r = 3 /\ next_to (sqrt (B2R (of_Z 9 : float64))) r.
Proof.
  destruct (sfres_val (fsqrt 60 (of_Z 9 : float64)) _ ltac:(vm_compute; reflexivity)) as (r & A & B). exists r. split; [exact A |].
  assert (V : B2R r = 3) by (rewrite (value_SF _ _ B); unfold SF2R, F2R; cbn [Fnum Fexp cond_Zopp]; simpl bpow; simpl IZR; lra).
  split; [exact V |].
  assert (V9 : B2R (of_Z 9 : float64) = 9) by (value; lra).
  destruct (sqrt_faithful (of_Z 9 : float64)) as (r' & [n E] & _ & _ & N); [lia | lia | lia | fin | |].
  - rewrite V9. unfold tiny. apply Rle_trans with (bpow radix2 1); [| simpl; lra].
    replace 2 with (bpow radix2 1) by (simpl; lra). rewrite <- bpow_plus. apply bpow_le. lia.
  - assert (r' = r); [| now subst]. pose proof (E (n + 60)%nat ltac:(lia)) as E1. cbv beta in E1.
    pose proof (fsqrt_more 60 n _ _ A) as E2. rewrite Nat.add_comm in E1. rewrite E1 in E2. now injection E2.
Qed.
Example hypot_accuracy_ex : exists r : float64, eventually (fun fuel => fhypot fuel (of_Z 5) (of_Z 12)) (FVal r) /\
  is_finite r = true /\ Rabs (B2R r - 13) <= 6 * bpow radix2 (-53) * 13 + tiny 53 1024.
Proof.
  assert (V5 : B2R (of_Z 5 : float64) = 5) by (value; lra). assert (V12 : B2R (of_Z 12 : float64) = 12) by (value; lra).
  destruct (hypot_accuracy (of_Z 5 : float64) (of_Z 12)) as (r & E & A & B); [lia | lia | lia |]. exists r. split; [exact E |].
  rewrite V5, V12 in A, B. replace (5 * 5 + 12 * 12) with (13 * 13) in A, B by lra. rewrite sqrt_square in A, B by lra.
  assert (Fr : is_finite r = true).
  { apply B; [fin | fin |]. apply Rle_trans with (bpow radix2 4); [simpl; lra | apply bpow_le; lia]. }
  split; [exact Fr |]. apply A; [fin | fin | exact Fr].
Qed.
Example sqrt_accuracy_ex : exists r : float64, fsqrt 60 (of_Z 2) = FVal r /\ Rabs (B2R r - sqrt 2) <= 4 / 3 * gap 53 1024 (B2R r).
Proof.
  destruct (sfres_val (fsqrt 60 (of_Z 2 : float64)) _ ltac:(vm_compute; reflexivity)) as (r & A & B). exists r. split; [exact A |].
  assert (V : B2R (of_Z 2 : float64) = 2) by (value; lra). rewrite <- V.
  apply (sqrt_accuracy (of_Z 2) r 60); try lia; [fin | | exact A]. rewrite V.
  unfold tiny. apply Rle_trans with (2 * bpow radix2 0); [| simpl; lra]. apply Rmult_le_compat_l; [lra | apply bpow_le; lia].
Qed.
