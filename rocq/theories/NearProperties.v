(** * Properties of the comparison up to a tolerance. *)
From Coq Require Import ZArith Reals Lra Lia Bool.
From Flocq Require Import Core IEEE754.BinarySingleNaN.
From Verif Require Import FloatModel FloatProofs1 FloatProofs2 FloatProperties NearModel NearSpec NearProofs NearProofs2 NearProofs3.
Local Open Scope R_scope.

Section Fmt.
Context {prec emax : Z} {Hp : Prec_gt_0 prec} {Hx : Prec_lt_emax prec emax}.
Notation fl := (binary_float prec emax).

(** C114: numbers within the tolerance are near, and numbers that are near are within the tolerance up to one rounding.
    Missing: that they are within the tolerance exactly (near_exact_refuted). *)
Theorem near_err_partial (x y err : fl) : is_finite x = true -> is_finite y = true -> is_finite err = true ->
  (within (B2R err) (B2R x) (B2R y) -> near_err x y err = true) /\
  (near_err x y err = true -> within ((1 + machine_epsilon prec / 2) * B2R err) (B2R x) (B2R y)).
Proof.
  intros A B C. split; [now apply near_err_complete|]. intros H. apply near_err_sound in H; try assumption. unfold within, machine_epsilon.
  replace (bpow radix2 (1 - prec) / 2) with (bpow radix2 (- prec)); [exact H|].
  replace (1 - prec)%Z with (1 + - prec)%Z by lia. rewrite bpow_plus. change (bpow radix2 1) with 2. lra.
Qed.
(** C114: the same for the tolerance taken if none is given. *)
Theorem near_eps_partial (k : Z) (x y : fl) : is_finite x = true -> is_finite y = true -> (0 <= k <= 2 ^ prec)%Z ->
  (within (IZR k * machine_epsilon prec) (B2R x) (B2R y) -> near_eps k x y = true) /\
  (near_eps k x y = true -> within ((1 + machine_epsilon prec / 2) * (IZR k * machine_epsilon prec)) (B2R x) (B2R y)).
Proof.
  intros A B K. destruct (tolerance k K) as [V Fi]. destruct (near_err_partial x y _ A B Fi) as [P Q]. rewrite V in P, Q. split; assumption.
Qed.
(** C114: the order of the arguments does not matter. *)
Theorem near_symmetric (k : Z) (x y err : fl) : near_err x y err = near_err y x err /\ near_eps k x y = near_eps k y x.
Proof. split; [apply near_err_sym|]. rewrite !near_eps_err. apply near_err_sym. Qed.
(** C114: every finite number is near itself. *)
Theorem near_reflexive (k : Z) (x err : fl) : is_finite x = true -> is_finite err = true ->
  (near_err x x err = true <-> 0 <= B2R err) /\ ((0 <= k <= 2 ^ prec)%Z -> near_eps k x x = true).
Proof.
  intros A B. assert (Z0 : Rabs (B2R x - B2R x) = 0) by (rewrite Rminus_eq_0; apply Rabs_R0). split; [split|].
  - intros H. apply near_err_sound in H; try assumption. rewrite Z0 in H. pose proof (bpow_gt_0 radix2 (- prec)).
    destruct (Rle_lt_dec 0 (B2R err)) as [L|L]; [exact L|exfalso]. nra.
  - intros H. apply near_err_complete; try assumption. lra.
  - intros K. apply near_eps_partial; try assumption. unfold within, machine_epsilon. rewrite Z0.
    apply Rmult_le_pos; [apply IZR_le; lia|apply bpow_ge_0].
Qed.
(** C114: a larger tolerance accepts all that a smaller one accepts. *)
Theorem near_monotone (x y e1 e2 : fl) : is_finite x = true -> is_finite y = true -> is_finite e1 = true -> is_finite e2 = true ->
  B2R e1 <= B2R e2 -> near_err x y e1 = true -> near_err x y e2 = true.
Proof. apply near_err_mono. Qed.
(** C114: NaN is near nothing, and an infinity is near nothing for a finite tolerance, itself included. *)
Theorem near_special (s : bool) (x err : fl) : near_err B754_nan x err = false /\ near_err x B754_nan err = false /\
  (is_finite err = true -> near_err (B754_infinity s) x err = false /\ near_err x (B754_infinity s) err = false).
Proof.
  split; [apply near_nan|]. split; [rewrite near_err_sym; apply near_nan|]. intros C.
  split; [|rewrite near_err_sym]; now apply near_inf.
Qed.
(** C114: complex numbers are near if both their parts are. *)
Theorem near_complex_parts (k : Z) (x y : fl * fl) :
  near_eps_c k x y = true <-> near_eps k (fst x) (fst y) = true /\ near_eps k (snd x) (snd y) = true.
Proof. apply andb_true_iff. Qed.
(** C114: with a complex tolerance, complex numbers are near if their distance is below the absolute value of the tolerance,
    up to a few roundings.  Missing: distances and tolerances whose squares overflow or underflow
    (near_complex_overflow_refuted, near_complex_underflow_refuted). *)
Theorem near_complex_partial (x y err : fl * fl) : (8 <= prec)%Z -> (8 < emax)%Z ->
  is_finite (fst x) = true -> is_finite (snd x) = true -> is_finite (fst y) = true -> is_finite (snd y) = true ->
  is_finite (fst err) = true -> is_finite (snd err) = true ->
  let distance2 := square_modulus (B2R (fst x) - B2R (fst y)) (B2R (snd x) - B2R (snd y)) in
  let tolerance2 := square_modulus (B2R (fst err)) (B2R (snd err)) in
  distance2 <= bpow radix2 (emax - 3) -> bpow radix2 (5 - emax) <= tolerance2 <= bpow radix2 (emax - 3) ->
  (near_err_c x y err = true -> distance2 <= (1 + 5 * machine_epsilon prec) * tolerance2) /\
  (distance2 <= (1 - 5 * machine_epsilon prec) * tolerance2 -> near_err_c x y err = true).
Proof.
  intros P E A B C D G H. cbv zeta. unfold square_modulus, machine_epsilon. intros L1 L2.
  replace (5 * bpow radix2 (1 - prec)) with (10 * bpow radix2 (- prec))
    by (replace (1 - prec)%Z with (1 + - prec)%Z by lia; rewrite bpow_plus; change (bpow radix2 1) with 2; lra).
  now apply near_complex.
Qed.
(** C114: every finite complex number is near itself, for any finite tolerance. *)
Theorem near_complex_reflexive (x err : fl * fl) : is_finite (fst x) = true -> is_finite (snd x) = true ->
  is_finite (fst err) = true -> is_finite (snd err) = true -> near_err_c x x err = true.
Proof. apply near_complex_self. Qed.
(** C114: a compile-time comparison with a rounding tolerance gives "equivalent" for numbers within the tolerance, the right order
    for all numbers beyond it by more than a rounding, and without a tolerance always the right order. *)
Theorem compare_near_partial (k : Z) (t n : fl) : is_finite t = true -> is_finite n = true -> (0 <= k <= 2 ^ prec)%Z ->
  (within (IZR k * machine_epsilon prec) (B2R t) (B2R n) -> compare_near k t n = Some Eq) /\
  (~ within ((1 + machine_epsilon prec / 2) * (IZR k * machine_epsilon prec)) (B2R t) (B2R n) ->
    compare_near k t n = Some (Rcompare (B2R t) (B2R n))) /\
  compare_near 0 t n = Some (Rcompare (B2R t) (B2R n)).
Proof.
  intros A B K. unfold compare_near. rewrite (Bcompare_correct _ _ t n A B). destruct (near_eps_partial k t n A B K) as [P Q].
  split; [|split; [|reflexivity]].
  - intros W. destruct (Z.eqb_spec k 0) as [E|E].
    + f_equal. apply Rcompare_Eq. rewrite E, Rmult_0_l in W. unfold within in W. apply Rabs_le_inv in W. lra.
    + now rewrite (P W).
  - intros W. destruct (Z.eqb k 0); [reflexivity|]. destruct (near_eps k t n) eqn:E; [contradiction (W (Q eq_refl))|reflexivity].
Qed.
(** C114: in this comparison infinities are equal to themselves, and NaN is unordered. *)
Theorem compare_near_special (k : Z) (s : bool) (x : fl) : (0 <= k <= 2 ^ prec)%Z ->
  compare_near k (B754_infinity s) (B754_infinity s : fl) = Some Eq /\ compare_near k B754_nan x = None.
Proof.
  intros K. destruct (tolerance (prec := prec) (emax := emax) k K) as [_ Fi]. unfold compare_near.
  rewrite !near_eps_err, near_inf, near_nan by exact Fi. destruct (Z.eqb k 0); split; try reflexivity; destruct s; reflexivity.
Qed.
(** C114, refuted as a rounding tolerance: from 4 on near means equal, so that neighbours are not near ... *)
Theorem near_large_refuted (x y : fl) : (2 <= prec)%Z -> is_finite x = true -> is_finite y = true ->
  4 <= Rabs (B2R x) -> 4 <= Rabs (B2R y) -> near_eps 2 x y = true -> B2R x = B2R y.
Proof. apply near_large. Qed.
(** ... and all numbers up to epsilon are near each other, whatever their ratio. *)
Theorem near_small_refuted (x y : fl) : (2 <= prec)%Z -> is_finite x = true -> is_finite y = true ->
  Rabs (B2R x) <= machine_epsilon prec -> Rabs (B2R y) <= machine_epsilon prec -> near_eps 2 x y = true.
Proof. apply near_small. Qed.
End Fmt.
Print Assumptions near_err_partial.
Print Assumptions near_eps_partial.
Print Assumptions near_symmetric.
Print Assumptions near_reflexive.
Print Assumptions near_monotone.
Print Assumptions near_special.
Print Assumptions near_complex_parts.
Print Assumptions near_complex_reflexive.
Print Assumptions compare_near_partial.
Print Assumptions compare_near_special.
Print Assumptions near_complex_partial.
Print Assumptions near_large_refuted.
Print Assumptions near_small_refuted.

(** ** Whole numbers. *)
(** C114: numbers of type int, while neither the difference nor the negation of the tolerance overflows. *)
Theorem near_int_partial (x y err : Z) : int_value x -> int_value y -> int_value err -> int_value (x - y) -> int_value (- err) ->
  exists b, near_int x y err = FVal b /\ (b = true <-> (Z.abs (x - y) <= err)%Z).
Proof.
  unfold int_value. intros A B C D E. unfold near_int.
  rewrite (proj2 (Z.ltb_ge _ _)), (proj2 (Z.leb_gt _ _)), (proj2 (Z.eqb_neq _ _)) by lia. eexists. split; [reflexivity|].
  rewrite andb_true_iff, !Z.leb_le. lia.
Qed.
Print Assumptions near_int_partial.
(** C114: the comparison of ints is undefined exactly if the difference or the negation of the tolerance overflows. *)
Theorem near_int_undefined (x y err : Z) : int_value x -> int_value y -> int_value err ->
  near_int x y err = FUB <-> ~ (int_value (x - y) /\ int_value (- err)).
Proof.
  unfold int_value. intros A B C. unfold near_int. destruct (Z.ltb_spec (x - y) (- 2 ^ 31)), (Z.leb_spec (2 ^ 31) (x - y)), (Z.eqb_spec err (- 2 ^ 31));
    cbn [orb]; split; intros H1; try reflexivity; try discriminate H1; try lia.
Qed.
Print Assumptions near_int_undefined.
(** C114, refuted: the difference of two ints may overflow, which is undefined, although the answer is plain. *)
Theorem near_int_overflow_refuted : near_int (2 ^ 31 - 1) (-1) 5 = FUB. Proof. reflexivity. Qed.
Print Assumptions near_int_overflow_refuted.
(** C114: without a tolerance unsigned numbers are near if they are equal. *)
Theorem near_unsigned_exact (x y : Z) : unsigned_value x -> unsigned_value y -> near_unsigned x y 0 = true <-> x = y.
Proof.
  unfold unsigned_value, near_unsigned. intros A B. change ((- 0) mod 2 ^ 32)%Z with 0%Z. rewrite andb_true_iff, !Z.leb_le. split.
  - intros H. assert (E : ((x - y) mod 2 ^ 32 = 0)%Z) by lia. apply Z.mod_divide in E; [|lia]. destruct E as [q E]. nia.
  - intros ->. rewrite Z.sub_diag. change (0 mod 2 ^ 32)%Z with 0%Z. lia.
Qed.
Print Assumptions near_unsigned_exact.
(** C114, refuted: with a tolerance, unless it is huge, no two unsigned numbers are near, not even equal ones. *)
Theorem near_unsigned_refuted (x y err : Z) : unsigned_value x -> unsigned_value y -> (0 < err < 2 ^ 31)%Z -> near_unsigned x y err = false.
Proof.
  unfold unsigned_value, near_unsigned. intros A B E. assert (M : ((- err) mod 2 ^ 32 = 2 ^ 32 - err)%Z).
  { symmetry. apply Z.mod_unique with (-1)%Z; lia. }
  rewrite M. destruct (Z.leb_spec (2 ^ 32 - err) ((x - y) mod 2 ^ 32)); [|reflexivity].
  cbn [andb]. apply Z.leb_gt. lia.
Qed.
Print Assumptions near_unsigned_refuted.
Example near_unsigned_ex : near_unsigned 1 1 1 = false. Proof. reflexivity. Qed.

(** ** Double precision. *)
Notation d n := (of_Z n : float64).
Notation p n := (of_me 1 n : float64).
(** The hypotheses are met: 1 is near 1 + 2^-51 and not near 1 + 2^-50. *)
Example near_ex : is_finite (d 1) = true /\ is_finite (of_me (2 ^ 51 + 1) (-51) : float64) = true /\
  near_eps 2 (d 1) (of_me (2 ^ 51 + 1) (-51)) = true /\ near_eps 2 (d 1) (of_me (2 ^ 50 + 1) (-50)) = false /\
  compare_near 2 (d 1) (of_me (2 ^ 51 + 1) (-51)) = Some Eq /\ compare_near 2 (d 1) (of_me (2 ^ 50 + 1) (-50)) = Some Lt /\
  near_err (d 3) (d 5) (d 2) = true /\ near_err (d 3) (d 5) (d 1) = false.
Proof. repeat split; vm_compute; reflexivity. Qed.
(** 3 + 4i and 3 + 5i with the tolerance i - 1 meet the hypotheses. *)
Example near_complex_ex : square_modulus (B2R (d 3) - B2R (d 3)) (B2R (d 4) - B2R (d 5)) <= bpow radix2 (1024 - 3) /\
  bpow radix2 (5 - 1024) <= square_modulus (B2R (d (-1))) (B2R (d 1)) <= bpow radix2 (1024 - 3) /\
  near_err_c (d 3, d 4) (d 3, d 5) (d (-1), d 1) = true /\ near_err_c (d 3, d 4) (d 3, d 7) (d (-1), d 1) = false.
Proof.
  assert (V3 : B2R (d 3) = 3) by (value; lra). assert (V4 : B2R (d 4) = 4) by (value; lra). assert (V5 : B2R (d 5) = 5) by (value; lra).
  assert (V1 : B2R (d 1) = 1) by (value; lra). assert (Vm : B2R (d (-1)) = -1) by (value; lra).
  assert (L : 4 <= bpow radix2 (1024 - 3)) by (apply Rle_trans with (bpow radix2 2); [simpl; lra|apply bpow_le; lia]).
  assert (M : bpow radix2 (5 - 1024) <= 1) by (apply Rle_trans with (bpow radix2 0); [apply bpow_le; lia|simpl; lra]).
  unfold square_modulus. rewrite V1, V3, V4, V5, Vm. split; [lra|]. split; [lra|]. split; vm_compute; reflexivity.
Qed.
(** C114, refuted: a difference just above the tolerance is accepted. *)
Theorem near_exact_refuted : exists x y : float64, is_finite x = true /\ is_finite y = true /\ near_eps 2 x y = true /\
  ~ within (2 * machine_epsilon 53) (B2R x) (B2R y).
Proof.
  exists (p (-51)), (of_me (-1) (-120)). split; [vm_compute; reflexivity|]. split; [vm_compute; reflexivity|]. split; [vm_compute; reflexivity|].
  unfold within, machine_epsilon. assert (V : B2R (p (-51)) = bpow radix2 (-51)) by (value; lra).
  assert (W : B2R (of_me (-1) (-120) : float64) = - bpow radix2 (-120)) by (value; lra).
  rewrite V, W. intros H. pose proof (bpow_gt_0 radix2 (-120)). pose proof (bpow_gt_0 radix2 (-51)).
  rewrite Rabs_pos_eq in H by lra. change (1 - 53)%Z with (-1 + -51)%Z in H. rewrite bpow_plus in H. change (bpow radix2 (-1)) with (/ 2) in H. lra.
Qed.
Print Assumptions near_exact_refuted.
(** C114, refuted: infinity is not near itself. *)
Theorem near_infinity_refuted : near_eps 2 (B754_infinity false : float64) (B754_infinity false) = false. Proof. reflexivity. Qed.
Print Assumptions near_infinity_refuted.
(** C114, refuted: 4 is not near the next number; 2^-1000 is near 2^-60. *)
Theorem near_neighbours_refuted : near_eps 2 (d 4) (of_me (2 ^ 52 + 1) (-50)) = false /\
  near_eps 2 (p (-1000)) (p (-60)) = true.
Proof. repeat split; vm_compute; reflexivity. Qed.
Print Assumptions near_neighbours_refuted.
(** C114, refuted: with a complex tolerance the squares underflow, and 2^-600 is within 0 of 0; ... *)
Theorem near_complex_underflow_refuted : near_err_c (p (-600), fzero) (fzero, fzero) (fzero, fzero) = true /\ near_err (p (-600)) fzero fzero = false.
Proof. split; vm_compute; reflexivity. Qed.
Print Assumptions near_complex_underflow_refuted.
(** ... or overflow, and 2^600 is within 2^520 of 0; ... *)
Theorem near_complex_overflow_refuted : near_err_c (p 600, fzero) (fzero, fzero) (p 520, fzero) = true /\ near_err (p 600) fzero (p 520) = false.
Proof. split; vm_compute; reflexivity. Qed.
Print Assumptions near_complex_overflow_refuted.
(** ... and a negative tolerance accepts what its absolute value accepts. *)
Theorem near_complex_negative_refuted : near_err_c (d 1, fzero) (d 2, fzero) (d (-1), fzero) = true /\ near_err (d 1) (d 2) (d (-1)) = false.
Proof. split; vm_compute; reflexivity. Qed.
Print Assumptions near_complex_negative_refuted.
