(** * The Monte Carlo transform under every schedule (C46, C47). *)
From Coq Require Import Reals Lra Permutation.
From mathcomp Require Import all_ssreflect all_algebra.
From Verif Require Import RingTac RealField MonteModel MonteSpec MonteProofs MonteAngleModel MonteAngleProofs.
Set Implicit Arguments.
Unset Strict Implicit.
Unset Printing Implicit Defensive.
Import GRing.Theory Num.Theory Order.Theory.
Local Open Scope ring_scope.

Section Monte.
Variable R : rcfType.

(** C46.  However the reduction groups and reorders the draws, a Euclidean output's mean, covariance and
    cross-covariance with the input are the sample's. *)
Theorem montecarlo_any_schedule m n (draws : seq ('cV[R]_m * 'cV[R]_n)) (t : schedule R m n n) :
  (2 <= size draws)%N -> reduces (euclidean_space R n) draws t ->
  mc_transform (euclidean_space R n) (size draws) t =
  Some (average draws snd, sample_cov draws snd snd, sample_cov draws fst snd).
Proof.
move=> h2 hr; have [s p o] := reduces_draws hr.
have es := size_perm p.
have hs : (0 < size s)%N by rewrite es; apply: leq_trans h2.
have hs' : (0 < size draws)%N by rewrite -es.
have h0 : ((size draws)%:R : R) != 0 by apply: natr_neq0; rewrite -lt0n.
have h1 : ((size draws)%:R - 1 : R) != 0.
  by rewrite subr_eq0 pnatr_eq1; apply/eqP=> e; rewrite e in h2.
have [r er [[c x y] v w]] := full_run o (leqnn 1).
rewrite es in x y v w.
rewrite (big_perm _ p) in x; rewrite (big_perm _ p) in y.
rewrite (big_perm _ p) in v; rewrite (big_perm _ p) in w.
have ex : sx r = average draws fst by rewrite /average -x scalerA mulVf // scale1r.
have ey : sy r = average draws snd by rewrite /average -y scalerA mulVf // scale1r.
rewrite /mc_transform er (negbTE h1) /sample_cov !centred //.
by rewrite v w ex ey.
Qed.

(** Hence two runs of one transform agree. *)
Theorem montecarlo_schedule_independent m n (draws : seq ('cV[R]_m * 'cV[R]_n)) (t t' : schedule R m n n) :
  (2 <= size draws)%N -> reduces (euclidean_space R n) draws t -> reduces (euclidean_space R n) draws t' ->
  mc_transform (euclidean_space R n) (size draws) t = mc_transform (euclidean_space R n) (size draws) t'.
Proof. by move=> h a b; rewrite !montecarlo_any_schedule. Qed.

(** Three draws have schedules of quite different shapes. *)
Example three_draws_schedules (a b c : 'cV[R]_2 * 'cV[R]_3) :
  let one d := Elem (mc_one (euclidean_space R 3) d.1 d.2) in
  let zero := Elem (mc_zero R 2 3 3) in
  [/\ (2 <= size [:: a; b; c])%N,
      reduces (euclidean_space R 3) [:: a; b; c] (Group (Group (Group zero (one a)) (one b)) (one c)) &
      reduces (euclidean_space R 3) [:: a; b; c] (Group (Group (one c) (one a)) (Group (one b) zero))].
Proof.
split=> //.
rewrite /reduces /=.
apply: (Permutation_trans (Permutation_sym (Permutation_middle [:: _; _; _] [::] _))).
rewrite /=; apply: perm_skip.
apply: (Permutation_trans (l' := [:: mc_one _ a.1 a.2; mc_one _ c.1 c.2; mc_one _ b.1 b.2])); first exact: perm_swap.
by apply: perm_skip; exact: perm_swap.
Qed.

(** A single draw has no covariance: the program divides by zero. *)
Theorem montecarlo_single_draw m n k (sp : space R n k) (t : schedule R m n k) : mc_transform sp 1 t = None.
Proof. by rewrite /mc_transform subrr eqxx; case: run. Qed.

(** C47, the mean: whatever the coefficients of the output (angles and so on), every schedule gives the mean of the
    draws taken in the space where they are averaged. *)
Theorem montecarlo_angular_mean_partial m n k (sp : space R n k) (draws : seq ('cV[R]_m * 'cV[R]_n))
    (t : schedule R m n k) :
  (2 <= size draws)%N -> reduces sp draws t ->
  exists P C, mc_transform sp (size draws) t = Some (from_stat sp (average draws (fun d => to_stat sp d.2)), P, C).
Proof.
move=> h2 hr; have [s p o] := reduces_draws hr.
have es := size_perm p.
have hs' : (0 < size draws)%N by apply: leq_trans h2.
have h0 : ((size draws)%:R : R) != 0 by apply: natr_neq0; rewrite -lt0n.
have h1 : ((size draws)%:R - 1 : R) != 0.
  by rewrite subr_eq0 pnatr_eq1; apply/eqP=> e; rewrite e in h2.
have [r er [c x y]] := mean_run o (leqnn 1).
rewrite es in y; rewrite (big_perm _ p) in y.
rewrite /mc_transform er (negbTE h1); do 2 eexists.
by rewrite /average -y scalerA mulVf // scale1r.
Qed.
End Monte.

Delimit Scope R_scope with coqR.

(** C47, the covariance, is false: the draws 0, 0, pi/2, pi/2 of an angle have two schedules with different
    covariances.  All the draws lie within a quarter circle, so no difference between them is wrapped. *)
Theorem montecarlo_angular_covariance_refuted (fast : bool) :
  exists (draws : seq ('cV[R_rcfType]_1 * 'cV[R_rcfType]_1)) (t t' : schedule R_rcfType 1 1 2) y P P' C C',
    [/\ reduces (angle_space fast) draws t, reduces (angle_space fast) draws t',
        mc_transform (angle_space fast) (size draws) t = Some (y, P, C),
        mc_transform (angle_space fast) (size draws) t' = Some (y, P', C') & P <> P'].
Proof.
have [q1 q2] := four_reduces fast.
have [P [C e]] := montecarlo_angular_mean_partial (isT : (2 <= size four_draws)%N) q1.
have [P' [C' e']] := montecarlo_angular_mean_partial (isT : (2 <= size four_draws)%N) q2.
exists four_draws, (one_by_one fast), (in_pairs fast),
  (from_stat (angle_space fast) (average four_draws (fun d => to_stat (angle_space fast) d.2))), P, P', C, C'; split; [exact: q1|exact: q2|exact: e|exact: e'|].
move=> eP; move: e e'; rewrite /mc_transform.
have [r [-> h]] := one_by_one_run fast.
have [r' [-> h']] := in_pairs_run fast.
have h4 : ((size four_draws)%:R - 1 : R_rcfType) != 0.
  by rewrite subr_eq0 pnatr_eq1.
rewrite (negbTE h4) => -[_ v _] [_ v' _].
have : syy r = syy r'.
  by apply: (scalerI (invr_neq0 h4)); rewrite v v' eP.
move/(congr1 (fun M : 'M_1 => M 0 0)); rewrite h h' => k.
have [b1 b2] := atan_bound (1 / 2)%coqR.
have hp := PI_RGT_0.
apply: atan_half.
have : ((PI / 2 - atan (1 / 2) - PI / 3) * (PI / 2 - atan (1 / 2) + PI / 3) = 0)%coqR by move: k; lra.
by case/Rmult_integral => ?; lra.
Qed.

Print Assumptions montecarlo_any_schedule.
Print Assumptions montecarlo_schedule_independent.
Print Assumptions montecarlo_single_draw.
Print Assumptions montecarlo_angular_mean_partial.
Print Assumptions montecarlo_angular_covariance_refuted.
