(** * Proofs: an angular output makes the Monte Carlo covariance depend on the schedule. *)
From Coq Require Import Reals Lra List Permutation.
From mathcomp Require Import all_ssreflect all_algebra.
From Verif Require Import RealField PatModel MonteModel MonteAngleModel MonteProofs.
Set Implicit Arguments.
Unset Strict Implicit.
Unset Printing Implicit Defensive.
Import GRing.Theory.
Local Open Scope ring_scope.
Delimit Scope R_scope with coqR.

Notation o := (0 : 'I_1).
Notation i0 := (0 : 'I_2).
Notation i1 := (1 : 'I_2).

Lemma R0E : (0 : R_rcfType) = IZR 0. Proof. by []. Qed.

Section A.
Variable fast : bool.
Let sp := angle_space fast.
Notation sum1 := (mc_sum R_rcfType 1 1 2).

Lemma natrINR k : (k%:R : R) = INR k.
Proof. by elim: k => // k IH; rewrite S_INR -IH mulrS addrC. Qed.

Lemma op1 (a b : sum1) (ya yb : R) : (0 < MonteModel.count a + MonteModel.count b)%N ->
  (MonteModel.count b = 1%N -> syy b = 0) ->
  from_stat sp (sy a) 0 0 = ya -> from_stat sp (sy b) 0 0 = yb ->
  (- PI <= yb - ya < PI)%coqR ->
  exists r, [/\ mc_op sp a b = Some r,
    MonteModel.count r = (MonteModel.count a + MonteModel.count b)%N,
    (forall i, sy r i o = (INR (MonteModel.count a) * sy a i o + INR (MonteModel.count b) * sy b i o)
       / INR (MonteModel.count a + MonteModel.count b))%coqR &
    (syy r o o = syy a o o + syy b o o + INR (MonteModel.count a) * INR (MonteModel.count b)
       / INR (MonteModel.count a + MonteModel.count b) * ((yb - ya) * (yb - ya)))%coqR].
Proof.
move=> h h1 ea eb d.
have hi : (INR (MonteModel.count a + MonteModel.count b) <> 0)%coqR.
  by apply: not_0_INR => e; rewrite e in h.
have [r hr [e1 _ e3 e4 _]] := mc_opE sp h.
exists r; split=> //.
- move=> i; rewrite e3 !mxE !natrINR R_invE //; exact: Rmult_comm.
- have hd : difference sp (from_stat sp (sy b)) (from_stat sp (sy a)) 0 0 = (yb - ya)%coqR.
    rewrite mxE -!/(from_stat sp _) ea eb /= /wrap_phi_mod /=.
    case: d => d1 d2; case: Rle_dec => [?|n]; last by case: n.
    by case: Rlt_dec => [?|n]; last by case: n.
  rewrite e4 //; move: hd; move: (difference sp _ _) => D hd.
  rewrite !mxE big_ord1 !mxE hd !natrINR R_invE //.
  have aux (A B q w w' u : R) : (A + B + q * (w * w' * (u * u)) = A + B + w * w' * q * (u * u))%coqR by ring.
  exact: aux.
Qed.

Lemma from_pos (v : 'cV[R_rcfType]_2) (x y : R) : v i0 o = x -> v i1 o = y -> (0 < x)%coqR ->
  from_stat sp v o o = atan (y / x).
Proof.
move=> h0 h1 h; rewrite /= mxE /= /ang_from /atan2 /= h0 h1.
have hp := PI_RGT_0.
have [b1 b2] := atan_bound (y / x).
case: Rlt_dec => // _.
case: ifP => // _; rewrite /wrap_phi.
have -> : (atan (y / x) * ((PI - - PI) / (2 * PI)) = atan (y / x))%coqR by field; lra.
case: Rlt_dec => [?|_]; first by lra.
by case: Rle_dec => [?|_] //; lra.
Qed.

Lemma from_up (v : 'cV[R_rcfType]_2) (y : R) : v i0 o = IZR 0 -> v i1 o = y -> (0 < y)%coqR ->
  from_stat sp v o o = (PI / 2)%coqR.
Proof.
move=> h0 h1 h; rewrite /= mxE /= /ang_from /atan2 /= h0 h1.
have hp := PI_RGT_0.
case: Rlt_dec => [?|_]; first by lra.
case: Rlt_dec => [_|?]; last by lra.
case: ifP => // _; rewrite /wrap_phi.
have -> : (PI / 2 * ((PI - - PI) / (2 * PI)) = PI / 2)%coqR by field; lra.
case: Rlt_dec => [?|_]; first by lra.
by case: Rle_dec => [?|_] //; lra.
Qed.

Definition angle_draw (a : R) : 'cV[R]_1 * 'cV[R]_1 := (const_mx a, const_mx a).
Let one a := mc_one sp (angle_draw a).1 (angle_draw a).2.

Lemma one_sy a : (sy (one a) i0 o = cos a /\ sy (one a) i1 o = sin a)%coqR.
Proof.
have hp := PI_RGT_0.
rewrite /one /mc_one /= !mxE /= /ang_scale.
by have -> : (a * (2 * PI / (PI - - PI)) = a)%coqR by field; lra.
Qed.

Lemma atan_half : (atan (1 / 2) <> PI / 6)%coqR.
Proof.
move=> e; have := atan_right_inv (1 / 2); rewrite e tan_PI6 => h.
have hp : (0 < sqrt 3)%coqR by apply: sqrt_lt_R0; lra.
have h2 : (sqrt 3 = 2)%coqR.
  have -> : (sqrt 3 = 2 * (sqrt 3 * (1 / 2)))%coqR by field.
  by rewrite -{1}h; field; lra.
have h3 : (0 <= 3)%coqR by lra.
by have := sqrt_sqrt 3 h3; rewrite h2; lra.
Qed.

Lemma from_zero : from_stat sp 0 o o = IZR 0.
Proof.
have hp := PI_RGT_0.
rewrite /= mxE /= /ang_from /atan2 /signbit /= !mxE.
case: Rlt_dec => [/=|_]; first by move/Rlt_irrefl.
case: Req_EM_T => [_|]; last by case.
case: ifP => // _; rewrite /wrap_phi Rmult_0_l.
case: Rlt_dec => [?|_]; first by lra.
by case: Rle_dec => [?|_] //; lra.
Qed.

Lemma from_one0 : from_stat sp (sy (one (IZR 0))) o o = IZR 0.
Proof.
have [c1 c2] := one_sy (IZR 0); rewrite cos_0 in c1; rewrite sin_0 in c2.
rewrite (from_pos c1 c2); last by lra.
by rewrite /Rdiv Rmult_0_l atan_0.
Qed.

Lemma from_oneq : from_stat sp (sy (one (PI / 2)%coqR)) o o = (PI / 2)%coqR.
Proof.
have [c1 c2] := one_sy (PI / 2)%coqR; rewrite cos_PI2 in c1; rewrite sin_PI2 in c2.
by apply: (from_up c1 c2); lra.
Qed.

Definition start : schedule R_rcfType 1 1 2 :=
  Group (Group (Elem (mc_zero R_rcfType 1 1 2)) (Elem (one (IZR 0)))) (Elem (one (IZR 0))).
Definition one_by_one : schedule R_rcfType 1 1 2 :=
  Group (Group start (Elem (one (PI / 2)%coqR))) (Elem (one (PI / 2)%coqR)).
Definition in_pairs : schedule R_rcfType 1 1 2 :=
  Group start (Group (Elem (one (PI / 2)%coqR)) (Elem (one (PI / 2)%coqR))).
Definition four_draws := [:: angle_draw (IZR 0); angle_draw (IZR 0); angle_draw (PI / 2)%coqR; angle_draw (PI / 2)%coqR].

Lemma run_group (l r : schedule R_rcfType 1 1 2) a b c : run sp l = Some a -> run sp r = Some b -> mc_op sp a b = Some c ->
  run sp (Group l r) = Some c.
Proof. by rewrite /= => -> ->. Qed.

Lemma run_elem (a : sum1) : run sp (Elem a) = Some a. Proof. by []. Qed.

Lemma start_run : exists r, [/\ run sp start = Some r, MonteModel.count r = 2%N,
  sy r i0 o = IZR 1, sy r i1 o = IZR 0 & syy r o o = IZR 0].
Proof.
have hp := PI_RGT_0.
have [c1 c2] := one_sy (IZR 0); rewrite cos_0 in c1; rewrite sin_0 in c2.
have [| | |r1 [e1 n1 y1 v1]] := @op1 (mc_zero R_rcfType 1 1 2) (one (IZR 0)) _ _ _ _ from_zero from_one0.
- by [].
- by [].
- by lra.
have a1 : sy r1 i0 o = IZR 1.
  by rewrite y1 c1; move: (sy (mc_zero _ _ _ _) i0 o) => X /=; field.
have b1 : sy r1 i1 o = IZR 0.
  by rewrite y1 c2; move: (sy (mc_zero _ _ _ _) i1 o) => X /=; field.
have z1 : syy r1 o o = IZR 0 by rewrite v1 !mxE R0E /=; field.
have fr1 : from_stat sp (sy r1) o o = IZR 0.
  rewrite (from_pos a1 b1); last by lra.
  have -> : (0 / 1 = 0)%coqR by field.
  exact: atan_0.
have [| | |r2 [e2 n2 y2 v2]] := @op1 r1 (one (IZR 0)) _ _ _ _ fr1 from_one0.
- by rewrite n1.
- by [].
- by lra.
exists r2; split.
- exact: (run_group (run_group (run_elem _) (run_elem _) e1) (run_elem _) e2).
- by rewrite n2 n1.
- by rewrite y2 n1 a1 c1 /=; field.
- by rewrite y2 n1 b1 c2 /=; field.
- by rewrite v2 n1 z1 !mxE R0E /=; field.
Qed.

Lemma one_by_one_run : exists r, run sp one_by_one = Some r /\
  (syy r o o = PI * PI / 6 + 3 / 4 * ((PI / 2 - atan (1 / 2)) * (PI / 2 - atan (1 / 2))))%coqR.
Proof.
have hp := PI_RGT_0.
have [c1 c2] := one_sy (PI / 2)%coqR; rewrite cos_PI2 in c1; rewrite sin_PI2 in c2.
have [r2 [e2 n2 a2 b2 v2]] := start_run.
have fr2 : from_stat sp (sy r2) o o = IZR 0.
  rewrite (from_pos a2 b2); last by lra.
  have -> : (0 / 1 = 0)%coqR by field.
  exact: atan_0.
have [| | |r3 [e3 n3 y3 v3]] := @op1 r2 (one (PI / 2)%coqR) _ _ _ _ fr2 from_oneq.
- by rewrite n2.
- by [].
- by lra.
have fr3 : from_stat sp (sy r3) o o = atan (1 / 2)%coqR.
  have a3 : sy r3 i0 o = (2 / 3)%coqR by rewrite y3 n2 c1 a2 /=; field.
  have d3 : sy r3 i1 o = (1 / 3)%coqR by rewrite y3 n2 c2 b2 /=; field.
  rewrite (from_pos a3 d3); last by lra.
  by congr atan; field.
have [b3 b4] := atan_bound (1 / 2)%coqR.
have p0 : (0 < atan (1 / 2))%coqR by rewrite -{1}atan_0; apply: atan_increasing; lra.
have [| | |r4 [e4 n4 y4 v4]] := @op1 r3 (one (PI / 2)%coqR) _ _ _ _ fr3 from_oneq.
- by rewrite n3 n2.
- by [].
- by lra.
exists r4; split; first by exact: (run_group (run_group e2 (run_elem _) e3) (run_elem _) e4).
rewrite v4 n3 v3 v2 n2 !mxE R0E /=; field.
Qed.

Lemma in_pairs_run : exists r, run sp in_pairs = Some r /\ (syy r o o = PI * PI / 4)%coqR.
Proof.
have hp := PI_RGT_0.
have [c1 c2] := one_sy (PI / 2)%coqR; rewrite cos_PI2 in c1; rewrite sin_PI2 in c2.
have [r2 [e2 n2 a2 b2 v2]] := start_run.
have fr2 : from_stat sp (sy r2) o o = IZR 0.
  rewrite (from_pos a2 b2); last by lra.
  have -> : (0 / 1 = 0)%coqR by field.
  exact: atan_0.
have [| | |q2 [f2 m2 y2 w2]] := @op1 (one (PI / 2)%coqR) (one (PI / 2)%coqR) _ _ _ _ from_oneq from_oneq.
- by [].
- by [].
- by lra.
have fq2 : from_stat sp (sy q2) o o = (PI / 2)%coqR.
  have a3 : sy q2 i0 o = IZR 0 by rewrite y2 c1 /=; field.
  have d3 : sy q2 i1 o = IZR 1 by rewrite y2 c2 /=; field.
  by apply: (from_up a3 d3); lra.
have [| | |r4 [e4 n4 y4 v4]] := @op1 r2 q2 _ _ _ _ fr2 fq2.
- by rewrite n2.
- by rewrite m2.
- by lra.
exists r4; split; first by exact: (run_group e2 (run_group (run_elem _) (run_elem _) f2) e4).
rewrite v4 n2 m2 v2 w2 !mxE R0E /=; field.
Qed.

Lemma four_reduces : reduces sp four_draws one_by_one /\ reduces sp four_draws in_pairs.
Proof. by split; exact: Permutation_refl. Qed.

End A.
