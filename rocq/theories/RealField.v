(** * The real numbers of the standard library as a real closed field

    The matrix theorems of this development hold over every real closed field;
    this file lets them be used at the real numbers, next to logarithms and
    trigonometric functions. *)
From Coq Require Import Reals Lra ClassicalEpsilon FunctionalExtensionality Ranalysis.
From mathcomp Require Import all_ssreflect all_algebra.
Set Implicit Arguments.
Unset Strict Implicit.
Unset Printing Implicit Defensive.
Import GRing.Theory Num.Theory Order.Theory.
Local Open Scope R_scope.

Definition eqRb (x y : R) : bool := if Req_EM_T x y then true else false.
Lemma eqRbP : Equality.axiom eqRb.
Proof. by move=> x y; rewrite /eqRb; case: Req_EM_T => h; constructor. Qed.
Definition R_eqMixin := EqMixin eqRbP.
Canonical R_eqType := Eval hnf in EqType R R_eqMixin.

Definition pick_real (P : pred R) (_ : nat) : option R :=
  match excluded_middle_informative (exists x, P x) with
  | left h => Some (proj1_sig (constructive_indefinite_description _ h))
  | right _ => None
  end.

Fact R_choiceMixin : choiceMixin R.
Proof.
exists pick_real.
- move=> P n x; rewrite /pick_real; case: excluded_middle_informative => // h [<-].
  by case: constructive_indefinite_description.
- move=> P h; exists 0%N; rewrite /pick_real.
  by case: excluded_middle_informative.
- by move=> P Q e n; rewrite (_ : P = Q) //; apply: functional_extensionality.
Qed.
Canonical R_choiceType := Eval hnf in ChoiceType R R_choiceMixin.

Fact R_addA : associative Rplus. Proof. by move=> x y z; rewrite Rplus_assoc. Qed.
Fact R_addC : commutative Rplus. Proof. exact: Rplus_comm. Qed.
Fact R_add0 : left_id 0 Rplus. Proof. exact: Rplus_0_l. Qed.
Fact R_addN : left_inverse 0 Ropp Rplus. Proof. exact: Rplus_opp_l. Qed.
Definition R_zmodMixin := ZmodMixin R_addA R_addC R_add0 R_addN.
Canonical R_zmodType := Eval hnf in ZmodType R R_zmodMixin.

Fact R_mulA : associative Rmult. Proof. by move=> x y z; rewrite Rmult_assoc. Qed.
Fact R_mulC : commutative Rmult. Proof. exact: Rmult_comm. Qed.
Fact R_mul1 : left_id 1 Rmult. Proof. exact: Rmult_1_l. Qed.
Fact R_mulD : left_distributive Rmult Rplus. Proof. exact: Rmult_plus_distr_r. Qed.
Fact R_1_0 : (1 : R) != 0. Proof. by apply/eqP; exact: R1_neq_R0. Qed.
Definition R_ringMixin := ComRingMixin R_mulA R_mulC R_mul1 R_mulD R_1_0.
Canonical R_ringType := Eval hnf in RingType R R_ringMixin.
Canonical R_comRingType := Eval hnf in ComRingType R R_mulC.

Definition R_unit : pred R := fun x => x != 0.
Definition R_invb (x : R) : R := if x == 0 then 0 else / x.
Fact R_mulV : {in R_unit, left_inverse 1 R_invb Rmult}.
Proof.
move=> x; rewrite unfold_in /R_unit /R_invb => /eqP h.
by case: eqP => // _; apply: Rinv_l.
Qed.
Fact R_unitP x y : y * x = 1 -> R_unit x.
Proof. by move=> h; apply/eqP=> e; move: h; rewrite e; lra. Qed.
Fact R_inv_out : {in predC R_unit, R_invb =1 id}.
Proof. move=> x; rewrite !unfold_in /= /R_unit /R_invb negbK => /eqP ->; by rewrite eqxx. Qed.
Fact R_inv0 : R_invb 0 = 0. Proof. by rewrite /R_invb eqxx. Qed.
Definition R_unitMixin := ComUnitRingMixin R_mulV R_unitP R_inv_out.
Canonical R_unitRingType := Eval hnf in UnitRingType R R_unitMixin.
Canonical R_comUnitRingType := Eval hnf in [comUnitRingType of R].

Fact R_fieldMixin : GRing.Field.mixin_of [unitRingType of R].
Proof. by move=> x h. Qed.
Definition R_idomainMixin := FieldIdomainMixin R_fieldMixin.
Canonical R_idomainType := Eval hnf in IdomainType R R_idomainMixin.
Canonical R_fieldType := Eval hnf in FieldType R R_fieldMixin.

Definition Rleb (x y : R) : bool := if Rle_dec x y then true else false.
Definition Rltb (x y : R) : bool := if Rlt_dec x y then true else false.
Lemma RlebP x y : reflect (x <= y) (Rleb x y).
Proof. by rewrite /Rleb; case: Rle_dec => h; constructor. Qed.
Lemma RltbP x y : reflect (x < y) (Rltb x y).
Proof. by rewrite /Rltb; case: Rlt_dec => h; constructor. Qed.

Fact R_le0_add x y : Rleb 0 x -> Rleb 0 y -> Rleb 0 (x + y).
Proof. by move=> /RlebP h /RlebP k; apply/RlebP; lra. Qed.
Fact R_le0_mul x y : Rleb 0 x -> Rleb 0 y -> Rleb 0 (x * y).
Proof. by move=> /RlebP h /RlebP k; apply/RlebP; apply: Rmult_le_pos. Qed.
Fact R_le0_anti x : Rleb 0 x -> Rleb x 0 -> x = 0.
Proof. by move=> /RlebP h /RlebP k; lra. Qed.
Fact R_sub_ge0 x y : Rleb 0 (y - x) = Rleb x y.
Proof. by apply/RlebP/RlebP; lra. Qed.
Fact R_le0_total x : Rleb 0 x || Rleb x 0.
Proof. by case: (Rle_lt_dec 0 x) => h; apply/orP; [left|right]; apply/RlebP; lra. Qed.
Fact R_ge0_norm x : Rleb 0 x -> Rabs x = x.
Proof. by move=> /RlebP h; apply: Rabs_pos_eq. Qed.
Fact R_lt_def x y : Rltb x y = (y != x) && Rleb x y.
Proof.
apply/RltbP/andP => [h|[/eqP h /RlebP k]]; last lra.
by split; [apply/eqP; lra|apply/RlebP; lra].
Qed.
Definition R_leMixin : realLeMixin [idomainType of R] :=
  RealLeMixin R_le0_add R_le0_mul R_le0_anti R_sub_ge0 R_le0_total Rabs_Ropp R_ge0_norm R_lt_def.
Canonical R_porderType := POrderType ring_display R R_leMixin.
Canonical R_latticeType := LatticeType R R_leMixin.
Canonical R_distrLatticeType := DistrLatticeType R R_leMixin.
Canonical R_orderType := OrderType R R_leMixin.
Canonical R_numDomainType := NumDomainType R R_leMixin.
Canonical R_normedZmodType := NormedZmodType R R R_leMixin.
Canonical R_numFieldType := [numFieldType of R].
Canonical R_realDomainType := [realDomainType of R].
Canonical R_realFieldType := [realFieldType of R].

Lemma leRP (x y : R) : reflect (x <= y) (x <= y)%O.
Proof. exact: RlebP. Qed.
Lemma ltRP (x y : R) : reflect (x < y) (x < y)%O.
Proof. exact: RltbP. Qed.

Lemma horner_continuity (p : {poly R}) : continuity (fun x => p.[x]%R).
Proof.
elim/poly_ind: p => [|p c IH].
- rewrite (_ : (fun x : R => _) = (fun _ => 0)); first by apply: continuity_const => x y.
  by apply: functional_extensionality => x; rewrite horner0.
- rewrite (_ : (fun x : R => _) = plus_fct (mult_fct (fun x => p.[x]%R) id) (fct_cte c)).
  + apply: continuity_plus; last by apply: continuity_const => x y.
    by apply: continuity_mult => //; apply: derivable_continuous; apply: derivable_id.
  + by apply: functional_extensionality => x; rewrite hornerMXaddC.
Qed.

Fact R_closed : Num.real_closed_axiom R_numDomainType.
Proof.
move=> p a b /leRP hab /andP [/leRP ha /leRP hb].
have hf : continuity (fun x => p.[x]%R) := horner_continuity p.
have hs : (p.[a] * p.[b])%R <= 0.
  have -> : (p.[a] * p.[b])%R = Rmult p.[a]%R p.[b]%R by [].
  move: ha hb; set u := p.[a]%R; set v := p.[b]%R => ha hb.
  have ha' : u <= IZR 0 := ha; have hb' : IZR 0 <= v := hb.
  by have := Rmult_le_pos (- u) v; lra.
have [z [hz e]] := @IVT_cor (fun x => p.[x]%R) a b hf hab hs.
exists z; last by apply/rootP.
by apply/andP; split; apply/leRP; lra.
Qed.
Canonical R_rcfType := RcfType R R_closed.

Lemma R_invE (x : R) : x <> 0 -> (x^-1)%R = Rinv x.
Proof. by move=> h; rewrite /GRing.inv /= /R_invb; case: eqP. Qed.
Lemma R_sqrtE (x : R) : 0 <= x -> Num.sqrt x = R_sqrt.sqrt x.
Proof.
move=> h; apply/eqP; rewrite -(@eqr_expn2 _ 2) ?sqrtr_ge0 //; last by apply/leRP; apply: sqrt_pos.
rewrite sqr_sqrtr; last by apply/leRP.
by apply/eqP; rewrite expr2 -[RHS]/(Rmult _ _) sqrt_sqrt.
Qed.
