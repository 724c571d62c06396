(** * Decision procedures for abelian groups and commutative rings of MathComp.

    Two reflexive tactics used in proofs only: [abel] for equations in a zmodType and [cring] for equations in a
    commutative ring (the latter through the normaliser of Coq's standard library, Ring_polynom). *)
From Coq Require Import ZArith Ring_polynom Ring_theory InitialRing BinList.
From mathcomp Require Import all_ssreflect all_algebra.
Set Implicit Arguments.
Unset Strict Implicit.
Unset Printing Implicit Defensive.
Import GRing.Theory.
Local Open Scope ring_scope.

(** ** Abelian groups. *)
Inductive gexp := GVar of nat | GZero | GAdd of gexp & gexp | GOpp of gexp | GMuln of gexp & nat.

Section Abel.
Variable V : zmodType.

Fixpoint gev (vs : seq V) (e : gexp) : V :=
  match e with
  | GVar i => nth 0 vs i
  | GZero => 0
  | GAdd a b => gev vs a + gev vs b
  | GOpp a => - gev vs a
  | GMuln a k => gev vs a *+ k
  end.

Fixpoint addc (a b : seq int) : seq int :=
  match a, b with
  | [::], _ => b
  | _, [::] => a
  | x :: a', y :: b' => (x + y) :: addc a' b'
  end.
Fixpoint unitc (i : nat) : seq int := if i is j.+1 then 0 :: unitc j else [:: 1].
Fixpoint gnorm (e : gexp) : seq int :=
  match e with
  | GVar i => unitc i
  | GZero => [::]
  | GAdd a b => addc (gnorm a) (gnorm b)
  | GOpp a => map -%R (gnorm a)
  | GMuln a k => map (fun z => z *+ k) (gnorm a)
  end.
Fixpoint lc (c : seq int) (vs : seq V) : V :=
  match c, vs with x :: c', v :: vs' => v *~ x + lc c' vs' | _, _ => 0 end.

Lemma lc_add a b vs : lc (addc a b) vs = lc a vs + lc b vs.
Proof.
elim: a b vs => [|x a IH] [|y b] [|v vs] //=; rewrite ?add0r ?addr0 //.
by rewrite IH mulrzDl addrACA.
Qed.
Lemma lc_opp a vs : lc (map -%R a) vs = - lc a vs.
Proof. by elim: a vs => [|x a IH] [|v vs] //=; rewrite ?oppr0 // IH mulrNz opprD. Qed.
Lemma lc_muln a k vs : lc (map (fun z => z *+ k) a) vs = lc a vs *+ k.
Proof.
elim: a vs => [|x a IH] [|v vs] //=; rewrite ?mul0rn // IH mulrnDl.
by congr (_ + _); rewrite -mulr_natr mulrzA natz -pmulrn.
Qed.
Lemma lc_unit i vs : lc (unitc i) vs = nth 0 vs i.
Proof. by elim: i vs => [|i IH] [|v vs] //=; rewrite ?addr0 ?mulr1z // IH mulr0z add0r. Qed.
Lemma gnormP vs e : gev vs e = lc (gnorm e) vs.
Proof.
elim: e => [i||a IHa b IHb|a IH|a IH k] //=.
- by rewrite lc_unit.
- by rewrite lc_add IHa IHb.
- by rewrite lc_opp IH.
- by rewrite lc_muln IH.
Qed.
Lemma lc_zero c vs : all (fun x => x == 0) c -> lc c vs = 0.
Proof. by elim: c vs => [|x c IH] [|v vs] //= /andP [/eqP -> /IH ->]; rewrite mulr0z addr0. Qed.
Lemma abelP vs a b : all (fun x => x == 0) (gnorm (GAdd a (GOpp b))) -> gev vs a = gev vs b.
Proof.
move=> h; apply/eqP; rewrite -subr_eq0; apply/eqP.
by rewrite -[LHS]/(gev vs (GAdd a (GOpp b))) gnormP lc_zero.
Qed.
End Abel.

(** Atoms are compared up to conversion (rewriting may leave different paths to the same structure). *)
Ltac veq x y := match constr:(Set) with _ => let _ := constr:(erefl x : x = y) in constr:(true) | _ => constr:(false) end.
Ltac vmem x l :=
  match l with
  | nil => constr:(false)
  | cons ?y ?l' => match veq x y with true => constr:(true) | false => vmem x l' end
  end.
Ltac vidx x l :=
  match l with cons ?y ?l' => match veq x y with true => constr:(O) | false => let i := vidx x l' in constr:(S i) end end.
Ltac vins x l := match vmem x l with true => constr:(l) | false => constr:(cons x l) end.
Ltac gvars e l :=
  match e with
  | @GRing.add _ ?a ?b => let l1 := gvars a l in gvars b l1
  | @GRing.opp _ ?a => gvars a l
  | @GRing.natmul _ ?a ?k => gvars a l
  | @GRing.zero _ => l
  | _ => vins e l
  end.
Ltac greify e l :=
  match e with
  | @GRing.add _ ?a ?b => let x := greify a l in let y := greify b l in constr:(GAdd x y)
  | @GRing.opp _ ?a => let x := greify a l in constr:(GOpp x)
  | @GRing.natmul _ ?a ?k => let x := greify a l in constr:(GMuln x k)
  | @GRing.zero _ => constr:(GZero)
  | _ => let i := vidx e l in constr:(GVar i)
  end.
Ltac abel :=
  match goal with
  | |- @eq ?T ?a ?b =>
      let l0 := gvars a (@nil T) in let l := gvars b l0 in
      let x := greify a l in let y := greify b l in
      apply: (@abelP _ l x y); vm_compute; reflexivity
  end.

(** ** Commutative rings. *)
Section CRing.
Variable R : comRingType.

Lemma cr_theory : ring_theory (0 : R) 1 +%R *%R (fun a b => a - b) -%R (@eq R).
Proof.
split=> *; rewrite ?add0r ?mul1r ?addrN //; first [exact: addrC|exact: addrA|exact: mulrC|exact: mulrA|exact: mulrDl].
Qed.
Definition cr_pow (x : R) (n : N) : R := x ^+ N.to_nat n.
Lemma cr_pow_theory : power_theory (1 : R) *%R (@eq R) (fun n : N => n) cr_pow.
Proof.
split=> r n; rewrite /cr_pow; case: n => [|p] //=.
elim/Pos.peano_ind: p => [|p IH]; first by rewrite expr1.
rewrite Pos2Nat.inj_succ exprS IH; symmetry.
apply: (@pow_pos_succ R *%R (@eq R) (Eqsth R)); exact: mulrA.
Qed.

Definition cr_morph := gen_phiZ_morph (Eqsth R) (Eq_ext +%R *%R -%R) cr_theory.
Definition cr_div := triv_div_th (Eqsth R) (Eq_ext +%R *%R -%R) (Rth_ARth (Eqsth R) (Eq_ext +%R *%R -%R) cr_theory) cr_morph.

Definition cr_eval := @PEeval R 0 1 +%R *%R (fun a b => a - b) -%R Z (gen_phiZ 0 1 +%R *%R -%R) N (fun n => n) cr_pow.

Lemma cringP (l : seq R) (a b : PExpr Z) :
  Peq Zeq_bool (norm_subst Z0 (Zpos xH) Z.add Z.mul Z.sub Z.opp Zeq_bool (triv_div Z0 (Zpos xH) Zeq_bool) O nil a)
            (norm_subst Z0 (Zpos xH) Z.add Z.mul Z.sub Z.opp Zeq_bool (triv_div Z0 (Zpos xH) Zeq_bool) O nil b) = true ->
  cr_eval l a = cr_eval l b.
Proof.
move=> h; refine (@ring_correct R 0 1 +%R *%R (fun a b => a - b) -%R (@eq R) (Eqsth R) (Eq_ext +%R *%R -%R)
  (Rth_ARth (Eqsth R) (Eq_ext +%R *%R -%R) cr_theory) Z Z0 (Zpos xH) Z.add Z.mul Z.sub Z.opp Zeq_bool (gen_phiZ 0 1 +%R *%R -%R)
  cr_morph N (fun n => n) cr_pow cr_pow_theory _ cr_div O l nil a b I h).
Qed.
End CRing.

Ltac posof n := match n with O => constr:(xH) | S ?m => let p := posof m in eval vm_compute in (Pos.succ p) end.
Ltac rvars e l :=
  match e with
  | @GRing.add _ ?a ?b => let l1 := rvars a l in rvars b l1
  | @GRing.mul _ ?a ?b => let l1 := rvars a l in rvars b l1
  | @GRing.opp _ ?a => rvars a l
  | @GRing.natmul _ ?a ?k => rvars a l
  | @GRing.exp _ ?a ?k => match isnat k with true => rvars a l | false => vins e l end
  | @GRing.zero _ => l
  | @GRing.one _ => l
  | _ => vins e l
  end
with isnat k := match k with O => constr:(true) | S ?m => isnat m | _ => constr:(false) end.
Ltac rrep x k := match k with O => constr:(@PEO Z) | S O => x | S ?m => let y := rrep x m in constr:(PEadd x y) end.
Ltac rreify e l :=
  match e with
  | @GRing.add _ ?a ?b => let x := rreify a l in let y := rreify b l in constr:(PEadd x y)
  | @GRing.mul _ ?a ?b => let x := rreify a l in let y := rreify b l in constr:(PEmul x y)
  | @GRing.opp _ ?a => let x := rreify a l in constr:(PEopp x)
  | @GRing.natmul _ ?a ?k => let x := rreify a l in rrep x k
  | @GRing.exp _ ?a ?k =>
      match isnat k with
      | true => let x := rreify a l in let n := eval vm_compute in (N.of_nat k) in constr:(PEpow x n)
      | false => let i := vidx e l in let p := posof i in constr:(PEX Z p)
      end
  | @GRing.zero _ => constr:(@PEO Z)
  | @GRing.one _ => constr:(@PEI Z)
  | _ => let i := vidx e l in let p := posof i in constr:(PEX Z p)
  end.
Ltac cring :=
  match goal with
  | |- @eq ?T ?a ?b =>
      let l0 := rvars a (@nil T) in let l := rvars b l0 in
      let x := rreify a l in let y := rreify b l in
      apply: (@cringP _ l x y); vm_compute; reflexivity
  end.

Lemma trmxD (V : zmodType) m n (A B : 'M[V]_(m, n)) : (A + B)^T = A^T + B^T. Proof. exact: raddfD. Qed.
Lemma trmxB (V : zmodType) m n (A B : 'M[V]_(m, n)) : (A - B)^T = A^T - B^T. Proof. exact: raddfB. Qed.
Lemma trmxN (V : zmodType) m n (A : 'M[V]_(m, n)) : (- A)^T = - A^T. Proof. exact: raddfN. Qed.
Lemma trmxZ (V : ringType) m n a (A : 'M[V]_(m, n)) : (a *: A)^T = a *: A^T. Proof. exact: linearZ. Qed.

(** Elements of sums (without unfolding products). *)
Lemma addmxE (V : zmodType) m n (A B : 'M[V]_(m, n)) i j : (A + B) i j = A i j + B i j. Proof. by rewrite mxE. Qed.
Lemma oppmxE (V : zmodType) m n (A : 'M[V]_(m, n)) i j : (- A) i j = - A i j. Proof. by rewrite mxE. Qed.
Lemma scalemxE (V : ringType) m n a (A : 'M[V]_(m, n)) i j : (a *: A) i j = a * A i j. Proof. by rewrite mxE. Qed.

(** Expansion of matrix products into sums of left-nested products. *)
Ltac mxexpand :=
  rewrite ?(mulmxDl, mulmxDr, mulmxBl, mulmxBr, mulmxN, mulNmx, mulmxA, trmxD, trmxB, trmxN, trmx_mul, trmxK, opprD, opprK) /=.

Section Tests.
Variable (R : rcfType) (a b c : R).
Example cring_test1 : (a - b) * (a + b) + 2%:R * b ^+ 2 = a ^+ 2 + b * b. Proof. cring. Qed.
Example cring_test2 : (a + b) ^+ 3 *+ 2 = 2%:R * (a ^+ 3 + 3%:R * a * b * (a + b) + b ^+ 3). Proof. cring. Qed.
Example abel_test1 : forall A B C : 'M[R]_(3, 4), A - (B - C) *+ 2 = C + A + C - (B + B). Proof. move=> A B C; abel. Qed.
End Tests.
