(** * Proofs for C109, continued: component-wise operations and contractions. *)
From Coq Require Import Reals List Bool Arith Lia Lra.
From Coquelicot Require Import Coquelicot.
From Verif Require Import XprEigen XprModel XprScalars TensModel TensSpec TensProofs.
From Verif Require Import TensClaimProofs.
Import ListNotations.
Local Open Scope nat_scope.

Lemma all_bin b x y u v : dims x = dims y -> all_components x u -> all_components y v ->
  all_components (TBin b x y) (beval (bfun_of b) u v).
Proof. intros D A B i R; cbn in *. rewrite (A i R), (B i) by congruence. reflexivity. Qed.
Lemma diag_bin b x y u v : dims x = dims y -> diagonal_components x u -> diagonal_components y v ->
  beval (bfun_of b) C0 C0 = C0 -> diagonal_components (TBin b x y) (beval (bfun_of b) u v).
Proof.
  intros D A B Z i R; cbn in R. destruct (A i R) as [A1 A2]. destruct (B i) as [B1 B2]; [congruence|].
  split; intro H; cbn; [now rewrite A1, B1|now rewrite A2, B2].
Qed.
Lemma diag_product_l x y u v : dims x = dims y -> all_components x u -> diagonal_components y v ->
  diagonal_components (TBin Product x y) (Cmult u v).
Proof.
  intros D A B i R; cbn in R. rewrite <- (A i R). destruct (B i) as [B1 B2]; [congruence|].
  split; intro H; cbn; [now rewrite B1|rewrite B2 by assumption; apply C_mul0].
Qed.
Lemma diag_product_r x y u v : dims x = dims y -> diagonal_components x u -> all_components y v ->
  diagonal_components (TBin Product x y) (Cmult u v).
Proof.
  intros D A B i R; cbn in R. rewrite <- (B i) by congruence. destruct (A i) as [A1 A2]; [congruence|].
  split; intro H; cbn; [now rewrite A1|rewrite A2 by assumption; apply C0_mul].
Qed.

Ltac zero_case e H := destruct (tzero (claims e)) eqn:H; [apply tzero_claim in H|apply tzero_claim_false in H].
Ltac fold_claims x := fold (constant_claim x) in *; fold (diagonal_claim x) in *.

Lemma sound_sum x y : sound x -> sound y -> dims x = dims y -> sound (TBin Sum x y).
Proof.
  intros Sx Sy D.
  assert (E : claims (TBin Sum x y) = mkclaims (if tzero (claims x) then constant_claim y else if tzero (claims y)
     then constant_claim x else top2 (bop BPlus) (constant_claim x) (constant_claim y))
     (if tzero (claims x) then diagonal_claim y else if tzero (claims y) then diagonal_claim x
      else top2 (bop BPlus) (diagonal_claim x) (diagonal_claim y))) by reflexivity.
  zero_case x Zx; [|zero_case y Zy].
  - apply make_sound; rewrite E; cbn.
    + intros fx z H i R; cbn. rewrite (so_const x Sx _ _ Zx i R), (so_const y Sy _ _ H i) by (cbn in R; congruence). apply C0_add.
    + intros fx z H i R. cbn in R. assert (R' : in_range i (dims y)) by congruence. destruct (so_diag y Sy _ _ H i R') as [A B].
      cbn; rewrite (so_const x Sx _ _ Zx i R); split; intro Q; [rewrite A by assumption|rewrite B by assumption]; apply C0_add.
    + intros H N; destruct (so_square y Sy H N) as [n Q]; exists n; congruence.
    + apply (so_both y Sy).
    + apply (so_nc y Sy).
    + apply (so_nd y Sy).
  - apply make_sound; rewrite E; cbn.
    + intros fx z H i R; cbn. rewrite (so_const x Sx _ _ H i R), (so_const y Sy _ _ Zy i) by (cbn in R; congruence). apply C_add0.
    + intros fx z H i R. cbn in R. destruct (so_diag x Sx _ _ H i R) as [A B].
      cbn; rewrite (so_const y Sy _ _ Zy i) by congruence; split; intro Q; [rewrite A by assumption|rewrite B by assumption]; apply C_add0.
    + apply (so_square x Sx).
    + apply (so_both x Sx).
    + apply (so_nc x Sx).
    + apply (so_nd x Sx).
  - apply make_sound; rewrite E; cbn [g_const g_diag].
    + intros fx z H; apply top2_value in H; destruct H as (fc & u & fd & v & Hu & Hv & ->).
      apply (all_bin Sum); [assumption|now apply (so_const x Sx fc)|now apply (so_const y Sy fd)].
    + intros fx z H; apply top2_value in H; destruct H as (fc & u & fd & v & Hu & Hv & ->).
      apply (diag_bin Sum); [assumption|now apply (so_diag x Sx fc)|now apply (so_diag y Sy fd)|apply bsum0; reflexivity].
    + rewrite top2_has; intros H N; apply andb_true_iff in H as [H _]. now apply (so_square x Sx).
    + rewrite !top2_has; intros H H'; apply andb_true_iff in H as [H _]; apply andb_true_iff in H' as [H' _].
      now destruct (so_both x Sx H H').
    + apply top2_oob; [apply (so_nc x Sx)|apply (so_nc y Sy)].
    + apply top2_oob; [apply (so_nd x Sx)|apply (so_nd y Sy)].
Qed.

Lemma sound_difference x y : sound x -> sound y -> dims x = dims y -> constant_claim x <> Value true C0 ->
  sound (TBin Difference x y).
Proof.
  intros Sx Sy D Nx.
  assert (E : claims (TBin Difference x y) = mkclaims (if tzero (claims x) then constant_claim y else if tzero (claims y)
     then constant_claim x else top2 (bop BMinus) (constant_claim x) (constant_claim y))
     (if tzero (claims x) then diagonal_claim y else if tzero (claims y) then diagonal_claim x
      else top2 (bop BMinus) (diagonal_claim x) (diagonal_claim y))) by reflexivity.
  zero_case x Zx; [contradiction|zero_case y Zy].
  - apply make_sound; rewrite E; cbn.
    + intros fx z H i R; cbn. rewrite (so_const x Sx _ _ H i R), (so_const y Sy _ _ Zy i) by (cbn in R; congruence). apply C_sub0.
    + intros fx z H i R. cbn in R. destruct (so_diag x Sx _ _ H i R) as [A B].
      cbn; rewrite (so_const y Sy _ _ Zy i) by congruence; split; intro Q; [rewrite A by assumption|rewrite B by assumption]; apply C_sub0.
    + apply (so_square x Sx).
    + apply (so_both x Sx).
    + apply (so_nc x Sx).
    + apply (so_nd x Sx).
  - apply make_sound; rewrite E; cbn [g_const g_diag].
    + intros fx z H; apply top2_value in H; destruct H as (fc & u & fd & v & Hu & Hv & ->).
      apply (all_bin Difference); [assumption|now apply (so_const x Sx fc)|now apply (so_const y Sy fd)].
    + intros fx z H; apply top2_value in H; destruct H as (fc & u & fd & v & Hu & Hv & ->).
      apply (diag_bin Difference); [assumption|now apply (so_diag x Sx fc)|now apply (so_diag y Sy fd)|apply bsum0; reflexivity].
    + rewrite top2_has; intros H N; apply andb_true_iff in H as [H _]. now apply (so_square x Sx).
    + rewrite !top2_has; intros H H'; apply andb_true_iff in H as [H _]; apply andb_true_iff in H' as [H' _].
      now destruct (so_both x Sx H H').
    + apply top2_oob; [apply (so_nc x Sx)|apply (so_nc y Sy)].
    + apply top2_oob; [apply (so_nd x Sx)|apply (so_nd y Sy)].
Qed.

Lemma sound_zero e : claims e = mkclaims (Value true C0) (Value true C0) -> all_components e C0 -> sound e.
Proof.
  intros H A; apply make_sound; rewrite H; cbn; try discriminate.
  - injection 1 as <- <-; assumption.
  - injection 1 as <- <-; now apply zero_diag.
  - intros _ N; now elim N.
  - eauto.
Qed.

Lemma sound_product x y : sound x -> sound y -> dims x = dims y ->
  (has (constant_claim x) && has (constant_claim y) = true -> constant_claim x = Value true C0 \/ constant_claim y = Value true C0) ->
  sound (TBin Product x y).
Proof.
  intros Sx Sy D Nx.
  assert (E : claims (TBin Product x y) = mkclaims (if tzero (claims x) then constant_claim x else if tzero (claims y)
     then constant_claim y else top2 (bop BTimes) (constant_claim x) (constant_claim y))
     (if tzero (claims x) then constant_claim x else if tzero (claims y) then constant_claim y
      else top2 (bop BTimes) (if has (constant_claim x) then constant_claim x else diagonal_claim x)
                             (if has (constant_claim y) then constant_claim y else diagonal_claim y))) by reflexivity.
  zero_case x Zx; [|zero_case y Zy].
  - apply sound_zero; [rewrite E, Zx; reflexivity|]. intros i R; cbn; rewrite (so_const x Sx _ _ Zx i R); apply C0_mul.
  - apply sound_zero; [rewrite E, Zy; reflexivity|]. intros i R; cbn in *; rewrite (so_const y Sy _ _ Zy i) by congruence; apply C_mul0.
  - assert (N : has (constant_claim x) && has (constant_claim y) = false).
    { destruct (has (constant_claim x) && has (constant_claim y)) eqn:G; [destruct (Nx eq_refl); contradiction|reflexivity]. }
    apply make_sound; rewrite E; cbn [g_const g_diag].
    + intros fx z H; apply top2_value in H; destruct H as (fc & u & fd & v & Hu & Hv & ->).
      rewrite Hu, Hv in N; discriminate.
    + intros fx z H; apply top2_value in H; destruct H as (fc & u & fd & v & Hu & Hv & ->).
      destruct (has (constant_claim x)) eqn:Cx; destruct (has (constant_claim y)) eqn:Cy; try discriminate.
      * apply diag_product_l; [assumption|now apply (so_const x Sx fc)|now apply (so_diag y Sy fd)].
      * apply diag_product_r; [assumption|now apply (so_diag x Sx fc)|now apply (so_const y Sy fd)].
      * apply (diag_bin Product); [assumption|now apply (so_diag x Sx fc)|now apply (so_diag y Sy fd)|cbn; apply C0_mul].
    + rewrite top2_has; intros H _; apply andb_true_iff in H as [H H'].
      destruct (has (constant_claim x)) eqn:Cx; [|now apply (so_square x Sx)].
      destruct (has (constant_claim y)) eqn:Cy; [discriminate|]. cbn. rewrite D; now apply (so_square y Sy).
    + rewrite top2_has, N; discriminate.
    + apply top2_oob; [apply (so_nc x Sx)|apply (so_nc y Sy)].
    + apply top2_oob; [destruct (has (constant_claim x)); [apply (so_nc x Sx)|apply (so_nd x Sx)]
        |destruct (has (constant_claim y)); [apply (so_nc y Sy)|apply (so_nd y Sy)]].
Qed.

Lemma sound_quotient x y : sound x -> sound y -> dims x = dims y -> sound (TBin Quotient x y).
Proof.
  intros Sx Sy D; apply make_sound; cbn; try discriminate; fold_claims x; fold_claims y; unfold binary_const; cbn;
    fold (constant_claim x); fold (constant_claim y).
  - intros fx z H; apply top2_value in H; destruct H as (fc & u & fd & v & Hu & Hv & ->).
    apply (all_bin Quotient); [assumption|now apply (so_const x Sx fc)|now apply (so_const y Sy fd)].
  - apply top2_oob; [apply (so_nc x Sx)|apply (so_nc y Sy)].
Qed.

(** ** Contractions. *)
Lemma range_cons i n ds : in_range i (n :: ds) -> exists a j, i = a :: j /\ a < n /\ in_range j ds.
Proof. intro H; inversion H; subst; eauto. Qed.
Lemma contract_one c d x y i :
  tcoef (TContract [(c, d)] x y) i =
  csum (map (fun k => Cmult (tcoef x (place [c] [k] 0 (dims x) (firstn (length (free [c] 0 (dims x))) i)))
                            (tcoef y (place [d] [k] 0 (dims y) (skipn (length (free [c] 0 (dims x))) i))))
            (seq 0 (nth c (dims x) 0))).
Proof.
  cbn [tcoef contracted map fst snd]. rewrite all_indices1, map_map. reflexivity.
Qed.
Lemma pair_square c d x y n : legal_pairs [(c, d)] (dims x) (dims y) -> dims x = [n; n] ->
  (c = 0 \/ c = 1) /\ free [c] 0 (dims x) = [n] /\ nth c (dims x) 0 = n.
Proof.
  intros [_ [_ L]] E; rewrite E in *. destruct (L (c, d)) as [C _]; [now left|]. cbn in C.
  assert (c = 0 \/ c = 1) as [-> | ->] by lia; auto.
Qed.
Lemma pair_square' c d x y n : legal_pairs [(c, d)] (dims x) (dims y) -> dims y = [n; n] ->
  (d = 0 \/ d = 1) /\ free [d] 0 (dims y) = [n] /\ nth c (dims x) 0 = n.
Proof.
  intros [_ [_ L]] E; rewrite E in *. destruct (L (c, d)) as [_ [C G]]; [now left|]. cbn [fst snd] in C, G. cbn in C.
  rewrite G. assert (d = 0 \/ d = 1) as [-> | ->] by lia; auto.
Qed.

Lemma diagonal_at x z n c k a : diagonal_components x z -> dims x = [n; n] -> c = 0 \/ c = 1 -> k < n -> a < n ->
  tcoef x (place [c] [k] 0 [n; n] [a]) = if Nat.eqb k a then z else C0.
Proof.
  intros Dx E C K A.
  assert (R : forall u v, u < n -> v < n -> tcoef x [u; v] = if Nat.eqb u v then z else C0).
  { intros u v U V; destruct (Dx [u; v]) as [P Q]; [rewrite E; now apply range2_intro|]. rewrite on_diagonal2 in P, Q.
    destruct (Nat.eqb_spec u v); auto. }
  destruct C as [-> | ->]; cbn; rewrite R by assumption; [reflexivity|]. now rewrite Nat.eqb_sym.
Qed.

Lemma contract_left c d x y n z a j : diagonal_components x z -> dims x = [n; n] ->
  legal_pairs [(c, d)] (dims x) (dims y) -> a < n ->
  tcoef (TContract [(c, d)] x y) (a :: j) = Cmult z (tcoef y (place [d] [a] 0 (dims y) j)).
Proof.
  intros Dx E L A. destruct (pair_square _ _ _ _ _ L E) as [C [F N]].
  rewrite contract_one, N, F. cbn [length firstn skipn]. rewrite E.
  rewrite (csum_single _ _ a); [|apply seq_NoDup|now apply in_seq0|].
  - rewrite (diagonal_at x z n c a a Dx E C A A), Nat.eqb_refl. reflexivity.
  - intros k K D. apply in_seq0 in K. rewrite (diagonal_at x z n c k a Dx E C K A).
    destruct (Nat.eqb_spec k a); [contradiction|apply C0_mul].
Qed.
Lemma contract_right c d x y n w b j : diagonal_components y w -> dims y = [n; n] ->
  legal_pairs [(c, d)] (dims x) (dims y) -> b < n -> length j = length (free [c] 0 (dims x)) ->
  tcoef (TContract [(c, d)] x y) (j ++ [b]) = Cmult (tcoef x (place [c] [b] 0 (dims x) j)) w.
Proof.
  intros Dy E L B J. destruct (pair_square' _ _ _ _ _ L E) as [C [F N]].
  rewrite contract_one, N. rewrite <- J, firstn_app, skipn_app, Nat.sub_diag, firstn_all, skipn_all.
  cbn [firstn skipn]. rewrite app_nil_r, app_nil_l, E.
  rewrite (csum_single _ _ b); [|apply seq_NoDup|now apply in_seq0|].
  - rewrite (diagonal_at y w n d b b Dy E C B B), Nat.eqb_refl. reflexivity.
  - intros k K D. apply in_seq0 in K. rewrite (diagonal_at y w n d k b Dy E C K B).
    destruct (Nat.eqb_spec k b); [contradiction|apply C_mul0].
Qed.

Lemma contract_zero_l ps x y : legal_pairs ps (dims x) (dims y) -> all_components x C0 -> all_components (TContract ps x y) C0.
Proof.
  intros L A i R. cbn [tcoef]. apply csum_zero; intros ks K.
  destruct (operands_in_range ps x y i ks L R K) as [Rx _]. rewrite (A _ Rx); apply C0_mul.
Qed.
Lemma contract_zero_r ps x y : legal_pairs ps (dims x) (dims y) -> all_components y C0 -> all_components (TContract ps x y) C0.
Proof.
  intros L A i R. cbn [tcoef]. apply csum_zero; intros ks K.
  destruct (operands_in_range ps x y i ks L R K) as [_ Ry]. rewrite (A _ Ry); apply C_mul0.
Qed.
Lemma contract_constants ps x y z w : legal_pairs ps (dims x) (dims y) -> all_components x z -> all_components y w ->
  all_components (TContract ps x y) (Cmult (real_of (INR (product (contracted ps (dims x))))) (Cmult z w)).
Proof.
  intros L A B i R. cbn [tcoef]. rewrite <- all_indices_length. apply csum_const; intros ks K.
  destruct (operands_in_range ps x y i ks L R K) as [Rx Ry]. now rewrite (A _ Rx), (B _ Ry).
Qed.
Lemma contract_diag_const c d x y n z w : diagonal_components x z -> dims x = [n; n] -> all_components y w ->
  legal_pairs [(c, d)] (dims x) (dims y) -> all_components (TContract [(c, d)] x y) (Cmult z w).
Proof.
  intros Dx E B L i R. pose proof R as R0. destruct (pair_square _ _ _ _ _ L E) as [C [F N]].
  cbn [dims map fst snd] in R. rewrite F in R. destruct (range_cons _ _ _ R) as (a & j & -> & Ha & Hj).
  rewrite (contract_left c d x y n z a j) by assumption. rewrite B; [reflexivity|].
  assert (K : In [a] (all_indices (contracted [(c, d)] (dims x)))).
  { cbn [contracted map fst]. rewrite N, all_indices1. apply (in_map (fun k => [k])), in_seq0, Ha. }
  destruct (operands_in_range _ x y _ _ L R0 K) as [_ Ry]. cbn [map fst snd] in Ry. rewrite F in Ry. exact Ry.
Qed.
Lemma contract_const_diag c d x y n z w : all_components x z -> diagonal_components y w -> dims y = [n; n] ->
  legal_pairs [(c, d)] (dims x) (dims y) -> all_components (TContract [(c, d)] x y) (Cmult z w).
Proof.
  intros A Dy E L i R. pose proof R as R0. destruct (pair_square' _ _ _ _ _ L E) as [C [F N]].
  cbn [dims map fst snd] in R. rewrite F in R. destruct (range_app _ _ _ R) as [Rx Ry].
  destruct (range1 _ _ Ry) as [b [Eb Hb]].
  assert (Ei : i = firstn (length (free [c] 0 (dims x))) i ++ [b]) by (rewrite <- Eb; symmetry; apply firstn_skipn).
  rewrite Ei. rewrite (contract_right c d x y n w b) by (try assumption; now apply range_length in Rx).
  rewrite A; [reflexivity|].
  assert (K : In [b] (all_indices (contracted [(c, d)] (dims x)))).
  { cbn [contracted map fst]. rewrite N, all_indices1. apply (in_map (fun k => [k])), in_seq0, Hb. }
  destruct (operands_in_range _ x y _ _ L R0 K) as [Q _]. exact Q.
Qed.
Lemma contract_diag_diag c d x y n m z w : diagonal_components x z -> dims x = [n; n] ->
  diagonal_components y w -> dims y = [m; m] -> legal_pairs [(c, d)] (dims x) (dims y) ->
  diagonal_components (TContract [(c, d)] x y) (Cmult z w) /\ dims (TContract [(c, d)] x y) = [n; n].
Proof.
  intros Dx E Dy E' L. destruct (pair_square _ _ _ _ _ L E) as [C [F N]]. destruct (pair_square' _ _ _ _ _ L E') as [C' [F' N']].
  assert (Em : m = n) by congruence. rewrite Em in *. clear N' Em m.
  assert (Q : dims (TContract [(c, d)] x y) = [n; n]) by (cbn [dims map fst snd]; now rewrite F, F').
  split; [|assumption]. intros i R. rewrite Q in R. destruct (range2 _ _ _ R) as [a [b [-> [A B]]]].
  rewrite (contract_left c d x y n z a [b]) by assumption. rewrite E', on_diagonal2.
  rewrite (diagonal_at y w n d a b Dy E' C' A B). destruct (Nat.eqb_spec a b); split; intro H; try contradiction; [reflexivity|apply C_mul0].
Qed.
