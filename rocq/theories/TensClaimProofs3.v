(** * Proofs for C109, concluded: every legal expression, and the Hermitian claim. *)
From Coq Require Import Reals List Bool Arith Lia Lra.
From Coquelicot Require Import Coquelicot.
From Verif Require Import XprEigen XprModel XprScalars TensModel TensSpec TensProofs.
From Verif Require Import TensClaimProofs TensClaimProofs2.
Import ListNotations.
Local Open Scope nat_scope.

Lemma one_pair (ps : list (nat * nat)) : length ps = 1 -> exists c d, ps = [(c, d)].
Proof. destruct ps as [|[c d] [|]]; cbn; try discriminate; eauto. Qed.

Lemma sound_contract ps x y : sound x -> sound y -> legal_pairs ps (dims x) (dims y) ->
  (length ps = 1 \/ (has (diagonal_claim x) = false /\ has (diagonal_claim y) = false)) ->
  (has (diagonal_claim x) = false -> has (diagonal_claim y) = false ->
   has (constant_claim x) = true -> has (constant_claim y) = true ->
   forall p, In p ps -> nth_error (dims (TContract ps x y)) (fst p) = nth_error (dims x) (fst p)) ->
  sound (TContract ps x y).
Proof.
  intros Sx Sy L One Fac. remember (dims (TContract ps x y)) as ds eqn:Eds.
  assert (E : claims (TContract ps x y) = mkclaims (
    if tzero (claims x) then constant_claim x else if tzero (claims y) then constant_claim y
    else if has (diagonal_claim x) && has (constant_claim y) then
      if Nat.eqb (length ps) 1 then top2 Cmult (diagonal_claim x) (constant_claim y)
      else times_factor (factor_but_first ds ps) (top2 Cmult (diagonal_claim x) (constant_claim y))
    else if has (constant_claim x) && has (diagonal_claim y) then
      if Nat.eqb (length ps) 1 then top2 Cmult (constant_claim x) (diagonal_claim y)
      else times_factor (factor_but_first ds ps) (top2 Cmult (constant_claim x) (diagonal_claim y))
    else times_factor (factor ds ps) (top2 Cmult (constant_claim x) (constant_claim y)))
    (if Nat.eqb (length ps) 1 then top2 Cmult (diagonal_claim x) (diagonal_claim y)
     else times_factor (factor_but_first ds ps) (top2 Cmult (diagonal_claim x) (constant_claim y))))
    by (rewrite Eds; reflexivity).
  (* the diagonal claim is about one pair *)
  assert (Dg : has (g_diag (claims (TContract ps x y))) = true -> length ps = 1 /\
     has (diagonal_claim x) = true /\ has (diagonal_claim y) = true /\
     g_diag (claims (TContract ps x y)) = top2 Cmult (diagonal_claim x) (diagonal_claim y)).
  { rewrite E; cbn [g_diag]. destruct (Nat.eqb_spec (length ps) 1) as [O|O].
    - rewrite top2_has; intro H; apply andb_true_iff in H as [H H']; tauto.
    - destruct One as [One|[One _]]; [contradiction|]. rewrite times_has, top2_has, One; discriminate. }
  assert (Dn : g_diag (claims (TContract ps x y)) <> OutOfBounds).
  { destruct (has (g_diag (claims (TContract ps x y)))) eqn:H; [|now destruct (g_diag (claims (TContract ps x y)))].
    destruct (Dg eq_refl) as [_ [_ [_ ->]]]. apply top2_oob; [apply (so_nd x Sx)|apply (so_nd y Sy)]. }
  assert (Dv : forall fx z, g_diag (claims (TContract ps x y)) = Value fx z ->
     exists c d fu u fv v, ps = [(c, d)] /\ diagonal_claim x = Value fu u /\ diagonal_claim y = Value fv v /\ z = Cmult u v).
  { intros fx z H. destruct Dg as [O [Hx [Hy Q]]]; [now rewrite H|]. rewrite Q in H. apply top2_value in H.
    destruct H as (fc & u & fd & v & Hu & Hv & ->). destruct (one_pair ps O) as [c [d ->]]. eauto 12. }
  clear Dg.
  destruct (tzero (claims x)) eqn:Zx; [apply tzero_claim in Zx|destruct (tzero (claims y)) eqn:Zy; [apply tzero_claim in Zy|]].
  - pose proof (contract_zero_l ps x y L (so_const x Sx _ _ Zx)) as A. destruct (tzero_diag x Sx Zx) as [f Q].
    assert (Cz : g_const (claims (TContract ps x y)) = Value true C0) by now rewrite E, <- Zx.
    assert (Z : forall fx z, g_diag (claims (TContract ps x y)) = Value fx z -> z = C0).
    { intros fx z H; destruct (Dv fx z H) as (c & d & fu & u & fv & v & _ & Hu & _ & ->).
      rewrite Q in Hu; injection Hu as <- <-; apply C0_mul. }
    apply make_sound; try assumption; rewrite ?Cz; try discriminate.
    + injection 1 as <- <-; assumption.
    + intros fx z H; pose proof (Z fx z H) as ->; now apply zero_diag.
    + now intros _ [].
    + intros _ H; split; [reflexivity|]. destruct (has_value _ H Dn) as [fx [z G]]. rewrite (Z fx z G) in G; eauto.
  - pose proof (contract_zero_r ps x y L (so_const y Sy _ _ Zy)) as A. destruct (tzero_diag y Sy Zy) as [f Q].
    assert (Cz : g_const (claims (TContract ps x y)) = Value true C0) by now rewrite E, <- Zy.
    assert (Z : forall fx z, g_diag (claims (TContract ps x y)) = Value fx z -> z = C0).
    { intros fx z H; destruct (Dv fx z H) as (c & d & fu & u & fv & v & _ & _ & Hv & ->).
      rewrite Q in Hv; injection Hv as <- <-; apply C_mul0. }
    apply make_sound; try assumption; rewrite ?Cz; try discriminate.
    + injection 1 as <- <-; assumption.
    + intros fx z H; pose proof (Z fx z H) as ->; now apply zero_diag.
    + now intros _ [].
    + intros _ H; split; [reflexivity|]. destruct (has_value _ H Dn) as [fx [z G]]. rewrite (Z fx z G) in G; eauto.
  - apply tzero_claim_false in Zx; apply tzero_claim_false in Zy.
    assert (Nb : has (g_const (claims (TContract ps x y))) = true -> has (g_diag (claims (TContract ps x y))) = true -> False).
    { intros H H'. destruct (has_value _ H' Dn) as [fx [z G]].
      destruct (Dv fx z G) as (c & d & fu & u & fv & v & _ & Hu & Hv & _).
      assert (has (constant_claim x) = false) as Cx.
      { destruct (has (constant_claim x)) eqn:W; [|reflexivity]. destruct (so_both x Sx W); [now rewrite Hu|contradiction]. }
      assert (has (constant_claim y) = false) as Cy.
      { destruct (has (constant_claim y)) eqn:W; [|reflexivity]. destruct (so_both y Sy W); [now rewrite Hv|contradiction]. }
      rewrite E in H; cbn [g_const] in H. rewrite Cx, Cy, andb_false_r in H; cbn [andb] in H.
      now rewrite times_has, top2_has, Cx in H. }
    apply make_sound; try assumption.
    + intros fx z. rewrite E; cbn [g_const].
      destruct (has (diagonal_claim x) && has (constant_claim y)) eqn:A;
        [|destruct (has (constant_claim x) && has (diagonal_claim y)) eqn:B].
      * apply andb_true_iff in A as [A A']. destruct One as [O|[O _]]; [|congruence].
        rewrite O; cbn [Nat.eqb]. intro H; apply top2_value in H; destruct H as (fc & u & fd & v & Hu & Hv & ->).
        destruct (one_pair ps O) as [c [d ->]]. destruct (so_square x Sx A Zx) as [n Q].
        apply (contract_diag_const c d x y n); [now apply (so_diag x Sx fc)|assumption|now apply (so_const y Sy fd)|assumption].
      * apply andb_true_iff in B as [B B']. destruct One as [O|[_ O]]; [|congruence].
        rewrite O; cbn [Nat.eqb]. intro H; apply top2_value in H; destruct H as (fc & u & fd & v & Hu & Hv & ->).
        destruct (one_pair ps O) as [c [d ->]]. destruct (so_square y Sy B' Zy) as [n Q].
        apply (contract_const_diag c d x y n); [now apply (so_const x Sx fc)|now apply (so_diag y Sy fd)|assumption|assumption].
      * intro H; apply times_value in H; destruct H as (m & fc & u & Hm & Hu & ->).
        apply top2_value in Hu; destruct Hu as (fa & a & fb & b & Ha & Hb & ->).
        rewrite Hb in A; rewrite Ha in B; rewrite Ha, Hb in Fac; cbn [has andb] in A, B, Fac. rewrite andb_true_r in A.
        rewrite (factor_contracted ds (dims x)) in Hm; [|now apply Fac|intros p P; destruct L as [_ [_ L]]; now destruct (L p P)].
        injection Hm as <-. apply contract_constants; [assumption|now apply (so_const x Sx fa)|now apply (so_const y Sy fb)].
    + intros fx z H; destruct (Dv fx z H) as (c & d & fu & u & fv & v & -> & Hu & Hv & ->).
      destruct (so_square x Sx) as [n Qx]; [now rewrite Hu|assumption|].
      destruct (so_square y Sy) as [m Qy]; [now rewrite Hv|assumption|].
      apply (contract_diag_diag c d x y n m); try assumption; [now apply (so_diag x Sx fu)|now apply (so_diag y Sy fv)].
    + intros H _. destruct (has_value _ H Dn) as [fx [z G]].
      destruct (Dv fx z G) as (c & d & fu & u & fv & v & -> & Hu & Hv & ->).
      destruct (so_square x Sx) as [n Qx]; [now rewrite Hu|assumption|].
      destruct (so_square y Sy) as [m Qy]; [now rewrite Hv|assumption|]. exists n.
      apply (contract_diag_diag c d x y n m u v); try assumption; [now apply (so_diag x Sx fu)|now apply (so_diag y Sy fv)].
    + intros H H'; now elim Nb.
    + rewrite E; cbn [g_const].
      destruct (has (diagonal_claim x) && has (constant_claim y)) eqn:A;
        [|destruct (has (constant_claim x) && has (diagonal_claim y)) eqn:B].
      * apply andb_true_iff in A as [A A']. destruct One as [O|[O _]]; [|congruence]. rewrite O; cbn [Nat.eqb].
        apply top2_oob; [apply (so_nd x Sx)|apply (so_nc y Sy)].
      * apply andb_true_iff in B as [B B']. destruct One as [O|[_ O]]; [|congruence]. rewrite O; cbn [Nat.eqb].
        apply top2_oob; [apply (so_nc x Sx)|apply (so_nd y Sy)].
      * destruct (has (constant_claim x) && has (constant_claim y)) eqn:G.
        -- apply andb_true_iff in G as [G G']. rewrite G, G' in *. rewrite andb_true_r in A; cbn in B.
           rewrite (factor_contracted ds (dims x)); [|now apply Fac|intros p P; destruct L as [_ [_ L]]; now destruct (L p P)].
           pose proof (top2_oob Cmult _ _ (so_nc x Sx) (so_nc y Sy)) as T.
           destruct (top2 Cmult (constant_claim x) (constant_claim y)); cbn; congruence.
        -- rewrite <- (top2_has Cmult) in G. destruct (top2 Cmult (constant_claim x) (constant_claim y)); cbn in *; congruence.
Qed.

Lemma claims_sound e : legal e -> sound_use e -> sound e.
Proof.
  induction e as [ds f|ds z|ds z|n fx z|n f|u x IH|b x IHx y IHy|ps x IHx y IHy]; cbn [legal sound_use]; intros L U.
  - now apply sound_leaf_none.
  - apply (sound_leaf_const _ z false); [reflexivity|now intros i _].
  - apply (sound_leaf_const _ z true); [reflexivity|now intros i _].
  - apply sound_diag.
  - now apply sound_leaf_none.
  - apply sound_un; auto.
  - destruct L as [Lx [Ly D]], U as [Ux [Uy V]]. destruct b.
    + apply sound_sum; auto.
    + apply sound_difference; auto.
    + apply sound_product; auto.
    + apply sound_quotient; auto.
  - destruct L as [Lx [Ly D]], U as [Ux [Uy [V W]]]. apply sound_contract; auto.
Qed.

(** ** Hermitian claims. *)
Lemma real_if_plus z w : snd z = 0%R -> snd w = 0%R -> snd (Cplus z w) = 0%R.
Proof. destruct z, w; cbn; intros -> ->; ring. Qed.
Lemma real_if_mult z w : snd z = 0%R -> snd w = 0%R -> snd (Cmult z w) = 0%R.
Proof. destruct z, w; cbn; intros -> ->; ring. Qed.
Lemma real_inv z : snd z = 0%R -> snd (Cinv z) = 0%R.
Proof. destruct z; cbn; intros ->; unfold Rdiv; ring. Qed.
Lemma real_csum l : (forall z, In z l -> snd z = 0%R) -> snd (csum l) = 0%R.
Proof.
  induction l as [|z l IH]; intro H; [reflexivity|]. cbn [csum fold_right]; fold (csum l).
  apply real_if_plus; [apply H; now left|apply IH; intros w W; apply H; now right].
Qed.
Lemma real_coef e i : real_scalars e -> snd (tcoef e i) = 0%R.
Proof.
  revert i; induction e as [ds f|ds z|ds z|n fx z|n f|u x IH|b x IHx y IHy|ps x IHx y IHy]; intro i; cbn [real_scalars tcoef]; intro R; auto.
  - destruct i as [|a [|b [|]]]; try reflexivity. now destruct (Nat.eqb a b).
  - destruct i as [|a [|b [|]]]; try reflexivity. apply R.
  - specialize (IH i R). destruct u; cbn.
    + rewrite IH; ring.
    + rewrite IH; ring.
    + rewrite IH; ring.
    + rewrite IH; ring.
    + now apply real_inv.
  - destruct R as [Rx Ry]; specialize (IHx i Rx); specialize (IHy i Ry). destruct b; cbn [bfun_of beval].
    + now apply real_if_plus.
    + apply real_if_plus; [assumption|]. cbn; rewrite IHy; ring.
    + now apply real_if_mult.
    + apply real_if_mult; [assumption|now apply real_inv].
  - destruct R as [Rx Ry]; apply real_csum; intros z Z. apply in_map_iff in Z as [ks [<- _]].
    apply real_if_mult; auto.
Qed.

Lemma counts_symmetric k e n : sound e -> scalars_of k e -> dims e = [n; n] ->
  (own_hermitian k e = true -> conj_symmetric e n) ->
  counts_as_hermitian k (own_hermitian k e) (claims e) = true -> conj_symmetric e n.
Proof.
  intros S R D O H. unfold counts_as_hermitian in H. destruct (own_hermitian k e); [now apply O|]. cbn [orb] in H.
  destruct k; [|now rewrite andb_false_r in H]. rewrite andb_true_r in H. intros a b A B.
  rewrite (Cconj_id _ (real_coef e [b; a] R)).
  assert (P : in_range [a; b] (dims e)) by (rewrite D; now apply range2_intro).
  assert (Q : in_range [b; a] (dims e)) by (rewrite D; now apply range2_intro).
  apply orb_true_iff in H as [H|H].
  - destruct (has_value (constant_claim e) H (so_nc e S)) as [fx [z Z]].
    rewrite (so_const e S fx z Z _ P), (so_const e S fx z Z _ Q); reflexivity.
  - destruct (has_value (diagonal_claim e) H (so_nd e S)) as [fx [z Z]].
    destruct (so_diag e S fx z Z _ P) as [P1 P2], (so_diag e S fx z Z _ Q) as [Q1 Q2].
    rewrite on_diagonal2 in *. destruct (Nat.eq_dec a b) as [->|N]; [now rewrite P1|].
    rewrite P2, Q2 by congruence; reflexivity.
Qed.

Lemma free_one_square d ds n : d < length ds -> free [d] 0 ds = [n] -> nth d ds 0 = n -> ds = [n; n] /\ (d = 0 \/ d = 1).
Proof.
  intros L F N. pose proof (free_len1 d 0 ds ltac:(lia)) as Q. rewrite F in Q; cbn in Q.
  destruct ds as [|p [|q [|]]]; cbn in Q; try lia. cbn in L.
  assert (d = 0 \/ d = 1) as [-> | ->] by lia; cbn in F, N; split; try tauto; injection F as ->; congruence.
Qed.

Lemma diagonal_real k e n fx z a : sound e -> scalars_of k e -> dims e = [n; n] -> a < n -> diagonal_claim e = Value fx z ->
  (k = Kcplx -> snd z = 0%R) -> snd z = 0%R.
Proof.
  intros S R D A Z K. destruct k; [|now apply K].
  destruct (so_diag e S fx z Z [a; a]) as [P _]; [rewrite D; now apply range2_intro|].
  rewrite <- P by now apply on_diagonal2. now apply real_coef.
Qed.

Lemma hermitian_left k c d x y n : sound x -> scalars_of k x -> has (diagonal_claim x) = true ->
  (k = Kcplx -> forall fx z, diagonal_claim x = Value fx z -> snd z = 0%R) ->
  (forall m, dims y = [m; m] -> conj_symmetric y m) ->
  legal_pairs [(c, d)] (dims x) (dims y) -> dims (TContract [(c, d)] x y) = [n; n] ->
  conj_symmetric (TContract [(c, d)] x y) n.
Proof.
  intros S R H K Y L D.
  destruct (tzero (claims x)) eqn:Zx; [apply tzero_claim in Zx|apply tzero_claim_false in Zx].
  { pose proof (contract_zero_l _ x y L (so_const x S _ _ Zx)) as A. intros a b Ha Hb.
    rewrite !A by (rewrite D; now apply range2_intro). now rewrite Cconj0. }
  destruct (so_square x S H Zx) as [m E]. destruct (has_value _ H (so_nd x S)) as [fx [z Z]].
  destruct (pair_square _ _ _ _ _ L E) as [C [F N]]. pose proof D as D'. cbn [dims map fst snd] in D'. rewrite F in D'.
  injection D' as -> D'. pose proof L as [_ [_ L']]. destruct (L' (c, d)) as [_ [Ld G]]; [now left|]. cbn [fst snd] in Ld, G.
  destruct (free_one_square d (dims y) n Ld D') as [Ey Cd]; [congruence|].
  intros a b Ha Hb. rewrite !(contract_left c d x y n z) by (try assumption; now apply (so_diag x S fx)).
  rewrite Ey, <- Cmult_conj', (Cconj_id z); [f_equal|].
  - destruct Cd as [-> | ->]; cbn; [|]; apply (Y n Ey); assumption.
  - eapply (diagonal_real k x n fx z a); eauto.
Qed.
Lemma hermitian_right k c d x y n : sound y -> scalars_of k y -> has (diagonal_claim y) = true ->
  (k = Kcplx -> forall fx z, diagonal_claim y = Value fx z -> snd z = 0%R) ->
  (forall m, dims x = [m; m] -> conj_symmetric x m) ->
  legal_pairs [(c, d)] (dims x) (dims y) -> dims (TContract [(c, d)] x y) = [n; n] ->
  conj_symmetric (TContract [(c, d)] x y) n.
Proof.
  intros S R H K X L D.
  destruct (tzero (claims y)) eqn:Zy; [apply tzero_claim in Zy|apply tzero_claim_false in Zy].
  { pose proof (contract_zero_r _ x y L (so_const y S _ _ Zy)) as A. intros a b Ha Hb.
    rewrite !A by (rewrite D; now apply range2_intro). now rewrite Cconj0. }
  destruct (so_square y S H Zy) as [m E]. destruct (has_value _ H (so_nd y S)) as [fx [z Z]].
  destruct (pair_square' _ _ _ _ _ L E) as [C [F N]]. pose proof D as D'. cbn [dims map fst snd] in D'. rewrite F in D'.
  change [n; n] with ([n] ++ [n]) in D'. apply app_inj_tail in D'. destruct D' as [D' ->].
  pose proof L as [_ [_ L']]. destruct (L' (c, d)) as [Lc _]; [now left|]. cbn [fst snd] in Lc.
  destruct (free_one_square c (dims x) n Lc D' N) as [Ex Cc].
  intros a b Ha Hb. change [a; b] with ([a] ++ [b]). change [b; a] with ([b] ++ [a]).
  rewrite !(contract_right c d x y n z) by (try assumption; try (now apply (so_diag y S fx)); now rewrite D').
  rewrite Ex, <- Cmult_conj', (Cconj_id z); [f_equal|].
  - destruct Cc as [-> | ->]; cbn; [|]; apply (X n Ex); assumption.
  - eapply (diagonal_real k y n fx z a); eauto.
Qed.

Lemma own_symmetric k e n : legal e -> sound_use e -> scalars_of k e -> (k = Kcplx -> real_diagonals e) -> dims e = [n; n] ->
  own_hermitian k e = true -> conj_symmetric e n.
Proof.
  revert n; induction e as [ds f|ds z|ds z|m fx z|m f|u x IH|b x IHx y IHy|ps x IHx y IHy]; intros n L U R G D H;
    try discriminate.
  - cbn in H. destruct k; [|discriminate]. intros a b _ _; cbn. symmetry; now apply Cconj_id.
  - cbn in D; injection D as ->. intros a b A B; cbn in *; now apply L.
  - cbn in L, U, D. cbn [own_hermitian] in H. apply andb_true_iff in H as [_ H].
    assert (S : conj_symmetric x n).
    { apply (counts_symmetric k); auto. now apply claims_sound. }
    intros a b A B. cbn [tcoef]. rewrite (S a b A B). apply ueval_conj; [now destruct u|exact I].
  - cbn in L, D; destruct L as [Lx [Ly E]], U as [Ux [Uy V]]. cbn [own_hermitian] in H. apply andb_true_iff in H as [Hx Hy].
    assert (Gx : k = Kcplx -> real_diagonals x) by (intro Q; now destruct (G Q)).
    assert (Gy : k = Kcplx -> real_diagonals y) by (intro Q; now destruct (G Q)).
    assert (Rx : scalars_of k x) by (destruct k; [apply R|exact I]).
    assert (Ry : scalars_of k y) by (destruct k; [apply R|exact I]).
    assert (Dy : dims y = [n; n]) by congruence.
    assert (Sx : conj_symmetric x n) by (apply (counts_symmetric k); auto; now apply claims_sound).
    assert (Sy : conj_symmetric y n) by (apply (counts_symmetric k); auto; now apply claims_sound).
    intros p q P Q. cbn [tcoef]. rewrite (Sx p q P Q), (Sy p q P Q). apply beval_conj. now destruct b.
  - cbn [legal] in L; destruct L as [Lx [Ly E]], U as [Ux [Uy V]]. cbn [own_hermitian] in H. apply andb_true_iff in H as [O H].
    apply Nat.eqb_eq in O. destruct (one_pair ps O) as [c [d ->]].
    assert (Gx : k = Kcplx -> real_diagonals x) by (intro Q; now destruct (G Q)).
    assert (Gy : k = Kcplx -> real_diagonals y) by (intro Q; now destruct (G Q) as [_ [? _]]).
    assert (Gr : k = Kcplx -> forall fx z, diagonal_claim x = Value fx z \/ diagonal_claim y = Value fx z -> snd z = 0%R)
      by (intro Q; now destruct (G Q) as [_ [_ ?]]).
    assert (Rx : scalars_of k x) by (destruct k; [apply R|exact I]).
    assert (Ry : scalars_of k y) by (destruct k; [apply R|exact I]).
    pose proof (claims_sound x Lx Ux) as Sx. pose proof (claims_sound y Ly Uy) as Sy.
    apply orb_true_iff in H as [H|H]; apply andb_true_iff in H as [Hd Hh].
    + apply (hermitian_left k); eauto.
      intros m Dm. apply (counts_symmetric k); auto.
    + apply (hermitian_right k); eauto.
      intros m Dm. apply (counts_symmetric k); auto.
Qed.
Lemma claim_symmetric k e n : legal e -> sound_use e -> scalars_of k e -> (k = Kcplx -> real_diagonals e) -> dims e = [n; n] ->
  hermitian_claim k e = true -> conj_symmetric e n.
Proof.
  intros L U R G D. apply (counts_symmetric k); auto; [now apply claims_sound|]. now apply own_symmetric.
Qed.
