(** * Proofs for C109: claims about tensor expressions. *)
From Coq Require Import Reals List Bool Arith Lia Lra.
From Coquelicot Require Import Coquelicot.
From Verif Require Import XprEigen XprModel XprScalars TensModel TensSpec TensProofs.
Import ListNotations.
Local Open Scope nat_scope.

(** ** Indices. *)
Lemma in_all_indices ds i : In i (all_indices ds) <-> in_range i ds.
Proof.
  revert i; induction ds as [|d ds IH]; intro i; cbn.
  - split; [intros [<-|[]]; constructor|]. intro H; inversion H; now left.
  - rewrite in_flat_map; split.
    + intros [k [Hk Hi]]. apply in_map_iff in Hi; destruct Hi as [j [<- Hj]].
      apply in_seq in Hk; constructor; [lia|now apply IH].
    + intro H; inversion H as [|k d' j ds' Hk Hj]; subst. exists k; split; [apply in_seq; lia|].
      apply in_map, IH, Hj.
Qed.
Lemma all_indices_length ds : length (all_indices ds) = product ds.
Proof.
  induction ds as [|d ds IH]; cbn [all_indices product fold_right]; [reflexivity|]. fold (product ds).
  rewrite <- IH. transitivity (length (seq 0 d) * length (all_indices ds)); [|now rewrite seq_length].
  induction (seq 0 d) as [|a l IL]; cbn; [reflexivity|]. now rewrite app_length, map_length, IL.
Qed.
Lemma all_indices1 n : all_indices [n] = map (fun k => [k]) (seq 0 n).
Proof. cbn. induction (seq 0 n) as [|a l IL]; cbn; [reflexivity|]; now rewrite IL. Qed.

Lemma range_app i a b : in_range i (a ++ b) -> in_range (firstn (length a) i) a /\ in_range (skipn (length a) i) b.
Proof.
  revert i; induction a as [|d a IH]; intros i H; cbn in *; [split; [constructor|assumption]|].
  inversion H as [|k d' j ds' Hk Hj]; subst. destruct (IH _ Hj); split; [constructor|]; assumption.
Qed.
Lemma range_nth i ds q : in_range i ds -> q < length ds -> nth q i 0 < nth q ds 0.
Proof. intro H; revert q; induction H as [|k d i ds Hk Hi IH]; intros [|q] L; cbn in *; try lia. apply IH; lia. Qed.

Lemma lookup_lt cs ks ds q k : in_range ks (map (fun c => nth c ds 0) cs) ->
  lookup q (combine cs ks) = Some k -> k < nth q ds 0.
Proof.
  revert ks; induction cs as [|c cs IH]; intros ks H; inversion H as [|k' d' j ds' Hk Hj]; subst; cbn; [discriminate|].
  destruct (Nat.eqb_spec q c) as [->|N]; [injection 1 as <-; assumption|]. now apply IH.
Qed.
Lemma lookup_mem cs ks q : length ks = length cs -> (lookup q (combine cs ks) = None <-> mem q cs = false).
Proof.
  revert ks; induction cs as [|c cs IH]; intros [|k ks] H; cbn in *; try discriminate; [tauto|].
  destruct (Nat.eqb q c); cbn; [split; discriminate|]. apply IH; lia.
Qed.
Lemma place_range cs ks es fs : in_range ks (map (fun c => nth c es 0) cs) ->
  forall p ds, (forall q, q < length ds -> nth q ds 0 = nth (p + q) es 0) ->
  in_range fs (free cs p ds) -> in_range (place cs ks p ds fs) ds.
Proof.
  intros K p ds; revert p fs; induction ds as [|d ds IH]; intros p fs N F; cbn in *; [constructor|].
  assert (L : length ks = length cs) by (rewrite (range_length _ _ K), map_length; reflexivity).
  assert (D : d = nth p es 0) by (specialize (N 0 ltac:(lia)); cbn in N; rewrite Nat.add_0_r in N; exact N).
  assert (M : forall q, q < length ds -> nth q ds 0 = nth (S p + q) es 0).
  { intros q Q; specialize (N (S q) ltac:(lia)); cbn in N; rewrite N; f_equal; lia. }
  destruct (lookup p (combine cs ks)) as [k|] eqn:E.
  - assert (mem p cs = true) as Me.
    { destruct (mem p cs) eqn:G; [reflexivity|]. apply (lookup_mem cs ks p L) in G; congruence. }
    rewrite Me in F. constructor; [rewrite D; eapply lookup_lt; eassumption|]. now apply IH.
  - apply (lookup_mem cs ks p L) in E; rewrite E in F. inversion F as [|f d' j ds' Hf Hj]; subst; cbn.
    constructor; [assumption|]. now apply IH.
Qed.

Lemma contracted_fst ps ds : contracted ps ds = map (fun c => nth c ds 0) (map fst ps).
Proof. unfold contracted; now rewrite map_map. Qed.
Lemma contracted_snd ps ds es : legal_pairs ps ds es -> contracted ps ds = map (fun c => nth c es 0) (map snd ps).
Proof.
  intros [_ [_ H]]; unfold contracted; rewrite map_map; apply map_ext_in; intros p P; now destruct (H p P) as [_ [_ E]].
Qed.

(** The components of the operands that a component of a contraction is made of. *)
Lemma operands_in_range ps x y i ks : legal_pairs ps (dims x) (dims y) ->
  in_range i (dims (TContract ps x y)) -> In ks (all_indices (contracted ps (dims x))) ->
  in_range (place (map fst ps) ks 0 (dims x) (firstn (length (free (map fst ps) 0 (dims x))) i)) (dims x) /\
  in_range (place (map snd ps) ks 0 (dims y) (skipn (length (free (map fst ps) 0 (dims x))) i)) (dims y).
Proof.
  intros L R K. cbn in R. destruct (range_app _ _ _ R) as [Rx Ry]. apply in_all_indices in K.
  split; [apply (place_range _ _ (dims x)); [now rewrite <- contracted_fst|now intros|assumption]|].
  apply (place_range _ _ (dims y)); [now rewrite <- (contracted_snd ps (dims x))|now intros|assumption].
Qed.

(** ** Matrices. *)
Lemma on_diagonal2 a b : on_diagonal [a; b] <-> a = b.
Proof.
  split; [|intros ->; exists b; repeat constructor].
  intros [c H]; inversion H as [|? ? E H' ]; subst; inversion H'; now subst.
Qed.
Lemma range2 i n m : in_range i [n; m] -> exists a b, i = [a; b] /\ a < n /\ b < m.
Proof.
  intro H; inversion H as [|a ? j ? Ha Hj]; subst; inversion Hj as [|b ? j' ? Hb Hj']; subst; inversion Hj'; subst; eauto.
Qed.
Lemma range2_intro a b n m : a < n -> b < m -> in_range [a; b] [n; m].
Proof. repeat constructor; assumption. Qed.
Lemma range1 i n : in_range i [n] -> exists a, i = [a] /\ a < n.
Proof. intro H; inversion H as [|a ? j ? Ha Hj]; subst; inversion Hj; subst; eauto. Qed.

Lemma free_len1 c p ds : p <= c < p + length ds -> S (length (free [c] p ds)) = length ds.
Proof.
  revert p; induction ds as [|d ds IH]; intros p H; cbn in *; [lia|].
  destruct (Nat.eqb_spec p c) as [->|N]; cbn; [|rewrite IH; lia].
  f_equal. clear. assert (G : forall q, c < q -> length (free [c] q ds) = length ds); [|apply G; lia].
  induction ds as [|d ds IH]; intros q Q; cbn; [reflexivity|].
  destruct (Nat.eqb_spec q c); [lia|]; cbn; f_equal; apply IH; lia.
Qed.

(** ** Claims as values. *)
Lemma fixed_zero_true c : fixed_zero c = true <-> c = Value true C0.
Proof.
  destruct c as [|[] z|]; cbn; split; intro H; try discriminate; [apply Ceqb_true in H; now subst|].
  injection H as ->; apply Ceqb_refl.
Qed.
Lemma top2_value f c d fx z : top2 f c d = Value fx z ->
  exists fc u fd v, c = Value fc u /\ d = Value fd v /\ z = f u v.
Proof. destruct c, d; cbn; intro H; try discriminate; injection H as <- <-; eauto 8. Qed.
Lemma top2_has f c d : has (top2 f c d) = has c && has d.
Proof. destruct c, d; reflexivity. Qed.
Lemma top2_oob f c d : c <> OutOfBounds -> d <> OutOfBounds -> top2 f c d <> OutOfBounds.
Proof. destruct c, d; cbn; congruence. Qed.
Lemma top1_value f c fx z : top1 f c = Value fx z -> exists u, c = Value fx u /\ z = f u.
Proof. destruct c; cbn; intro H; try discriminate; injection H as <- <-; eauto. Qed.
Lemma top1_has f c : has (top1 f c) = has c. Proof. now destruct c. Qed.
Lemma has_value c : has c = true -> c <> OutOfBounds -> exists fx z, c = Value fx z.
Proof. destruct c; cbn; intros; try discriminate; try congruence; eauto. Qed.
Lemma times_value f c fx z : times_factor f c = Value fx z ->
  exists m fc u, f = Some m /\ c = Value fc u /\ z = Cmult (real_of (INR m)) u.
Proof. destruct c, f; cbn; intro H; try discriminate; injection H as <- <-; eauto 8. Qed.
Lemma times_has f c : has (times_factor f c) = has c. Proof. destruct c, f; reflexivity. Qed.

Lemma factor_contracted ds es ps : (forall p, In p ps -> nth_error ds (fst p) = nth_error es (fst p)) ->
  (forall p, In p ps -> fst p < length es) -> factor ds ps = Some (product (contracted ps es)).
Proof.
  induction ps as [|p ps IH]; intros E L; cbn; [reflexivity|].
  rewrite IH by (intros; (apply E || apply L); now right).
  rewrite (E p) by now left. rewrite (nth_error_nth' es 0) by (apply L; now left). reflexivity.
Qed.

(** ** The claims of one expression, with their invariants. *)
Record sound (e : texpr) : Prop := {
  so_const : forall fx z, constant_claim e = Value fx z -> all_components e z;
  so_diag : forall fx z, diagonal_claim e = Value fx z -> diagonal_components e z;
  so_square : has (diagonal_claim e) = true -> constant_claim e <> Value true C0 -> exists n, dims e = [n; n];
  so_both : has (constant_claim e) = true -> has (diagonal_claim e) = true ->
    constant_claim e = Value true C0 /\ exists fx, diagonal_claim e = Value fx C0;
  so_nc : constant_claim e <> OutOfBounds;
  so_nd : diagonal_claim e <> OutOfBounds }.

Lemma cdiag_cases t : cdiag t = g_diag t \/ (g_diag t = NoValue /\ g_const t = Value true C0 /\ cdiag t = Value true C0)
  \/ (g_diag t = NoValue /\ cdiag t = NoValue).
Proof.
  unfold cdiag, tzero; destruct (g_diag t) eqn:E; cbn; try tauto.
  destruct (fixed_zero (g_const t)) eqn:F; [apply fixed_zero_true in F; rewrite F; tauto|tauto].
Qed.
Lemma zero_diag e z : z = C0 -> all_components e z -> diagonal_components e z.
Proof. intros -> H i R; split; intros _; now apply H. Qed.

(** It is enough to look at the two claims themselves. *)
Lemma make_sound e :
  (forall fx z, g_const (claims e) = Value fx z -> all_components e z) ->
  (forall fx z, g_diag (claims e) = Value fx z -> diagonal_components e z) ->
  (has (g_diag (claims e)) = true -> g_const (claims e) <> Value true C0 -> exists n, dims e = [n; n]) ->
  (has (g_const (claims e)) = true -> has (g_diag (claims e)) = true ->
    g_const (claims e) = Value true C0 /\ exists fx, g_diag (claims e) = Value fx C0) ->
  g_const (claims e) <> OutOfBounds -> g_diag (claims e) <> OutOfBounds -> sound e.
Proof.
  intros A B D E F G. split; unfold constant_claim, diagonal_claim, const; try assumption.
  - intros fx z; destruct (cdiag_cases (claims e)) as [->|[[H [Hc ->]]|[H ->]]]; [apply B| |discriminate].
    injection 1 as <- <-; apply zero_diag; [reflexivity|now apply (A true)].
  - destruct (cdiag_cases (claims e)) as [->|[[H [Hc ->]]|[H ->]]]; [apply D|congruence|discriminate].
  - destruct (cdiag_cases (claims e)) as [->|[[H [Hc ->]]|[H ->]]]; [apply E|eauto|discriminate].
  - destruct (cdiag_cases (claims e)) as [->|[[H [Hc ->]]|[H ->]]]; [assumption|discriminate|discriminate].
Qed.

Lemma tzero_claim e : tzero (claims e) = true <-> constant_claim e = Value true C0.
Proof. unfold tzero, constant_claim, const; apply fixed_zero_true. Qed.
Lemma tzero_claim_false e : tzero (claims e) = false -> constant_claim e <> Value true C0.
Proof. intros H Q; apply tzero_claim in Q; congruence. Qed.
Lemma tzero_diag e : sound e -> constant_claim e = Value true C0 -> exists fx, diagonal_claim e = Value fx C0.
Proof.
  intros S H. destruct (so_both e S) as [_ Q]; [now rewrite H|unfold diagonal_claim, cdiag|exact Q].
  unfold tzero; fold (const (claims e)); fold (constant_claim e). destruct (has (g_diag (claims e))) eqn:E; [assumption|].
  rewrite H; cbn; rewrite Ceqb_refl; unfold const in *; cbn. reflexivity.
Qed.
Lemma not_both e : sound e -> constant_claim e <> Value true C0 -> has (constant_claim e) = true ->
  has (diagonal_claim e) = false.
Proof.
  intros S N H; destruct (has (diagonal_claim e)) eqn:E; [|reflexivity]. now destruct (so_both e S H E).
Qed.

Lemma uop_tun u z : uop Kcplx (ufun_of u) z = ueval Kcplx (ufun_of u) z.
Proof. apply uop_ueval; exact I. Qed.
Lemma bop_tbin b z w : bop (bfun_of b) z w = beval (bfun_of b) z w.
Proof. apply bop_beval; destruct b; cbn; discriminate. Qed.
Lemma C0_add z : Cplus C0 z = z. Proof. destruct z; unfold Cplus, C0; cbn; f_equal; ring. Qed.
Lemma C_add0 z : Cplus z C0 = z. Proof. destruct z; unfold Cplus, C0; cbn; f_equal; ring. Qed.
Lemma C_sub0 z : Cminus z C0 = z. Proof. destruct z; unfold Cminus, Cplus, Copp, C0; cbn; f_equal; ring. Qed.
Lemma C0_mul z : Cmult C0 z = C0. Proof. destruct z; unfold Cmult, C0; cbn; f_equal; ring. Qed.
Lemma C_mul0 z : Cmult z C0 = C0. Proof. destruct z; unfold Cmult, C0; cbn; f_equal; ring. Qed.

Lemma sound_leaf_const e z fx : claims e = mkclaims (Value fx z) NoValue -> all_components e z -> sound e.
Proof. intros H A; apply make_sound; rewrite H; cbn; try discriminate. injection 1 as <- <-; assumption. Qed.
Lemma sound_leaf_none e : claims e = mkclaims NoValue NoValue -> sound e.
Proof. intros H; apply make_sound; rewrite H; cbn; try discriminate. Qed.

Lemma sound_diag n fx z : sound (TDiag n fx z).
Proof.
  apply make_sound; cbn; try discriminate; [|eauto].
  intros fx' z' E; injection E as <- <-; intros i R. destruct (range2 _ _ _ R) as [a [b [-> [A B]]]]; cbn.
  rewrite on_diagonal2. destruct (Nat.eqb_spec a b); split; congruence.
Qed.

Lemma sound_un u x : sound x -> sound (TUn u x).
Proof.
  intro S; apply make_sound; cbn.
  - intros fx z H; apply top1_value in H; destruct H as [w [H ->]]. intros i R; cbn.
    rewrite uop_tun, (so_const x S fx w H i R); reflexivity.
  - destruct (upt (ufun_of u)) eqn:U; [|discriminate]. intros fx z H; apply top1_value in H; destruct H as [w [H ->]].
    intros i R; cbn; destruct (so_diag x S fx w H i R) as [A B]; split; intro D.
    + rewrite uop_tun, A by assumption; reflexivity.
    + rewrite B by assumption; now apply ueval0.
  - destruct (upt (ufun_of u)) eqn:U; [|discriminate]. rewrite top1_has; intros H N.
    apply (so_square x S H). intro Z; apply N; unfold constant_claim in Z; rewrite Z; cbn.
    rewrite uop_tun, ueval0 by assumption; reflexivity.
  - destruct (upt (ufun_of u)) eqn:U; [|discriminate]. rewrite !top1_has; intros Hc Hd.
    destruct (so_both x S Hc Hd) as [A [fx B]]. unfold constant_claim, diagonal_claim in *; rewrite A, B; cbn.
    rewrite uop_tun, ueval0 by assumption; eauto.
  - pose proof (so_nc x S) as N; unfold constant_claim in N; now destruct (const (claims x)).
  - destruct (upt (ufun_of u)); [|discriminate]. pose proof (so_nd x S) as N; unfold diagonal_claim in N.
    now destruct (cdiag (claims x)).
Qed.
