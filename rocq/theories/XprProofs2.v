(** * Proofs for C89, continued: unary and structural expressions. *)
From Coq Require Import Reals ZArith List Bool Lia Lra.
From Coquelicot Require Import Coquelicot.
From Verif Require Import XprEigen XprModel XprSpec XprScalars XprProofs.
Import ListNotations.
Local Open Scope nat_scope.

Ltac fields := cbn [t_kind t_rows t_cols t_nr t_nc t_at t_square t_const t_diag t_tri t_herm].

(** A sound description stays sound for an expression with the same coefficients. *)
Lemma all_equal_ext e e' z : rows e' = rows e -> cols e' = cols e -> (forall i j, coef e' i j = coef e i j) ->
  all_equal e z -> all_equal e' z.
Proof. intros R Cc E H i j Hi Hj. rewrite E. apply H; congruence. Qed.
Lemma diag_equal_ext e e' z : rows e' = rows e -> cols e' = cols e -> (forall i j, coef e' i j = coef e i j) ->
  diag_equal e z -> diag_equal e' z.
Proof. intros R Cc E H i j Hi Hj. rewrite E. apply H; congruence. Qed.

Lemma dense_sound k r c f : sound (fst (analyse (EDense k r c f))) (EDense k r c f).
Proof.
  apply mk_sound; simpl; try reflexivity; try discriminate; unfold sdim.
  - intros n; destruct (fixed r); congruence.
  - intros n; destruct (fixed c); congruence.
Qed.
Lemma const_sound k r c ro co z : (forall n, ro = Some n -> size r = n) -> (forall n, co = Some n -> size c = n) ->
  real_if k z ->
  sound (const_traits k ro co (size r) (size c) z) (EConst k r c z).
Proof.
  intros Hr Hc Hz. apply mk_sound; fields; try reflexivity; try discriminate; try assumption.
  - intros fx w H; injection H as <- <-. intros i j _ _; reflexivity.
  - intros H _ i j _ _; simpl. destruct k; [|discriminate H]. symmetry; now apply Cconj_id.
Qed.
Lemma sdim_some d n : sdim d = Some n -> size d = n.
Proof. unfold sdim; destruct (fixed d); congruence. Qed.
Lemma fixed_sound k r c z : sound (fst (analyse (EFixed k r c z))) (EFixed k r c z).
Proof.
  apply mk_sound; simpl; try reflexivity; try discriminate; try apply sdim_some.
  intros fx w H; injection H as <- <-. intros i j _ _; reflexivity.
Qed.
Lemma ident_sound k r c : sound (fst (analyse (EIdent k r c))) (EIdent k r c).
Proof.
  assert (D : diag_equal (EIdent k r c) C1) by (intros i j _ _; reflexivity).
  apply mk_sound; simpl; try reflexivity; try discriminate; try apply sdim_some.
  - intros fx w H; injection H as <- <-. exact D.
  - intros _; now apply diag_shaped with C1.
  - intros _ _ _. apply shaped_le with Tdiag; [now apply diag_shaped with C1 | reflexivity].
  - intros _ _ _. apply shaped_le with Tdiag; [now apply diag_shaped with C1 | reflexivity].
  - intros _ _ i j _ _. simpl. rewrite (Nat.eqb_sym j i). destruct (Nat.eqb i j); [now rewrite Cconj1 | now rewrite Cconj0].
Qed.

Lemma herm_sound k n f : wf (EHerm k n f) -> sound (fst (analyse (EHerm k n f))) (EHerm k n f).
Proof.
  intros [_ H]. apply mk_sound; simpl; try reflexivity; try discriminate; try apply sdim_some.
  intros _ _ i j _ _. apply H.
Qed.

Section One.
Variables (x : expr) (t : traits).
Hypotheses (S : sound t x) (W : wf x).

Lemma un_sound u : wf (EUn u x) ->
  match u with UArg | USqrt => kind_of x = Kcplx -> may_be_hermitian t = false | _ => True end ->
  sound (un_traits u t (coef (EUn u x) 0 0) (kind_of (EUn u x))) (EUn u x).
Proof.
  intros [_ Wu] Su. unfold un_traits. rewrite (s_kind _ _ S).
  assert (T : forall a, upt u && triangular t a = true -> shaped a (EUn u x)).
  { intros a H; apply andb_true_iff in H as [U H]. apply (triangular_ok _ _ S) in H.
    intros i j Hi Hj O; simpl in *. rewrite H by assumption. now apply ueval0. }
  apply mk_sound; fields; try reflexivity.
  - apply (s_rows _ _ S).
  - apply (s_cols _ _ S).
  - apply (s_nr _ _ S).
  - apply (s_nc _ _ S).
  - apply (square_ok _ _ S).
  - intros fx z H; apply op1_some in H as (w & Hc & ->). apply (constant_ok _ _ S) in Hc.
    intros i j Hi Hj; simpl in *. specialize (Hc i j Hi Hj). rewrite <- Hc. symmetry. apply uop_ueval. now apply coef_kind.
  - intros fx z H; destruct (upt u) eqn:U; [|discriminate H].
    apply op1_some in H as (w & Hc & ->). apply (constant_diag_ok _ _ S) in Hc.
    intros i j Hi Hj; simpl in *. specialize (Hc i j Hi Hj). destruct (Nat.eqb i j) eqn:E.
    + rewrite <- Hc. symmetry. apply uop_ueval. now apply coef_kind.
    + rewrite Hc. now apply ueval0.
  - apply T.
  - intros _ _; apply T.
  - intros _ _; apply T.
  - intros H Q; simpl in Q. apply andb_true_iff in H as [U H]. pose proof H as H0.
    apply (may_be_hermitian_ok _ _ S W) in H; [|exact Q].
    intros i j Hi Hj; simpl in *. rewrite (H i j Hi Hj). apply ueval_conj; [|now apply coef_kind].
    destruct u; try exact I.
    + destruct (kind_of x); [reflexivity|]. rewrite Su in H0 by reflexivity; discriminate.
    + destruct (kind_of x); [reflexivity | discriminate U].
    + destruct (kind_of x); [reflexivity|]. rewrite Su in H0 by reflexivity; discriminate.
    + exact Wu.
Qed.

Let cst z := EConst (kind_of x) (mkdim (rows x) false) (mkdim (cols x) false) z.
Let tc z := const_traits (t_kind t) (t_rows t) (t_cols t) (t_nr t) (t_nc t) z.
Lemma tc_sound z : real_if (kind_of x) z -> sound (tc z) (cst z).
Proof.
  intro R. unfold tc, cst. rewrite (s_kind _ _ S), (s_nr _ _ S), (s_nc _ _ S).
  apply (const_sound (kind_of x) (mkdim (rows x) false) (mkdim (cols x) false)); simpl;
    [apply (s_rows _ _ S) | apply (s_cols _ _ S) | exact R].
Qed.
Lemma bprod_l b z : bty b = Bproduct -> beval b z C0 = C0. Proof. intro; now apply bprod0. Qed.
Lemma bprod_r b z : bty b = Bproduct -> beval b C0 z = C0. Proof. intro; now apply bprod0. Qed.

Lemma bind1_sound b z : wf (EBind1 b z x) -> (may_be_hermitian t = true -> snd z = 0%R) ->
  bin_safe b (rows x) (cols x) (tc z) t (fun _ _ => z) (coef x) ->
  sound (bind_traits true b z t (coef (EBind1 b z x) 0 0) (kind_of (EBind1 b z x))) (EBind1 b z x).
Proof.
  intros (_ & R & O) Hh Safe.
  assert (Wb : wf (EBin b (cst z) x)).
  { simpl. refine (conj R (conj W (conj eq_refl (conj eq_refl _)))). intro B; split; exact (O B). }
  pose proof (bin_sound b (cst z) x (tc z) t (tc_sound z R) S Wb Safe) as B.
  assert (Kk : kind_of (EBin b (cst z) x) = kind_of (EBind1 b z x)) by (simpl; destruct (breal b), (kind_of x); reflexivity).
  rewrite Kk in B. unfold bind_traits. fold (tc z).
  assert (T : forall a, (match bty b with Bproduct => triangular t a | _ => false end) = true -> shaped a (EBind1 b z x)).
  { intros a H. destruct (bty b) eqn:E; try discriminate H. apply (triangular_ok _ _ S) in H.
    intros i j Hi Hj Oo; simpl in *. rewrite H by assumption. now apply bprod_l. }
  apply mk_sound; fields; try reflexivity.
  - apply (s_rows _ _ S).
  - apply (s_cols _ _ S).
  - apply (s_nr _ _ S).
  - apply (s_nc _ _ S).
  - apply (square_ok _ _ S).
  - intros fx w H. apply (constant_ok _ _ B) in H. exact H.
  - intros fx w H. apply (constant_diag_ok _ _ B) in H. exact H.
  - apply T.
  - intros _ _; apply T.
  - intros _ _; apply T.
  - intros H Q; simpl in Q. pose proof (Hh H) as Rz. apply (may_be_hermitian_ok _ _ S W) in H; [|exact Q].
    intros i j Hi Hj; simpl in *. rewrite (H i j Hi Hj). rewrite <- (Cconj_id z Rz) at 1. apply beval_conj.
    intro Bo. split; [exact Rz | apply coef_real; auto].
Qed.
Lemma bind2_sound b z : wf (EBind2 b x z) -> (may_be_hermitian t = true -> snd z = 0%R) ->
  bin_safe b (rows x) (cols x) t (tc z) (coef x) (fun _ _ => z) ->
  sound (bind_traits false b z t (coef (EBind2 b x z) 0 0) (kind_of (EBind2 b x z))) (EBind2 b x z).
Proof.
  intros (_ & R & O) Hh Safe.
  assert (Wb : wf (EBin b x (cst z))).
  { simpl. refine (conj W (conj R (conj eq_refl (conj eq_refl _)))). intro B; split; exact (O B). }
  pose proof (bin_sound b x (cst z) t (tc z) S (tc_sound z R) Wb Safe) as B.
  assert (Kk : kind_of (EBin b x (cst z)) = kind_of (EBind2 b x z)) by (simpl; destruct (breal b), (kind_of x); reflexivity).
  rewrite Kk in B. unfold bind_traits. fold (tc z).
  assert (T : forall a, (match bty b with Bproduct => triangular t a | _ => false end) = true -> shaped a (EBind2 b x z)).
  { intros a H. destruct (bty b) eqn:E; try discriminate H. apply (triangular_ok _ _ S) in H.
    intros i j Hi Hj Oo; simpl in *. rewrite H by assumption. now apply bprod_r. }
  apply mk_sound; fields; try reflexivity.
  - apply (s_rows _ _ S).
  - apply (s_cols _ _ S).
  - apply (s_nr _ _ S).
  - apply (s_nc _ _ S).
  - apply (square_ok _ _ S).
  - intros fx w H. apply (constant_ok _ _ B) in H. exact H.
  - intros fx w H. apply (constant_diag_ok _ _ B) in H. exact H.
  - apply T.
  - intros _ _; apply T.
  - intros _ _; apply T.
  - intros H Q; simpl in Q. pose proof (Hh H) as Rz. apply (may_be_hermitian_ok _ _ S W) in H; [|exact Q].
    intros i j Hi Hj; simpl in *. rewrite (H i j Hi Hj). rewrite <- (Cconj_id z Rz) at 1. apply beval_conj.
    intro Bo. split; [apply coef_real; auto | exact Rz].
Qed.

Lemma wrap_sound_gen e : rows e = rows x -> cols e = cols x -> kind_of e = kind_of x ->
  (forall i j, coef e i j = coef x i j) -> sound (wrap_traits t) e.
Proof.
  intros Er Ec Ek E.
  assert (T : forall a, triangular t a = true -> shaped a e).
  { intros a H i j Hi Hj O. rewrite E. apply (triangular_ok _ _ S a H); congruence. }
  apply mk_sound; unfold wrap_traits; fields.
  - rewrite Ek; apply (s_kind _ _ S).
  - rewrite Er; apply (s_rows _ _ S).
  - rewrite Ec; apply (s_cols _ _ S).
  - rewrite Er; apply (s_nr _ _ S).
  - rewrite Ec; apply (s_nc _ _ S).
  - rewrite E; apply (s_at _ _ S).
  - rewrite Er, Ec; apply (square_ok _ _ S).
  - intros fx z H i j Hi Hj. rewrite E. apply (constant_ok _ _ S) in H; apply H; congruence.
  - intros fx z H i j Hi Hj. rewrite E. apply (constant_diag_ok _ _ S) in H; apply H; congruence.
  - apply T.
  - intros _ _; apply T.
  - intros _ _; apply T.
  - intros H Q i j Hi Hj. rewrite !E. apply (may_be_hermitian_ok _ _ S W) in H; [|congruence]. apply H; congruence.
Qed.
Lemma wrap_sound : sound (wrap_traits t) (EWrap x). Proof. now apply wrap_sound_gen. Qed.
Lemma nest_sound : sound (wrap_traits t) (ENest x). Proof. now apply wrap_sound_gen. Qed.

Lemma diagvec_sound : wf (EDiagVec x) -> sound (diagvec_traits t (coef (EDiagVec x) 0 0)) (EDiagVec x).
Proof.
  intros [_ V].
  assert (Dg : shaped Tdiag (EDiagVec x)).
  { intros i j _ _ N; simpl in *. apply Nat.eqb_neq in N; now rewrite N. }
  assert (N : forall n, (match t_rows t, t_cols t with Some r, Some c => Some (r * c) | _, _ => None end) = Some n ->
              rows x * cols x = n).
  { intros n H. destruct (t_rows t) as [r|] eqn:A; [|discriminate]. destruct (t_cols t) as [c|] eqn:B; [|discriminate].
    apply (s_rows _ _ S) in A; apply (s_cols _ _ S) in B. congruence. }
  apply mk_sound; unfold diagvec_traits; fields; try discriminate; try reflexivity; try exact N.
  - apply (s_kind _ _ S).
  - simpl; now rewrite (s_nr _ _ S), (s_nc _ _ S).
  - simpl; now rewrite (s_nr _ _ S), (s_nc _ _ S).
  - intros fx z H. apply (constant_ok _ _ S) in H. intros i j Hi Hj; simpl in *.
    destruct (Nat.eqb i j) eqn:E; [|reflexivity]. destruct (Nat.eqb (cols x) 1) eqn:C1'.
    + apply Nat.eqb_eq in C1'. apply H; nia.
    + apply Nat.eqb_neq in C1'. destruct V as [V|V]; [|contradiction]. apply H; nia.
  - intros _; exact Dg.
  - intros _ _ _; now apply shaped_le with Tdiag.
  - intros _ _ _; now apply shaped_le with Tdiag.
Qed.

Lemma trans_sound : sound (trans_traits t (coef (ETrans x) 0 0)) (ETrans x).
Proof.
  assert (T : forall a b, triangular t b = true -> (forall i j, outside a i j -> outside b j i) -> shaped a (ETrans x)).
  { intros a b H O i j Hi Hj Oo; simpl in *. apply (triangular_ok _ _ S b H); auto. }
  apply mk_sound; unfold trans_traits; fields; try reflexivity.
  - apply (s_kind _ _ S).
  - apply (s_cols _ _ S).
  - apply (s_rows _ _ S).
  - apply (s_nc _ _ S).
  - apply (s_nr _ _ S).
  - intro H; symmetry; now apply (square_ok _ _ S).
  - intros fx z H. apply (constant_ok _ _ S) in H. intros i j Hi Hj; simpl in *. now apply H.
  - intros fx z H. apply (constant_diag_ok _ _ S) in H. intros i j Hi Hj; simpl in *. rewrite H by assumption.
    now rewrite Nat.eqb_sym.
  - simpl; rewrite !orb_false_r. intro H. apply (T Tdiag Tdiag H). simpl; intros; lia.
  - simpl; rewrite orb_false_r; intros _ _ H. apply orb_true_iff in H as [H|H].
    + apply (T Tlower Tdiag H). simpl; intros; lia.
    + apply (T Tlower Tupper H). simpl; intros; lia.
  - simpl; rewrite orb_false_r; intros _ _ H. apply orb_true_iff in H as [H|H].
    + apply (T Tupper Tdiag H). simpl; intros; lia.
    + apply (T Tupper Tlower H). simpl; intros; lia.
  - intros H Q; simpl in Q. apply (may_be_hermitian_ok _ _ S W) in H; [|congruence].
    intros i j Hi Hj; simpl in *. now apply H.
Qed.

Lemma not_complex_real k c fx z : not_complex k c = true -> c = Some (fx, z) -> real_if k z -> snd z = 0%R.
Proof.
  intros H -> R; simpl in H. destruct k; [exact R|]. apply andb_true_iff in H as [_ H].
  destruct (Req_EM_T (snd z) 0); [assumption|discriminate].
Qed.
(** A claim that is true of a real expression, or of at least one component, is a real number. *)
Lemma const_conj fx z : constant t = Some (fx, z) -> kind_of x = Kreal -> 0 < rows x -> 0 < cols x -> snd z = 0%R.
Proof. intros H K Hr Hc. apply (constant_ok _ _ S) in H. rewrite <- (H 0 0 Hr Hc). now apply coef_real. Qed.

(** Conjugate symmetry of a rearrangement: when the operand is square, or when it is constant. *)
Lemma constant_conj : is_some (t_const t) = true -> kind_of x = Kreal ->
  forall i j i' j', i < rows x -> j < cols x -> i' < rows x -> j' < cols x -> coef x i j = Cconj (coef x i' j').
Proof.
  intros Cc K i j i' j' Hi Hj Hi' Hj'.
  destruct (t_const t) as [[fx z]|] eqn:E; [|discriminate Cc].
  assert (Ec : constant t = Some (fx, z)) by (unfold constant; now rewrite E).
  pose proof (constant_ok _ _ S _ _ Ec) as A. rewrite !A by assumption.
  symmetry; apply Cconj_id. apply (const_conj fx); try assumption; lia.
Qed.

Lemma repl_mod i n f : i < f * n -> i mod n < n /\ i mod n <= i.
Proof. intro H. assert (n <> 0) by nia. split; [now apply Nat.mod_upper_bound | now apply Nat.mod_le]. Qed.
Lemma repl_one i n : i < 1 * n -> i mod n = i.
Proof. intro H; apply Nat.mod_small; lia. Qed.
Lemma is_one_true d : is_one d = true -> fixed d = true /\ size d = 1.
Proof. intro H; apply andb_true_iff in H as [A B]; apply Nat.eqb_eq in B; auto. Qed.
Lemma repl_sound rf cf :
  (triangular t Tlower = true -> is_one cf = true -> triangular t Tupper = true /\ is_one rf = true) ->
  (may_be_hermitian t = true -> rows x = cols x \/ (is_some (t_const t) = true /\ kind_of x = Kreal)) ->
  sound (repl_traits rf cf t (coef (ERepl rf cf x) 0 0)) (ERepl rf cf x).
Proof.
  intros S1 S2.
  assert (D : forall d n m k, (match n with Some m => if fixed d then Some (size d * m) else None | None => None end) = Some m ->
     (forall n', n = Some n' -> k = n') -> size d * k = m).
  { intros d n m k H Hn. destruct n as [n'|]; [|discriminate]. destruct (fixed d); [|discriminate].
    injection H as <-. now rewrite (Hn n' eq_refl). }
  set (v := if triangular t Tdiag && is_one rf && is_one cf then Tdiag
              else if triangular t Tupper && is_one rf then Tupper
              else if triangular t Tlower && is_one cf then Tupper
              else Tnone).
  assert (V : shaped v (ERepl rf cf x)).
  { unfold v. destruct (triangular t Tdiag && is_one rf && is_one cf) eqn:E1.
    - apply andb_true_iff in E1 as [E1 O2]. apply andb_true_iff in E1 as [E1 O1].
      apply is_one_true in O1 as [_ O1]; apply is_one_true in O2 as [_ O2].
      intros i j Hi Hj O; simpl in *. rewrite O1 in Hi; rewrite O2 in Hj. rewrite !repl_one by assumption.
      apply (triangular_ok _ _ S Tdiag E1); simpl in *; lia.
    - assert (U : triangular t Tupper && is_one rf = true -> shaped Tupper (ERepl rf cf x)).
      { intro E2. apply andb_true_iff in E2 as [E2 O1].
        apply is_one_true in O1 as [_ O1]. intros i j Hi Hj O; simpl in *.
        rewrite O1 in Hi. destruct (repl_mod _ _ _ Hj). rewrite (repl_one i) by assumption.
        apply (triangular_ok _ _ S Tupper E2); simpl in *; lia. }
      destruct (triangular t Tupper && is_one rf) eqn:E2; [now apply U|].
      destruct (triangular t Tlower && is_one cf) eqn:E3; [|apply shaped_none].
      apply andb_true_iff in E3 as [E3 O2]. destruct (S1 E3 O2) as [A B]. rewrite A, B in E2. discriminate E2. }
  apply mk_sound; unfold repl_traits; fields; try reflexivity; try discriminate.
  - apply (s_kind _ _ S).
  - intros n H. simpl. eapply D; [exact H | intros; now apply (s_rows _ _ S)].
  - intros n H. simpl. eapply D; [exact H | intros; now apply (s_cols _ _ S)].
  - simpl; now rewrite (s_nr _ _ S).
  - simpl; now rewrite (s_nc _ _ S).
  - intros fx z H. apply (constant_ok _ _ S) in H. intros i j Hi Hj; simpl in *.
    destruct (repl_mod _ _ _ Hi), (repl_mod _ _ _ Hj). now apply H.
  - intros fx z H. fold (is_one rf) in H. fold (is_one cf) in H.
    destruct (is_one rf) eqn:O1; [|discriminate H]. destruct (is_one cf) eqn:O2; [|discriminate H].
    apply is_one_true in O1 as [_ O1]; apply is_one_true in O2 as [_ O2].
    apply (constant_diag_ok _ _ S) in H. intros i j Hi Hj; simpl in *.
    rewrite O1 in Hi; rewrite O2 in Hj. rewrite !repl_one by assumption. apply H; lia.
  - intro H. eapply shaped_le; [exact V | exact H].
  - intros _ _ H. eapply shaped_le; [exact V | exact H].
  - intros _ _ H. eapply shaped_le; [exact V | exact H].
  - intros H Q; simpl in Q. apply andb_true_iff in H as [H R]. fold (is_one rf) in R. fold (is_one cf) in R.
    intros i j Hi Hj; simpl in *. destruct (repl_mod _ _ _ Hi), (repl_mod _ _ _ Hj).
    assert (N : rows x = cols x \/ rows x <> cols x) by lia. destruct N as [N|N].
    + rewrite (may_be_hermitian_ok _ _ S W H N) by assumption. now rewrite N.
    + destruct (S2 H) as [|[Cc Kr]]; [contradiction|].
      apply constant_conj; try assumption.
      * rewrite Q in Hi. destruct (repl_mod j (rows x) (size rf)); lia.
      * destruct (repl_mod i (cols x) (size cf)); lia.
Qed.

Lemma rev_sound d :
  (d = Both -> is_some (constant_diag t) || diagonal t || lopsided t = true -> zero t = true \/ rows x = cols x) ->
  sound (rev_traits d t (coef (ERev d x) 0 0)) (ERev d x).
Proof.
  intro Sd.
  assert (Zr : zero t = true -> all_equal (ERev d x) C0).
  { intro Z. apply (zero_ok _ _ S) in Z. intros i j Hi Hj; destruct d; simpl in *; apply Z; lia. }
  assert (T : forall a b, (vector0 t = false /\ vector1 t = false \/ a = Tdiag) ->
      (a = Tdiag -> b = Tdiag) -> (a = Tlower -> b = Tupper) -> (a = Tupper -> b = Tlower) -> a <> Tnone ->
      triangular t b && match d with Both => true | Horizontal => vector0 t | Vertical => vector1 t end = true ->
      shaped a (ERev d x)).
  { intros a b V Ad Al Au An H. apply andb_true_iff in H as [H M].
    destruct d.
    - destruct V as [[_ V]|V]; [congruence|]. rewrite (Ad V) in H. subst a. apply is1_true, (s_rows _ _ S) in M.
      intros i j Hi Hj O; simpl in *. replace (rows x - 1 - i) with i by lia. now apply (triangular_ok _ _ S Tdiag H).
    - destruct V as [[V _]|V]; [congruence|]. rewrite (Ad V) in H. subst a. apply is1_true, (s_cols _ _ S) in M.
      intros i j Hi Hj O; simpl in *. replace (cols x - 1 - j) with j by lia. now apply (triangular_ok _ _ S Tdiag H).
    - destruct (Sd eq_refl) as [Z|Q].
      + apply orb_true_iff. destruct a; [congruence| | |].
        * right. unfold lopsided. destruct V as [[V0 V1]|V]; [|discriminate]. rewrite V0, V1. rewrite (Al eq_refl) in H.
          rewrite H. now rewrite orb_true_r.
        * right. unfold lopsided. destruct V as [[V0 V1]|V]; [|discriminate]. rewrite V0, V1. rewrite (Au eq_refl) in H.
          now rewrite H.
        * left. rewrite (Ad eq_refl) in H. unfold diagonal; rewrite H. apply orb_true_r.
      + now apply all_equal_shaped, Zr.
      + intros i j Hi Hj O; simpl in *. apply (triangular_ok _ _ S b H); [lia|lia|].
        destruct a; [congruence| | |].
        * rewrite (Al eq_refl); simpl in *; lia.
        * rewrite (Au eq_refl); simpl in *; lia.
        * rewrite (Ad eq_refl); simpl in *; lia. }
  apply mk_sound; unfold rev_traits; fields; try reflexivity.
  - apply (s_kind _ _ S).
  - apply (s_rows _ _ S).
  - apply (s_cols _ _ S).
  - apply (s_nr _ _ S).
  - apply (s_nc _ _ S).
  - apply (square_ok _ _ S).
  - intros fx z H. apply (constant_ok _ _ S) in H. intros i j Hi Hj; destruct d; simpl in *; apply H; lia.
  - intros fx z H. destruct d; try discriminate H. simpl in H.
    destruct (Sd eq_refl) as [Z|Q]; [now rewrite H| |].
    + pose proof (zero_ok _ _ S Z) as A. pose proof (constant_diag_ok _ _ S _ _ H) as Dd.
      intros i j Hi Hj; simpl in *. rewrite A by lia. destruct (Nat.eqb i j) eqn:E; [|reflexivity].
      rewrite <- (A 0 0) by lia. rewrite Dd by lia. reflexivity.
    + apply (constant_diag_ok _ _ S) in H. intros i j Hi Hj; simpl in *. rewrite H by lia.
      assert (E : Nat.eqb (rows x - 1 - i) (cols x - 1 - j) = Nat.eqb i j).
      { destruct (Nat.eqb i j) eqn:E; [apply Nat.eqb_eq in E; apply Nat.eqb_eq; lia | apply Nat.eqb_neq in E; apply Nat.eqb_neq; lia]. }
      now rewrite E.
  - intro H. apply (T Tdiag Tdiag); auto; discriminate.
  - intros V0 V1 H. apply (T Tlower Tupper); auto; discriminate.
  - intros V0 V1 H. apply (T Tupper Tlower); auto; discriminate.
  - intros H Q; simpl in Q. apply andb_true_iff in H as [H D]. apply (may_be_hermitian_ok _ _ S W) in H; [|exact Q].
    assert (One : d = Both \/ rows x = 1).
    { destruct d; [right|right|now left]; simpl in D; apply orb_true_iff in D as [D|D].
      - apply is1_true, (s_cols _ _ S) in D; lia.
      - now apply is1_true, (s_rows _ _ S) in D.
      - apply is1_true, (s_cols _ _ S) in D; lia.
      - now apply is1_true, (s_rows _ _ S) in D. }
    intros i j Hi Hj. destruct One as [->|One].
    + simpl in *. rewrite H by lia. rewrite Q. reflexivity.
    + destruct d; simpl in *; rewrite H by lia; f_equal; f_equal; lia.
Qed.
End One.
