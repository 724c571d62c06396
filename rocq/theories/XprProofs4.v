(** * Proofs for C89, continued: partial reductions, and all expressions. *)
From Coq Require Import Reals ZArith List Bool Lia Lra.
From Coquelicot Require Import Coquelicot.
From Verif Require Import XprEigen XprModel XprSpec XprScalars XprProofs XprProofs2 XprProofs3.
Import ListNotations.
Local Open Scope nat_scope.

(** ** Lists made of copies. *)
Definition copies {A} (n : nat) (l : list A) : list A := concat (repeat l n).
Lemma copies_S {A} n (l : list A) : copies (S n) l = l ++ copies n l. Proof. reflexivity. Qed.
Lemma copies_app {A} n m (l : list A) : copies (n + m) l = copies n l ++ copies m l.
Proof. unfold copies. now rewrite repeat_app, concat_app. Qed.
Lemma copies_copies {A} n f (l : list A) : copies n (copies f l) = copies (n * f) l.
Proof. induction n as [|n IH]; [reflexivity|]. rewrite copies_S, IH. cbn [Nat.mul]. now rewrite copies_app. Qed.
Lemma copies_map {A B} (g : A -> B) n l : map g (copies n l) = copies n (map g l).
Proof. induction n as [|n IH]; [reflexivity|]. now rewrite !copies_S, map_app, IH. Qed.
Lemma copies_repeat {A} n m (w : A) : copies n (repeat w m) = repeat w (n * m).
Proof. induction n as [|n IH]; [reflexivity|]. rewrite copies_S, IH. cbn [Nat.mul]. now rewrite repeat_app. Qed.
Lemma in_copies {A} (v : A) n l : 0 < n -> (In v (copies n l) <-> In v l).
Proof.
  intro Hn. split.
  - intro H. unfold copies in H. apply in_concat in H as (m & Hm & Hv). apply repeat_spec in Hm. now subst.
  - intro H. destruct n; [lia|]. rewrite copies_S. apply in_app_iff; now left.
Qed.
Lemma copies_mod {A} (g : nat -> A) f n : 0 < n -> map (fun q => g (q mod n)) (seq 0 (f * n)) = copies f (map g (seq 0 n)).
Proof.
  intro Hn. induction f as [|f IH]; [reflexivity|]. rewrite <- Nat.add_1_r, copies_app, Nat.mul_add_distr_r, Nat.mul_1_l.
  rewrite seq_app, map_app, IH. f_equal. unfold copies; simpl; rewrite app_nil_r.
  apply nth_ext with (d := g 0) (d' := g 0); [now rewrite !map_length, !seq_length|].
  intros p Hp. rewrite map_length, seq_length in Hp.
  rewrite (nth_indep _ (g 0) (g (0 mod n))) by now rewrite map_length, seq_length.
  rewrite (map_nth (fun q => g (q mod n)) _ 0), (map_nth g _ 0), !seq_nth by assumption. f_equal.
  rewrite Nat.add_0_l, Nat.add_comm, Nat.mod_add by lia. now apply Nat.mod_small.
Qed.

(** ** Reductions of copies of one value. *)
Lemma rsum_repeat w m : rsum (repeat w m) = (INR m * w)%R.
Proof.
  induction m as [|m IH]; [simpl; ring|]. cbn [repeat rsum fold_right]. fold (rsum (repeat w m)). rewrite IH, S_INR; ring.
Qed.
Lemma map_repeat {A B} (g : A -> B) w m : map g (repeat w m) = repeat (g w) m.
Proof. induction m as [|m IH]; [reflexivity|]. simpl; now rewrite IH. Qed.
Lemma rgreatest_spec l m : In m l -> (forall v, In v l -> (v <= m)%R) -> rgreatest l = m.
Proof.
  revert m; induction l as [|a l IH]; intros m Hm Hl; [easy|]. destruct l as [|b l].
  - destruct Hm as [->|[]]; reflexivity.
  - change (rgreatest (a :: b :: l)) with (Rmax a (rgreatest (b :: l))).
    destruct Hm as [->|Hm].
    + assert (G : forall l', l' <> [] -> (forall v, In v l' -> (v <= m)%R) -> (rgreatest l' <= m)%R).
      { clear. induction l' as [|c l' IHl]; intros N H; [easy|]. destruct l' as [|c' l']; [apply H; now left|].
        change (rgreatest (c :: c' :: l')) with (Rmax c (rgreatest (c' :: l'))).
        apply Rmax_lub; [apply H; now left|]. apply IHl; [discriminate|]. intros v Hv; apply H; now right. }
      apply Rmax_left. apply G; [discriminate|]. intros v Hv; apply Hl; now right.
    + rewrite (IH m Hm); [|intros v Hv; apply Hl; now right]. apply Rmax_right. apply Hl; now left.
Qed.
Lemma rleast_spec l m : In m l -> (forall v, In v l -> (m <= v)%R) -> rleast l = m.
Proof.
  revert m; induction l as [|a l IH]; intros m Hm Hl; [easy|]. destruct l as [|b l].
  - destruct Hm as [->|[]]; reflexivity.
  - change (rleast (a :: b :: l)) with (Rmin a (rleast (b :: l))).
    destruct Hm as [->|Hm].
    + assert (G : forall l', l' <> [] -> (forall v, In v l' -> (m <= v)%R) -> (m <= rleast l')%R).
      { clear. induction l' as [|c l' IHl]; intros N H; [easy|]. destruct l' as [|c' l']; [apply H; now left|].
        change (rleast (c :: c' :: l')) with (Rmin c (rleast (c' :: l'))).
        apply Rmin_glb; [apply H; now left|]. apply IHl; [discriminate|]. intros v Hv; apply H; now right. }
      apply Rmin_left. apply G; [discriminate|]. intros v Hv; apply Hl; now right.
    + rewrite (IH m Hm); [|intros v Hv; apply Hl; now right]. apply Rmin_right. apply Hl; now left.
Qed.
Lemma in_repeat {A} (w : A) m v : 0 < m -> (In v (repeat w m) <-> v = w).
Proof.
  intro H; split; [intro I; now apply repeat_spec in I|]. intros ->. destruct m; [lia|]. now left.
Qed.
Lemma csum_repeat w m : csum (repeat w m) = Cmult w (real_of (INR m)).
Proof.
  induction m as [|m IH]; [destruct w; unfold Cmult, real_of; simpl; unfold C0; f_equal; ring|].
  cbn [repeat csum fold_right]. fold (csum (repeat w m)). rewrite IH, S_INR.
  destruct w; unfold Cplus, Cmult, real_of; simpl; f_equal; ring.
Qed.
Lemma cprod_repeat w m : fold_right Cmult C1 (repeat w m) = cpow w m.
Proof. induction m as [|m IH]; [reflexivity|]. simpl; now rewrite IH. Qed.
Lemma filter_repeat w m : length (filter tob (repeat w m)) = if tob w then m else 0.
Proof.
  induction m as [|m IH]; [now destruct (tob w)|]. simpl. destruct (tob w) eqn:E; simpl; rewrite IH; reflexivity.
Qed.
Lemma forallb_repeat w m : 0 < m -> forallb tob (repeat w m) = tob w.
Proof.
  destruct m as [|m]; [lia|]. intros _. induction m as [|m IH]; [simpl; apply andb_true_r|].
  change (repeat w (S (S m))) with (w :: repeat w (S m)). cbn [forallb]. rewrite IH. apply andb_diag.
Qed.
Lemma existsb_repeat w m : 0 < m -> existsb tob (repeat w m) = tob w.
Proof.
  destruct m as [|m]; [lia|]. intros _. induction m as [|m IH]; [simpl; apply orb_false_r|].
  change (repeat w (S (S m))) with (w :: repeat w (S m)). cbn [existsb]. rewrite IH. apply orb_diag.
Qed.
Lemma Cmod_ge w : (0 <= Cmod w)%R. Proof. apply Cmod_ge_0. Qed.

Lemma redux_const_ok op w fx gx z factor d :
  0 < size factor -> 0 < size d -> (match op with RMin | RMax => snd w = 0%R | _ => True end) ->
  redux_const op (Some (fx, w)) factor d = Some (gx, z) -> reval op (repeat w (size factor * size d)) = z.
Proof.
  intros Hf Hd Hw H. set (m := size factor * size d). assert (Hm : 0 < m) by (unfold m; nia).
  assert (Z : fixed_zero (Some (fx, w)) = true -> w = C0)
    by (intro F; apply fixed_zero_true in F; injection F as _ F; exact F).
  assert (P0 : cpow C0 m = C0) by (destruct m; [lia | apply Cm0l]).
  destruct op; unfold redux_const in H.
  - destruct (fixed_zero (Some (fx, w))); [injection H as _ <-; rewrite Z by reflexivity|injection H as _ <-];
      simpl reval; rewrite map_repeat, rsum_repeat; [rewrite Cmod_C0, Rmult_0_r; reflexivity | reflexivity].
  - assert (Q : reval RNorm2 (repeat w m) = real_of (sqrt (INR m) * Cmod w)).
    { simpl reval. rewrite map_repeat, rsum_repeat. unfold real_of; f_equal.
      rewrite sqrt_mult_alt by apply pos_INR. f_equal. rewrite Rmult_1_r. apply sqrt_square, Cmod_ge. }
    destruct (fixed_zero (Some (fx, w))); [injection H as _ <-|injection H as _ <-; exact Q].
    rewrite Q, Z, Cmod_C0, Rmult_0_r by reflexivity. reflexivity.
  - assert (Q : reval RNormInf (repeat w m) = real_of (Cmod w)).
    { simpl reval. rewrite map_repeat. f_equal. apply rgreatest_spec; [now apply in_repeat|].
      intros v Hv; apply in_repeat in Hv; [subst; lra | assumption]. }
    destruct (fixed_zero (Some (fx, w))); [injection H as _ <-|injection H as _ <-; exact Q].
    rewrite Q, Z, Cmod_C0 by reflexivity. reflexivity.
  - assert (Q : reval RSum (repeat w m) = Cmult w (real_of (INR m))) by apply csum_repeat.
    destruct (fixed_zero (Some (fx, w))); [injection H as _ <-|injection H as _ <-; exact Q].
    rewrite Q, Z by reflexivity. apply Cm0l.
  - injection H as _ <-. simpl reval. rewrite map_repeat. rewrite (rleast_spec _ (fst w)).
    + symmetry; now apply real_eta.
    + now apply in_repeat.
    + intros v Hv; apply in_repeat in Hv; [subst; lra | assumption].
  - injection H as _ <-. simpl reval. rewrite map_repeat. rewrite (rgreatest_spec _ (fst w)).
    + symmetry; now apply real_eta.
    + now apply in_repeat.
    + intros v Hv; apply in_repeat in Hv; [subst; lra | assumption].
  - injection H as _ <-. simpl reval. now rewrite forallb_repeat.
  - injection H as _ <-. simpl reval. now rewrite existsb_repeat.
  - injection H as _ <-. simpl reval. rewrite filter_repeat. unfold count_op, m. cbn [times size].
    destruct (tob w); [now rewrite Nat.mul_comm | reflexivity].
  - assert (Q : reval RProd (repeat w m) = cpow w m) by apply cprod_repeat.
    destruct (fixed_zero (Some (fx, w))); [injection H as _ <-|injection H as _ <-; exact Q].
    rewrite Q, Z by reflexivity. exact P0.
Qed.

(** ** Reductions of copies of a line that has one value on the diagonal and zeros elsewhere. *)
Definition spike (n k : nat) (w : C) : list C := map (fun q => if Nat.eqb q k then w else C0) (seq 0 n).
Lemma in_spike n k w v : In v (spike n k w) -> v = w \/ v = C0.
Proof. intro H; apply in_map_iff in H as (q & <- & _). destruct (Nat.eqb q k); auto. Qed.
Lemma in_spike_value n k w : k < n -> In w (spike n k w).
Proof. intro H; apply in_map_iff. exists k. rewrite Nat.eqb_refl. split; [reflexivity | now apply in_seq0]. Qed.
Lemma in_spike_zero n k w : 2 <= n -> In C0 (spike n k w).
Proof.
  intro H; apply in_map_iff. exists (if Nat.eqb k 0 then 1 else 0). destruct (Nat.eqb k 0) eqn:E.
  - apply Nat.eqb_eq in E; subst k. split; [reflexivity | apply in_seq0; lia].
  - rewrite Nat.eqb_sym, E. split; [reflexivity | apply in_seq0; lia].
Qed.
Lemma rsum_app l l' : rsum (l ++ l') = (rsum l + rsum l')%R.
Proof.
  induction l as [|a l IH]; [simpl; ring|]. simpl. fold (rsum (l ++ l')). fold (rsum l). rewrite IH; ring.
Qed.
Lemma csum_app l l' : csum (l ++ l') = Cplus (csum l) (csum l').
Proof.
  induction l as [|a l IH]; [destruct (csum l') as [p q] eqn:E; simpl; rewrite E; unfold Cplus, C0; simpl; f_equal; ring|].
  simpl. fold (csum (l ++ l')). fold (csum l). rewrite IH. ring.
Qed.
Lemma rsum_copies n l : rsum (copies n l) = (INR n * rsum l)%R.
Proof. induction n as [|n IH]; [simpl; ring|]. rewrite copies_S, rsum_app, IH, S_INR. ring. Qed.
Lemma csum_copies n l : csum (copies n l) = Cmult (csum l) (real_of (INR n)).
Proof.
  induction n as [|n IH]; [destruct (csum l); unfold Cmult, real_of; simpl; unfold C0; f_equal; ring|].
  rewrite copies_S, csum_app, IH, S_INR. destruct (csum l); unfold Cplus, Cmult, real_of; simpl; f_equal; ring.
Qed.
Lemma rsum_spike (g : C -> R) n k w : g C0 = 0%R -> k < n -> rsum (map g (spike n k w)) = g w.
Proof.
  intros G H. unfold spike. rewrite map_map.
  assert (E : forall l, NoDup l -> rsum (map (fun q => g (if Nat.eqb q k then w else C0)) l) = if in_dec Nat.eq_dec k l then g w else 0%R).
  { induction l as [|a l IH]; intro N; [reflexivity|]. inversion N as [|? ? Na Nl]; subst.
    cbn [map rsum fold_right]. fold (rsum (map (fun q => g (if Nat.eqb q k then w else C0)) l)). rewrite (IH Nl).
    destruct (Nat.eqb a k) eqn:Q.
    - apply Nat.eqb_eq in Q; subst a. destruct (in_dec Nat.eq_dec k l); [contradiction|].
      destruct (in_dec Nat.eq_dec k (k :: l)) as [|B]; [ring | exfalso; apply B; now left].
    - apply Nat.eqb_neq in Q. rewrite G. destruct (in_dec Nat.eq_dec k l) as [A|A], (in_dec Nat.eq_dec k (a :: l)) as [B|B]; try ring.
      + exfalso; apply B; now right.
      + exfalso; destruct B; [congruence|contradiction]. }
  rewrite E by apply seq_NoDup. destruct (in_dec Nat.eq_dec k (seq 0 n)) as [|B]; [reflexivity|].
  exfalso; apply B, in_seq0, H.
Qed.
Lemma csum_spike n k w : k < n -> csum (spike n k w) = w.
Proof.
  intro H. unfold spike. rewrite (csum_single _ _ k); [now rewrite Nat.eqb_refl | apply seq_NoDup | now apply in_seq0 |].
  intros a _ N. apply Nat.eqb_neq in N; now rewrite N.
Qed.
Lemma spike_zero n k : spike n k C0 = repeat C0 n.
Proof.
  unfold spike. rewrite (map_ext _ (fun _ => C0)) by (intro q; now destruct (Nat.eqb q k)).
  generalize 0; induction n as [|n IH]; intro s; [reflexivity|]. simpl. now rewrite IH.
Qed.
Lemma count_copies n l : length (filter tob (copies n l)) = n * length (filter tob l).
Proof. induction n as [|n IH]; [reflexivity|]. rewrite copies_S, filter_app, app_length, IH. reflexivity. Qed.
Lemma count_spike n k w : k < n -> length (filter tob (spike n k w)) = if tob w then 1 else 0.
Proof.
  intro H. apply INR_eq.
  assert (E : forall l, INR (length (filter tob l)) = rsum (map (fun v => if tob v then 1%R else 0%R) l)).
  { induction l as [|a l IH]; [reflexivity|]. cbn [filter map rsum fold_right].
    fold (rsum (map (fun v => if tob v then 1%R else 0%R) l)). rewrite <- IH.
    destruct (tob a); [cbn [length]; rewrite S_INR; ring | ring]. }
  rewrite E, (rsum_spike (fun v => if tob v then 1%R else 0%R)) by (rewrite ?tob0; trivial).
  destruct (tob w); reflexivity.
Qed.
Lemma cprod_zero l : In C0 l -> fold_right Cmult C1 l = C0.
Proof. induction l as [|a l IH]; [easy|]. intros [->|H]; simpl; [apply Cm0l | rewrite IH by assumption; apply Cm0r]. Qed.
Lemma reval_zeros op m : 0 < m -> match op with RNorm1 | RNorm2 | RNormInf | RSum => True | _ => False end ->
  reval op (repeat C0 m) = C0.
Proof.
  intros Hm Ho. destruct op; try easy; simpl reval; rewrite ?map_repeat, ?rsum_repeat, ?csum_repeat, ?Cmod_C0.
  - now rewrite Rmult_0_r.
  - replace (0 * (0 * 1))%R with 0%R by ring. rewrite Rmult_0_r, sqrt_0. reflexivity.
  - rewrite (rgreatest_spec _ 0%R); [reflexivity | now apply in_repeat |].
    intros v Hv; apply in_repeat in Hv; [subst; lra | assumption].
  - apply Cm0l.
Qed.

Lemma redux_diag_ok als op w fx gx z factor d k :
  0 < size factor -> 0 < size d -> (als = true -> k < size d) ->
  (match op with RMin | RMax => snd w = 0%R | _ => True end) ->
  (needs_two op = true -> 2 <= size d) ->
  redux_diag als op (Some (fx, w)) factor d = Some (gx, z) -> reval op (copies (size factor) (spike (size d) k w)) = z.
Proof.
  intros Hf Hd Ha Hw H2 H. set (n := size factor) in *. set (m := size d) in *.
  assert (Z : fixed_zero (Some (fx, w)) = true -> w = C0)
    by (intro F; apply fixed_zero_true in F; injection F as _ F; exact F).
  assert (Z0 : fixed_zero (Some (fx, w)) = true -> match op with RNorm1 | RNorm2 | RNormInf | RSum => True | _ => False end ->
                reval op (copies n (spike m k w)) = C0).
  { intros F O. rewrite (Z F), spike_zero, copies_repeat. apply reval_zeros; [nia | exact O]. }
  destruct op; unfold redux_diag in H.
  - destruct (fixed_zero (Some (fx, w))); [injection H as _ <-; now apply Z0|]. destruct als; [|discriminate H].
    injection H as _ <-. simpl reval. rewrite copies_map, rsum_copies, rsum_spike; [reflexivity | apply Cmod_C0 | auto].
  - destruct (fixed_zero (Some (fx, w))); [injection H as _ <-; now apply Z0|]. destruct als; [|discriminate H].
    injection H as _ <-. simpl reval. rewrite copies_map, rsum_copies, (rsum_spike (fun z => (Cmod z * (Cmod z * 1))%R));
      [| rewrite Cmod_C0; ring | auto].
    unfold norm_op, real_of; f_equal. rewrite sqrt_mult_alt by apply pos_INR. f_equal. rewrite Rmult_1_r. apply sqrt_square, Cmod_ge.
  - destruct (fixed_zero (Some (fx, w))); [injection H as _ <-; now apply Z0|]. destruct als; [|discriminate H].
    injection H as _ <-. simpl reval. f_equal. apply rgreatest_spec.
    + apply in_map. apply in_copies; [assumption|]. apply in_spike_value; auto.
    + intros v Hv. apply in_map_iff in Hv as (u & <- & Hu). apply in_copies in Hu; [|assumption].
      apply in_spike in Hu as [->| ->]; [lra|]. rewrite Cmod_C0; apply Cmod_ge.
  - destruct (fixed_zero (Some (fx, w))); [injection H as _ <-; now apply Z0|]. destruct als; [|discriminate H].
    injection H as _ <-. simpl reval. rewrite csum_copies, csum_spike; [reflexivity | auto].
  - specialize (H2 eq_refl). simpl reval. destruct als.
    + injection H as _ <-. fold m. assert (L : Nat.ltb 1 m = true) by (apply Nat.ltb_lt; lia). rewrite L. f_equal.
      apply rleast_spec.
      * unfold Rmin. destruct (Rle_dec (fst w) 0).
        -- apply in_map, in_copies; [assumption|]. apply in_spike_value; auto.
        -- change 0%R with (fst C0). apply in_map, in_copies; [assumption|]. now apply in_spike_zero.
      * intros v Hv. apply in_map_iff in Hv as (u & <- & Hu). apply in_copies in Hu; [|assumption].
        apply in_spike in Hu as [->| ->]; [apply Rmin_l | apply Rmin_r].
    + destruct fx; [|discriminate H]. destruct (Rltb (fst w) 0) eqn:L; [discriminate H|]. injection H as _ <-.
      apply Rltb_false in L. rewrite <- real0. f_equal. apply rleast_spec.
      * change 0%R with (fst C0). apply in_map, in_copies; [assumption|]. now apply in_spike_zero.
      * intros v Hv. apply in_map_iff in Hv as (u & <- & Hu). apply in_copies in Hu; [|assumption].
        apply in_spike in Hu as [->| ->]; [exact L | simpl; lra].
  - specialize (H2 eq_refl). simpl reval. destruct als.
    + injection H as _ <-. fold m. assert (L : Nat.ltb 1 m = true) by (apply Nat.ltb_lt; lia). rewrite L. f_equal.
      apply rgreatest_spec.
      * unfold Rmax. destruct (Rle_dec (fst w) 0).
        -- change 0%R with (fst C0). apply in_map, in_copies; [assumption|]. now apply in_spike_zero.
        -- apply in_map, in_copies; [assumption|]. apply in_spike_value; auto.
      * intros v Hv. apply in_map_iff in Hv as (u & <- & Hu). apply in_copies in Hu; [|assumption].
        apply in_spike in Hu as [->| ->]; [apply Rmax_l | apply Rmax_r].
    + destruct fx; [|discriminate H]. destruct (Rltb 0 (fst w)) eqn:L; [discriminate H|]. injection H as _ <-.
      apply Rltb_false in L. rewrite <- real0. f_equal. apply rgreatest_spec.
      * change 0%R with (fst C0). apply in_map, in_copies; [assumption|]. now apply in_spike_zero.
      * intros v Hv. apply in_map_iff in Hv as (u & <- & Hu). apply in_copies in Hu; [|assumption].
        apply in_spike in Hu as [->| ->]; [exact L | simpl; lra].
  - specialize (H2 eq_refl). injection H as _ <-. simpl reval.
    replace (forallb tob (copies n (spike m k w))) with false; [reflexivity|]. symmetry. apply not_true_iff_false.
    intro F. rewrite forallb_forall in F. specialize (F C0). rewrite tob0 in F.
    discriminate F. apply in_copies; [assumption | now apply in_spike_zero].
  - destruct als; [|discriminate H]. injection H as _ <-. simpl reval. f_equal. apply eq_true_iff_eq. rewrite existsb_exists. split.
    + intros (u & Hu & T). apply in_copies in Hu; [|assumption]. apply in_spike in Hu as [->| ->]; [exact T|].
      rewrite tob0 in T; discriminate.
    + intro T. exists w. split; [|exact T]. apply in_copies; [assumption|]. apply in_spike_value; auto.
  - destruct als; [|discriminate H]. injection H as _ <-. simpl reval. rewrite count_copies, count_spike by auto.
    unfold count_op. fold n. destruct (tob w); [now rewrite Nat.mul_1_r | now rewrite Nat.mul_0_r].
  - specialize (H2 eq_refl). injection H as _ <-. simpl reval. apply cprod_zero.
    apply in_copies; [assumption | now apply in_spike_zero].
Qed.

(** ** Reductions of expressions. *)
Definition len (h : bool) (e : expr) : nat := if h then cols e else rows e.
Definition line (h : bool) (e : expr) (k : nat) : list C :=
  if h then map (fun q => coef e k q) (seq 0 (cols e)) else map (fun q => coef e q k) (seq 0 (rows e)).
Lemma coef_redux op h e i j : coef (ERedux op h e) i j = reval op (line h e (if h then i else j)).
Proof. destruct h; reflexivity. Qed.

Lemma size_along_ok t e h : sound t e -> size (size_along h t) = len h e.
Proof.
  intro S. unfold size_along. destruct h; simpl.
  - destruct (t_cols t) eqn:E; simpl; [symmetry; now apply (s_cols _ _ S) | apply (s_nc _ _ S)].
  - destruct (t_rows t) eqn:E; simpl; [symmetry; now apply (s_rows _ _ S) | apply (s_nr _ _ S)].
Qed.
Lemma most_fixed_size a b n : size a = n -> size b = n -> size (most_fixed a b) = n.
Proof. unfold most_fixed; now destruct (fixed a). Qed.

(** What the reduction function of an expression has to satisfy: [func] is what the library applies, [func'] the
    functions that it stands for. *)
Definition redux_ok (e : expr) (r : redux_fun) : Prop :=
  forall op h factor dd func func' gx z,
  0 < rows e -> 0 < cols e -> 0 < size factor -> size dd = len h e ->
  (forall v, real_if (kind_of e) v -> func v = func' v) ->
  redux_safe op h func' e ->
  (match op with RMin | RMax => forall i j, i < rows e -> j < cols e -> snd (func' (coef e i j)) = 0%R | _ => True end) ->
  r op h factor dd func = Some (gx, z) ->
  forall k, k < len (negb h) e -> reval op (copies (size factor) (map func' (line h e k))) = z.

Lemma len_pos h e : 0 < rows e -> 0 < cols e -> 0 < len h e.
Proof. destruct h; auto. Qed.
Lemma line_length h e k : length (line h e k) = len h e.
Proof. destruct h; simpl; now rewrite map_length, seq_length. Qed.
Lemma real_if0 k : real_if k C0. Proof. destruct k; simpl; auto. Qed.

Lemma line_const h e k z : all_equal e z -> k < len (negb h) e -> line h e k = repeat z (len h e).
Proof.
  intros A Hk. assert (R : forall n (g : nat -> C), (forall q, q < n -> g q = z) -> map g (seq 0 n) = repeat z n).
  { intros n g G. apply nth_ext with (d := z) (d' := z); [now rewrite map_length, seq_length, repeat_length|].
    intros p Hp. rewrite map_length, seq_length in Hp.
    rewrite (nth_indep _ z (g 0)) by now rewrite map_length, seq_length.
    rewrite (map_nth g _ 0), seq_nth, G by assumption. symmetry. now rewrite nth_repeat. }
  destruct h; simpl in *; apply R; intros q Hq; now apply A.
Qed.
Lemma line_diag h e k z : diag_equal e z -> k < len (negb h) e -> line h e k = spike (len h e) k z.
Proof.
  intros A Hk. destruct h; simpl in *; apply map_ext_in; intros q Hq; apply in_seq0 in Hq; rewrite A by assumption.
  - now rewrite Nat.eqb_sym.
  - reflexivity.
Qed.

Lemma redux_last_ok e t : wf e -> sound t e ->
  (forall op h f, redux_safe op h f e ->
     is_some (constant t) = false -> is_some (constant_diag t) = true ->
     f C0 = C0 /\ (needs_two op = true -> 2 <= len h e)) -> redux_ok e (redux_last t).
Proof.
  intros W S B op h factor dd func func' gx z Hr Hc Hf Hd Hfun Safe Hre H k Hk. unfold redux_last in H.
  set (d := most_fixed dd (size_along h t)) in *. set (o := size_along (negb h) t) in *.
  assert (Ed : size d = len h e) by (apply most_fixed_size; [exact Hd | now apply size_along_ok]).
  assert (Eo : size o = len (negb h) e) by now apply size_along_ok.
  pose proof (len_pos h e Hr Hc) as Hl.
  destruct (constant t) as [[fx c]|] eqn:Ec.
  - cbn [is_some op1] in H. pose proof (constant_ok _ _ S _ _ Ec) as A.
    rewrite (line_const h e k c A Hk), map_repeat, copies_repeat, <- Ed.
    assert (Rc : real_if (kind_of e) c) by (rewrite <- (A 0 0) by assumption; now apply coef_kind).
    rewrite (Hfun c Rc) in H. apply (redux_const_ok op (func' c) fx gx z factor d); try assumption; try lia.
    destruct op; try exact I; rewrite <- (A 0 0 Hr Hc); now apply Hre.
  - cbn [is_some] in H. destruct (constant_diag t) as [[fx c]|] eqn:Ec2; [|discriminate H]. cbn [is_some op1] in H.
    destruct (B op h func' Safe eq_refl eq_refl) as [F0 F2].
    pose proof (constant_diag_ok _ _ S _ _ Ec2) as A.
    assert (Rc : real_if (kind_of e) c).
    { replace c with (coef e 0 0) by (rewrite A by assumption; reflexivity). now apply coef_kind. }
    rewrite (Hfun c Rc) in H.
    assert (E : map func' (line h e k) = spike (size d) k (func' c)).
    { rewrite (line_diag h e k c A Hk), Ed. unfold spike. rewrite map_map. apply map_ext. intro q.
      destruct (Nat.eqb q k); [reflexivity | exact F0]. }
    rewrite E. eapply redux_diag_ok; [exact Hf | lia | | | | exact H].
    + intro Al. apply andb_true_iff in Al as [_ Al]. apply Nat.leb_le in Al. lia.
    + assert (R0 : match op with RMin | RMax => snd (func' c) = 0%R | _ => True end).
      { destruct op; try exact I; replace c with (coef e 0 0) by (rewrite A by assumption; reflexivity); now apply Hre. }
      exact R0.
    + rewrite Ed; exact F2.
Qed.

Lemma redux_under_ok x e t (g g' : C -> C) r :
  sound t e -> rows e = rows x -> cols e = cols x -> (forall i j, coef e i j = g' (coef x i j)) ->
  (forall v, real_if (kind_of x) v -> g v = g' v /\ real_if (kind_of e) (g' v)) ->
  (forall op h f, redux_safe op h f e -> redux_safe op h (fun v => f (g' v)) x) ->
  redux_ok x r -> redux_ok e (redux_under t g r).
Proof.
  intros S Er Ec Eq Hg Hs IH op h factor dd func func' gx z Hr Hc Hf Hd Hfun Safe Hre H k Hk.
  unfold redux_under in H.
  assert (El : forall b, len b e = len b x) by (intros []; simpl; assumption).
  assert (Eline : map func' (line h e k) = map (fun v => func' (g' v)) (line h x k)).
  { unfold line. destruct h; rewrite !map_map, ?Er, ?Ec; apply map_ext; intro q; now rewrite Eq. }
  rewrite Eline. refine (IH op h factor _ (fun v => func (g v)) (fun v => func' (g' v)) gx z _ _ Hf _ _ _ _ H k _).
  - congruence.
  - congruence.
  - rewrite <- El. apply most_fixed_size; [exact Hd | now apply size_along_ok].
  - intros v Hv. destruct (Hg v Hv) as [-> R]. now apply Hfun.
  - now apply Hs.
  - destruct op; try exact I; intros i j Hi Hj; rewrite <- Eq; apply Hre; congruence.
  - now rewrite <- El.
Qed.

Lemma redux_through_ok x t r : sound t (EWrap x) -> redux_ok x r -> redux_ok (EWrap x) (redux_through t r).
Proof.
  intros S IH op h factor dd func func' gx z Hr Hc Hf Hd Hfun Safe Hre H k Hk. unfold redux_through in H.
  refine (IH op h factor _ func func' gx z Hr Hc Hf _ Hfun Safe Hre H k Hk).
  apply most_fixed_size; [exact Hd | now apply (size_along_ok t (EWrap x))].
Qed.

Lemma redux_repl_ok rf cf x t n r : sound t (ERepl rf cf x) -> sound n x -> redux_ok x r ->
  redux_ok (ERepl rf cf x) (redux_repl rf cf t n r).
Proof.
  intros S Sn IH op h factor dd func func' gx z Hr Hc Hf Hd Hfun Safe Hre H k Hk. unfold redux_repl in H.
  set (e := ERepl rf cf x) in *.
  set (d := most_fixed dd (size_along h t)) in *. set (big := if h then cf else rf) in *.
  set (nd := size_along h n) in *.
  assert (Ed : size d = len h e) by (apply most_fixed_size; [exact Hd | now apply size_along_ok]).
  assert (End : size nd = len h x) by now apply size_along_ok.
  assert (Hrx : 0 < rows x) by (simpl in Hr; nia). assert (Hcx : 0 < cols x) by (simpl in Hc; nia).
  pose proof (len_pos h x Hrx Hcx) as Hl. pose proof (len_pos h e Hr Hc) as Hle.
  assert (El : len h e = size big * len h x) by (unfold e, big; destruct h; reflexivity).
  assert (Hb : 0 < size big) by nia.
  set (f := if fixed big then big else mkdim (size d / size nd) (fixed d && fixed nd)) in *.
  assert (Ef : size f = size big).
  { unfold f. destruct (fixed big); [reflexivity|]. simpl. rewrite Ed, End, El. apply Nat.div_mul; lia. }
  set (ndd := if fixed d && fixed big && negb (fixed nd) then mkdim (size d / size big) true else nd) in *.
  assert (Endd : size ndd = len h x).
  { unfold ndd. destruct (fixed d && fixed big && negb (fixed nd)); [|exact End]. simpl. rewrite Ed, El, Nat.mul_comm. apply Nat.div_mul; lia. }
  (* the line is made of copies of a line of the nested object *)
  set (k' := if h then k mod rows x else k mod cols x).
  assert (Hk' : k' < len (negb h) x) by (unfold k'; destruct h; simpl; apply Nat.mod_upper_bound; lia).
  assert (Eline : line h e k = copies (size big) (line h x k')).
  { unfold line, e, big, k'. destruct h; cbn [cols rows coef].
    - apply (copies_mod (fun q => coef x (k mod rows x) q) (size cf) (cols x) Hcx).
    - apply (copies_mod (fun q => coef x q (k mod cols x)) (size rf) (rows x) Hrx). }
  rewrite Eline, copies_map, copies_copies, <- Ef.
  change (size factor * size f) with (size (times factor f)).
  refine (IH op h (times factor f) ndd func func' gx z Hrx Hcx _ Endd Hfun Safe _ H k' Hk').
  - simpl. rewrite Ef. nia.
  - assert (G : (forall i j, i < rows e -> j < cols e -> snd (func' (coef e i j)) = 0%R) ->
        forall i j, i < rows x -> j < cols x -> snd (func' (coef x i j)) = 0%R).
    { intros G i j Hi Hj. specialize (G i j). simpl in G, Hr, Hc. rewrite !Nat.mod_small in G by assumption.
      assert (0 < size rf) by nia. assert (0 < size cf) by nia. apply G; nia. }
    destruct op; try exact I; now apply G.
Qed.

Lemma redux_sound op h x t r : wf (ERedux op h x) -> sound t x -> redux_ok x r -> redux_safe op h (fun z => z) x ->
  sound (redux_traits op h t (kind_of (ERedux op h x)) (coef (ERedux op h x) 0 0) r) (ERedux op h x).
Proof.
  intros (W & Hr & Hc & K) S R Safe.
  apply mk_sound; unfold redux_traits; fields; try reflexivity; try discriminate.
  - intros n H. simpl. destruct h; [now apply (s_rows _ _ S) | congruence].
  - intros n H. simpl. destruct h; [congruence | now apply (s_cols _ _ S)].
  - simpl. destruct h; [apply (s_nr _ _ S) | reflexivity].
  - simpl. destruct h; [reflexivity | apply (s_nc _ _ S)].
  - intros fx z H i j Hi Hj. rewrite coef_redux.
    assert (L : (if h then i else j) < len (negb h) x) by (destruct h; simpl in *; lia).
    pose proof (R op h (mkdim 1 true) _ (fun z => z) (fun z => z) fx z Hr Hc Nat.lt_0_1 (size_along_ok t x h S)
                  (fun v _ => eq_refl) Safe) as P.
    rewrite <- (P) with (k := if h then i else j).
    + unfold copies. simpl. rewrite app_nil_r, map_id. reflexivity.
    + destruct op; try exact I; intros; now apply coef_real.
    + exact H.
    + exact L.
Qed.

(** ** All expressions. *)
Theorem sound_all e : wf e -> safe e -> sound (fst (analyse e)) e /\ redux_ok e (snd (analyse e)).
Proof.
  induction e as [k r c f|k r c z|k r c z|k r c|v IH|u e IH|b z e IH|b e IH z|b x IHx y IHy|e IH|e IH|e IH|rf cf e IH
    |d e IH|s IHs x IHx y IHy|x IHx y IHy|k fx e IH|up e IH|up m e IH|r c i0 j0 e IH|r c e IH|op h e IH|k n f]; intros W Sf;
  cbn [safe] in Sf; cbn [analyse fst snd].
  all: try match goal with
    | |- sound ?t ?e /\ redux_ok ?e (redux_last ?t) =>
        let Q := fresh in assert (Q : sound t e); [|split; [exact Q | apply redux_last_ok; [exact W | exact Q | intros op0 h0 f0 Hs; exact Hs]]]
    end.
  - apply dense_sound.
  - apply const_sound; [apply sdim_some | apply sdim_some | exact W].
  - apply fixed_sound.
  - apply ident_sound.
  - destruct W as [W V]. destruct (IH W Sf) as [S _]. apply diagvec_sound; [exact S | exact (conj W V)].
  - destruct Sf as [Sf Su]. pose proof W as [Wx Wu]. destruct (IH Wx Sf) as [S R].
    assert (Q : sound (un_traits u (fst (analyse e)) (coef (EUn u e) 0 0) (kind_of (EUn u e))) (EUn u e))
      by (now apply un_sound).
    split; [exact Q|]. apply (redux_under_ok e _ _ _ (ueval (kind_of e) u)); try reflexivity; try assumption.
    + intros v Hv. rewrite (s_kind _ _ S). split; [now apply uop_ueval|]. simpl kind_of.
      destruct (ureal u) eqn:U; [now apply ureal_real|].
      destruct u; try discriminate U; try exact I; destruct (kind_of e); try exact I; now apply ueval_real.
    + intros op h f H; exact H.
  - destruct Sf as (Sf & Sh & Sb). pose proof W as (Wx & Rz & Ob). destruct (IH Wx Sf) as [S R].
    assert (Q : sound (bind_traits true b z (fst (analyse e)) (coef (EBind1 b z e) 0 0) (kind_of (EBind1 b z e))) (EBind1 b z e))
      by (now apply bind1_sound).
    split; [exact Q|]. apply (redux_under_ok e _ _ _ (beval b z)); try reflexivity; try assumption.
    + intros v Hv. split; [reflexivity|]. simpl kind_of. destruct (breal b) eqn:U; [now apply breal_real|].
      destruct (kind_of e); [now apply beval_real | exact I].
    + intros op h f H; exact H.
  - destruct Sf as (Sf & Sh & Sb). pose proof W as (Wx & Rz & Ob). destruct (IH Wx Sf) as [S R].
    assert (Q : sound (bind_traits false b z (fst (analyse e)) (coef (EBind2 b e z) 0 0) (kind_of (EBind2 b e z))) (EBind2 b e z))
      by (now apply bind2_sound).
    split; [exact Q|]. apply (redux_under_ok e _ _ _ (fun v => beval b v z)); try reflexivity; try assumption.
    + intros v Hv. split; [reflexivity|]. simpl kind_of. destruct (breal b) eqn:U; [now apply breal_real|].
      destruct (kind_of e); [now apply beval_real | exact I].
    + intros op h f H; exact H.
  - destruct Sf as (Sx & Sy & Sb). pose proof W as (Wx & Wy & _). destruct (IHx Wx Sx) as [Qx _]. destruct (IHy Wy Sy) as [Qy _].
    now apply bin_sound.
  - destruct (IH W Sf) as [S R]. assert (Q : sound (wrap_traits (fst (analyse e))) (EWrap e)) by now apply wrap_sound.
    split; [exact Q | now apply redux_through_ok].
  - destruct (IH W Sf) as [S R]. now apply nest_sound.
  - destruct (IH W Sf) as [S R]. now apply trans_sound.
  - destruct Sf as (Sf & S1 & S2). destruct (IH W Sf) as [S R].
    assert (Q : sound (repl_traits rf cf (fst (analyse e)) (coef (ERepl rf cf e) 0 0)) (ERepl rf cf e)) by now apply repl_sound.
    split; [exact Q | now apply redux_repl_ok].
  - destruct Sf as (Sf & S1). destruct (IH W Sf) as [S R]. now apply rev_sound.
  - destruct Sf as (Ss & Sx & Sy). pose proof W as (Ws & Wx & Wy & _).
    destruct (IHs Ws Ss) as [Qs _]. destruct (IHx Wx Sx) as [Qx _]. destruct (IHy Wy Sy) as [Qy _]. now apply sel_sound.
  - destruct Sf as (Sx & Sy & S3 & S1). pose proof W as (Wx & Wy & _). destruct (IHx Wx Sx) as [Qx _]. destruct (IHy Wy Sy) as [Qy _].
    now apply prod_sound.
  - pose proof W as (Wx & _). destruct (IH Wx Sf) as [S _]. now apply diag_sound.
  - pose proof W as (Wx & _). destruct (IH Wx Sf) as [S _]. now apply self_sound.
  - destruct Sf as (Sf & S1 & S2). destruct (IH W Sf) as [S _]. now apply tri_sound.
  - pose proof W as (Wx & _). destruct (IH Wx Sf) as [S _]. now apply block_sound.
  - destruct Sf as (Sf & S1). pose proof W as (Wx & _). destruct (IH Wx Sf) as [S _]. now apply reshape_sound.
  - destruct Sf as (Sf & S1). pose proof W as (Wx & _). destruct (IH Wx Sf) as [S R]. now apply redux_sound.
  - now apply herm_sound.
Qed.
