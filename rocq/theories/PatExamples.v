(** Concrete cases meeting the hypotheses of the pattern theorems. *)
From Coq Require Import Reals List ZArith Lra Lia.
From Verif Require Import PatModel PatSpec PatProofs PatProofs2 PatProofs3 PatProofs4.
Import ListNotations.
Local Open Scope R_scope.

Lemma trunc_val x z : 0 <= x -> IZR z <= x < IZR z + 1 -> trunc x = z.
Proof.
  intros Hx H. unfold trunc. destruct (Rlt_dec x 0); [lra|].
  unfold Int_part. assert (z + 1 = up x)%Z; [|lia]. apply tech_up; rewrite plus_IZR; lra.
Qed.

Lemma fmod_val x y z : 0 < y -> 0 < sv x -> IZR z <= sv x / y < IZR z + 1 -> sv x / y < 1000 ->
  fmod x y = Ret (pos (sv x - IZR z * y)).
Proof.
  intros Hy Hx Hq HB. unfold fmod.
  assert (0 <= sv x / y). { apply Rmult_le_pos; [lra|]. left. apply Rinv_0_lt_compat. lra. }
  assert (1000 < intmax_bound) by (unfold intmax_bound; apply IZR_lt; lia).
  destruct (Req_EM_T y 0); [lra|]. destruct (Req_EM_T (sv x) 0); [lra|].
  destruct (Rlt_dec _ _); [lra|]. destruct (Rlt_dec _ _); [lra|]. destruct (Req_EM_T _ _); [lra|].
  rewrite (trunc_val _ z) by assumption. reflexivity.
Qed.

Definition ex_ds : list desc := [Ang 0 360; Dist; Spher IAD (-180) 180 180; Dim 2; AnyD (Incl 180)].
Definition ex_v : list sr :=
  [pos 400; pos (-3); pos 190; pos 10; pos (-5); pos 7; pos 8; pos 200].
Definition ex_w : list R := [40; 3; 10; 10; 5; 7; 8; 160].

Lemma ex_valid : Forall valid ex_ds.
Proof. repeat constructor; cbn; lra. Qed.

Ltac dec :=
  repeat match goal with
  | |- context [Rle_dec ?a ?b] => destruct (Rle_dec a b); [try lra|try lra]
  | |- context [Rlt_dec ?a ?b] => destruct (Rlt_dec a b); [try lra|try lra]
  end.

Lemma ex_wrap : wrap ex_ds ex_v = Ret ex_w.
Proof.
  apply wrap_iff. unfold ex_ds, ex_v, ex_w.
  change (each2 (call wrap1 dim) [Ang 0 360; Dist; Spher IAD (-180) 180 180; Dim 2; AnyD (Incl 180)]
     ([pos 400] ++ [pos (-3)] ++ [pos 190; pos 10; pos (-5)] ++ [pos 7; pos 8] ++ [pos 200] ++ [])
     ([40] ++ [3] ++ [10;10;5] ++ [7;8] ++ [160] ++ [])).
  repeat constructor.
  - cbn [wrap1]. unfold wrap_phi_mod. cbn [pos sv]. dec.
    rewrite (fmod_val _ _ 1); cbn [pos sv]; try lra. cbn [bind sv pos]. dec. cbn [bind]. do 2 f_equal. lra.
  - cbn. rewrite Rabs_left by lra. do 2 f_equal. lra.
  - cbn [wrap1 sget]. unfold spher_wrap.
    assert (S : forall x z, x < 0 -> signbit (SR x z) = true).
    { intros x z H. unfold signbit; cbn. destruct (Rlt_dec x 0); [reflexivity|lra]. }
    assert (S' : forall x z, 0 < x -> signbit (SR x z) = false).
    { intros x z H. unfold signbit; cbn. destruct (Rlt_dec x 0); [lra|]. destruct (Req_EM_T x 0); [lra|reflexivity]. }
    rewrite (fmod_val _ _ 0); cbn [pos sv]; try lra. cbn [bind pos sv].
    unfold pos. rewrite (S (-5)) by lra. rewrite (S' (190 - 0 * (180*2))) by lra.
    unfold spher_wrap_theta, spher_wrap_phi. rewrite Rabs_pos_eq by lra. dec. cbn [xorb].
    rewrite (fmod_val _ _ 0); cbn [pos sv]; try lra. cbn [bind pos sv]. dec. cbn [bind sput].
    rewrite Rabs_left by lra. repeat f_equal; lra.
  - rewrite wrap1_any by reflexivity. cbn [wrap1]. unfold incl_wrap. cbn [pos sv].
    dec. rewrite (fmod_val _ _ 0); cbn [pos sv]; rewrite ?(Rabs_pos_eq 200) by lra; try lra. cbn [bind pos sv].
    dec. cbn [bind]. do 2 f_equal. lra.
Qed.

(** A stat-space vector with non-unit directions, e.g. an average. *)
Definition ex_s : list sr := [pos 3; pos 4; pos 2; pos 2; pos 0; pos 3; pos (-4); pos 1; pos 1; pos (-5); pos 0].
Definition ex_t : list R := [3/5; 4/5; 2; 2; 0; 3/5; -4/5; 1; 1; -1; 0].

Lemma ex_normalised : each2 normalised1 ex_ds (map sv ex_s) ex_t.
Proof.
  unfold ex_ds, ex_s, ex_t. cbn [map sv pos].
  change (each2 normalised1 [Ang 0 360; Dist; Spher IAD (-180) 180 180; Dim 2; AnyD (Incl 180)]
    ([3;4] ++ [2] ++ [2;0;3;-4] ++ [1;1] ++ [-5;0] ++ []) ([3/5;4/5] ++ [2] ++ [2;0;3/5;-4/5] ++ [1;1] ++ [-1;0] ++ [])).
  constructor; [|constructor; [|constructor; [|constructor; [|constructor; [|constructor]]]]]; cbn [normalised1].
  - exists (3/5), (4/5), 5. repeat split; try lra. repeat f_equal; lra.
  - exists 2. repeat split; lra.
  - exists 2, 0, (3/5), (-4/5), 5. repeat split; try lra. repeat f_equal; lra.
  - auto.
  - exists (-1), 0, 5. repeat split; try lra. repeat f_equal; lra.
Qed.
