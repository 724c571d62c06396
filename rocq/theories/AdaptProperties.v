(** C104: what the concepts say about an object built from the adapters of the native
    library is true of its components.  C105: the functions on such objects return objects
    with the shape and the components their names promise, whatever shortcut they take. *)
From Coq Require Import List Arith Bool ZArith Lia.
From Verif Require Import StlModel StlSpec StlProofs StlProperties AdaptModel AdaptSpec AdaptProofs AdaptProofs2.
Import ListNotations.

Section Statements.
Variable V : Type.
Variable zero : V.
Variables conj re : V -> V.
Variables isz isr : V -> bool.
Hypothesis laws : scalar_laws V zero conj re isz isr.

Notation traits := (traits zero conj re isz isr).
Notation el := (elem zero conj re).
Notation ok := (ok zero conj re isz isr).
Notation gives := (gives zero conj re isz isr).

(** ** C104 *)

Theorem adapter_claims_partial :
  forall o : obj V, ok o ->
  let c := traits o in
  let size := shape (forget o) in
  let at_ := el (forget o) in
  (forall k, dim_at (c_pats c) k = size k) /\
  (constant_object isz c = true -> is_constant size at_ (snd (constant_value c))) /\
  (constant_diagonal_object isz c = true -> is_constant_diagonal zero size at_ (snd (constant_value c))) /\
  (is_zero isz c = true -> is_constant size at_ zero) /\
  (forall t, triangular_matrix isz c t = true -> is_triangular zero size at_ (Some t)) /\
  (diagonal_matrix isz c = true -> is_triangular zero size at_ (Some Diagonal)) /\
  (hermitian_matrix isz isr c = true -> is_hermitian conj size at_) /\
  (forall n, 2 <= n -> square_shaped c n false = true -> is_square size n) /\
  (forall n, 2 <= n -> square_shaped c n true = false -> ~ is_square size n) /\
  (one_dimensional c = true -> is_one_dimensional size) /\
  (forall n, vector c n = true -> is_vector size n) /\
  (real_elements isr c = true -> forall i, within size i -> conj (at_ i) = at_ i).
Proof.
  intros o K. cbn zeta. pose proof (inv_all _ _ _ _ _ _ laws o K) as I.
  split; [now apply ok_pats|]. split; [now apply (constant_true _ _ _ _ _ _ laws)|].
  split; [now apply (diagonal_true _ _ _ _ _ _ laws)|].
  split; [intros Z i W; now apply (zero_true _ _ _ _ _ _ laws _ _ I Z)|].
  assert (T : forall t, triangular_matrix isz (traits o) t = true -> is_triangular zero (shape (forget o)) (el (forget o)) (Some t)).
  { intros t H i W N. apply (tri_true _ _ _ _ _ _ laws _ _ I i W). unfold triangular_matrix in H.
    destruct (triangle_type_of isz (traits o)) as [[]|]; destruct t; try discriminate; cbn in *; lia. }
  split; [exact T|]. split; [apply (T Diagonal)|].
  split; [now apply (hermitian_true _ _ _ _ _ _ laws)|].
  split; [intros n; now apply (square_true _ _ _ _ _ _ I)|].
  split; [intros n; now apply (square_false _ _ _ _ _ _ I)|].
  split; [now apply (one_true _ _ _ _ _ _ I)|].
  split; [intros n; now apply (vector_true _ _ _ _ _ _ I)|].
  now apply (real_true _ _ _ _ _ _ laws).
Qed.

(** ** C105 *)

Theorem make_constant_gives :
  forall cx known c p, gives (make_constant zero conj re isz isr cx known c p) (dim_at p) (fun _ => c) /\
    ((cx = false -> conj c = c) -> ok (make_constant zero conj re isz isr cx known c p)).
Proof. intros. split; [apply gives_mkc|apply ok_mkc]. Qed.

Theorem make_constant_diagonal_gives :
  forall cx known c p, (cx = false -> conj c = c) ->
    gives (make_constant_diagonal zero conj re isz isr cx known c p) (dim_at p) (fun i => if i 0 =? i 1 then c else zero) /\
    ok (make_constant_diagonal zero conj re isz isr cx known c p).
Proof. intros. split; [now apply (gives_mkd _ _ _ _ _ _ laws)|now apply (ok_mkd _ _ _ _ _ _ laws)]. Qed.

Theorem diagonal_of_gives :
  forall o, ok o ->
    gives (diagonal_of zero conj re isz isr o)
      (fun k => match k with 0 => Nat.min (shape (forget o) 0) (shape (forget o) 1) | S k' => shape (forget o) (S (S k')) end)
      (fun i => el (forget o) (doubled i)) /\
    (no_triangle_of_constants isz (traits o) -> ok (diagonal_of zero conj re isz isr o)).
Proof.
  intros o K. split; [exact (gives_diag _ _ _ _ _ _ laws o K)|].
  intros N. now apply (ok_diag _ _ _ _ _ _ laws).
Qed.

Theorem to_diagonal_gives :
  forall o p, ok o ->
    (forall k, shape (forget o) k =
       match k with 0 => Nat.min (dim_at p 0) (dim_at p 1) | S k' => dim_at p (S (S k')) end) ->
    gives (to_diagonal zero conj re isz isr o p) (dim_at p)
      (fun i => if i 0 =? i 1 then el (forget o) (dropped i) else zero) /\
    (one_dimensional (traits o) = false -> ok (to_diagonal zero conj re isz isr o p)).
Proof.
  intros o p K S. assert (S' : forall k, shape (forget o) k = dim_at (pat_diagonal_of p) k).
  { intros k. now rewrite S, pat_diagonal_of_dim. }
  split; [now apply (gives_todiag _ _ _ _ _ _ laws)|].
  intros O. apply (ok_todiag _ _ _ _ _ _ laws); [exact K|exact S'|now rewrite O].
Qed.

Theorem to_diagonal_square_gives :
  forall o, ok o ->
    gives (to_diagonal_square zero conj re isz isr o) (doubled (shape (forget o)))
      (fun i => if i 0 =? i 1 then el (forget o) (dropped i) else zero).
Proof. intros o K. now apply (todiag_square_both _ _ _ _ _ _ laws). Qed.

Theorem conjugate_gives :
  forall o, ok o ->
    gives (conjugate zero conj re isz isr o) (shape (forget o)) (fun i => conj (el (forget o) i)) /\
    (no_triangle_of_constants isz (traits o) -> ok (conjugate zero conj re isz isr o)).
Proof. intros o K. exact (conj_fuel_both _ _ _ _ _ _ laws 1 o K). Qed.

Theorem transpose_gives_partial :
  forall a b o, ok o -> a < b -> plain_for zero conj re isz isr b o ->
    gives (transpose zero conj re isz isr a b o) (exchanged a b (shape (forget o)))
      (fun i => el (forget o) (exchanged a b i)) /\
    (b = 1 -> no_triangle_of_constants isz (traits o) -> ok (transpose zero conj re isz isr a b o)).
Proof. intros. now apply (trans_both _ _ _ _ _ _ laws). Qed.

Theorem conjugate_transpose_gives_partial :
  forall a b o, ok o -> a < b -> plain_for zero conj re isz isr b o ->
    b = 1 \/ constant_object isz (traits o) = true \/ c_complex (traits o) = false ->
    gives (conjugate_transpose zero conj re isz isr a b o) (exchanged a b (shape (forget o)))
      (fun i => conj (el (forget o) (exchanged a b i))) /\
    (b = 1 -> no_triangle_of_constants isz (traits o) -> ok (conjugate_transpose zero conj re isz isr a b o)).
Proof. intros. now apply (ctrans_both _ _ _ _ _ _ laws). Qed.

Theorem to_triangular_gives :
  forall t o, ok o ->
    gives (to_triangular zero conj re isz isr t o) (shape (forget o))
      (fun i => if match t with Lower => i 1 <=? i 0 | Upper => i 0 <=? i 1 | Diagonal => i 0 =? i 1 end
                then el (forget o) i else zero) /\
    ok (to_triangular zero conj re isz isr t o).
Proof.
  intros t o K. destruct (gives_tri _ _ _ _ _ _ laws t o K) as [G O]. split; [|exact O].
  eapply gives_ext; [exact G|reflexivity|]. intros i W. now destruct t.
Qed.

Theorem to_hermitian_gives :
  forall t o, ok o -> t <> Diagonal -> shape (forget o) 0 = shape (forget o) 1 ->
    gives (to_hermitian zero conj re isz isr t o) (shape (forget o))
      (fun i => if i 0 =? i 1 then re (el (forget o) i)
                else if match t with Upper => i 0 <? i 1 | _ => i 1 <? i 0 end then el (forget o) i
                else conj (el (forget o) (swapped i))) /\
    ok (to_hermitian zero conj re isz isr t o).
Proof. intros t o K T S. exact (gives_herm _ _ _ _ _ _ laws t o K T S). Qed.

Theorem attach_patterns_gives :
  forall o p, ok o -> (forall k, dim_at p k = shape (forget o) k) ->
    gives (attach_patterns zero conj re isz isr o p) (shape (forget o)) (el (forget o)).
Proof. intros. now apply gives_attach. Qed.

End Statements.

Print Assumptions adapter_claims_partial.
Print Assumptions make_constant_gives.
Print Assumptions make_constant_diagonal_gives.
Print Assumptions diagonal_of_gives.
Print Assumptions to_diagonal_gives.
Print Assumptions to_diagonal_square_gives.
Print Assumptions conjugate_gives.
Print Assumptions transpose_gives_partial.
Print Assumptions conjugate_transpose_gives_partial.
Print Assumptions to_triangular_gives.
Print Assumptions to_hermitian_gives.
Print Assumptions attach_patterns_gives.

(** ** Concrete objects: complex numbers with integer parts *)

Definition czero_ (x : cx) : bool := ((fst x =? 0) && (snd x =? 0))%Z.
Definition creal_ (x : cx) : bool := (snd x =? 0)%Z.

Theorem integer_laws : scalar_laws cx cz cconj cre czero_ creal_.
Proof.
  unfold scalar_laws, cx, cz, cconj, cre, czero_, creal_. repeat split.
  - intros [a b]. cbn. f_equal. lia.
  - intros [a b] H. cbn in *. injection H as H. f_equal. lia.
  - intros [a b] H. cbn in *. apply andb_true_iff in H. destruct H as [A B].
    apply Z.eqb_eq in A, B. now subst.
  - intros [a b] H. cbn in *. apply Z.eqb_eq in H. now subst.
Qed.

Notation ctraits := (traits cz cconj cre czero_ creal_).
Notation cok := (ok cz cconj cre czero_ creal_).
Notation ctranspose := (transpose cz cconj cre czero_ creal_).
Notation cconjugate := (conjugate cz cconj cre czero_ creal_).
Notation cctranspose := (conjugate_transpose cz cconj cre czero_ creal_).
Notation ctri := (to_triangular cz cconj cre czero_ creal_).
Notation cherm := (to_hermitian cz cconj cre czero_ creal_).
Notation cmkc := (make_constant cz cconj cre czero_ creal_).
Notation cdiag := (diagonal_of cz cconj cre czero_ creal_).
Notation ctodiag := (to_diagonal cz cconj cre czero_ creal_).
Notation cattach := (attach_patterns cz cconj cre czero_ creal_).
Notation cel o i := (elem cz cconj cre (forget o) i).

(** A 3x3 dense matrix, its hermitian part, the diagonal of its transpose, and more: the
    hypotheses of the theorems are met by objects with several layers, and the claims are
    not empty. *)
Definition md : obj cx := ODense true (VRight [st 3; st 3] dat).
Definition mh : obj cx := cherm Lower md.
Definition md2 : obj cx := ctodiag (cdiag (ctranspose 0 1 md)) [st 3; st 3].
Definition mc2 : obj cx := ctri Upper (cmkc true true (2, 0)%Z [dy 2; st 3]).

Example adapter_claims_example :
  cok md /\ cok mh /\ cok md2 /\ cok mc2 /\ cok (OPat [dy 3; dy 3] (OConj mh)) /\
  hermitian_matrix czero_ creal_ (ctraits (OPat [dy 3; dy 3] (OConj mh))) = true /\
  diagonal_matrix czero_ (ctraits md2) = true /\ constant_object czero_ (ctraits md2) = false /\
  triangular_matrix czero_ (ctraits mc2) Upper = true /\ constant_object czero_ (ctraits mc2) = false /\
  constant_diagonal_object czero_ (ctraits (ctri Diagonal mc2)) = true /\
  constant_value (ctraits (ctri Diagonal mc2)) = (true, (2, 0)%Z) /\
  square_shaped (ctraits mc2) 2 true = true /\ square_shaped (ctraits mc2) 2 false = false /\
  square_shaped (ctraits mh) 2 false = true.
Proof.
  assert (K : cok md) by (split; [exact I|discriminate]).
  split; [exact K|]. split; [apply (to_hermitian_gives _ _ _ _ _ _ integer_laws); [exact K|discriminate|reflexivity]|].
  split.
  { unfold md2. apply (to_diagonal_gives _ _ _ _ _ _ integer_laws); [|intros [|k]; reflexivity|reflexivity].
    apply (diagonal_of_gives _ _ _ _ _ _ integer_laws).
    - apply (transpose_gives_partial _ _ _ _ _ _ integer_laws); [exact K|lia|now left|reflexivity|].
      intros N. now elim N.
    - intros N. now elim N. }
  split. { apply (to_triangular_gives _ _ _ _ _ _ integer_laws). apply make_constant_gives. discriminate. }
  split.
  { split; [split; [apply (to_hermitian_gives _ _ _ _ _ _ integer_laws); [exact K|discriminate|reflexivity]|]|].
    - intros kn c G. vm_compute in G. discriminate G.
    - split; [intros [|[|k]]; reflexivity|]. split; [left; discriminate|left; reflexivity]. }
  repeat split.
Qed.

Example functions_example :
  cel (ctranspose 0 1 mh) (at2 0 2) = cel mh (at2 2 0) /\
  cel (ctranspose 0 1 mh) (at2 0 2) = (7, 7)%Z /\
  cel (cctranspose 0 1 md) (at2 0 2) = (7, -7)%Z /\
  cctranspose 0 1 mh = mh /\
  ctranspose 0 1 md2 = md2 /\
  cel (cconjugate md2) (at2 1 1) = (5, -5)%Z /\
  ctranspose 0 1 mc2 = OTrans 0 1 mc2 /\
  ctranspose 0 1 (cmkc true true (2, 1)%Z [st 2; st 3]) = cmkc true true (2, 1)%Z [st 3; st 2].
Proof. vm_compute. repeat split. Qed.

(** ** What does not hold *)

Definition at3 (a b c : nat) (k : nat) : nat := match k with 0 => a | 1 => b | 2 => c | _ => 0 end.
Definition dat8 : list cx := [(1,0);(2,0);(3,0);(4,0);(5,0);(6,0);(7,0);(8,0)]%Z.
(** 2x2x2 and 2x2x3 arrays. *)
Definition cube : obj cx := ODense false (VRight [st 2; st 2; st 2] dat8).
Definition brick : obj cx := ODense false (VRight [st 2; st 2; st 3] (dat8 ++ dat8)).

Lemma dat8_real n : cconj (nth n dat8 cz) = nth n dat8 cz.
Proof. do 9 (destruct n as [|n]; [reflexivity|]). reflexivity. Qed.

Lemma cube_ok : cok cube.
Proof. split; [exact I|]. intros _ i _. apply dat8_real. Qed.

(** An adapter that exchanges a later index keeps the claims about the first two: the
    "lower triangular" object has a component above the diagonal, the "square" one is not
    square, and the "hermitian" one is not hermitian. *)
Theorem transpose_of_later_index_claims_refuted :
  exists t h : obj cx,
    t = ctranspose 1 2 (ctri Lower brick) /\ triangular_matrix czero_ (ctraits t) Upper = true /\
    ~ is_triangular cz (shape (forget t)) (elem cz cconj cre (forget t)) (Some Upper) /\
    square_shaped (ctraits t) 2 false = true /\ ~ is_square (shape (forget t)) 2 /\
    h = OTrans 1 2 (cherm Lower cube) /\ hermitian_matrix czero_ creal_ (ctraits h) = true /\
    ~ is_hermitian cconj (shape (forget h)) (elem cz cconj cre (forget h)).
Proof.
  eexists. eexists. split; [reflexivity|]. split; [reflexivity|]. split.
  { intros H. specialize (H (at3 1 0 1)).
    assert (E : cel (ctranspose 1 2 (ctri Lower brick)) (at3 1 0 1) = cz).
    { apply H; [|cbn; lia]. intros [|[|[|[|k]]]]; vm_compute; lia. }
    vm_compute in E. discriminate E. }
  split; [reflexivity|]. split; [intros H; specialize (H 1 (le_n 2)); vm_compute in H; discriminate H|].
  split; [reflexivity|]. split; [reflexivity|].
  intros [_ H]. specialize (H (at3 0 1 0)).
  assert (E : cel (OTrans 1 2 (cherm Lower cube)) (at3 0 1 0) = cconj (cel (OTrans 1 2 (cherm Lower cube)) (swapped (at3 0 1 0)))).
  { apply H. intros [|[|[|[|k]]]]; vm_compute; lia. }
  vm_compute in E. discriminate E.
Qed.
Print Assumptions transpose_of_later_index_claims_refuted.

(** The functions rely on these claims: for an index pair other than the first two, each of
    the shortcuts for a constant diagonal, for a diagonal and for a hermitian argument
    returns wrong components. *)
Theorem transpose_of_later_index_refuted :
  exists o d h : obj cx, cok o /\ cok d /\ cok h /\
    constant_diagonal_object czero_ (ctraits o) = true /\
    diagonal_matrix czero_ (ctraits d) = true /\
    hermitian_matrix czero_ creal_ (ctraits h) = true /\
    (exists i, within (exchanged 1 2 (shape (forget o))) i /\
       cel (ctranspose 1 2 o) i <> cel o (exchanged 1 2 i)) /\
    (exists i, within (exchanged 1 2 (shape (forget d))) i /\
       cel (ctranspose 1 2 d) i <> cel d (exchanged 1 2 i)) /\
    (exists i, within (exchanged 1 2 (shape (forget h))) i /\
       cel (ctranspose 1 2 h) i <> cel h (exchanged 1 2 i)) /\
    (exists i, within (exchanged 1 2 (shape (forget h))) i /\
       cel (cctranspose 1 2 h) i <> cconj (cel h (exchanged 1 2 i))).
Proof.
  exists (make_constant_diagonal cz cconj cre czero_ creal_ false true (2, 0)%Z [st 2; st 2; st 2]).
  exists (ctri Diagonal cube). exists (cherm Lower cube).
  split; [now apply (make_constant_diagonal_gives _ _ _ _ _ _ integer_laws)|].
  split; [apply (to_triangular_gives _ _ _ _ _ _ integer_laws); exact cube_ok|].
  split; [apply (to_hermitian_gives _ _ _ _ _ _ integer_laws); [exact cube_ok|discriminate|reflexivity]|].
  split; [reflexivity|]. split; [reflexivity|]. split; [reflexivity|].
  split. { exists (at3 0 0 1). split; [intros [|[|[|[|k]]]]; vm_compute; lia|]. vm_compute. discriminate. }
  split. { exists (at3 0 0 1). split; [intros [|[|[|[|k]]]]; vm_compute; lia|]. vm_compute. discriminate. }
  split. { exists (at3 0 1 0). split; [intros [|[|[|[|k]]]]; vm_compute; lia|]. vm_compute. discriminate. }
  exists (at3 0 1 0). split; [intros [|[|[|[|k]]]]; vm_compute; lia|]. vm_compute. discriminate.
Qed.
Print Assumptions transpose_of_later_index_refuted.

(** The conjugate of a triangle of constants keeps the unconjugated constant: the diagonal
    part of the conjugate of the lower triangle of the constant i is said to be i on the
    diagonal, and is -i. *)
Theorem conjugate_constant_refuted :
  exists o : obj cx,
    o = ctri Diagonal (cconjugate (ctri Lower (cmkc true true (0, 1)%Z [st 2; st 2]))) /\
    constant_diagonal_object czero_ (ctraits o) = true /\
    snd (constant_value (ctraits o)) = (0, 1)%Z /\
    cel o (at2 1 1) = (0, -1)%Z /\ within (shape (forget o)) (at2 1 1).
Proof.
  eexists. split; [reflexivity|]. split; [reflexivity|]. split; [reflexivity|]. split; [reflexivity|].
  intros [|[|[|k]]]; vm_compute; lia.
Qed.
Print Assumptions conjugate_constant_refuted.

(** Squareness for a single index is passed on from the nested object, where it speaks of
    another size: a 3x3 hermitian matrix is "square in its first index", which should mean a
    first size of one; so is the 3x1 transpose of a row, and with a single pattern attached
    that column claims to have a single component. *)
Theorem square_in_one_index_refuted :
  square_shaped (ctraits (cherm Lower md)) 1 false = true /\ shape (forget (cherm Lower md)) 0 = 3 /\
  exists o : obj cx,
    o = cattach (ctranspose 0 1 (ODense true (VRight [st 1; st 3] dat))) [dy 3] /\
    one_dimensional (ctraits o) = true /\ shape (forget o) 0 = 3 /\
    constant_object czero_ (ctraits o) = true /\ cel o (at2 0 0) <> cel o (at2 1 0).
Proof.
  split; [reflexivity|]. split; [reflexivity|]. eexists. split; [reflexivity|].
  split; [reflexivity|]. split; [reflexivity|]. split; [reflexivity|]. vm_compute. discriminate.
Qed.
Print Assumptions square_in_one_index_refuted.

(** Attaching a static size to a triangle of constants whose size was dynamic makes it a
    vector that claims to be constant, and is not. *)
Theorem attached_size_refuted :
  exists o : obj cx,
    o = cattach (ctri Upper (cmkc true true (5, 0)%Z [dy 3; dy 1])) [st 3; st 1] /\
    constant_object czero_ (ctraits o) = true /\ snd (constant_value (ctraits o)) = (5, 0)%Z /\
    within (shape (forget o)) (at2 1 0) /\ cel o (at2 1 0) = cz.
Proof.
  eexists. split; [reflexivity|]. split; [reflexivity|]. split; [reflexivity|].
  split; [intros [|[|[|k]]]; vm_compute; lia|reflexivity].
Qed.
Print Assumptions attached_size_refuted.
