(** * C54, C55, C58: the linear-algebra functions and their compile-time shortcuts.

    Every function below first looks at what the types of its arguments say about them (zero, constant, identity,
    diagonal, triangular, hermitian, square) and takes a shortcut; ShortModel.v follows the branches. The theorems
    compare what comes back with the component-wise definitions of ShortSpec.v, for every stored kind, every mixture
    of fixed and dynamic dimensions, every size and every value in any real closed field. *)
From mathcomp Require Import all_ssreflect all_algebra.
From Verif Require Import ShortModel ShortSpec.
From Verif Require Import ShortProofs1 ShortProofs2 ShortProofs3 ShortProofs4 ShortProofs5 ShortProofs6 ShortProofs7.
Set Implicit Arguments.
Unset Strict Implicit.
Unset Printing Implicit Defensive.
Import GRing.Theory Num.Theory Order.Theory.
Local Open Scope ring_scope.
Arguments reduce_impl : simpl never.
Arguments reduce : simpl never.

Ltac unroll := repeat (rewrite reduce_impl_eq /= ?eqxx /=).

(** Objects used in the examples. *)
Section Objects.
Variable R : rcfType.
Definition ex_tri : obj R := Obj (KTri true (fun i j => (i + 2 * j + 1)%:R)) 2 2 true false true.
Definition ex_herm : obj R := Obj (KHerm false (fun i j => (i + j + 1)%:R)) 2 2 true true true.
Definition ex_diag : obj R := Obj (KDiag (fun i => i.+1%:R)) 2 2 true true true.
Definition ex_dense : obj R := Obj (KDense (fun i j => (i + 2 * j)%:R)) 2 3 true false false.
Definition ex_const : obj R := Obj (KConst false 3%:R) 2 3 false true false.
Definition ex_tall : obj R := Obj (KDiag (fun i => i.+1%:R)) 3 2 true true false.
Definition ex_ctall : obj R := Obj (KCDiag false 5%:R) 3 2 true true false.
End Objects.

Arguments ex_tri {R}. Arguments ex_herm {R}. Arguments ex_diag {R}. Arguments ex_dense {R}. Arguments ex_const {R}.
Arguments ex_tall {R}. Arguments ex_ctall {R}.

(** ** Products *)

(** The product has the right shape and components. Missing: diagonal arguments that are not square, see
    [contract_refuted]. *)
Theorem contract_partial (R : rcfType) (a b : obj R) : wf a -> wf b -> ocols a = orows b ->
  square_if_diagonal a -> square_if_diagonal b ->
  returns (contract a b) (product (value a) (value b)).
Proof. exact: contract_ok. Qed.
Print Assumptions contract_partial.

Example contract_example (R : rcfType) : returns (contract (@ex_tri R) ex_dense) (product (value ex_tri) (value ex_dense)).
Proof. by apply: contract_partial. Qed.
Example contract_example' (R : rcfType) : returns (contract (@ex_diag R) ex_herm) (product (value ex_diag) (value ex_herm)).
Proof. by apply: contract_partial. Qed.

(** A 3x2 diagonal matrix times a constant 2x1 matrix has three rows, but two come back. *)
Theorem contract_refuted (R : rcfType) : exists a b : obj R, [/\ wf a, wf b, ocols a = orows b &
  ~ returns (contract a b) (product (value a) (value b))].
Proof.
exists ex_tall, (Obj (KConst false 1) 2 1 false false false); split=> //.
by case=> m [[<-] [/= e _ _]].
Qed.
Print Assumptions contract_refuted.

(** ** Scaling *)

Theorem scalar_product_partial (R : rcfType) (o : obj R) s sfx : square_if_diagonal o ->
  same (value (scalar_product o s sfx)) (scaled (value o) s).
Proof. exact: scalar_product_ok. Qed.
Print Assumptions scalar_product_partial.

Theorem scalar_quotient_partial (R : rcfType) (o : obj R) s sfx : s != 0 -> square_if_diagonal o ->
  exists x, scalar_quotient o s sfx = Val x /\ same (value x) (scaled (value o) s^-1).
Proof. exact: scalar_quotient_ok. Qed.
Print Assumptions scalar_quotient_partial.

Example scalar_example (R : rcfType) : square_if_diagonal (@ex_diag R) /\ (2%:R : R) != 0 /\
  mat_at (value (scalar_product (@ex_diag R) 2%:R false)) 1 1 = 2%:R * 2%:R.
Proof. by split=> //; split; [rewrite pnatr_eq0|]. Qed.

(** A constant diagonal matrix that is not square becomes square. *)
Theorem scalar_product_refuted (R : rcfType) : exists (o : obj R) s,
  ~ same (value (scalar_product o s false)) (scaled (value o) s).
Proof. by exists ex_ctall, 1; case. Qed.
Print Assumptions scalar_product_refuted.

(** ** Reductions *)

(** Whatever the operation and the indices. Missing: adding or multiplying the components of an object stored as a
    diagonal (next theorems). *)
Theorem reduce_partial (R : rcfType) (op : rop R) (o : obj R) idx : idx_ok idx -> (0 < orows o)%N -> (0 < ocols o)%N ->
  ~~ diag_kind o || ~~ (is_plus op || is_times op) ->
  returns (reduce op o idx) (reduced_of (rapp op) idx (value o)).
Proof. exact: reduce_ok. Qed.
Print Assumptions reduce_partial.

Example reduce_example (R : rcfType) :
  returns (reduce (Plus R) ex_dense [:: 1%N]) (reduced_of (rapp (Plus R)) [:: 1%N] (value ex_dense)) /\
  returns (reduce (Other (fun x _ => x)) (@ex_diag R) [:: 1%N]) (reduced_of (fun x _ => x) [:: 1%N] (value ex_diag)).
Proof. by split; [apply: reduce_partial|apply: (@reduce_partial R (Other (fun x _ => x)))]. Qed.

Theorem reduce_plus_partial (R : rcfType) (o : obj R) idx : idx_ok idx -> (0 < orows o)%N -> (0 < ocols o)%N ->
  diag_kind o ==> plus_cond o idx ->
  returns (reduce (Plus R) o idx) (reduced_of (fun x y => x + y) idx (value o)).
Proof. exact: reduce_plus_ok. Qed.
Print Assumptions reduce_plus_partial.

Example reduce_plus_example (R : rcfType) :
  returns (reduce (Plus R) ex_diag [:: 0%N]) (reduced_of (fun x y => x + y) [:: 0%N] (value ex_diag)).
Proof. by apply: reduce_plus_partial. Qed.

(** Adding up the columns of diag(1, 2) should give a column with two components. *)
Theorem reduce_plus_refuted (R : rcfType) :
  ~ returns (reduce (Plus R) ex_diag [:: 1%N]) (reduced_of (fun x y => x + y) [:: 1%N] (value ex_diag)).
Proof.
case=> m [e [f _ _]]; move: e f; rewrite reduceE /= /template_depth; unroll; rewrite /lib_reduce /=.
by case=> <-.
Qed.
Print Assumptions reduce_plus_refuted.

Theorem reduce_times_rows_partial (R : rcfType) (o : obj R) : (0 < orows o)%N -> (0 < ocols o)%N ->
  (diag_kind o && cfix o) ==> ((ocols o == 1%N) || (orows o <= ocols o)%N) ->
  returns (reduce (Times R) o [:: 1%N]) (reduced_of (fun x y => x * y) [:: 1%N] (value o)).
Proof. exact: reduce_times_row_ok. Qed.
Print Assumptions reduce_times_rows_partial.

Theorem reduce_times_columns_partial (R : rcfType) (o : obj R) : (0 < orows o)%N -> (0 < ocols o)%N ->
  (diag_kind o && rfix o) ==> ((orows o == 1%N) || (ocols o <= orows o)%N) ->
  returns (reduce (Times R) o [:: 0%N]) (reduced_of (fun x y => x * y) [:: 0%N] (value o)).
Proof. exact: reduce_times_col_ok. Qed.
Print Assumptions reduce_times_columns_partial.

Example reduce_times_example (R : rcfType) :
  returns (reduce (Times R) ex_diag [:: 1%N]) (reduced_of (fun x y => x * y) [:: 1%N] (value ex_diag)) /\
  returns (reduce (Times R) ex_tall [:: 0%N]) (reduced_of (fun x y => x * y) [:: 0%N] (value ex_tall)).
Proof. by split; [apply: reduce_times_rows_partial|apply: reduce_times_columns_partial]. Qed.

(** The product of all components of diag(1, 2) is zero, but the program is not accepted by the compiler; along both
    indices a column of two comes back; and for a 3x1 diagonal matrix the instantiation never ends. *)
Theorem reduce_times_refuted (R : rcfType) :
  [/\ reduce_all (Times R) ex_diag = Rejected, product_of (value (@ex_diag R)) = 0,
      ~ returns (reduce (Times R) ex_diag [:: 0%N; 1%N]) (reduced_of (fun x y => x * y) [:: 0%N; 1%N] (value ex_diag)) &
      reduce (Times R) (Obj (KDiag (fun=> 1)) 3 1 true true false) [:: 0%N; 1%N] = Rejected].
Proof.
split.
- rewrite /reduce_all /= /template_depth; unroll; by case: ifP.
- by rewrite /product_of /= !big_ord_recl !big_ord0 /= !(mul0r, mulr0).
- case=> m [e [f _ _]]; move: e f; rewrite reduceE /= /template_depth; unroll; by case: ifP => _ [<-].
- by rewrite reduceE /= /template_depth; unroll.
Qed.
Print Assumptions reduce_times_refuted.

(** The sum of all components. *)
Theorem reduce_all_plus (R : rcfType) (o : obj R) : (0 < orows o)%N -> (0 < ocols o)%N ->
  reduce_all (Plus R) o = Val (total_of (value o)).
Proof. exact: reduce_all_plus_ok. Qed.
Print Assumptions reduce_all_plus.

Theorem reduce_all_times_partial (R : rcfType) (o : obj R) : (0 < orows o)%N -> (0 < ocols o)%N -> ~~ diag_kind o ->
  reduce_all (Times R) o = Val (product_of (value o)).
Proof. exact: reduce_all_times_ok. Qed.
Print Assumptions reduce_all_times_partial.

Theorem reduce_all_other (R : rcfType) (o : obj R) f : (0 < orows o)%N -> (0 < ocols o)%N ->
  reduce_all (Other f) o = Val (fold1 f (components o)).
Proof. exact: reduce_all_other_ok. Qed.
Print Assumptions reduce_all_other.

Example reduce_all_example (R : rcfType) : reduce_all (Plus R) ex_diag = Val 3%:R.
Proof.
rewrite reduce_all_plus // /total_of /= !big_ord_recl !big_ord0 /=.
by rewrite !addr0 add0r -natrD.
Qed.

(** ** Averages *)
Theorem average_reduce_partial (R : rcfType) (o : obj R) idx : idx_ok idx -> (0 < orows o)%N -> (0 < ocols o)%N ->
  diag_kind o ==> plus_cond o idx ->
  returns (average_reduce o idx) (average_of idx (value o)).
Proof. exact: average_reduce_ok. Qed.
Print Assumptions average_reduce_partial.

Theorem average_all_correct (R : rcfType) (o : obj R) : (0 < orows o)%N -> (0 < ocols o)%N ->
  average_all o = Val (total_of (value o) / (orows o * ocols o)%:R).
Proof. exact: average_all_ok. Qed.
Print Assumptions average_all_correct.

Example average_example (R : rcfType) :
  returns (average_reduce (@ex_dense R) [:: 1%N; 0%N]) (average_of [:: 1%N; 0%N] (value ex_dense)) /\
  average_all (@ex_const R) = Val (total_of (value ex_const) / 6%:R).
Proof. by split; [apply: average_reduce_partial|rewrite average_all_correct]. Qed.

Theorem average_reduce_refuted (R : rcfType) :
  ~ returns (average_reduce (@ex_diag R) [:: 1%N]) (average_of [:: 1%N] (value ex_diag)).
Proof.
case=> m [e [f _ _]]; move: e f; rewrite /average_reduce /=.
by case=> <-.
Qed.
Print Assumptions average_reduce_refuted.

(** ** C58: order of evaluation *)

(** For an associative and commutative operation, reducing one index after the other, in either order, is reducing
    both at once. Missing: adding and multiplying objects stored as diagonals. *)
Theorem reduce_order_partial (R : rcfType) (op : rop R) (o : obj R) : associative (rapp op) -> commutative (rapp op) ->
  (0 < orows o)%N -> (0 < ocols o)%N -> ~~ diag_kind o || ~~ (is_plus op || is_times op) ->
  exists m0 m1 m01 m10 m m', [/\ reduce op o [:: 0%N] = Val m0, reduce op o [:: 1%N] = Val m1,
    reduce op (dense m0) [:: 1%N] = Val m01, reduce op (dense m1) [:: 0%N] = Val m10 &
    [/\ reduce op o [:: 0%N; 1%N] = Val m, reduce op o [:: 1%N; 0%N] = Val m', same m01 m, same m10 m & same m' m]].
Proof.
move=> fA fC hr hc h.
have r0 := @reduce_ok R op o [:: 0%N] isT hr hc h; have r1 := @reduce_ok R op o [:: 1%N] isT hr hc h.
have [m0 [m1 [m01 [m10 [e0 e1 e01 e10 [s01 s10]]]]]] := reduce_order_ok (conj fA fC) hr hc r0 r1.
have [m [e s]] := @reduce_ok R op o [:: 0%N; 1%N] isT hr hc h.
have [m' [e' s']] := @reduce_ok R op o [:: 1%N; 0%N] isT hr hc h.
exists m0, m1, m01, m10, m, m'; split=> //; split=> //.
- exact: same_trans s01 (same_sym s).
- exact: same_trans s10 (same_sym s).
- apply: same_trans s' (same_trans _ (same_sym s)); apply: reduced_mem => i; by rewrite !inE orbC.
Qed.
Print Assumptions reduce_order_partial.

Example reduce_order_example (R : rcfType) :
  associative (rapp (Other Num.max) : R -> R -> R) /\ commutative (rapp (Other Num.max) : R -> R -> R) /\
  ~~ diag_kind (@ex_diag R) || ~~ (is_plus (Other (Num.max : R -> R -> R)) || is_times (Other (Num.max : R -> R -> R))).
Proof. by split; [exact: maxA|split=> //; exact: maxC]. Qed.

(** ** Trace and determinant *)

Theorem trace_partial (R : rcfType) (o : obj R) : (triangular o -> (0 < orows o)%N && (0 < ocols o)%N) ->
  trace o = Val (trace_of (value o)).
Proof. exact: trace_ok. Qed.
Print Assumptions trace_partial.

Example trace_example (R : rcfType) : trace (@ex_tri R) = Val (trace_of (value ex_tri)) /\
  trace (@ex_herm R) = Val (trace_of (value ex_herm)).
Proof. by split; apply: trace_partial. Qed.

(** An empty triangular matrix of dynamic size: the trace should be zero. *)
Theorem trace_refuted (R : rcfType) : trace (Obj (KTri true (fun _ _ => 0 : R)) 0 0 false false true) = Undefined.
Proof. by rewrite /trace /= /reduce_all /= /template_depth; unroll. Qed.
Print Assumptions trace_refuted.

Theorem determinant_partial (R : rcfType) (o : obj R) : orows o = ocols o -> (triangular o -> (0 < orows o)%N) ->
  (const_diag o -> one_dim o \/ 0 < cval o \/ (cval o = 0 /\ (0 < orows o)%N)) ->
  determinant o = Val (det_of (value o)).
Proof. exact: determinant_ok. Qed.
Print Assumptions determinant_partial.

Example determinant_example (R : rcfType) : determinant (@ex_tri R) = Val (det_of (value ex_tri)) /\
  determinant (@ex_diag R) = Val (det_of (value ex_diag)) /\ determinant (@ex_herm R) = Val (det_of (value ex_herm)).
Proof. by split; [|split]; apply: determinant_partial. Qed.

(** The determinant of minus the identity is 1, but comes back as not a number. *)
Theorem determinant_refuted (R : rcfType) : exists o : obj R, [/\ orows o = ocols o, (0 < orows o)%N,
  det_of (value o) = 1 & determinant o = NotFinite].
Proof.
exists (Obj (KCDiag false (-1)) 2 2 true true true); split=> //.
- rewrite /det_of /=; rewrite (_ : \matrix_(_, _) _ = (-1)%:M); last first.
    apply/matrixP=> i j; rewrite !mxE -val_eqE /entry /=.
    by case: eqP => _; rewrite ?mulr1n ?mulr0n //.
  by rewrite det_scalar sqrrN expr1n.
- by rewrite /determinant /= /vpow ltr0N1 oppr_eq0 oner_eq0.
Qed.
Print Assumptions determinant_refuted.

(** ** Sums *)
Theorem sum_partial (R : rcfType) (t0 : obj R) ts :
  (forall t, List.In t ts -> orows t = orows t0 /\ ocols t = ocols t0) ->
  (forall t, List.In t (t0 :: ts) -> wf t /\ square_if_diagonal t) ->
  returns (sum (t0 :: ts)) (sum_of (value t0) [seq value t | t <- ts]).
Proof. exact: sum_ok. Qed.
Print Assumptions sum_partial.

Example sum_example (R : rcfType) :
  returns (sum [:: @ex_tri R; ex_diag; ex_herm]) (sum_of (value ex_tri) [:: value ex_diag; value ex_herm]).
Proof.
apply: (@sum_partial R ex_tri [:: ex_diag; ex_herm]) => t /=; first by case=> [<-|[<-|]].
by case=> [<-|[<-|[<-|]]].
Qed.

(** ** LQ and QR decompositions *)

(** For any library decomposition that is right on unstructured matrices. Missing: lower triangular arguments with
    more rows than columns, in particular column vectors. *)
Theorem LQ_partial (R : rcfType) lq (a : obj R) : lq_contract lq -> wf a -> (lower a -> (orows a <= ocols a)%N) ->
  let l := LQ_decomposition lq a in
  [/\ mrows l = orows a, mcols l = orows a, lower_triangular l &
      same (product l (transposed l)) (product (value a) (transposed (value a)))].
Proof. exact: LQ_ok. Qed.
Print Assumptions LQ_partial.

Theorem QR_partial (R : rcfType) lq (a : obj R) : lq_contract lq -> wf a -> (upper a -> (ocols a <= orows a)%N) ->
  let r := QR_decomposition lq a in
  [/\ mrows r = ocols a, mcols r = ocols a, upper_triangular r &
      same (product (transposed r) r) (product (transposed (value a)) (value a))].
Proof. exact: QR_ok. Qed.
Print Assumptions QR_partial.

Theorem lq_library_exists (R : rcfType) : lq_contract (@the_lq R).
Proof. exact: the_lq_ok. Qed.
Print Assumptions lq_library_exists.

Example LQ_example (R : rcfType) : wf (@ex_const R) /\ ~~ lower (@ex_const R) /\ ~~ upper (@ex_const R) /\
  mat_at (LQ_decomposition (@the_lq R) ex_const) 1 0 = 3%:R * Num.sqrt 3%:R.
Proof. by []. Qed.

(** The LQ factor of a 2x1 column is 2x2, but a 1x1 factor comes back; likewise the QR factor of a row. *)
Theorem LQ_refuted (R : rcfType) (lq : mat R -> mat R) : exists a : obj R, wf a /\
  mrows (LQ_decomposition lq a) <> orows a /\
  ~ same (product (LQ_decomposition lq a) (transposed (LQ_decomposition lq a))) (product (value a) (transposed (value a))).
Proof. by exists (Obj (KDense (fun _ _ => 1)) 2 1 false true false); split=> //; split=> //; case. Qed.
Print Assumptions LQ_refuted.

Theorem QR_refuted (R : rcfType) (lq : mat R -> mat R) : exists a : obj R, wf a /\
  mrows (QR_decomposition lq a) <> ocols a /\
  ~ same (product (transposed (QR_decomposition lq a)) (QR_decomposition lq a)) (product (transposed (value a)) (value a)).
Proof. by exists (Obj (KDense (fun _ _ => 1)) 1 2 true false false); split=> //; split=> //; case. Qed.
Print Assumptions QR_refuted.

(** ** C55: solve *)

(** For every invertible coefficient matrix, however it is stored, and both flags. Missing: solvable systems whose
    matrix is not invertible; see the refutations below. *)
Theorem solve_partial (R : rcfType) sv uniq exact (a b : obj R) : solve_contract sv -> wf a -> wf b ->
  square_if_diagonal b -> invertible (value a) -> (0 < orows a)%N -> orows a = orows b ->
  exists x, solve sv uniq exact a b = Val x /\ solves (value a) (value b) x.
Proof. exact: solve_ok. Qed.
Print Assumptions solve_partial.

(** Constant coefficients and constant right-hand side, of any shape. *)
Theorem solve_constant_partial (R : rcfType) sv uniq exact (a b : obj R) fx c : okind a = KConst fx c -> c != 0 ->
  constant b -> (0 < ocols a)%N -> orows a = orows b ->
  exists x, solve sv uniq exact a b = Val x /\ solves (value a) (value b) x.
Proof. exact: solve_constant_ok. Qed.
Print Assumptions solve_constant_partial.

Theorem solve_library_exists (R : rcfType) : solve_contract (@the_solve R).
Proof. exact: the_solve_ok. Qed.
Print Assumptions solve_library_exists.

Example solve_example (R : rcfType) : exists x, solve (@the_solve R) true true ex_diag ex_dense = Val x /\
  solves (value ex_diag) (value ex_dense) x.
Proof.
apply: solve_partial => //; first exact: the_solve_ok.
split=> //; exists (Mat 2 2 (fun i j => if i == j then i.+1%:R^-1 else 0)).
have h0 : (1%:R : R) != 0 by rewrite pnatr_eq0.
have h1 : (2%:R : R) != 0 by rewrite pnatr_eq0.
by split=> //; split=> //= -[|[|//]] [|[|//]] _ _; rewrite !big_ord_recl big_ord0 /= ?mulr0 ?mul0r ?addr0 ?add0r //
  ?mulfV ?mulVf.
Qed.

Example solve_constant_example (R : rcfType) : exists x,
  solve (@the_solve R) false true ex_const (Obj (KConst false 1) 2 4 true true false) = Val x /\
  solves (value ex_const) (value (Obj (KConst false 1) 2 4 true true false)) x.
Proof. by apply: (@solve_constant_partial _ _ _ _ _ _ false 3%:R) => //; rewrite pnatr_eq0. Qed.

(** diag(0, 1) X = (0, 1)^T has solutions, but the result is not finite. *)
Theorem solve_singular_diagonal_refuted (R : rcfType) sv uniq exact : exists a b : obj R,
  [/\ wf a, wf b, exists x, solves (value a) (value b) x & solve sv uniq exact a b = NotFinite].
Proof.
exists (Obj (KDiag (fun i => i%:R)) 2 2 true true true), (Obj (KDense (fun i _ => i%:R)) 2 1 true true false).
split=> //.
  exists (Mat 2 1 (fun i _ => i%:R)); split=> //; split=> //= -[|[|//]] [|//] _ _;
  by rewrite /entry /= !big_ord_recl big_ord0 /= ?mulr0 ?mul0r ?addr0 ?add0r ?mulr1.
by rewrite /solve /= /entry /= eqxx.
Qed.
Print Assumptions solve_singular_diagonal_refuted.

(** A 1x2 constant row and a 1x2 right-hand side: the solution has two rows, but one comes back. *)
Theorem solve_shape_refuted (R : rcfType) sv exact uniq : exists a b : obj R,
  [/\ wf a, wf b, exists x, solves (value a) (value b) x &
   exists x, solve sv uniq exact a b = Val x /\ mrows x <> ocols a].
Proof.
exists (Obj (KConst false 1) 1 2 true true false), (Obj (KDense (fun _ j => j%:R)) 1 2 true true false).
split=> //.
- exists (Mat 2 2 (fun i j => if i == 0%N then j%:R else 0)); split=> //; split=> //= -[|//] j _ _.
  by rewrite !big_ord_recl big_ord0 /= mul1r mulr0 !addr0.
- rewrite /solve /= /scalar_quotient /= mulr1 pnatr_eq0 /=.
  by eexists; split; first by [].
Qed.
Print Assumptions solve_shape_refuted.

(** With a zero right-hand side known at compile time, must_be_unique only rejects an all-zero matrix: a singular one
    with infinitely many solutions gives zero without an exception. *)
Theorem solve_unique_refuted (R : rcfType) sv exact : exists a b : obj R, exists x1 x2 : mat R,
  [/\ wf a, wf b, solves (value a) (value b) x1, solves (value a) (value b) x2 & ~ same x1 x2] /\
  solve sv true exact a b = Val x1.
Proof.
exists (Obj (KDense (fun _ j => (j == 0%N)%:R)) 1 2 true true false), (Obj (KConst true 0) 1 1 true true false).
exists (const_mat 0 2 1), (Mat 2 1 (fun i _ => i%:R)); split; last first.
  rewrite /solve /zero /=.
  rewrite eqxx /= /all_zero /= oner_eq0 //.
split=> //.
- split=> //; split=> //= -[|//] [|//] _ _; by rewrite !big_ord_recl big_ord0 /= !mulr0 !addr0.
- split=> //; split=> //= -[|//] [|//] _ _; by rewrite !big_ord_recl big_ord0 /= mulr0 mul0r !addr0.
- by case=> _ _ /(_ 1%N 0%N isT isT) /= /esym/eqP; rewrite oner_eq0.
Qed.
Print Assumptions solve_unique_refuted.
