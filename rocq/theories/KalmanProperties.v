(** * Properties of linear transforms, the Kalman filter and Gaussian arithmetic (C33-C41, C50, C52, C69-C71).

    [L] is any linear-algebra back end satisfying the contract [lib_ok] (LibModel.v) and [S] any linear solver satisfying
    [solver_ok] (KalmanModel.v).  [mom d] is the mean and covariance a distribution object represents. *)
From Coq Require Import Permutation.
From mathcomp Require Import all_ssreflect all_algebra.
From Verif Require Import MatBase LibModel GaussModel KalmanModel KalmanSpec KalmanProofs KalmanProofs2 KalmanProofs3.
Set Implicit Arguments.
Unset Strict Implicit.
Unset Printing Implicit Defensive.
Import GRing.Theory Num.Theory Order.Theory.
Local Open Scope ring_scope.

(** The contracts are satisfiable. *)
Example solver_exists (R : rcfType) : @solver_ok R (fun n m A B => invmx A *m B).
Proof. by move=> n m A B u; rewrite mulKVmx. Qed.
Example backend_strict_exists (R : rcfType) : exists2 L : lib R, lib_ok L & lrank_strict L.
Proof. by exists (strict_lib R); [exact: strict_lib_ok|exact: strict_lib_strict]. Qed.

(** C33.  The gain solves the normal equations. *)
Theorem kalman_gain_normal_equations (R : rcfType) (S : solver R) n m (Py : cval R m) (Pxy : 'M[R]_(n, m)) :
  solver_ok S -> proper Py -> self_adj Py \in unitmx ->
  kalman_gain S Py Pxy *m self_adj Py = Pxy /\ kalman_gain S Py Pxy = Pxy *m invmx (self_adj Py).
Proof.
by move=> SK py uy; rewrite /kalman_gain (gain_eq SK) //; [rewrite mulmxKV|exact: self_adj_sym].
Qed.
Print Assumptions kalman_gain_normal_equations.

Example kalman_gain_nonvacuous (R : rcfType) : proper (Chol (2%:R%:M : 'M[R]_2)) /\ self_adj (Chol (2%:R%:M : 'M[R]_2)) \in unitmx.
Proof.
split; first exact: scalar_mx_is_trig.
by rewrite /= tr_scalar_mx -scalar_mxM unitmxE det_scalar unitfE expf_neq0 // -natrM pnatr_eq0.
Qed.

(** C33.  The update step returns mean mu_x + P_xy P_yy^-1 (z - mu_y) and covariance P_xx - P_xy P_yy^-1 P_yx. *)
Theorem kalman_update_step (R : rcfType) (L : lib R) (S : solver R) n m (x : gd R n) (y : gd R m) (Pxy : 'M[R]_(n, m)) z g :
  lib_ok L -> solver_ok S -> proper (gcov x) -> proper (gcov y) -> self_adj (gcov y) \in unitmx ->
  update_step L S x y Pxy z = Some g ->
  [/\ gmean g = gmean x + Pxy *m invmx (self_adj (gcov y)) *m (z - gmean y),
      self_adj (gcov g) = self_adj (gcov x) - Pxy *m invmx (self_adj (gcov y)) *m Pxy^T &
      psd (self_adj (gcov x) - Pxy *m invmx (self_adj (gcov y)) *m Pxy^T) -> proper (gcov g)].
Proof.
move=> LK SK px py uy e; have [em pg _] := update_step_ok LK SK px py uy e.
by have [-> ->] := mom_eq em.
Qed.
Print Assumptions kalman_update_step.

(** C33.  It does return: always for a self-adjoint state covariance, and for a Cholesky-form one when the posterior
    covariance is positive definite. *)
Theorem kalman_update_step_total (R : rcfType) (L : lib R) (S : solver R) n m (x : gd R n) (y : gd R m) (Pxy : 'M[R]_(n, m)) z :
  lib_ok L -> solver_ok S -> proper (gcov x) -> proper (gcov y) -> self_adj (gcov y) \in unitmx ->
  (is_chol (gcov x) -> is_chol (gcov y) -> posdef (self_adj (gcov x) - Pxy *m invmx (self_adj (gcov y)) *m Pxy^T)) ->
  exists g, update_step L S x y Pxy z = Some g.
Proof. by move=> LK SK; exact: update_step_some. Qed.
Print Assumptions kalman_update_step_total.

(** x and y two-dimensional, P_xx = 1, P_yy = 2, P_xy = 1: the posterior covariance is 1/2. *)
Example kalman_update_step_nonvacuous (R : rcfType) :
  [/\ proper (Chol (1%:M : 'M[R]_2)), proper (Dense (2%:R%:M : 'M[R]_2)), self_adj (Dense (2%:R%:M : 'M[R]_2)) \in unitmx &
      posdef (self_adj (Chol (1%:M : 'M[R]_2)) - 1%:M *m invmx (self_adj (Dense (2%:R%:M : 'M[R]_2))) *m (1%:M)^T)].
Proof.
have n2 : (2%:R : R) != 0 by rewrite pnatr_eq0.
split.
- exact: scalar_mx_is_trig.
- by rewrite /= -scalemx1; apply: psdZ; rewrite ?ler0n //; apply: posdef_psd; exact: posdef1.
- by rewrite /= unitmxE det_scalar unitfE expf_neq0.
- rewrite /= trmx1 !mulmx1 mul1mx -(scalemx1 _ (2%:R : R)) invmxZ' // ?unitmx1 // invmx1.
  have -> : 1%:M - 2%:R^-1 *: 1%:M = (2%:R^-1 : R) *: (1%:M : 'M[R]_2).
    apply: (@scalerI _ _ (2%:R : R)) => //; rewrite scalerBr !scalerA divff // !scale1r.
    by rewrite mulr2n scalerDl !scale1r addrK.
  by apply: posdefZ; [rewrite invr_gt0 ltr0n|exact: posdef1].
Qed.

(** C34.  For a linear measurement z = H x + noise, the posterior covariance returned by update is the error covariance of the
    Kalman gain, is below that of the estimator mu + G (z - H mu - v) for every other gain G in the positive semidefinite order,
    and is below the prior covariance. *)
Theorem kalman_update_optimal (R : rcfType) (L : lib R) (S : solver R) n (x g : gd R n) (u : measurement R n) :
  lib_ok L -> solver_ok S -> proper (gcov x) -> each (fun d => rootable (gcov d)) (mns u) ->
  Sg (predicted (mom x) u) \in unitmx -> update L S x u = Some g ->
  let P := self_adj (gcov x) in
  let N := Sg (noise_of u) in
  let K := P *m (mH u)^T *m invmx (mH u *m P *m (mH u)^T + N) in
  [/\ self_adj (gcov g) = joseph_cov P (mH u) N K,
      gmean g = gmean x + K *m (mz u - mH u *m gmean x - mu (noise_of u)),
      forall G, loewner (self_adj (gcov g)) (joseph_cov P (mH u) N G) &
      loewner (self_adj (gcov g)) P].
Proof.
move=> LK SK px nx uy e P N K.
have nx' : step_ok_noise x (FUpdate u).
  by apply: each_impl nx => d; case: ifP => // _ /rootable_proper.
have [em pg _] := @fstep_ok R L LK S SK n x (FUpdate u) g px nx' uy e.
have eS : self_adj (gcov g) = P - P *m (mH u)^T *m invmx (mH u *m P *m (mH u)^T + N) *m (P *m (mH u)^T)^T.
  by rewrite -[LHS]/(Sg (mom g)) em update_Sg0.
have eM := congr1 (@mu R n) em; rewrite update_mu0 in eM.
have sP : P^T = P := self_adj_sym px.
rewrite predicted_Sg -/P -/N in uy; set Py := _ + N in uy eS K eM *.
have pN : psd N.
  apply: psd_sum => i _; apply: psd_congr; apply: (each_nth (Mom 0 0) (p := fun w => psd (Sg w))); last by rewrite size_map.
  by apply: each_mom_psd; apply: each_impl nx => d; exact: rootable_proper.
have pPy : psd Py by apply: psdD => //; apply: psd_congr; exact: self_adj_psd.
split.
- by rewrite eS -joseph // -/Py -error_cov_gain //; exact: psd_sym.
- by rewrite [LHS]eM opprD addrA.
- move=> G; rewrite -joseph // -/Py eS.
  exact: (@condition_optimal R n (mdim u) (Mom 0 P) (Mom 0 Py) (P *m (mH u)^T) 0 G).
- by rewrite eS; exact: (@condition_shrinks R n (mdim u) (Mom 0 P) (Mom 0 Py) (P *m (mH u)^T) 0).
Qed.
Print Assumptions kalman_update_optimal.

Definition meas1 (R : rcfType) : measurement R 2 := Meas (const_mx 1 : 'cV[R]_2) 1%:M [::] [:: GD 0 (Dense 1%:M)].

Lemma meas1_noise (R : rcfType) : Sg (noise_of (meas1 R)) = 1%:M.
Proof. by rewrite /noise_of /= big_ord1 /= trmx1 !mulmx1. Qed.

Example kalman_update_optimal_nonvacuous (R : rcfType) (x : gd R 2) (L : lib R) (S : solver R) : lib_ok L -> solver_ok S ->
  x = GD (const_mx 1) (Dense 1%:M) ->
  [/\ proper (gcov x), each (fun d => rootable (gcov d)) (mns (meas1 R)), Sg (predicted (mom x) (meas1 R)) \in unitmx &
      exists g, update L S x (meas1 R) = Some g].
Proof.
move=> LK SK ->; have p1 := posdef1 R 2; have pp := posdef_psd p1.
have u : Sg (predicted (mom (GD (const_mx 1) (Dense (1%:M : 'M[R]_2)))) (meas1 R)) \in unitmx.
  rewrite predicted_Sg meas1_noise /= trmx1 !mulmx1; apply: posdef_unit; exact: posdefD.
split=> //=; first by split=> //; left.
by have [|//|//|g e] := @fstep_some R L LK S SK 2 (GD (const_mx 1) (Dense 1%:M)) (FUpdate (meas1 R)) pp; [split|exists g].
Qed.

(** C35, C36.  Every history of predictions (linear, identity or recursive-least-squares) and updates.  Whatever the storage of
    the prior and of the noise terms, if the filter returns, the result has the moments of the textbook filter and a proper
    (symmetric positive semidefinite) covariance. *)
Theorem kalman_history_sound (R : rcfType) (L : lib R) (S : solver R) n (x g : gd R n) (os : seq (fop R n)) :
  lib_ok L -> solver_ok S -> proper (gcov x) -> each (@step_noise R (@rootable R) n) os ->
  holds_along (@well_posed_step R) (mom x) os ->
  filter L S x os = Some g -> mom g = spec_filter (mom x) os /\ psd (self_adj (gcov g)).
Proof.
move=> LK SK px nos wp e.
have nos' : each (@step_noise R (fun m c => if is_chol (gcov x) then rootable c else proper c) n) os.
  by apply: each_impl nos => o; apply: step_noise_impl => m c; case: ifP => // _ /rootable_proper.
have [h _] := filter_gen LK SK px nos' wp.
by have [? /self_adj_psd ? _] := h g e.
Qed.
Print Assumptions kalman_history_sound.

(** C35.  With a self-adjoint prior covariance the filter always returns, for any positive semidefinite noise. *)
Theorem kalman_history_dense (R : rcfType) (L : lib R) (S : solver R) n (mean : 'cV[R]_n) (P : 'M[R]_n) (os : seq (fop R n)) :
  lib_ok L -> solver_ok S -> psd P -> each (@step_noise R (@proper R) n) os ->
  holds_along (@well_posed_step R) (Mom mean P) os ->
  exists2 g, filter L S (GD mean (Dense P)) os = Some g &
    mom g = spec_filter (Mom mean P) os /\ psd (self_adj (gcov g)).
Proof.
move=> LK SK pP nos wp.
have [h t] := @filter_gen R L LK S SK n (GD mean (Dense P)) os pP nos wp.
have [//|g e] := t; exists g => //; by have [? /self_adj_psd ? _] := h g e.
Qed.
Print Assumptions kalman_history_dense.

(** C35, C36.  With a Cholesky-form prior it returns when the posterior of every update is positive definite. *)
Theorem kalman_history_cholesky (R : rcfType) (L : lib R) (S : solver R) n (mean : 'cV[R]_n) (T : 'M[R]_n) (os : seq (fop R n)) :
  lib_ok L -> solver_ok S -> is_trig_mx T -> each (@step_noise R (@rootable R) n) os ->
  holds_along (@well_posed_step R) (Mom mean (T *m T^T)) os ->
  holds_along (@definite_step R) (Mom mean (T *m T^T)) os ->
  exists2 g, filter L S (GD mean (Chol T)) os = Some g &
    mom g = spec_filter (Mom mean (T *m T^T)) os /\ psd (self_adj (gcov g)).
Proof.
move=> LK SK tT nos wp d.
have [h t] := @filter_gen R L LK S SK n (GD mean (Chol T)) os tT nos wp.
have [//|g e] := t; exists g => //; by have [? /self_adj_psd ? _] := h g e.
Qed.
Print Assumptions kalman_history_cholesky.

(** A history with every kind of step: prediction x + w, forgetting factor 1/2, update with H = 1 and unit noise. *)
Example kalman_history_nonvacuous (R : rcfType) :
  let os := [:: FPredict (PLinear 1%:M [::] [:: GD 0 (Chol 1%:M)]); FUpdate (meas1 R); FPredict (PIdentity [:: GD (const_mx 1) (Dense 1%:M)]);
                FPredict (PRls (2%:R^-1 : R) [::]); FUpdate (meas1 R)] in
  [/\ each (@step_noise R (@rootable R) 2) os, holds_along (@well_posed_step R) (Mom 0 (1%:M *m (1%:M)^T)) os &
      holds_along (@definite_step R) (Mom 0 (1%:M *m (1%:M)^T)) os].
Proof.
have p1 := posdef1 R 2.
have upd (x : moments R 2) : posdef (Sg x) ->
    Sg (predicted x (meas1 R)) \in unitmx /\ posdef (Sg (spec_step x (FUpdate (meas1 R)))).
  move=> px; have pn : posdef (Sg (noise_of (meas1 R))) by rewrite meas1_noise.
  split; first by rewrite predicted_Sg; apply: posdef_unit; exact: innov_posdef (posdef_psd px) pn.
  by have [] := @updates_precision R 2 [:: meas1 R] x px (conj pn I).
have img (x : moments R 2) d : posdef (Sg x) -> psd (Sg (mom d)) ->
    posdef (Sg (lin_image 1%:M [::] x (map (@mom R 2) [:: d]))).
  by move=> px pd; rewrite /= big_ord1 /= mul1mx trmx1 !mulmx1 mul1mx; exact: posdefD.
have p0 : posdef (Sg (Mom 0 (1%:M *m (1%:M : 'M[R]_2)^T))) by rewrite /= trmx1 mulmx1.
move=> os; rewrite /os; split.
- by do !split => //=; try exact: scalar_mx_is_trig; left.
- split=> //; split; last split => //; last split.
  + apply: (upd _ _).1; apply: (img) => //=; exact: psd_mulT.
  + by rewrite /well_posed_step invr_gt0 ltr0n.
  + split=> //; apply: (upd _ _).1; rewrite rls_predict; apply: posdefZ; first by rewrite invrK ltr0n.
    apply: (img); last exact: posdef_psd.
    apply: (upd _ _).2; apply: (img) => //=; exact: psd_mulT.
- split=> //; split; last split => //; last split => //.
  + apply: (upd _ _).2; apply: (img) => //=; exact: psd_mulT.
  + split=> //; apply: (upd _ _).2; rewrite rls_predict; apply: posdefZ; first by rewrite invrK ltr0n.
    apply: (img); last exact: posdef_psd.
    apply: (upd _ _).2; apply: (img) => //=; exact: psd_mulT.
Qed.

(** C36.  The two storage forms of the same prior give the same moments after every history in which both return. *)
Theorem kalman_branches_agree (R : rcfType) (L : lib R) (S : solver R) n (mean : 'cV[R]_n) (T : 'M[R]_n) (os : seq (fop R n)) g g' :
  lib_ok L -> solver_ok S -> is_trig_mx T -> each (@step_noise R (@rootable R) n) os ->
  holds_along (@well_posed_step R) (Mom mean (T *m T^T)) os ->
  filter L S (GD mean (Chol T)) os = Some g -> filter L S (GD mean (Dense (T *m T^T))) os = Some g' ->
  gmean g = gmean g' /\ self_adj (gcov g) = self_adj (gcov g').
Proof.
move=> LK SK tT nos wp e e'.
have [h _] := @kalman_history_sound R L S n (GD mean (Chol T)) g os LK SK tT nos wp e.
have [h' _] := @kalman_history_sound R L S n (GD mean (Dense (T *m T^T))) g' os LK SK (psd_mulT T) nos wp e'.
exact: mom_eq2 (etrans h (esym h')).
Qed.
Print Assumptions kalman_branches_agree.

(** C36: that both return cannot be dropped.  After a perfect measurement (H = 1, no noise) of a two-dimensional state with unit
    covariance, the self-adjoint form returns covariance zero and the Cholesky form throws. *)
Theorem kalman_perfect_measurement_refuted (R : rcfType) (L : lib R) (S : solver R) :
  lib_ok L -> lrank_strict L -> solver_ok S ->
  let u := Meas (0 : 'cV[R]_2) 1%:M [::] [::] in
  [/\ well_posed_step (Mom 0 1%:M) (FUpdate u),
      (exists2 g, update L S (GD 0 (Dense 1%:M)) u = Some g & mom g = Mom 0 0) &
      update L S (GD 0 (Chol 1%:M)) u = None].
Proof.
move=> LK st SK u; split; [|exact: perfect_dense|exact: perfect_throws].
by rewrite /well_posed_step perfect_pred ?unitmx1.
Qed.
Print Assumptions kalman_perfect_measurement_refuted.

(** The two-argument call operator is a prediction followed by an update. *)
Theorem kalman_cycle (R : rcfType) (L : lib R) (S : solver R) n (x : gd R n) (p : process R n) (u : measurement R n) :
  cycle L S x p u = filter L S x [:: FPredict p; FUpdate u].
Proof. by rewrite /cycle /=; case: predict => // y; rewrite -/(update L S y u); case: update. Qed.
Print Assumptions kalman_cycle.

(** C37.  Information form: after any number of updates, the posterior precision is the prior precision plus the sum of
    H^T N^-1 H, and the information vector the prior one plus the sum of H^T N^-1 (z - v). *)
Theorem kalman_information_form (R : rcfType) (L : lib R) (S : solver R) n (x g : gd R n) (us : seq (measurement R n)) :
  lib_ok L -> solver_ok S -> proper (gcov x) -> posdef (self_adj (gcov x)) ->
  each (fun u => each (fun d => rootable (gcov d)) (mns u) /\ posdef (Sg (noise_of u))) us ->
  filter L S x (map (@FUpdate R n) us) = Some g ->
  [/\ posdef (self_adj (gcov g)),
      invmx (self_adj (gcov g)) = invmx (self_adj (gcov x)) + \sum_(u <- us) info u &
      invmx (self_adj (gcov g)) *m gmean g = invmx (self_adj (gcov x)) *m gmean x + \sum_(u <- us) info_vec u].
Proof.
move=> LK SK px pd hus e.
have pn : each (fun u => posdef (Sg (noise_of u))) us by apply: each_impl hus => u [].
have [em _] := kalman_history_sound LK SK px (updates_noise hus) (updates_well_posed (posdef_psd pd : psd (Sg (mom x))) pn) e.
have := @updates_precision R n us (mom x) pd pn; rewrite -em; exact.
Qed.
Print Assumptions kalman_information_form.

(** C37.  Independent measurements may be processed in any order, for any positive semidefinite prior. *)
Theorem kalman_order_independent (R : rcfType) (L : lib R) (S : solver R) n (x g g' : gd R n) (us vs : seq (measurement R n)) :
  lib_ok L -> solver_ok S -> proper (gcov x) -> Permutation us vs ->
  each (fun u => each (fun d => rootable (gcov d)) (mns u) /\ posdef (Sg (noise_of u))) us ->
  filter L S x (map (@FUpdate R n) us) = Some g -> filter L S x (map (@FUpdate R n) vs) = Some g' ->
  gmean g = gmean g' /\ self_adj (gcov g) = self_adj (gcov g').
Proof.
move=> LK SK px pp hus e e'; have hvs := perm_each pp hus.
have pn : each (fun u => posdef (Sg (noise_of u))) us by apply: each_impl hus => u [].
have pn' : each (fun u => posdef (Sg (noise_of u))) vs by apply: each_impl hvs => u [].
have ps : psd (Sg (mom x)) by exact: self_adj_psd.
have [em _] := kalman_history_sound LK SK px (updates_noise hus) (updates_well_posed ps pn) e.
have [em' _] := kalman_history_sound LK SK px (updates_noise hvs) (updates_well_posed ps pn') e'.
exact: mom_eq2 (etrans em (etrans (updates_perm ps pp pn) (esym em'))).
Qed.
Print Assumptions kalman_order_independent.

(** C37.  Two measurements, one after the other, are the same as both stacked into one. *)
Theorem kalman_stacked (R : rcfType) (L : lib R) (S : solver R) n (x g g' : gd R n) (u v : measurement R n) :
  lib_ok L -> solver_ok S -> proper (gcov x) ->
  each (fun d => rootable (gcov d)) (mns u) -> posdef (Sg (noise_of u)) ->
  each (fun d => rootable (gcov d)) (mns v) -> posdef (Sg (noise_of v)) ->
  filter L S x [:: FUpdate u; FUpdate v] = Some g -> update L S x (stacked u v) = Some g' ->
  gmean g = gmean g' /\ self_adj (gcov g) = self_adj (gcov g').
Proof.
move=> LK SK px ru pu rv pv e e'; have ps : psd (Sg (mom x)) by exact: self_adj_psd.
have hs : each (fun w => each (fun d => rootable (gcov d)) (mns w) /\ posdef (Sg (noise_of w))) [:: u; v] by [].
have hs' : each (fun w => each (fun d => rootable (gcov d)) (mns w) /\ posdef (Sg (noise_of w))) [:: stacked u v].
  have pb := posdef_block pu pv; split=> //; split; last by rewrite noise_stacked.
  by split=> //; left.
have pn : each (fun w => posdef (Sg (noise_of w))) [:: u; v] by [].
have pn' : each (fun w => posdef (Sg (noise_of w))) [:: stacked u v] by apply: each_impl hs' => w [].
have e2 : filter L S x (map (@FUpdate R n) [:: stacked u v]) = Some g' by rewrite /= e'.
have [em _] := kalman_history_sound LK SK px (updates_noise hs) (updates_well_posed ps pn) e.
have [em' _] := kalman_history_sound LK SK px (updates_noise hs') (updates_well_posed ps pn') e2.
have [_ a1 a2 _] := updates_info ps pn; have [_ b1 b2 _] := updates_info ps pn'.
have [i1 i2] := stacked_info (posdef_unit pu) (posdef_unit pv).
have tE : tot_info [:: u; v] = tot_info [:: stacked u v] by rewrite /tot_info !big_cons !big_nil !addr0 i1.
have vE : tot_vec [:: u; v] = tot_vec [:: stacked u v] by rewrite /tot_vec !big_cons !big_nil !addr0 i2.
rewrite -[gmean g]/(mu (mom g)) -[gmean g']/(mu (mom g')) -[self_adj (gcov g)]/(Sg (mom g)) -[self_adj (gcov g')]/(Sg (mom g')).
by rewrite em em' a2 b2 a1 b1 tE vE.
Qed.
Print Assumptions kalman_stacked.

Example kalman_information_nonvacuous (R : rcfType) (L : lib R) (S : solver R) : lib_ok L -> solver_ok S ->
  let x := GD 0 (Dense (1%:M : 'M[R]_2)) in
  let us := [:: meas1 R; Meas (0 : 'cV[R]_2) (2%:R%:M) [::] [:: GD (const_mx 1) (Dense 1%:M)]] in
  [/\ proper (gcov x), posdef (self_adj (gcov x)),
      each (fun u => each (fun d => rootable (gcov d)) (mns u) /\ posdef (Sg (noise_of u))) us &
      (exists g, filter L S x (map (@FUpdate R 2) us) = Some g) /\
      exists g, update L S x (stacked (meas1 R) (meas1 R)) = Some g].
Proof.
move=> LK SK x us; have p1 := posdef1 R 2; have pp := posdef_psd p1.
have h : each (fun u => each (fun d => rootable (gcov d)) (mns u) /\ posdef (Sg (noise_of u))) us.
  by rewrite /us /= /noise_of /= !big_ord1 /= trmx1 !mulmx1; do !split => //; left.
have pn : each (fun u => posdef (Sg (noise_of u))) us by apply: each_impl h => u [].
split=> //; split.
  have [||g e _] := @kalman_history_dense R L S 2 0 1%:M (map (@FUpdate R 2) us) LK SK pp; last by exists g.
    by apply: each_impl (updates_noise h) => o; apply: step_noise_impl => m c /rootable_proper.
  exact: (updates_well_posed (pp : psd (Sg (Mom 0 1%:M))) pn).
have pm : posdef (Sg (noise_of (stacked (meas1 R) (meas1 R)))).
  by rewrite noise_stacked /= /noise_of /= big_ord1 /= trmx1 !mulmx1; exact: posdef_block.
have [|||g e] := @fstep_some R L LK S SK 2 x (FUpdate (stacked (meas1 R) (meas1 R))) pp; [| |by []|by exists g].
  by rewrite /step_ok_noise /= /noise_of /= big_ord1 /= trmx1 !mulmx1; split=> //; apply: posdef_psd; exact: posdef_block.
by rewrite /well_posed_step predicted_Sg; apply: posdef_unit; exact: innov_posdef.
Qed.

(** C38.  The linear transform maps moments exactly, for any number of noise terms. *)
Theorem linear_transform_moments (R : rcfType) (L : lib R) n m (A : 'M[R]_(m, n)) (Bs : seq 'M[R]_m) (x : gd R n) (ns : seq (gd R m)) :
  lib_ok L -> proper (gcov x) -> each (fun d => rootable (gcov d)) ns ->
  let B i := nth 1%:M Bs i in
  let d0 := GD 0 (Dense 0) in
  let yP := lin_transform_cross L (linear_transformation A Bs) x ns in
  [/\ gmean yP.1 = A *m gmean x + \sum_(i < size ns) B i *m gmean (nth d0 ns i),
      self_adj (gcov yP.1) = A *m self_adj (gcov x) *m A^T + \sum_(i < size ns) B i *m self_adj (gcov (nth d0 ns i)) *m (B i)^T,
      yP.2 = self_adj (gcov x) *m A^T, psd (self_adj (gcov yP.1)) &
      lin_transform L (linear_transformation A Bs) x ns = yP.1].
Proof.
move=> LK px nx B d0 yP.
have nx' : noise_ok x ns by apply: each_impl nx => d; case: ifP => // _ /rootable_proper.
have [e p _] := lin_transform_ok LK A Bs px nx'.
rewrite /yP lin_transform_cross1 lin_transform_cross2; split=> //; last exact: self_adj_psd.
- rewrite -[LHS]/(mu (mom _)) e /= size_map; congr (_ + _).
  by apply: eq_bigr => i _; rewrite (nth_mom d0).
- rewrite -[LHS]/(Sg (mom _)) e /= size_map; congr (_ + _).
  by apply: eq_bigr => i _; rewrite (nth_mom d0).
Qed.
Print Assumptions linear_transform_moments.

Example linear_transform_nonvacuous (R : rcfType) :
  proper (gcov (GD 0 (Chol (1%:M : 'M[R]_2)))) /\
  each (fun d : gd R 3 => rootable (gcov d)) [:: GD 0 (Dense 1%:M); GD (const_mx 1) (Chol 1%:M); GD 0 (Dense 0)].
Proof. by do !split => //=; try exact: scalar_mx_is_trig; [left; exact: posdef1|right]. Qed.

(** C38: without noise of the noise terms being rootable (positive definite, zero or given by a factor) the self-adjoint branch
    still maps moments exactly. *)
Theorem linear_transform_moments_dense (R : rcfType) (L : lib R) n m (A : 'M[R]_(m, n)) (Bs : seq 'M[R]_m) mean (P : 'M[R]_n)
    (ns : seq (gd R m)) :
  lib_ok L -> psd P -> each (fun d => proper (gcov d)) ns ->
  mom (lin_transform L (linear_transformation A Bs) (GD mean (Dense P)) ns)
  = lin_image A Bs (Mom mean P) (map (@mom R m) ns).
Proof. by move=> LK pP nx; have [] := @lin_transform_ok R L LK n m A Bs (GD mean (Dense P)) ns pP nx. Qed.
Print Assumptions linear_transform_moments_dense.

(** C39.  Consecutive linear transforms compose: the result is that of the single affine map whose matrix is the product, plus
    accumulated noise that does not depend on the input. *)
Theorem consecutive_transforms (R : rcfType) (L : lib R) n k (c : chain R n k) :
  lib_ok L -> chain_noise (@rootable R) c ->
  exists s : moments R k, psd (Sg s) /\ forall x, proper (gcov x) ->
    mom (seq_transform L c x) = Mom (chain_mx c *m gmean x + mu s) (chain_mx c *m self_adj (gcov x) *m (chain_mx c)^T + Sg s).
Proof.
move=> LK nc; have [s hs] := chain_affine c; exists s; split.
  have := @chain_image_psd R n k c (chain_noise_impl (@rootable_proper R) nc) (Mom 0 0) (psd0 R n).
  by rewrite hs /= mulmx0 mul0mx add0r.
move=> x px; have [|e _ _] := @chain_ok R L LK n k c x px; last by rewrite e hs.
by apply: chain_noise_impl nc => m q; case: ifP => // _ /rootable_proper.
Qed.
Print Assumptions consecutive_transforms.

(** C39.  Without noise it is the transform by the product matrix. *)
Theorem consecutive_transforms_product (R : rcfType) (L : lib R) n k (c : chain R n k) (x : gd R n) :
  lib_ok L -> quiet c -> proper (gcov x) ->
  mom (seq_transform L c x) = mom (lin_transform L (linear_transformation (chain_mx c) [::]) x [::]).
Proof.
move=> LK q px; have [|e _ _] := @chain_ok R L LK n k c x px; first exact: quiet_noise.
have [// |-> _ _] := @lin_transform_ok R L LK n k (chain_mx c) [::] x [::] px.
by rewrite e chain_quiet_image.
Qed.
Print Assumptions consecutive_transforms_product.

Example consecutive_nonvacuous (R : rcfType) :
  chain_noise (@rootable R) (ChCons (1%:M : 'M[R]_2) [::] [:: GD 0 (Dense 1%:M)] (ChOne (2%:R%:M : 'M[R]_2) [::] [:: GD (const_mx 1) (Chol 1%:M)])) /\
  quiet (ChCons (1%:M : 'M[R]_2) [::] [::] (ChOne (2%:R%:M : 'M[R]_2) [::] [::])).
Proof. split; last by []. split; split; [by left; exact: posdef1|by []|exact: scalar_mx_is_trig|by []]. Qed.

(** C71, refuted: the cross-covariance returned for consecutive transforms is that of the input of the last transform, not of
    the input x: for y = 2 (2 x), 8 Var x rather than 4 Var x.  A measurement update with it returns a negative covariance. *)
Theorem consecutive_cross_covariance_refuted (R : rcfType) (L : lib R) (S : solver R) : lib_ok L -> solver_ok S ->
  let c := ChCons (2%:R%:M : 'M[R]_1) [::] [::] (ChOne (2%:R%:M : 'M[R]_1) [::] [:: GD 0 (Dense 1%:M)]) in
  let x := GD (0 : 'cV[R]_1) (Dense (1%:M : 'M[R]_1)) in
  let yP := seq_transform_cross L c x in
  [/\ self_adj (gcov x) *m (chain_mx c)^T = 4%:R%:M, self_adj (gcov yP.1) = 17%:R%:M, yP.2 = 8%:R%:M &
      forall z g, update_step L S x yP.1 yP.2 z = Some g -> self_adj (gcov g) 0 0 < 0].
Proof. move=> LK SK; exact (chain_cross_refuted_proof LK SK). Qed.
Print Assumptions consecutive_cross_covariance_refuted.

(** C71: what the code does return: the distribution is that of the chain (C39) for every chain, and for a single transform
    the cross-covariance is that with the input. *)
Theorem consecutive_cross_covariance_partial (R : rcfType) (L : lib R) n k (c : chain R n k) (x : gd R n) :
  (seq_transform_cross L c x).1 = seq_transform L c x /\
  forall (A : 'M[R]_(k, n)) Bs ns, (seq_transform_cross L (ChOne A Bs ns) x).2 = self_adj (gcov x) *m A^T.
Proof. by split=> [|A Bs ns]; [exact: chain_cross1|exact: lin_transform_cross2]. Qed.
Print Assumptions consecutive_cross_covariance_partial.

(** C72.  The identity transform adds the noise terms; the recursive-least-squares transform enlarges the covariance by 1/lambda
    first.  The cross-covariance is that of the (enlarged) state.  Both refuse nothing but lambda = 0 (and, in Cholesky form,
    negative lambda). *)
Theorem identity_transform_moments (R : rcfType) (L : lib R) n (x : gd R n) (ns : seq (gd R n)) : lib_ok L ->
  [/\ gmean (id_transform L x ns) = gmean x + \sum_(d <- ns) gmean d,
      self_adj (gcov (id_transform L x ns)) = self_adj (gcov x) + \sum_(d <- ns) self_adj (gcov d) &
      id_transform_cross L x ns = (id_transform L x ns, self_adj (gcov x))].
Proof. by move=> LK; have [e1 e2] := g_sum_big LK x ns. Qed.
Print Assumptions identity_transform_moments.

Theorem rls_transform_moments (R : rcfType) (L : lib R) n (lambda : R) (x : gd R n) (ns : seq (gd R n)) :
  lib_ok L -> proper (gcov x) -> 0 < lambda ->
  exists y, [/\ rls_transform L lambda x ns = Some y,
      gmean y = gmean x + \sum_(d <- ns) gmean d,
      self_adj (gcov y) = lambda^-1 *: self_adj (gcov x) + \sum_(d <- ns) self_adj (gcov d) &
      rls_transform_cross L lambda x ns = Some (y, lambda^-1 *: self_adj (gcov x))].
Proof. by move=> LK; apply: (rls_transform_proof LK). Qed.
Print Assumptions rls_transform_moments.

Example identity_rls_nonvacuous (R : rcfType) : proper (Chol (1%:M : 'M[R]_2)) /\ 0 < (2%:R^-1 : R).
Proof. by split; [exact: scalar_mx_is_trig|rewrite invr_gt0 ltr0n]. Qed.

(** C40, refuted: LinearTransform with an IdentityTransformation ignores the covariance of additive noise, IdentityTransform
    does not.  They differ for every state and every noise term with a non-zero covariance. *)
Theorem identity_transforms_refuted (R : rcfType) (L : lib R) n (x d : gd R n) :
  lib_ok L -> proper (gcov x) -> rootable (gcov d) -> self_adj (gcov d) != 0 ->
  self_adj (gcov (id_transform L x [:: d])) = self_adj (gcov x) + self_adj (gcov d) /\
  self_adj (gcov (lin_transform L (identity_transformation R n) x [:: d])) = self_adj (gcov x) /\
  mom (id_transform L x [:: d]) <> mom (lin_transform L (identity_transformation R n) x [:: d]).
Proof. by move=> LK; apply: (identity_refuted_proof LK). Qed.
Print Assumptions identity_transforms_refuted.

Example identity_transforms_nonvacuous (R : rcfType) :
  [/\ proper (Dense (1%:M : 'M[R]_2)), rootable (Chol (1%:M : 'M[R]_2)) & self_adj (Chol (1%:M : 'M[R]_2)) != 0].
Proof.
split; [by apply: posdef_psd; exact: posdef1|exact: scalar_mx_is_trig|rewrite /= trmx1 mulmx1].
by apply/eqP => /matrixP /(_ 0 0) /eqP; rewrite !mxE oner_eq0.
Qed.

(** C40, partial: without noise terms the two agree, in mean and covariance.  Missing: noise (refuted above). *)
Theorem identity_transforms_partial (R : rcfType) (L : lib R) n (x : gd R n) :
  lib_ok L -> proper (gcov x) ->
  mom (id_transform L x [::]) = mom x /\ mom (lin_transform L (identity_transformation R n) x [::]) = mom x.
Proof. by move=> LK; apply: (identity_partial_proof LK). Qed.
Print Assumptions identity_transforms_partial.

(** C41.  Recursive least squares: N rounds of forgetting and updating give the information matrix
    lambda^N P0^-1 + sum lambda^(N-i-1) H_i^T N_i^-1 H_i, and a mean that is the unique minimiser of the exponentially weighted
    least-squares cost. *)
Theorem recursive_least_squares (R : rcfType) (L : lib R) (S : solver R) n (lambda : R) (x g : gd R n) (us : seq (measurement R n)) :
  lib_ok L -> solver_ok S -> 0 < lambda -> proper (gcov x) -> posdef (self_adj (gcov x)) ->
  each (fun u => each (fun d => rootable (gcov d)) (mns u) /\ posdef (Sg (noise_of u))) us ->
  filter L S x (flatten [seq [:: FPredict (PRls lambda [::]); FUpdate u] | u <- us]) = Some g ->
  let N := size us in
  let cost := ls_cost lambda (mom x) (map (@sample_of R n) us) in
  [/\ invmx (self_adj (gcov g)) = lambda ^+ N *: invmx (self_adj (gcov x)) +
        \sum_(i < N) lambda ^+ (N - i.+1) *: nth 0 (map (@info R n) us) i,
      forall y, cost y = cost (gmean g) + qform (invmx (self_adj (gcov g))) (y - gmean g) &
      forall y, y != gmean g -> cost (gmean g) < cost y].
Proof. by move=> LK; apply: (rls_proof LK). Qed.
Print Assumptions recursive_least_squares.

(** It returns for a self-adjoint prior. *)
Example recursive_least_squares_nonvacuous (R : rcfType) (L : lib R) (S : solver R) : lib_ok L -> solver_ok S ->
  let x := GD 0 (Dense (1%:M : 'M[R]_2)) in
  exists g, filter L S x (flatten [seq [:: FPredict (PRls (2%:R^-1 : R) [::]); FUpdate u] | u <- [:: meas1 R; meas1 R]]) = Some g.
Proof.
move=> LK SK x; have p1 := posdef1 R 2; have pp := posdef_psd p1.
have pn : posdef (Sg (noise_of (meas1 R))) by rewrite meas1_noise.
have [||g e _] := @kalman_history_dense R L S 2 0 1%:M
  (flatten [seq [:: FPredict (PRls (2%:R^-1 : R) [::]); FUpdate u] | u <- [:: meas1 R; meas1 R]]) LK SK pp; last by exists g.
  by have q : each (fun d => proper (gcov d)) (mns (meas1 R)) := conj pp I; exact: (conj I (conj q (conj I (conj q I)))).
have l0 : 0 < (2%:R^-1 : R) by rewrite invr_gt0 ltr0n.
exact: (@rls_well_posed R 2 2%:R^-1 [:: meas1 R; meas1 R] (Mom 0 1%:M) l0 pp (conj pn (conj pn I))).
Qed.

(** C52.  Sums, differences, scalar products and quotients, scaling by scalars and by matrices of covariances in any storage
    form represent the result of plain matrix arithmetic, and results that should be positive semidefinite are. *)
Theorem covariance_sum (R : rcfType) (L : lib R) n (a b : cval R n) : lib_ok L -> proper a -> proper b ->
  self_adj (c_add L a b) = self_adj a + self_adj b /\ proper (c_add L a b).
Proof. by move=> LK pa pb; split; [exact: c_add_val|exact: c_add_proper]. Qed.
Print Assumptions covariance_sum.

Theorem covariance_difference (R : rcfType) (L : lib R) n (a b : cval R n) : lib_ok L -> proper a -> proper b ->
  (forall c, c_sub L a b = Some c -> self_adj c = self_adj a - self_adj b /\ (psd (self_adj a - self_adj b) -> proper c)) /\
  (~~ is_chol a || ~~ is_chol b \/ posdef (self_adj a - self_adj b) -> exists c, c_sub L a b = Some c).
Proof.
move=> LK pa pb; split=> [c e|h].
  by split=> [|p]; [exact: (c_sub_val LK)|exact: (c_sub_proper LK pa pb)].
by apply: (c_sub_some LK) => // ca cb; case: h; rewrite ?ca ?cb.
Qed.
Print Assumptions covariance_difference.

Theorem covariance_scalar_product (R : rcfType) (L : lib R) n (a : cval R n) (s : R) : lib_ok L -> proper a ->
  (forall c, c_mul L a s = Some c -> self_adj c = s *: self_adj a /\ (0 <= s -> proper c)) /\
  (0 <= s \/ ~~ is_chol a -> exists c, c_mul L a s = Some c).
Proof.
move=> LK pa; split=> [c e|h].
  by split=> [|s0]; [exact: (c_mul_val LK)|exact: (c_mul_proper s0 pa e)].
by case: a pa h => [P|T] pa h /=; try (by eexists; reflexivity); case: h => // s0; case: ltrP => h; rewrite ?ltNge ?s0;
  eexists; reflexivity.
Qed.
Print Assumptions covariance_scalar_product.

Theorem covariance_scalar_quotient (R : rcfType) (L : lib R) n (a : cval R n) (s : R) : lib_ok L -> proper a ->
  [/\ c_div L a 0 = None,
      forall c, c_div L a s = Some c -> self_adj c = s^-1 *: self_adj a /\ (0 < s -> proper c) &
      0 < s \/ ~~ is_chol a && (s != 0) -> exists c, c_div L a s = Some c].
Proof.
move=> LK pa; split=> [|c e|h]; first exact: c_div0.
  by split=> [|s0]; [exact: (c_div_val LK)|exact: (c_div_proper s0 pa e)].
by case: h => [/c_div_pos h|/andP [ca s0]]; [exact: h|case: a ca {pa} => [P|T] //= _; rewrite (negPf s0); eexists; reflexivity].
Qed.
Print Assumptions covariance_scalar_quotient.

Theorem covariance_scale (R : rcfType) (L : lib R) n m (a : cval R n) (s : R) (A : 'M[R]_(m, n)) : lib_ok L -> proper a ->
  [/\ self_adj (c_scale a s) = s ^+ 2 *: self_adj a /\ proper (c_scale a s),
      self_adj (c_scale_mx L a A) = A *m self_adj a *m A^T /\ proper (c_scale_mx L a A),
      c_inv_scale a (0 : R) = None &
      s != 0 -> exists2 c, c_inv_scale a s = Some c & self_adj c = (s ^+ 2)^-1 *: self_adj a /\ proper c].
Proof.
move=> LK pa; split.
- by split; [rewrite expr2; exact: c_scale_val|exact: c_scale_proper].
- by split; [exact: c_scale_mx_val|exact: c_scale_mx_proper].
- by rewrite /c_inv_scale eqxx.
- move=> s0; case e: (c_inv_scale a s) => [c|]; last by move: e; rewrite /c_inv_scale (negPf s0).
  exists c => //; split; last exact: c_inv_scale_proper e.
  by rewrite (c_inv_scale_val e) expr2.
Qed.
Print Assumptions covariance_scale.

Example covariance_arithmetic_nonvacuous (R : rcfType) :
  [/\ proper (Chol (2%:R%:M : 'M[R]_2)), proper (Dense (1%:M : 'M[R]_2)) &
      posdef (self_adj (Chol (2%:R%:M : 'M[R]_2)) - self_adj (Chol (1%:M : 'M[R]_2)))].
Proof.
split; [exact: scalar_mx_is_trig|by apply: posdef_psd; exact: posdef1|].
rewrite /= trmx1 mulmx1 tr_scalar_mx -scalar_mxM -raddfB /= -natrM mulrSr addrK -scalemx1.
by apply: posdefZ; [rewrite ltr0n|exact: posdef1].
Qed.

(** C50.  Arithmetic on distributions: the sum of independent variables, linear images, scalar multiples. *)
Theorem gaussian_arithmetic (R : rcfType) (L : lib R) n m (a b : gd R n) (A : 'M[R]_(m, n)) (s : R) :
  lib_ok L -> proper (gcov a) -> proper (gcov b) ->
  [/\ mom (g_add L a b) = Mom (gmean a + gmean b) (self_adj (gcov a) + self_adj (gcov b)),
      mom (g_mulmx L A a) = lin_image A [::] (mom a) [::],
      mom (g_mul a s) = lin_image (s%:M) [::] (mom a) [::] &
      s != 0 -> exists2 d, g_div a s = Some d & mom d = lin_image (s^-1%:M) [::] (mom a) [::]].
Proof. by move=> LK; apply: (gaussian_arithmetic_proof LK). Qed.
Print Assumptions gaussian_arithmetic.

Theorem gaussian_add_laws (R : rcfType) (L : lib R) n m k (a b c : gd R n) (A : 'M[R]_(k, m)) (B : 'M[R]_(m, n)) :
  lib_ok L -> proper (gcov a) -> proper (gcov b) -> proper (gcov c) ->
  [/\ mom (g_add L a b) = mom (g_add L b a),
      mom (g_add L (g_add L a b) c) = mom (g_add L a (g_add L b c)),
      mom (g_add L a (GD 0 (Dense 0))) = mom a /\ mom (g_add L a (GD 0 (Chol 0))) = mom a,
      mom (g_mulmx L A (g_mulmx L B a)) = mom (g_mulmx L (A *m B) a) &
      mom (g_mulmx L B (g_add L a b)) = mom (g_add L (g_mulmx L B a) (g_mulmx L B b))].
Proof. by move=> LK; apply: (gaussian_laws_proof LK). Qed.
Print Assumptions gaussian_add_laws.

(** C50: subtraction undoes addition... *)
Theorem gaussian_subtraction_partial (R : rcfType) (L : lib R) n (a b d : gd R n) :
  lib_ok L -> proper (gcov a) -> proper (gcov b) -> g_sub L (g_add L a b) b = Some d -> mom d = mom a.
Proof. by move=> LK; apply: (gaussian_sub_proof LK). Qed.
Print Assumptions gaussian_subtraction_partial.

(** ... so it is not the distribution of the difference of two independent variables, whose covariance is the sum. *)
Theorem gaussian_difference_refuted (R : rcfType) (L : lib R) n (a b d : gd R n) :
  lib_ok L -> proper (gcov a) -> proper (gcov b) -> self_adj (gcov b) != 0 -> g_sub L a b = Some d ->
  self_adj (gcov d) <> self_adj (gcov a) + self_adj (gcov b).
Proof. by move=> LK; apply: (gaussian_difference_proof LK). Qed.
Print Assumptions gaussian_difference_refuted.

Example gaussian_nonvacuous (R : rcfType) (L : lib R) :
  let a := GD (0 : 'cV[R]_2) (Dense (1%:M : 'M[R]_2)) in
  [/\ proper (gcov a), self_adj (gcov a) != 0, exists d, g_sub L (g_add L a a) a = Some d & exists d, g_sub L a a = Some d].
Proof.
split=> /=; [by apply: posdef_psd; exact: posdef1| |by eexists; reflexivity|by eexists; reflexivity].
by apply/eqP => /matrixP /(_ 0 0) /eqP; rewrite !mxE oner_eq0.
Qed.

(** C70.  Concatenating independent distributions and splitting the result gives them back; the concatenation has the
    block-diagonal covariance. *)
Theorem concatenate_split (R : rcfType) n m (a : gd R n) (b : gd R m) d : g_concat a b = Some d ->
  mom d = Mom (col_mx (gmean a) (gmean b)) (block_mx (self_adj (gcov a)) 0 0 (self_adj (gcov b))) /\ g_split d = (a, b).
Proof. exact: concat_split_proof. Qed.
Print Assumptions concatenate_split.

Example concatenate_nonvacuous (R : rcfType) :
  exists d, g_concat (GD 0 (Chol (1%:M : 'M[R]_2))) (GD 0 (Chol (1%:M : 'M[R]_3))) = Some d.
Proof. by eexists; reflexivity. Qed.

(** C70: splitting a correlated distribution gives its marginals when the covariance is self-adjoint... *)
Theorem split_marginals_partial (R : rcfType) n m mean (P : 'M[R]_(n + m)) :
  let s := g_split (GD mean (Dense P)) in
  [/\ gmean s.1 = usubmx mean, gmean s.2 = dsubmx mean, self_adj (gcov s.1) = ulsubmx P & self_adj (gcov s.2) = drsubmx P].
Proof. by []. Qed.
Print Assumptions split_marginals_partial.

(** ... but not when it is in Cholesky form: the factor [1 0; 1 1] of [1 1; 1 2] splits into variances 1 and 1. *)
Theorem split_marginals_refuted (R : rcfType) :
  let T : 'M[R]_(1 + 1) := block_mx 1%:M 0 1%:M 1%:M in
  let d := GD (0 : 'cV[R]_(1 + 1)) (Chol T) in
  [/\ is_trig_mx T, drsubmx (self_adj (gcov d)) = 2%:R%:M & self_adj (gcov (g_split d).2) = 1%:M].
Proof. exact: split_refuted_proof. Qed.
Print Assumptions split_marginals_refuted.

(** C69, refuted: multiplying a SquareRootCovariance by a scalar does not return the scaled square root: the result reads as the
    scaled covariance.  (scale() does return the scaled square root, for non-negative scalars.) *)
Theorem square_root_times_scalar_refuted (R : rcfType) (L : lib R) : lib_ok L ->
  let x := SqSelf (4%:R *: 1%:M : 'M[R]_2) in
  [/\ reads_as L (IsSqrt x) = 2%:R%:M, reads_as L (sq_mul x 3%:R) = 36%:R%:M &
      reads_as L (sq_scale x 3%:R) = 6%:R%:M].
Proof. by move=> LK; apply: (sq_mul_refuted_proof LK). Qed.
Print Assumptions square_root_times_scalar_refuted.
