(*HEAD
(** Properties C81, C82: the order of the rows of a table (src/pysr3/lme/problems.py, oracles.py, models.py). *)
From Verif.Base Require Import Py Vec Mat RMx.
From Verif.Model Require Import LmeProblem Regularizers Solvers LmeInner LmeFit.
From Verif.Spec Require Import FitSpec.
From mathcomp Require Import ssreflect ssrfun ssrbool eqtype ssrnat choice seq fintype
  finfun bigop finset fingroup perm ssralg matrix mxalgebra.
From Verif.Model Require Import LmeOracle LmeBridge.
From Verif.Spec Require Import MxSpec OrderSpec.
HEAD*)
From Verif.Base Require Import Py Vec Mat RMx.
From Verif.Model Require Import LmeProblem Regularizers Solvers LmeInner LmeFit.
From Verif.Spec Require Import LmeSpec FitSpec.
From Verif.Proofs Require Import VecFacts LmeProblemProofs LmeProblemMain LmeInnerMain FitProofs.
From Coq Require Import Lra Lia Permutation.
From mathcomp Require Import ssreflect ssrfun ssrbool eqtype ssrnat choice seq fintype
  finfun bigop finset fingroup perm ssralg zmodp matrix mxalgebra.
From Verif.Model Require Import LmeOracle LmeBridge.
From Verif.Spec Require Import MxSpec OrderSpec.
From Verif.Proofs Require Import MxFacts LmeOracleProofs LmeEstimates LmeBlup LmeCriteria LmeOracleMain LmeEstimateMain
  BridgeProofs LmeFitMain LmeReportMain OrderProofs OrderTable.
Import GRing.Theory.
(*OPEN
Set Implicit Arguments.
Unset Strict Implicit.
Unset Printing Implicit Defensive.
Delimit Scope R_scope with coqR.
Local Open Scope ring_scope.
OPEN*)
Set Implicit Arguments.
Unset Strict Implicit.
Unset Printing Implicit Defensive.
Delimit Scope R_scope with coqR.
Local Open Scope ring_scope.

(** ** C81 *)
(*@ C81.  Two lists of groups that hold the same observations, each group in an order of its own: the loss, its
    first and second derivatives, the optimal coefficients, the random effects and the information criteria are
    equal at all parameters, exceptions included. *)
Lemma evaluations_ignore_row_order_lemma : forall (p q : nat) (gs gs' : seq (group p q)),
  List.Forall2 (@same_rows p q) gs gs' ->
  (forall pr beta gamma, lme_loss gs' pr beta gamma = lme_loss gs pr beta gamma) /\
  (forall pr beta gamma, lme_gradient_beta gs' pr beta gamma = lme_gradient_beta gs pr beta gamma) /\
  (forall pr beta gamma, lme_gradient_gamma gs' pr beta gamma = lme_gradient_gamma gs pr beta gamma) /\
  (forall pr gamma, lme_hessian_beta gs' pr gamma = lme_hessian_beta gs pr gamma) /\
  (forall pr positive expected beta gamma,
   lme_hessian_gamma gs' pr positive expected beta gamma = lme_hessian_gamma gs pr positive expected beta gamma) /\
  (forall beta gamma, lme_hessian_beta_gamma gs' beta gamma = lme_hessian_beta_gamma gs beta gamma) /\
  (forall gamma, lme_optimal_beta gs' gamma = lme_optimal_beta gs gamma) /\
  (forall beta gamma, lme_random_effects gs' beta gamma = lme_random_effects gs beta gamma) /\
  (forall pr tol beta gamma, lme_jones_bic gs' pr tol beta gamma = lme_jones_bic gs pr tol beta gamma) /\
  (forall pr tol beta gamma, lme_muller_ic gs' pr tol beta gamma = lme_muller_ic gs pr tol beta gamma) /\
  (forall pr tol marginalized beta gamma,
   lme_vaida_aic gs' pr tol marginalized beta gamma = lme_vaida_aic gs pr tol marginalized beta gamma).
Proof.
  move=> p q gs gs' h.
  rewrite (same_loss h) (same_gradient_beta h) (same_gradient_gamma h) (same_hessian_beta h) (same_hessian_gamma h).
  rewrite (same_hessian_mixed h) (same_optimal_beta h) (same_random_effects h) (same_jones h) (same_muller h).
  by rewrite (same_vaida h).
Qed.

(*@ C81.  Fitting a table gives the same result - coefficients, variances, random effects, per-group coefficients,
    logger, or exception - when its rows, with their targets, are listed in any other order. *)
Lemma fit_ignores_row_order_lemma :
  forall argsort cdf m coef x y x' y' labels beta0 gamma0 warm ff fr fe re,
  shuffled x y x' y' ->
  lme_fit argsort cdf m coef x' y' labels beta0 gamma0 warm ff fr fe re =
  lme_fit argsort cdf m coef x y labels beta0 gamma0 warm ff fr fe re.
Proof. exact: fit_shuffled. Qed.

(*@ C81.  So does the information criterion of a model. *)
Lemma criterion_ignores_row_order_lemma :
  forall cdf m coef x y x' y' labels ic,
  shuffled x y x' y' ->
  get_information_criterion cdf m coef x' y' labels ic = get_information_criterion cdf m coef x y labels ic.
Proof. exact: criterion_shuffled. Qed.

Definition pair_problem : lme_problem :=
  {| pr_fixed := [:: [:: [:: 1]; [:: 2]]]%coqR; pr_random := [:: [:: [:: 1]; [:: 1]]]%coqR; pr_random_0d := false;
     pr_answers := Some [:: [:: 1; 3]]%coqR; pr_obs_vars := [:: [:: 1; 2]]%coqR; pr_group_labels := [:: 0]%coqR;
     pr_intercept := None; pr_labels := [:: GROUP; FIXED; RANDOM; VARIANCE];
     pr_order := [:: 0%N; 1%N]; pr_fe_columns := None; pr_re_columns := None;
     pr_fe_weights := Some (ones 1); pr_re_weights := Some (ones 1) |}.
Definition pair_rows : list vec := [:: [:: 0; 1; 1; 1]; [:: 0; 2; 1; 2]]%coqR.
Lemma pair_table_problem : from_x_y {| t_cols := 4; t_rows := pair_rows |} (Some [:: 1; 3]%coqR) None (Some flat_labels)
  false false None None = Ok pair_problem.
Proof.
  have i0 : is_int 0%coqR = true by apply/is_int_true; exists Z0.
  have n1 : nonzero 1%coqR = true by apply/nonzero_true; lra.
  have n2 : nonzero 2%coqR = true by apply/nonzero_true; lra.
  have r0 : reqb 0%coqR 0%coqR = true by exact: reqb_refl.
  have l0 : rltb 0%coqR 0%coqR = false by case: rltbP => //; lra.
  rewrite /from_x_y /pair_rows /flat_labels /=.
  rewrite /column /= n1 n2 /=. rewrite /unique_labels /= i0 /= l0 r0 /=.
  have g0 : LmeProblem.in_group 0 0 [:: 0; 1; 1; 1]%coqR = true by exact: r0.
  have g1 : LmeProblem.in_group 0 0 [:: 0; 2; 1; 2]%coqR = true by exact: r0.
  by rewrite /where_ /= !g0 !g1.
Qed.

Lemma pair_fit : exists co lg, lme_fit (fun _ => [::]) (fun x => x) (flat_model PenNone None 0 0%coqR) None
  {| t_cols := 4; t_rows := pair_rows |} [:: 1; 3]%coqR (Some flat_labels) None None false false false None None = Ok (co, lg).
Proof.
  rewrite /lme_fit /fit /= pair_table_problem; cbn [rbind].
  have [gs [hg h]] := table_problems_evaluate_partial_lemma pair_table_problem.
  have pv : positive_variances gs.
    apply: (groups_of_positive hg) => -[|[|[|j]]] [|[|[|i]]] /= hi; lra || lia.
  have ev j : col_of 1 [:: 1%coqR] j ord0 = 1%coqR by rewrite mxE !ord1.
  have nn : nonnegative (col_of 1 [:: 1%coqR]) by move=> j; rewrite ev; toR; lra.
  have bv : blup_variances (col_of 1 [:: 1%coqR]).
    move=> j; right; rewrite ev.
    apply: (Rmult_lt_reg_r (10 ^ 10)%coqR); first by apply: pow_lt; lra.
    rewrite /Rdiv Rmult_assoc Rinv_l; last by apply: pow_nonzero; lra.
    by rewrite !Rmult_1_l; apply: (Rlt_pow_R1 10 10); [lra | exact/ltP].
  have [_ [_ [_ he]]] := h pv (fun x => x) None [:: 1%coqR] [:: 1%coqR] erefl erefl nn.
  have [us hu] := he bv.
  have [gs1 [eg [_ [_ [vs [evs eu]]]]]] := list_effects_inv hu.
  have [u e1] : exists u : R, us = [:: [:: u]].
    have : length gs1 = 1%N by move: eg; rewrite /groups_of /=; case=> <-.
    case: gs1 {eg} evs => [//|g1 [|//]] evs _; move: evs; rewrite /lme_random_effects.
    case: (recalculate _ _) => //= fs; case: (group_effects _ _ _) => //= v [ev1]; move: eu; rewrite -ev1 /= => ->.
    have := length_vec_of v; case: (vec_of v) => [//|a [|//]] _; by exists a.
  have [bm hov] : exists bm, oracle_view_of pair_problem = Ok {| ov_p := 1; ov_q := 1; ov_map := bm |} by eexists; vm_compute.
  eexists; eexists.
  eapply fit_problem_run with (g := None) (beta1 := [:: 1%coqR]) (gamma1 := [:: 1%coqR]) (us := us); try reflexivity; try exact hu.
  by rewrite e1; reflexivity.
Qed.
(*@ a table with two rows in two orders, fitted successfully *)
Lemma ex_fit_ignores_row_order_lemma :
  let rows := [:: [:: 0; 1; 1; 1]; [:: 0; 2; 1; 2]]%coqR in
  let x := {| t_cols := 4; t_rows := rows |} in
  let x' := {| t_cols := 4; t_rows := List.rev rows |} in
  shuffled x [:: 1; 3]%coqR x' [:: 3; 1]%coqR /\ x <> x' /\
  exists r, lme_fit (fun _ => [::]) (fun x => x) (flat_model PenNone None 0 0%coqR) None x [:: 1; 3]%coqR
    (Some flat_labels) None None false false false None None = Ok r.
Proof.
  split; [|split].
  - split=> //; exists [:: ([:: 0; 1; 1; 1], 1); ([:: 0; 2; 1; 2], 3)]%coqR, [:: ([:: 0; 2; 1; 2], 3); ([:: 0; 1; 1; 1], 1)]%coqR.
    by split=> //; exact: perm_swap.
  - by case; lra.
  - by have [co [lg h]] := pair_fit; exists (co, lg).
Qed.

(** ** C82 *)
(*@ C82 (partial).  The covariance of the fixed effects does not depend on the order of the rows. *)
Lemma covariance_beta_ignores_row_order_partial_lemma : forall (p q : nat) (gs gs' : seq (group p q)),
  List.Forall2 (@same_rows p q) gs gs' ->
  forall pr gamma, lme_covariance_beta gs' pr gamma = lme_covariance_beta gs pr gamma.
Proof. by move=> p q gs gs' h pr gamma; rewrite /lme_covariance_beta (same_hessian_beta h). Qed.

(** groups of two observations *)
Definition col2 (a b : R) : 'cV[R]_2 := \col_i (if i == ord0 then a else b).
Definition low2 (a l c : R) : 'M[R]_2 :=
  \matrix_(i, j) if i == ord0 then (if j == ord0 then a else 0%coqR) else (if j == ord0 then l else c).
Definition pair_obs (x1 z1 v1 x2 z2 v2 : R) : group 1 1 :=
  @Group 1 1 2 (col2 x1 x2) 0 (col2 z1 z2) (col2 v1 v2).
Lemma sum2 (f : 'I_2 -> R) : \sum_i f i = f ord0 + f (lift ord0 ord0).
Proof. by rewrite big_ord_recl big_ord1. Qed.
Lemma ord2 (P : 'I_2 -> Prop) : P ord0 -> P (lift ord0 ord0) -> forall i, P i.
Proof.
  move=> h0 h1 [[|[|//]] h].
    by have -> : Ordinal h = ord0 by exact/val_inj.
  by have -> : Ordinal h = lift ord0 ord0 by exact/val_inj.
Qed.
Lemma col2_bf a b c d e f g : ((col2 a b)^T *m low2 c d e *m col2 f g) ord0 ord0 =
  (a * c * f + b * d * f + b * e * g)%coqR.
Proof. rewrite mxE sum2 !mxE !sum2 !mxE /=; toR; ring. Qed.
Lemma chol2 (A : 'M[R]_2) a l c : pd A -> (0 < a)%coqR -> (0 < c)%coqR ->
  A = low2 a l c *m (low2 a l c)^T -> chol_or0 A = low2 a l c.
Proof.
  move=> hA ha hc; have [_ e ht hp] := chol_spec hA; move: (chol_or0 A) e ht hp => L <- ht hp e.
  have h01 : L ord0 (lift ord0 ord0) = 0 by apply: (is_trig_mxP ht).
  have e00 := congr1 (fun M : 'M[R]_2 => M ord0 ord0) e.
  have e10 := congr1 (fun M : 'M[R]_2 => M (lift ord0 ord0) ord0) e.
  have e11 := congr1 (fun M : 'M[R]_2 => M (lift ord0 ord0) (lift ord0 ord0)) e.
  rewrite /= !mxE !sum2 !mxE /= h01 in e00 e10 e11.
  have p0 := hp ord0; have p1 := hp (lift ord0 ord0).
  have sq (x y : R) : (0 < x)%coqR -> (0 < y)%coqR -> (x * x = y * y)%coqR -> x = y.
    by move=> h1 h2 h3; have /Rmult_integral[] : ((x - y) * (x + y) = 0)%coqR; [lra|lra|lra].
  have a0 : L ord0 ord0 = a by apply: sq => //; move: e00; toR; lra.
  rewrite a0 in e10; have a1 : L (lift ord0 ord0) ord0 = l.
    by apply: (Rmult_eq_reg_r a); [move: e10; toR; lra | lra].
  rewrite a1 in e11; have a2 : L (lift ord0 ord0) (lift ord0 ord0) = c by apply: sq => //; move: e11; toR; lra.
  by apply/matrixP; apply: ord2; apply: ord2; rewrite mxE.
Qed.
Lemma inv_low2 a l c : (0 < a)%coqR -> (0 < c)%coqR -> invmx (low2 a l c) = low2 (/ a)%coqR (- (l / (a * c)))%coqR (/ c)%coqR.
Proof.
  move=> ha hc.
  have e : low2 a l c *m low2 (/ a)%coqR (- (l / (a * c)))%coqR (/ c)%coqR = 1%:M.
    apply/matrixP; apply: ord2; apply: ord2; rewrite !mxE sum2 !mxE /= ?mulr1n ?mulr0n; toR; field; lra.
  have u : low2 a l c \in unitmx by case/mulmx1_unit: e.
  by rewrite -[LHS]mulmx1 -e mulmxA mulVmx // mul1mx.
Qed.
(** the reported covariance of the effect of two observations, gamma = 1, for a factor [a 0; l c] of Omega *)
Lemma pair_covariance x1 z1 v1 x2 z2 v2 a l c : (0 < v1)%coqR -> (0 < v2)%coqR -> (0 < a)%coqR -> (0 < c)%coqR ->
  (z1 * z1 + v1 = a * a)%coqR -> (z2 * z1 = l * a)%coqR -> (z2 * z2 + v2 = l * l + c * c)%coqR ->
  let bf s1 s2 t1 t2 := (s1 * / a * t1 + s2 * - (l / (a * c)) * t1 + s2 * / c * t2)%coqR in
  let h := ((/ a * x1) * (/ a * x1) + (- (l / (a * c)) * x1 + / c * x2) * (- (l / (a * c)) * x1 + / c * x2))%coqR in
  (0 < h)%coqR ->
  lme_covariance_random_effects [:: pair_obs x1 z1 v1 x2 z2 v2] LNone 1%:M =
  Ok [:: (bf z1 z2 z1 z2 - bf z1 z2 x1 x2 * / h * bf x1 x2 z1 z2)%coqR%:M].
Proof.
  move=> pv1 pv2 ha hc e1 e2 e3 bf h hh; set g := pair_obs _ _ _ _ _ _.
  have pv : positive_variances [:: g].
    by move=> g' [<-|[]]; apply: ord2; rewrite /= mxE.
  have nn : nonnegative (1%:M : 'cV[R]_1) by move=> j; rewrite !ord1 mxE mulr1n; toR; lra.
  have hadm := admissible_nonneg nn pv.
  have hO : pd (Omega 1%:M g) by apply: hadm; left.
  have eO : Omega 1%:M g = low2 a l c *m (low2 a l c)^T.
    rewrite /Omega; apply/matrixP; apply: ord2; apply: ord2; rewrite [LHS]mxE [(_ *m _) _ _]mxE big_ord1;
    rewrite !mxE ?big_ord1 ?sum2 !mxE /= ?mulr1n ?mulr0n; toR; lra.
  have eI : f_inv (fac 1%:M g) = low2 (/ a)%coqR (- (l / (a * c)))%coqR (/ c)%coqR.
    by rewrite fac_inv (chol2 hO ha hc eO) inv_low2.
  have eH : lme_hessian_beta [:: g] LNone 1%:M = Ok h%:M.
    rewrite /lme_hessian_beta recalculate_ok //=; congr Ok; rewrite addr0 big_cons big_nil addr0 /group_kernel eI.
    rewrite [LHS]mx11_scalar; congr (_%:M).
    rewrite mxE sum2 !mxE !sum2 !mxE /= /h; toR; ring.
  have u : (h%:M : 'M[R]_1) \in unitmx by apply: unit_scalar; lra.
  rewrite /lme_covariance_random_effects /lme_covariance_beta eH /= /np_inv u /= recalculate_ok //=; congr (Ok [:: _]).
  rewrite /group_covariance_u eI; cbn [f_g fac g_z g_x g pair_obs].
  rewrite invmx_scalar /diagv diag_scalar mulmx1 mul1mx.
  set M := low2 _ _ _.
  rewrite [LHS]mx11_scalar; congr (_%:M).
  have -> : (col2 z1 z2)^T *m (M - M *m col2 x1 x2 *m (h^-1)%:M *m (col2 x1 x2)^T *m M) *m col2 z1 z2
    = (col2 z1 z2)^T *m M *m col2 z1 z2
      - ((col2 z1 z2)^T *m M *m col2 x1 x2) *m (h^-1)%:M *m ((col2 x1 x2)^T *m M *m col2 z1 z2).
    by rewrite mulmxBr mulmxBl !mulmxA.
  rewrite mxE col2_bf mxE [(_ *m _) _ _]mxE big_ord1 [(_ *m _%:M) _ _]mxE big_ord1 !col2_bf mxE mulr1n.
  by rewrite /bf /M; toR; ring.
Qed.

(*@ C82 (refuted).  covariance_random_effects depends on the order: two observations of one group with targets 0,
    fixed features 0 and 1, random features 5/3 and 6/5, variances 11/9 and 49/400, and the same observations in the
    other order, have different covariances of the random effect, because the inverse Cholesky factor stands where
    the inverse of Omega belongs. *)
Lemma covariance_random_effects_row_order_refuted_lemma :
  exists (g g' : group 1 1) gamma (c c' : 'M[R]_1),
    same_rows g g' /\ positive_variances [:: g] /\ nonnegative gamma /\
    lme_covariance_random_effects [:: g] LNone gamma = Ok [:: c] /\
    lme_covariance_random_effects [:: g'] LNone gamma = Ok [:: c'] /\ c <> c'.
Proof.
  pose g := (pair_obs 0 (5 / 3) (11 / 9) 1 (6 / 5) (49 / 400))%coqR.
  pose g' := (pair_obs 1 (6 / 5) (49 / 400) 0 (5 / 3) (11 / 9))%coqR.
  have e := @pair_covariance 0%coqR (5 / 3)%coqR (11 / 9)%coqR 1%coqR (6 / 5)%coqR (49 / 400)%coqR 2%coqR 1%coqR (3 / 4)%coqR ltac:(lra) ltac:(lra) ltac:(lra) ltac:(lra)
    ltac:(lra) ltac:(lra) ltac:(lra).
  have e' := @pair_covariance 1%coqR (6 / 5)%coqR (49 / 400)%coqR 0%coqR (5 / 3)%coqR (11 / 9)%coqR (5 / 4)%coqR (8 / 5)%coqR (6 / 5)%coqR ltac:(lra) ltac:(lra) ltac:(lra)
    ltac:(lra) ltac:(lra) ltac:(lra) ltac:(lra).
  exists g, g', 1%:M; eexists; eexists; split; [|split; [|split; [|split; [apply: e | split; [apply: e' |]]]]].
  - exists (tperm ord0 (lift ord0 ord0)); rewrite /reorder /g /g' /pair_obs; cbn [g_n g_x g_y g_z g_v].
    by congr Group; apply/matrixP => i j; move: i; apply: ord2; rewrite !mxE ?tpermL ?tpermR.
  - by move=> g0 [<-|[]]; apply: ord2; rewrite /= mxE /=; lra.
  - by move=> j; rewrite !ord1 mxE mulr1n; toR; lra.
  - lra.
  - lra.
  - move=> /(congr1 (fun M : 'M[R]_1 => M ord0 ord0)); rewrite /= !mxE !mulr1n => ec.
    have : (691 / 450 = 59909 / 33750)%coqR by move: ec; match goal with |- ?l = ?r -> _ =>
      have -> : l = (691 / 450)%coqR by field end; move=> ->; field.
    lra.
Qed.
