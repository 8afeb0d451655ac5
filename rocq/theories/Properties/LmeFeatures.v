(** Property C121: the order of the features of a mixed model (src/pysr3/lme/oracles.py, models.py, problems.py). *)
From Verif.Base Require Import Py Vec Mat RMx.
From Verif.Model Require Import LmeProblem Regularizers LmeInner LmeFit LmePredict LmeUse.
From Verif.Spec Require Import LmeSpec ProxSpec ColumnSpec InnerSpec FitSpec FeatureTableSpec FlipSpec FeatureLogSpec.
From mathcomp Require Import ssreflect ssrfun ssrbool eqtype ssrnat choice seq fintype
  finfun bigop finset fingroup perm ssralg matrix mxalgebra.
From Verif.Model Require Import LmeOracle LmeBridge.
From Verif.Spec Require Import MxSpec FeatureSpec.
From Verif.Proofs Require Import LmeFeaturesMain.

Set Implicit Arguments.
Unset Strict Implicit.
Unset Printing Implicit Defensive.
Delimit Scope R_scope with coqR.

(** C121 (partial).  List the fixed features, the random features and the means and deviations of the prior in another
    order: the loss stays what it is, ... *)
Theorem lme_loss_ignores_feature_order_partial : forall (p q : nat) (s : 'S_p) (t : 'S_q) (gs : seq (group p q)) pr beta gamma,
  let gs' := map (reorder_features s t) gs in let pr' := reorder_prior s t pr in
  lme_loss gs' pr' (row_perm s beta) (row_perm t gamma) = lme_loss gs pr beta gamma /\
  lme_demarginalized_loss gs' pr' (row_perm s beta) (row_perm t gamma) = lme_demarginalized_loss gs pr beta gamma.
Proof. exact lme_loss_ignores_feature_order_partial_lemma. Qed.
Print Assumptions lme_loss_ignores_feature_order_partial.

(** C121 (partial).  ... gradients and second derivatives are those of the original problem in the new order, ... *)
Theorem lme_derivatives_reorder_features_partial : forall (p q : nat) (s : 'S_p) (t : 'S_q) (gs : seq (group p q)) pr b1 b2 beta gamma,
  let gs' := map (reorder_features s t) gs in let pr' := reorder_prior s t pr in
  let beta' := row_perm s beta in let gamma' := row_perm t gamma in
  lme_gradient_beta gs' pr' beta' gamma' = rmap (row_perm s) (lme_gradient_beta gs pr beta gamma) /\
  lme_gradient_gamma gs' pr' beta' gamma' = rmap (row_perm t) (lme_gradient_gamma gs pr beta gamma) /\
  lme_hessian_beta gs' pr' gamma' = rmap (reorder_mx s s) (lme_hessian_beta gs pr gamma) /\
  lme_hessian_gamma gs' pr' b1 b2 beta' gamma' = rmap (reorder_mx t t) (lme_hessian_gamma gs pr b1 b2 beta gamma) /\
  lme_hessian_beta_gamma gs' beta' gamma' = rmap (reorder_mx s t) (lme_hessian_beta_gamma gs beta gamma).
Proof. exact lme_derivatives_reorder_features_partial_lemma. Qed.
Print Assumptions lme_derivatives_reorder_features_partial.

(** C121 (partial).  ... and so are the optimal coefficients, also those with a relaxation term, the random effects and the
    covariances; the covariance of an answer stays. *)
Theorem lme_estimates_reorder_features_partial : forall (p q : nat) (s : 'S_p) (t : 'S_q) (gs : seq (group p q)) pr lb tbeta beta gamma,
  let gs' := map (reorder_features s t) gs in let pr' := reorder_prior s t pr in
  let beta' := row_perm s beta in let gamma' := row_perm t gamma in
  lme_optimal_beta gs' gamma' = rmap (row_perm s) (lme_optimal_beta gs gamma) /\
  sr3_optimal_beta lb gs' gamma' (row_perm s tbeta) = rmap (row_perm s) (sr3_optimal_beta lb gs gamma tbeta) /\
  lme_random_effects gs' beta' gamma' = rmap (map (row_perm t)) (lme_random_effects gs beta gamma) /\
  lme_covariance_beta gs' pr' gamma' = rmap (reorder_mx s s) (lme_covariance_beta gs pr gamma) /\
  lme_covariance_random_effects gs' pr' gamma' = rmap (map (reorder_mx t t)) (lme_covariance_random_effects gs pr gamma) /\
  lme_covariance_y gs' pr' gamma' = lme_covariance_y gs pr gamma.
Proof. exact lme_estimates_reorder_features_partial_lemma. Qed.
Print Assumptions lme_estimates_reorder_features_partial.

(** C121 (partial).  The information criteria and the degrees of freedom do not depend on the order of the features. *)
Theorem lme_criteria_ignore_feature_order_partial : forall (p q : nat) (s : 'S_p) (t : 'S_q) (gs : seq (group p q)) pr tol marginal beta gamma,
  let gs' := map (reorder_features s t) gs in let pr' := reorder_prior s t pr in
  let beta' := row_perm s beta in let gamma' := row_perm t gamma in
  lme_ddf gs' gamma' = lme_ddf gs gamma /\
  lme_vaida_aic gs' pr' tol marginal beta' gamma' = lme_vaida_aic gs pr tol marginal beta gamma /\
  lme_jones_bic gs' pr' tol beta' gamma' = lme_jones_bic gs pr tol beta gamma /\
  lme_muller_ic gs' pr' tol beta' gamma' = lme_muller_ic gs pr tol beta gamma.
Proof. exact lme_criteria_ignore_feature_order_partial_lemma. Qed.
Print Assumptions lme_criteria_ignore_feature_order_partial.

(** C121 (partial).  Permute the columns of a table together with their labels, and the starts and weights given to fit
    accordingly.  Then a model without relaxation or L0 penalty finds the same fit - coefficients, variances,
    random effects, coefficients per group and log in the new order - or fails in the same way. *)
Theorem lme_fit_reorders_columns_partial :
  forall argsort cdf m coef x y labels order beta0 gamma0 warm ff fr fe re,
  unrelaxed m -> without_l0 m -> wf_table x -> t_cols x = length labels -> is_order (length labels) order ->
  let p := (countb is_fixed labels + b2n ff)%coq_nat in
  let q := (countb is_random labels + b2n fr)%coq_nat in
  let o1 := role_order is_fixed ff labels order in
  let o2 := role_order is_random fr labels order in
  (forall v, beta0 = Some v -> length v = p) -> (forall v, gamma0 = Some v -> length v = q) ->
  (forall v, fe = Some v -> length v = p) -> (forall v, re = Some v -> length v = q) ->
  lme_fit argsort cdf m coef (reorder_table order x) y (Some (reorder_labels order labels))
    (option_map (permute o1) beta0) (option_map (permute o2) gamma0) warm ff fr
    (option_map (permute o1) fe) (option_map (permute o2) re)
  = rmap (reorder_fit p o1 o2 order) (lme_fit argsort cdf m coef x y (Some labels) beta0 gamma0 warm ff fr fe re).
Proof. exact lme_fit_reorders_columns_partial_lemma. Qed.
Print Assumptions lme_fit_reorders_columns_partial.

(** a table in another order that is fitted: the start 3, 5 becomes 5, 3, and so do the coefficients *)
Example ex_lme_fit_reorders_columns : forall argsort cdf,
  let m := flat_model PenNone None 0 0%coqR in
  let order := [:: 0; 2; 1; 3; 4]%N in
  unrelaxed m /\ without_l0 m /\ wf_table twin_table /\ t_cols twin_table = length twin_labels /\
  is_order (length twin_labels) order /\ role_order is_fixed false twin_labels order = [:: 1; 0]%N /\
  role_order is_fixed true twin_labels order = [:: 0; 2; 1]%N /\
  (exists co lg, lme_fit argsort cdf m None twin_table [:: 0%coqR] (Some twin_labels) (Some [:: 3; 5]%coqR) (Some [:: 1%coqR])
     false false false None None = Ok (co, lg) /\ co_beta co = [:: 3; 5]%coqR) /\
  exists co lg, lme_fit argsort cdf m None twin_table [:: 0%coqR] (Some twin_labels) (Some [:: 5; 3]%coqR) (Some [:: 1%coqR])
     false false false None None = Ok (co, lg) /\ co_beta co = [:: 5; 3]%coqR.
Proof. exact ex_lme_fit_reorders_columns_lemma. Qed.

(** C121 (partial).  So does a relaxed (SR3) model without L0 penalty, both when the solver makes gradient steps on the
    value function and in the practical mode; there the log must not contain the variances, directions or steps of the
    interior point method. *)
Theorem lme_fit_reorders_columns_relaxed_partial :
  forall argsort cdf m ss coef x y labels order beta0 gamma0 warm ff fr fe re,
  mo_sr3 m = Some ss -> without_l0 m -> (ss_practical ss = true -> logs_no_variances m) ->
  wf_table x -> t_cols x = length labels -> is_order (length labels) order ->
  let p := (countb is_fixed labels + b2n ff)%coq_nat in
  let q := (countb is_random labels + b2n fr)%coq_nat in
  let o1 := role_order is_fixed ff labels order in
  let o2 := role_order is_random fr labels order in
  (forall v, beta0 = Some v -> length v = p) -> (forall v, gamma0 = Some v -> length v = q) ->
  (forall v, fe = Some v -> length v = p) -> (forall v, re = Some v -> length v = q) ->
  lme_fit argsort cdf m coef (reorder_table order x) y (Some (reorder_labels order labels))
    (option_map (permute o1) beta0) (option_map (permute o2) gamma0) warm ff fr
    (option_map (permute o1) fe) (option_map (permute o2) re)
  = rmap (reorder_fit p o1 o2 order) (lme_fit argsort cdf m coef x y (Some labels) beta0 gamma0 warm ff fr fe re).
Proof. exact lme_fit_reorders_columns_relaxed_partial_lemma. Qed.
Print Assumptions lme_fit_reorders_columns_relaxed_partial.

(** the relaxed model on the table above *)
Example ex_lme_fit_reorders_columns_relaxed : forall argsort cdf ss, ss_practical ss = false ->
  let m := flat_model PenNone (Some ss) 0 0%coqR in
  mo_sr3 m = Some ss /\ without_l0 m /\ logs_no_variances m /\
  (exists co lg, lme_fit argsort cdf m None twin_table [:: 0%coqR] (Some twin_labels) (Some [:: 3; 5]%coqR) (Some [:: 1%coqR])
     false false false None None = Ok (co, lg) /\ co_beta co = [:: 3; 5]%coqR) /\
  exists co lg, lme_fit argsort cdf m None twin_table [:: 0%coqR] (Some twin_labels) (Some [:: 5; 3]%coqR) (Some [:: 1%coqR])
     false false false None None = Ok (co, lg) /\ co_beta co = [:: 5; 3]%coqR.
Proof. exact ex_lme_fit_reorders_columns_relaxed_lemma. Qed.

(** C121 (partial).  The model with its coefficients in the new order predicts the same values for new data in the new order,
    and has the same score. *)
Theorem lme_predictions_ignore_feature_order_partial : forall (co : LmeFit.lme_coef) lg x y labels order ff fr,
  wf_table x -> t_cols x = length labels -> is_order (length labels) order ->
  let p := (countb is_fixed labels + b2n ff)%coq_nat in
  let q := (countb is_random labels + b2n fr)%coq_nat in
  let r := reorder_fit p (role_order is_fixed ff labels order) (role_order is_random fr labels order) order (co, lg) in
  length (co_beta co) = p -> List.Forall (fun u => length u = q) (co_effects co) ->
  predict (Some (predictor (fst r))) (reorder_table order x) (Some (reorder_labels order labels)) ff fr
  = predict (Some (predictor co)) x (Some labels) ff fr /\
  score (Some (predictor (fst r))) (reorder_table order x) y (Some (reorder_labels order labels)) ff fr
  = score (Some (predictor co)) x y (Some labels) ff fr.
Proof. exact lme_predictions_ignore_feature_order_partial_lemma. Qed.
Print Assumptions lme_predictions_ignore_feature_order_partial.

(** the row 1, 2, 4 has the prediction 3 * 1 + 5 * 2 + 7 * 4 *)
Example ex_lme_predictions_ignore_feature_order :
  wf_table signs_row /\ t_cols signs_row = length twin_labels /\ is_order (length twin_labels) [:: 0; 2; 1; 3; 4]%N /\
  length (co_beta signs_coef) = (countb is_fixed twin_labels + b2n false)%coq_nat /\
  List.Forall (fun u => length u = (countb is_random twin_labels + b2n false)%coq_nat) (co_effects signs_coef) /\
  predict (Some (predictor signs_coef)) signs_row (Some twin_labels) false false = Ok [:: 41%coqR].
Proof. exact ex_lme_predictions_ignore_feature_order_lemma. Qed.

(** C121 (refuted).  An L0 model that may keep one of two features that are equal keeps one of them: exchanging the
    features does not change the table, so it does not change the fit, but the fit is not its own exchange.  This happens
    whatever order argsort chooses for equal entries. *)
Theorem lme_fit_reorders_columns_refuted : forall argsort cdf, argsort_ok argsort ->
  let order := [:: 0; 2; 1; 3; 4]%N in
  let o1 := role_order is_fixed false twin_labels order in
  let o2 := role_order is_random false twin_labels order in
  is_order (length twin_labels) order /\ wf_table twin_table /\
  lme_fit argsort cdf twin_model None (reorder_table order twin_table) [:: 0%coqR] (Some (reorder_labels order twin_labels))
    None None false false false None None
  <> rmap (reorder_fit 2 o1 o2 order)
       (lme_fit argsort cdf twin_model None twin_table [:: 0%coqR] (Some twin_labels) None None false false false None None).
Proof. exact lme_fit_reorders_columns_refuted_lemma. Qed.
Print Assumptions lme_fit_reorders_columns_refuted.

(** two features in another order are different data *)
Example ex_lme_loss_ignores_feature_order :
  exists (s : 'S_2) (t : 'S_1) (g : group 2 1), reorder_features s t g <> g /\ (s ord0 != ord0).
Proof. exact ex_lme_loss_ignores_feature_order_lemma. Qed.
