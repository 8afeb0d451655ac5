(** Final lemmas about the order of the features of a mixed model, restated as theorems in Properties/LmeFeatures.v. *)
(*HEAD
(** Property C121: the order of the features of a mixed model (src/pysr3/lme/oracles.py, models.py, problems.py). *)
From Verif.Base Require Import Py Vec Mat RMx.
From Verif.Model Require Import LmeProblem Regularizers LmeInner LmeFit LmePredict LmeUse.
From Verif.Spec Require Import LmeSpec ProxSpec ColumnSpec InnerSpec FitSpec FeatureTableSpec FlipSpec FeatureLogSpec.
From mathcomp Require Import ssreflect ssrfun ssrbool eqtype ssrnat choice seq fintype
  finfun bigop finset fingroup perm ssralg matrix mxalgebra.
From Verif.Model Require Import LmeOracle LmeBridge.
From Verif.Spec Require Import MxSpec FeatureSpec.
HEAD*)
From Verif.Base Require Import Py Vec Mat RMx.
From Verif.Model Require Import LmeProblem Regularizers LmeInner LmeFit LmePredict LmeUse.
From Verif.Spec Require Import LmeSpec ProxSpec ColumnSpec InnerSpec FitSpec FeatureTableSpec FlipSpec FeatureLogSpec.
From Verif.Proofs Require Import FeatureTwin FeaturePredict FlipTwin PriorFit.
From Coq Require Import Lra.
From mathcomp Require Import ssreflect ssrfun ssrbool eqtype ssrnat choice seq fintype
  finfun bigop finset fingroup perm ssralg zmodp matrix mxalgebra.
From Verif.Model Require Import LmeOracle LmeBridge.
From Verif.Spec Require Import MxSpec FeatureSpec.
From Verif.Proofs Require Import FeatureProofs FeatureBridge FeatureRelaxedBridge.
(*OPEN
Set Implicit Arguments.
Unset Strict Implicit.
Unset Printing Implicit Defensive.
Delimit Scope R_scope with coqR.
OPEN*)
Set Implicit Arguments.
Unset Strict Implicit.
Unset Printing Implicit Defensive.
Delimit Scope R_scope with coqR.
Import GRing.Theory.

Lemma conj_re (p q : nat) (s : 'S_p) (t : 'S_q) : (fun h => (pm s)^T *m h *m pm t)%R = reorder_mx s t.
Proof. by apply: FunctionalExtensionality.functional_extensionality => h; rewrite -col_pm -row_pm; apply/matrixP=> i j; rewrite !mxE. Qed.

(*@ C121 (partial).  List the fixed features, the random features and the means and deviations of the prior in another
    order: the loss stays what it is, ... *)
Lemma lme_loss_ignores_feature_order_partial_lemma : forall (p q : nat) (s : 'S_p) (t : 'S_q) (gs : seq (group p q)) pr beta gamma,
  let gs' := map (reorder_features s t) gs in let pr' := reorder_prior s t pr in
  lme_loss gs' pr' (row_perm s beta) (row_perm t gamma) = lme_loss gs pr beta gamma /\
  lme_demarginalized_loss gs' pr' (row_perm s beta) (row_perm t gamma) = lme_demarginalized_loss gs pr beta gamma.
Proof. move=> p q s t gs pr beta gamma; split; [exact: lme_loss_re | exact: lme_demarginalized_re]. Qed.

(*@ C121 (partial).  ... gradients and second derivatives are those of the original problem in the new order, ... *)
Lemma lme_derivatives_reorder_features_partial_lemma : forall (p q : nat) (s : 'S_p) (t : 'S_q) (gs : seq (group p q)) pr b1 b2 beta gamma,
  let gs' := map (reorder_features s t) gs in let pr' := reorder_prior s t pr in
  let beta' := row_perm s beta in let gamma' := row_perm t gamma in
  lme_gradient_beta gs' pr' beta' gamma' = rmap (row_perm s) (lme_gradient_beta gs pr beta gamma) /\
  lme_gradient_gamma gs' pr' beta' gamma' = rmap (row_perm t) (lme_gradient_gamma gs pr beta gamma) /\
  lme_hessian_beta gs' pr' gamma' = rmap (reorder_mx s s) (lme_hessian_beta gs pr gamma) /\
  lme_hessian_gamma gs' pr' b1 b2 beta' gamma' = rmap (reorder_mx t t) (lme_hessian_gamma gs pr b1 b2 beta gamma) /\
  lme_hessian_beta_gamma gs' beta' gamma' = rmap (reorder_mx s t) (lme_hessian_beta_gamma gs beta gamma).
Proof.
  move=> p q s t gs pr b1 b2 beta gamma; rewrite -!conj_re; split; first exact: lme_gradient_beta_re.
  split; first exact: lme_gradient_gamma_re. split; first exact: lme_hessian_beta_re.
  split; [exact: lme_hessian_gamma_re | exact: lme_hessian_mixed_re].
Qed.

(*@ C121 (partial).  ... and so are the optimal coefficients, also those with a relaxation term, the random effects and the
    covariances; the covariance of an answer stays. *)
Lemma lme_estimates_reorder_features_partial_lemma : forall (p q : nat) (s : 'S_p) (t : 'S_q) (gs : seq (group p q)) pr lb tbeta beta gamma,
  let gs' := map (reorder_features s t) gs in let pr' := reorder_prior s t pr in
  let beta' := row_perm s beta in let gamma' := row_perm t gamma in
  lme_optimal_beta gs' gamma' = rmap (row_perm s) (lme_optimal_beta gs gamma) /\
  sr3_optimal_beta lb gs' gamma' (row_perm s tbeta) = rmap (row_perm s) (sr3_optimal_beta lb gs gamma tbeta) /\
  lme_random_effects gs' beta' gamma' = rmap (map (row_perm t)) (lme_random_effects gs beta gamma) /\
  lme_covariance_beta gs' pr' gamma' = rmap (reorder_mx s s) (lme_covariance_beta gs pr gamma) /\
  lme_covariance_random_effects gs' pr' gamma' = rmap (map (reorder_mx t t)) (lme_covariance_random_effects gs pr gamma) /\
  lme_covariance_y gs' pr' gamma' = lme_covariance_y gs pr gamma.
Proof.
  move=> p q s t gs pr lb tbeta beta gamma; rewrite -!conj_re; split; first exact: lme_optimal_beta_re.
  split; first exact: sr3_optimal_beta_re. split; first exact: lme_random_effects_re.
  split; first exact: lme_covariance_beta_re. split; [exact: lme_covariance_re_re | exact: lme_covariance_y_re].
Qed.

(*@ C121 (partial).  The information criteria and the degrees of freedom do not depend on the order of the features. *)
Lemma lme_criteria_ignore_feature_order_partial_lemma : forall (p q : nat) (s : 'S_p) (t : 'S_q) (gs : seq (group p q)) pr tol marginal beta gamma,
  let gs' := map (reorder_features s t) gs in let pr' := reorder_prior s t pr in
  let beta' := row_perm s beta in let gamma' := row_perm t gamma in
  lme_ddf gs' gamma' = lme_ddf gs gamma /\
  lme_vaida_aic gs' pr' tol marginal beta' gamma' = lme_vaida_aic gs pr tol marginal beta gamma /\
  lme_jones_bic gs' pr' tol beta' gamma' = lme_jones_bic gs pr tol beta gamma /\
  lme_muller_ic gs' pr' tol beta' gamma' = lme_muller_ic gs pr tol beta gamma.
Proof.
  move=> p q s t gs pr tol marginal beta gamma; split; first exact: lme_ddf_re.
  split; first exact: lme_vaida_re. split; [exact: lme_jones_re | exact: lme_muller_re].
Qed.

(*@ C121 (partial).  Permute the columns of a table together with their labels, and the starts and weights given to fit
    accordingly.  Then a model without relaxation or L0 penalty finds the same fit - coefficients, variances,
    random effects, coefficients per group and log in the new order - or fails in the same way. *)
Lemma lme_fit_reorders_columns_partial_lemma :
  forall argsort cdf m coef x y labels order beta0 gamma0 warm ff fr fe re,
  unrelaxed m -> without_l0 m -> wf_table x -> t_cols x = length labels -> is_order (length labels) order ->
  let p := (countb is_fixed labels + b2n ff)%coq_nat in
  let q := (countb is_random labels + b2n fr)%coq_nat in
  let o1 := role_order is_fixed ff labels order in
  let o2 := role_order is_random fr labels order in
  (forall v, beta0 = Some v -> length v = p) -> (forall v, gamma0 = Some v -> length v = q) ->
  (forall v, fe = Some v -> length v = p) -> (forall v, re = Some v -> length v = q) ->
  lme_fit argsort cdf m coef (reorder_table order x) y (Some (reorder_labels order labels))
    (option_map (permute o1) beta0) (option_map (permute o2) gamma0) warm ff fr
    (option_map (permute o1) fe) (option_map (permute o2) re)
  = rmap (reorder_fit p o1 o2 order) (lme_fit argsort cdf m coef x y (Some labels) beta0 gamma0 warm ff fr fe re).
Proof.
  move=> argsort cdf m coef x y labels order beta0 gamma0 warm ff fr fe re hm1 hm2 wx hx ho p q o1 o2 hb hg hf hr.
  case hp : (mo_prior m) => [g|]; last exact: fit_features.
  rewrite !(prior_fit _ _ _ _ _ _ _ _ _ _ _ _ _ _ _ hp).
  have -> : check_X_y (reorder_table order x) y = check_X_y x y.
    by rewrite /check_X_y /reorder_table /permute_columns /= List.map_length.
  case: (check_X_y x y) => [u|//]; cbn [rbind].
  have := @FeatureCoefs.from_x_y_reorder order labels ff fr ho x (Some y) wx hx.
  have [e he] := prior_failure_err m; rewrite he.
  by case: (from_x_y x _ _ _ _ _ _ _) => [pr|er]; case: (from_x_y _ _ _ _ _ _ _ _) => [pr'|er'] // ->.
Qed.
(*@ a table in another order that is fitted: the start 3, 5 becomes 5, 3, and so do the coefficients *)
Lemma ex_lme_fit_reorders_columns_lemma : forall argsort cdf,
  let m := flat_model PenNone None 0 0%coqR in
  let order := [:: 0; 2; 1; 3; 4]%N in
  unrelaxed m /\ without_l0 m /\ wf_table twin_table /\ t_cols twin_table = length twin_labels /\
  is_order (length twin_labels) order /\ role_order is_fixed false twin_labels order = [:: 1; 0]%N /\
  role_order is_fixed true twin_labels order = [:: 0; 2; 1]%N /\
  (exists co lg, lme_fit argsort cdf m None twin_table [:: 0%coqR] (Some twin_labels) (Some [:: 3; 5]%coqR) (Some [:: 1%coqR])
     false false false None None = Ok (co, lg) /\ co_beta co = [:: 3; 5]%coqR) /\
  exists co lg, lme_fit argsort cdf m None twin_table [:: 0%coqR] (Some twin_labels) (Some [:: 5; 3]%coqR) (Some [:: 1%coqR])
     false false false None None = Ok (co, lg) /\ co_beta co = [:: 5; 3]%coqR.
Proof.
  move=> argsort cdf m order; have [h1 [h2 [h3 [h4 h5]]]] := twin_order.
  split; first by []. split; first by []. split; first exact: h4. split; first by []. split; first exact: h1. split; first exact: h2.
  split; first exact: h5. split; exact: twin_start.
Qed.

(*@ C121 (partial).  So does a relaxed (SR3) model without L0 penalty, both when the solver makes gradient steps on the
    value function and in the practical mode; there the log must not contain the variances, directions or steps of the
    interior point method. *)
Lemma lme_fit_reorders_columns_relaxed_partial_lemma :
  forall argsort cdf m ss coef x y labels order beta0 gamma0 warm ff fr fe re,
  mo_sr3 m = Some ss -> without_l0 m -> (ss_practical ss = true -> logs_no_variances m) ->
  wf_table x -> t_cols x = length labels -> is_order (length labels) order ->
  let p := (countb is_fixed labels + b2n ff)%coq_nat in
  let q := (countb is_random labels + b2n fr)%coq_nat in
  let o1 := role_order is_fixed ff labels order in
  let o2 := role_order is_random fr labels order in
  (forall v, beta0 = Some v -> length v = p) -> (forall v, gamma0 = Some v -> length v = q) ->
  (forall v, fe = Some v -> length v = p) -> (forall v, re = Some v -> length v = q) ->
  lme_fit argsort cdf m coef (reorder_table order x) y (Some (reorder_labels order labels))
    (option_map (permute o1) beta0) (option_map (permute o2) gamma0) warm ff fr
    (option_map (permute o1) fe) (option_map (permute o2) re)
  = rmap (reorder_fit p o1 o2 order) (lme_fit argsort cdf m coef x y (Some labels) beta0 gamma0 warm ff fr fe re).
Proof.
  move=> argsort cdf m ss coef x y labels order beta0 gamma0 warm ff fr fe re hm1 hm2 hm3 wx hx ho p q o1 o2 hb hg hf hr.
  case hp : (mo_prior m) => [g|]; last exact: (@relaxed_fit_features argsort cdf m ss coef x y labels order beta0 gamma0 warm ff fr fe re hm1 hp hm2 hm3 wx hx ho hb hg hf hr).
  rewrite !(prior_fit _ _ _ _ _ _ _ _ _ _ _ _ _ _ _ hp).
  have -> : check_X_y (reorder_table order x) y = check_X_y x y.
    by rewrite /check_X_y /reorder_table /permute_columns /= List.map_length.
  case: (check_X_y x y) => [u|//]; cbn [rbind].
  have := @FeatureCoefs.from_x_y_reorder order labels ff fr ho x (Some y) wx hx.
  have [e he] := prior_failure_err m; rewrite he.
  by case: (from_x_y x _ _ _ _ _ _ _) => [pr|er]; case: (from_x_y _ _ _ _ _ _ _ _) => [pr'|er'] // ->.
Qed.
(*@ the relaxed model on the table above *)
Lemma ex_lme_fit_reorders_columns_relaxed_lemma : forall argsort cdf ss, ss_practical ss = false ->
  let m := flat_model PenNone (Some ss) 0 0%coqR in
  mo_sr3 m = Some ss /\ without_l0 m /\ logs_no_variances m /\
  (exists co lg, lme_fit argsort cdf m None twin_table [:: 0%coqR] (Some twin_labels) (Some [:: 3; 5]%coqR) (Some [:: 1%coqR])
     false false false None None = Ok (co, lg) /\ co_beta co = [:: 3; 5]%coqR) /\
  exists co lg, lme_fit argsort cdf m None twin_table [:: 0%coqR] (Some twin_labels) (Some [:: 5; 3]%coqR) (Some [:: 1%coqR])
     false false false None None = Ok (co, lg) /\ co_beta co = [:: 5; 3]%coqR.
Proof.
  move=> argsort cdf ss H m; split; first by []. split; first by []. split; first by move=> k [].
  split; exact: relaxed_start.
Qed.

(*@ C121 (partial).  The model with its coefficients in the new order predicts the same values for new data in the new order,
    and has the same score. *)
Lemma lme_predictions_ignore_feature_order_partial_lemma : forall (co : LmeFit.lme_coef) lg x y labels order ff fr,
  wf_table x -> t_cols x = length labels -> is_order (length labels) order ->
  let p := (countb is_fixed labels + b2n ff)%coq_nat in
  let q := (countb is_random labels + b2n fr)%coq_nat in
  let r := reorder_fit p (role_order is_fixed ff labels order) (role_order is_random fr labels order) order (co, lg) in
  length (co_beta co) = p -> List.Forall (fun u => length u = q) (co_effects co) ->
  predict (Some (predictor (fst r))) (reorder_table order x) (Some (reorder_labels order labels)) ff fr
  = predict (Some (predictor co)) x (Some labels) ff fr /\
  score (Some (predictor (fst r))) (reorder_table order x) y (Some (reorder_labels order labels)) ff fr
  = score (Some (predictor co)) x y (Some labels) ff fr.
Proof.
  move=> co lg x y labels order ff fr wx hx ho p q r lb lu; split; [exact: predict_reorder | exact: score_reorder].
Qed.
(*@ the row 1, 2, 4 has the prediction 3 * 1 + 5 * 2 + 7 * 4 *)
Lemma ex_lme_predictions_ignore_feature_order_lemma :
  wf_table signs_row /\ t_cols signs_row = length twin_labels /\ is_order (length twin_labels) [:: 0; 2; 1; 3; 4]%N /\
  length (co_beta signs_coef) = (countb is_fixed twin_labels + b2n false)%coq_nat /\
  List.Forall (fun u => length u = (countb is_random twin_labels + b2n false)%coq_nat) (co_effects signs_coef) /\
  predict (Some (predictor signs_coef)) signs_row (Some twin_labels) false false = Ok [:: 41%coqR].
Proof.
  have [h1 _] := twin_order.
  by split; [repeat constructor | do ! split => //; [repeat constructor | exact: signs_prediction]].
Qed.

(*@ C121 (refuted).  An L0 model that may keep one of two features that are equal keeps one of them: exchanging the
    features does not change the table, so it does not change the fit, but the fit is not its own exchange.  This happens
    whatever order argsort chooses for equal entries. *)
Lemma lme_fit_reorders_columns_refuted_lemma : forall argsort cdf, argsort_ok argsort ->
  let order := [:: 0; 2; 1; 3; 4]%N in
  let o1 := role_order is_fixed false twin_labels order in
  let o2 := role_order is_random false twin_labels order in
  is_order (length twin_labels) order /\ wf_table twin_table /\
  lme_fit argsort cdf twin_model None (reorder_table order twin_table) [:: 0%coqR] (Some (reorder_labels order twin_labels))
    None None false false false None None
  <> rmap (reorder_fit 2 o1 o2 order)
       (lme_fit argsort cdf twin_model None twin_table [:: 0%coqR] (Some twin_labels) None None false false false None None).
Proof.
  move=> argsort cdf ha order; have [h1 [h2 [h3 [h4 _]]]] := twin_order.
  rewrite h2 h3 /=; split; first exact: h1. split; first exact: h4. exact: twin_refuted.
Qed.

(*@ two features in another order are different data *)
Lemma ex_lme_loss_ignores_feature_order_lemma :
  exists (s : 'S_2) (t : 'S_1) (g : group 2 1), reorder_features s t g <> g /\ (s ord0 != ord0).
Proof.
  exists (tperm ord0 ord_max), 1%g, (@Group 2 1 1 (\row_j (if j == ord0 then 1%coqR else 0%coqR)) 0%R 0%R 0%R).
  split; last by rewrite tpermL.
  move=> /(congr1 (fun g : group 2 1 => (\sum_i g_x g i ord0)%R)) /=.
  by rewrite !big_ord1 !mxE tpermL /=; lra.
Qed.
