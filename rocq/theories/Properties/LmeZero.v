(** Property C125: random effects with zero variance (src/pysr3/lme/oracles.py). *)
From Verif.Base Require Import Py Vec Mat RMx.
From Verif.Model Require Linear Priors.
From Verif.Spec Require LinearSpec.
From mathcomp Require Import ssreflect ssrfun ssrbool eqtype ssrnat choice seq fintype
  finfun bigop finset ssralg matrix mxalgebra.
From Verif.Model Require Import LmeOracle LmeBridge.
From Verif.Spec Require Import MxSpec ZeroSpec ZeroLinearSpec.
From Verif.Proofs Require Import LmeZeroMain.

Set Implicit Arguments.
Unset Strict Implicit.
Unset Printing Implicit Defensive.
Delimit Scope R_scope with coqR.
Local Open Scope ring_scope.

(** C125.  When all variances of random effects are zero the loss is that of weighted least squares, the random effects
    are zero, and the marginal and the conditional loss agree. *)
Theorem lme_zero_variances_loss : forall (p q : nat) (gs : seq (group p q)) (pr : lme_prior p q) beta,
  positive_variances gs ->
  lme_loss gs pr beta 0 = Ok (weighted_squares gs beta + log_variances gs + prior_loss pr beta 0)%coqR /\
  lme_random_effects gs beta 0 = Ok (List.map (fun _ => 0) gs) /\
  lme_demarginalized_loss gs pr beta 0 = lme_loss gs pr beta 0.
Proof. exact lme_zero_variances_loss_lemma. Qed.
Print Assumptions lme_zero_variances_loss.

(** one observation x = 1, y = 3 with variance 1 at beta = 1: the loss is 1/2 * 2^2 *)
Example ex_lme_zero_variances_loss :
  positive_variances [:: one_obs 1 3 1 1] /\ weighted_squares [:: one_obs 1 3 1 1] 1%:M = 2%coqR.
Proof. exact ex_lme_zero_variances_loss_lemma. Qed.

(** C125.  There the gradient in beta is that of weighted least squares, and the gradient in the variance of a random
    effect compares its weighted sum of squares with its squared weighted product with the residuals. *)
Theorem lme_zero_variances_gradients : forall (p q : nat) (gs : seq (group p q)) (pr : lme_prior p q) beta,
  positive_variances gs -> exists db dg,
  lme_gradient_beta gs pr beta 0 = Ok db /\ lme_gradient_gamma gs pr beta 0 = Ok dg /\
  (forall i, db i ord0 = (\sum_(g <- gs) (- weighted_dot (col i (g_x g)) (resid beta g))%coqR + prior_gradient_beta pr beta i ord0)%coqR) /\
  (forall j, dg j ord0 = (\sum_(g <- gs) (/ 2 * weighted_dot (col j (g_z g)) (col j (g_z g))
      - / 2 * weighted_dot (col j (g_z g)) (resid beta g) ^ 2)%coqR + prior_gradient_gamma pr 0 j ord0)%coqR).
Proof. exact lme_zero_variances_gradients_lemma. Qed.
Print Assumptions lme_zero_variances_gradients.

(** in the example above the products are 2, 1 and 2, and the variance has the gradient 1/2 - 1/2 * 2^2 *)
Example ex_lme_zero_variances_gradients :
  let g := one_obs 1 3 1 1 in
  weighted_dot (col ord0 (g_x g)) (resid 1%:M g) = 2%coqR /\
  weighted_dot (col ord0 (g_z g)) (col ord0 (g_z g)) = 1%coqR /\
  weighted_dot (col ord0 (g_z g)) (resid 1%:M g) = 2%coqR.
Proof. exact ex_lme_zero_variances_gradients_lemma. Qed.

(** C125.  There optimal_beta returns the only coefficients with the smallest weighted sum of squares, or fails because
    the normal matrix is singular. *)
Theorem lme_zero_variances_estimate : forall (p q : nat) (gs : seq (group p q)),
  positive_variances gs ->
  (forall b, lme_optimal_beta gs 0 = Ok b ->
     forall beta, beta <> b -> (weighted_squares gs b < weighted_squares gs beta)%coqR) /\
  (normal_matrix gs 0 \in unitmx -> exists b, lme_optimal_beta gs 0 = Ok b) /\
  (normal_matrix gs 0 \notin unitmx -> lme_optimal_beta gs 0 = Err LinAlgError).
Proof. exact lme_zero_variances_estimate_lemma. Qed.
Print Assumptions lme_zero_variances_estimate.

(** in the example above the normal matrix is 1 *)
Example ex_lme_zero_variances_estimate : normal_matrix [:: one_obs 1 3 1 1] 0 \in unitmx.
Proof. exact ex_lme_zero_variances_estimate_lemma. Qed.

(** C125.  On the data of a linear problem, with observation variances 1 and any data of random effects, that is the loss of
    the oracle for linear models, and optimal_beta returns its only minimiser. *)
Theorem lme_zero_variances_linear : forall (q : nat) pr (z : 'M[R]_(Linear.lp_n pr, q)), LinearSpec.wf_linear pr ->
  let gs := [:: linear_group z] in
  let loss := Linear.lin_loss {| Linear.lo_problem := Some pr; Linear.lo_prior := Priors.PNone |} in
  (forall x, length x = Linear.lp_p pr -> lme_loss gs LNone (col_of _ x) 0 = loss x) /\
  forall b, lme_optimal_beta gs 0 = Ok b -> exists v, loss (vec_of b) = Ok v /\
    forall x, length x = Linear.lp_p pr -> x <> vec_of b -> exists w, loss x = Ok w /\ (v < w)%coqR.
Proof. exact lme_zero_variances_linear_lemma. Qed.
Print Assumptions lme_zero_variances_linear.

(** non-vacuous: one observation 3 of the feature 1 *)
Example ex_lme_zero_variances_linear :
  let pr := {| Linear.lp_a := [:: [:: 1%coqR]]; Linear.lp_b := [:: 3%coqR]; Linear.lp_n := 1; Linear.lp_p := 1;
               Linear.lp_c := [:: [:: 1%coqR]]; Linear.lp_weights := None; Linear.lp_obs_std := None |} in
  LinearSpec.wf_linear pr /\ exists b, lme_optimal_beta [:: @linear_group 1 pr 0] 0 = Ok b.
Proof. exact ex_lme_zero_variances_linear_lemma. Qed.

(** C125.  There Jones' criterion is the usual BIC, with the number of observations, and the degrees of freedom are the
    number of fixed effects. *)
Theorem lme_zero_variances_criteria : forall (p q : nat) (gs : seq (group p q)) (pr : lme_prior p q) tol beta,
  positive_variances gs ->
  let none : 'cV[R]_q := 0 in
  lme_jones_bic gs pr tol beta none
  = Ok (2 * (weighted_squares gs beta + log_variances gs + prior_loss pr beta 0)
        + INR (count_ge tol beta + count_ge tol none) * ln (INR (total_obs gs)))%coqR /\
  (normal_matrix gs 0 \in unitmx -> lme_ddf gs 0 = Ok (INR p)).
Proof. exact lme_zero_variances_criteria_lemma. Qed.
Print Assumptions lme_zero_variances_criteria.

(** non-vacuous: three observations *)
Example ex_lme_zero_variances_criteria :
  positive_variances [:: two_obs 1 2; one_obs 1 3 1 1] /\ total_obs [:: two_obs 1 2; one_obs 1 3 1 1] = 3%N.
Proof. exact ex_lme_zero_variances_criteria_lemma. Qed.

(** C125.  The data of a random effect with zero variance do not matter, whatever the other variances are: the losses, the
    derivatives in beta, the optimal coefficients, the random effects, covariances and sign-flip probabilities, the
    degrees of freedom and the criteria are those of the problem in which they are replaced by zeros. *)
Theorem lme_zero_variance_ignored : forall (p q : nat) (gs : seq (group p q)) (pr : lme_prior p q) cdf tol beta gamma,
  let gs' := List.map (drop_random gamma) gs in
  lme_loss gs' pr beta gamma = lme_loss gs pr beta gamma /\
  lme_demarginalized_loss gs' pr beta gamma = lme_demarginalized_loss gs pr beta gamma /\
  lme_gradient_beta gs' pr beta gamma = lme_gradient_beta gs pr beta gamma /\
  lme_hessian_beta gs' pr gamma = lme_hessian_beta gs pr gamma /\
  lme_optimal_beta gs' gamma = lme_optimal_beta gs gamma /\
  lme_random_effects gs' beta gamma = lme_random_effects gs beta gamma /\
  lme_covariance_beta gs' pr gamma = lme_covariance_beta gs pr gamma /\
  lme_covariance_random_effects gs' pr gamma = lme_covariance_random_effects gs pr gamma /\
  lme_flip_probabilities cdf gs' pr beta gamma = lme_flip_probabilities cdf gs pr beta gamma /\
  lme_ddf gs' gamma = lme_ddf gs gamma /\
  lme_jones_bic gs' pr tol beta gamma = lme_jones_bic gs pr tol beta gamma /\
  lme_muller_ic gs' pr tol beta gamma = lme_muller_ic gs pr tol beta gamma /\
  forall marginalized, lme_vaida_aic gs' pr tol marginalized beta gamma = lme_vaida_aic gs pr tol marginalized beta gamma.
Proof. exact lme_zero_variance_ignored_lemma. Qed.
Print Assumptions lme_zero_variance_ignored.

(** the gradient in the variances does depend on them: 1/2 - 1/2 * 2^2 in the example above, 0 without the data *)
Example ex_lme_zero_variance_ignored :
  let gs := [:: one_obs 1 3 1 1] in
  entry (lme_gradient_gamma gs LNone 1%:M 0) ord0 = (- (3 / 2))%coqR /\
  entry (lme_gradient_gamma (List.map (drop_random 0) gs) LNone 1%:M 0) ord0 = 0%coqR.
Proof. exact ex_lme_zero_variance_ignored_lemma. Qed.

(** C125.  So are those of the oracle of relaxed (SR3) models. *)
Theorem sr3_zero_variance_ignored : forall (p q : nat) (gs : seq (group p q)) (pr : lme_prior p q) lb lg tol beta gamma tbeta tgamma,
  let gs' := List.map (drop_random gamma) gs in
  sr3_loss lb lg gs' pr beta gamma tbeta tgamma = sr3_loss lb lg gs pr beta gamma tbeta tgamma /\
  sr3_gradient_beta lb gs' pr beta gamma tbeta = sr3_gradient_beta lb gs pr beta gamma tbeta /\
  sr3_hessian_beta lb gs' pr gamma = sr3_hessian_beta lb gs pr gamma /\
  sr3_optimal_beta lb gs' gamma tbeta = sr3_optimal_beta lb gs gamma tbeta /\
  sr3_jones_bic gs' pr tol beta gamma = sr3_jones_bic gs pr tol beta gamma /\
  sr3_muller_ic gs' pr tol beta gamma = sr3_muller_ic gs pr tol beta gamma /\
  forall marginalized, sr3_vaida_aic gs' pr tol marginalized beta gamma = sr3_vaida_aic gs pr tol marginalized beta gamma.
Proof. exact sr3_zero_variance_ignored_lemma. Qed.
Print Assumptions sr3_zero_variance_ignored.

(** the data that are dropped in the example above are not zero *)
Example ex_sr3_zero_variance_ignored :
  g_z (drop_random 0 (one_obs 1 3 1 1)) ord0 ord0 = 0%coqR /\ g_z (one_obs 1 3 1 1) ord0 ord0 = 1%coqR.
Proof. exact ex_sr3_zero_variance_ignored_lemma. Qed.

(** C125.  When all variances are zero optimal_beta of the relaxed oracle returns the only coefficients with the smallest
    weighted sum of squares plus lb/2 times the squared distance to tbeta. *)
Theorem sr3_zero_variances_estimate : forall (p q : nat) (gs : seq (group p q)) lb tbeta,
  positive_variances gs -> (0 < lb)%coqR ->
  let F beta := (weighted_squares gs beta + lb / 2 * sumsq (beta - tbeta)%R)%coqR in
  exists b, sr3_optimal_beta lb gs 0 tbeta = Ok b /\ forall beta, beta <> b -> (F b < F beta)%coqR.
Proof. exact sr3_zero_variances_estimate_lemma. Qed.
Print Assumptions sr3_zero_variances_estimate.

(** with lb = 1 and tbeta = 0 the estimate in the example above is 3/2, half the one of least squares *)
Example ex_sr3_zero_variances_estimate :
  exists b, sr3_optimal_beta 1 [:: one_obs 1 3 1 1] 0 0 = Ok b /\ b ord0 ord0 = (3 / 2)%coqR.
Proof. exact ex_sr3_zero_variances_estimate_lemma. Qed.
