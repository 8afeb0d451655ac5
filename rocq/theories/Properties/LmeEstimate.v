(** Properties C42-C44, C51-C53, C66, C69: estimates, covariances and information criteria of the
    mixed-model oracle (src/pysr3/lme/oracles.py). *)
From Verif.Base Require Import Py Vec RMx.
From mathcomp Require Import ssreflect ssrfun ssrbool eqtype ssrnat choice seq fintype
  finfun bigop finset ssralg matrix mxalgebra.
From Verif.Model Require Import LmeOracle.
From Verif.Spec Require Import MxSpec.
From Verif.Proofs Require Import LmeEstimateMain.

Set Implicit Arguments.
Unset Strict Implicit.
Unset Printing Implicit Defensive.
Delimit Scope R_scope with coqR.
Local Open Scope ring_scope.

(** C42 (partial).  For a prior that does not weigh the fixed effects, optimal_beta is the unique minimiser
    of the loss in beta whenever the normal matrix is invertible, and raises LinAlgError otherwise. *)
Theorem optimal_beta_minimises_partial : forall (p q : nat) (gs : seq (group p q)) (pr : lme_prior p q) gamma,
  admissible gs gamma -> no_beta_prior pr ->
  (normal_matrix gs gamma \in unitmx ->
   exists b v, lme_optimal_beta gs gamma = Ok b /\ lme_loss gs pr b gamma = Ok v /\
     forall beta, beta <> b -> exists w, lme_loss gs pr beta gamma = Ok w /\ (v < w)%coqR) /\
  (normal_matrix gs gamma \notin unitmx -> lme_optimal_beta gs gamma = Err LinAlgError).
Proof. exact optimal_beta_minimises_partial_lemma. Qed.
Print Assumptions optimal_beta_minimises_partial.

(** C42 (partial).  The same for the SR3 oracle and the relaxed loss: with lb > 0 the minimiser always exists. *)
Theorem sr3_optimal_beta_minimises_partial : forall (p q : nat) (gs : seq (group p q)) (pr : lme_prior p q) lb lg gamma tbeta tgamma,
  admissible gs gamma -> no_beta_prior pr -> (0 < lb)%coqR ->
  exists b v, sr3_optimal_beta lb gs gamma tbeta = Ok b /\ sr3_loss lb lg gs pr b gamma tbeta tgamma = Ok v /\
    forall beta, beta <> b -> exists w, sr3_loss lb lg gs pr beta gamma tbeta tgamma = Ok w /\ (v < w)%coqR.
Proof. exact sr3_optimal_beta_minimises_partial_lemma. Qed.
Print Assumptions sr3_optimal_beta_minimises_partial.

(** C42 (refuted).  optimal_beta ignores a Gaussian prior on beta: with prior N(0, 1), one observation
    y = 1 and x = 1 it returns 1, where the loss is 1/2, although the loss at 1/2 is 1/4. *)
Theorem optimal_beta_prior_refuted :
  exists (gs : seq (group 1 1)) pr gamma b beta v w,
    admissible gs gamma /\ normal_matrix gs gamma \in unitmx /\
    lme_optimal_beta gs gamma = Ok b /\
    lme_loss gs pr b gamma = Ok v /\ lme_loss gs pr beta gamma = Ok w /\ (w < v)%coqR.
Proof. exact optimal_beta_prior_refuted_lemma. Qed.
Print Assumptions optimal_beta_prior_refuted.

(** one observation x = 1, y = 3: the optimal beta is 3 *)
Example ex_optimal_beta_minimises : lme_optimal_beta [:: one_obs 1 3 1 1] 1%:M = Ok 3%coqR%:M.
Proof. exact ex_optimal_beta_minimises_lemma. Qed.

(** C43.  For variances that are 0 or above the threshold, optimal_random_effects returns Gamma Z' Omega^-1 r
    for every group; effects with zero variance are zero, and the result is the unique minimiser of
    1/2 (r - Zu)' Lambda^-1 (r - Zu) + 1/2 sum u_j^2/gamma_j. *)
Theorem random_effects_are_blup : forall (p q : nat) (gs : seq (group p q)) beta gamma,
  blup_variances gamma -> positive_variances gs ->
  lme_random_effects gs beta gamma = Ok (List.map (blup beta gamma) gs) /\
  forall g, List.In g gs -> supported gamma (blup beta gamma g) /\
    forall w, supported gamma w -> w <> blup beta gamma g ->
      (penalised beta gamma g (blup beta gamma g) < penalised beta gamma g w)%coqR.
Proof. exact random_effects_are_blup_lemma. Qed.
Print Assumptions random_effects_are_blup.

(** residual 2, z = 1, variances 1 and 1: the effect is 2 * 1/2 = 1 *)
Example ex_random_effects_are_blup :
  lme_random_effects [:: one_obs 1 3 1 1] 1%:M 1%:M = Ok [:: 1%:M].
Proof. exact ex_random_effects_are_blup_lemma. Qed.

(** C44 (partial).  covariance_beta is the inverse of the Hessian in beta; it is symmetric positive definite. *)
Theorem covariance_beta_partial : forall (p q : nat) (gs : seq (group p q)) (pr : lme_prior p q) gamma,
  admissible gs gamma -> convex_prior pr ->
  exists h, lme_hessian_beta gs pr gamma = Ok h /\
  (h \in unitmx -> exists c, lme_covariance_beta gs pr gamma = Ok c /\ pd c /\ c *m h = 1%:M) /\
  (h \notin unitmx -> lme_covariance_beta gs pr gamma = Err LinAlgError).
Proof. exact covariance_beta_partial_lemma. Qed.
Print Assumptions covariance_beta_partial.

(** one observation with Omega = 4: variance 4 *)
Example ex_covariance_beta_partial :
  lme_covariance_beta [:: one_obs 1 0 1 3] LNone 1%:M = Ok (/ (/ 4))%coqR%:M.
Proof. exact ex_covariance_beta_partial_lemma. Qed.

(** C44 (refuted).  covariance_random_effects uses the inverse Cholesky factor where the inverse of Omega
    belongs: for one observation with z = x = 1 and Omega = 4 the reported variance is -1/2. *)
Theorem covariance_random_effects_refuted :
  exists (gs : seq (group 1 1)) gamma c,
    positive_variances gs /\ nonnegative gamma /\
    lme_covariance_random_effects gs LNone gamma = Ok [:: c] /\ c ord0 ord0 = (- / 2)%coqR.
Proof. exact covariance_random_effects_refuted_lemma. Qed.
Print Assumptions covariance_random_effects_refuted.

(** C44 (refuted).  covariance_y adds the vector of variances to every row, so that its result is not
    symmetric for two observations with variances 1 and 2. *)
Theorem covariance_y_refuted :
  exists (gs : seq (group 1 1)) gamma (c : 'M[R]_2),
    positive_variances gs /\ nonnegative gamma /\
    lme_covariance_y gs LNone gamma = Ok [:: existT (fun n => 'M[R]_n) 2%N c] /\ c^T <> c.
Proof. exact covariance_y_refuted_lemma. Qed.
Print Assumptions covariance_y_refuted.

(** C51 (partial).  With a positive tolerance that separates the non-zero coefficients from 0, the three marginal
    criteria are the published formulas in the likelihood, the numbers of non-zero coefficients, the
    numbers of observations and groups and the effective number of observations. *)
Theorem criteria_count_partial : forall (p q : nat) (gs : seq (group p q)) (pr : lme_prior p q) tol (beta : 'cV[R]_p) (gamma : 'cV[R]_q),
  (0 < tol)%coqR ->
  (forall j, beta j ord0 = 0%coqR \/ (tol <= Rabs (beta j ord0))%coqR) ->
  (forall j, gamma j ord0 = 0%coqR \/ (tol <= Rabs (gamma j ord0))%coqR) ->
  admissible gs gamma ->
  let L := (\sum_(g <- gs) nll beta gamma g + prior_loss pr beta gamma)%coqR in
  let N := INR (total_obs gs) in
  let P := INR (nonzeros beta) in
  let Q := INR (nonzeros gamma) in
  lme_jones_bic gs pr tol beta gamma = Ok (2 * L + (P + Q) * ln (effective_obs gs gamma))%coqR /\
  lme_muller_ic gs pr tol beta gamma =
    Ok (2 / N * L + 1 / N * ln (INR (size gs)) * P + 2 / N * Q)%coqR /\
  lme_vaida_aic gs pr tol true beta gamma =
    Ok (2 * L + 2 * (if rltb 0 (N - P - Q - 1) then N / (N - P - Q - 1) else 1) * (P + Q))%coqR.
Proof. exact criteria_count_partial_lemma. Qed.
Print Assumptions criteria_count_partial.

(** C51 (partial).  The same for Vaida's conditional criterion; rho is the number of degrees of freedom. *)
Theorem conditional_criterion_partial : forall (p q : nat) (gs : seq (group p q)) (pr : lme_prior p q) tol (beta : 'cV[R]_p) (gamma : 'cV[R]_q) rho,
  (0 < tol)%coqR ->
  (forall j, beta j ord0 = 0%coqR \/ (tol <= Rabs (beta j ord0))%coqR) ->
  (forall j, gamma j ord0 = 0%coqR \/ (tol <= Rabs (gamma j ord0))%coqR) ->
  blup_variances gamma -> positive_variances gs ->
  lme_ddf gs gamma = Ok rho ->
  let L := (\sum_(g <- gs) conditional_nll beta (blup beta gamma g) g + prior_loss pr beta gamma)%coqR in
  let N := INR (total_obs gs) in
  let P := INR (nonzeros beta) in
  let Q := INR (nonzeros gamma) in
  (N - P - 2 <> 0)%coqR -> (N - P <> 0)%coqR ->
  lme_vaida_aic gs pr tol false beta gamma =
    Ok (2 * L + 2 * N / (N - P - 2) * (rho - (rho - P) / (N - P)) * (P + Q))%coqR.
Proof. exact conditional_criterion_partial_lemma. Qed.
Print Assumptions conditional_criterion_partial.

(** non-vacuous: beta = 1, gamma = 0 and tolerance 1/2 *)
Example ex_criteria_count_partial :
  nonzeros (1%:M : 'cV[R]_1) = 1%N /\ count_ge (/ 2) (1%:M : 'cV[R]_1) = 1%N /\
  nonzeros (0 : 'cV[R]_1) = 0%N /\ count_ge (/ 2) (0 : 'cV[R]_1) = 0%N.
Proof. exact ex_criteria_count_partial_lemma. Qed.

(** C51 (refuted).  With the default tolerance 0 every coefficient is counted, zero or not: for beta = gamma = 0
    and two groups of one observation y = 0, Jones' criterion is 2 ln 2 instead of 0. *)
Theorem criteria_count_refuted :
  (forall n (x : 'cV[R]_n), count_ge 0 x = n) /\
  exists (gs : seq (group 1 1)) beta gamma,
    nonzeros beta = 0%N /\ nonzeros gamma = 0%N /\
    lme_loss gs LNone beta gamma = Ok 0%coqR /\
    lme_jones_bic gs LNone 0 beta gamma = Ok (2 * ln 2)%coqR.
Proof. exact criteria_count_refuted_lemma. Qed.
Print Assumptions criteria_count_refuted.

(** C52.  The information criteria of the SR3 oracle are those of the plain oracle. *)
Theorem sr3_criteria : forall (p q : nat) (gs : seq (group p q)) (pr : lme_prior p q) tol marginalized beta gamma,
  sr3_jones_bic gs pr tol beta gamma = lme_jones_bic gs pr tol beta gamma /\
  sr3_muller_ic gs pr tol beta gamma = lme_muller_ic gs pr tol beta gamma /\
  sr3_vaida_aic gs pr tol marginalized beta gamma = lme_vaida_aic gs pr tol marginalized beta gamma.
Proof. exact sr3_criteria_lemma. Qed.
Print Assumptions sr3_criteria.

(** C53.  The hat matrix maps the targets to X beta + Z u at the optimal beta and the random effects there: for
    every group, its rows of the matrix times the stacked targets are the fitted values of the group. *)
Theorem hat_matrix_fits : forall (p q : nat) (gs : seq (group p q)) gamma,
  blup_variances gamma -> positive_variances gs -> normal_matrix gs gamma \in unitmx ->
  exists ki rows b,
    hat_rows gs gamma = Ok (ki, rows) /\ lme_optimal_beta gs gamma = Ok b /\
    List.map (fun r => f_g (hr_f r)) rows = gs /\
    forall r, List.In r rows -> exists u,
      group_effects b gamma (f_g (hr_f r)) = Ok u /\
      hat_times ki rows (fun f => g_y (f_g f)) r = g_x (f_g (hr_f r)) *m b + g_z (f_g (hr_f r)) *m u.
Proof. exact hat_matrix_fits_lemma. Qed.
Print Assumptions hat_matrix_fits.

(** non-vacuous: the hypotheses hold for one observation *)
Example ex_hat_matrix_fits :
  blup_variances (1%:M : 'cV[R]_1) /\ positive_variances [:: one_obs 1 3 1 1] /\
  normal_matrix [:: one_obs 1 3 1 1] (1%:M : 'cV[R]_1) \in unitmx.
Proof. exact ex_hat_matrix_fits_lemma. Qed.

(** C53.  Its trace, the degrees of freedom of Vaida's AIC, is the number of fixed effects when all variances are 0. *)
Theorem degrees_of_freedom : forall (p q : nat) (gs : seq (group p q)),
  positive_variances gs -> normal_matrix gs 0 \in unitmx -> lme_ddf gs 0 = Ok (INR p).
Proof. exact degrees_of_freedom_lemma. Qed.
Print Assumptions degrees_of_freedom.

(** non-vacuous: one observation without variance of the random effect *)
Example ex_degrees_of_freedom : lme_ddf [:: one_obs 1 3 1 1] 0 = Ok 1%coqR.
Proof. exact ex_degrees_of_freedom_lemma. Qed.

(** C66.  For any distribution function cdf of a symmetric distribution, the probability reported for
    coordinate j is cdf (- |beta_j| / sd_j) with sd_j^2 the j-th diagonal entry of the inverse Hessian; it lies
    between 0 and 1/2. *)
Theorem flip_probabilities : forall (p q : nat) (gs : seq (group p q)) (pr : lme_prior p q) (cdf : R -> R) (beta : 'cV[R]_p) gamma (h : 'M[R]_p),
  (forall x y, (x <= y)%coqR -> (cdf x <= cdf y)%coqR) -> (forall x, (0 <= cdf x)%coqR) ->
  (forall x, cdf (- x)%coqR = (1 - cdf x)%coqR) ->
  admissible gs gamma -> convex_prior pr ->
  lme_hessian_beta gs pr gamma = Ok h -> h \in unitmx ->
  lme_flip_probabilities cdf gs pr beta gamma =
    Ok (List.map (fun j => cdf (- (Rabs (beta j ord0) / sqrt (invmx h j j)))%coqR) (enum 'I_p)) /\
  forall j, (0 < invmx h j j)%coqR /\
    (0 <= cdf (- (Rabs (beta j ord0) / sqrt (invmx h j j))) <= / 2)%coqR.
Proof. exact flip_probabilities_lemma. Qed.
Print Assumptions flip_probabilities.

(** non-vacuous: the Cauchy distribution satisfies the hypotheses on cdf *)
Example ex_flip_probabilities : exists cdf : R -> R,
  (forall x y, (x <= y)%coqR -> (cdf x <= cdf y)%coqR) /\ (forall x, (0 <= cdf x)%coqR) /\
  (forall x, cdf (- x)%coqR = (1 - cdf x)%coqR) /\ cdf 1%coqR = (3 / 4)%coqR.
Proof. exact ex_flip_probabilities_lemma. Qed.

(** C69.  The effective number of observations used by Jones' criterion is the sum over groups of 1' C^-1 1 with C
    the matrix of correlations; it is at least the number of groups, and equals the number of observations
    when all variances of random effects are 0. *)
Theorem effective_observations : forall (p q : nat) (gs : seq (group p q)) gamma,
  admissible gs gamma ->
  (exists fs, recalculate gs gamma = Ok fs /\ n_eff fs = Ok (effective_obs gs gamma)) /\
  ((forall g, List.In g gs -> (0 < g_n g)%N) -> (INR (size gs) <= effective_obs gs gamma)%coqR) /\
  (gamma = 0 -> positive_variances gs -> effective_obs gs gamma = INR (total_obs gs)).
Proof. exact effective_observations_lemma. Qed.
Print Assumptions effective_observations.

(** non-vacuous: two groups of one observation *)
Example ex_effective_observations :
  admissible [:: one_obs 1 0 1 1; one_obs 1 0 1 1] (1%:M : 'cV[R]_1) /\
  effective_obs [:: one_obs 1 0 1 1; one_obs 1 0 1 1] (0 : 'cV[R]_1) = 2%coqR.
Proof. exact ex_effective_observations_lemma. Qed.
