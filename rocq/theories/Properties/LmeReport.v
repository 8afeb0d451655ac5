(** Properties C72, C74-C76: what is reported about a fitted mixed model (src/pysr3/lme/models.py). *)
From Verif.Base Require Import Py Vec Mat RMx.
From Verif.Model Require Import LmeProblem Regularizers Solvers LmeInner LmeFit.
From Verif.Spec Require Import LmeSpec FitSpec.
From mathcomp Require Import ssreflect ssrfun ssrbool eqtype ssrnat choice seq fintype
  finfun bigop finset ssralg matrix mxalgebra.
From Verif.Model Require Import LmeOracle LmeBridge.
From Verif.Spec Require Import MxSpec.
From Verif.Proofs Require Import LmeReportMain.

Set Implicit Arguments.
Unset Strict Implicit.
Unset Printing Implicit Defensive.
Delimit Scope R_scope with coqR.
Local Open Scope ring_scope.

(** C72.  A successful fit stores, for every group, the best prediction of its random effects at the stored
    parameters - provided that the stored variances are 0 or above the threshold 1e-10 and the observation variances
    are positive - together with the group labels of the problem and the per-group coefficients made of them. *)
Theorem fitted_effects_are_blup :
  forall argsort cdf m coef pr beta0 gamma0 warm fe re co lg,
  lme_fit_problem argsort cdf m coef pr beta0 gamma0 warm fe re = Ok (co, lg) ->
  let p := num_fixed pr in
  let q := num_random pr in
  let beta := col_of p (co_beta co) in
  let gamma := col_of q (co_gamma co) in
  length (co_beta co) = p /\ length (co_gamma co) = q /\ co_labels co = pr_group_labels pr /\
  per_group_coefficients (co_beta co) (co_effects co) (pr_intercept pr :: List.map Some (pr_labels pr)) = Ok (co_per_group co) /\
  exists gs, groups_of p q pr = Ok gs /\
    (blup_variances gamma -> positive_variances gs ->
     co_effects co = List.map (fun g => vec_of (blup beta gamma g)) gs).
Proof. exact fitted_effects_are_blup_lemma. Qed.
Print Assumptions fitted_effects_are_blup.

(** C74 (partial).  For a table with positive variances and fitted parameters of matching sizes with non-negative
    variances, the value is the formula of the criterion at the fitted parameters with all p coefficients and
    all q variances counted, for plain and SR3 models alike.  Before fit it is NotFittedError, and
    an unknown name is a ValueError. *)
Theorem criterion_formula_partial :
  (forall cdf m x y labels ic, get_information_criterion cdf m None x y labels ic = Err NotFittedError) /\
  forall cdf m co x y labels pr,
  from_x_y x (Some y) None labels false false None None = Ok pr ->
  exists gs, groups_of (num_fixed pr) (num_random pr) pr = Ok gs /\
  (length (co_beta co) = num_fixed pr -> length (co_gamma co) = num_random pr ->
   let beta := col_of (num_fixed pr) (co_beta co) in
   let gamma := col_of (num_random pr) (co_gamma co) in
   let crit := get_information_criterion cdf m (Some co) x y labels in
   (forall ic, ic <> "muller_ic"%string -> ic <> "vaida_aic"%string -> ic <> "jones_bic"%string -> crit ic = Err ValueError) /\
   (positive_variances gs -> nonnegative gamma ->
    let L := \sum_(g <- gs) nll beta gamma g in
    let N := INR (total_obs gs) in
    let P := INR (num_fixed pr) in
    let Q := INR (num_random pr) in
    crit "muller_ic"%string = Ok (2 / N * L + 1 / N * ln (INR (size gs)) * P + 2 / N * Q)%coqR /\
    crit "jones_bic"%string = Ok (2 * L + (P + Q) * ln (effective_obs gs gamma))%coqR)).
Proof. exact criterion_formula_partial_lemma. Qed.
Print Assumptions criterion_formula_partial.

(** C74 (refuted).  A model in which every coefficient and every variance is zero is charged for all of them: for the
    sample table with two coefficients and one variance, Jones' criterion is 2 L + 3 ln n instead of 2 L. *)
Theorem criterion_counts_zeros_refuted :
  forall cdf m co, co_beta co = zeros 2 -> co_gamma co = zeros 1 ->
  exists pr gs,
    from_x_y sample_table (Some [:: 10; 20]%coqR) None (Some sample_labels) false false None None = Ok pr /\
    groups_of (num_fixed pr) (num_random pr) pr = Ok gs /\
    get_information_criterion cdf m (Some co) sample_table [:: 10; 20]%coqR (Some sample_labels) "jones_bic" =
    Ok (2 * (\sum_(g <- gs) nll 0 0 g) + 3 * ln (INR (total_obs gs)))%coqR.
Proof. exact criterion_counts_zeros_refuted_lemma. Qed.
Print Assumptions criterion_counts_zeros_refuted.

(** C74 (refuted).  After a fit with an intercept, get_information_criterion on the training table always raises. *)
Theorem criterion_with_intercept_refuted :
  forall argsort cdf m coef x y labels beta0 gamma0 warm ff fr fe re co lg ic v,
  lme_fit argsort cdf m coef x y labels beta0 gamma0 warm ff fr fe re = Ok (co, lg) ->
  ff || fr -> get_information_criterion cdf m (Some co) x y labels ic <> Ok v.
Proof. exact criterion_with_intercept_refuted_lemma. Qed.
Print Assumptions criterion_with_intercept_refuted.

(** a fit to which the theorem on the stored effects applies *)
Example ex_fitted_effects : exists co lg gs,
  lme_fit_problem (fun _ => [::]) (fun x => x) (flat_model PenNone None 0 0%coqR) None
    (flat_problem 1 1) None None false None None = Ok (co, lg) /\
  groups_of 1 1 (flat_problem 1 1) = Ok gs /\ positive_variances gs /\ blup_variances (col_of 1 (co_gamma co)).
Proof. exact ex_fitted_effects_lemma. Qed.

(** C75 (refuted).  A problem generated without random effects cannot be fitted by any model: generate leaves
    zero-dimensional arrays for the random features, and the prediction of random effects fails on them. *)
Theorem generated_without_random_effects_refuted :
  forall xname sizes labels ff ov beta gamma effects features draws pr coefs,
  generate xname sizes labels ff false ov beta gamma effects features draws = Ok (pr, coefs) ->
  sizes <> [::] -> where_ is_random labels = [::] ->
  forall argsort cdf m coef beta0 gamma0 warm fe re r,
  lme_fit_problem argsort cdf m coef pr beta0 gamma0 warm fe re <> Ok r.
Proof. exact generated_without_random_effects_refuted_lemma. Qed.
Print Assumptions generated_without_random_effects_refuted.

(** non-vacuous: a problem generated without random effects *)
Example ex_generated_without_random_effects : exists pr coefs,
  generate (fun _ => "x"%string) [:: 1%N] [:: "fixed"%string] false false (VScalar 1%coqR) [:: 2%coqR] [::] [::]
    [:: [:: 3%coqR]] [:: ([:: [:: 1%coqR]], [::], [:: 0%coqR])] = Ok (pr, coefs) /\
  where_ is_random [:: "fixed"%string] = [::].
Proof. exact ex_generated_without_random_effects_lemma. Qed.

(** C75 (partial).  Problems made of tables do not have the defect: with positive observation variances the loss and
    the gradients can be evaluated at all parameters of the right sizes with non-negative variances, with and
    without random effects, and the random effects at all variances that are 0 or above 1e-10. *)
Theorem table_problems_evaluate_partial :
  forall x y given labels ff fr re rr pr,
  from_x_y x (Some y) given labels ff fr re rr = Ok pr ->
  let p := num_fixed pr in
  let q := num_random pr in
  exists gs, groups_of p q pr = Ok gs /\
  (positive_variances gs -> forall cdf ss beta gamma,
   length beta = p -> length gamma = q -> nonnegative (col_of q gamma) ->
   let c := problem_calls cdf pr None ss in
   (exists v, lc_loss c beta gamma = Ok v) /\
   (exists v, lc_gradient_beta c beta gamma = Ok v) /\
   (exists v, lc_gradient_gamma c beta gamma = Ok v) /\
   (blup_variances (col_of q gamma) -> exists us, lc_random_effects c beta gamma = Ok us)).
Proof. exact table_problems_evaluate_partial_lemma. Qed.
Print Assumptions table_problems_evaluate_partial.

(** C76 (partial).  The sign-flip probabilities reported by an SR3 model are those of the likelihood plus the
    relaxation lambda/2 |beta - w|^2: cdf (- |beta_j| / sd_j) with sd_j^2 the j-th diagonal entry of
    (H + lambda I)^-1, between 0 and 1/2.  They never exceed the probabilities of the likelihood. *)
Theorem sr3_flip_probabilities_partial :
  forall (p q : nat) (gs : seq (group p q)) (pr : lme_prior p q) (cdf : R -> R) (beta : 'cV[R]_p) gamma (h : 'M[R]_p) lam,
  (forall x y, (x <= y)%coqR -> (cdf x <= cdf y)%coqR) -> (forall x, (0 <= cdf x)%coqR) ->
  (forall x, cdf (- x)%coqR = (1 - cdf x)%coqR) ->
  admissible gs gamma -> convex_prior pr -> (0 < lam)%coqR ->
  lme_hessian_beta gs pr gamma = Ok h -> h \in unitmx ->
  let relaxed j := cdf (- (Rabs (beta j ord0) / sqrt (invmx (h + lam%:M) j j)))%coqR in
  sr3_flip_probabilities cdf lam gs pr beta gamma = Ok (List.map relaxed (enum 'I_p)) /\
  exists flips, lme_flip_probabilities cdf gs pr beta gamma = Ok (List.map flips (enum 'I_p)) /\
  forall j, (0 <= relaxed j <= flips j)%coqR /\ (flips j <= / 2)%coqR.
Proof. exact sr3_flip_probabilities_partial_lemma. Qed.
Print Assumptions sr3_flip_probabilities_partial.

(** C76 (refuted).  Under a strictly increasing distribution function they are strictly smaller than those of the likelihood
    at every coordinate with a nonzero coefficient, for every strength of the relaxation: uncertain signs are reported as certain. *)
Theorem sr3_flip_probabilities_refuted :
  forall (p q : nat) (gs : seq (group p q)) (pr : lme_prior p q) (cdf : R -> R) (beta : 'cV[R]_p) gamma (h : 'M[R]_p) lam,
  (forall x y, (x < y)%coqR -> (cdf x < cdf y)%coqR) -> (forall x, (0 <= cdf x)%coqR) ->
  (forall x, cdf (- x)%coqR = (1 - cdf x)%coqR) ->
  admissible gs gamma -> convex_prior pr -> (0 < lam)%coqR ->
  lme_hessian_beta gs pr gamma = Ok h -> h \in unitmx ->
  exists flips relaxed,
    lme_flip_probabilities cdf gs pr beta gamma = Ok (List.map flips (enum 'I_p)) /\
    sr3_flip_probabilities cdf lam gs pr beta gamma = Ok (List.map relaxed (enum 'I_p)) /\
    forall j, beta j ord0 <> 0%coqR -> (relaxed j < flips j)%coqR.
Proof. exact sr3_flip_probabilities_refuted_lemma. Qed.
Print Assumptions sr3_flip_probabilities_refuted.

(** non-vacuous: one observation with Omega = 2, coefficient 1 and relaxation 1/2 *)
Example ex_sr3_flip_probabilities :
  admissible [:: one_obs 1 3 1 1] (1%:M : 'cV[R]_1) /\ convex_prior (LNone : lme_prior 1 1) /\
  exists h, lme_hessian_beta [:: one_obs 1 3 1 1] LNone (1%:M : 'cV[R]_1) = Ok h /\ h \in unitmx /\
  exists cdf : R -> R, (forall x y, (x < y)%coqR -> (cdf x < cdf y)%coqR) /\ (forall x, (0 <= cdf x)%coqR) /\
    (forall x, cdf (- x)%coqR = (1 - cdf x)%coqR).
Proof. exact ex_sr3_flip_probabilities_lemma. Qed.
