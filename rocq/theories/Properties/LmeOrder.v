(** Properties C81, C82: the order of the rows of a table (src/pysr3/lme/problems.py, oracles.py, models.py). *)
From Verif.Base Require Import Py Vec Mat RMx.
From Verif.Model Require Import LmeProblem Regularizers Solvers LmeInner LmeFit.
From Verif.Spec Require Import FitSpec.
From mathcomp Require Import ssreflect ssrfun ssrbool eqtype ssrnat choice seq fintype
  finfun bigop finset fingroup perm ssralg matrix mxalgebra.
From Verif.Model Require Import LmeOracle LmeBridge.
From Verif.Spec Require Import MxSpec OrderSpec.
From Verif.Proofs Require Import LmeOrderMain.

Set Implicit Arguments.
Unset Strict Implicit.
Unset Printing Implicit Defensive.
Delimit Scope R_scope with coqR.
Local Open Scope ring_scope.

(** C81.  Two lists of groups that hold the same observations, each group in an order of its own: the loss, its
    first and second derivatives, the optimal coefficients, the random effects and the information criteria are
    equal at all parameters, exceptions included. *)
Theorem evaluations_ignore_row_order : forall (p q : nat) (gs gs' : seq (group p q)),
  List.Forall2 (@same_rows p q) gs gs' ->
  (forall pr beta gamma, lme_loss gs' pr beta gamma = lme_loss gs pr beta gamma) /\
  (forall pr beta gamma, lme_gradient_beta gs' pr beta gamma = lme_gradient_beta gs pr beta gamma) /\
  (forall pr beta gamma, lme_gradient_gamma gs' pr beta gamma = lme_gradient_gamma gs pr beta gamma) /\
  (forall pr gamma, lme_hessian_beta gs' pr gamma = lme_hessian_beta gs pr gamma) /\
  (forall pr positive expected beta gamma,
   lme_hessian_gamma gs' pr positive expected beta gamma = lme_hessian_gamma gs pr positive expected beta gamma) /\
  (forall beta gamma, lme_hessian_beta_gamma gs' beta gamma = lme_hessian_beta_gamma gs beta gamma) /\
  (forall gamma, lme_optimal_beta gs' gamma = lme_optimal_beta gs gamma) /\
  (forall beta gamma, lme_random_effects gs' beta gamma = lme_random_effects gs beta gamma) /\
  (forall pr tol beta gamma, lme_jones_bic gs' pr tol beta gamma = lme_jones_bic gs pr tol beta gamma) /\
  (forall pr tol beta gamma, lme_muller_ic gs' pr tol beta gamma = lme_muller_ic gs pr tol beta gamma) /\
  (forall pr tol marginalized beta gamma,
   lme_vaida_aic gs' pr tol marginalized beta gamma = lme_vaida_aic gs pr tol marginalized beta gamma).
Proof. exact evaluations_ignore_row_order_lemma. Qed.
Print Assumptions evaluations_ignore_row_order.

(** C81.  Fitting a table gives the same result - coefficients, variances, random effects, per-group coefficients,
    logger, or exception - when its rows, with their targets, are listed in any other order. *)
Theorem fit_ignores_row_order :
  forall argsort cdf m coef x y x' y' labels beta0 gamma0 warm ff fr fe re,
  shuffled x y x' y' ->
  lme_fit argsort cdf m coef x' y' labels beta0 gamma0 warm ff fr fe re =
  lme_fit argsort cdf m coef x y labels beta0 gamma0 warm ff fr fe re.
Proof. exact fit_ignores_row_order_lemma. Qed.
Print Assumptions fit_ignores_row_order.

(** C81.  So does the information criterion of a model. *)
Theorem criterion_ignores_row_order :
  forall cdf m coef x y x' y' labels ic,
  shuffled x y x' y' ->
  get_information_criterion cdf m coef x' y' labels ic = get_information_criterion cdf m coef x y labels ic.
Proof. exact criterion_ignores_row_order_lemma. Qed.
Print Assumptions criterion_ignores_row_order.

(** a table with two rows in two orders, fitted successfully *)
Example ex_fit_ignores_row_order :
  let rows := [:: [:: 0; 1; 1; 1]; [:: 0; 2; 1; 2]]%coqR in
  let x := {| t_cols := 4; t_rows := rows |} in
  let x' := {| t_cols := 4; t_rows := List.rev rows |} in
  shuffled x [:: 1; 3]%coqR x' [:: 3; 1]%coqR /\ x <> x' /\
  exists r, lme_fit (fun _ => [::]) (fun x => x) (flat_model PenNone None 0 0%coqR) None x [:: 1; 3]%coqR
    (Some flat_labels) None None false false false None None = Ok r.
Proof. exact ex_fit_ignores_row_order_lemma. Qed.

(** C82 (partial).  The covariance of the fixed effects does not depend on the order of the rows. *)
Theorem covariance_beta_ignores_row_order_partial : forall (p q : nat) (gs gs' : seq (group p q)),
  List.Forall2 (@same_rows p q) gs gs' ->
  forall pr gamma, lme_covariance_beta gs' pr gamma = lme_covariance_beta gs pr gamma.
Proof. exact covariance_beta_ignores_row_order_partial_lemma. Qed.
Print Assumptions covariance_beta_ignores_row_order_partial.

(** C82 (refuted).  covariance_random_effects depends on the order: two observations of one group with targets 0,
    fixed features 0 and 1, random features 5/3 and 6/5, variances 11/9 and 49/400, and the same observations in the
    other order, have different covariances of the random effect, because the inverse Cholesky factor stands where
    the inverse of Omega belongs. *)
Theorem covariance_random_effects_row_order_refuted :
  exists (g g' : group 1 1) gamma (c c' : 'M[R]_1),
    same_rows g g' /\ positive_variances [:: g] /\ nonnegative gamma /\
    lme_covariance_random_effects [:: g] LNone gamma = Ok [:: c] /\
    lme_covariance_random_effects [:: g'] LNone gamma = Ok [:: c'] /\ c <> c'.
Proof. exact covariance_random_effects_row_order_refuted_lemma. Qed.
Print Assumptions covariance_random_effects_row_order_refuted.
