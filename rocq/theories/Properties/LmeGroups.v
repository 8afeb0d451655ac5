(** Property C99: the order and the names of the groups (src/pysr3/lme/problems.py, oracles.py, models.py). *)
From Coq Require Import Permutation.
From Verif.Base Require Import Py Vec Mat RMx.
From Verif.Model Require Import LmeProblem Regularizers Solvers LmeInner LmeFit.
From Verif.Spec Require Import FitSpec GroupSpec.
From mathcomp Require Import ssreflect ssrfun ssrbool eqtype ssrnat choice seq fintype
  finfun bigop finset ssralg matrix mxalgebra.
From Verif.Model Require Import LmeOracle LmeBridge.
From Verif.Spec Require Import MxSpec.
From Verif.Proofs Require Import LmeGroupsMain.

Set Implicit Arguments.
Unset Strict Implicit.
Unset Printing Implicit Defensive.
Delimit Scope R_scope with coqR.
Local Open Scope ring_scope.

(** C99.  The loss, its first and second derivatives, the optimal coefficients and the information criteria do not
    depend on the order of the groups; each group has the random effects it has in any other order. *)
Theorem evaluations_ignore_group_order : forall (p q : nat) (gs gs' : seq (group p q)),
  Permutation gs gs' ->
  (forall pr beta gamma, lme_loss gs' pr beta gamma = lme_loss gs pr beta gamma) /\
  (forall pr beta gamma, lme_gradient_beta gs' pr beta gamma = lme_gradient_beta gs pr beta gamma) /\
  (forall pr beta gamma, lme_gradient_gamma gs' pr beta gamma = lme_gradient_gamma gs pr beta gamma) /\
  (forall pr gamma, lme_hessian_beta gs' pr gamma = lme_hessian_beta gs pr gamma) /\
  (forall pr positive expected beta gamma,
   lme_hessian_gamma gs' pr positive expected beta gamma = lme_hessian_gamma gs pr positive expected beta gamma) /\
  (forall beta gamma, lme_hessian_beta_gamma gs' beta gamma = lme_hessian_beta_gamma gs beta gamma) /\
  (forall gamma, lme_optimal_beta gs' gamma = lme_optimal_beta gs gamma) /\
  (forall pr tol beta gamma, lme_jones_bic gs' pr tol beta gamma = lme_jones_bic gs pr tol beta gamma) /\
  (forall pr tol beta gamma, lme_muller_ic gs' pr tol beta gamma = lme_muller_ic gs pr tol beta gamma) /\
  (forall pr tol marginalized beta gamma,
   lme_vaida_aic gs' pr tol marginalized beta gamma = lme_vaida_aic gs pr tol marginalized beta gamma) /\
  (forall beta gamma,
   match lme_random_effects gs beta gamma, lme_random_effects gs' beta gamma with
   | Ok us, Ok us' => length us = length gs /\ length us' = length gs' /\
                      Permutation (List.combine gs us) (List.combine gs' us')
   | Err e, Err e' => e = e'
   | _, _ => False
   end).
Proof. exact evaluations_ignore_group_order_lemma. Qed.
Print Assumptions evaluations_ignore_group_order.

(** C99.  Give the groups of a table other names (numbers): fitting it gives the same coefficients, the same
    variances and the same log, every group has, under its new name, the random effects and coefficients it had
    under the old one, and the same exceptions are raised. *)
Theorem fit_ignores_group_names :
  forall argsort cdf f g m coef x x' y ls beta0 gamma0 warm ff fr fe re,
  List.nth_error ls g = Some GROUP -> renamed f g x x' ->
  renamed_fit f (lme_fit argsort cdf m coef x y (Some ls) beta0 gamma0 warm ff fr fe re)
    (lme_fit argsort cdf m coef x' y (Some ls) beta0 gamma0 warm ff fr fe re).
Proof. exact fit_ignores_group_names_lemma. Qed.
Print Assumptions fit_ignores_group_names.

(** C99.  The information criterion of a model does not depend on the names of the groups. *)
Theorem criterion_ignores_group_names :
  forall cdf f g m coef x x' y ls ic,
  List.nth_error ls g = Some GROUP -> renamed f g x x' ->
  get_information_criterion cdf m coef x' y (Some ls) ic = get_information_criterion cdf m coef x y (Some ls) ic.
Proof. exact criterion_ignores_group_names_lemma. Qed.
Print Assumptions criterion_ignores_group_names.

(** a table with the groups 1 and 2, and one with -1 and -2, where the groups come in the other order *)
Example ex_fit_ignores_group_names :
  let x := {| t_cols := 4; t_rows := [:: [:: 1; 1; 1; 1]; [:: 2; 2; 1; 2]]%coqR |} in
  let x' := {| t_cols := 4; t_rows := [:: [:: -1; 1; 1; 1]; [:: -2; 2; 1; 2]]%coqR |} in
  List.nth_error flat_labels 0 = Some GROUP /\ renamed Ropp 0 x x' /\
  exists r r', lme_fit (fun _ => [::]) (fun x => x) (flat_model PenNone None 0 0%coqR) None x [:: 1; 3]%coqR
    (Some flat_labels) None None false false false None None = Ok r /\
  lme_fit (fun _ => [::]) (fun x => x) (flat_model PenNone None 0 0%coqR) None x' [:: 1; 3]%coqR
    (Some flat_labels) None None false false false None None = Ok r'.
Proof. exact ex_fit_ignores_group_names_lemma. Qed.
