(** Property C117: what initializer="EM" computes (src/pysr3/lme/models.py, oracles.py). *)
From Verif.Base Require Import Py Vec Mat RMx.
From Verif.Model Require Import LmeProblem Solvers LmeInner LmeFit.
From mathcomp Require Import ssreflect ssrfun ssrbool eqtype ssrnat choice seq fintype
  finfun bigop finset ssralg matrix mxalgebra.
From Verif.Model Require Import LmeOracle LmeBridge.
From Verif.Spec Require Import MxSpec EmSpec.
From Verif.Proofs Require Import LmeEmMain.

Set Implicit Arguments.
Unset Strict Implicit.
Unset Printing Implicit Defensive.
Delimit Scope R_scope with coqR.
Local Open Scope ring_scope.

(** C117 (partial).  With initializer="EM" a plain model starts from the coefficients that minimise the negative
    log-likelihood at the given variances, and from the averages over the groups of the squares of the predicted random
    effects.  Each of these variances is smaller than the one of an EM step, by the variance that the predictions leave.
    The start does raise the joint density of the observations and of the random effects, with the predictions for the
    effects, above its value at the given start with any effects. *)
Theorem em_initializer_partial : forall cdf pr gl m (gs : seq (group (num_fixed pr) (num_random pr))) b g b1 g1,
  mo_initializer m = "EM" -> mo_sr3 m = None ->
  groups_of (num_fixed pr) (num_random pr) pr = Ok gs -> positive_variances gs ->
  blup_variances (col_of (num_random pr) g) ->
  initialize m (num_random pr) (num_groups pr) (problem_calls cdf pr gl None) (b, g) = Ok (b1, g1) ->
  let beta1 := col_of (num_fixed pr) b1 in
  let gamma := col_of (num_random pr) g in
  let gamma1 := col_of (num_random pr) g1 in
  length b1 = num_fixed pr /\ length g1 = num_random pr /\
  (forall beta, (marginal gs beta1 gamma <= marginal gs beta gamma)%coqR) /\
  gamma1 = mode_variances beta1 gamma gs /\
  (positive gamma -> forall j,
     gamma1 j ord0 = (em_variances beta1 gamma gs j ord0 - left_variance gamma gs j)%coqR /\
     (0 < left_variance gamma gs j)%coqR) /\
  (positive gamma -> positive gamma1 -> forall beta us, size us = size gs ->
     (joint_total gs beta1 gamma1 (List.map (blup beta1 gamma) gs) <= joint_total gs beta gamma us)%coqR).
Proof. exact em_initializer_partial_lemma. Qed.
Print Assumptions em_initializer_partial.

(** C117.  What an EM step does, in contrast: its variances minimise the expectation of the negative log-density of the
    random effects given the observations, and they do not raise the negative log-likelihood. *)
Theorem em_step_descends : forall (p q : nat) (gs : seq (group p q)) beta gamma,
  positive_variances gs -> (0 < size gs)%N -> positive gamma ->
  positive (em_variances beta gamma gs) /\
  (forall gamma', positive gamma' ->
     (expected_nll beta gamma gs (em_variances beta gamma gs) <= expected_nll beta gamma gs gamma')%coqR) /\
  (marginal gs beta (em_variances beta gamma gs) <= marginal gs beta gamma)%coqR.
Proof. exact em_step_descends_lemma. Qed.
Print Assumptions em_step_descends.

(** C117 (refuted).  The variances of initializer="EM" are not those of an EM step, and the start can be worse than the
    one it replaces: from the default start of ones, with one observation in each of two groups, the code takes 1/4 for
    the variance where an EM step stays at 1, and the negative log-likelihood rises. *)
Theorem em_initializer_is_em_refuted :
  groups_of 1 1 em_problem = Ok [:: one_obs 1 3 1 3; one_obs 1 (-1) 1 3] /\ positive_variances [:: one_obs 1 3 1 3; one_obs 1 (-1) 1 3] /\
  (forall cdf, initialize (em_model "EM") 1 (num_groups em_problem) (problem_calls cdf em_problem None None)
     ([:: 1%coqR], [:: 1%coqR]) = Ok ([:: 1%coqR], [:: (1 / 4)%coqR])) /\
  col_of 1 [:: (1 / 4)%coqR] <> em_variances (col_of 1 [:: 1%coqR]) (col_of 1 [:: 1%coqR]) [:: one_obs 1 3 1 3; one_obs 1 (-1) 1 3] /\
  em_variances (col_of 1 [:: 1%coqR]) (col_of 1 [:: 1%coqR]) [:: one_obs 1 3 1 3; one_obs 1 (-1) 1 3] = col_of 1 [:: 1%coqR] /\
  (forall cdf, exists v v1,
     lc_loss (problem_calls cdf em_problem None None) [:: 1%coqR] [:: 1%coqR] = Ok v /\
     lc_loss (problem_calls cdf em_problem None None) [:: 1%coqR] [:: (1 / 4)%coqR] = Ok v1 /\ (v < v1)%coqR).
Proof. exact em_initializer_is_em_refuted_lemma. Qed.
Print Assumptions em_initializer_is_em_refuted.

(** the hypotheses of the first theorem hold for this problem *)
Example ex_em_initializer_partial :
  blup_variances (col_of (num_random em_problem) [:: 1%coqR]) /\ positive (col_of (num_random em_problem) [:: 1%coqR]) /\
  positive (col_of (num_random em_problem) [:: (1 / 4)%coqR]) /\
  mo_initializer (em_model "EM") = "EM" /\ mo_sr3 (em_model "EM") = None.
Proof. exact ex_em_initializer_partial_lemma. Qed.
