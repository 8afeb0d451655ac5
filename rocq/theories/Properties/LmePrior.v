(** Property C118: Gaussian priors of mixed models (src/pysr3/lme/priors.py, oracles.py, problems.py), and C41 with a prior
    that is broadcast. *)
From Verif.Base Require Import Py Vec Mat RMx.
From Verif.Model Require Import Priors LmeProblem Solvers LmeInner LmeFit.
From Verif.Spec Require Import LinearSpec LmeSpec FitSpec PriorSpec.
From mathcomp Require Import ssreflect ssrfun ssrbool eqtype ssrnat choice seq fintype
  finfun bigop finset ssralg matrix mxalgebra.
From Verif.Model Require Import LmeOracle LmeBridge.
From Verif.Spec Require Import MxSpec.
From Verif.Proofs Require Import LmePriorMain.

Set Implicit Arguments.
Unset Strict Implicit.
Unset Printing Implicit Defensive.
Delimit Scope R_scope with coqR.
Local Open Scope ring_scope.

(** C118 (partial).  A prior whose names are columns and whose deviations are not negative is accepted.  When there is one
    column for each coefficient it adds the terms of the named fixed effects and of the named variances to the loss, and
    their derivatives to gradients and Hessians.  All other dictionaries, and problems without names, are refused. *)
Theorem lme_prior_partial : forall fe re fcols rcols,
  (fcols <> [::] -> rcols <> [::] -> accepted fe fcols -> accepted re rcols ->
   exists g pri, gauss_lme_instantiate (mk_gauss_lme fe re) (Some fcols) (Some rcols) = Ok g /\
     prior_mx (length fcols) (length rcols) (Some g) = Ok pri /\ each_column pri /\ convex_prior pri /\
     forall beta gamma, length beta = length fcols -> length gamma = length rcols ->
       prior_loss pri (col_of (length fcols) beta) (col_of (length rcols) gamma) =
         (gauss_energy_coded fe fcols beta + gauss_energy_coded re rcols gamma)%coqR) /\
  (~ (fcols <> [::] /\ rcols <> [::] /\ accepted fe fcols /\ accepted re rcols) ->
   gauss_lme_instantiate (mk_gauss_lme fe re) (Some fcols) (Some rcols) = Err AssertionError) /\
  (forall cols, gauss_lme_instantiate (mk_gauss_lme fe re) None cols = Err AssertionError /\
     gauss_lme_instantiate (mk_gauss_lme fe re) cols None = Err AssertionError).
Proof. exact lme_prior_partial_lemma. Qed.
Print Assumptions lme_prior_partial.

(** C118 (partial).  Whatever the columns: if the oracle accepts the prior for p fixed and q random effects, then its loss and
    its gradients are those of the oracle, and so are its Hessians when there is one column for each coefficient. *)
Theorem oracle_prior_partial : forall g0 fcols rcols g p q pri,
  gauss_lme_instantiate g0 (Some fcols) (Some rcols) = Ok g -> prior_mx p q (Some g) = Ok pri ->
  convex_prior pri /\
  (forall beta gamma, length beta = p -> length gamma = q ->
     gauss_lme_loss g beta gamma = Ok (prior_loss pri (col_of p beta) (col_of q gamma)) /\
     (exists d, gauss_lme_gradient_beta g beta = Ok d /\ length d = p /\
        col_of p d = prior_gradient_beta pri (col_of p beta)) /\
     (exists d, gauss_lme_gradient_gamma g gamma = Ok d /\ length d = q /\
        col_of q d = prior_gradient_gamma pri (col_of q gamma))) /\
  (length fcols = p -> exists h, gauss_lme_hessian_beta g = Ok h /\ mx_of p p h = prior_hessian_beta pri) /\
  (length rcols = q -> exists h, gauss_lme_hessian_gamma g = Ok h /\ mx_of q q h = prior_hessian_gamma pri).
Proof. exact oracle_prior_partial_lemma. Qed.
Print Assumptions oracle_prior_partial.

(** C118 (partial).  A problem made from a table has one name fewer than coefficients for each intercept.  So a prior that
    instantiate accepts has a column for each coefficient exactly when there is no intercept; with an intercept every
    evaluation raises ValueError, unless there is only one column, which numpy then uses for all coefficients. *)
Theorem table_prior_partial : forall x0 y columns labels ff fr mf mr pr fc rc g0 g,
  from_x_y x0 y columns labels ff fr mf mr = Ok pr -> pr_fe_columns pr = Some fc -> pr_re_columns pr = Some rc ->
  gauss_lme_instantiate g0 (Some fc) (Some rc) = Ok g ->
  let r := prior_mx (num_fixed pr) (num_random pr) (Some g) in
  (ff = false -> fr = false -> exists pri, r = Ok pri /\ each_column pri) /\
  (ff = true \/ fr = true -> forall pri, r = Ok pri -> ~ each_column pri) /\
  (ff = true /\ length fc <> 1%N \/ fr = true /\ length rc <> 1%N -> r = Err ValueError).
Proof. exact table_prior_partial_lemma. Qed.
Print Assumptions table_prior_partial.

(** the table of the example without an intercept: a prior for the fixed effect "time" and the variance "z" is accepted *)
Example ex_table_prior : let fe := [:: ("time"%string, (1, 1)%coqR)] in let re := [:: ("z"%string, (2, 3)%coqR)] in
  accepted fe [:: "time"%string] /\ accepted re [:: "z"%string] /\
  exists pr g, from_x_y flat_table (Some [:: 0%coqR]) (Some prior_names) (Some flat_labels) false false None None = Ok pr /\
  pr_fe_columns pr = Some [:: "time"%string] /\ pr_re_columns pr = Some [:: "z"%string] /\
  gauss_lme_instantiate (mk_gauss_lme fe re) (pr_fe_columns pr) (pr_re_columns pr) = Ok g /\
  forall b v, gauss_lme_loss g [:: b] [:: v] = Ok ((b - 1) ^ 2 / 2 + (v - 2) ^ 2 / 6)%coqR.
Proof. exact ex_table_prior_lemma. Qed.

(** C118 is false for the prior of the documentation: with an intercept the names of the table's fixed effects do not contain
    "intercept", so the fit raises AssertionError.  A prior for the only other column is accepted, and pulls the intercept
    to its mean as well. *)
Theorem prior_with_intercept_refuted :
  exists pr, from_x_y flat_table (Some [:: 0%coqR]) (Some prior_names) (Some flat_labels) true false None None = Ok pr /\
  num_fixed pr = 2%N /\
  (let documented := prior_model [:: ("intercept"%string, (0, 2)%coqR); ("time"%string, (1, 1)%coqR)] in
   prior_of documented pr = Err AssertionError /\
   forall argsort cdf coef beta0 gamma0 warm fe re,
     lme_fit_problem argsort cdf documented coef pr beta0 gamma0 warm fe re = Err AssertionError) /\
  exists g, prior_of (prior_model [:: ("time"%string, (1, 1)%coqR)]) pr = Ok (Some g) /\
  forall intercept time variance,
    gauss_lme_loss g [:: intercept; time] [:: variance] = Ok ((intercept - 1) ^ 2 / 2 + (time - 1) ^ 2 / 2)%coqR.
Proof. exact prior_with_intercept_refuted_lemma. Qed.
Print Assumptions prior_with_intercept_refuted.

(** C41 is false for a prior with one column that numpy uses for more coefficients: its variance is added to all entries of
    the Hessian, while the derivative only has it on the diagonal. *)
Theorem hessians_are_derivatives_refuted : forall (p q : nat) (gs : seq (group p q)) m s w (g : gauss_cols q) beta gamma i j,
  i != j -> admissible gs gamma -> (w / s <> 0)%coqR ->
  exists hb, lme_hessian_beta gs (LGauss (One m s w) g) gamma = Ok hb /\
  let entry_at t := entry (lme_gradient_beta gs (LGauss (One m s w) g) (along beta j t) gamma) i in
  derivable_pt_lim entry_at 0 (hb i j - w / s)%coqR /\ ~ derivable_pt_lim entry_at 0 (hb i j).
Proof. exact hessians_are_derivatives_refuted_lemma. Qed.
Print Assumptions hessians_are_derivatives_refuted.

(** there are such data: one observation, two fixed effects, one random effect *)
Example ex_hessians_refuted : exists (gs : seq (group 2 1)), groups_of 2 1 (flat_problem 2 1) = Ok gs /\
  admissible gs (0 : 'cV[R]_1) /\ (ord0 : 'I_2) != ord_max /\ (1 / 1 <> 0)%coqR.
Proof. exact ex_hessians_refuted_lemma. Qed.
