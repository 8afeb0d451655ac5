(** Properties C84, C85: the information criteria a fit writes into its log (src/pysr3/lme/models.py). *)
From Verif.Base Require Import Py Vec Mat RMx.
From Verif.Model Require Import LmeProblem Regularizers Solvers LmeInner LmeFit.
From Verif.Spec Require Import LmeSpec FitSpec LogSpec.
From mathcomp Require Import ssreflect ssrfun ssrbool eqtype ssrnat choice seq fintype
  finfun bigop finset ssralg matrix mxalgebra.
From Verif.Model Require Import LmeOracle LmeBridge.
From Verif.Spec Require Import MxSpec.
From Verif.Proofs Require Import LmeLogMain.

Set Implicit Arguments.
Unset Strict Implicit.
Unset Printing Implicit Defensive.
Delimit Scope R_scope with coqR.
Local Open Scope ring_scope.

(** C84.  Whatever criteria are among the keys the caller asked for, the log of a successful fit has exactly those
    criteria of the fitted parameters under those keys - the conditional one under "vaida_aic" and the marginal one
    under "vaida_aic_marginalized" - evaluated with the prior of the model and the tolerance sqrt(tol) of its
    solver (1/100 for the practical SR3 models, whatever tol_solver is), for plain and SR3 models, practical or not. *)
Theorem logged_criteria :
  forall argsort cdf m coef pr beta0 gamma0 warm fe re co lg s, tolerance_used m s ->
  lme_fit_problem argsort cdf m coef pr beta0 gamma0 warm fe re = Ok (co, lg) ->
  let p := num_fixed pr in
  let q := num_random pr in
  let beta := col_of p (co_beta co) in
  let gamma := col_of q (co_gamma co) in
  let tol := sqrt (s) in
  exists g gs, prior_of m pr = Ok g /\ groups_of p q pr = Ok gs /\
  let written k (f : lme_prior p q -> res R) := asked m k ->
    exists pri v, prior_mx p q g = Ok pri /\ (0 <= s)%coqR /\ f pri = Ok v /\ logs_number lg k v in
  written "vaida_aic"%string (fun pri => lme_vaida_aic gs pri tol false beta gamma) /\
  written "vaida_aic_marginalized"%string (fun pri => lme_vaida_aic gs pri tol true beta gamma) /\
  written "jones_bic"%string (fun pri => lme_jones_bic gs pri tol beta gamma) /\
  written "muller_ic"%string (fun pri => lme_muller_ic gs pri tol beta gamma) /\
  (asked m "flip_probabilities_beta" -> exists pri v, prior_mx p q g = Ok pri /\
     match mo_sr3 m with
     | None => lme_flip_probabilities cdf gs pri beta gamma
     | Some ss => sr3_flip_probabilities cdf (ss_ell ss) gs pri beta gamma
     end = Ok v /\ get lg "flip_probabilities_beta" = Ok (LAtom (LVec v))).
Proof. exact logged_criteria_lemma. Qed.
Print Assumptions logged_criteria.

(** C84.  In formulas: when the tolerance is positive and separates the non-zero coefficients from 0, the logged
    numbers are the published criteria in the likelihood of the fitted parameters and the numbers of non-zero
    coefficients and variances. *)
Theorem logged_criteria_formulas :
  forall argsort cdf m coef pr beta0 gamma0 warm fe re co lg g gs pri s, tolerance_used m s ->
  lme_fit_problem argsort cdf m coef pr beta0 gamma0 warm fe re = Ok (co, lg) ->
  let p := num_fixed pr in
  let q := num_random pr in
  let beta := col_of p (co_beta co) in
  let gamma := col_of q (co_gamma co) in
  let tol := sqrt (s) in
  prior_of m pr = Ok g -> prior_mx p q g = Ok pri -> groups_of p q pr = Ok gs ->
  (0 < s)%coqR ->
  (forall j, beta j ord0 = 0%coqR \/ (tol <= Rabs (beta j ord0))%coqR) ->
  (forall j, gamma j ord0 = 0%coqR \/ (tol <= Rabs (gamma j ord0))%coqR) ->
  nonnegative gamma -> positive_variances gs ->
  let L := (\sum_(g <- gs) nll beta gamma g + prior_loss pri beta gamma)%coqR in
  let C := (\sum_(g <- gs) conditional_nll beta (blup beta gamma g) g + prior_loss pri beta gamma)%coqR in
  let N := INR (total_obs gs) in
  let P := INR (nonzeros beta) in
  let Q := INR (nonzeros gamma) in
  (asked m "jones_bic" -> logs_number lg "jones_bic" (2 * L + (P + Q) * ln (effective_obs gs gamma))%coqR) /\
  (asked m "muller_ic" -> logs_number lg "muller_ic" (2 / N * L + 1 / N * ln (INR (size gs)) * P + 2 / N * Q)%coqR) /\
  (asked m "vaida_aic_marginalized" -> logs_number lg "vaida_aic_marginalized"
     (2 * L + 2 * (if rltb 0 (N - P - Q - 1) then N / (N - P - Q - 1) else 1) * (P + Q))%coqR) /\
  (asked m "vaida_aic" -> blup_variances gamma -> forall rho, lme_ddf gs gamma = Ok rho ->
     (N - P - 2 <> 0)%coqR -> (N - P <> 0)%coqR ->
     logs_number lg "vaida_aic" (2 * C + 2 * N / (N - P - 2) * (rho - (rho - P) / (N - P)) * (P + Q))%coqR).
Proof. exact logged_criteria_formulas_lemma. Qed.
Print Assumptions logged_criteria_formulas.

(** non-vacuous: a run that logs a criterion *)
Example ex_logged_criteria : exists co lg,
  lme_fit_problem (fun _ => [::]) (fun x => x) (logging_model 1 "muller_ic") None
    (flat_problem 1 1) (Some [:: 0%coqR]) (Some [:: 0%coqR]) false None None = Ok (co, lg) /\
  asked (logging_model 1 "muller_ic") "muller_ic" /\ logs_number lg "muller_ic" 0%coqR.
Proof. exact ex_logged_criteria_lemma. Qed.

(** non-vacuous: the same run satisfies the conditions under which the formulas hold *)
Example ex_logged_criteria_formulas : exists co lg gs,
  lme_fit_problem (fun _ => [::]) (fun x => x) (logging_model 1 "muller_ic") None
    (flat_problem 1 1) (Some [:: 0%coqR]) (Some [:: 0%coqR]) false None None = Ok (co, lg) /\
  groups_of 1 1 (flat_problem 1 1) = Ok gs /\ positive_variances gs /\
  tolerance_used (logging_model 1 "muller_ic") 1%coqR /\
  (forall j, col_of 1 (co_beta co) j ord0 = 0%coqR) /\ (forall j, col_of 1 (co_gamma co) j ord0 = 0%coqR).
Proof. exact ex_logged_criteria_formulas_lemma. Qed.

(** C85 (refuted).  The criterion reported by get_information_criterion for the training data is not the one in the log
    of the fit: for one observation of 0 with features 0 and the starting point 0, fit logs Muller's criterion 0 and
    get_information_criterion returns 2, since it counts the zero variance as well. *)
Theorem reported_criterion_refuted :
  forall argsort cdf tol, (0 < tol)%coqR -> exists co lg,
  lme_fit argsort cdf (logging_model tol "muller_ic") None flat_table [:: 0%coqR] (Some flat_labels)
    (Some [:: 0%coqR]) (Some [:: 0%coqR]) false false false None None = Ok (co, lg) /\
  logs_number lg "muller_ic" 0%coqR /\
  get_information_criterion cdf (logging_model tol "muller_ic") (Some co) flat_table [:: 0%coqR] (Some flat_labels)
    "muller_ic" = Ok 2%coqR.
Proof. exact reported_criterion_refuted_lemma. Qed.
Print Assumptions reported_criterion_refuted.

(** C85 (partial).  After a fit without intercepts by a model without a prior whose fitted coefficients and
    variances are all at least sqrt(tol) in absolute value, the two numbers are the same, for each of the three
    criteria get_information_criterion knows. *)
Theorem reported_criterion_partial :
  forall argsort cdf m coef x y labels beta0 gamma0 warm fe re co lg s, tolerance_used m s ->
  lme_fit argsort cdf m coef x y labels beta0 gamma0 warm false false fe re = Ok (co, lg) ->
  mo_prior m = None ->
  List.Forall (fun b => sqrt (s) <= Rabs b)%coqR (co_beta co) ->
  List.Forall (fun b => sqrt (s) <= Rabs b)%coqR (co_gamma co) ->
  forall k, List.In k ["muller_ic"; "vaida_aic"; "jones_bic"]%string -> asked m k -> exists v,
    logs_number lg k v /\ get_information_criterion cdf m (Some co) x y labels k = Ok v.
Proof. exact reported_criterion_partial_lemma. Qed.
Print Assumptions reported_criterion_partial.

(** non-vacuous: from the starting point 1 with tolerance 1 both are 2 *)
Example ex_reported_criterion_partial :
  let m := logging_model 1 "muller_ic" in
  mo_prior m = None /\ asked m "muller_ic" /\ tolerance_used m 1%coqR /\ exists co lg,
  lme_fit (fun _ => [::]) (fun x => x) m None flat_table [:: 0%coqR] (Some flat_labels)
    (Some [:: 1%coqR]) (Some [:: 1%coqR]) false false false None None = Ok (co, lg) /\
  List.Forall (fun b => sqrt 1 <= Rabs b)%coqR (co_beta co) /\
  List.Forall (fun b => sqrt 1 <= Rabs b)%coqR (co_gamma co) /\
  logs_number lg "muller_ic" 2%coqR.
Proof. exact ex_reported_criterion_partial_lemma. Qed.
