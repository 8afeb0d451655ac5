(** Properties C57-C60, C73: fitting (src/pysr3/lme/models.py, src/pysr3/linear/models.py). *)
From Verif.Base Require Import Py Vec Mat.
From Verif.Model Require Import LmeProblem Regularizers Solvers Linear LmeInner LmeFit LmeBridge.
From Verif.Spec Require Import ProxSpec SolverSpec LinearSpec LmeSpec InnerSpec FitSpec.
From Verif.Proofs Require Import LmeFitMain.

Open Scope list_scope.
Open Scope R_scope.

(** C57.  Every model - plain or SR3, practical or not, any penalty, solver options and initializer - returns
    non-negative variances, for settings in their ranges (lam, elastic_eps, ell, fixed_step_len >= 0, sigma > 0)
    and non-negative starting variances and weights. *)
Theorem fitted_variances_nonneg :
  forall argsort cdf m coef pr beta0 gamma0 warm fe re co lg,
  sensible m -> opt_all nonneg fe -> opt_all nonneg re ->
  opt_all nonneg (pr_fe_weights pr) -> opt_all nonneg (pr_re_weights pr) ->
  opt_all (fun b => length b = num_fixed pr) beta0 -> opt_all nonneg gamma0 ->
  lme_fit_problem argsort cdf m coef pr beta0 gamma0 warm fe re = Ok (co, lg) ->
  nonneg (co_gamma co).
Proof. exact fitted_variances_nonneg_lemma. Qed.
Print Assumptions fitted_variances_nonneg.

(** C57.  The same for fit on a table: the weights of the problem it builds are ones. *)
Theorem fitted_variances_nonneg_table :
  forall argsort cdf m coef x y labels beta0 gamma0 warm ff fr fe re co lg,
  sensible m -> opt_all nonneg fe -> opt_all nonneg re -> beta0 = None -> opt_all nonneg gamma0 ->
  lme_fit argsort cdf m coef x y labels beta0 gamma0 warm ff fr fe re = Ok (co, lg) ->
  nonneg (co_gamma co).
Proof. exact fitted_variances_nonneg_table_lemma. Qed.
Print Assumptions fitted_variances_nonneg_table.

(** C57.  The range of elastic_eps matters: nothing checks it, and one step with elastic_eps = -100 turns the
    variance 1 into -1/4. *)
Theorem negative_elastic_eps_refuted :
  forall argsort cdf, exists m pr co lg,
  mo_penalty m = PenNone /\ mo_eps m = -100 /\
  lme_fit_problem argsort cdf m None pr (Some [1]) (Some [1]) false None None = Ok (co, lg) /\
  co_gamma co = [- / 4].
Proof. exact negative_elastic_eps_refuted_lemma. Qed.
Print Assumptions negative_elastic_eps_refuted.

(** a fit covered by the theorem *)
Example ex_fitted_variances :
  sensible (flat_model PenNone None 0 0) /\
  exists co lg, lme_fit_problem (fun _ => []) (fun x => x) (flat_model PenNone None 0 0) None
    (flat_problem 1 1) None None false None None = Ok (co, lg) /\ co_gamma co = [1].
Proof. exact ex_fitted_variances_lemma. Qed.

(** C58 (partial).  L0LmeModel and the non-practical L0LmeModelSR3 with at least one solver iteration:
    coefficients and variances stay within both budgets (up to must-include ones), and a penalised variance
    is present only with its fixed effect.  Practical SR3 models: the same, or the starting point is returned. *)
Theorem l0_lme_budget_partial :
  forall argsort cdf m nb ng coef pr beta0 gamma0 warm fe re co lg wf wr,
  argsort_ok argsort -> sensible m -> mo_penalty m = PenL0 nb ng ->
  fit_weights pr fe re = Ok (wf, wr) -> length wf = num_fixed pr -> length wr = num_random pr ->
  lme_fit_problem argsort cdf m coef pr beta0 gamma0 warm fe re = Ok (co, lg) ->
  (uses_pgd m -> (0 < mo_max_iter m)%Z -> l0_respected pr nb ng wf wr (co_beta co) (co_gamma co)) /\
  (l0_respected pr nb ng wf wr (co_beta co) (co_gamma co) \/
   exists g b1 g1, prior_of m pr = Ok g /\
    initialize m (num_random pr) (num_groups pr) (problem_calls cdf pr g (mo_sr3 m))
     (match beta0 with Some b => b | None => ones (num_fixed pr) end,
      match gamma0 with Some g => g | None => ones (num_random pr) end) = Ok (b1, g1) /\
     (co_beta co, co_gamma co) = x_to_beta_gamma (num_fixed pr) (num_random pr) (b1 ++ g1)).
Proof. exact l0_lme_budget_partial_lemma. Qed.
Print Assumptions l0_lme_budget_partial.

(** C58 (refuted).  A practical L0LmeModelSR3 on a problem without random effects returns the starting point:
    asked for one coefficient it returns two, after any number of allowed iterations. *)
Theorem l0_lme_budget_refuted :
  forall argsort cdf k, exists m pr co lg,
  mo_penalty m = PenL0 (Some 1%Z) (Some 0%Z) /\ mo_sr3 m = Some (practical_settings k) /\
  fit_weights pr None None = Ok ([1; 1], []) /\
  lme_fit_problem argsort cdf m None pr None None false None None = Ok (co, lg) /\
  co_beta co = [1; 1] /\ ~ within_budget 1 [1; 1] (co_beta co) /\ nonzeros (co_beta co) = 2%nat.
Proof. exact l0_lme_budget_refuted_lemma. Qed.
Print Assumptions l0_lme_budget_refuted.

(** C58.  The linear L0 models (plain, SR3, practical SR3) with at least one iteration allowed: the fitted vector
    has no more than nnz non-zeros, must-include ones (weight 0) being counted first. *)
Theorem l0_linear_budget :
  forall argsort, argsort_ok argsort -> forall inv m nnz pr x0 warm weights x lg,
  lm_reg m = mk_l0 nnz -> (0 < lm_max_iter m)%Z -> 0 < effective_step m ->
  linear_fit_problem argsort inv m pr x0 warm weights = Ok (x, lg) ->
  let w := match weights with Some w => w | None => ones (lp_p pr) end in
  let k := match nnz with Some n => n | None => Z.of_nat (length x) end in
  within_budget k w x /\ (Z.of_nat (nonzeros x) <= Z.max k (Z.of_nat (zero_count w)))%Z.
Proof. exact l0_linear_budget_lemma. Qed.
Print Assumptions l0_linear_budget.

(** one step of an L0 model allowed no coefficient *)
Example ex_l0_linear_fit :
  forall argsort, argsort_ok argsort -> 0 < effective_step (sample_linear None false (mk_l0 (Some 0%Z))) /\
  exists lg, linear_fit_problem argsort inv_one (sample_linear None false (mk_l0 (Some 0%Z))) (sample_problem 1) None false None
    = Ok ([0], lg).
Proof. exact ex_l0_linear_fit_lemma. Qed.

(** an L0 mixed model covered by the theorem on the budget *)
Example ex_l0_lme_fit :
  uses_pgd (flat_model (PenL0 (Some 0%Z) (Some 0%Z)) None 1 0) /\
  sensible (flat_model (PenL0 (Some 0%Z) (Some 0%Z)) None 1 0) /\
  fit_weights (flat_problem 1 1) None None = Ok ([1], [1]) /\
  forall argsort cdf, argsort_ok argsort -> exists co lg,
    lme_fit_problem argsort cdf (flat_model (PenL0 (Some 0%Z) (Some 0%Z)) None 1 0) None (flat_problem 1 1)
      None None false None None = Ok (co, lg) /\ co_beta co = [0] /\ co_gamma co = [0].
Proof. exact ex_l0_lme_fit_lemma. Qed.

(** C59 (refuted).  Whatever was fitted before, fit with warm_start=True is the fit without it on a fresh model: the
    previous coefficients are never read and NotFittedError is never raised for their absence.  A witness:
    after a fit ending at beta = 5, a warm-started fit that makes no steps returns beta = 1. *)
Theorem lme_warm_start_refuted :
  (forall argsort cdf m rqs rq,
     let step := fit_step argsort list_solve (problem_calls cdf) in
     let after := fit_history argsort list_solve (problem_calls cdf) m None rqs in
     step m after rq =
     step m None {| fq_problem := fq_problem rq; fq_beta0 := fq_beta0 rq; fq_gamma0 := fq_gamma0 rq; fq_warm := false;
                    fq_fe := fq_fe rq; fq_re := fq_re rq |}) /\
  (forall argsort cdf, exists m pr co1 lg1 co2 lg2,
     lme_fit_problem argsort cdf m None pr (Some [5]) None false None None = Ok (co1, lg1) /\ co_beta co1 = [5] /\
     lme_fit_problem argsort cdf m (Some co1) pr None None true None None = Ok (co2, lg2) /\ co_beta co2 = [1]) /\
  (forall argsort cdf, exists m pr co lg,
     lme_fit_problem argsort cdf m None pr None None true None None = Ok (co, lg)).
Proof. exact lme_warm_start_refuted_lemma. Qed.
Print Assumptions lme_warm_start_refuted.

(** C59 (refuted).  Linear models: warm_start=True without initial parameters is the cold start, whatever was fitted
    before (the fit has no access to coef_), and without warm_start the initial parameters are ignored. *)
Theorem linear_warm_start_refuted :
  forall argsort inv m pr weights,
  linear_fit_problem argsort inv m pr None true weights = linear_fit_problem argsort inv m pr None false weights /\
  forall x0, linear_fit_problem argsort inv m pr (Some x0) false weights = linear_fit_problem argsort inv m pr None false weights.
Proof. exact linear_warm_start_refuted_lemma. Qed.
Print Assumptions linear_warm_start_refuted.

(** C59 (partial).  What does choose the start: for mixed models the initial parameters, with ones by default - a fit
    that may make no steps and has no initializer returns exactly them. *)
Theorem lme_start_partial :
  forall argsort cdf m coef pr beta0 gamma0 warm fe re co lg,
  uses_pgd m -> (mo_max_iter m <= 0)%Z -> mo_initializer m <> "EM" ->
  lme_fit_problem argsort cdf m coef pr beta0 gamma0 warm fe re = Ok (co, lg) ->
  (co_beta co, co_gamma co) = x_to_beta_gamma (num_fixed pr) (num_random pr)
    ((match beta0 with Some b => b | None => ones (num_fixed pr) end) ++
     (match gamma0 with Some g => g | None => ones (num_random pr) end)).
Proof. exact lme_start_partial_lemma. Qed.
Print Assumptions lme_start_partial.

(** C60 (refuted).  Every constructor stores weights of one, intercept included, when no must-include names are given,
    and fit uses the stored weights: the intercept's coefficient and variance have weight 1 for all problems from
    from_x_y (hence fit), from_dataframe and generate. *)
Theorem intercept_penalised_refuted :
  (forall x y columns labels ff fr mf mr pr, (mf = None \/ mf = Some []) -> (mr = None \/ mr = Some []) ->
     from_x_y x y columns labels ff fr mf mr = Ok pr ->
     exists wf wr, fit_weights pr None None = Ok (wf, wr) /\ (ff = true -> nth 0 wf 0 = 1) /\ (fr = true -> nth 0 wr 0 = 1)) /\
  (forall d fixed random groups variance target pr,
     from_dataframe d fixed random groups variance target [] [] = Ok pr ->
     exists wf wr, fit_weights pr None None = Ok (wf, wr) /\ (In "intercept"%string fixed -> nth 0 wf 0 = 1) /\
       (In "intercept"%string random -> nth 0 wr 0 = 1)) /\
  (forall xname sizes labels ff fr ov beta gamma given features draws pr coefs,
     generate xname sizes labels ff fr ov beta gamma given features draws = Ok (pr, coefs) ->
     exists wf wr, fit_weights pr None None = Ok (wf, wr) /\ (ff = true -> nth 0 wf 0 = 1) /\ (fr = true -> nth 0 wr 0 = 1)).
Proof. exact intercept_penalised_refuted_lemma. Qed.
Print Assumptions intercept_penalised_refuted.

(** C60 (partial).  Only a problem without stored weights - the LMEProblem constructor called directly without them -
    gets weight 0 for its intercept, and 1 elsewhere. *)
Theorem intercept_unpenalised_partial :
  forall pr, pr_fe_weights pr = None -> pr_re_weights pr = None ->
  exists wf wr, fit_weights pr None None = Ok (wf, wr) /\ length wf = num_fixed pr /\ length wr = num_random pr /\
    (forall i, (i < num_fixed pr)%nat ->
       nth i wf 0 = if fixed_intercept (pr_intercept pr) && (i =? 0)%nat then 0 else 1) /\
    (forall i, (i < num_random pr)%nat ->
       nth i wr 0 = if random_intercept (pr_intercept pr) && (i =? 0)%nat then 0 else 1).
Proof. exact intercept_unpenalised_partial_lemma. Qed.
Print Assumptions intercept_unpenalised_partial.

(** C73.  A mixed model without relaxation, without penalty or with the L1 penalty, fitted with line search:
    if every accepted step is above 1e-14, the negative log-likelihood plus prior, L1 penalty and elastic term at the
    returned parameters is at most its value at the (initialized) start. *)
Theorem lme_line_search_no_worse :
  forall argsort cdf m coef pr beta0 gamma0 warm fe re co lg wf wr pen,
  sensible m -> mo_sr3 m = None -> mo_stepping m = "line-search" ->
  fit_weights pr fe re = Ok (wf, wr) -> nonneg (wf ++ wr) -> convex_penalty m (wf ++ wr) = Some pen ->
  opt_all (fun b => length b = num_fixed pr) beta0 ->
  opt_all (fun g => nonneg g /\ length g = num_random pr) gamma0 ->
  lme_fit_problem argsort cdf m coef pr beta0 gamma0 warm fe re = Ok (co, lg) ->
  exists g b1 g1 rg step path,
    let c := problem_calls cdf pr g None in
    prior_of m pr = Ok g /\ step_length m = Ok step /\
    initialize m (num_random pr) (num_groups pr) c
      (match beta0 with Some b => b | None => ones (num_fixed pr) end,
       match gamma0 with Some g => g | None => ones (num_random pr) end) = Ok (b1, g1) /\
    is_path (pgd_rule (lme_as_oracle (num_fixed pr) (num_random pr) c) rg
      {| s_tol := mo_tol m; s_max_iter := mo_max_iter m; s_stepping := mo_stepping m; s_step_len := step |})
      (b1 ++ g1) path /\
    co_beta co ++ co_gamma co = endpoint (b1 ++ g1) path /\
    (Forall (fun st => ls_threshold < fst st) path ->
     forall v0 v1, lc_loss c b1 g1 = Ok v0 -> lc_loss c (co_beta co) (co_gamma co) = Ok v1 ->
     v1 + pen (co_beta co ++ co_gamma co) <= v0 + pen (b1 ++ g1)).
Proof. exact lme_line_search_no_worse_lemma. Qed.
Print Assumptions lme_line_search_no_worse.

(** an L1 model covered by the theorem: one step by 1/2 moves both parameters from 1 to 1/2 *)
Example ex_line_search :
  let m := searching (flat_model (PenL1 1) None 1 0) in
  sensible m /\ mo_sr3 m = None /\ mo_stepping m = "line-search" /\
  fit_weights (flat_problem 1 1) None None = Ok ([1], [1]) /\
  convex_penalty m [1; 1] = Some (fun x => 0 / 2 * sqnorm x + 1 * weighted_l1 [1; 1] x) /\
  forall argsort cdf, exists co lg,
    lme_fit_problem argsort cdf m None (flat_problem 1 1) None None false None None = Ok (co, lg) /\
    co_beta co = [/ 2] /\ co_gamma co = [/ 2].
Proof. exact ex_line_search_lemma. Qed.
