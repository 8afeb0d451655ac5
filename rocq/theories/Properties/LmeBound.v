(** Property C105: the objective of a mixed model is bounded below (src/pysr3/lme/oracles.py, models.py, problems.py). *)
From Verif.Base Require Import Py Vec Mat RMx.
From Verif.Model Require Import LmeProblem Regularizers Solvers LmeInner LmeFit.
From Verif.Spec Require Import ProxSpec SolverSpec ConvergeSpec LmeSpec InnerSpec FitSpec StationarySpec.
From mathcomp Require Import ssreflect ssrfun ssrbool eqtype ssrnat choice seq fintype
  finfun bigop finset ssralg matrix mxalgebra.
From Verif.Model Require Import LmeOracle LmeBridge.
From Verif.Spec Require Import MxSpec BoundSpec.
From Verif.Proofs Require Import LmeBoundMain.

Set Implicit Arguments.
Unset Strict Implicit.
Unset Printing Implicit Defensive.
Delimit Scope R_scope with coqR.
Local Open Scope ring_scope.

(** C105 (refuted).  from_x_y only requires the variances of the observations to be non-zero.  With the variance -1 the
    objective has no lower bound over the non-negative variances of the random effects. *)
Theorem lme_loss_bounded_refuted :
  exists pr, from_x_y negative_table (Some [:: 0%coqR]) None (Some flat_labels) false false None None = Ok pr /\
  forall cdf low, exists t v, (0 <= t)%coqR /\
    lc_loss (problem_calls cdf pr None None) [:: 0%coqR] [:: t] = Ok v /\ (v < low)%coqR.
Proof. exact lme_loss_bounded_refuted_lemma. Qed.
Print Assumptions lme_loss_bounded_refuted.

(** C105 (partial).  When the variances of the observations are positive (and the prior is convex) the objective is
    computed for all coefficients and all non-negative variances of the random effects, and is at least the noise floor
    of the data; a positive variance of any random effect adds its cost, which grows like its logarithm. *)
Theorem lme_loss_bounded_partial :
  forall p q (gs : seq (group p q)) (pr : lme_prior p q) beta gamma,
  positive_variances gs -> convex_prior pr -> nonnegative gamma ->
  exists v, lme_loss gs pr beta gamma = Ok v /\ (noise_floor gs <= v)%coqR /\
    forall j, (noise_floor gs + variance_cost gs j (gamma j ord0) <= v)%coqR.
Proof. exact lme_loss_bounded_partial_lemma. Qed.
Print Assumptions lme_loss_bounded_partial.

(** C105 (partial).  The floor is reached: by coefficients that predict every observation exactly, with zero variances and
    without prior. *)
Theorem lme_floor_reached_partial :
  forall p q (gs : seq (group p q)) beta,
  positive_variances gs -> (forall g, List.In g gs -> resid beta g = 0) ->
  lme_loss gs LNone beta 0 = Ok (noise_floor gs).
Proof. exact lme_floor_reached_partial_lemma. Qed.
Print Assumptions lme_floor_reached_partial.

(** C105 (partial).  Fits with line search, without penalty or with L1: if no line search was exhausted (every accepted
    step is above 1e-14), the cost of each fitted variance is at most the objective at the (initialized) start minus the
    noise floor.  So each variance of a random effect that shows in some group is at most an explicit number. *)
Theorem lme_variances_bounded_partial :
  forall argsort cdf m coef pr beta0 gamma0 warm fe re co lg wf wr pen gs,
  sensible m -> mo_sr3 m = None -> mo_stepping m = "line-search"%string -> (0 <= mo_tol m)%coqR ->
  fit_weights pr fe re = Ok (wf, wr) -> nonneg (wf ++ wr) -> convex_penalty m (wf ++ wr) = Some pen ->
  opt_all (fun b => length b = num_fixed pr) beta0 ->
  opt_all (fun g => nonneg g /\ length g = num_random pr) gamma0 ->
  groups_of (num_fixed pr) (num_random pr) pr = Ok gs -> positive_variances gs ->
  (forall g pri, prior_of m pr = Ok g -> prior_mx (num_fixed pr) (num_random pr) g = Ok pri -> convex_prior pri) ->
  lme_fit_problem argsort cdf m coef pr beta0 gamma0 warm fe re = Ok (co, lg) ->
  exists g b1 g1 rg step path,
    let c := problem_calls cdf pr g None in
    prior_of m pr = Ok g /\ step_length m = Ok step /\
    initialize m (num_random pr) (num_groups pr) c
      (match beta0 with Some b => b | None => ones (num_fixed pr) end,
       match gamma0 with Some g => g | None => ones (num_random pr) end) = Ok (b1, g1) /\
    is_path (pgd_rule (lme_as_oracle (num_fixed pr) (num_random pr) c) rg
      {| s_tol := mo_tol m; s_max_iter := mo_max_iter m; s_stepping := mo_stepping m; s_step_len := step |})
      (b1 ++ g1) path /\
    co_beta co ++ co_gamma co = endpoint (b1 ++ g1) path /\
    (List.Forall (fun st => ls_threshold < fst st)%coqR path -> forall v0, lc_loss c b1 g1 = Ok v0 ->
     let room := (v0 + pen (b1 ++ g1) - noise_floor gs)%coqR in
     forall j : 'I_(num_random pr),
     (0 <= List.nth j (co_gamma co) 0)%coqR /\ (variance_cost gs j (List.nth j (co_gamma co) 0) <= room)%coqR /\
     forall gr, List.In gr gs -> (0 < signal gr j)%coqR ->
       (List.nth j (co_gamma co) 0 <= (exp (2 * room) - 1) / signal gr j)%coqR).
Proof. exact lme_variances_bounded_partial_lemma. Qed.
Print Assumptions lme_variances_bounded_partial.

(** C105 (partial).  The same fits: if the allowed number of iterations is large enough for the objective at the start and
    the noise floor, then the fit reports converged=True, unless a line search was exhausted. *)
Theorem lme_converges_partial :
  forall argsort cdf m coef pr beta0 gamma0 warm fe re co lg wf wr pen gs,
  sensible m -> mo_sr3 m = None -> mo_stepping m = "line-search"%string -> (0 <= mo_tol m)%coqR ->
  fit_weights pr fe re = Ok (wf, wr) -> nonneg (wf ++ wr) -> convex_penalty m (wf ++ wr) = Some pen ->
  opt_all (fun b => length b = num_fixed pr) beta0 ->
  opt_all (fun g => nonneg g /\ length g = num_random pr) gamma0 ->
  groups_of (num_fixed pr) (num_random pr) pr = Ok gs -> positive_variances gs ->
  (forall g pri, prior_of m pr = Ok g -> prior_mx (num_fixed pr) (num_random pr) g = Ok pri -> convex_prior pri) ->
  lme_fit_problem argsort cdf m coef pr beta0 gamma0 warm fe re = Ok (co, lg) ->
  exists g b1 g1 rg step path,
    let c := problem_calls cdf pr g None in
    prior_of m pr = Ok g /\ step_length m = Ok step /\
    initialize m (num_random pr) (num_groups pr) c
      (match beta0 with Some b => b | None => ones (num_fixed pr) end,
       match gamma0 with Some g => g | None => ones (num_random pr) end) = Ok (b1, g1) /\
    is_path (pgd_rule (lme_as_oracle (num_fixed pr) (num_random pr) c) rg
      {| s_tol := mo_tol m; s_max_iter := mo_max_iter m; s_stepping := mo_stepping m; s_step_len := step |})
      (b1 ++ g1) path /\
    co_beta co ++ co_gamma co = endpoint (b1 ++ g1) path /\
    forall v0, lc_loss c b1 g1 = Ok v0 ->
    enough_iterations (mo_max_iter m) (1 / (2 * step))%coqR (mo_tol m) (v0 + pen (b1 ++ g1))%coqR (noise_floor gs) ->
    reported_converged lg \/ List.Exists (fun st => fst st <= ls_threshold)%coqR path.
Proof. exact lme_converges_partial_lemma. Qed.
Print Assumptions lme_converges_partial.

(** one observation with the random feature 2 and variance 1: the floor is 0, and a variance t costs ln(1 + 4 t) / 2 *)
Example ex_loss_bounded :
  positive_variances [:: one_obs 1 0 2 1] /\ noise_floor [:: one_obs 1 0 2 1] = 0%coqR /\
  signal (one_obs 1 0 2 1) ord0 = 4%coqR /\
  (forall t, variance_cost [:: one_obs 1 0 2 1] ord0 t = (/ 2 * ln (1 + t * 4))%coqR) /\
  resid (0%:M : 'cV[R]_1) (one_obs 1 0 2 1) = 0.
Proof. exact ex_loss_bounded_lemma. Qed.

(** an L1 model covered by the theorems: started at 0, three iterations are enough *)
Example ex_lme_converges : let m := patient_model in let pen := fun x => (0 / 2 * sqnorm x + 1 * weighted_l1 [:: 1; 1]%coqR x)%coqR in
  sensible m /\ mo_sr3 m = None /\ mo_stepping m = "line-search"%string /\ (0 <= mo_tol m)%coqR /\ step_length m = Ok (1 / 2)%coqR /\
  fit_weights (flat_problem 1 1) None None = Ok ([:: 1%coqR], [:: 1%coqR]) /\
  convex_penalty m [:: 1; 1]%coqR = Some pen /\ mo_prior m = None /\
  (exists gs, groups_of 1 1 (flat_problem 1 1) = Ok gs /\ positive_variances gs /\ noise_floor gs = 0%coqR) /\
  (forall cdf, lc_loss (problem_calls cdf (flat_problem 1 1) None None) [:: 0%coqR] [:: 0%coqR] = Ok 0%coqR) /\
  enough_iterations (mo_max_iter m) (1 / (2 * (1 / 2)))%coqR (mo_tol m) (0 + pen [:: 0; 0]%coqR)%coqR 0%coqR /\
  forall argsort cdf, exists co lg,
    lme_fit_problem argsort cdf m None (flat_problem 1 1) (Some [:: 0%coqR]) (Some [:: 0%coqR]) false None None = Ok (co, lg) /\
    reported_converged lg.
Proof. exact ex_lme_converges_lemma. Qed.
