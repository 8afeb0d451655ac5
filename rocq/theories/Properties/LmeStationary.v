(** Property C83: a run reported as converged ends at a stationary point (src/pysr3/solvers.py, src/pysr3/lme/models.py). *)
From Verif.Base Require Import Py Vec Mat.
From Verif.Model Require Import LmeProblem Regularizers Solvers Linear LmeInner LmeFit LmeBridge.
From Verif.Spec Require Import ProxSpec SolverSpec LinearSpec RateSpec LmeSpec InnerSpec FitSpec StationarySpec.
From Verif.Proofs Require Import LmeStationaryMain.

Open Scope list_scope.
Open Scope R_scope.

(** C83.  Whatever the loss: if proximal gradient descent reports converged=True for a penalty with an exact, convex
    prox, then the returned point x is stationary up to tol / step, the gradient g being taken at a point q within tol
    of x. *)
Theorem converged_is_stationary :
  forall S (orc : oracle S) rg dom pen slv x0 s0 lg x lg' s',
  exact_for rg dom pen -> convex_on dom pen -> 0 < s_step_len slv -> x0 <> [] ->
  pgd_optimize orc rg slv x0 s0 lg = Ok (x, lg', s') -> reported_converged lg' ->
  exists q s1 g s2 step,
    o_grad orc s1 q = Ok (g, s2) /\ length g = length q /\ length x = length q /\
    norm (vsub x q) <= s_tol slv /\
    0 < step <= s_step_len slv /\ (s_stepping slv <> "line-search"%string -> step = s_step_len slv) /\
    r_prox rg (vsub q (vscale step g)) step = Ok x /\
    first_order dom pen g x (s_tol slv / step).
Proof. exact converged_is_stationary_lemma. Qed.
Print Assumptions converged_is_stationary.

(** C83.  A mixed model without relaxation, without penalty or with the L1 penalty: if its fit reports converged=True, the
    returned (beta, gamma) has non-negative variances and is stationary for the likelihood, prior, L1 and elastic terms on
    them up to tol / step, the gradient being that of the likelihood at parameters within tol. *)
Theorem lme_converged_is_stationary :
  forall argsort cdf m coef pr beta0 gamma0 warm fe re co lg wf wr pen step,
  sensible m -> mo_sr3 m = None -> step_length m = Ok step ->
  fit_weights pr fe re = Ok (wf, wr) -> nonneg (wf ++ wr) -> convex_penalty m (wf ++ wr) = Some pen ->
  (0 < num_fixed pr)%nat ->
  opt_all (fun b => length b = num_fixed pr) beta0 ->
  opt_all (fun g => nonneg g /\ length g = num_random pr) gamma0 ->
  lme_fit_problem argsort cdf m coef pr beta0 gamma0 warm fe re = Ok (co, lg) ->
  reported_converged lg ->
  exists g bq gq gb gg s,
    let c := problem_calls cdf pr g None in
    let x := co_beta co ++ co_gamma co in
    prior_of m pr = Ok g /\
    length (co_beta co) = num_fixed pr /\ length (co_gamma co) = num_random pr /\
    length bq = num_fixed pr /\ length gq = num_random pr /\
    norm (vsub x (bq ++ gq)) <= mo_tol m /\
    lc_gradient_beta c bq gq = Ok gb /\ length gb = num_fixed pr /\
    lc_gradient_gamma c bq gq = Ok gg /\ length gg = num_random pr /\
    0 < s <= step /\ (mo_stepping m <> "line-search"%string -> s = step) /\
    first_order (variances_nonneg (num_fixed pr)) pen (gb ++ gg) x (mo_tol m / s).
Proof. exact lme_converged_is_stationary_lemma. Qed.
Print Assumptions lme_converged_is_stationary.

(** C83.  With tol = 0 the gradient is that at the returned parameters themselves: they satisfy the first-order conditions
    exactly. *)
Theorem lme_converged_exactly :
  forall argsort cdf m coef pr beta0 gamma0 warm fe re co lg wf wr pen step,
  sensible m -> mo_sr3 m = None -> step_length m = Ok step -> mo_tol m = 0 ->
  fit_weights pr fe re = Ok (wf, wr) -> nonneg (wf ++ wr) -> convex_penalty m (wf ++ wr) = Some pen ->
  (0 < num_fixed pr)%nat ->
  opt_all (fun b => length b = num_fixed pr) beta0 ->
  opt_all (fun g => nonneg g /\ length g = num_random pr) gamma0 ->
  lme_fit_problem argsort cdf m coef pr beta0 gamma0 warm fe re = Ok (co, lg) ->
  reported_converged lg ->
  exists g gb gg, let c := problem_calls cdf pr g None in
    prior_of m pr = Ok g /\
    lc_gradient_beta c (co_beta co) (co_gamma co) = Ok gb /\
    lc_gradient_gamma c (co_beta co) (co_gamma co) = Ok gg /\
    first_order (variances_nonneg (num_fixed pr)) pen (gb ++ gg) (co_beta co ++ co_gamma co) 0.
Proof. exact lme_converged_exactly_lemma. Qed.
Print Assumptions lme_converged_exactly.

(** an L1 model covered by the theorem: started at 0 it makes one step, stays there and reports convergence *)
Example ex_lme_converged :
  let m := flat_model (PenL1 1) None 2 0 in
  sensible m /\ mo_sr3 m = None /\ mo_tol m = 0 /\ step_length m = Ok (1 / 2) /\ num_fixed (flat_problem 1 1) = 1%nat /\
  fit_weights (flat_problem 1 1) None None = Ok ([1], [1]) /\
  convex_penalty m [1; 1] = Some (fun x => 0 / 2 * sqnorm x + 1 * weighted_l1 [1; 1] x) /\
  forall argsort cdf, exists co lg,
    lme_fit_problem argsort cdf m None (flat_problem 1 1) (Some [0]) (Some [0]) false None None = Ok (co, lg) /\
    reported_converged lg /\ co_beta co = [0] /\ co_gamma co = [0].
Proof. exact ex_lme_converged_lemma. Qed.

(** the solver on its own: f(x) = x.x/2 without penalty, started at 0 *)
Example ex_converged :
  exact_for free_reg all_vecs (fun _ => 0) /\ convex_on all_vecs (fun _ => 0) /\
  exists x lg s, pgd_optimize quad_oracle free_reg
      {| s_tol := 0; s_max_iter := 2; s_stepping := "fixed"; s_step_len := 1 |} [0] tt
      {| lg_kind := KTuple; lg_keys := []; lg_dict := [] |} = Ok (x, lg, s) /\ reported_converged lg.
Proof. exact ex_converged_lemma. Qed.
