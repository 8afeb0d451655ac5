(** Properties C100, C101: what the interior-point method of the SR3 mixed-model oracle reports
    (src/pysr3/lme/oracles.py, src/pysr3/solvers.py). *)
From Verif.Base Require Import Py Vec Mat.
From Verif.Model Require Import LmeProblem Regularizers Solvers LmeInner LmeTrace LmeFit LmeBridge.
From Verif.Spec Require Import InnerSpec TraceSpec FitSpec.
From Verif.Proofs Require Import LmeTraceMain.

Open Scope string_scope.
Open Scope list_scope.
Open Scope R_scope.

(** C100.  If the method returns, its log holds the number of iterations, the barrier parameters "mu" after the iterations
    that ended near the central path, in order, with the averages "mu_effective" they were computed from, and
    "good_stopping_reason", which is True if and only if barrier and residual are below the tolerance. *)
Theorem interior_point_log : forall calls opts p q solve ms warm mem beta gamma tbeta tgamma lg lg',
  tgamma <> [] -> length (start_gamma warm mem gamma) = length gamma -> NoDup (lg_keys lg) ->
  find_ip_log calls opts p q solve ms warm mem beta gamma tbeta tgamma lg = Ok lg' ->
  exists path s mem',
    find_ip calls opts p q solve ms warm mem beta gamma tbeta tgamma =
      Ok (is_beta s, is_gamma s, is_tbeta s, is_tgamma s, mem') /\
    ip_path calls opts p q solve ms (length gamma) (ip_start warm mem beta gamma tbeta tgamma) path s /\
    (Z.of_nat (length path) <= Z.max 0 (io_n_iter opts))%Z /\ (0 < length gamma)%nat /\
    ip_logged calls opts (length gamma) path s lg'.
Proof. exact interior_point_log_lemma. Qed.
Print Assumptions interior_point_log.

(** C100.  A requested local variable of the table (the iterates, the previous iterates, the relaxed parameters, the step
    and the options) is logged once per iteration that ended near the central path, in order, with its value then. *)
Theorem interior_point_log_values : forall calls opts p q solve ms warm mem beta gamma tbeta tgamma lg lg' k f l,
  tgamma <> [] -> length (start_gamma warm mem gamma) = length gamma -> NoDup (lg_keys lg) ->
  find_ip_log calls opts p q solve ms warm mem beta gamma tbeta tgamma lg = Ok lg' ->
  In (k, f) (ip_recorded opts (length gamma)) -> In k (lg_keys lg) -> get lg k = Ok (LList l) ->
  let s0 := ip_start warm mem beta gamma tbeta tgamma in
  exists path s steps, ip_path calls opts p q solve ms (length gamma) s0 path s /\
    get lg' "iteration" = Ok (LAtom (LNum (INR (length path)))) /\
    picked (fun t => centred opts (length gamma) (snd t)) (iterations_of s0 path) steps /\
    get lg' k = Ok (LList (l ++ map (fun t => f (fst t) (snd t)) steps)).
Proof. exact interior_point_log_values_lemma. Qed.
Print Assumptions interior_point_log_values.

(** A run that was asked for "prev_gamma". *)
Example ex_interior_point_log_values :
  let lg0 := asking_logger "prev_gamma" in
  NoDup (lg_keys lg0) /\ length (start_gamma true fresh_memory [1]) = length [1] /\
  In ("prev_gamma", fun s _ => LVec (is_gamma s)) (ip_recorded (plain_options 1) 1) /\
  In "prev_gamma" (lg_keys lg0) /\ get lg0 "prev_gamma" = Ok (LList []) /\
  exists lg, find_ip_log bowl (plain_options 1) 1 1 (knows [-95/100; 0; 5/100]) no_minimiser true fresh_memory
    [0] [1] [0] [1] lg0 = Ok lg.
Proof. exact ex_interior_point_log_values_lemma. Qed.

(** non-vacuous: a run of one iteration *)
Example ex_interior_point_log : NoDup (lg_keys bowl_logger) /\ length (start_gamma true fresh_memory [1]) = length [1] /\
  exists lg, find_ip_log bowl (plain_options 1) 1 1 (knows [-95/100; 0; 5/100]) no_minimiser true fresh_memory
    [0] [1] [0] [1] bowl_logger = Ok lg.
Proof. exact ex_interior_point_log_lemma. Qed.

(** C100.  A practical SR3 mixed model with random effects: after a fit its log holds all this about the one run of the
    method that produced the coefficients, started from twice the starting point. *)
Theorem fit_logs_interior_point : forall argsort cdf m ss coef pr beta0 gamma0 warm fe re co lg,
  mo_sr3 m = Some ss -> ss_practical ss = true -> NoDup (snd (mo_keys m)) ->
  lme_fit_problem argsort cdf m coef pr beta0 gamma0 warm fe re = Ok (co, lg) ->
  exists g bg0 b1 g1 r tb tg,
    let c := problem_calls cdf pr g (Some ss) in
    let o := ip_options_of ss (Some (r_prox (as_regularizer argsort r))) in
    prior_of m pr = Ok g /\ start_point coef warm beta0 gamma0 (num_fixed pr) (num_random pr) = Ok bg0 /\
    initialize m (num_random pr) (num_groups pr) c bg0 = Ok (b1, g1) /\ fitted_reg m pr fe re r /\
    x_to_beta_gamma (num_fixed pr) (num_random pr) (b1 ++ g1) = (tb, tg) /\
    get lg "converged" = Ok (LAtom (LBool true)) /\
    (tg <> [] -> exists path s,
       ip_path (lc_sr3 c) o (num_fixed pr) (num_random pr) list_solve no_minimizer (length tg)
         (ip_start (ss_warm ss) (sr3_start ss) (vscale 2 tb) (vscale 2 tg) tb tg) path s /\
       (Z.of_nat (length path) <= Z.max 0 (ss_max_iter ss))%Z /\
       ip_logged (lc_sr3 c) o (length tg) path s lg /\
       (co_beta co, co_gamma co) = x_to_beta_gamma (num_fixed pr) (num_random pr) (is_tbeta s ++ is_tgamma s)).
Proof. exact fit_logs_interior_point_lemma. Qed.
Print Assumptions fit_logs_interior_point.

(** C101.  "good_stopping_reason" True: from non-negative starting variances, the point the method ended at has non-negative
    variances and satisfies the first-order conditions for minimising the relaxed loss over them, up to the tolerance. *)
Theorem good_stop_is_optimal : forall calls opts p q solve ms warm mem beta gamma tbeta tgamma lg lg',
  tgamma <> [] -> length (start_gamma warm mem gamma) = length gamma -> NoDup (lg_keys lg) ->
  nonneg (start_gamma warm mem gamma) -> (io_line_search opts = true -> minimiser_in_bounds ms) ->
  variance_sized calls (length gamma) ->
  find_ip_log calls opts p q solve ms warm mem beta gamma tbeta tgamma lg = Ok lg' ->
  get lg' "good_stopping_reason" = Ok (LAtom (LBool true)) ->
  exists s mem', find_ip calls opts p q solve ms warm mem beta gamma tbeta tgamma =
      Ok (is_beta s, is_gamma s, is_tbeta s, is_tgamma s, mem') /\ near_optimal calls s (io_tol opts).
Proof. exact good_stop_is_optimal_lemma. Qed.
Print Assumptions good_stop_is_optimal.

(** non-vacuous: a run with a tolerance of 2 that needs no iteration *)
Example ex_good_stop_is_optimal :
  let o := with_tol (plain_options 0) 2 in
  nonneg (start_gamma true fresh_memory [1]) /\ variance_sized bowl 1 /\
  exists lg, find_ip_log bowl o 1 1 (knows [-95/100; 0; 5/100]) no_minimiser true fresh_memory [0] [1] [0] [1] bowl_logger = Ok lg /\
    get lg "good_stopping_reason" = Ok (LAtom (LBool true)).
Proof. exact ex_good_stop_is_optimal_lemma. Qed.

(** C101.  A practical SR3 mixed model that logs "good_stopping_reason" True: the inner parameters of the run behind the
    returned coefficients satisfy these conditions for the likelihood with the relaxation, up to tol_oracle. *)
Theorem fit_good_stop_is_optimal : forall argsort cdf m ss coef pr beta0 gamma0 warm fe re co lg,
  mo_sr3 m = Some ss -> ss_practical ss = true -> NoDup (snd (mo_keys m)) ->
  opt_all (fun b => length b = num_fixed pr) beta0 -> opt_all nonneg gamma0 ->
  lme_fit_problem argsort cdf m coef pr beta0 gamma0 warm fe re = Ok (co, lg) ->
  get lg "good_stopping_reason" = Ok (LAtom (LBool true)) ->
  exists g s, prior_of m pr = Ok g /\
    near_optimal (lc_sr3 (problem_calls cdf pr g (Some ss))) s (ss_tol ss) /\ is_lam s = sm_lam (sr3_start ss) /\
    (co_beta co, co_gamma co) = x_to_beta_gamma (num_fixed pr) (num_random pr) (is_tbeta s ++ is_tgamma s).
Proof. exact fit_good_stop_is_optimal_lemma. Qed.
Print Assumptions fit_good_stop_is_optimal.

(** non-vacuous: a practical model and a problem with a random effect *)
Example ex_fit_logs_interior_point : forall argsort cdf, exists m co lg,
  m = flat_model PenNone (Some loose_settings) 0 0 /\ NoDup (snd (mo_keys m)) /\
  lme_fit_problem argsort cdf m None (flat_problem 1 1) (Some [0]) (Some [0]) false None None = Ok (co, lg).
Proof. exact ex_fit_logs_interior_point_lemma. Qed.

(** non-vacuous: the same run logs "good_stopping_reason" True *)
Example ex_fit_good_stop_is_optimal : forall argsort cdf, exists m co lg,
  m = flat_model PenNone (Some loose_settings) 0 0 /\ NoDup (snd (mo_keys m)) /\
  lme_fit_problem argsort cdf m None (flat_problem 1 1) (Some [0]) (Some [0]) false None None = Ok (co, lg) /\
  get lg "good_stopping_reason" = Ok (LAtom (LBool true)) /\ opt_all nonneg (Some [0]).
Proof. exact ex_fit_good_stop_is_optimal_lemma. Qed.
