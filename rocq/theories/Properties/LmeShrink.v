(** Property C122: the strength of the L1 penalty from which a mixed model keeps no effect (src/pysr3/lme/models.py, oracles.py). *)
From Coq Require Import String.
From Verif.Base Require Import Py Vec RMx.
From Verif.Model Require Import LmeProblem Solvers LmeInner LmeFit LmeOracle LmeBridge.
From Verif.Spec Require Import InnerSpec LmeSpec FitSpec StationarySpec MxSpec ShrinkLmeSpec PracticalSpec.
From Verif.Proofs Require Import LmeShrinkMain.

Open Scope list_scope.
Open Scope R_scope.

(** C122.  At beta = 0 and gamma = 0 the gradients are minus the scores and minus the gains. *)
Theorem lme_gradient_at_zero :
  forall p q (gs : list (group p q)), positive_variances gs ->
  (forall i, entry (lme_gradient_beta gs LNone (zero_col p) (zero_col q)) i = - score gs i) /\
  (forall j, entry (lme_gradient_gamma gs LNone (zero_col p) (zero_col q)) j = - gain gs j).
Proof. exact lme_gradient_at_zero_lemma. Qed.
Print Assumptions lme_gradient_at_zero.

(** C122.  A mixed model with the L1 penalty, without relaxation and prior, started at zero: if no feature asks for more
    than the penalty takes, the fit returns zero for all coefficients, variances and random effects, for every stepping
    and every number of iterations; and it reports convergence if it may make two iterations. *)
Theorem lme_l1_stays_at_zero :
  forall argsort cdf m lam coef pr warm fe re co lg wf wr gs,
  let p := num_fixed pr in let q := num_random pr in
  sensible m -> mo_penalty m = PenL1 lam -> mo_sr3 m = None -> mo_prior m = None -> mo_initializer m <> "EM"%string ->
  fit_weights pr fe re = Ok (wf, wr) -> length wf = p -> length wr = q -> nonneg (wf ++ wr) ->
  groups_of p q pr = Ok gs -> positive_variances gs -> nothing_pays lam wf wr gs ->
  lme_fit_problem argsort cdf m coef pr (Some (zeros p)) (Some (zeros q)) warm fe re = Ok (co, lg) ->
  co_beta co = zeros p /\ co_gamma co = zeros q /\ (forall u, In u (co_effects co) -> u = zeros q) /\
  (0 <= mo_tol m -> (1 < mo_max_iter m)%Z -> reported_converged lg).
Proof. exact lme_l1_stays_at_zero_lemma. Qed.
Print Assumptions lme_l1_stays_at_zero.

(** C122.  Conversely, a fit of such a model from anywhere, with tol = 0, which reports convergence and has removed
    everything: no feature asks for more than the penalty takes. *)
Theorem lme_l1_zero_is_justified :
  forall argsort cdf m lam coef pr beta0 gamma0 warm fe re co lg wf wr gs,
  let p := num_fixed pr in let q := num_random pr in
  sensible m -> mo_penalty m = PenL1 lam -> mo_sr3 m = None -> mo_prior m = None -> mo_tol m = 0 -> (0 < p)%nat ->
  fit_weights pr fe re = Ok (wf, wr) -> length wf = p -> length wr = q -> nonneg (wf ++ wr) ->
  groups_of p q pr = Ok gs -> positive_variances gs ->
  lme_fit_problem argsort cdf m coef pr beta0 gamma0 warm fe re = Ok (co, lg) -> reported_converged lg ->
  co_beta co = zeros p -> co_gamma co = zeros q -> nothing_pays lam wf wr gs.
Proof. exact lme_l1_zero_is_justified_lemma. Qed.
Print Assumptions lme_l1_zero_is_justified.

(** C122.  For a given fixed step, positive weights and any data, prior, initializer and start: from some penalty on, every fit
    which makes an iteration returns zero for all coefficients and variances. *)
Theorem lme_l1_removes_all :
  forall argsort cdf m s coef pr beta0 gamma0 warm fe re wf wr,
  let p := num_fixed pr in let q := num_random pr in
  mo_sr3 m = None -> 0 <= mo_eps m -> mo_step_len m = Some s -> 0 < s -> mo_stepping m <> "line-search"%string ->
  (1 <= mo_max_iter m)%Z -> (0 < p)%nat ->
  opt_all (fun b => length b = p) beta0 ->
  fit_weights pr fe re = Ok (wf, wr) -> length wf = p -> length wr = q -> Forall (fun w => 0 < w) (wf ++ wr) ->
  exists lam0, 0 <= lam0 /\ forall lam co lg, lam0 <= lam ->
    lme_fit_problem argsort cdf (with_l1 lam m) coef pr beta0 gamma0 warm fe re = Ok (co, lg) ->
    co_beta co = zeros p /\ co_gamma co = zeros q.
Proof. exact lme_l1_removes_all_lemma. Qed.
Print Assumptions lme_l1_removes_all.

(** one group with (x, y, z, v) = (1, 42, 0, 1) and one with (0, 0, 1, 1): the penalty has to be 42 *)
Example ex_nothing_pays :
  exists gs, groups_of 1 1 apart_problem = Ok gs /\ positive_variances gs /\
    forall lam, nothing_pays lam [1] [1] gs <-> 42 <= lam.
Proof. exact ex_nothing_pays_lemma. Qed.

(** the assumptions for staying at zero hold for a fit which returns, and that fit reports convergence with tol = 0 *)
Example ex_lme_l1_stays :
  let m := flat_model (PenL1 1) None 2 0 in let pr := flat_problem 1 1 in
  sensible m /\ mo_penalty m = PenL1 1 /\ mo_sr3 m = None /\ mo_prior m = None /\ mo_initializer m <> "EM"%string /\ mo_tol m = 0 /\
  num_fixed pr = 1%nat /\ num_random pr = 1%nat /\ fit_weights pr None None = Ok ([1], [1]) /\ nonneg [1; 1] /\
  (exists gs, groups_of 1 1 pr = Ok gs /\ positive_variances gs /\ nothing_pays 1 [1] [1] gs) /\
  forall argsort cdf, exists co lg,
    lme_fit_problem argsort cdf m None pr (Some (zeros 1)) (Some (zeros 1)) false None None = Ok (co, lg) /\
    reported_converged lg /\ co_beta co = zeros 1 /\ co_gamma co = zeros 1.
Proof. exact ex_lme_l1_stays_lemma. Qed.

(** from the start (1, 1) with the step 1, penalties from 1 on *)
Example ex_lme_l1_removes :
  let m := {| mo_penalty := PenNone; mo_sr3 := None; mo_tol := 0; mo_max_iter := 1; mo_stepping := "fixed";
              mo_step_len := Some 1; mo_eps := 0; mo_initializer := "None"; mo_keys := (KTuple, []); mo_prior := None |} in
  let pr := flat_problem 1 1 in
  fit_weights pr None None = Ok ([1], [1]) /\ Forall (fun w => 0 < w) [1; 1] /\
  forall argsort cdf lam, 1 <= lam -> exists co lg,
    lme_fit_problem argsort cdf (with_l1 lam m) None pr None None false None None = Ok (co, lg) /\
    co_beta co = [0] /\ co_gamma co = [0].
Proof. exact ex_lme_l1_removes_lemma. Qed.
