(** Property C114: practical and standard SR3 mixed models apply the same penalty (src/pysr3/solvers.py, src/pysr3/lme). *)
From Verif.Base Require Import Py Vec Mat.
From Verif.Model Require Import LmeProblem Regularizers Solvers LmeInner LmeFit LmeBridge.
From Verif.Spec Require Import InnerSpec PracticalSpec.
From Verif.Proofs Require Import LmePracticalMain.

Open Scope list_scope.
Open Scope R_scope.

(** C114 (refuted).  L1LmeModelSR3 with lam = 40 and the default ell = 40 on two groups, one observing 42 for a fixed
    effect and the other 0 for a random one.  Started as usual, the standard method returns the fixed effect 1 for every
    limit of its iterations.  With practical=True and otherwise the same options the model returns 0, for every limit
    that lets it make an iteration. *)
Theorem practical_same_penalty_refuted : forall argsort cdf max_iter_oracle max_iter_solver, (0 < max_iter_oracle)%Z ->
  exists co lg co' lg',
  lme_fit_problem argsort cdf (apart_model false max_iter_oracle max_iter_solver) None apart_problem None None false None None = Ok (co, lg) /\
  lme_fit_problem argsort cdf (apart_model true max_iter_oracle max_iter_solver) None apart_problem None None false None None = Ok (co', lg') /\
  co_beta co = [1] /\ co_beta co' = [0].
Proof. exact practical_same_penalty_refuted_lemma. Qed.
Print Assumptions practical_same_penalty_refuted.

(** C114 (partial).  What the standard method projects: with the default step 1/ell, ell not 0, a gradient step of
    PGDSolver from w ends at the parameters [b ++ g] which the interior-point method returns for w. *)
Theorem standard_step_partial : forall solve p q c ss mem w d mem', ss_ell ss <> 0 -> sm_lam mem = sm_lam (sr3_start ss) ->
  o_grad (sr3_lme_oracle solve p q c ss) mem w = Ok (d, mem') ->
  exists b g tb tg,
  find_ip (lc_sr3 c) (ip_options_of ss None) p q solve no_minimizer (ss_warm ss) mem
    (vscale 2 (fst (x_to_beta_gamma p q w))) (vscale 2 (snd (x_to_beta_gamma p q w)))
    (fst (x_to_beta_gamma p q w)) (snd (x_to_beta_gamma p q w)) = Ok (b, g, tb, tg, mem') /\
  move w (vneg d) (1 / ss_ell ss) = Ok (b ++ g) /\ sm_lam mem' = sm_lam (sr3_start ss).
Proof. exact standard_step_partial_lemma. Qed.
Print Assumptions standard_step_partial.

(** the gradient of the sample problem at its start *)
Example ex_standard_step : forall cdf n, exists d mem',
  o_grad (sr3_lme_oracle list_solve 1 1 (problem_calls cdf apart_problem None (Some (apart_settings false n))) (apart_settings false n))
    (sr3_start (apart_settings false n)) [1; 1] = Ok (d, mem').
Proof. exact ex_standard_step_lemma. Qed.

(** C114 (partial).  What the practical method projects: an iteration of the interior-point method leaves tbeta and
    tgamma alone or replaces them by the projection of the new beta and gamma under the penalty ell times as strong
    as that of the standard method, taken like there with step 1/ell. *)
Theorem practical_step_partial : forall argsort calls solve ms ss r p q n s s', ss_ell ss <> 0 ->
  ip_body calls (ip_options_of ss (Some (prox argsort r))) p q solve ms n s = Ok s' ->
  is_tbeta s' = is_tbeta s /\ is_tgamma s' = is_tgamma s \/
  exists tx, prox argsort (strengthen (ss_ell ss) r) (is_beta s' ++ is_gamma s') (1 / ss_ell ss) = Ok tx /\
    (is_tbeta s', is_tgamma s') = x_to_beta_gamma p q tx.
Proof. exact practical_step_partial_lemma. Qed.
Print Assumptions practical_step_partial.

(** the first iteration on the sample problem: tbeta goes from 1 to 0 *)
Example ex_practical_step : forall argsort cdf n, exists s s',
  ip_body (lc_sr3 (problem_calls cdf apart_problem None (Some (apart_settings true n))))
    (ip_options_of (apart_settings true n)
       (Some (prox argsort (RPos (Some [false; true]) (Some (RElastic 0 (Some (RL1 40 (Some [1; 0])))))))))
    1 1 list_solve no_minimizer 1 s = Ok s' /\ is_tbeta s = [1] /\ is_tbeta s' = [0].
Proof. exact ex_practical_step_lemma. Qed.

(** C114 (partial).  In the terms of the constructors: a penalty times a is that of the model with lam and
    elastic_eps times a.  The L0 penalty has no such factor, so the two methods differ only in the elastic term. *)
Theorem stronger_model_partial : forall argsort a m ov r0 w r, model_reg m ov = Ok r0 -> instantiate r0 w (Some ov) = Ok r ->
  exists r0', model_reg (stronger a m) ov = Ok r0' /\ instantiate r0' w (Some ov) = Ok (strengthen a r) /\
  forall x t, prox argsort (strengthen a r) x t = prox argsort r x (a * t).
Proof. exact stronger_model_partial_lemma. Qed.
Print Assumptions stronger_model_partial.

(** The two projections coincide for ell = 1. *)
Theorem same_penalty_ell_one : forall argsort r x t, prox argsort (strengthen 1 r) x t = prox argsort r x t.
Proof. exact same_penalty_ell_one_lemma. Qed.
Print Assumptions same_penalty_ell_one.
