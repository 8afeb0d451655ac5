(** Property C77: predict on the training table after fit (src/pysr3/lme/models.py). *)
From Verif.Base Require Import Py Vec Mat RMx.
From Verif.Model Require Import LmeProblem LmePredict Regularizers Solvers LmeInner LmeFit LmeUse.
From Verif.Spec Require Import LmeSpec FitSpec.
From mathcomp Require Import ssreflect ssrfun ssrbool eqtype ssrnat choice seq fintype
  finfun bigop finset ssralg matrix mxalgebra.
From Verif.Model Require Import LmeOracle LmeBridge.
From Verif.Spec Require Import MxSpec UseSpec.
From Verif.Proofs Require Import LmeUseMain.

Set Implicit Arguments.
Unset Strict Implicit.
Unset Printing Implicit Defensive.
Delimit Scope R_scope with coqR.
Local Open Scope ring_scope.

(** C77.  After a successful fit, predict on the training table succeeds and returns, group after group, X beta + Z u
    with the best prediction u of the random effects of the group - provided that the stored variances are 0 or above
    the threshold 1e-10 and the observation variances are positive.  In every group this is the target minus
    Lambda Omega^-1 (y - X beta), and its weighted sum of squared errors is at most that of the fixed effects alone. *)
Theorem fit_then_predict :
  forall argsort cdf m coef x y labels beta0 gamma0 warm ff fr fe re co lg, wf_table x ->
  lme_fit argsort cdf m coef x y (Some labels) beta0 gamma0 warm ff fr fe re = Ok (co, lg) ->
  exists pr gs, from_x_y x (Some y) None (Some labels) ff fr None None = Ok pr /\
    groups_of (num_fixed pr) (num_random pr) pr = Ok gs /\
    let beta := col_of (num_fixed pr) (co_beta co) in
    let gamma := col_of (num_random pr) (co_gamma co) in
    (blup_variances gamma -> positive_variances gs ->
     predict (Some (predictor co)) x (Some labels) ff fr = Ok (concat (List.map (fun g => vec_of (fitted beta gamma g)) gs)) /\
     forall g, List.In g gs ->
       fitted beta gamma g = g_y g - diag_mx (g_v g)^T *m invmx (Omega gamma g) *m resid beta g /\
       (weighted_ss (g_y g - fitted beta gamma g) <= weighted_ss (resid beta g))%coqR).
Proof. exact fit_then_predict_lemma. Qed.
Print Assumptions fit_then_predict.

(** a fit and a prediction covered by the theorem: one observation of 0 with features 0 *)
Example ex_fit_then_predict : wf_table flat_table /\
  exists co lg gs, lme_fit (fun _ => [::]) (fun x => x) (flat_model PenNone None 0 0%coqR) None flat_table [:: 0%coqR]
    (Some flat_labels) None None false false false None None = Ok (co, lg) /\
  groups_of 1 1 (flat_problem 1 1) = Ok gs /\ positive_variances gs /\ blup_variances (col_of 1 (co_gamma co)).
Proof. exact ex_fit_then_predict_lemma. Qed.
