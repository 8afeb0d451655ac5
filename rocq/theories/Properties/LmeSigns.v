(** Property C123: signs of features and answers of a mixed model (src/pysr3/lme/models.py, problems.py). *)
From Verif.Base Require Import Py Vec Mat RMx.
From Verif.Model Require Import LmeProblem Regularizers LmeFit LmePredict LmeUse LmeBridge.
From Verif.Spec Require Import LmeSpec ColumnSpec FitSpec FeatureTableSpec FlipSpec.
From Verif.Proofs Require Import LmeSignsMain.

Open Scope list_scope.
Open Scope R_scope.

(** C123 (partial).  Change the signs of some features and perhaps of all answers, and that of the start accordingly.
    A model without relaxation then finds the same fit with the signs changed - coefficients, random effects,
    coefficients per group and log; the variances stay - or fails in the same way.  This is for a given start or for the
    starting step "EM". *)
Theorem lme_fit_flips_signs_partial :
  forall argsort cdf m coef x y labels cs e beta0 gamma0 warm ff fr fe re,
  unrelaxed m -> symmetric_cdf cdf -> wf_table x -> t_cols x = length labels -> column_signs labels cs ->
  e = 1 \/ e = -1 ->
  let p := (countb is_fixed labels + b2n ff)%nat in
  let q := (countb is_random labels + b2n fr)%nat in
  let s1 := role_signs is_fixed ff labels cs in
  let s2 := role_signs is_random fr labels cs in
  (0 < q)%nat -> beta0 <> None \/ mo_initializer m = "EM"%string ->
  (forall v, beta0 = Some v -> length v = p) -> (forall v, gamma0 = Some v -> length v = q) ->
  (forall v, fe = Some v -> length v = p) -> (forall v, re = Some v -> length v = q) ->
  lme_fit argsort cdf m coef (flip_table cs x) (vscale e y) (Some labels)
    (option_map (flip (vscale e s1)) beta0) gamma0 warm ff fr fe re
  = rmap (flip_lme_fit q e s1 s2 cs) (lme_fit argsort cdf m coef x y (Some labels) beta0 gamma0 warm ff fr fe re).
Proof. exact lme_fit_flips_signs_partial_lemma. Qed.
Print Assumptions lme_fit_flips_signs_partial.

(** a table of two fixed features and one random feature: the start 3, 5 becomes 3, -5 when the first feature and the
    answers change their signs, and so do the coefficients *)
Example ex_lme_fit_flips_signs : forall argsort cdf,
  let m := flat_model PenNone None 0 0 in
  let cs := [1; -1; 1; 1; 1] in
  unrelaxed m /\ wf_table twin_table /\ t_cols twin_table = length twin_labels /\ column_signs twin_labels cs /\
  role_signs is_fixed false twin_labels cs = [-1; 1] /\ role_signs is_random false twin_labels cs = [1] /\
  symmetric_cdf (fun _ => 1 / 2) /\
  (exists co lg, lme_fit argsort cdf m None twin_table [0] (Some twin_labels) (Some [3; 5]) (Some [1]) false false false None None
     = Ok (co, lg) /\ co_beta co = [3; 5]) /\
  exists co lg, lme_fit argsort cdf m None (flip_table cs twin_table) (vscale (-1) [0]) (Some twin_labels) (Some [3; -5]) (Some [1])
     false false false None None = Ok (co, lg) /\ co_beta co = [3; -5].
Proof. exact ex_lme_fit_flips_signs_lemma. Qed.

(** C123 (partial).  So does a relaxed (SR3) model with a given start, both when the solver makes gradient steps on the
    value function and in the practical mode; there the log must not contain the coefficients of the interior point
    method. *)
Theorem lme_fit_flips_signs_relaxed_partial :
  forall argsort cdf m ss coef x y labels cs e b0 gamma0 warm ff fr fe re,
  mo_sr3 m = Some ss -> (ss_practical ss = true -> logs_no_coefficients m) ->
  symmetric_cdf cdf -> wf_table x -> t_cols x = length labels -> column_signs labels cs ->
  e = 1 \/ e = -1 ->
  let p := (countb is_fixed labels + b2n ff)%nat in
  let q := (countb is_random labels + b2n fr)%nat in
  let s1 := role_signs is_fixed ff labels cs in
  let s2 := role_signs is_random fr labels cs in
  (0 < q)%nat -> length b0 = p -> (forall v, gamma0 = Some v -> length v = q) ->
  (forall v, fe = Some v -> length v = p) -> (forall v, re = Some v -> length v = q) ->
  lme_fit argsort cdf m coef (flip_table cs x) (vscale e y) (Some labels)
    (Some (flip (vscale e s1) b0)) gamma0 warm ff fr fe re
  = rmap (flip_lme_fit q e s1 s2 cs) (lme_fit argsort cdf m coef x y (Some labels) (Some b0) gamma0 warm ff fr fe re).
Proof. exact lme_fit_flips_signs_relaxed_partial_lemma. Qed.
Print Assumptions lme_fit_flips_signs_relaxed_partial.

(** the relaxed model on the table above *)
Example ex_lme_fit_flips_signs_relaxed : forall argsort cdf ss, ss_practical ss = false ->
  let m := flat_model PenNone (Some ss) 0 0 in
  let cs := [1; -1; 1; 1; 1] in
  mo_sr3 m = Some ss /\ logs_no_coefficients m /\
  (exists co lg, lme_fit argsort cdf m None twin_table [0] (Some twin_labels) (Some [3; 5]) (Some [1]) false false false None None
     = Ok (co, lg) /\ co_beta co = [3; 5]) /\
  exists co lg, lme_fit argsort cdf m None (flip_table cs twin_table) (vscale (-1) [0]) (Some twin_labels) (Some [3; -5]) (Some [1])
     false false false None None = Ok (co, lg) /\ co_beta co = [3; -5].
Proof. exact ex_lme_fit_flips_signs_relaxed_lemma. Qed.

(** C123.  The model with changed signs predicts the same values for new data with changed signs, with the sign of the
    answers, ... *)
Theorem lme_predictions_flip : forall co lg x labels cs e ff fr,
  wf_table x -> t_cols x = length labels -> column_signs labels cs -> e = 1 \/ e = -1 ->
  let q := (countb is_random labels + b2n fr)%nat in
  let r := flip_lme_fit q e (role_signs is_fixed ff labels cs) (role_signs is_random fr labels cs) cs (co, lg) in
  length (co_beta co) = (countb is_fixed labels + b2n ff)%nat -> Forall (fun u => length u = q) (co_effects co) ->
  predict (Some (predictor (fst r))) (flip_table cs x) (Some labels) ff fr
  = rmap (vscale e) (predict (Some (predictor co)) x (Some labels) ff fr).
Proof. exact lme_predictions_flip_lemma. Qed.
Print Assumptions lme_predictions_flip.

(** the row 1, 2, 4 has the prediction 3 * 1 + 5 * 2 + 7 * 4 *)
Example ex_lme_predictions_flip :
  wf_table signs_row /\ t_cols signs_row = length twin_labels /\ column_signs twin_labels [1; -1; 1; -1; 1] /\
  length (co_beta signs_coef) = (countb is_fixed twin_labels + b2n false)%nat /\
  Forall (fun u => length u = (countb is_random twin_labels + b2n false)%nat) (co_effects signs_coef) /\
  predict (Some (predictor signs_coef)) signs_row (Some twin_labels) false false = Ok [41].
Proof. exact ex_lme_predictions_flip_lemma. Qed.

(** C123.  ... and has the same score. *)
Theorem lme_score_flips : forall co lg x y labels cs e ff fr,
  wf_table x -> t_cols x = length labels -> column_signs labels cs -> e = 1 \/ e = -1 ->
  let q := (countb is_random labels + b2n fr)%nat in
  let r := flip_lme_fit q e (role_signs is_fixed ff labels cs) (role_signs is_random fr labels cs) cs (co, lg) in
  length (co_beta co) = (countb is_fixed labels + b2n ff)%nat -> Forall (fun u => length u = q) (co_effects co) ->
  score (Some (predictor (fst r))) (flip_table cs x) (vscale e y) (Some labels) ff fr
  = score (Some (predictor co)) x y (Some labels) ff fr.
Proof. exact lme_score_flips_lemma. Qed.
Print Assumptions lme_score_flips.

(** C123 (refuted).  Without a start a model begins with all coefficients 1, which has a sign.  A model that makes no step
    returns this start; it is not affected by the sign of a feature that is 0. *)
Theorem lme_fit_flips_signs_refuted : forall argsort cdf,
  let m := flat_model PenNone None 0 0 in
  let cs := [1; -1; 1; 1; 1] in
  let s1 := role_signs is_fixed false twin_labels cs in
  let s2 := role_signs is_random false twin_labels cs in
  unrelaxed m /\ wf_table twin_table /\ column_signs twin_labels cs /\
  lme_fit argsort cdf m None (flip_table cs twin_table) (vscale 1 [0]) (Some twin_labels) None None false false false None None
  <> rmap (flip_lme_fit 1 1 s1 s2 cs)
       (lme_fit argsort cdf m None twin_table [0] (Some twin_labels) None None false false false None None).
Proof. exact lme_fit_flips_signs_refuted_lemma. Qed.
Print Assumptions lme_fit_flips_signs_refuted.
