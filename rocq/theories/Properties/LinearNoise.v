(** Property C119: the loss of linear models and the declared noise (src/pysr3/linear/problems.py, oracles.py). *)
From Verif.Base Require Import Py Vec Mat.
From Verif.Model Require Import Linear.
From Verif.Spec Require Import LinearSpec NoiseSpec.
From Verif.Proofs Require Import LinearNoiseMain.

Open Scope R_scope.

(** C119 (partial).  When the variances of all observations are declared to be the same number v, or none are declared (v = 1),
    the loss is v times the negative log-likelihood plus a constant: both order all coefficients in the same way. *)
Theorem linear_loss_is_likelihood_partial : forall d pr v, 0 < v ->
  declared_variances d (lp_n pr) (lp_obs_std pr) = Some (repeat v (lp_n pr)) ->
  wf_mat (lp_p pr) (lp_a pr) -> length (lp_a pr) = lp_n pr -> length (lp_b pr) = lp_n pr ->
  forall x, length x = lp_p pr ->
  lin_loss {| lo_problem := Some pr; lo_prior := PNone |} x =
  Ok (v * (normal_nll (repeat v (lp_n pr)) (mv (lp_a pr) x) (lp_b pr) - INR (lp_n pr) / 2 * ln (2 * PI * v))).
Proof. exact linear_loss_is_likelihood_partial_lemma. Qed.
Print Assumptions linear_loss_is_likelihood_partial.

(** C119.  Nothing that is computed depends on the declared noise. *)
Theorem declared_noise_ignored : forall pr noise,
  let o p := {| lo_problem := Some p; lo_prior := PNone |} in
  (forall x, lin_loss (o (with_noise pr noise)) x = lin_loss (o pr) x /\
     lin_gradient (o (with_noise pr noise)) x = lin_gradient (o pr) x /\
     lin_aic (o (with_noise pr noise)) x = lin_aic (o pr) x /\ lin_bic (o (with_noise pr noise)) x = lin_bic (o pr) x) /\
  lin_hessian (o (with_noise pr noise)) = lin_hessian (o pr) /\
  forall argsort inv m x0 warm weights,
    linear_fit_problem argsort inv m (with_noise pr noise) x0 warm weights = linear_fit_problem argsort inv m pr x0 warm weights.
Proof. exact declared_noise_ignored_lemma. Qed.
Print Assumptions declared_noise_ignored.

(** C119 is false in general: with the variances 1 and 100 of the data frame the coefficient 0 is far more likely than 3/2, but
    its loss is larger. *)
Theorem linear_loss_is_likelihood_refuted : exists pr v,
  linear_from_dataframe noisy_frame ["a"%string] "y" None (Some (StdColumn "variance")) None = Ok pr /\
  declared_variances noisy_frame (lp_n pr) (lp_obs_std pr) = Some v /\ Forall (fun s => 0 < s) v /\
  exists l0 l1, lin_loss {| lo_problem := Some pr; lo_prior := PNone |} [0] = Ok l0 /\
    lin_loss {| lo_problem := Some pr; lo_prior := PNone |} [3 / 2] = Ok l1 /\ l1 < l0 /\
    normal_nll v (mv (lp_a pr) [0]) (lp_b pr) + 1 < normal_nll v (mv (lp_a pr) [3 / 2]) (lp_b pr).
Proof. exact linear_loss_is_likelihood_refuted_lemma. Qed.
Print Assumptions linear_loss_is_likelihood_refuted.

(** such problems: two observations with variance 4 each *)
Example ex_linear_loss_is_likelihood : exists pr,
  linear_from_dataframe noisy_frame ["a"%string] "y" None (Some (StdAll 4)) None = Ok pr /\
  declared_variances noisy_frame (lp_n pr) (lp_obs_std pr) = Some (repeat 4 (lp_n pr)) /\
  wf_mat (lp_p pr) (lp_a pr) /\ length (lp_a pr) = lp_n pr /\ length (lp_b pr) = lp_n pr.
Proof. exact ex_linear_loss_is_likelihood_lemma. Qed.
