(** Final lemmas about the noise of linear problems, restated as theorems in Properties/LinearNoise.v. *)
(*HEAD
(** Property C119: the loss of linear models and the declared noise (src/pysr3/linear/problems.py, oracles.py). *)
From Verif.Base Require Import Py Vec Mat.
From Verif.Model Require Import Linear.
From Verif.Spec Require Import LinearSpec NoiseSpec.
HEAD*)
From Verif.Base Require Import Py Vec Mat.
From Verif.Model Require Import Linear.
From Verif.Spec Require Import LinearSpec NoiseSpec.
From Verif.Proofs Require Import VecFacts SolverProofs LinearProofs LinearMain.
From Coq Require Import Lra Lia.
(*OPEN
Open Scope R_scope.
OPEN*)
Open Scope R_scope.

Lemma norm_sq v : (norm v) ^ 2 = sqnorm v.
Proof. unfold norm. rewrite <- Rsqr_pow2. apply Rsqr_sqrt. apply sqnorm_nonneg. Qed.
Lemma nll_uniform v : 0 < v -> forall m b, length m = length b ->
  v * (normal_nll (repeat v (length b)) m b - INR (length b) / 2 * ln (2 * PI * v)) = / 2 * sqnorm (vsub m b).
Proof.
  intros Hv. induction m as [|x m IH]; intros [|y b] L; try discriminate.
  - simpl. unfold sqnorm, vdot, vsum, vmul. simpl. lra.
  - injection L as L. specialize (IH b L). cbn [length repeat normal_nll]. rewrite S_INR.
    replace (sqnorm (vsub (x :: m) (y :: b))) with ((x - y) ^ 2 + sqnorm (vsub m b)) by (unfold sqnorm, vdot, vsum, vmul, vsub; simpl; ring).
    rewrite Rmult_plus_distr_l, <- IH. field. lra.
Qed.

(*@ C119 (partial).  When the variances of all observations are declared to be the same number v, or none are declared (v = 1),
    the loss is v times the negative log-likelihood plus a constant: both order all coefficients in the same way. *)
Lemma linear_loss_is_likelihood_partial_lemma : forall d pr v, 0 < v ->
  declared_variances d (lp_n pr) (lp_obs_std pr) = Some (repeat v (lp_n pr)) ->
  wf_mat (lp_p pr) (lp_a pr) -> length (lp_a pr) = lp_n pr -> length (lp_b pr) = lp_n pr ->
  forall x, length x = lp_p pr ->
  lin_loss {| lo_problem := Some pr; lo_prior := PNone |} x =
  Ok (v * (normal_nll (repeat v (lp_n pr)) (mv (lp_a pr) x) (lp_b pr) - INR (lp_n pr) / 2 * ln (2 * PI * v))).
Proof.
  intros d pr v Hv _ W La Lb x Lx. unfold lin_loss, residual. cbn [lo_problem lo_prior].
  rewrite Lx, Lb, !Nat.eqb_refl. cbn [guard rbind prior_loss]. f_equal.
  rewrite norm_sq, <- Lb. rewrite nll_uniform; [lra|auto|]. unfold mv. rewrite map_length. exact (eq_trans La (eq_sym Lb)).
Qed.

(*@ C119.  Nothing that is computed depends on the declared noise. *)
Lemma declared_noise_ignored_lemma : forall pr noise,
  let o p := {| lo_problem := Some p; lo_prior := PNone |} in
  (forall x, lin_loss (o (with_noise pr noise)) x = lin_loss (o pr) x /\
     lin_gradient (o (with_noise pr noise)) x = lin_gradient (o pr) x /\
     lin_aic (o (with_noise pr noise)) x = lin_aic (o pr) x /\ lin_bic (o (with_noise pr noise)) x = lin_bic (o pr) x) /\
  lin_hessian (o (with_noise pr noise)) = lin_hessian (o pr) /\
  forall argsort inv m x0 warm weights,
    linear_fit_problem argsort inv m (with_noise pr noise) x0 warm weights = linear_fit_problem argsort inv m pr x0 warm weights.
Proof.
  intros pr noise o. split; [intros x; repeat split; reflexivity|]. split; [reflexivity|].
  intros argsort inv m x0 warm weights. exact (proj1 must_include_fit_refuted_lemma argsort inv m pr (lp_weights pr) noise x0 warm weights).
Qed.

(*@ C119 is false in general: with the variances 1 and 100 of the data frame the coefficient 0 is far more likely than 3/2, but
    its loss is larger. *)
Lemma linear_loss_is_likelihood_refuted_lemma : exists pr v,
  linear_from_dataframe noisy_frame ["a"%string] "y" None (Some (StdColumn "variance")) None = Ok pr /\
  declared_variances noisy_frame (lp_n pr) (lp_obs_std pr) = Some v /\ Forall (fun s => 0 < s) v /\
  exists l0 l1, lin_loss {| lo_problem := Some pr; lo_prior := PNone |} [0] = Ok l0 /\
    lin_loss {| lo_problem := Some pr; lo_prior := PNone |} [3 / 2] = Ok l1 /\ l1 < l0 /\
    normal_nll v (mv (lp_a pr) [0]) (lp_b pr) + 1 < normal_nll v (mv (lp_a pr) [3 / 2]) (lp_b pr).
Proof.
  eexists; exists [1; 100]. split; [reflexivity|]. split; [reflexivity|]. split; [repeat constructor; lra|].
  do 2 eexists. split; [reflexivity|]. split; [reflexivity|]. rewrite !norm_sq.
  unfold sqnorm, vdot, vsum, vmul. cbn. split; lra.
Qed.

(*@ such problems: two observations with variance 4 each *)
Lemma ex_linear_loss_is_likelihood_lemma : exists pr,
  linear_from_dataframe noisy_frame ["a"%string] "y" None (Some (StdAll 4)) None = Ok pr /\
  declared_variances noisy_frame (lp_n pr) (lp_obs_std pr) = Some (repeat 4 (lp_n pr)) /\
  wf_mat (lp_p pr) (lp_a pr) /\ length (lp_a pr) = lp_n pr /\ length (lp_b pr) = lp_n pr.
Proof. eexists. split; [reflexivity|]. split; [reflexivity|]. split; [repeat constructor|]. split; reflexivity. Qed.
