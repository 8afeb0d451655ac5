(** Properties C39-C41: loss, gradients and Hessians of the mixed-model oracle
    (src/pysr3/lme/oracles.py); C47: their SR3 relaxation. *)
From Verif.Base Require Import Py Vec RMx.
From mathcomp Require Import ssreflect ssrfun ssrbool eqtype ssrnat choice seq fintype
  finfun bigop finset ssralg matrix mxalgebra.
From Verif.Model Require Import LmeOracle.
From Verif.Spec Require Import MxSpec.
From Verif.Proofs Require Import LmeOracleMain.

Set Implicit Arguments.
Unset Strict Implicit.
Unset Printing Implicit Defensive.
Delimit Scope R_scope with coqR.
Local Open Scope ring_scope.

(** C39.  The loss is the negative log-likelihood of y ~ N(X beta, Z diag(gamma) Z' + Lambda) summed over
    the groups, plus the prior; this holds for non-negative gamma and positive variances, and whenever
    the marginal covariances are positive definite. *)
Theorem loss_is_likelihood : forall (p q : nat) (gs : seq (group p q)) (pr : lme_prior p q) beta gamma,
  (nonnegative gamma -> positive_variances gs -> admissible gs gamma) /\
  (admissible gs gamma ->
   lme_loss gs pr beta gamma = Ok (\sum_(g <- gs) nll beta gamma g + prior_loss pr beta gamma)%coqR).
Proof. exact loss_is_likelihood_lemma. Qed.
Print Assumptions loss_is_likelihood.

(** C39.  Otherwise the factorisation fails: every evaluation raises LinAlgError, none returns a value. *)
Theorem not_admissible_raises : forall (p q : nat) (gs : seq (group p q)) (pr : lme_prior p q) beta gamma,
  ~ admissible gs gamma ->
  lme_loss gs pr beta gamma = Err LinAlgError /\
  lme_gradient_gamma gs pr beta gamma = Err LinAlgError /\
  lme_gradient_beta gs pr beta gamma = Err LinAlgError /\
  lme_optimal_beta gs gamma = Err LinAlgError /\
  lme_random_effects gs beta gamma = Err LinAlgError.
Proof. exact not_admissible_raises_lemma. Qed.
Print Assumptions not_admissible_raises.

(** one observation: x = 1, y = 3, z = 1, variance 1, at beta = 1, gamma = 1: Omega = 2, residual 2 *)
Example ex_loss_is_likelihood :
  lme_loss [:: one_obs 1 3 1 1] LNone 1%:M 1%:M = Ok (1 + / 2 * ln 2)%coqR.
Proof. exact ex_loss_is_likelihood_lemma. Qed.

(** C40.  At every admissible gamma the two gradients exist and are the partial derivatives of the loss; the
    loss is defined in a neighbourhood. *)
Theorem gradients_are_derivatives : forall (p q : nat) (gs : seq (group p q)) (pr : lme_prior p q) beta gamma,
  admissible gs gamma -> prior_stds_nonzero pr ->
  exists db dg,
    lme_gradient_beta gs pr beta gamma = Ok db /\ lme_gradient_gamma gs pr beta gamma = Ok dg /\
    (forall j, derivable_pt_lim (fun t => value (lme_loss gs pr (along beta j t) gamma)) 0 (db j ord0)) /\
    (forall j, derivable_pt_lim (fun t => value (lme_loss gs pr beta (along gamma j t))) 0 (dg j ord0)) /\
    (forall j, exists eps, (0 < eps)%coqR /\ forall t, (Rabs t < eps)%coqR ->
       exists l, lme_loss gs pr beta (along gamma j t) = Ok l).
Proof. exact gradients_are_derivatives_lemma. Qed.
Print Assumptions gradients_are_derivatives.

(** one observation at beta = 1, gamma = 1: gradients -r/Omega = -1 and 1/(2 Omega) - r^2/(2 Omega^2) = -1/4 *)
Example ex_gradients_are_derivatives :
  entry (lme_gradient_beta [:: one_obs 1 3 1 1] LNone 1%:M 1%:M) ord0 = (-1)%coqR /\
  entry (lme_gradient_gamma [:: one_obs 1 3 1 1] LNone 1%:M 1%:M) ord0 = (- / 4)%coqR.
Proof. exact ex_gradients_are_derivatives_lemma. Qed.

(** C41 (partial).  When the prior has a column for each coefficient, or there is none, the Hessians are the partial
    derivatives of the gradients; the mixed one always, and in both orders. *)
Theorem hessians_are_derivatives_partial : forall (p q : nat) (gs : seq (group p q)) (pr : lme_prior p q) beta gamma,
  admissible gs gamma ->
  exists hb hg hbg,
    lme_hessian_beta gs pr gamma = Ok hb /\ lme_hessian_gamma gs pr false false beta gamma = Ok hg /\
    lme_hessian_beta_gamma gs beta gamma = Ok hbg /\
    (each_column pr ->
     (forall i j, derivable_pt_lim (fun t => entry (lme_gradient_beta gs pr (along beta j t) gamma) i) 0 (hb i j)) /\
     (forall i j, derivable_pt_lim (fun t => entry (lme_gradient_gamma gs pr beta (along gamma j t)) i) 0 (hg i j))) /\
    (forall i j, derivable_pt_lim (fun t => entry (lme_gradient_beta gs pr beta (along gamma j t)) i) 0 (hbg i j)) /\
    (forall i j, derivable_pt_lim (fun t => entry (lme_gradient_gamma gs pr (along beta i t) gamma) j) 0 (hbg i j)).
Proof. exact hessians_are_derivatives_partial_lemma. Qed.
Print Assumptions hessians_are_derivatives_partial.

(** C41.  The Hessian used by the interior-point method (positive part, or expected value) is symmetric
    positive semidefinite for every prior with positive deviations and non-negative weights; so is the
    Hessian in beta. *)
Theorem newton_matrices_psd : forall (p q : nat) (gs : seq (group p q)) (pr : lme_prior p q) beta gamma positive expected,
  admissible gs gamma -> convex_prior pr -> positive || expected ->
  (exists h, lme_hessian_gamma gs pr positive expected beta gamma = Ok h /\ psd h) /\
  (exists h, lme_hessian_beta gs pr gamma = Ok h /\ psd h).
Proof. exact newton_matrices_psd_lemma. Qed.
Print Assumptions newton_matrices_psd.

(** one observation at beta = 1, gamma = 1: hessian_beta = 1/2, hessian_gamma = -1/8 + 1/2 = 3/8 (exact),
    1/2 (positive part) and 1/8 (expected) *)
Example ex_hessians_are_derivatives :
  let gs := [:: one_obs 1 3 1 1] in
  (exists h, lme_hessian_beta gs LNone 1%:M = Ok h /\ h ord0 ord0 = (/ 2)%coqR) /\
  (exists h, lme_hessian_gamma gs LNone false false 1%:M 1%:M = Ok h /\ h ord0 ord0 = (3 / 8)%coqR) /\
  (exists h, lme_hessian_gamma gs LNone true false 1%:M 1%:M = Ok h /\ h ord0 ord0 = (/ 2)%coqR) /\
  (exists h, lme_hessian_gamma gs LNone false true 1%:M 1%:M = Ok h /\ h ord0 ord0 = (/ 8)%coqR).
Proof. exact ex_hessians_are_derivatives_lemma. Qed.

(** C47.  The SR3 loss adds lb/2 |beta - tbeta|^2 + lg/2 |gamma - tgamma|^2 to the plain loss, and fails
    exactly when the plain loss does. *)
Theorem sr3_loss_adds : forall (p q : nat) (gs : seq (group p q)) (pr : lme_prior p q) lb lg beta gamma tbeta tgamma,
  sr3_loss lb lg gs pr beta gamma tbeta tgamma =
  match lme_loss gs pr beta gamma with
  | Ok l => Ok (l + (lb / 2 * (\sum_i ((beta i ord0 - tbeta i ord0) ^ 2)%coqR))
                + (lg / 2 * (\sum_i ((gamma i ord0 - tgamma i ord0) ^ 2)%coqR)))%coqR
  | Err e => Err e
  end.
Proof. exact sr3_loss_adds_lemma. Qed.
Print Assumptions sr3_loss_adds.

(** C47.  Its gradients are its partial derivatives and, when the prior has a column for each coefficient, its Hessians
    the derivatives of those. *)
Theorem sr3_derivatives : forall (p q : nat) (gs : seq (group p q)) (pr : lme_prior p q) lb lg beta gamma tbeta tgamma,
  admissible gs gamma -> prior_stds_nonzero pr ->
  exists db dg hb hg,
    sr3_gradient_beta lb gs pr beta gamma tbeta = Ok db /\ sr3_gradient_gamma lg gs pr beta gamma tgamma = Ok dg /\
    sr3_hessian_beta lb gs pr gamma = Ok hb /\ sr3_hessian_gamma lg gs pr false false beta gamma = Ok hg /\
    (forall j, derivable_pt_lim (fun t => value (sr3_loss lb lg gs pr (along beta j t) gamma tbeta tgamma)) 0 (db j ord0)) /\
    (forall j, derivable_pt_lim (fun t => value (sr3_loss lb lg gs pr beta (along gamma j t) tbeta tgamma)) 0 (dg j ord0)) /\
    (each_column pr ->
     (forall i j, derivable_pt_lim (fun t => entry (sr3_gradient_beta lb gs pr (along beta j t) gamma tbeta) i) 0 (hb i j)) /\
     (forall i j, derivable_pt_lim (fun t => entry (sr3_gradient_gamma lg gs pr beta (along gamma j t) tgamma) i) 0 (hg i j))).
Proof. exact sr3_derivatives_lemma. Qed.
Print Assumptions sr3_derivatives.

(** C47.  With lb = lg = 0 every evaluation is that of the plain oracle. *)
Theorem sr3_zero_is_plain : forall (p q : nat) (gs : seq (group p q)) (pr : lme_prior p q) beta gamma tbeta tgamma b1 b2,
  sr3_loss 0 0 gs pr beta gamma tbeta tgamma = lme_loss gs pr beta gamma /\
  sr3_gradient_beta 0 gs pr beta gamma tbeta = lme_gradient_beta gs pr beta gamma /\
  sr3_gradient_gamma 0 gs pr beta gamma tgamma = lme_gradient_gamma gs pr beta gamma /\
  sr3_hessian_beta 0 gs pr gamma = lme_hessian_beta gs pr gamma /\
  sr3_hessian_gamma 0 gs pr b1 b2 beta gamma = lme_hessian_gamma gs pr b1 b2 beta gamma /\
  sr3_optimal_beta 0 gs gamma tbeta = lme_optimal_beta gs gamma.
Proof. exact sr3_zero_is_plain_lemma. Qed.
Print Assumptions sr3_zero_is_plain.

(** with lb = lg = 2 and tbeta = tgamma = 0 the example above has loss 1 + ln 2 / 2 + 1 + 1 *)
Example ex_sr3_loss_adds :
  sr3_loss 2 2 [:: one_obs 1 3 1 1] LNone 1%:M 1%:M 0 0 = Ok (1 + / 2 * ln 2 + 1 + 1)%coqR.
Proof. exact ex_sr3_loss_adds_lemma. Qed.
