(** Properties C96-C98: units of measurement (src/pysr3/lme/oracles.py). *)
From Verif.Base Require Import Py Vec RMx.
From mathcomp Require Import ssreflect ssrfun ssrbool eqtype ssrnat choice seq fintype
  finfun bigop finset ssralg matrix mxalgebra.
From Verif.Model Require Import LmeOracle.
From Verif.Spec Require Import MxSpec UnitsSpec.
From Verif.Proofs Require Import LmeUnitsMain.

Set Implicit Arguments.
Unset Strict Implicit.
Unset Printing Implicit Defensive.
Delimit Scope R_scope with coqR.
Local Open Scope ring_scope.

(** C96.  Data in other units - the target multiplied by c and shifted by a combination X b of the fixed features,
    the fixed features replaced by invertible combinations X A of them, the random features multiplied by s_j -
    and the parameters of the same model: the loss changes by N ln|c|, and its derivatives follow the chain rule.
    Exceptions are the same. *)
Theorem derivatives_follow_units : forall (p q : nat) (U : units p q), sensible U ->
  forall (gs : seq (group p q)) beta gamma,
  let gs' := List.map (convert U) gs in
  let beta' := convert_beta U beta in
  let gamma' := convert_gamma U gamma in
  let c := u_scale U in let A := u_fixed U in let s j := u_random U j ord0 in
  lme_loss gs' LNone beta' gamma' =
    rmap (fun l => l + INR (total_obs gs) * ln (Rabs c))%coqR (lme_loss gs LNone beta gamma) /\
  lme_gradient_beta gs' LNone beta' gamma' =
    rmap (fun d => (/ c)%coqR *: (A^T *m d)) (lme_gradient_beta gs LNone beta gamma) /\
  lme_gradient_gamma gs' LNone beta' gamma' =
    rmap (fun d : 'cV[R]_q => \col_j (s j ^ 2 / c ^ 2 * d j ord0)%coqR) (lme_gradient_gamma gs LNone beta gamma) /\
  lme_hessian_beta gs' LNone gamma' =
    rmap (fun h => (/ c ^ 2)%coqR *: (A^T *m h *m A)) (lme_hessian_beta gs LNone gamma) /\
  (forall positive expected, lme_hessian_gamma gs' LNone positive expected beta' gamma' =
    rmap (fun h : 'M[R]_q => \matrix_(i, j) (s i ^ 2 * s j ^ 2 / c ^ 4 * h i j)%coqR)
      (lme_hessian_gamma gs LNone positive expected beta gamma)) /\
  lme_hessian_beta_gamma gs' beta' gamma' =
    rmap (fun h => (/ c ^ 3)%coqR *: (A^T *m h *m diagv (\col_j (s j ^ 2)%coqR))) (lme_hessian_beta_gamma gs beta gamma).
Proof. exact derivatives_follow_units_lemma. Qed.
Print Assumptions derivatives_follow_units.

(** C96.  So do the optimal coefficients and their covariance. *)
Theorem optimal_beta_follows_units : forall (p q : nat) (U : units p q), sensible U ->
  forall (gs : seq (group p q)) gamma,
  let gs' := List.map (convert U) gs in
  let gamma' := convert_gamma U gamma in
  let iA := invmx (u_fixed U) in
  lme_optimal_beta gs' gamma' = rmap (convert_beta U) (lme_optimal_beta gs gamma) /\
  lme_covariance_beta gs' LNone gamma' =
    rmap (fun C => (u_scale U ^ 2)%coqR *: (iA *m C *m iA^T)) (lme_covariance_beta gs LNone gamma).
Proof. exact optimal_beta_follows_units_lemma. Qed.
Print Assumptions optimal_beta_follows_units.

(** one observation of 3 metres, in centimetres: 300, and the optimal coefficient is 300 *)
Example ex_derivatives_follow_units :
  sensible (target_units 1 1 100%coqR) /\
  convert (target_units 1 1 100%coqR) (one_obs 1 3 1 1) = one_obs 1 300%coqR 1 10000%coqR /\
  lme_optimal_beta [:: one_obs 1 3 1 1] 1%:M = Ok 3%coqR%:M /\
  lme_optimal_beta [:: one_obs 1 300%coqR 1 10000%coqR] (10000%coqR%:M : 'cV[R]_1) = Ok 300%coqR%:M.
Proof. exact ex_derivatives_follow_units_lemma. Qed.

(** C97 (partial).  When the variances that exceed 1e-10 are the same in both units, the random effects follow the
    units, the fitted values are those of the old units, converted like the target, and the conditional loss changes
    by N ln|c|. *)
Theorem random_effects_follow_units_partial : forall (p q : nat) (U : units p q), sensible U ->
  forall (gs : seq (group p q)) beta gamma, same_estimated U gamma ->
  let gs' := List.map (convert U) gs in
  let beta' := convert_beta U beta in
  let gamma' := convert_gamma U gamma in
  lme_random_effects gs' beta' gamma' = rmap (List.map (convert_effects U)) (lme_random_effects gs beta gamma) /\
  (forall (g : group p q) u, fitted_values (convert U g) beta' (convert_effects U u) =
     u_scale U *: (fitted_values g beta u + g_x g *m u_shift U)) /\
  (positive_variances gs -> lme_demarginalized_loss gs' LNone beta' gamma' =
     rmap (fun l => l + INR (total_obs gs) * ln (Rabs (u_scale U)))%coqR (lme_demarginalized_loss gs LNone beta gamma)).
Proof. exact random_effects_follow_units_partial_lemma. Qed.
Print Assumptions random_effects_follow_units_partial.

(** the change from metres to centimetres keeps the variance 1 above the threshold *)
Example ex_random_effects_follow_units_partial :
  sensible (target_units 1 1 100%coqR) /\ same_estimated (target_units 1 1 100%coqR) (1%:M : 'cV[R]_1) /\
  lme_random_effects [:: one_obs 1 3 1 1] 1%:M 1%:M = Ok [:: 1%:M].
Proof. exact ex_random_effects_follow_units_partial_lemma. Qed.

(** C97 (refuted).  The threshold is absolute.  One observation 3 = 1 * 1 + u with variances 1 and 1 has the effect
    u = 1; with the target in millionths of the unit (c = 1e-6) the effect is estimated as 0 rather than 1e-6. *)
Theorem random_effects_follow_units_refuted :
  exists (U : units 1 1) (gs : seq (group 1 1)) beta gamma u,
    sensible U /\ positive_variances gs /\ nonnegative gamma /\
    lme_random_effects gs beta gamma = Ok [:: u] /\
    lme_random_effects (List.map (convert U) gs) (convert_beta U beta) (convert_gamma U gamma) = Ok [:: 0] /\
    convert_effects U u <> 0.
Proof. exact random_effects_follow_units_refuted_lemma. Qed.
Print Assumptions random_effects_follow_units_refuted.

(** C97 (refuted).  covariance_random_effects has no unit at all: it subtracts the square of an inverse Cholesky
    factor from its first power.  For one observation with Omega = 4 it reports -1/2; with the target in halves of
    the unit (c = 2) it reports -12, where the covariance of the converted effect would be 4 * (-1/2). *)
Theorem covariance_random_effects_units_refuted :
  exists (U : units 1 1) (gs : seq (group 1 1)) gamma (C C' : 'M[R]_1),
    sensible U /\ positive_variances gs /\ nonnegative gamma /\ same_estimated U gamma /\
    (forall u, convert_effects U u = u_scale U *: u) /\
    lme_covariance_random_effects gs LNone gamma = Ok [:: C] /\
    lme_covariance_random_effects (List.map (convert U) gs) LNone (convert_gamma U gamma) = Ok [:: C'] /\
    C' <> (u_scale U ^ 2)%coqR *: C.
Proof. exact covariance_random_effects_units_refuted_lemma. Qed.
Print Assumptions covariance_random_effects_units_refuted.

(** C98 (partial).  When the numbers of coefficients at or above the tolerance are the same in both units, Jones'
    criterion and the marginal criterion of Vaida and Blanchard change by 2 N ln|c| and that of Mueller and Hui by
    2 ln|c|; so does the conditional criterion when the estimated random effects are the same.  None of the changes
    depends on the parameters. *)
Theorem criteria_follow_units_partial : forall (p q : nat) (U : units p q), sensible U ->
  forall (gs : seq (group p q)) tol beta gamma,
  let gs' := List.map (convert U) gs in
  let beta' := convert_beta U beta in
  let gamma' := convert_gamma U gamma in
  let N := INR (total_obs gs) in let k := ln (Rabs (u_scale U)) in
  count_ge tol beta' = count_ge tol beta -> count_ge tol gamma' = count_ge tol gamma ->
  lme_jones_bic gs' LNone tol beta' gamma' = rmap (fun v => v + 2 * N * k)%coqR (lme_jones_bic gs LNone tol beta gamma) /\
  ((0 < total_obs gs)%N -> lme_muller_ic gs' LNone tol beta' gamma' =
    rmap (fun v => v + 2 * k)%coqR (lme_muller_ic gs LNone tol beta gamma)) /\
  lme_vaida_aic gs' LNone tol true beta' gamma' =
    rmap (fun v => v + 2 * N * k)%coqR (lme_vaida_aic gs LNone tol true beta gamma) /\
  (same_estimated U gamma -> positive_variances gs ->
   lme_vaida_aic gs' LNone tol false beta' gamma' =
    rmap (fun v => v + 2 * N * k)%coqR (lme_vaida_aic gs LNone tol false beta gamma)).
Proof. exact criteria_follow_units_partial_lemma. Qed.
Print Assumptions criteria_follow_units_partial.

(** the counts agree with the tolerance 1/2 for the coefficients 1 and 1, in metres and in centimetres *)
Example ex_criteria_follow_units_partial :
  let U := target_units 1 1 100%coqR in
  sensible U /\ count_ge (1 / 2)%coqR (convert_beta U 1%:M) = count_ge (1 / 2)%coqR (1%:M : 'cV[R]_1) /\
  count_ge (1 / 2)%coqR (convert_gamma U 1%:M) = count_ge (1 / 2)%coqR (1%:M : 'cV[R]_1) /\
  lme_muller_ic [:: one_obs 1 1 1 1] LNone (1 / 2)%coqR 1%:M 1%:M = Ok (ln 2 + 2)%coqR.
Proof. exact ex_criteria_follow_units_partial_lemma. Qed.

(** C98 (refuted).  The tolerance is absolute, so the unit of the target can decide which of two models has the
    smaller criterion: for the observation 2 = u + e and the tolerance 1/2, the model without variance wins
    against gamma = 1, and loses against it when the target is counted in tens (c = 1/10). *)
Theorem criteria_follow_units_refuted :
  exists (U : units 1 1) (gs : seq (group 1 1)) tol beta gamma1 gamma2 a1 a2 b1 b2,
    sensible U /\ positive_variances gs /\ nonnegative gamma1 /\ nonnegative gamma2 /\ (0 < tol)%coqR /\
    lme_muller_ic gs LNone tol beta gamma1 = Ok a1 /\ lme_muller_ic gs LNone tol beta gamma2 = Ok a2 /\
    (a1 < a2)%coqR /\
    lme_muller_ic (List.map (convert U) gs) LNone tol (convert_beta U beta) (convert_gamma U gamma1) = Ok b1 /\
    lme_muller_ic (List.map (convert U) gs) LNone tol (convert_beta U beta) (convert_gamma U gamma2) = Ok b2 /\
    (b2 < b1)%coqR.
Proof. exact criteria_follow_units_refuted_lemma. Qed.
Print Assumptions criteria_follow_units_refuted.
