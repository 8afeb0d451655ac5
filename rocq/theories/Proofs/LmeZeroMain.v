(** Final lemmas about mixed models with zero variances, restated as theorems in Properties/LmeZero.v. *)
(*HEAD
(** Property C125: random effects with zero variance (src/pysr3/lme/oracles.py). *)
From Verif.Base Require Import Py Vec Mat RMx.
From Verif.Model Require Linear Priors.
From Verif.Spec Require LinearSpec.
From mathcomp Require Import ssreflect ssrfun ssrbool eqtype ssrnat choice seq fintype
  finfun bigop finset ssralg matrix mxalgebra.
From Verif.Model Require Import LmeOracle LmeBridge.
From Verif.Spec Require Import MxSpec ZeroSpec ZeroLinearSpec.
HEAD*)
From Coq Require Import Lra.
From Verif.Base Require Import Py Vec Mat RMx.
From Verif.Model Require Linear Priors.
From Verif.Spec Require LinearSpec.
From mathcomp Require Import ssreflect ssrfun ssrbool eqtype ssrnat choice seq fintype
  finfun bigop finset ssralg zmodp matrix mxalgebra.
From Verif.Model Require Import LmeOracle LmeBridge.
From Verif.Spec Require Import MxSpec ZeroSpec ZeroLinearSpec.
From Verif.Proofs Require Import MxFacts LmeOracleProofs LmeEstimateMain ZeroProofs BridgeProofs ZeroLinear.
(*OPEN
Set Implicit Arguments.
Unset Strict Implicit.
Unset Printing Implicit Defensive.
Delimit Scope R_scope with coqR.
Local Open Scope ring_scope.
OPEN*)
Set Implicit Arguments.
Unset Strict Implicit.
Unset Printing Implicit Defensive.
Delimit Scope R_scope with coqR.
Local Open Scope ring_scope.
Import GRing.Theory.

(*@ C125.  When all variances of random effects are zero the loss is that of weighted least squares, the random effects
    are zero, and the marginal and the conditional loss agree. *)
Lemma lme_zero_variances_loss_lemma : forall (p q : nat) (gs : seq (group p q)) (pr : lme_prior p q) beta,
  positive_variances gs ->
  lme_loss gs pr beta 0 = Ok (weighted_squares gs beta + log_variances gs + prior_loss pr beta 0)%coqR /\
  lme_random_effects gs beta 0 = Ok (List.map (fun _ => 0) gs) /\
  lme_demarginalized_loss gs pr beta 0 = lme_loss gs pr beta 0.
Proof.
  move=> p q gs pr beta h; split; first exact: loss_zero. split; [exact: effects_zero | exact: conditional_zero].
Qed.
(*@ one observation x = 1, y = 3 with variance 1 at beta = 1: the loss is 1/2 * 2^2 *)
Lemma ex_lme_zero_variances_loss_lemma :
  positive_variances [:: one_obs 1 3 1 1] /\ weighted_squares [:: one_obs 1 3 1 1] 1%:M = 2%coqR.
Proof.
  split; first by move=> g [<-|[]] i; rewrite /one_obs /= ord1 mxE eqxx mulr1n; lra.
  by rewrite /weighted_squares big_cons big_nil big_ord1 /resid /= !mxE big_ord1 !mxE eqxx !mulr1n; toR; field.
Qed.

(*@ C125.  There the gradient in beta is that of weighted least squares, and the gradient in the variance of a random
    effect compares its weighted sum of squares with its squared weighted product with the residuals. *)
Lemma lme_zero_variances_gradients_lemma : forall (p q : nat) (gs : seq (group p q)) (pr : lme_prior p q) beta,
  positive_variances gs -> exists db dg,
  lme_gradient_beta gs pr beta 0 = Ok db /\ lme_gradient_gamma gs pr beta 0 = Ok dg /\
  (forall i, db i ord0 = (\sum_(g <- gs) (- weighted_dot (col i (g_x g)) (resid beta g))%coqR + prior_gradient_beta pr beta i ord0)%coqR) /\
  (forall j, dg j ord0 = (\sum_(g <- gs) (/ 2 * weighted_dot (col j (g_z g)) (col j (g_z g))
      - / 2 * weighted_dot (col j (g_z g)) (resid beta g) ^ 2)%coqR + prior_gradient_gamma pr 0 j ord0)%coqR).
Proof. move=> p q gs pr beta; exact: gradients_zero. Qed.
(*@ in the example above the products are 2, 1 and 2, and the variance has the gradient 1/2 - 1/2 * 2^2 *)
Lemma ex_lme_zero_variances_gradients_lemma :
  let g := one_obs 1 3 1 1 in
  weighted_dot (col ord0 (g_x g)) (resid 1%:M g) = 2%coqR /\
  weighted_dot (col ord0 (g_z g)) (col ord0 (g_z g)) = 1%coqR /\
  weighted_dot (col ord0 (g_z g)) (resid 1%:M g) = 2%coqR.
Proof.
  rewrite /weighted_dot /resid /=; split; [|split]; rewrite big_ord1 !mxE ?big_ord1 ?mxE ?eqxx ?mulr1n; toR; field.
Qed.

(*@ C125.  There optimal_beta returns the only coefficients with the smallest weighted sum of squares, or fails because
    the normal matrix is singular. *)
Lemma lme_zero_variances_estimate_lemma : forall (p q : nat) (gs : seq (group p q)),
  positive_variances gs ->
  (forall b, lme_optimal_beta gs 0 = Ok b ->
     forall beta, beta <> b -> (weighted_squares gs b < weighted_squares gs beta)%coqR) /\
  (normal_matrix gs 0 \in unitmx -> exists b, lme_optimal_beta gs 0 = Ok b) /\
  (normal_matrix gs 0 \notin unitmx -> lme_optimal_beta gs 0 = Err LinAlgError).
Proof.
  move=> p q gs h; split; first by move=> b; exact: best_zero.
  have [h1 h2] := @optimal_beta_minimises_partial_lemma p q gs LNone 0 (zero_admissible h) I.
  by split=> // u; have [b [v [e _]]] := h1 u; exists b.
Qed.
(*@ in the example above the normal matrix is 1 *)
Lemma ex_lme_zero_variances_estimate_lemma : normal_matrix [:: one_obs 1 3 1 1] 0 \in unitmx.
Proof.
  have -> : normal_matrix [:: one_obs 1 3 1 1] 0 = 1%:M; last exact: unitmx1.
  rewrite /normal_matrix big_cons big_nil addr0 inv_Omega; last by move=> i; rewrite /one_obs /= ord1 mxE eqxx mulr1n; lra.
  by apply/matrixP => i j; rewrite !ord1 -mulmxA mxE big_ord1 mul_diagv /one_obs /= !mxE eqxx !mulr1n; toR; field.
Qed.

(*@ C125.  On the data of a linear problem, with observation variances 1 and any data of random effects, that is the loss of
    the oracle for linear models, and optimal_beta returns its only minimiser. *)
Lemma lme_zero_variances_linear_lemma : forall (q : nat) pr (z : 'M[R]_(Linear.lp_n pr, q)), LinearSpec.wf_linear pr ->
  let gs := [:: linear_group z] in
  let loss := Linear.lin_loss {| Linear.lo_problem := Some pr; Linear.lo_prior := Priors.PNone |} in
  (forall x, length x = Linear.lp_p pr -> lme_loss gs LNone (col_of _ x) 0 = loss x) /\
  forall b, lme_optimal_beta gs 0 = Ok b -> exists v, loss (vec_of b) = Ok v /\
    forall x, length x = Linear.lp_p pr -> x <> vec_of b -> exists w, loss x = Ok w /\ (v < w)%coqR.
Proof.
  move=> q pr z h gs loss; split; first by move=> x lx; exact: linear_loss.
  have e x : length x = Linear.lp_p pr -> loss x = Ok (LinearSpec.least_squares pr x).
    move=> lx; rewrite /loss -(linear_loss z h lx) (loss_zero LNone _ (@linear_positive q pr z)) linear_logs linear_squares //=.
    by congr Ok; toR; ring.
  move=> b hb; eexists; split; first by apply: e; exact: length_vec_of.
  move=> x lx nx; eexists; split; first exact: e. exact: (linear_best h hb lx nx).
Qed.
(*@ non-vacuous: one observation 3 of the feature 1 *)
Lemma ex_lme_zero_variances_linear_lemma :
  let pr := {| Linear.lp_a := [:: [:: 1%coqR]]; Linear.lp_b := [:: 3%coqR]; Linear.lp_n := 1; Linear.lp_p := 1;
               Linear.lp_c := [:: [:: 1%coqR]]; Linear.lp_weights := None; Linear.lp_obs_std := None |} in
  LinearSpec.wf_linear pr /\ exists b, lme_optimal_beta [:: @linear_group 1 pr 0] 0 = Ok b.
Proof.
  move=> pr; split; first by split; [|split]; repeat constructor.
  have [_ [h _]] := lme_zero_variances_estimate_lemma (@linear_positive 1 pr 0); apply: h.
  have -> : normal_matrix [:: @linear_group 1 pr 0] 0 = 1%:M; last exact: unitmx1.
  rewrite /normal_matrix big_cons big_nil addr0 inv_Omega; last by move=> i; rewrite /= mxE; lra.
  by apply/matrixP => i j; rewrite !ord1 -mulmxA mxE big_ord1 mul_diagv /= !mxE eqxx mulr1n /=; toR; field.
Qed.

(*@ C125.  There Jones' criterion is the usual BIC, with the number of observations, and the degrees of freedom are the
    number of fixed effects. *)
Lemma lme_zero_variances_criteria_lemma : forall (p q : nat) (gs : seq (group p q)) (pr : lme_prior p q) tol beta,
  positive_variances gs ->
  let none : 'cV[R]_q := 0 in
  lme_jones_bic gs pr tol beta none
  = Ok (2 * (weighted_squares gs beta + log_variances gs + prior_loss pr beta 0)
        + INR (count_ge tol beta + count_ge tol none) * ln (INR (total_obs gs)))%coqR /\
  (normal_matrix gs 0 \in unitmx -> lme_ddf gs 0 = Ok (INR p)).
Proof.
  move=> p q gs pr tol beta h none.
  have [[fs [e1 e2]] [_ e3]] := effective_observations_lemma (zero_admissible h).
  split; last by move=> u; exact: degrees_of_freedom_lemma.
  by rewrite /lme_jones_bic e1 /= loss_zero //= e2 /= (e3 (erefl _) h).
Qed.
(*@ non-vacuous: three observations *)
Lemma ex_lme_zero_variances_criteria_lemma :
  positive_variances [:: two_obs 1 2; one_obs 1 3 1 1] /\ total_obs [:: two_obs 1 2; one_obs 1 3 1 1] = 3%N.
Proof.
  split; last by rewrite /total_obs !big_cons big_nil.
  by move=> g [<-|[<-|[]]] i; rewrite /= ?ord1 mxE ?eqxx ?mulr1n; [case: ifP => _|]; lra.
Qed.

(*@ C125.  The data of a random effect with zero variance do not matter, whatever the other variances are: the losses, the
    derivatives in beta, the optimal coefficients, the random effects, covariances and sign-flip probabilities, the
    degrees of freedom and the criteria are those of the problem in which they are replaced by zeros. *)
Lemma lme_zero_variance_ignored_lemma : forall (p q : nat) (gs : seq (group p q)) (pr : lme_prior p q) cdf tol beta gamma,
  let gs' := List.map (drop_random gamma) gs in
  lme_loss gs' pr beta gamma = lme_loss gs pr beta gamma /\
  lme_demarginalized_loss gs' pr beta gamma = lme_demarginalized_loss gs pr beta gamma /\
  lme_gradient_beta gs' pr beta gamma = lme_gradient_beta gs pr beta gamma /\
  lme_hessian_beta gs' pr gamma = lme_hessian_beta gs pr gamma /\
  lme_optimal_beta gs' gamma = lme_optimal_beta gs gamma /\
  lme_random_effects gs' beta gamma = lme_random_effects gs beta gamma /\
  lme_covariance_beta gs' pr gamma = lme_covariance_beta gs pr gamma /\
  lme_covariance_random_effects gs' pr gamma = lme_covariance_random_effects gs pr gamma /\
  lme_flip_probabilities cdf gs' pr beta gamma = lme_flip_probabilities cdf gs pr beta gamma /\
  lme_ddf gs' gamma = lme_ddf gs gamma /\
  lme_jones_bic gs' pr tol beta gamma = lme_jones_bic gs pr tol beta gamma /\
  lme_muller_ic gs' pr tol beta gamma = lme_muller_ic gs pr tol beta gamma /\
  forall marginalized, lme_vaida_aic gs' pr tol marginalized beta gamma = lme_vaida_aic gs pr tol marginalized beta gamma.
Proof.
  move=> p q gs pr cdf tol beta gamma gs'.
  split; first exact: drop_loss. split; first exact: drop_conditional. split; first exact: drop_gradient_beta.
  split; first exact: drop_hessian_beta. split; first exact: drop_optimal. split; first exact: drop_effects.
  split; first exact: drop_covariance_beta. split; first exact: drop_covariance. split; first exact: drop_flips. split; first exact: drop_ddf.
  exact: drop_criteria.
Qed.
(*@ the gradient in the variances does depend on them: 1/2 - 1/2 * 2^2 in the example above, 0 without the data *)
Lemma ex_lme_zero_variance_ignored_lemma :
  let gs := [:: one_obs 1 3 1 1] in
  entry (lme_gradient_gamma gs LNone 1%:M 0) ord0 = (- (3 / 2))%coqR /\
  entry (lme_gradient_gamma (List.map (drop_random 0) gs) LNone 1%:M 0) ord0 = 0%coqR.
Proof.
  move=> gs; have [h _] := ex_lme_zero_variances_loss_lemma.
  have h' : positive_variances (List.map (drop_random 0) gs).
    by move=> g [<-|[]] i; exact: (h (one_obs 1 3 1 1) (or_introl (erefl _)) i).
  have [db [dg [_ [e1 [_ e2]]]]] := gradients_zero LNone 1%:M h.
  have [db' [dg' [_ [e1' [_ e2']]]]] := gradients_zero LNone 1%:M h'.
  have [a [b c]] := ex_lme_zero_variances_gradients_lemma.
  rewrite e1 e1' /= e2 e2'; split; rewrite /gs /= !big_cons !big_nil.
    by rewrite b c mxE; toR; field.
  rewrite mxE /weighted_dot !big_ord1 !mxE; case: (@reqbP 0%coqR 0%coqR) => // _; by toR; rewrite /Rdiv; ring.
Qed.

(*@ C125.  So are those of the oracle of relaxed (SR3) models. *)
Lemma sr3_zero_variance_ignored_lemma : forall (p q : nat) (gs : seq (group p q)) (pr : lme_prior p q) lb lg tol beta gamma tbeta tgamma,
  let gs' := List.map (drop_random gamma) gs in
  sr3_loss lb lg gs' pr beta gamma tbeta tgamma = sr3_loss lb lg gs pr beta gamma tbeta tgamma /\
  sr3_gradient_beta lb gs' pr beta gamma tbeta = sr3_gradient_beta lb gs pr beta gamma tbeta /\
  sr3_hessian_beta lb gs' pr gamma = sr3_hessian_beta lb gs pr gamma /\
  sr3_optimal_beta lb gs' gamma tbeta = sr3_optimal_beta lb gs gamma tbeta /\
  sr3_jones_bic gs' pr tol beta gamma = sr3_jones_bic gs pr tol beta gamma /\
  sr3_muller_ic gs' pr tol beta gamma = sr3_muller_ic gs pr tol beta gamma /\
  forall marginalized, sr3_vaida_aic gs' pr tol marginalized beta gamma = sr3_vaida_aic gs pr tol marginalized beta gamma.
Proof.
  move=> p q gs pr lb lg tol beta gamma tbeta tgamma gs'.
  rewrite /sr3_loss /sr3_gradient_beta /sr3_hessian_beta /sr3_optimal_beta drop_loss drop_gradient_beta drop_hessian_beta drop_kernel.
  do 4 split=> //; exact: drop_criteria.
Qed.
(*@ the data that are dropped in the example above are not zero *)
Lemma ex_sr3_zero_variance_ignored_lemma :
  g_z (drop_random 0 (one_obs 1 3 1 1)) ord0 ord0 = 0%coqR /\ g_z (one_obs 1 3 1 1) ord0 ord0 = 1%coqR.
Proof.
  by split; rewrite /= !mxE ?eqxx ?mulr1n //; case: (@reqbP 0%coqR 0%coqR).
Qed.
(*@ C125.  When all variances are zero optimal_beta of the relaxed oracle returns the only coefficients with the smallest
    weighted sum of squares plus lb/2 times the squared distance to tbeta. *)
Lemma sr3_zero_variances_estimate_lemma : forall (p q : nat) (gs : seq (group p q)) lb tbeta,
  positive_variances gs -> (0 < lb)%coqR ->
  let F beta := (weighted_squares gs beta + lb / 2 * sumsq (beta - tbeta)%R)%coqR in
  exists b, sr3_optimal_beta lb gs 0 tbeta = Ok b /\ forall beta, beta <> b -> (F b < F beta)%coqR.
Proof.
  move=> p q gs lb tbeta h h0 F.
  have [b [v [e1 [e2 e3]]]] := @sr3_optimal_beta_minimises_partial_lemma p q gs LNone lb 0%coqR 0 tbeta 0 (zero_admissible h) I h0.
  exists b; split=> // beta nb; have [w [e4 l]] := e3 _ nb; move: e2 e4; rewrite /sr3_loss !loss_zero //= => -[e2] [e4].
  by rewrite /F; move: l; rewrite -e2 -e4; toR; lra.
Qed.
(*@ with lb = 1 and tbeta = 0 the estimate in the example above is 3/2, half the one of least squares *)
Lemma ex_sr3_zero_variances_estimate_lemma :
  exists b, sr3_optimal_beta 1 [:: one_obs 1 3 1 1] 0 0 = Ok b /\ b ord0 ord0 = (3 / 2)%coqR.
Proof.
  have [h _] := ex_lme_zero_variances_loss_lemma.
  have [b [e l]] := sr3_zero_variances_estimate_lemma 0 h Rlt_0_1.
  exists b; split=> //; move: l => /= l.
  case: (Req_dec (b ord0 ord0) (3 / 2)%coqR) => // n.
  have nb : (3 / 2)%coqR%:M <> b by move=> e1; apply: n; rewrite -e1 mxE eqxx mulr1n.
  move: (l _ nb); rewrite /weighted_squares /sumsq !big_cons !big_nil !big_ord1 /resid /= !mxE !big_ord1 !mxE eqxx !mulr1n.
  have -> : b 0 ord0 = b ord0 ord0 by congr (b _ _); exact: val_inj.
  move: (b ord0 ord0) => t; toR; rewrite /Rdiv Rinv_1 => h1; exfalso; have := pow2_ge_0 (t - 3 / 2); by lra.
Qed.
