(** One step of the EM algorithm for the variances of the random effects. *)
From Verif.Base Require Import Py Vec RMx.
From Verif.Model Require Import LmeProblem Solvers LmeInner LmeFit.
From mathcomp Require Import ssreflect ssrfun ssrbool eqtype ssrnat choice seq fintype
  finfun bigop finset ssralg matrix mxalgebra.
From Verif.Model Require Import LmeOracle.
From Verif.Spec Require Import MxSpec.
Set Implicit Arguments.
Unset Strict Implicit.
Unset Printing Implicit Defensive.
Delimit Scope R_scope with coqR.
Local Open Scope ring_scope.

Section Em.
Variables p q : nat.
Implicit Types (gs : seq (group p q)) (g : group p q) (beta : 'cV[R]_p) (gamma u : 'cV[R]_q).

Definition positive gamma : Prop := forall j, (0 < gamma j ord0)%coqR.
(** - log of the likelihood *)
Definition marginal gs beta gamma : R := \sum_(g <- gs) nll beta gamma g.
(** the covariance of the random effects of a group given its observations *)
Definition posterior_cov gamma g : 'M[R]_q :=
  diag_mx gamma^T - diag_mx gamma^T *m (g_z g)^T *m invmx (Omega gamma g) *m g_z g *m diag_mx gamma^T.
(** E step: the expectation of the square of effect j given the observations of the group *)
Definition expected_square beta gamma g (j : 'I_q) : R :=
  (blup beta gamma g j ord0 ^ 2 + posterior_cov gamma g j j)%coqR.
(** M step: the average over the groups *)
Definition em_variances beta gamma gs : 'cV[R]_q :=
  \col_j ((\sum_(g <- gs) expected_square beta gamma g j) / INR (size gs))%coqR.
(** the same with the squares of the predicted effects *)
Definition mode_variances beta gamma gs : 'cV[R]_q :=
  \col_j ((\sum_(g <- gs) (blup beta gamma g j ord0 ^ 2)%coqR) / INR (size gs))%coqR.
(** the average of the variances which the predictions leave *)
Definition left_variance gamma gs (j : 'I_q) : R :=
  ((\sum_(g <- gs) posterior_cov gamma g j j) / INR (size gs))%coqR.

(** - log of the density of the effects, up to constants, with v_j for the squares *)
Definition effects_nll (v : 'I_q -> R) gamma : R :=
  \sum_j (/ 2 * (v j / gamma j ord0) + / 2 * ln (gamma j ord0))%coqR.
(** what the M step minimises *)
Definition expected_nll beta gamma gs gamma' : R :=
  \sum_(g <- gs) effects_nll (expected_square beta gamma g) gamma'.
(** - log of the joint density of observations and effects, up to constants *)
Definition joint_nll beta gamma (gu : group p q * 'cV[R]_q) : R :=
  (penalised beta gamma gu.1 gu.2 + / 2 * \sum_j ln (gamma j ord0))%coqR.
Definition joint_total gs beta gamma (us : seq 'cV[R]_q) : R := \sum_(gu <- zip gs us) joint_nll beta gamma gu.
End Em.

(** two groups with one observation each, 3 and -1, of the variance 3 *)
Definition em_problem : lme_problem :=
  {| pr_fixed := [:: [:: [:: 1]]; [:: [:: 1]]]; pr_random := [:: [:: [:: 1]]; [:: [:: 1]]]; pr_random_0d := false;
     pr_answers := Some [:: [:: 3]; [:: -1]]; pr_obs_vars := [:: [:: 3]; [:: 3]]; pr_group_labels := [:: 0; 1];
     pr_intercept := None; pr_labels := [:: GROUP; FIXED; RANDOM; VARIANCE];
     pr_order := [:: 0; 1]%nat; pr_fe_columns := None; pr_re_columns := None;
     pr_fe_weights := Some [:: 1]; pr_re_weights := Some [:: 1] |}%coqR.
Definition em_model (initializer : string) : lme_model :=
  {| mo_penalty := PenNone; mo_sr3 := None; mo_tol := 0%coqR; mo_max_iter := 0%Z; mo_stepping := "fixed";
     mo_step_len := None; mo_eps := 0%coqR; mo_initializer := initializer; mo_keys := (KTuple, [::]); mo_prior := None |}.
