(** Property C113: the packed loss and gradient of the mixed-model oracles (src/pysr3/lme/oracles.py). *)
From Verif.Base Require Import Py Vec Mat RMx.
From Verif.Model Require Import LmeProblem Regularizers Solvers LmeInner LmeFit LmeJoint.
From Verif.Spec Require Import JointSpec FitSpec.
From mathcomp Require Import ssreflect ssrfun ssrbool eqtype ssrnat choice seq fintype
  finfun bigop finset ssralg matrix mxalgebra.
From Verif.Model Require Import LmeOracle LmeBridge.
From Verif.Spec Require Import MxSpec.
From Verif.Proofs Require Import LmeJointMain.

Set Implicit Arguments.
Unset Strict Implicit.
Unset Printing Implicit Defensive.
Delimit Scope R_scope with coqR.
Local Open Scope ring_scope.

(** C113.  The plain oracle: at every packed point of length p + q with positive definite covariances the packed gradient
    exists and holds the partial derivatives of the packed loss. *)
Theorem packed_gradient : forall cdf pr g ss gs prm x,
  let p := num_fixed pr in let q := num_random pr in
  groups_of p q pr = Ok gs -> prior_mx p q g = Ok prm -> prior_stds_nonzero prm ->
  length x = (p + q)%N -> admissible gs (col_of q (List.skipn p x)) ->
  let c := problem_calls cdf pr g ss in
  exists d, joint_gradient p q (lc_gradient_beta c) (lc_gradient_gamma c) x = Ok d /\ partials (joint_loss p q (lc_loss c)) x d.
Proof. exact packed_gradient_lemma. Qed.
Print Assumptions packed_gradient.

(** C113.  The relaxed oracle, given relaxed parameters: its packed gradient holds the partial derivatives of its packed
    loss. *)
Theorem sr3_packed_gradient : forall cdf pr g ss gs prm l x tb tg,
  let p := num_fixed pr in let q := num_random pr in
  groups_of p q pr = Ok gs -> prior_mx p q g = Ok prm -> prior_stds_nonzero prm ->
  length x = (p + q)%N -> length tb = p -> length tg = q -> admissible gs (col_of q (List.skipn p x)) ->
  let c := problem_calls cdf pr g ss in
  exists d, sr3_joint_gradient p q c l x (Some tb) (Some tg) = Ok d /\
    partials (fun x => sr3_joint_loss p q c l x (Some (tb ++ tg)%list)) x d.
Proof. exact sr3_packed_gradient_lemma. Qed.
Print Assumptions sr3_packed_gradient.

(** C113.  Without relaxed parameters, which is what the defaults of both methods say, the relaxed oracle has no packed
    loss and no packed gradient at any point. *)
Theorem sr3_packed_defaults : forall p q c l x,
  sr3_joint_loss p q c l x None = Err TypeError /\
  (forall tg d, sr3_joint_gradient p q c l x None tg <> Ok d) /\
  (forall tb d, sr3_joint_gradient p q c l x tb None <> Ok d).
Proof. exact sr3_packed_defaults_lemma. Qed.
Print Assumptions sr3_packed_defaults.

(** C113.  The relaxed packed loss at (x, w) is the plain one at x plus lb/2 |beta - tbeta|^2 + lg/2 |gamma - tgamma|^2. *)
Theorem sr3_packed_loss : forall cdf pr g ss l b gm tb tg,
  let p := num_fixed pr in let q := num_random pr in
  length b = p -> length gm = q -> length tb = p -> length tg = q ->
  let c := problem_calls cdf pr g ss in
  sr3_joint_loss p q c l (b ++ gm)%list (Some (tb ++ tg)%list) =
  rmap (fun v => v + lam_b l / 2 * sqnorm (vsub b tb) + lam_g l / 2 * sqnorm (vsub gm tg))%coqR (joint_loss p q (lc_loss c) (b ++ gm)%list).
Proof. exact sr3_packed_loss_lemma. Qed.
Print Assumptions sr3_packed_loss.

(** A problem, a prior and a point within the hypotheses. *)
Example ex_packed_gradient : exists gs prm,
  groups_of 1 1 (flat_problem 1 1) = Ok gs /\ prior_mx 1 1 None = Ok prm /\ prior_stds_nonzero prm /\
  admissible gs (col_of 1 (List.skipn 1 [:: 1; 2]%coqR)) /\
  joint_gradient 1 1 (lc_gradient_beta (problem_calls (fun x => x) (flat_problem 1 1) None None))
    (lc_gradient_gamma (problem_calls (fun x => x) (flat_problem 1 1) None None)) [:: 1; 2]%coqR = Ok [:: 0; 0]%coqR.
Proof. exact ex_packed_gradient_lemma. Qed.
