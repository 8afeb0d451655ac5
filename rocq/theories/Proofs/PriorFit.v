(** A model with a prior cannot be fitted to arrays: they have no column names. *)
From Verif.Base Require Import Py Vec Mat.
From Verif.Model Require Import LmeProblem Regularizers LmeInner LmeFit LmeBridge.
From Verif.Proofs Require Import SolverProofs FeatureCoefs.
Open Scope R_scope.

(** the error does not depend on the data *)
Definition prior_failure (m : lme_model) : res (lme_coef * logger) :=
  let! _ := step_length m in
  let! _ := (match mo_penalty m with PenSCAD lam rho sigma => rmap (fun _ => tt) (mk_scad rho sigma lam)
             | _ => Ok tt end) in
  Err AssertionError.
Lemma no_names x y labels ff fr pr : from_x_y x y None labels ff fr None None = Ok pr -> pr_fe_columns pr = None.
Proof.
  unfold from_x_y. destruct (default_labels x labels) as [ls x']. intros H.
  apply rbind_inv in H as [u1 [_ H]]. apply rbind_inv in H as [u2 [_ H]]. apply rbind_inv in H as [u3 [_ H]].
  destruct (where_ (String.eqb GROUP) ls) as [|g [|? ?]]; try discriminate.
  destruct (where_ (String.eqb VARIANCE) ls) as [|v [|? ?]]; try discriminate.
  apply rbind_inv in H as [u4 [_ H]]. apply rbind_inv in H as [gl [_ H]].
  cbn [rbind reg_weights names_of] in H. injection H as <-. reflexivity.
Qed.
Lemma prior_fit argsort cdf m g coef x y labels beta0 gamma0 warm ff fr fe re : mo_prior m = Some g ->
  lme_fit argsort cdf m coef x y labels beta0 gamma0 warm ff fr fe re
  = let! _ := check_X_y x y in
    match from_x_y x (Some y) None labels ff fr None None with Ok _ => prior_failure m | Err e => Err e end.
Proof.
  intros P. unfold lme_fit, fit. destruct (check_X_y x y) as [u|]; [|reflexivity]. cbn [rbind].
  destruct (from_x_y x (Some y) None labels ff fr None None) as [pr|] eqn:E; [|reflexivity]. cbn [rbind].
  apply no_names in E. unfold fit_problem, prior_failure. destruct (step_length m); [|reflexivity]. cbn [rbind].
  destruct (match mo_penalty m with PenSCAD lam rho sigma => rmap (fun _ => tt) (mk_scad rho sigma lam) | _ => Ok tt end); [|reflexivity].
  cbn [rbind]. destruct (view_total pr) as [ov [-> _]]. cbn [rbind]. unfold prior_of. rewrite P, E. reflexivity.
Qed.
Lemma prior_failure_err m : exists e, prior_failure m = Err e.
Proof.
  unfold prior_failure. destruct (step_length m); [|eexists; reflexivity]. cbn [rbind].
  destruct (match mo_penalty m with PenSCAD lam rho sigma => rmap (fun _ => tt) (mk_scad rho sigma lam) | _ => Ok tt end); eexists; reflexivity.
Qed.
