(** Vocabulary for the theorems comparing the practical and the standard SR3 mixed models. *)
From Verif.Base Require Import Py Vec Mat.
From Verif.Model Require Import LmeProblem Regularizers Solvers LmeInner LmeFit.
Open Scope R_scope.

(** the same penalty, a times as strong; an L0 penalty has no strength *)
Fixpoint strengthen (a : R) (r : reg) : reg :=
  match r with
  | RL1 lam w => RL1 (a * lam) w
  | RCAD rho lam w => RCAD rho (a * lam) w
  | RSCAD rho sigma lam w => RSCAD rho sigma (a * lam) w
  | RElastic eps r' => RElastic (a * eps) (match r' with Some r' => Some (strengthen a r') | None => None end)
  | RPos m r' => RPos m (match r' with Some r' => Some (strengthen a r') | None => None end)
  | _ => r
  end.

(** the same model with lam and elastic_eps multiplied by a *)
Definition stronger_penalty (a : R) (pen : lme_penalty) : lme_penalty :=
  match pen with
  | PenL1 lam => PenL1 (a * lam)
  | PenCAD lam rho => PenCAD (a * lam) rho
  | PenSCAD lam rho sigma => PenSCAD (a * lam) rho sigma
  | _ => pen
  end.
Definition stronger (a : R) (m : lme_model) : lme_model :=
  {| mo_penalty := stronger_penalty a (mo_penalty m); mo_sr3 := mo_sr3 m; mo_tol := mo_tol m; mo_max_iter := mo_max_iter m;
     mo_stepping := mo_stepping m; mo_step_len := mo_step_len m; mo_eps := a * mo_eps m;
     mo_initializer := mo_initializer m; mo_keys := mo_keys m; mo_prior := mo_prior m |}.

(** ** a sample problem: a group observing only the fixed effect and one observing only the random effect *)
Definition apart_problem : lme_problem :=
  {| pr_fixed := [[[1]]; [[0]]]; pr_random := [[[0]]; [[1]]]; pr_random_0d := false;
     pr_answers := Some [[42]; [0]]; pr_obs_vars := [[1]; [1]]; pr_group_labels := [0; 1];
     pr_intercept := None; pr_labels := [GROUP; FIXED; RANDOM; VARIANCE];
     pr_order := [0%nat; 1%nat]; pr_fe_columns := None; pr_re_columns := None;
     pr_fe_weights := Some [1]; pr_re_weights := Some [0] |}.
(** L1LmeModelSR3 with lam = 40, without elastic term and without logged keys; the other options not among the
    arguments at their defaults *)
Definition apart_settings (practical : bool) (max_iter_oracle : Z) : sr3_settings :=
  {| ss_ell := 40; ss_practical := practical; ss_update_every := 1; ss_max_iter := max_iter_oracle; ss_tol := 1 / 100000;
     ss_warm := true; ss_positive := true; ss_expected := false; ss_neighbourhood := 5 / 10 |}.
Definition apart_model (practical : bool) (max_iter_oracle max_iter_solver : Z) : lme_model :=
  {| mo_penalty := PenL1 40; mo_sr3 := Some (apart_settings practical max_iter_oracle); mo_tol := 1 / 100000;
     mo_max_iter := max_iter_solver; mo_stepping := "fixed"; mo_step_len := None; mo_eps := 0;
     mo_initializer := "None"; mo_keys := (KTuple, []); mo_prior := None |}.
