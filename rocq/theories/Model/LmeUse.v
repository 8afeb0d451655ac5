(** Using a fitted mixed model: what predict and score (src/pysr3/lme/models.py:276-421) read of the
    attribute coef_ that fit (models.py:236-256) stored.  The dictionary coef_ is the record
    [LmeFit.lme_coef]; predict looks up 'beta', 'random_effects' and 'group_labels' in it. *)
From Verif.Base Require Import Py Vec Mat.
From Verif.Model Require Import LmeProblem LmePredict LmeFit.
Open Scope R_scope.

(** models.py:331-345 *)
Definition predictor (co : LmeFit.lme_coef) : LmePredict.lme_coef :=
  {| cf_beta := co_beta co; cf_us := co_effects co; cf_group_labels := co_labels co |}.
