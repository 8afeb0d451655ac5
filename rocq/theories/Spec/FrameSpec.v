(** When two problems hold the same data: everything but the names, the labels of the columns
    and the weights. *)
From Verif.Base Require Import Py Vec Mat.
From Verif.Model Require Import LmeProblem.

Definition same_data (a b : lme_problem) : Prop :=
  pr_fixed a = pr_fixed b /\ pr_random a = pr_random b /\ pr_answers a = pr_answers b /\
  pr_obs_vars a = pr_obs_vars b /\ pr_group_labels a = pr_group_labels b /\
  pr_order a = pr_order b /\ pr_intercept a = pr_intercept b.
