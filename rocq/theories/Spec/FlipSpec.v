(** The same table with the signs of features and answers changed, and what a fit says about it. *)
From Verif.Base Require Import Py Vec Mat.
From Verif.Model Require Import LmeProblem Regularizers LmeFit.
From Verif.Spec Require Import ColumnSpec.
Open Scope R_scope.

(** one sign per column; the columns of groups and variances keep theirs *)
Definition column_signs (labels : list string) (cs : vec) : Prop :=
  Forall2 (fun l s => s = 1 \/ (s = -1 /\ l <> GROUP /\ l <> VARIANCE)) labels cs.
Definition flip_table (cs : vec) (x : table) : table :=
  {| t_cols := t_cols x; t_rows := flip_columns cs (t_rows x) |}.
(** the signs of the features of one kind (fixed or random): the intercept is the first and keeps its sign *)
Definition role_signs (k : string -> bool) (intercept : bool) (labels : list string) (cs : vec) : vec :=
  (if intercept then [1] else []) ++ map snd (filter (fun lc => k (fst lc)) (combine labels cs)).

(** vectors in a log: a number for each parameter, where the variances keep their signs, or probabilities *)
Definition flip_parameters (q : nat) (signs v : vec) : vec :=
  if (length v =? length signs + q)%nat then flip (signs ++ ones q) v else v.
(** a fit of the flipped table, e is the sign of the answers *)
Definition flip_lme_fit (q : nat) (e : R) (s1 s2 cs : vec) (r : lme_coef * logger) : lme_coef * logger :=
  let co := fst r in
  ({| co_beta := flip (vscale e s1) (co_beta co);
      co_gamma := co_gamma co;
      co_effects := map (flip (vscale e s2)) (co_effects co);
      co_labels := co_labels co;
      co_per_group := map (flip (vscale e (1 :: cs))) (co_per_group co) |},
   log_map (flip_parameters q (vscale e s1)) (snd r)).

(** a model of lme/models.py without relaxation and prior *)
Definition plain_model_of (m : lme_model) : Prop := mo_sr3 m = None /\ mo_prior m = None.
(** the distribution function of a symmetric random variable *)
Definition symmetric_cdf (cdf : R -> R) : Prop := forall x, cdf (- x) = 1 - cdf x.

(** a row of group 0 with fixed features 1 and 2 and a random feature 4, and a fitted model with one group *)
Definition signs_row : table := {| t_cols := 5; t_rows := [[0; 1; 2; 4; 1]] |}.
Definition signs_coef : lme_coef :=
  {| co_beta := [3; 5]; co_gamma := [1]; co_effects := [[7]]; co_labels := [0]; co_per_group := [] |}.

(** the local variables of find_optimal_parameters_ip that hold coefficients of fixed features, alone or among others;
    in practical mode a log with one of these keys records them *)
Definition coefficient_locals : list string := ["beta"; "tbeta"; "prev_tbeta"; "prev_beta"; "x"; "direction"; "F_current"]%string.
Definition logs_no_coefficients (m : lme_model) : Prop :=
  forall k, In k (snd (mo_keys m)) -> ~ In k coefficient_locals.
