(** The same table with its columns in another order, and what a fit says about it. *)
From Verif.Base Require Import Py Vec Mat.
From Verif.Model Require Import LmeProblem Regularizers LmeFit.
From Verif.Spec Require Import ColumnSpec InnerSpec FitSpec.
Open Scope R_scope.

(** the columns and their labels *)
Definition reorder_labels (order : list nat) (labels : list string) : list string :=
  map (fun i => nth i labels EmptyString) order.
Definition reorder_table (order : list nat) (x : table) : table :=
  {| t_cols := t_cols x; t_rows := permute_columns order (t_rows x) |}.
(** the order of the features of one kind (fixed or random): the intercept stays the first, the other features
    are in the order of their columns *)
Definition role_order (k : string -> bool) (intercept : bool) (labels : list string) (order : list nat) : list nat :=
  let places := map (rank k labels) (filter (fun i => k (nth i labels EmptyString)) order) in
  if intercept then 0%nat :: map S places else places.

(** vectors in a log: a number for each of the p fixed features, or for each parameter *)
Definition reorder_parameters (p : nat) (of og : list nat) (v : vec) : vec :=
  if (length v =? p)%nat then permute of v else permute (of ++ map (Nat.add p) og) v.
(** a fit of the reordered table; coefficients per group are those of the intercept and of each column *)
Definition reorder_fit (p : nat) (of og order : list nat) (r : lme_coef * logger) : lme_coef * logger :=
  let co := fst r in
  ({| co_beta := permute of (co_beta co);
      co_gamma := permute og (co_gamma co);
      co_effects := map (permute og) (co_effects co);
      co_labels := co_labels co;
      co_per_group := map (permute (0%nat :: map S order)) (co_per_group co) |},
   log_map (reorder_parameters p of og) (snd r)).

(** models of lme/models.py without relaxation, and without an L0 penalty *)
Definition unrelaxed (m : lme_model) : Prop := mo_sr3 m = None.
Definition without_l0 (m : lme_model) : Prop := match mo_penalty m with PenL0 _ _ => False | _ => True end.
(** ... and without prior *)
Definition plain_coefficientwise (m : lme_model) : Prop :=
  mo_sr3 m = None /\ mo_prior m = None /\ match mo_penalty m with PenL0 _ _ => False | _ => True end.

(** two fixed features that are the same, and an L0 model that keeps one of them *)
Definition twin_labels : list string := ["group"; "fixed"; "fixed"; "random"; "variance"]%string.
Definition twin_table : table := {| t_cols := 5; t_rows := [[0; 0; 0; 0; 1]] |}.
Definition twin_model : lme_model := flat_model (PenL0 (Some 1%Z) (Some 1%Z)) None 1 0.
