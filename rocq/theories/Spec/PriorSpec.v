(** Gaussian priors of mixed models. *)
From Verif.Base Require Import Py Vec Mat.
From Verif.Model Require Import Logger Priors LmeProblem Solvers LmeInner LmeFit.
Open Scope R_scope.

(** every name of the dictionary is a column, and no standard deviation is negative *)
Definition accepted (params : prior_params) (columns : list string) : Prop :=
  Forall (fun kv => In (fst kv) columns) params /\
  Forall (fun c => match lookup c params with Some (_, s) => 0 <= s | None => True end) columns.

(** a table with the columns group, time, z and variance *)
Definition prior_names : list string := ["group"; "time"; "z"; "variance"]%string.
(** the model with a prior for the fixed effects *)
Definition prior_model (fe : prior_params) : lme_model :=
  {| mo_penalty := PenNone; mo_sr3 := None; mo_tol := 0; mo_max_iter := 0%Z; mo_stepping := "fixed";
     mo_step_len := None; mo_eps := 0; mo_initializer := "None"; mo_keys := (KTuple, []);
     mo_prior := Some (mk_gauss_lme fe []) |}.
