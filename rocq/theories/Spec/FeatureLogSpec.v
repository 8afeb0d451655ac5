(** The logs that do not record variances of random effects. *)
From Verif.Base Require Import Py Vec.
From Verif.Model Require Import LmeProblem Solvers.
From Verif.Model Require Import LmeFit.
Open Scope string_scope.

(** the local variables of find_optimal_parameters_ip that hold variances or multipliers of random features, alone or
    among others; in practical mode a log with one of these keys records them *)
Definition variance_locals : list string := ["gamma"; "tgamma"; "prev_gamma"; "prev_tgamma"; "v"; "x"; "F_current"; "direction"].
Definition logs_no_variances (m : lme_model) : Prop :=
  forall k, In k (snd (mo_keys m)) -> ~ In k variance_locals.
