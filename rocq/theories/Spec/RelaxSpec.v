(** How far the SR3 relaxation is from the problem that it relaxes. *)
From Verif.Base Require Import Py Vec Mat.
From Verif.Model Require Import Regularizers Linear.
From Verif.Spec Require Import ProxSpec LinearSpec.
Open Scope string_scope.
Open Scope list_scope.
Open Scope R_scope.

(** the penalised loss, without and with the relaxation *)
Definition plain_objective (lam : R) (w : vec) (pr : linear_problem) (x : vec) : R :=
  least_squares pr x + lam * weighted_l1 w x.
Definition relaxed_objective (el lam : R) (w : vec) (pr : linear_problem) (z x : vec) : R :=
  relaxed_loss el pr z x + lam * weighted_l1 w x.
(** (1/(2 el) + |a|^2/(2 el^2)) s^2 *)
Definition relaxation_gap (el s : R) (pr : linear_problem) : R := (1 + frob (lp_a pr) / el) * s ^ 2 / (2 * el).

(** the penalty |x|, el = 1, at most two iterations and a tolerance that the first one meets *)
Definition two_steps : linear_model :=
  {| lm_el := Some 1; lm_practical := false; lm_reg := mk_l1 1; lm_tol := 10; lm_max_iter := 2;
     lm_stepping := "fixed"; lm_step_len := None; lm_prior := PNone; lm_keys := (KTuple, []) |}.
