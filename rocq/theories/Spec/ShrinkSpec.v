(** When a penalty is strong enough to remove every feature, independently of the code. *)
From Verif.Base Require Import Py Vec Mat.
From Verif.Model Require Import Regularizers Linear.
From Verif.Spec Require Import ProxSpec LinearSpec.
Open Scope string_scope.
Open Scope list_scope.
Open Scope R_scope.

(** every entry of v is smaller than lam times its weight, by mu at least *)
Definition below_penalty (lam : R) (w : vec) (mu : R) (v : vec) : Prop :=
  Forall2 (fun wi vi => Rabs vi + mu <= lam * wi) w v.

(** the scalar products of the features with the targets *)
Definition correlations (pr : linear_problem) : vec := tmv (lp_p pr) (lp_a pr) (lp_b pr).

(** sum of the absolute values *)
Definition l1_norm (z : vec) : R := weighted_l1 (ones (length z)) z.

(** one observation a = 1/100, b = 0, with the default step, tolerance and number of iterations *)
Definition faint_problem : linear_problem :=
  {| lp_a := [[/ 100]]; lp_b := [0]; lp_n := 1; lp_p := 1; lp_c := [[1]]; lp_weights := None; lp_obs_std := None |}.
Definition default_l1 (lam : R) : linear_model :=
  {| lm_el := None; lm_practical := false; lm_reg := mk_l1 lam; lm_tol := / 100000; lm_max_iter := 1000;
     lm_stepping := "fixed"; lm_step_len := None; lm_prior := PNone; lm_keys := (KTuple, []) |}.
