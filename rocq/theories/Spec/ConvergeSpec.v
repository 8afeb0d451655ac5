(** How many iterations are enough, independently of the code. *)
From Verif.Base Require Import Py Vec Mat.
From Verif.Model Require Import Regularizers Linear.
From Verif.Spec Require Import ProxSpec.
Open Scope string_scope.
Open Scope list_scope.
Open Scope R_scope.

(** what a step of length s from x minimises: the penalty plus the parabola that touches f at x *)
Definition surrogate (f : vec -> R) (g : vec -> vec) (pen : vec -> R) (s : R) (x u : vec) : R :=
  f x + vdot (g x) (vsub u x) + 1 / (2 * s) * sqnorm (vsub u x) + pen u.

(** F is at least low on the vectors of length p in dom *)
Definition bounded_below (p : nat) (dom : vec -> Prop) (F : vec -> R) (low : R) : Prop :=
  forall z, length z = p -> dom z -> low <= F z.

(** when each step longer than tol gains at least c tol^2, max_iter - 2 of them cannot be fitted
    between top and low *)
Definition enough_iterations (max_iter : Z) (c tol top low : R) : Prop :=
  (2 < max_iter)%Z /\ top - low < c * tol ^ 2 * (IZR max_iter - 2).

(** one observation a = 10, b = 0, no penalty (lam = 0) and the default fixed step 0.05 *)
Definition steep_problem : linear_problem :=
  {| lp_a := [[10]]; lp_b := [0]; lp_n := 1; lp_p := 1; lp_c := [[1]]; lp_weights := Some [0]; lp_obs_std := None |}.
Definition steep_model (max_iter : Z) : linear_model :=
  {| lm_el := None; lm_practical := false; lm_reg := mk_l1 0; lm_tol := / 10; lm_max_iter := max_iter;
     lm_stepping := "fixed"; lm_step_len := None; lm_prior := PNone; lm_keys := (KTuple, []) |}.
(** one observation a = 1, b = 4, the penalty |x|, with the fixed step 1 (1/el for SR3) *)
Definition patient_l1 (el : option R) (max_iter : Z) : linear_model :=
  {| lm_el := el; lm_practical := false; lm_reg := mk_l1 1; lm_tol := / 10; lm_max_iter := max_iter;
     lm_stepping := "fixed"; lm_step_len := match el with None => Some 1 | Some _ => None end; lm_prior := PNone; lm_keys := (KTuple, []) |}.
(** SR3 with el = 1 and at most nnz non-zeros *)
Definition patient_l0 (nnz : Z) (max_iter : Z) : linear_model :=
  {| lm_el := Some 1; lm_practical := false; lm_reg := mk_l0 (Some nnz); lm_tol := / 10; lm_max_iter := max_iter;
     lm_stepping := "fixed"; lm_step_len := None; lm_prior := PNone; lm_keys := (KTuple, []) |}.
