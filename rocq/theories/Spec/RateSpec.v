(** What the statements about the speed of convergence mean, independently of the code. *)
From Verif.Base Require Import Py Vec.
From Verif.Model Require Import Regularizers Linear.
From Verif.Spec Require Import ProxSpec.
Open Scope string_scope.
Open Scope list_scope.
Open Scope R_scope.

(** the point x + t (z - x) of the segment from x to z *)
Definition between (t : R) (x z : vec) : vec := vadd x (vscale t (vsub z x)).

(** a convex set and a convex function on it *)
Definition convex_on (dom : vec -> Prop) (h : vec -> R) : Prop :=
  forall x z t, length x = length z -> dom x -> dom z -> 0 <= t <= 1 ->
    dom (between t x z) /\ h (between t x z) <= (1 - t) * h x + t * h z.

(** on vectors of length p, f lies above its tangents, whose slope is g, and at most
    L/2 |z - x|^2 above them *)
Definition convex_smooth (p : nat) (L : R) (f : vec -> R) (g : vec -> vec) : Prop :=
  forall x, length x = p -> length (g x) = p /\
    forall z, length z = p ->
      f x + vdot (g x) (vsub z x) <= f z <= f x + vdot (g x) (vsub z x) + L / 2 * sqnorm (vsub z x).

(** the upper half alone, which says nothing about convexity *)
Definition curved_below (p : nat) (L : R) (f : vec -> R) (g : vec -> vec) : Prop :=
  forall x, length x = p -> length (g x) = p /\
    forall z, length z = p -> f z <= f x + vdot (g x) (vsub z x) + L / 2 * sqnorm (vsub z x).

(** with this solver no step is longer than the curvature L permits, except that the line
    search may try such steps, and no step is shorter than sm *)
Definition safe_steps (slv : pgd_solver) (L sm : R) : Prop :=
  0 < sm <= s_step_len slv /\
  if String.eqb (s_stepping slv) "line-search" then ls_threshold < sm /\ 2 * L * sm <= 1
  else L * s_step_len slv <= 1.

(** x is within the error e(u) of every competitor u of length p in dom *)
Definition near_best (p : nat) (dom : vec -> Prop) (F : vec -> R) (x : vec) (e : vec -> R) : Prop :=
  forall u, length u = p -> dom u -> F x <= F u + e u.

(** one observation a = 1, b = 4, the penalty |x|, one iteration with the step 1 *)
Definition short_l1 (el : option R) (practical : bool) : linear_model :=
  {| lm_el := el; lm_practical := practical; lm_reg := mk_l1 1; lm_tol := / 10; lm_max_iter := 1;
     lm_stepping := "fixed"; lm_step_len := match el with None => Some 1 | Some _ => None end; lm_prior := PNone; lm_keys := (KTuple, []) |}.
