(** What it means that a point is stationary, independently of the code. *)
From Verif.Base Require Import Py Vec.
From Verif.Model Require Import Solvers.
From Verif.Spec Require Import InnerSpec.
Open Scope list_scope.
Open Scope R_scope.

(** x lies in dom, and no direction into dom has the slope of (smooth part with gradient g) + h
    below -e per unit of length.  For e = 0 and convex h: -g is a subgradient of h at x, relative to dom. *)
Definition first_order (dom : vec -> Prop) (h : vec -> R) (g x : vec) (e : R) : Prop :=
  dom x /\ forall u, length u = length x -> dom u -> h x <= h u + vdot g (vsub u x) + e * norm (vsub u x).

(** the parameters (beta, gamma) with p fixed effects and non-negative variances *)
Definition variances_nonneg (p : nat) (z : vec) : Prop := nonneg (skipn p z).

(** the run was reported as converged *)
Definition reported_converged (lg : logger) : Prop := get lg "converged" = Ok (LAtom (LBool true)).
