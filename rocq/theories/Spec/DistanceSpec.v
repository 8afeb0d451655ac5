(** How far an answer is from the best one, independently of the code. *)
From Verif.Base Require Import Py Vec Mat.
From Verif.Model Require Import Linear.
From Verif.Spec Require Import LinearSpec.
Open Scope string_scope.
Open Scope list_scope.
Open Scope R_scope.

(** f lies at least mu/2 |z - x|^2 above its tangents, whose slope is g *)
Definition curved_above (p : nat) (mu : R) (f : vec -> R) (g : vec -> vec) : Prop :=
  forall x z, length x = p -> length z = p ->
    f x + vdot (g x) (vsub z x) + mu / 2 * sqnorm (vsub z x) <= f z.

(** u minimises F among the vectors of length p in dom *)
Definition best_in (p : nat) (dom : vec -> Prop) (F : vec -> R) (u : vec) : Prop :=
  length u = p /\ dom u /\ forall z, length z = p -> dom z -> F u <= F z.

(** (x, u) minimises F among the pairs of vectors of length p *)
Definition best_pair (p : nat) (F : vec -> vec -> R) (x u : vec) : Prop :=
  length x = p /\ length u = p /\
  forall z v, length z = p -> length v = p -> F x u <= F z v.

(** the columns of a are independent, mu being a lower bound of the eigenvalues of a'a *)
Definition independent (p : nat) (mu : R) (a : mat) : Prop :=
  0 < mu /\ forall z, length z = p -> mu * sqnorm z <= sqnorm (mv a z).

(** after n steps no shorter than sm from x0, on a function with the curvature mu *)
Definition geometric (sm mu : R) (n : nat) (x0 u x : vec) : Prop :=
  sqnorm (vsub x u) <= sqnorm (vsub x0 u) / (1 + sm * mu) ^ n.
(** what a last step of at most tol says about the distance *)
Definition settled (sm mu tol : R) (u x : vec) : Prop :=
  norm (vsub x u) <= tol * (2 / (sm * mu) + 1 / 2).

(** the curvature that the relaxation with el leaves of mu *)
Definition relaxed_curvature (el mu : R) : R := mu * el / (mu + el).

(** two equal columns: one observation 2 = x1 + x2 *)
Definition twin_problem : linear_problem :=
  {| lp_a := [[1; 1]]; lp_b := [2]; lp_n := 1; lp_p := 2; lp_c := [[1; 0]; [0; 1]]; lp_weights := None; lp_obs_std := None |}.
