(** Which features a fit selects, independently of the code. *)
From Verif.Base Require Import Py Vec Mat.
From Verif.Model Require Import Linear.
From Verif.Spec Require Import LinearSpec.
Open Scope string_scope.
Open Scope list_scope.
Open Scope R_scope.

(** a'(a u - b) *)
Definition residual_correlations (pr : linear_problem) (u : vec) : vec :=
  tmv (lp_p pr) (lp_a pr) (vsub (mv (lp_a pr) u) (lp_b pr)).

(** g is the gradient of the loss at u: where u is zero, g is below the penalty by dz at least, and elsewhere u is
    at least dn *)
Definition clear_cut (lam : R) (w g u : vec) (dz dn : R) : Prop :=
  forall i, (i < length u)%nat ->
    (nth i u 0 = 0 -> Rabs (nth i g 0) + dz <= lam * nth i w 0) /\
    (nth i u 0 <> 0 -> dn <= Rabs (nth i u 0)).

(** x is zero exactly where u is, and has its signs *)
Definition same_selection (u x : vec) : Prop :=
  length x = length u /\ forall i, (i < length u)%nat ->
    (nth i x 0 = 0 <-> nth i u 0 = 0) /\ 0 <= nth i x 0 * nth i u 0.

(** steps no shorter than sm, curvature between mu and L; n of them, from the squared distance d2 *)
Definition enough_steps (sm mu L dz dn : R) (n : nat) (d2 : R) : Prop :=
  (0 < n)%nat /\ d2 * (1 / sm + L) ^ 2 <= dz ^ 2 * (1 + sm * mu) ^ (n - 1) /\ d2 < dn ^ 2 * (1 + sm * mu) ^ n.
(** a last step of at most tol *)
Definition fine_enough (sm mu L dz dn tol : R) : Prop :=
  tol * (2 / (sm * mu) + 3 / 2) * (1 / sm + L) <= dz /\ tol * (2 / (sm * mu) + 1 / 2) < dn.

(** two independent features with the responses 4 and 1/2 *)
Definition two_features : linear_problem :=
  {| lp_a := [[1; 0]; [0; 1]]; lp_b := [4; 1 / 2]; lp_n := 2; lp_p := 2; lp_c := [[1; 0]; [0; 1]]; lp_weights := None; lp_obs_std := None |}.
