(** Weighted least squares, for mixed models whose random effects have zero variance. *)
From Verif.Base Require Import Py Vec RMx.
From mathcomp Require Import ssreflect ssrfun ssrbool eqtype ssrnat choice seq fintype
  finfun bigop finset ssralg matrix mxalgebra.
From Verif.Model Require Import LmeOracle.
From Verif.Spec Require Import MxSpec.
Set Implicit Arguments.
Unset Strict Implicit.
Unset Printing Implicit Defensive.
Delimit Scope R_scope with coqR.
Local Open Scope ring_scope.

(** sum over all observations of 1/2 (y - x beta)^2 / v *)
Definition weighted_squares (p q : nat) (gs : seq (group p q)) (beta : 'cV[R]_p) : R :=
  \sum_(g <- gs) \sum_i (/ 2 * (resid beta g i ord0 ^ 2 / g_v g i ord0))%coqR.
(** sum over all observations of 1/2 ln v *)
Definition log_variances (p q : nat) (gs : seq (group p q)) : R :=
  \sum_(g <- gs) \sum_i (/ 2 * ln (g_v g i ord0))%coqR.
(** sum over the observations of a group of a b / v *)
Definition weighted_dot (p q : nat) (g : group p q) (a b : 'cV[R]_(g_n g)) : R :=
  \sum_i (a i ord0 * b i ord0 / g_v g i ord0)%coqR.
(** the group without the data of the random effects that have zero variance *)
Definition drop_random (p q : nat) (gamma : 'cV[R]_q) (g : group p q) : group p q :=
  @Group p q (g_n g) (g_x g) (g_y g) (\matrix_(i, j) if reqb (gamma j ord0) 0 then 0 else g_z g i j) (g_v g).
