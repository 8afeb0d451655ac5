(** What the data alone say about how low the objective of a mixed model can be. *)
From Verif.Base Require Import Py Vec Mat RMx.
From Verif.Model Require Import LmeProblem Regularizers Solvers LmeInner LmeFit.
From Verif.Spec Require Import FitSpec.
From mathcomp Require Import ssreflect ssrfun ssrbool eqtype ssrnat choice seq fintype
  finfun bigop finset ssralg matrix mxalgebra.
From Verif.Model Require Import LmeOracle.
From Verif.Spec Require Import MxSpec.
Set Implicit Arguments.
Unset Strict Implicit.
Unset Printing Implicit Defensive.
Delimit Scope R_scope with coqR.
Local Open Scope ring_scope.

Section Bound.
Variables p q : nat.
Implicit Types (gs : seq (group p q)) (g : group p q).

(** - log of the density of observations that are predicted without error by the fixed effects alone *)
Definition noise_floor gs : R := \sum_(g <- gs) (/ 2 * \sum_i ln (g_v g i ord0))%coqR.
(** z_j' Lambda^-1 z_j: how much the observations of a group say about its j-th random effect *)
Definition signal g (j : 'I_q) : R := \sum_i (g_z g i j ^ 2 / g_v g i ord0)%coqR.
(** what a variance t of the j-th random effect costs at least *)
Definition variance_cost gs (j : 'I_q) (t : R) : R := \sum_(g <- gs) (/ 2 * ln (1 + t * signal g j))%coqR.
End Bound.

(** ** samples *)
(** an L1 model with line search, tolerance 1/10 and at most three iterations *)
Definition patient_model : lme_model :=
  {| mo_penalty := PenL1 1%coqR; mo_sr3 := None; mo_tol := (/ 10)%coqR; mo_max_iter := 3%Z; mo_stepping := "line-search"%string;
     mo_step_len := None; mo_eps := 0%coqR; mo_initializer := "None"%string; mo_keys := (KTuple, [::]); mo_prior := None |}.
(** one observation with random feature 1 and the variance -1 *)
Definition negative_table : table := {| t_cols := 4; t_rows := [:: [:: 0; 0; 1; -1]%coqR] |}.
