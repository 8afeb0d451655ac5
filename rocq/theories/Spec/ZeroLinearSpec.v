(** A linear problem as one group of a mixed model. *)
From Verif.Base Require Import Py Vec Mat RMx.
From Verif.Model Require Linear.
From mathcomp Require Import ssreflect ssrfun ssrbool eqtype ssrnat choice seq fintype
  finfun bigop finset ssralg matrix mxalgebra.
From Verif.Model Require Import LmeOracle LmeBridge.
Set Implicit Arguments.
Unset Strict Implicit.
Unset Printing Implicit Defensive.
Delimit Scope R_scope with coqR.

(** the observations of a linear problem with variance 1, in one group, with any data of random effects *)
Definition linear_group (q : nat) (pr : Linear.linear_problem) (z : 'M[R]_(Linear.lp_n pr, q)) : group (Linear.lp_p pr) q :=
  @Group _ q (Linear.lp_n pr) (mx_of _ _ (Linear.lp_a pr)) (col_of _ (Linear.lp_b pr)) z (const_mx 1%coqR).
