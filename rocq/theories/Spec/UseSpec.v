(** Vocabulary for predictions on the training data. *)
From Verif.Base Require Import Py Vec RMx.
From mathcomp Require Import ssreflect ssrfun ssrbool eqtype ssrnat choice seq fintype
  finfun bigop finset ssralg matrix mxalgebra.
From Verif.Model Require Import LmeOracle.
From Verif.Spec Require Import MxSpec.
Set Implicit Arguments.
Unset Strict Implicit.
Unset Printing Implicit Defensive.
Delimit Scope R_scope with coqR.
Local Open Scope ring_scope.

Section Spec.
Variables p q : nat.
Implicit Types (g : group p q) (beta : 'cV[R]_p) (gamma : 'cV[R]_q).
(** X beta + Z u with the best prediction u of the random effects *)
Definition fitted beta gamma g : 'cV[R]_(g_n g) := g_x g *m beta + g_z g *m blup beta gamma g.
(** sum of e_i^2 / v_i *)
Definition weighted_ss g (e : 'cV[R]_(g_n g)) : R := \sum_i (e i ord0 ^ 2 / g_v g i ord0)%coqR.
End Spec.
