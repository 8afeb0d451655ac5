(** The same data with the features of a mixed model in another order. *)
From Verif.Base Require Import Py Vec RMx.
From mathcomp Require Import ssreflect ssrfun ssrbool eqtype ssrnat choice seq fintype
  finfun bigop finset fingroup perm ssralg matrix mxalgebra.
From Verif.Model Require Import LmeOracle.
Set Implicit Arguments.
Unset Strict Implicit.
Unset Printing Implicit Defensive.
Local Open Scope ring_scope.

(** fixed feature i of the result is fixed feature s(i), random feature j is random feature t(j) *)
Definition reorder_features (p q : nat) (s : 'S_p) (t : 'S_q) (g : group p q) : group p q :=
  @Group p q (g_n g) (col_perm s (g_x g)) (g_y g) (col_perm t (g_z g)) (g_v g).
Definition reorder_gauss (n : nat) (s : 'S_n) (c : gauss_cols n) : gauss_cols n :=
  match c with
  | Each m d w => Each (row_perm s m) (row_perm s d) (row_perm s w)
  | One m d w => One m d w
  end.
Definition reorder_prior (p q : nat) (s : 'S_p) (t : 'S_q) (pr : lme_prior p q) : lme_prior p q :=
  match pr with
  | LNone => LNone
  | LGauss b g => LGauss (reorder_gauss s b) (reorder_gauss t g)
  end.
(** entry (i, j) of the result is entry (s(i), t(j)) *)
Definition reorder_mx (p q : nat) (s : 'S_p) (t : 'S_q) (a : 'M[R]_(p, q)) : 'M[R]_(p, q) := \matrix_(i, j) a (s i) (t j).
