(** The same data in other units of measurement. *)
From Verif.Base Require Import Py Vec RMx.
From mathcomp Require Import ssreflect ssrfun ssrbool eqtype ssrnat choice seq fintype
  finfun bigop finset ssralg matrix mxalgebra.
From Verif.Model Require Import LmeOracle.
Set Implicit Arguments.
Unset Strict Implicit.
Unset Printing Implicit Defensive.
Delimit Scope R_scope with coqR.
Local Open Scope ring_scope.

(** y becomes c (y + X b), the columns of X are replaced by the combinations X A, column j of Z is
    multiplied by s_j; the variances of the observations follow y *)
Record units (p q : nat) := Units {
  u_scale : R;                (* c *)
  u_shift : 'cV[R]_p;         (* b *)
  u_fixed : 'M[R]_p;          (* A *)
  u_random : 'cV[R]_q         (* s *)
}.
Section Units.
Variables (p q : nat) (U : units p q).
Implicit Types (g : group p q) (beta : 'cV[R]_p) (gamma u : 'cV[R]_q).
Definition sensible : Prop :=
  u_scale U <> 0%coqR /\ u_fixed U \in unitmx /\ forall j, u_random U j ord0 <> 0%coqR.
Definition convert g : group p q :=
  @Group p q (g_n g) (g_x g *m u_fixed U) (u_scale U *: (g_y g + g_x g *m u_shift U))
    (g_z g *m diagv (u_random U)) ((u_scale U ^ 2)%coqR *: g_v g).
(** the parameters of the same model of the same data *)
Definition convert_beta beta : 'cV[R]_p := u_scale U *: (invmx (u_fixed U) *m (beta + u_shift U)).
Definition convert_gamma gamma : 'cV[R]_q :=
  \col_j (u_scale U ^ 2 * gamma j ord0 / u_random U j ord0 ^ 2)%coqR.
Definition convert_effects u : 'cV[R]_q := \col_j (u_scale U * u j ord0 / u_random U j ord0)%coqR.
End Units.
(** the target alone in another unit *)
Definition target_units (p q : nat) (c : R) : units p q := Units c 0 1%:M (const_mx 1%coqR).
(** the random effects that are estimated (variance above 1e-10) are the same in both units *)
Definition same_estimated (p q : nat) (U : units p q) (gamma : 'cV[R]_q) : Prop :=
  forall j, (1 / 10 ^ 10 < Rabs (gamma j ord0) <-> 1 / 10 ^ 10 < Rabs (convert_gamma U gamma j ord0))%coqR.
(** X beta + Z u *)
Definition fitted_values (p q : nat) (g : group p q) (beta : 'cV[R]_p) (u : 'cV[R]_q) : 'cV[R]_(g_n g) :=
  g_x g *m beta + g_z g *m u.
