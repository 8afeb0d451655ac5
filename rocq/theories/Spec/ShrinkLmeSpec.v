(** How strongly the data of a mixed model ask for its effects when there are none yet. *)
From Verif.Base Require Import Py Vec RMx.
From Verif.Model Require Import LmeProblem LmeInner LmeFit.
From mathcomp Require Import ssreflect ssrfun ssrbool eqtype ssrnat choice seq fintype
  finfun bigop finset ssralg matrix mxalgebra.
From Verif.Model Require Import LmeOracle.
Set Implicit Arguments.
Unset Strict Implicit.
Unset Printing Implicit Defensive.
Local Open Scope ring_scope.

Definition zero_col (n : nat) : 'cV[R]_n := 0.

Section Spec.
Variables p q : nat.
Implicit Types (gs : seq (group p q)) (g : group p q).

(** the answers against fixed feature i, and against random feature j within a group, every observation counted by
    the inverse of its variance *)
Definition score gs (i : 'I_p) : R := \sum_(g <- gs) \sum_k (g_x g k i * g_y g k ord0 / g_v g k ord0)%coqR.
Definition group_score g (j : 'I_q) : R := \sum_k (g_z g k j * g_y g k ord0 / g_v g k ord0)%coqR.
(** how much of the squared group scores of random feature j is more than the noise alone explains *)
Definition gain gs (j : 'I_q) : R :=
  (\sum_(g <- gs) (/ 2 * group_score g j ^ 2 - / 2 * \sum_k (g_z g k j ^ 2 / g_v g k ord0))%coqR).
(** no feature asks for more than the penalty takes *)
Definition nothing_pays (lam : R) (wf wr : vec) gs : Prop :=
  (forall i : 'I_p, (Rabs (score gs i) <= lam * List.nth i wf 0)%coqR) /\
  (forall j : 'I_q, (gain gs j <= lam * List.nth j wr 0)%coqR).
End Spec.

(** the same model with the L1 penalty lam *)
Definition with_l1 (lam : R) (m : lme_model) : lme_model :=
  {| mo_penalty := PenL1 lam; mo_sr3 := mo_sr3 m; mo_tol := mo_tol m; mo_max_iter := mo_max_iter m;
     mo_stepping := mo_stepping m; mo_step_len := mo_step_len m; mo_eps := mo_eps m;
     mo_initializer := mo_initializer m; mo_keys := mo_keys m; mo_prior := mo_prior m |}.
