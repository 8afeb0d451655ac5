(** Specifications for the mixed-model oracle: positive definite matrices, the marginal
    covariance of a group, the Gaussian likelihood. *)
From Verif.Base Require Import Py Vec RMx.
From mathcomp Require Import ssreflect ssrfun ssrbool eqtype ssrnat choice seq fintype
  finfun bigop finset ssralg matrix mxalgebra.
From Verif.Model Require Import LmeOracle.
Set Implicit Arguments.
Unset Strict Implicit.
Unset Printing Implicit Defensive.
Delimit Scope R_scope with coqR.
Local Open Scope ring_scope.

(** the number in a 1x1 matrix *)
Definition sc (A : 'M[R]_1) : R := A ord0 ord0.
(** x' A x *)
Definition qf (n : nat) (A : 'M[R]_n) (x : 'cV[R]_n) : R := sc (x^T *m A *m x).
(** symmetric positive (semi)definite *)
Definition pd (n : nat) (A : 'M[R]_n) : Prop :=
  A^T = A /\ forall x, x <> 0 -> (0 < qf A x)%coqR.
Definition psd (n : nat) (A : 'M[R]_n) : Prop :=
  A^T = A /\ forall x, (0 <= qf A x)%coqR.

Section Spec.
Variables p q : nat.
Implicit Types (gs : seq (group p q)) (g : group p q) (pr : lme_prior p q).
Implicit Types (beta : 'cV[R]_p) (gamma : 'cV[R]_q).

(** the marginal covariance Z diag(gamma) Z' + Lambda of the observations of a group *)
Definition Omega gamma g : 'M[R]_(g_n g) :=
  g_z g *m diag_mx gamma^T *m (g_z g)^T + diag_mx (g_v g)^T.
Definition resid beta g : 'cV[R]_(g_n g) := g_y g - g_x g *m beta.
(** - log of the Gaussian density of the observations of a group, up to n/2 log(2 pi) *)
Definition nll beta gamma g : R :=
  (/ 2 * sc ((resid beta g)^T *m invmx (Omega gamma g) *m resid beta g)
   + / 2 * ln (\det (Omega gamma g)))%coqR.

(** the parameters for which all marginal covariances are positive definite *)
Definition admissible gs gamma : Prop := forall g, List.In g gs -> pd (Omega gamma g).
Definition positive_variances gs : Prop :=
  forall g, List.In g gs -> forall i, (0 < g_v g i ord0)%coqR.
Definition nonnegative (n : nat) (v : 'cV[R]_n) : Prop := forall i, (0 <= v i ord0)%coqR.

(** the value of a result, 0 for an exception *)
Definition value (r : res R) : R := match r with Ok a => a | Err _ => 0%coqR end.
Definition entry (n : nat) (r : res 'cV[R]_n) (i : 'I_n) : R :=
  match r with Ok a => a i ord0 | Err _ => 0%coqR end.
(** x moved by t along coordinate j *)
Definition along (n : nat) (x : 'cV[R]_n) (j : 'I_n) (t : R) : 'cV[R]_n := x + t *: delta_mx j ord0.
End Spec.

(** ** prediction of the random effects *)
Section Blup.
Variables p q : nat.
Implicit Types (g : group p q) (beta : 'cV[R]_p) (gamma u : 'cV[R]_q).
(** variances that are zero or larger than the threshold of the code *)
Definition blup_variances gamma : Prop :=
  forall j, gamma j ord0 = 0%coqR \/ (1 / 10 ^ 10 < gamma j ord0)%coqR.
(** effects with zero variance are zero *)
Definition supported gamma u : Prop := forall j, gamma j ord0 = 0%coqR -> u j ord0 = 0%coqR.
(** 1/2 (r - Zu)' Lambda^-1 (r - Zu) + 1/2 sum u_j^2 / gamma_j *)
Definition penalised beta gamma g u : R :=
  let e := resid beta g - g_z g *m u in
  (/ 2 * (\sum_i (e i ord0 ^ 2 / g_v g i ord0)%coqR)
   + / 2 * (\sum_(j | rltb 0 (gamma j ord0)) (u j ord0 ^ 2 / gamma j ord0)%coqR))%coqR.
(** Gamma Z' Omega^-1 r *)
Definition blup beta gamma g : 'cV[R]_q :=
  diag_mx gamma^T *m (g_z g)^T *m invmx (Omega gamma g) *m resid beta g.
End Blup.

(** ** priors *)
Section Priors.
Variables p q : nat.
Implicit Types (pr : lme_prior p q).
Definition prior_stds_nonzero pr : Prop :=
  match pr with LNone => True
  | LGauss b g => (forall i, stds_of b i ord0 <> 0%coqR) /\ (forall i, stds_of g i ord0 <> 0%coqR) end.
(** positive standard deviations and non-negative weights *)
Definition convex_prior pr : Prop :=
  match pr with LNone => True
  | LGauss b g => (forall i, 0 < stds_of b i ord0 /\ 0 <= weights_of b i ord0)%coqR
               /\ (forall i, 0 < stds_of g i ord0 /\ 0 <= weights_of g i ord0)%coqR end.
(** the prior does not weigh the fixed effects *)
Definition no_beta_prior pr : Prop :=
  match pr with LNone => True | LGauss b _ => weights_of b = 0 end.
(** the prior has a column for each coefficient *)
Definition each_column pr : Prop :=
  match pr with LGauss (Each _ _ _) (Each _ _ _) | LNone => True | _ => False end.
End Priors.

(** sum over groups of X' Omega^-1 X *)
Definition normal_matrix (p q : nat) (gs : seq (group p q)) (gamma : 'cV[R]_q) : 'M[R]_p :=
  \sum_(g <- gs) (g_x g)^T *m invmx (Omega gamma g) *m g_x g.
(** number of non-zero entries *)
Definition nonzeros (n : nat) (x : 'cV[R]_n) : nat := #|[set j | negb (reqb (x j ord0) 0%coqR)]|.

(** the correlations of the observations of a group, and the effective number of observations
    sum over groups of 1' C^-1 1 (Jones 2011) *)
Definition correlations (n : nat) (A : 'M[R]_n) : 'M[R]_n :=
  \matrix_(i, j) (A i j / (sqrt (A i i) * sqrt (A j j)))%coqR.
Definition effective_obs (p q : nat) (gs : seq (group p q)) (gamma : 'cV[R]_q) : R :=
  \sum_(g <- gs) qf (invmx (correlations (Omega gamma g))) (const_mx 1%coqR).
(** - log of the density of the observations of a group given its random effects, up to n/2 log(2 pi) *)
Definition conditional_nll (p q : nat) (beta : 'cV[R]_p) (u : 'cV[R]_q) (g : group p q) : R :=
  let e := resid beta g - g_z g *m u in
  \sum_i (/ 2 * (e i ord0 ^ 2 / g_v g i ord0) + / 2 * ln (g_v g i ord0))%coqR.

(** ** small problems used as witnesses *)
(** one observation with fixed feature x, random feature z, target y and variance v *)
Definition one_obs (x y z v : R) : group 1 1 := @Group 1 1 1 x%:M y%:M z%:M v%:M.
(** two observations of one fixed effect, without random part, with variances v and w *)
Definition two_obs (v w : R) : group 1 1 :=
  @Group 1 1 2 (const_mx 1%coqR) 0 0 (\col_i (if i == ord0 then v else w)).
