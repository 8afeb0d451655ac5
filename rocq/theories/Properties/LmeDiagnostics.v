(** Property C102: the condition numbers of the mixed-model oracle (src/pysr3/lme/oracles.py). *)
From Coq Require Import String.
From Verif.Base Require Import Py Vec RMx.
From mathcomp Require Import ssreflect ssrfun ssrbool eqtype ssrnat choice seq fintype
  finfun bigop finset ssralg matrix mxalgebra.
From Verif.Model Require Import LmeOracle LmeDiagnostics.
From Verif.Spec Require Import MxSpec DiagnosticsSpec.
From Verif.Proofs Require Import LmeDiagnosticsMain.

Set Implicit Arguments.
Unset Strict Implicit.
Unset Printing Implicit Defensive.
Local Open Scope ring_scope.

(** C102 (partial).  For a single group the two numbers are the squares of the condition numbers of its X and Z. *)
Theorem condition_numbers_one_group_partial :
  forall p q svd (g : group p q) cx cz, svd_ok svd ->
  get_condition_numbers svd [:: g] = Ok (cx, cz) ->
  squared_condition_number (fun u => sumsq (g_x g *m u)) cx /\
  squared_condition_number (fun u => sumsq (g_z g *m u)) cz.
Proof. exact condition_numbers_one_group_partial_lemma. Qed.
Print Assumptions condition_numbers_one_group_partial.

(** C102 (partial).  For any number of groups a finite number is at least the squared condition number of the
    matrices of all groups on top of each other, which then has full column rank. *)
Theorem condition_numbers_upper_partial :
  forall p q svd (gs : seq (group p q)) cx cz, svd_ok svd ->
  get_condition_numbers svd gs = Ok (cx, cz) ->
  (forall k lo hi, cx = Fin k -> stretches (stacked_x gs) lo hi -> (0 < lo)%coqR /\ (hi / lo <= k)%coqR) /\
  (forall k lo hi, cz = Fin k -> stretches (stacked_z gs) lo hi -> (0 < lo)%coqR /\ (hi / lo <= k)%coqR).
Proof. exact condition_numbers_upper_partial_lemma. Qed.
Print Assumptions condition_numbers_upper_partial.

(** C102 (partial).  A number is infinite exactly when the matrix of at least one group has dependent columns. *)
Theorem condition_numbers_infinite_partial :
  forall p q svd (gs : seq (group p q)) cx cz, svd_ok svd ->
  get_condition_numbers svd gs = Ok (cx, cz) ->
  (cx = PInf <-> exists g (u : 'cV[R]_p), List.In g gs /\ u <> 0 /\ g_x g *m u = 0) /\
  (cz = PInf <-> exists g (u : 'cV[R]_q), List.In g gs /\ u <> 0 /\ g_z g *m u = 0).
Proof. exact condition_numbers_infinite_partial_lemma. Qed.
Print Assumptions condition_numbers_infinite_partial.

(** C102 is refuted.  For one group with X = diag(1, 2) the answer is 4 although the condition number is 2; and for
    two groups of one observation each, with X on top of each other the identity, the answer is infinite although the
    condition number is 1. *)
Theorem condition_numbers_refuted :
  svd_ok svd_of_diagonal /\
  (get_condition_numbers svd_of_diagonal [:: scaled] = Ok (Fin 4, Fin 4) /\
   condition_number (stacked_x [:: scaled]) (Fin 2) /\ ~ condition_number (stacked_x [:: scaled]) (Fin 4)) /\
  (get_condition_numbers svd_of_diagonal [:: unit_row ord0; unit_row (lift ord0 ord0)] = Ok (PInf, PInf) /\
   condition_number (stacked_x [:: unit_row ord0; unit_row (lift ord0 ord0)]) (Fin 1)).
Proof. exact condition_numbers_refuted_lemma. Qed.
Print Assumptions condition_numbers_refuted.

(** one group: the numbers are squared condition numbers, and finite since the columns are independent *)
Example ex_condition_numbers_one_group_partial :
  svd_ok svd_of_diagonal /\
  get_condition_numbers svd_of_diagonal [:: scaled] = Ok (Fin 4, Fin 4) /\
  squared_condition_number (fun u => sumsq (g_x scaled *m u)) (Fin 4) /\
  ~ (exists g (u : 'cV[R]_2), List.In g [:: scaled] /\ u <> 0 /\ g_x g *m u = 0).
Proof. exact ex_condition_numbers_one_group_partial_lemma. Qed.

(** the bound for two groups with the same matrix *)
Example ex_condition_numbers_upper_partial :
  get_condition_numbers svd_of_diagonal [:: scaled; scaled] = Ok (Fin 4, Fin 4) /\
  stretches (stacked_x [:: scaled; scaled]) 2 8.
Proof. exact ex_condition_numbers_upper_partial_lemma. Qed.

(** dependent columns in a group make the number infinite *)
Example ex_condition_numbers_infinite_partial :
  get_condition_numbers svd_of_diagonal [:: unit_row ord0; unit_row (lift ord0 ord0)] = Ok (PInf, PInf) /\
  exists g (u : 'cV[R]_2), List.In g [:: unit_row ord0; unit_row (lift ord0 ord0)] /\ u <> 0 /\ g_x g *m u = 0.
Proof. exact ex_condition_numbers_infinite_partial_lemma. Qed.

(** C102.  The wrapper get_ic returns the criterion of the name and refuses all other names. *)
Theorem get_ic_names :
  forall p q (gs : seq (group p q)) pr tol marginalized beta gamma,
  get_ic "IC_vaida2005aic" gs pr tol marginalized beta gamma = lme_vaida_aic gs pr tol marginalized beta gamma /\
  get_ic "IC_jones2010bic" gs pr tol marginalized beta gamma = lme_jones_bic gs pr tol beta gamma /\
  forall ic, ic <> "IC_vaida2005aic"%string -> ic <> "IC_jones2010bic"%string ->
    get_ic ic gs pr tol marginalized beta gamma = Err ValueError.
Proof. exact get_ic_names_lemma. Qed.
Print Assumptions get_ic_names.

(** the name the models use for the same criterion is refused *)
Example ex_get_ic_names :
  forall p q (gs : seq (group p q)) pr tol marginalized beta gamma,
  get_ic "vaida_aic" gs pr tol marginalized beta gamma = Err ValueError.
Proof. exact ex_get_ic_names_lemma. Qed.
