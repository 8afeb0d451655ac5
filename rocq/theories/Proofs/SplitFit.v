(** The shape of what fit stores, without conditions on the variances. *)
From Verif.Base Require Import Py Vec Mat RMx.
From Verif.Model Require Import LmeProblem LmePredict Regularizers Solvers LmeInner LmeFit LmeUse.
From Verif.Proofs Require Import VecFacts FitProofs ReportProofs LinearProofs.
From mathcomp Require Import ssreflect ssrfun ssrbool eqtype ssrnat choice seq fintype
  finfun bigop finset ssralg zmodp matrix mxalgebra.
From Verif.Model Require Import LmeOracle LmeBridge.
From Verif.Proofs Require Import MxFacts LmeOracleProofs BridgeProofs LmeFitMain LmeReportMain.
Set Implicit Arguments.
Unset Strict Implicit.
Unset Printing Implicit Defensive.

Lemma fit_shape argsort cdf m coef pr beta0 gamma0 warm fe re co lg :
  lme_fit_problem argsort cdf m coef pr beta0 gamma0 warm fe re = Ok (co, lg) ->
  length (co_beta co) = num_fixed pr /\ co_labels co = pr_group_labels pr /\
  length (co_effects co) = length (pr_fixed pr) /\
  List.Forall (fun u => length u = num_random pr) (co_effects co).
Proof.
  move=> H.
  destruct (fit_problem_inv _ _ _ _ _ _ _ _ _ _ _ _ _ H) as
    (ov & g & wf & wr & r0 & r & bg0 & b1 & g1 & lg0 & x & lg1 & _ & _ & _ & _ & _ & _ & _ & _ & _ & _ & Hu & Hp & Hl & _).
  have [gs [eg [hb [hg [vs [ev eu]]]]]] := list_effects_inv Hu.
  split=> //; split=> //; split.
    rewrite eu List.map_length.
    move: ev; rewrite /lme_random_effects; case: (recalculate _ _) => //= _ /sequence_length ->; rewrite List.map_length.
    move: eg; rewrite /groups_of; case: (pr_random_0d pr) => //= /sequence_length ->.
    by rewrite List.map_length List.seq_length.
  rewrite eu; apply/List.Forall_forall => u /List.in_map_iff [v [<- _]]; exact: length_vec_of.
Qed.
