(** The evaluations of a problem at zero. *)
From Verif.Base Require Import Py Vec RMx.
From Verif.Model Require Import LmeProblem LmeInner LmeFit.
From Verif.Proofs Require Import ShrinkLme.
From mathcomp Require Import ssreflect ssrfun ssrbool eqtype ssrnat choice seq fintype
  finfun bigop finset ssralg matrix mxalgebra.
From Verif.Model Require Import LmeOracle LmeBridge.
From Verif.Spec Require Import MxSpec ShrinkLmeSpec.
From Verif.Proofs Require Import MxFacts LmeOracleProofs BridgeProofs ApartProofs ShrinkZero.
From Coq Require Import Lra.
Set Implicit Arguments.
Unset Strict Implicit.
Unset Printing Implicit Defensive.
Import GRing.Theory.
Local Open Scope ring_scope.

Lemma col_zeros n : col_of n (zeros n) = 0.
Proof. by apply/colP => i; rewrite !mxE nth_zeros. Qed.
Lemma length_zeros n : length (zeros n) = n.
Proof. by elim: n => //= n ->. Qed.

Section Zero.
Variables (cdf : R -> R) (pr : lme_problem).
Let p := num_fixed pr.
Let q := num_random pr.
Variable gs : seq (group p q).
Hypotheses (hgs : groups_of p q pr = Ok gs) (hv : positive_variances gs).
Let c := problem_calls cdf pr None None.

Lemma zero_gradient_beta gb (i : 'I_p) : lc_gradient_beta c (zeros p) (zeros q) = Ok gb ->
  List.nth i gb 0%coqR = (- score gs i)%coqR.
Proof.
  rewrite /c /problem_calls -/p -/q hgs; cbn [lc_gradient_beta list_calls].
  rewrite /list_gradient_beta /with_prior /at_params; cbn [rbind].
  rewrite !sized_ok ?length_zeros //; cbn [rbind prior_mx]; rewrite !col_zeros.
  have := gradient_beta0 hv i; case: (lme_gradient_beta _ _ _ _) => [a|//] /= <- [<-]. exact: nth_vec_of.
Qed.
Lemma zero_gradient_gamma gg (j : 'I_q) : lc_gradient_gamma c (zeros p) (zeros q) = Ok gg ->
  List.nth j gg 0%coqR = (- gain gs j)%coqR.
Proof.
  rewrite /c /problem_calls -/p -/q hgs; cbn [lc_gradient_gamma list_calls].
  rewrite /list_gradient_gamma /with_prior /at_params; cbn [rbind].
  rewrite !sized_ok ?length_zeros //; cbn [rbind prior_mx]; rewrite !col_zeros.
  have := gradient_gamma0 hv j; case: (lme_gradient_gamma _ _ _ _) => [a|//] /= <- [<-]. exact: nth_vec_of.
Qed.
Lemma kept_iff lam wf wr gb gg : length wf = p -> length wr = q -> length gb = p -> length gg = q ->
  lc_gradient_beta c (zeros p) (zeros q) = Ok gb -> lc_gradient_gamma c (zeros p) (zeros q) = Ok gg ->
  (kept lam wf wr gb gg <-> nothing_pays lam wf wr gs).
Proof.
  move=> l1 l2 l3 l4 eb eg. rewrite /kept (Forall2_nth _ wf gb p l1 l3) (Forall2_nth _ wr gg q l2 l4) /nothing_pays.
  split; case=> h1 h2; split.
  - move=> i; have hi : (i < p)%coq_nat by apply/ltP.
    by have := h1 _ hi; rewrite (zero_gradient_beta i eb) Rabs_Ropp.
  - move=> j; have hj : (j < q)%coq_nat by apply/ltP.
    by have := h2 _ hj; rewrite (zero_gradient_gamma j eg) Ropp_involutive.
  - move=> i /ltP hi; have := h1 (Ordinal hi); by rewrite -[i]/(nat_of_ord (Ordinal hi)) (zero_gradient_beta _ eb) Rabs_Ropp.
  - move=> j /ltP hj; have := h2 (Ordinal hj); by rewrite -[j]/(nat_of_ord (Ordinal hj)) (zero_gradient_gamma _ eg) Ropp_involutive.
Qed.
Lemma zero_effects us : lc_random_effects c (zeros p) (zeros q) = Ok us -> forall u, List.In u us -> u = zeros q.
Proof.
  rewrite /c /problem_calls -/p -/q hgs; cbn [lc_random_effects list_calls].
  rewrite /list_random_effects /at_params; cbn [rbind].
  rewrite !sized_ok ?length_zeros //; cbn [rbind]; rewrite !col_zeros.
  case e: (lme_random_effects _ _ _) => [vs|//] /= [<-]; rewrite (effects0 hv e) => u.
  by elim: (size gs) => //= n IH [<-|//]; exact: vec_of0.
Qed.
End Zero.

(** ** the sample problems *)
Lemma apart_score i : score apart_groups i = 42%coqR.
Proof.
  rewrite /score /apart_groups !big_cons big_nil !big_ord_recl !big_ord0 /= !mxE (ord1 i) /= !mulr1n.
  by rewrite -[LHS]/(1 * 42 / 1 + 0 + (0 * 0 / 1 + 0 + 0))%coqR; field.
Qed.
Lemma apart_gain j : gain apart_groups j = (- / 2)%coqR.
Proof.
  rewrite /gain /group_score /apart_groups !big_cons big_nil !big_ord_recl !big_ord0 !mxE (ord1 j) /= !mulr1n.
  by rewrite -[LHS]/(/ 2 * (0 * 42 / 1 + 0) ^ 2 - / 2 * (0 ^ 2 / 1 + 0) + (/ 2 * (1 * 0 / 1 + 0) ^ 2 - / 2 * (1 ^ 2 / 1 + 0) + 0))%coqR; field.
Qed.
Lemma flat_pays : positive_variances [:: flat_group 1 1] /\ nothing_pays 1 [:: 1%coqR] [:: 1%coqR] [:: flat_group 1 1].
Proof.
  split.
  - by move=> g [<-|//] i; rewrite mxE; exact: Rlt_0_1.
  - split=> i; rewrite (ord1 i).
    + rewrite /score big_cons big_nil big_ord_recl big_ord0 !mxE /= -[X in Rabs X]/(0 * 0 / 1 + 0 + 0)%coqR.
      rewrite (_ : (0 * 0 / 1 + 0 + 0)%coqR = 0%coqR); last by field.
      by rewrite Rabs_R0; lra.
    + rewrite /gain /group_score big_cons big_nil !big_ord_recl !big_ord0 !mxE /=.
      rewrite -[X in (X <= _)%coqR]/(/ 2 * (0 * 0 / 1 + 0) ^ 2 - / 2 * (0 ^ 2 / 1 + 0) + 0)%coqR; lra.
Qed.
Lemma apart_pays lam : nothing_pays lam [:: 1%coqR] [:: 1%coqR] apart_groups <-> (42 <= lam)%coqR.
Proof.
  split.
  - by case=> h _; have := h ord0; rewrite apart_score /= Rabs_right; lra.
  - by move=> h; split=> i; [rewrite apart_score|rewrite apart_gain]; rewrite (ord1 i) /=; [rewrite Rabs_right|]; lra.
Qed.
