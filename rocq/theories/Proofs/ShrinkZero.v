(** The gradients of the likelihood of a mixed model, and its random effects, at zero. *)
From Verif.Base Require Import Py Vec RMx.
From Verif.Model Require Import LmeProblem LmeInner LmeFit.
From mathcomp Require Import ssreflect ssrfun ssrbool eqtype ssrnat choice seq fintype
  finfun bigop finset ssralg matrix mxalgebra.
From Verif.Model Require Import LmeOracle LmeBridge.
From Verif.Spec Require Import MxSpec ShrinkLmeSpec.
From Verif.Proofs Require Import MxFacts LmeOracleProofs.
From Coq Require Import Lra.
Set Implicit Arguments.
Unset Strict Implicit.
Unset Printing Implicit Defensive.
Import GRing.Theory.
Local Open Scope ring_scope.

Lemma bf_diag n (v a b : 'cV[R]_n) : (forall i, (0 < v i ord0)%coqR) ->
  bf (invmx (diag_mx v^T)) a b = \sum_k (a k ord0 * b k ord0 / v k ord0)%coqR.
Proof.
  move=> hv. pose w : 'cV[R]_n := \col_i (/ v i ord0)%coqR.
  have e : diag_mx v^T *m diag_mx w^T = 1%:M.
    rewrite mulmx_diag -diag_const_mx; congr diag_mx. apply/rowP => i; rewrite !mxE.
    rewrite -[(_ * _)%R]/(_ * _)%coqR Rinv_r //. by apply: Rgt_not_eq; exact: hv.
  have [u _] := mulmx1_unit e.
  have -> : invmx (diag_mx v^T) = diag_mx w^T by rewrite -[LHS]mulmx1 -e mulKmx.
  rewrite /bf /sc mxE; apply: eq_bigr => k _. rewrite mul_mx_diag !mxE.
  rewrite -[X in X = _]/(a k ord0 * / v k ord0 * b k ord0)%coqR; rewrite /Rdiv; ring.
Qed.

Lemma Ok_eq (A : Type) (a b : A) : Ok a = Ok b -> a = b.
Proof. by case. Qed.
Lemma sum_in p q (gs : seq (group p q)) (f h : group p q -> R) : (forall g, List.In g gs -> f g = h g) -> \sum_(g <- gs) f g = \sum_(g <- gs) h g.
Proof.
  elim: gs => [|g s IH] e; first by rewrite !big_nil.
  by rewrite !big_cons e; [rewrite IH // => g' hg; apply: e; right|left].
Qed.
Lemma sequence_zero p q n (f : group p q -> res 'cV[R]_n) : (forall g u, f g = Ok u -> u = 0) ->
  forall gs us, sequence (List.map f gs) = Ok us -> us = nseq (size gs) 0.
Proof.
  move=> z; elim=> [|g s IH] us /=; first by case.
  case e: (f g) => [u|//] /=; rewrite (z _ _ e).
  case e2: (sequence _) => [t|//] /= [<-]. by rewrite (IH _ e2).
Qed.

Section Zero.
Variables p q : nat.
Variable gs : seq (group p q).
Hypothesis hv : positive_variances gs.

Lemma Omega0 (g : group p q) : Omega 0 g = diag_mx (g_v g)^T.
Proof.
  have e : diag_mx (0 : 'rV[R]_q) = 0 by apply/matrixP => i j; rewrite !mxE; case: (_ == _).
  by rewrite /Omega trmx0 e mulmx0 mul0mx add0r.
Qed.
Lemma resid0 (g : group p q) : resid 0 g = g_y g.
Proof. by rewrite /resid mulmx0 subr0. Qed.
Lemma admissible0 : admissible gs 0.
Proof. by apply: admissible_nonneg => // i; rewrite mxE; right. Qed.
Lemma gradient_beta0 i : entry (lme_gradient_beta gs LNone 0 0) i = (- score gs i)%coqR.
Proof.
  rewrite (@gradient_beta_ok _ _ gs LNone 0 0 i admissible0) /= /prior_gradient_beta mxE.
  rewrite (sum_in (h := fun g => (- \sum_k (g_x g k i * g_y g k ord0 / g_v g k ord0)%coqR)%coqR)); last first.
    move=> g hg; rewrite Omega0 resid0 bf_diag; last exact: hv.
    by congr Ropp; apply: eq_bigr => k _; rewrite mxE.
  rewrite /score (_ : \sum_(g <- gs) _ = - \sum_(g <- gs) \sum_k (g_x g k i * g_y g k ord0 / g_v g k ord0)%coqR)%R; last by rewrite -sumrN.
  by rewrite -[X in (_ + X)%coqR]/0%coqR Rplus_0_r.
Qed.
Lemma gradient_gamma0 j : entry (lme_gradient_gamma gs LNone 0 0) j = (- gain gs j)%coqR.
Proof.
  rewrite (@gradient_gamma_ok _ _ gs LNone 0 0 j admissible0) /= /prior_gradient_gamma mxE.
  rewrite (sum_in (h := fun g => (- (/ 2 * group_score g j ^ 2 - / 2 * \sum_k (g_z g k j ^ 2 / g_v g k ord0)))%coqR)); last first.
    move=> g hg; rewrite Omega0 resid0 !bf_diag; try exact: hv.
    have -> : \sum_k (zc g j k ord0 * g_y g k ord0 / g_v g k ord0)%coqR = group_score g j by apply: eq_bigr => k _; rewrite mxE.
    have -> : \sum_k (zc g j k ord0 * zc g j k ord0 / g_v g k ord0)%coqR = \sum_k (g_z g k j ^ 2 / g_v g k ord0)%coqR.
      by apply: eq_bigr => k _; rewrite !mxE /= Rmult_1_r.
    by rewrite Ropp_minus_distr.
  rewrite /gain -[X in (_ + X)%coqR]/0%coqR Rplus_0_r. exact: sumrN.
Qed.
Lemma effects0 us beta : lme_random_effects gs beta 0 = Ok us -> us = nseq (size gs) 0.
Proof.
  rewrite /lme_random_effects (recalculate_ok admissible0); cbn [rbind].
  have z (g : group p q) (u : 'cV[R]_q) : group_effects beta 0 g = Ok u -> u = 0.
    rewrite /group_effects; cbv zeta; case: (np_solve _ _) => [w|//]; cbn [rbind] => e. have <- := Ok_eq e.
    apply/colP => j; rewrite !mxE big1 // => k _. have := enum_valP k. rewrite inE mxE Rabs_R0.
    case: rltbP => // h; exfalso; have : (0 < 10 ^ 10)%coqR by apply: pow_lt; lra.
    move/Rinv_0_lt_compat; rewrite /Rdiv Rmult_1_l in h; lra.
  exact: sequence_zero.
Qed.
End Zero.
