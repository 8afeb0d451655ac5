(** The determinant of the marginal covariance grows with the variances; bounds for the likelihood. *)
From Verif.Base Require Import Py Vec RMx.
From Coq Require Import Lra.
From mathcomp Require Import ssreflect ssrfun ssrbool eqtype ssrnat choice seq fintype
  finfun bigop finset ssralg zmodp matrix mxalgebra.
From Verif.Model Require Import LmeOracle.
From Verif.Spec Require Import MxSpec BoundSpec.
From Verif.Proofs Require Import MxFacts LmeOracleProofs.
Set Implicit Arguments.
Unset Strict Implicit.
Unset Printing Implicit Defensive.
Delimit Scope R_scope with coqR.
Import GRing.Theory.
Local Open Scope ring_scope.

Lemma ln_mono (x y : R) : (0 < x)%coqR -> (x <= y)%coqR -> (ln x <= ln y)%coqR.
Proof.
  move=> hx [h|->]; last exact: Rle_refl.
  by left; exact: ln_increasing.
Qed.

Section Bound.
Variables p q : nat.
Implicit Types (gs : seq (group p q)) (g : group p q) (pr : lme_prior p q).
Implicit Types (beta : 'cV[R]_p) (gamma : 'cV[R]_q).

Lemma along_nonneg gamma j t : nonnegative gamma -> (0 <= t)%coqR -> nonnegative (along gamma j t).
Proof.
  move=> h ht i; rewrite /along !mxE; have := h i; case: (i == j); rewrite /= ?mulr1 ?mulr0; toR; lra.
Qed.

Lemma logdet_grows gamma j t g : nonnegative gamma -> (forall i, (0 < g_v g i ord0)%coqR) -> (0 <= t)%coqR ->
  (ln (\det (Omega gamma g)) <= ln (\det (Omega (along gamma j t) g)))%coqR.
Proof.
  move=> hg hv ht; have hp := Omega_pd hg hv.
  have hb : (0 <= bf (invmx (Omega gamma g)) (zc g j) (zc g j))%coqR.
    by rewrite -qf_bf; have [_] := pd_psd (pd_inv hp); apply.
  have h1 : (0 <= t * bf (invmx (Omega gamma g)) (zc g j) (zc g j))%coqR by exact: Rmult_le_pos.
  rewrite logdet_along //; last lra.
  have h2 : (0 <= ln (1 + t * bf (invmx (Omega gamma g)) (zc g j) (zc g j)))%coqR.
    by rewrite -ln_1; apply: ln_mono; lra.
  lra.
Qed.

Lemma logdet_adds g (s : seq 'I_q) : forall gamma (c : 'I_q -> R), nonnegative gamma -> (forall i, (0 < g_v g i ord0)%coqR) ->
  (forall j, (0 <= c j)%coqR) ->
  (ln (\det (Omega gamma g)) <= ln (\det (Omega (gamma + \sum_(j <- s) c j *: delta_mx j ord0) g)))%coqR.
Proof.
  elim: s => [|j s IH] gamma c hg hv hc; first by rewrite big_nil addr0; exact: Rle_refl.
  apply: Rle_trans; first exact: (logdet_grows j hg hv (hc j)).
  by rewrite big_cons addrA; apply: IH => //; apply: along_nonneg.
Qed.

Lemma Omega0 g : Omega 0 g = diagv (g_v g).
Proof.
  rewrite /Omega (_ : diag_mx _ = 0) ?mulmx0 ?mul0mx ?add0r //.
  by apply/matrixP => i j; rewrite !mxE mul0rn.
Qed.

Lemma invmx_diagv n (v : 'cV[R]_n) : (forall i, (0 < v i ord0)%coqR) -> invmx (diagv v) = diagv (\col_i (/ v i ord0)%coqR).
Proof.
  move=> hv; have hu : diagv v \in unitmx by apply: pd_unit; exact: pd_diagv.
  have e : diagv (\col_i (/ v i ord0)%coqR) *m diagv v = 1%:M.
    apply/matrixP => i j; rewrite mul_diagv diagvE !mxE; case: eqP => [->|_]; last by rewrite !mulr0n mulr0.
    rewrite !mulr1n; apply: Rinv_l; have := hv j; lra.
  by rewrite -[LHS]mul1mx -e -mulmxA mulmxV // mulmx1.
Qed.

Lemma det_diagv n (v : 'cV[R]_n) : \det (diagv v) = \prod_i v i ord0.
Proof. by rewrite /diagv det_diag; apply: eq_bigr => i _; rewrite mxE. Qed.

Lemma bf_diag g j : (forall i, (0 < g_v g i ord0)%coqR) ->
  bf (invmx (Omega 0 g)) (zc g j) (zc g j) = signal g j.
Proof.
  move=> hv; rewrite -qf_bf Omega0 invmx_diagv // qf_diagv; apply: eq_bigr => i _.
  by rewrite !mxE /Rdiv Rmult_comm.
Qed.
Lemma signal_ge0 g j : (forall i, (0 < g_v g i ord0)%coqR) -> (0 <= signal g j)%coqR.
Proof.
  move=> hv; apply: sum_ge0 => i _; apply: Rmult_le_pos; first exact: pow2_ge_0.
  by left; exact: Rinv_0_lt_compat.
Qed.
Lemma logdet0 g : (forall i, (0 < g_v g i ord0)%coqR) -> ln (\det (Omega 0 g)) = \sum_i ln (g_v g i ord0).
Proof. by move=> hv; rewrite Omega0 det_diagv; have [] := ln_prod hv. Qed.

Lemma nonneg0 : nonnegative (0 : 'cV[R]_q).
Proof. by move=> i; rewrite mxE; exact: Rle_refl. Qed.

Lemma cols_sum gamma (j : 'I_q) : gamma = along 0 j (gamma j ord0) + \sum_(k <- [seq k <- enum 'I_q | k != j]) gamma k ord0 *: delta_mx k ord0.
Proof.
  rewrite /along add0r big_filter big_enum_cond /=.
  rewrite -(bigD1 j (P := xpredT) (F := fun k => gamma k ord0 *: delta_mx k ord0)) //=.
  apply/matrixP => i k; rewrite summxE (bigD1 i) //= big1 ?addr0.
    by rewrite !mxE eqxx (ord1 k) /= mulr1.
  by move=> l hl; rewrite !mxE eq_sym (negbTE hl) /= mulr0.
Qed.
Lemma all_sum gamma : gamma = 0 + \sum_(k <- enum 'I_q) gamma k ord0 *: delta_mx k ord0.
Proof.
  rewrite add0r big_enum; apply/matrixP => i k; rewrite summxE (bigD1 i) //= big1 ?addr0.
    by rewrite !mxE eqxx (ord1 k) /= mulr1.
  by move=> l hl; rewrite !mxE eq_sym (negbTE hl) /= mulr0.
Qed.

Lemma logdet_low gamma g : nonnegative gamma -> (forall i, (0 < g_v g i ord0)%coqR) ->
  (\sum_i ln (g_v g i ord0) <= ln (\det (Omega gamma g)))%coqR.
Proof.
  move=> hg hv; rewrite -logdet0 // [X in (_ <= ln (\det (Omega X _)))%coqR]all_sum.
  exact: (logdet_adds _ nonneg0 hv hg).
Qed.
Lemma logdet_low_var gamma j g : nonnegative gamma -> (forall i, (0 < g_v g i ord0)%coqR) ->
  (\sum_i ln (g_v g i ord0) + ln (1 + gamma j ord0 * signal g j) <= ln (\det (Omega gamma g)))%coqR.
Proof.
  move=> hg hv; rewrite [X in (_ <= ln (\det (Omega X _)))%coqR](cols_sum gamma j).
  apply: Rle_trans; last apply: logdet_adds => //; last exact: along_nonneg nonneg0 (hg j).
  have h := Rmult_le_pos _ _ (hg j) (signal_ge0 j hv).
  rewrite logdet_along ?bf_diag ?logdet0 //; [exact: Rle_refl | exact: Omega_pd nonneg0 hv | lra].
Qed.

Lemma nll_low beta gamma g : nonnegative gamma -> (forall i, (0 < g_v g i ord0)%coqR) ->
  (/ 2 * ln (\det (Omega gamma g)) <= nll beta gamma g)%coqR.
Proof.
  move=> hg hv; rewrite /nll; have [_ h] := pd_psd (pd_inv (Omega_pd hg hv)).
  have := h (resid beta g); rewrite /qf; lra.
Qed.
Lemma prior_loss_ge0 pr beta gamma : convex_prior pr -> (0 <= prior_loss pr beta gamma)%coqR.
Proof.
  have part n (m s w x : 'cV[R]_n) : (forall i, 0 < s i ord0 /\ 0 <= w i ord0)%coqR -> (0 <= gauss_part m s w x)%coqR.
    move=> h; apply: sum_ge0 => i _; have [hs hw] := h i.
    apply: Rmult_le_pos; last exact: pow2_ge_0.
    by apply: Rmult_le_pos => //; left; apply: Rinv_0_lt_compat; lra.
  case: pr => [|b g] /=; first by move=> _; exact: Rle_refl.
  by move=> [hb hg]; have := part _ (means_of b) _ _ beta hb; have := part _ (means_of g) _ _ gamma hg; toR; lra.
Qed.

(** the objective *)
Lemma loss_low gs pr beta gamma (low : group p q -> R) : positive_variances gs -> nonnegative gamma -> convex_prior pr ->
  (forall g, (forall i, (0 < g_v g i ord0)%coqR) -> (low g <= ln (\det (Omega gamma g)))%coqR) ->
  exists v, lme_loss gs pr beta gamma = Ok v /\ (\sum_(g <- gs) (/ 2 * low g)%coqR <= v)%coqR.
Proof.
  move=> hv hg hp hl; exists (\sum_(g <- gs) nll beta gamma g + prior_loss pr beta gamma)%coqR.
  split; first by apply: lme_loss_ok; exact: admissible_nonneg.
  have h1 := prior_loss_ge0 beta gamma hp.
  suff h2 : (\sum_(g <- gs) (/ 2 * low g)%coqR <= \sum_(g <- gs) nll beta gamma g)%coqR by lra.
  elim: gs hv => [|g gs IH] hv; first by rewrite !big_nil; exact: Rle_refl.
  rewrite !big_cons; apply: Rplus_le_compat; last by apply: IH => g' hin; apply: hv; right.
  have hg0 : forall i, (0 < g_v g i ord0)%coqR by apply: hv; left.
  have := nll_low beta hg hg0; have := hl g hg0; lra.
Qed.
End Bound.
