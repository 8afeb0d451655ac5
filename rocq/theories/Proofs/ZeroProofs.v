(** Evaluations of the mixed-model oracle at zero variances. *)
From Coq Require Import Lra.
From Verif.Base Require Import Py Vec RMx.
From mathcomp Require Import ssreflect ssrfun ssrbool eqtype ssrnat choice seq fintype
  finfun bigop finset ssralg matrix mxalgebra.
From Verif.Model Require Import LmeOracle.
From Verif.Spec Require Import MxSpec ZeroSpec.
From Verif.Proofs Require Import MxFacts LmeOracleProofs LmeEstimateMain.
Set Implicit Arguments.
Unset Strict Implicit.
Unset Printing Implicit Defensive.
Delimit Scope R_scope with coqR.
Local Open Scope ring_scope.
Import GRing.Theory.

Section Zero.
Variables p q : nat.
Implicit Types (gs : seq (group p q)) (g : group p q) (pr : lme_prior p q) (beta : 'cV[R]_p).

Lemma Omega_zero g : Omega 0 g = diagv (g_v g).
Proof. by rewrite /Omega trmx0 linear0 mulmx0 mul0mx add0r. Qed.
Lemma zero_nonneg : nonnegative (0 : 'cV[R]_q).
Proof. by move=> i; rewrite mxE; toR; lra. Qed.
Lemma zero_admissible gs : positive_variances gs -> admissible gs 0.
Proof. move=> h; apply: admissible_nonneg => //; exact: zero_nonneg. Qed.
Lemma inv_diag n (v : 'cV[R]_n) : (forall i, 0 < v i ord0)%coqR -> invmx (diagv v) = diagv (vinv v).
Proof.
  move=> h; have u := pd_unit (pd_diagv h).
  have e : diagv (vinv v) *m diagv v = 1%:M.
    apply/matrixP => i j; rewrite mul_diagv diagvE !mxE; case: (i == j); rewrite ?mulr0n ?mulr0 ?mulr1n //.
    by have := h i; toR; move=> ?; field; lra.
  by rewrite -[RHS]mulmx1 -(mulmxV u) mulmxA e mul1mx.
Qed.
Lemma inv_Omega g : (forall i, 0 < g_v g i ord0)%coqR -> invmx (Omega 0 g) = diagv (vinv (g_v g)).
Proof. by move=> h; rewrite Omega_zero inv_diag. Qed.
Lemma bf_zero g (a b : 'cV[R]_(g_n g)) : (forall i, 0 < g_v g i ord0)%coqR -> bf (invmx (Omega 0 g)) a b = weighted_dot a b.
Proof.
  move=> h; rewrite inv_Omega // /bf /sc -mulmxA mxE; apply: eq_bigr => i _; rewrite mul_diagv !mxE; toR; rewrite /Rdiv; ring.
Qed.
Lemma ln_prod n (v : 'I_n -> R) : (forall i, 0 < v i)%coqR -> ln (\prod_i v i) = \sum_i ln (v i) /\ (0 < \prod_i v i)%coqR.
Proof.
  elim: n v => [|n IH] v h; first by rewrite !big_ord0; toR; rewrite ln_1; split=> //; lra.
  have [e e0] := IH (fun i => v (lift ord0 i)) (fun i => h _).
  rewrite !big_ord_recl; toR; have h0 := h ord0; split; last exact: Rmult_lt_0_compat.
  by rewrite ln_mult // e.
Qed.
Lemma nll_zero beta g : (forall i, 0 < g_v g i ord0)%coqR ->
  nll beta 0 g = (\sum_i (/ 2 * (resid beta g i ord0 ^ 2 / g_v g i ord0))%coqR + \sum_i (/ 2 * ln (g_v g i ord0))%coqR)%coqR.
Proof.
  move=> h; rewrite /nll -/(bf _ _ _) bf_zero // Omega_zero; congr (_ + _)%coqR.
    rewrite /weighted_dot; have -> : forall x : R, (/ 2 * x)%coqR = (/ 2)%coqR * x by [].
    rewrite big_distrr /=; apply: eq_bigr => i _; toR; rewrite /Rdiv; ring.
  rewrite /diagv det_diag; have -> : \prod_i (g_v g)^T ord0 i = \prod_i g_v g i ord0 by apply: eq_bigr => i _; rewrite mxE.
  rewrite (ln_prod h).1; have -> : forall x : R, (/ 2 * x)%coqR = (/ 2)%coqR * x by [].
  by rewrite big_distrr.
Qed.
Lemma loss_zero gs pr beta : positive_variances gs ->
  lme_loss gs pr beta 0 = Ok (weighted_squares gs beta + log_variances gs + prior_loss pr beta 0)%coqR.
Proof.
  move=> h; rewrite lme_loss_ok; last exact: zero_admissible. congr (Ok (_ + _)%coqR).
  rewrite /weighted_squares /log_variances; have -> : forall x y : R, (x + y)%coqR = x + y by []. rewrite -big_split /=.
  by apply: eq_big_In => g hg; rewrite nll_zero //; exact: h.
Qed.
Lemma blup_zero beta g : blup beta 0 g = 0.
Proof. by rewrite /blup trmx0 linear0 !mul0mx. Qed.
Lemma effects_zero gs beta : positive_variances gs -> lme_random_effects gs beta 0 = Ok (List.map (fun _ => 0) gs).
Proof.
  move=> h; rewrite (random_effects_are_blup_lemma beta _ h).1; last by move=> j; left; rewrite mxE.
  by congr Ok; apply: List.map_ext => g; exact: blup_zero.
Qed.
Lemma conditional_zero gs pr beta : positive_variances gs -> lme_demarginalized_loss gs pr beta 0 = lme_loss gs pr beta 0.
Proof.
  move=> h; rewrite loss_zero // /lme_demarginalized_loss effects_zero //=; congr (Ok (_ + _)%coqR).
  rewrite /weighted_squares /log_variances; have -> : forall x y : R, (x + y)%coqR = x + y by []. rewrite -big_split /=.
  elim: gs {h} => [|g gs IH]; first by rewrite !big_nil.
  rewrite /= !big_cons IH; congr (_ + _); rewrite /group_conditional mulmx0 subr0.
  have -> : forall x y : R, (/ 2 * x + / 2 * y)%coqR = (/ 2)%coqR * x + (/ 2)%coqR * y by [].
  by rewrite !big_distrr.
Qed.
Lemma gradients_zero gs pr beta : positive_variances gs -> exists db dg,
  lme_gradient_beta gs pr beta 0 = Ok db /\ lme_gradient_gamma gs pr beta 0 = Ok dg /\
  (forall i, db i ord0 = (\sum_(g <- gs) (- weighted_dot (col i (g_x g)) (resid beta g))%coqR + prior_gradient_beta pr beta i ord0)%coqR) /\
  (forall j, dg j ord0 = (\sum_(g <- gs) (/ 2 * weighted_dot (col j (g_z g)) (col j (g_z g))
      - / 2 * weighted_dot (col j (g_z g)) (resid beta g) ^ 2)%coqR + prior_gradient_gamma pr 0 j ord0)%coqR).
Proof.
  move=> h; have a := zero_admissible h.
  have hb := fun i => @gradient_beta_ok p q gs pr beta 0 i a; have hg := fun i => @gradient_gamma_ok p q gs pr beta 0 i a.
  move: hb hg; rewrite /lme_gradient_beta /lme_gradient_gamma recalculate_ok //= => hb hg.
  eexists; eexists; split; first by []. split; first by []. split=> [i|j].
    by rewrite hb; congr (_ + _)%coqR; apply: eq_big_In => g hin; rewrite bf_zero //; exact: h.
  by rewrite hg; congr (_ + _)%coqR; apply: eq_big_In => g hin; rewrite !bf_zero //; exact: h.
Qed.
Lemma best_zero gs b : positive_variances gs -> lme_optimal_beta gs 0 = Ok b ->
  forall beta, beta <> b -> (weighted_squares gs b < weighted_squares gs beta)%coqR.
Proof.
  move=> h e beta nb; have [h1 h2] := @optimal_beta_minimises_partial_lemma p q gs LNone 0 (zero_admissible h) I.
  case: (boolP (normal_matrix gs 0 \in unitmx)) => u; last by rewrite (h2 u) in e.
  have [b' [v [e1 [e2 e3]]]] := h1 u; rewrite e in e1; case: e1 => e1; subst b'.
  have [w [e4 l]] := e3 _ nb; rewrite loss_zero // in e2; rewrite loss_zero // in e4.
  by case: e2 => e2; case: e4 => e4; lra.
Qed.
End Zero.

(** ** random effects with zero variance *)
Section Drop.
Variables (p q : nat) (gamma : 'cV[R]_q).
Lemma reqbP (x y : R) : reflect (x = y) (reqb x y).
Proof. by rewrite /reqb; case: Req_EM_T => e; constructor. Qed.
Implicit Types (gs : seq (group p q)) (g : group p q) (pr : lme_prior p q) (beta : 'cV[R]_p).
Notation drop := (@drop_random p q gamma).
Definition dropf (f : fgroup p q) : fgroup p q := @Factored p q (drop (f_g f)) (f_el f) (f_inv f).
Lemma drop_omega g : omega_of gamma (drop g) = omega_of gamma g.
Proof.
  rewrite /omega_of /=; case: (0 < q)%N => //; congr (_ + _).
  apply/matrixP => a b; rewrite !mxE; apply: eq_bigr => j _; rewrite !mulmx_diagv !mxE.
  case: reqbP => [->|_] //; by rewrite !mulr0 !mul0r.
Qed.
Lemma drop_factors gs : recalculate (List.map drop gs) gamma = rmap (List.map dropf) (recalculate gs gamma).
Proof.
  rewrite /recalculate; elim: gs => //= g gs ->; rewrite /factor drop_omega.
  by case: (cholesky _) => [el|e] //=; case: (sequence _) => [fs|e].
Qed.
Lemma drop_loss gs pr beta : lme_loss (List.map drop gs) pr beta gamma = lme_loss gs pr beta gamma.
Proof. by rewrite /lme_loss drop_factors; case: (recalculate gs gamma) => [fs|e] //=; rewrite big_lmap. Qed.
Lemma drop_gradient_beta gs pr beta : lme_gradient_beta (List.map drop gs) pr beta gamma = lme_gradient_beta gs pr beta gamma.
Proof. by rewrite /lme_gradient_beta drop_factors; case: (recalculate gs gamma) => [fs|e] //=; rewrite big_lmap. Qed.
Lemma drop_hessian_beta gs pr : lme_hessian_beta (List.map drop gs) pr gamma = lme_hessian_beta gs pr gamma.
Proof. by rewrite /lme_hessian_beta drop_factors; case: (recalculate gs gamma) => [fs|e] //=; rewrite big_lmap. Qed.
Lemma drop_kernel gs : kernel_tail (List.map drop gs) gamma = kernel_tail gs gamma.
Proof. by rewrite /kernel_tail drop_factors; case: (recalculate gs gamma) => [fs|e] //=; rewrite !big_lmap. Qed.
Lemma drop_optimal gs : lme_optimal_beta (List.map drop gs) gamma = lme_optimal_beta gs gamma.
Proof. by rewrite /lme_optimal_beta drop_kernel. Qed.
Lemma drop_select g : g_z (drop g) *m select (re_mask gamma) = g_z g *m select (re_mask gamma).
Proof.
  apply/matrixP => i k; rewrite !mxE; apply: eq_bigr => j _; rewrite !mxE; case: reqbP => [e|_] //.
  have -> : (j == enum_val k) = false; last by rewrite !mulr0.
  apply/eqP => ej; have := enum_valP k; rewrite -ej inE e Rabs_R0 => /rltbP; have : (0 < 1 / 10 ^ 10)%coqR by lra. by lra.
Qed.
Lemma drop_group_effects beta g : group_effects beta gamma (drop g) = group_effects beta gamma g.
Proof. by rewrite /group_effects /blup_kernel drop_select. Qed.
Lemma drop_effects gs beta : lme_random_effects (List.map drop gs) beta gamma = lme_random_effects gs beta gamma.
Proof.
  rewrite /lme_random_effects drop_factors; case: (recalculate gs gamma) => [fs|e] //=; rewrite List.map_map.
  by congr sequence; apply: List.map_ext => g; exact: drop_group_effects.
Qed.
Lemma effects_supported gs beta us : sequence (List.map (group_effects beta gamma) gs) = Ok us ->
  \sum_(gu <- zip (List.map drop gs) us) group_conditional beta gu = \sum_(gu <- zip gs us) group_conditional beta gu.
Proof.
  elim: gs us => [|g gs IH] us /=; first by case=> <-; rewrite !big_nil.
  case e : (group_effects beta gamma g) => [u|//] /=; case e' : (sequence _) => [vs|//] /= [<-] /=; rewrite !big_cons (IH vs) //; congr (_ + _).
  move: e; rewrite /group_effects; case: (np_solve _ _) => [w|//] /= [<-]; rewrite /group_conditional.
  by rewrite !(mulmxA _ (select _)) drop_select.
Qed.
Lemma drop_conditional gs pr beta : lme_demarginalized_loss (List.map drop gs) pr beta gamma = lme_demarginalized_loss gs pr beta gamma.
Proof.
  rewrite /lme_demarginalized_loss drop_effects /lme_random_effects; case: (recalculate gs gamma) => [fs|e] //=.
  by case e : (sequence _) => [us|//] /=; rewrite (effects_supported e).
Qed.
Lemma drop_total gs : total_obs (List.map drop gs) = total_obs gs.
Proof. by rewrite /total_obs; elim: gs => //= g gs IH; rewrite !big_cons IH. Qed.
Lemma drop_size gs : size (List.map drop gs) = size gs.
Proof. by elim: gs => //= g gs ->. Qed.
Lemma drop_covariance_beta gs pr : lme_covariance_beta (List.map drop gs) pr gamma = lme_covariance_beta gs pr gamma.
Proof. by rewrite /lme_covariance_beta drop_hessian_beta. Qed.
Lemma drop_diag g : diagv gamma *m (g_z (drop g))^T = diagv gamma *m (g_z g)^T.
Proof. by apply/matrixP => j i; rewrite !mul_diagv !mxE; case: reqbP => [->|_] //; rewrite !mul0r. Qed.
Lemma drop_covariance gs pr : lme_covariance_random_effects (List.map drop gs) pr gamma = lme_covariance_random_effects gs pr gamma.
Proof.
  rewrite /lme_covariance_random_effects drop_covariance_beta drop_factors; case: (lme_covariance_beta _ _ _) => [c|//] /=.
  case: (recalculate gs gamma) => [fs|e] //=; congr Ok; rewrite List.map_map; apply: List.map_ext => f.
  rewrite /group_covariance_u drop_diag -!(mulmxA _ (g_z _)).
  have e (g : group p q) : g_z g *m diagv gamma = (diagv gamma *m (g_z g)^T)^T by rewrite trmx_mul trmxK diagv_tr.
  by rewrite !e drop_diag.
Qed.
Lemma drop_flips cdf gs pr beta : lme_flip_probabilities cdf (List.map drop gs) pr beta gamma = lme_flip_probabilities cdf gs pr beta gamma.
Proof. by rewrite /lme_flip_probabilities drop_hessian_beta. Qed.
Lemma drop_hat g : hat_diagonal gamma (drop g) = hat_diagonal gamma g.
Proof.
  rewrite /hat_diagonal /blup_kernel drop_select /=; case: (np_inv _) => [k|//] /=; congr Ok.
  by rewrite !(mulmxA _ (select _)) drop_select.
Qed.
Definition dropr (r : hat_row p q) : hat_row p q := @HatRow p q (dropf (hr_f r)) (hr_diagonal r).
Lemma drop_rows gs : hat_rows (List.map drop gs) gamma = rmap (fun kr => (kr.1, List.map dropr kr.2)) (hat_rows gs gamma).
Proof.
  rewrite /hat_rows drop_factors; case: (recalculate gs gamma) => [fs|e] //=; rewrite big_lmap.
  have -> : \sum_(a <- fs) group_kernel (dropf a) = \sum_(a <- fs) group_kernel a by [].
  case: (np_inv _) => [ki|//] /=.
  elim: fs => //= f fs IH; rewrite drop_hat; case: (hat_diagonal gamma (f_g f)) => [d|//] /=.
  by move: IH; do 2 case: (sequence _) => [?|?] //=; case=> ->.
Qed.
Lemma drop_ddf gs : lme_ddf (List.map drop gs) gamma = lme_ddf gs gamma.
Proof. by rewrite /lme_ddf drop_rows; case: (hat_rows gs gamma) => [[ki rows]|e] //=; rewrite big_lmap. Qed.
Lemma drop_criteria gs pr tol beta :
  lme_jones_bic (List.map drop gs) pr tol beta gamma = lme_jones_bic gs pr tol beta gamma /\
  lme_muller_ic (List.map drop gs) pr tol beta gamma = lme_muller_ic gs pr tol beta gamma /\
  forall marginalized, lme_vaida_aic (List.map drop gs) pr tol marginalized beta gamma = lme_vaida_aic gs pr tol marginalized beta gamma.
Proof.
  split; last by split=> [|mg]; rewrite /lme_muller_ic /lme_vaida_aic ?drop_ddf ?drop_conditional !drop_loss ?drop_total ?drop_size.
  rewrite /lme_jones_bic drop_loss drop_factors; case: (recalculate gs gamma) => [fs|e] //=; case: (lme_loss _ _ _ _) => [l|//] /=.
  by rewrite /n_eff List.map_map.
Qed.
End Drop.
