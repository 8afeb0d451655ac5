(*HEAD
(** Properties C39-C41: loss, gradients and Hessians of the mixed-model oracle
    (src/pysr3/lme/oracles.py); C47: their SR3 relaxation. *)
From Verif.Base Require Import Py Vec RMx.
From mathcomp Require Import ssreflect ssrfun ssrbool eqtype ssrnat choice seq fintype
  finfun bigop finset ssralg matrix mxalgebra.
From Verif.Model Require Import LmeOracle.
From Verif.Spec Require Import MxSpec.
HEAD*)
From Verif.Base Require Import Py Vec RMx.
From Coq Require Import Lra.
From Coquelicot Require Import Coquelicot.
From mathcomp Require Import ssreflect ssrfun ssrbool eqtype ssrnat choice seq fintype
  finfun bigop finset ssralg zmodp matrix mxalgebra.
From Verif.Model Require Import LmeOracle.
From Verif.Spec Require Import MxSpec.
From Verif.Proofs Require Import MxFacts LmeOracleProofs LmeDerivatives LmeEstimates LmeBlup LmeCriteria.
(*OPEN
Set Implicit Arguments.
Unset Strict Implicit.
Unset Printing Implicit Defensive.
Delimit Scope R_scope with coqR.
Local Open Scope ring_scope.
OPEN*)
Set Implicit Arguments.
Unset Strict Implicit.
Unset Printing Implicit Defensive.
Delimit Scope R_scope with coqR.
Import GRing.Theory.
Local Open Scope ring_scope.

(** ** witnesses *)
Lemma diag_scalar (a : R) : diag_mx (a%:M : 'M[R]_1)^T = a%:M.
Proof. by apply/matrixP => i j; rewrite !mxE !ord1. Qed.
Lemma Omega_one (x y z v c : R) : Omega (c%:M : 'cV[R]_1) (one_obs x y z v) = (z * c * z + v)%coqR%:M.
Proof.
  rewrite /Omega /= !diag_scalar tr_scalar_mx -!scalar_mxM.
  by rewrite -[LHS]/((z * c * z)%:M + v%:M : 'M[R]_1) -raddfD.
Qed.
Lemma scalar_pos (a : R) : (0 < a)%coqR -> pd (a%:M : 'M[R]_1).
Proof.
  move=> h; split; first by rewrite tr_scalar_mx.
  move=> x hx; rewrite /qf -mulmxA mul_scalar_mx -scalemxAr scZ.
  by apply: Rmult_lt_0_compat => //; rewrite -sumsqE; exact: sumsq_gt0.
Qed.
Lemma adm_one (x y z v c : R) : (0 < z * c * z + v)%coqR -> admissible [:: one_obs x y z v] (c%:M : 'cV[R]_1).
Proof. by move=> h g [<-|[]]; rewrite Omega_one; exact: scalar_pos. Qed.
Lemma resid_one (b x y z v : R) : resid (b%:M : 'cV[R]_1) (one_obs x y z v) = (y - x * b)%coqR%:M.
Proof. by rewrite /resid /= -scalar_mxM -raddfB. Qed.
Lemma nll_one (b c x y z v : R) : (0 < z * c * z + v)%coqR ->
  nll (b%:M : 'cV[R]_1) (c%:M : 'cV[R]_1) (one_obs x y z v) =
  (/ 2 * ((y - x * b) ^ 2 / (z * c * z + v)) + / 2 * ln (z * c * z + v))%coqR.
Proof.
  move=> h; rewrite /nll Omega_one resid_one /= det_scalar1 invmx_scalar tr_scalar_mx -!scalar_mxM.
  by rewrite sc_scalar; toR; field; lra.
Qed.

(** C39 *)
(*@ C39.  The loss is the negative log-likelihood of y ~ N(X beta, Z diag(gamma) Z' + Lambda) summed over
    the groups, plus the prior; this holds for non-negative gamma and positive variances, and whenever
    the marginal covariances are positive definite. *)
Lemma loss_is_likelihood_lemma : forall (p q : nat) (gs : seq (group p q)) (pr : lme_prior p q) beta gamma,
  (nonnegative gamma -> positive_variances gs -> admissible gs gamma) /\
  (admissible gs gamma ->
   lme_loss gs pr beta gamma = Ok (\sum_(g <- gs) nll beta gamma g + prior_loss pr beta gamma)%coqR).
Proof. by move=> p q gs pr beta gamma; split; [exact: admissible_nonneg | exact: lme_loss_ok]. Qed.

(*@ C39.  Otherwise the factorisation fails: every evaluation raises LinAlgError, none returns a value. *)
Lemma not_admissible_raises_lemma : forall (p q : nat) (gs : seq (group p q)) (pr : lme_prior p q) beta gamma,
  ~ admissible gs gamma ->
  lme_loss gs pr beta gamma = Err LinAlgError /\
  lme_gradient_gamma gs pr beta gamma = Err LinAlgError /\
  lme_gradient_beta gs pr beta gamma = Err LinAlgError /\
  lme_optimal_beta gs gamma = Err LinAlgError /\
  lme_random_effects gs beta gamma = Err LinAlgError.
Proof.
  move=> p q gs pr beta gamma h.
  by rewrite /lme_loss /lme_gradient_gamma /lme_gradient_beta /lme_optimal_beta /kernel_tail
    /lme_random_effects recalculate_err.
Qed.

(*@ one observation: x = 1, y = 3, z = 1, variance 1, at beta = 1, gamma = 1: Omega = 2, residual 2 *)
Lemma ex_loss_is_likelihood_lemma :
  lme_loss [:: one_obs 1 3 1 1] LNone 1%:M 1%:M = Ok (1 + / 2 * ln 2)%coqR.
Proof.
  have h : (0 < 1 * 1 * 1 + 1)%coqR by lra.
  rewrite lme_loss_ok; last exact: adm_one.
  rewrite big_cons big_nil nll_one //= -RaddE -R0E !addr0.
  by congr Ok; rewrite !Rmult_1_l; toR; congr (_ + _ * ln _)%coqR; field.
Qed.

(** C40 *)
(*@ C40.  At every admissible gamma the two gradients exist and are the partial derivatives of the loss; the
    loss is defined in a neighbourhood. *)
Lemma gradients_are_derivatives_lemma : forall (p q : nat) (gs : seq (group p q)) (pr : lme_prior p q) beta gamma,
  admissible gs gamma -> prior_stds_nonzero pr ->
  exists db dg,
    lme_gradient_beta gs pr beta gamma = Ok db /\ lme_gradient_gamma gs pr beta gamma = Ok dg /\
    (forall j, derivable_pt_lim (fun t => value (lme_loss gs pr (along beta j t) gamma)) 0 (db j ord0)) /\
    (forall j, derivable_pt_lim (fun t => value (lme_loss gs pr beta (along gamma j t))) 0 (dg j ord0)) /\
    (forall j, exists eps, (0 < eps)%coqR /\ forall t, (Rabs t < eps)%coqR ->
       exists l, lme_loss gs pr beta (along gamma j t) = Ok l).
Proof.
  move=> p q gs pr beta gamma h hp.
  have hb := fun j => @gradient_beta_derives p q gs pr beta gamma h j hp.
  have hg := fun j => @gradient_gamma_derives p q gs pr beta gamma h j hp.
  move: hb hg; rewrite /lme_gradient_beta /lme_gradient_gamma recalculate_ok //= => hb hg.
  do 2!eexists; do 4!split=> //.
  move=> j; have [eps [e0 He]] := locally_admissible j h.
  exists eps; split=> // t /He [ha _]; rewrite lme_loss_ok //; by eexists.
Qed.

(*@ one observation at beta = 1, gamma = 1: gradients -r/Omega = -1 and 1/(2 Omega) - r^2/(2 Omega^2) = -1/4 *)
Lemma ex_gradients_are_derivatives_lemma :
  entry (lme_gradient_beta [:: one_obs 1 3 1 1] LNone 1%:M 1%:M) ord0 = (-1)%coqR /\
  entry (lme_gradient_gamma [:: one_obs 1 3 1 1] LNone 1%:M 1%:M) ord0 = (- / 4)%coqR.
Proof.
  have h : (0 < 1 * 1 * 1 + 1)%coqR by lra.
  have hc (a : R) i : col i (a%:M : 'M[R]_1) = a%:M by apply/matrixP => k l; rewrite !mxE !ord1.
  rewrite gradient_beta_ok; last exact: adm_one.
  rewrite gradient_gamma_ok; last exact: adm_one.
  rewrite !big_cons !big_nil /xc /zc /bf Omega_one resid_one !hc invmx_scalar !tr_scalar_mx -!scalar_mxM !sc_scalar.
  rewrite /= !mxE; toR; split; field; lra.
Qed.

(** C41 *)
(*@ C41 (partial).  When the prior has a column for each coefficient, or there is none, the Hessians are the partial
    derivatives of the gradients; the mixed one always, and in both orders. *)
Lemma hessians_are_derivatives_partial_lemma : forall (p q : nat) (gs : seq (group p q)) (pr : lme_prior p q) beta gamma,
  admissible gs gamma ->
  exists hb hg hbg,
    lme_hessian_beta gs pr gamma = Ok hb /\ lme_hessian_gamma gs pr false false beta gamma = Ok hg /\
    lme_hessian_beta_gamma gs beta gamma = Ok hbg /\
    (each_column pr ->
     (forall i j, derivable_pt_lim (fun t => entry (lme_gradient_beta gs pr (along beta j t) gamma) i) 0 (hb i j)) /\
     (forall i j, derivable_pt_lim (fun t => entry (lme_gradient_gamma gs pr beta (along gamma j t)) i) 0 (hg i j))) /\
    (forall i j, derivable_pt_lim (fun t => entry (lme_gradient_beta gs pr beta (along gamma j t)) i) 0 (hbg i j)) /\
    (forall i j, derivable_pt_lim (fun t => entry (lme_gradient_gamma gs pr (along beta i t) gamma) j) 0 (hbg i j)).
Proof.
  move=> p q gs pr beta gamma h.
  have [hb [eb _]] := hessian_beta_ok pr h.
  have [hg [eg _]] := hessian_gamma_ok pr false false beta h.
  have [hm [em _]] := hessian_mixed_ok beta h.
  exists hb, hg, hm; do 3!split=> //; split; [|split].
  - by move=> hec; split=> i j; [exact: hessian_beta_derives eb | exact: hessian_gamma_derives eg].
  - by move=> i j; have [] := hessian_mixed_derives pr h i j em.
  - by move=> i j; have [] := hessian_mixed_derives pr h i j em.
Qed.

(*@ C41.  The Hessian used by the interior-point method (positive part, or expected value) is symmetric
    positive semidefinite for every prior with positive deviations and non-negative weights; so is the
    Hessian in beta. *)
Lemma newton_matrices_psd_lemma : forall (p q : nat) (gs : seq (group p q)) (pr : lme_prior p q) beta gamma positive expected,
  admissible gs gamma -> convex_prior pr -> positive || expected ->
  (exists h, lme_hessian_gamma gs pr positive expected beta gamma = Ok h /\ psd h) /\
  (exists h, lme_hessian_beta gs pr gamma = Ok h /\ psd h).
Proof.
  move=> p q gs pr beta gamma b1 b2 h hp hb; split; [exact: hessian_gamma_psd | exact: hessian_beta_psd].
Qed.

(*@ one observation at beta = 1, gamma = 1: hessian_beta = 1/2, hessian_gamma = -1/8 + 1/2 = 3/8 (exact),
    1/2 (positive part) and 1/8 (expected) *)
Lemma ex_hessians_are_derivatives_lemma :
  let gs := [:: one_obs 1 3 1 1] in
  (exists h, lme_hessian_beta gs LNone 1%:M = Ok h /\ h ord0 ord0 = (/ 2)%coqR) /\
  (exists h, lme_hessian_gamma gs LNone false false 1%:M 1%:M = Ok h /\ h ord0 ord0 = (3 / 8)%coqR) /\
  (exists h, lme_hessian_gamma gs LNone true false 1%:M 1%:M = Ok h /\ h ord0 ord0 = (/ 2)%coqR) /\
  (exists h, lme_hessian_gamma gs LNone false true 1%:M 1%:M = Ok h /\ h ord0 ord0 = (/ 8)%coqR).
Proof.
  move=> gs; have h : (0 < 1 * 1 * 1 + 1)%coqR by lra.
  have ha : admissible gs (1%:M : 'cV[R]_1) by exact: adm_one.
  have hc (a : R) i : col i (a%:M : 'M[R]_1) = a%:M by apply/matrixP => k l; rewrite !mxE !ord1.
  split; last split; last split.
  - have [H [-> e]] := hessian_beta_ok LNone ha; exists H; split=> //; rewrite e.
    rewrite !big_cons !big_nil /xc /bf Omega_one !hc invmx_scalar !tr_scalar_mx -!scalar_mxM !sc_scalar /= !mxE.
    by toR; field; lra.
  - have [H [-> e]] := hessian_gamma_ok LNone false false 1%:M ha; exists H; split=> //; rewrite e.
    rewrite !big_cons !big_nil /zc /bf Omega_one resid_one !hc invmx_scalar !tr_scalar_mx -!scalar_mxM !sc_scalar /= !mxE.
    by toR; field; lra.
  - have [H [-> e]] := hessian_gamma_ok LNone true false 1%:M ha; exists H; split=> //; rewrite e.
    rewrite !big_cons !big_nil /zc /bf Omega_one resid_one !hc invmx_scalar !tr_scalar_mx -!scalar_mxM !sc_scalar /= !mxE.
    by toR; field; lra.
  - have [H [-> e]] := hessian_gamma_ok LNone false true 1%:M ha; exists H; split=> //; rewrite e.
    rewrite !big_cons !big_nil /zc /bf Omega_one !hc invmx_scalar !tr_scalar_mx -!scalar_mxM !sc_scalar /= !mxE.
    by toR; field; lra.
Qed.

(** C47 *)
Lemma derive_sumsq (n : nat) (l : R) (x t : 'cV[R]_n) j :
  derivable_pt_lim (fun u => (l / 2 * sumsq (along x j u - t)%R)%coqR) 0 ((l *: (x - t)) j ord0).
Proof.
  have -> : (l *: (x - t)) j ord0 = (l / 2 * \sum_i (2 * (if i == j then 1 else 0) * (x i ord0 - t i ord0))%coqR)%coqR.
    rewrite (bigD1 j) //= eqxx big1 => [|i /negbTE ->]; last by toR; ring.
    by rewrite addr0 !mxE; toR; field.
  apply: (derivable_pt_lim_scal (fun u => sumsq (along x j u - t)%R)).
  apply: derive_ord => i; apply/is_derive_Reals.
  apply: (is_derive_ext (fun u => (x i ord0 + u * (if i == j then 1 else 0) - t i ord0) ^ 2)%coqR).
    by move=> u; rewrite [RHS]/(_ ^ 2)%coqR mxE along_entry [X in (_ + X)%R]mxE.
  by auto_derive => //; case: (i == j); toR; ring.
Qed.
Lemma derivable_pt_lim_comp_add (f g : R -> R) a b : derivable_pt_lim f 0 a -> derivable_pt_lim g 0 b ->
  derivable_pt_lim (fun t => (f t + g t)%coqR) 0 (a + b)%coqR.
Proof. exact: derivable_pt_lim_plus. Qed.

Lemma derive_shift (n : nat) (l : R) (x t : 'cV[R]_n) i j :
  derivable_pt_lim (fun u => (l *: (along x j u - t)) i ord0) 0 ((l *: (1%:M : 'M[R]_n)) i j).
Proof.
  apply/is_derive_Reals.
  apply: (is_derive_ext (fun u => (l * (x i ord0 + u * (if i == j then 1 else 0) - t i ord0))%coqR)).
    by move=> u; rewrite [RHS]mxE [X in _ = l * X]mxE along_entry [X in (_ + X)%R]mxE.
  auto_derive => //; rewrite !mxE; case: (i == j); toR; rewrite ?mulr1n ?mulr0n; toR; ring.
Qed.

(*@ C47.  The SR3 loss adds lb/2 |beta - tbeta|^2 + lg/2 |gamma - tgamma|^2 to the plain loss, and fails
    exactly when the plain loss does. *)
Lemma sr3_loss_adds_lemma : forall (p q : nat) (gs : seq (group p q)) (pr : lme_prior p q) lb lg beta gamma tbeta tgamma,
  sr3_loss lb lg gs pr beta gamma tbeta tgamma =
  match lme_loss gs pr beta gamma with
  | Ok l => Ok (l + (lb / 2 * (\sum_i ((beta i ord0 - tbeta i ord0) ^ 2)%coqR))
                + (lg / 2 * (\sum_i ((gamma i ord0 - tgamma i ord0) ^ 2)%coqR)))%coqR
  | Err e => Err e
  end.
Proof.
  move=> p q gs pr lb lg beta gamma tbeta tgamma; rewrite /sr3_loss.
  case: (lme_loss _ _ _ _) => [l|e] //=; congr (Ok (_ + _ * _ + _ * _)%coqR);
    by apply: eq_bigr => i _; rewrite !mxE.
Qed.

(*@ C47.  Its gradients are its partial derivatives and, when the prior has a column for each coefficient, its Hessians
    the derivatives of those. *)
Lemma sr3_derivatives_lemma : forall (p q : nat) (gs : seq (group p q)) (pr : lme_prior p q) lb lg beta gamma tbeta tgamma,
  admissible gs gamma -> prior_stds_nonzero pr ->
  exists db dg hb hg,
    sr3_gradient_beta lb gs pr beta gamma tbeta = Ok db /\ sr3_gradient_gamma lg gs pr beta gamma tgamma = Ok dg /\
    sr3_hessian_beta lb gs pr gamma = Ok hb /\ sr3_hessian_gamma lg gs pr false false beta gamma = Ok hg /\
    (forall j, derivable_pt_lim (fun t => value (sr3_loss lb lg gs pr (along beta j t) gamma tbeta tgamma)) 0 (db j ord0)) /\
    (forall j, derivable_pt_lim (fun t => value (sr3_loss lb lg gs pr beta (along gamma j t) tbeta tgamma)) 0 (dg j ord0)) /\
    (each_column pr ->
     (forall i j, derivable_pt_lim (fun t => entry (sr3_gradient_beta lb gs pr (along beta j t) gamma tbeta) i) 0 (hb i j)) /\
     (forall i j, derivable_pt_lim (fun t => entry (sr3_gradient_gamma lg gs pr beta (along gamma j t) tgamma) i) 0 (hg i j))).
Proof.
  move=> p q gs pr lb lg beta gamma tbeta tgamma h hp.
  have [db [dg [eb [eg [hb [hg _]]]]]] := gradients_are_derivatives_lemma beta h hp.
  have [kb [kg [_ [ekb [ekg [_ [hk _]]]]]]] := hessians_are_derivatives_partial_lemma pr beta h.
  rewrite /sr3_gradient_beta /sr3_gradient_gamma /sr3_hessian_beta /sr3_hessian_gamma eb eg ekb ekg /=.
  do 4!eexists; do 4!split=> //; split; [|split; [|move=> /hk [hkb hkg]; split]].
  - move=> j; rewrite mxE.
    apply: (derive_local (h := fun t => (value (lme_loss gs pr (along beta j t) gamma)
              + (lb / 2 * sumsq (along beta j t - tbeta)%R + lg / 2 * sumsq (gamma - tgamma)%R))%coqR)).
      exists 1%coqR; split=> [|t _]; first lra.
      by rewrite /sr3_loss lme_loss_ok //= Rplus_assoc.
    apply: derivable_pt_lim_comp_add; first exact: hb.
    rewrite -[X in derivable_pt_lim _ _ X]Rplus_0_r; apply: derivable_pt_lim_comp_add; first exact: derive_sumsq.
    exact: derivable_pt_lim_const.
  - move=> j; rewrite mxE.
    apply: (derive_local (h := fun t => (value (lme_loss gs pr beta (along gamma j t))
              + (lb / 2 * sumsq (beta - tbeta)%R + lg / 2 * sumsq (along gamma j t - tgamma)%R))%coqR)).
      have [eps [e0 He]] := locally_admissible j h.
      exists eps; split=> // t /He [ha _].
      by rewrite /sr3_loss lme_loss_ok //= Rplus_assoc.
    apply: derivable_pt_lim_comp_add; first exact: hg.
    rewrite -[X in derivable_pt_lim _ _ X]Rplus_0_l; apply: derivable_pt_lim_comp_add; last exact: derive_sumsq.
    exact: derivable_pt_lim_const.
  - move=> i j; rewrite [X in derivable_pt_lim _ _ X]mxE.
    apply: (derive_local (h := fun t => (entry (lme_gradient_beta gs pr (along beta j t) gamma) i
              + (lb *: (along beta j t - tbeta)%R) i ord0)%coqR)).
      exists 1%coqR; split=> [|t _]; first lra.
      by rewrite /lme_gradient_beta recalculate_ok //= mxE.
    apply: derivable_pt_lim_comp_add; first exact: hkb.
    exact: derive_shift.
  - move=> i j; rewrite [X in derivable_pt_lim _ _ X]mxE.
    apply: (derive_local (h := fun t => (entry (lme_gradient_gamma gs pr beta (along gamma j t)) i
              + (lg *: (along gamma j t - tgamma)%R) i ord0)%coqR)).
      have [eps [e0 He]] := locally_admissible j h.
      exists eps; split=> // t /He [ha _].
      by rewrite /lme_gradient_gamma recalculate_ok //= mxE.
    apply: derivable_pt_lim_comp_add; first exact: hkg.
    exact: derive_shift.
Qed.

(*@ C47.  With lb = lg = 0 every evaluation is that of the plain oracle. *)
Lemma sr3_zero_is_plain_lemma : forall (p q : nat) (gs : seq (group p q)) (pr : lme_prior p q) beta gamma tbeta tgamma b1 b2,
  sr3_loss 0 0 gs pr beta gamma tbeta tgamma = lme_loss gs pr beta gamma /\
  sr3_gradient_beta 0 gs pr beta gamma tbeta = lme_gradient_beta gs pr beta gamma /\
  sr3_gradient_gamma 0 gs pr beta gamma tgamma = lme_gradient_gamma gs pr beta gamma /\
  sr3_hessian_beta 0 gs pr gamma = lme_hessian_beta gs pr gamma /\
  sr3_hessian_gamma 0 gs pr b1 b2 beta gamma = lme_hessian_gamma gs pr b1 b2 beta gamma /\
  sr3_optimal_beta 0 gs gamma tbeta = lme_optimal_beta gs gamma.
Proof.
  move=> p q gs pr beta gamma tbeta tgamma b1 b2.
  rewrite /sr3_loss /sr3_gradient_beta /sr3_gradient_gamma /sr3_hessian_beta /sr3_hessian_gamma
    /sr3_optimal_beta /lme_optimal_beta.
  split; first by case: (lme_loss _ _ _ _) => //= l; rewrite /Rdiv !Rmult_0_l !Rplus_0_r.
  split; first by case: (lme_gradient_beta _ _ _ _) => //= l; rewrite scale0r addr0.
  split; first by case: (lme_gradient_gamma _ _ _ _) => //= l; rewrite scale0r addr0.
  split; first by case: (lme_hessian_beta _ _ _) => //= l; rewrite scale0r addr0.
  split; first by case: (lme_hessian_gamma _ _ _ _ _ _) => //= l; rewrite scale0r addr0.
  by case: (kernel_tail _ _) => //= l; rewrite !scale0r !add0r.
Qed.

(*@ with lb = lg = 2 and tbeta = tgamma = 0 the example above has loss 1 + ln 2 / 2 + 1 + 1 *)
Lemma ex_sr3_loss_adds_lemma :
  sr3_loss 2 2 [:: one_obs 1 3 1 1] LNone 1%:M 1%:M 0 0 = Ok (1 + / 2 * ln 2 + 1 + 1)%coqR.
Proof.
  rewrite sr3_loss_adds_lemma ex_loss_is_likelihood_lemma; congr Ok.
  rewrite !big_ord1 !mxE /= mulr1n.
  by toR; field.
Qed.
