(*HEAD
(** Properties C42-C44, C51-C53, C66, C69: estimates, covariances and information criteria of the
    mixed-model oracle (src/pysr3/lme/oracles.py). *)
From Verif.Base Require Import Py Vec RMx.
From mathcomp Require Import ssreflect ssrfun ssrbool eqtype ssrnat choice seq fintype
  finfun bigop finset ssralg matrix mxalgebra.
From Verif.Model Require Import LmeOracle.
From Verif.Spec Require Import MxSpec.
HEAD*)
From Verif.Base Require Import Py Vec RMx.
From Coq Require Import Lra.
From mathcomp Require Import ssreflect ssrfun ssrbool eqtype ssrnat choice seq fintype
  finfun bigop finset ssralg zmodp matrix mxalgebra.
From Verif.Model Require Import LmeOracle.
From Verif.Spec Require Import MxSpec.
From Verif.Proofs Require Import MxFacts LmeOracleProofs LmeEstimates LmeBlup LmeCriteria LmeOracleMain.
(*OPEN
Set Implicit Arguments.
Unset Strict Implicit.
Unset Printing Implicit Defensive.
Delimit Scope R_scope with coqR.
Local Open Scope ring_scope.
OPEN*)
Set Implicit Arguments.
Unset Strict Implicit.
Unset Printing Implicit Defensive.
Delimit Scope R_scope with coqR.
Import GRing.Theory.
Local Open Scope ring_scope.

(** C42 *)
(*@ C42 (partial).  For a prior that does not weigh the fixed effects, optimal_beta is the unique minimiser
    of the loss in beta whenever the normal matrix is invertible, and raises LinAlgError otherwise. *)
Lemma optimal_beta_minimises_partial_lemma : forall (p q : nat) (gs : seq (group p q)) (pr : lme_prior p q) gamma,
  admissible gs gamma -> no_beta_prior pr ->
  (normal_matrix gs gamma \in unitmx ->
   exists b v, lme_optimal_beta gs gamma = Ok b /\ lme_loss gs pr b gamma = Ok v /\
     forall beta, beta <> b -> exists w, lme_loss gs pr beta gamma = Ok w /\ (v < w)%coqR) /\
  (normal_matrix gs gamma \notin unitmx -> lme_optimal_beta gs gamma = Err LinAlgError).
Proof.
  move=> p q gs pr gamma h hp; split; [exact: lme_optimal_beta_min | exact: lme_optimal_beta_singular].
Qed.

(*@ C42 (partial).  The same for the SR3 oracle and the relaxed loss: with lb > 0 the minimiser always exists. *)
Lemma sr3_optimal_beta_minimises_partial_lemma : forall (p q : nat) (gs : seq (group p q)) (pr : lme_prior p q) lb lg gamma tbeta tgamma,
  admissible gs gamma -> no_beta_prior pr -> (0 < lb)%coqR ->
  exists b v, sr3_optimal_beta lb gs gamma tbeta = Ok b /\ sr3_loss lb lg gs pr b gamma tbeta tgamma = Ok v /\
    forall beta, beta <> b -> exists w, sr3_loss lb lg gs pr beta gamma tbeta tgamma = Ok w /\ (v < w)%coqR.
Proof.
  move=> p q gs pr lb lg gamma tbeta tgamma h hp hl.
  by apply: sr3_optimal_beta_min => //; [exact: lb_kern_unit | lra].
Qed.

Lemma normal_one (x y z v c : R) :
  normal_matrix [:: one_obs x y z v] (c%:M : 'cV[R]_1) = (x * / (z * c * z + v) * x)%coqR%:M.
Proof.
  by rewrite /normal_matrix big_cons big_nil addr0 Omega_one /= invmx_scalar tr_scalar_mx -!scalar_mxM.
Qed.
Lemma unit_scalar (a : R) : (a <> 0)%coqR -> (a%:M : 'M[R]_1) \in unitmx.
Proof. by move=> h; rewrite unitmxE det_scalar1 unitfE; apply/eqP. Qed.

(*@ C42 (refuted).  optimal_beta ignores a Gaussian prior on beta: with prior N(0, 1), one observation
    y = 1 and x = 1 it returns 1, where the loss is 1/2, although the loss at 1/2 is 1/4. *)
Lemma optimal_beta_prior_refuted_lemma :
  exists (gs : seq (group 1 1)) pr gamma b beta v w,
    admissible gs gamma /\ normal_matrix gs gamma \in unitmx /\
    lme_optimal_beta gs gamma = Ok b /\
    lme_loss gs pr b gamma = Ok v /\ lme_loss gs pr beta gamma = Ok w /\ (w < v)%coqR.
Proof.
  have h0 : (0 < 0 * 0 * 0 + 1)%coqR by lra.
  have hn := normal_one 1 1 0 1 0.
  exists [:: one_obs 1 1 0 1], (LGauss (Each 0 1%:M 1%:M) (Each 0 1%:M 0)), 0%:M, 1%:M, (/ 2)%coqR%:M.
  have u : normal_matrix [:: one_obs 1 1 0 1] (0%:M : 'cV[R]_1) \in unitmx.
    rewrite hn; apply: unit_scalar; rewrite Rmult_1_l Rmult_1_r; apply: Rinv_neq_0_compat; lra.
  rewrite !lme_loss_ok; try exact: adm_one.
  do 2!eexists; split; first exact: adm_one.
  split=> //; split; last split; last split; try by [].
    rewrite /lme_optimal_beta kernel_tail_ok; last exact: adm_one.
    rewrite /= /np_solve u /tail big_cons big_nil addr0 hn Omega_one /= !invmx_scalar tr_scalar_mx -!scalar_mxM.
    by congr (Ok _%:M); toR; field.
  rewrite /= !big_cons !big_nil !nll_one // /gauss_part !big_ord1 !mxE /= !mulr1n.
  have -> : (0 * 0 * 0 + 1 = 1)%coqR by ring.
  by rewrite ln_1; toR; lra.
Qed.

(*@ one observation x = 1, y = 3: the optimal beta is 3 *)
Lemma ex_optimal_beta_minimises_lemma : lme_optimal_beta [:: one_obs 1 3 1 1] 1%:M = Ok 3%coqR%:M.
Proof.
  have h0 : (0 < 1 * 1 * 1 + 1)%coqR by lra.
  rewrite /lme_optimal_beta kernel_tail_ok; last exact: adm_one.
  have u : normal_matrix [:: one_obs 1 3 1 1] (1%:M : 'cV[R]_1) \in unitmx.
    rewrite normal_one; apply: unit_scalar; rewrite Rmult_1_l Rmult_1_r; apply: Rinv_neq_0_compat; toR; lra.
  rewrite /= /np_solve u /tail big_cons big_nil addr0 normal_one Omega_one /= !invmx_scalar tr_scalar_mx -!scalar_mxM.
  by congr (Ok _%:M); toR; field.
Qed.

(** C43 *)
(*@ C43.  For variances that are 0 or above the threshold, optimal_random_effects returns Gamma Z' Omega^-1 r
    for every group; effects with zero variance are zero, and the result is the unique minimiser of
    1/2 (r - Zu)' Lambda^-1 (r - Zu) + 1/2 sum u_j^2/gamma_j. *)
Lemma random_effects_are_blup_lemma : forall (p q : nat) (gs : seq (group p q)) beta gamma,
  blup_variances gamma -> positive_variances gs ->
  lme_random_effects gs beta gamma = Ok (List.map (blup beta gamma) gs) /\
  forall g, List.In g gs -> supported gamma (blup beta gamma g) /\
    forall w, supported gamma w -> w <> blup beta gamma g ->
      (penalised beta gamma g (blup beta gamma g) < penalised beta gamma g w)%coqR.
Proof.
  move=> p q gs beta gamma hg hv; split; first exact: random_effects_ok.
  move=> g hin; split; first exact: blup_supported.
  by move=> w sw nw; apply: blup_minimises => //; exact: hv.
Qed.

(*@ residual 2, z = 1, variances 1 and 1: the effect is 2 * 1/2 = 1 *)
Lemma ex_random_effects_are_blup_lemma :
  lme_random_effects [:: one_obs 1 3 1 1] 1%:M 1%:M = Ok [:: 1%:M].
Proof.
  rewrite random_effects_ok.
  - congr (Ok [:: _]); rewrite /blup Omega_one resid_one /= !diag_scalar invmx_scalar tr_scalar_mx -!scalar_mxM.
    by congr (_%:M); toR; field.
  - move=> j; right; rewrite !ord1 mxE mulr1n.
    apply: (Rmult_lt_reg_r (10 ^ 10)%coqR); first by apply: pow_lt; lra.
    rewrite /Rdiv Rmult_assoc Rinv_l; last by apply: pow_nonzero; lra.
    by rewrite !Rmult_1_l; apply: (Rlt_pow_R1 10 10); [lra | exact/ltP].
  - by move=> g [<-|[]] i; rewrite !ord1 /= mxE mulr1n; exact: Rlt_0_1.
Qed.

(** C44 *)
(*@ C44 (partial).  covariance_beta is the inverse of the Hessian in beta; it is symmetric positive definite. *)
Lemma covariance_beta_partial_lemma : forall (p q : nat) (gs : seq (group p q)) (pr : lme_prior p q) gamma,
  admissible gs gamma -> convex_prior pr ->
  exists h, lme_hessian_beta gs pr gamma = Ok h /\
  (h \in unitmx -> exists c, lme_covariance_beta gs pr gamma = Ok c /\ pd c /\ c *m h = 1%:M) /\
  (h \notin unitmx -> lme_covariance_beta gs pr gamma = Err LinAlgError).
Proof.
  move=> p q gs pr gamma h hp; have [H [e _]] := hessian_beta_psd h hp.
  exists H; split=> //; split=> u.
    by have [e1 e2] := covariance_beta_ok h hp e u; exists (invmx H); rewrite mulVmx.
  by rewrite /lme_covariance_beta e /= /np_inv (negbTE u).
Qed.

(*@ one observation with Omega = 4: variance 4 *)
Lemma ex_covariance_beta_partial_lemma :
  lme_covariance_beta [:: one_obs 1 0 1 3] LNone 1%:M = Ok (/ (/ 4))%coqR%:M.
Proof.
  have h0 : (0 < 1 * 1 * 1 + 3)%coqR by lra.
  have ha : admissible [:: one_obs 1 0 1 3] (1%:M : 'cV[R]_1) by exact: adm_one.
  have eH : lme_hessian_beta [:: one_obs 1 0 1 3] LNone 1%:M = Ok (/ 4)%coqR%:M.
    rewrite /lme_hessian_beta recalculate_ok //=; congr Ok; rewrite addr0 big_cons big_nil addr0.
    rewrite kernel_fac; last by apply: ha; left.
    rewrite Omega_one /= invmx_scalar tr_scalar_mx -!scalar_mxM; congr (_%:M); toR; field.
  have u : ((/ 4)%coqR%:M : 'M[R]_1) \in unitmx by apply: unit_scalar; lra.
  by rewrite /lme_covariance_beta eH /= /np_inv u invmx_scalar.
Qed.

(*@ C44 (refuted).  covariance_random_effects uses the inverse Cholesky factor where the inverse of Omega
    belongs: for one observation with z = x = 1 and Omega = 4 the reported variance is -1/2. *)
Lemma covariance_random_effects_refuted_lemma :
  exists (gs : seq (group 1 1)) gamma c,
    positive_variances gs /\ nonnegative gamma /\
    lme_covariance_random_effects gs LNone gamma = Ok [:: c] /\ c ord0 ord0 = (- / 2)%coqR.
Proof.
  have h0 : (0 < 1 * 1 * 1 + 3)%coqR by lra.
  have ha : admissible [:: one_obs 1 0 1 3] (1%:M : 'cV[R]_1) by exact: adm_one.
  exists [:: one_obs 1 0 1 3], 1%:M; eexists; split; [|split; [|split]].
  - by move=> g [<-|[]] i; rewrite !ord1 /= mxE mulr1n; lra.
  - by move=> j; rewrite !ord1 mxE mulr1n; toR; lra.
  - have eH : lme_hessian_beta [:: one_obs 1 0 1 3] LNone 1%:M = Ok (/ 4)%coqR%:M.
      rewrite /lme_hessian_beta recalculate_ok //=; congr Ok; rewrite addr0 big_cons big_nil addr0.
      rewrite kernel_fac; last by apply: ha; left.
      rewrite Omega_one /= invmx_scalar tr_scalar_mx -!scalar_mxM; congr (_%:M); toR; field.
    have u : ((/ 4)%coqR%:M : 'M[R]_1) \in unitmx by apply: unit_scalar; lra.
    by rewrite /lme_covariance_random_effects /lme_covariance_beta eH /= /np_inv u /= recalculate_ok.
  - rewrite /group_covariance_u /= /chol_or0 Omega_one.
    have -> : cholesky ((1 * 1 * 1 + 3)%coqR%:M : 'M[R]_1) = Ok 2%coqR%:M.
      have -> : (1 * 1 * 1 + 3 = 2 * 2)%coqR by ring.
      have [L e] := cholesky_pd (@scalar_pos (2 * 2)%coqR ltac:(lra)); rewrite e; congr Ok.
      have [e1 _ pL] := cholesky_trig (tr_scalar_mx _ _) e.
      rewrite [L]mx11_scalar; congr (_%:M).
      have : L ord0 ord0 * L ord0 ord0 = (2 * 2)%coqR.
        by have := congr1 (fun M : 'M[R]_1 => M ord0 ord0) e1; rewrite mxE big_ord1 !mxE mulr1n.
      have gen (a : R) : (0 < a)%coqR -> (a * a = 2 * 2)%coqR -> a = 2%coqR.
        move=> h1 h2; have : ((a - 2) * (a + 2) = 0)%coqR by lra.
        by move=> /Rmult_integral [] ?; lra.
      exact: gen (pL ord0).
    rewrite /diagv !diag_scalar !(tr_scalar_mx, invmx_scalar) -!scalar_mxM.
    rewrite -raddfB /= -!scalar_mxM mxE mulr1n; toR; field.
Qed.

Lemma two_obs_Omega v w : Omega 0 (two_obs v w) = diagv (g_v (two_obs v w)).
Proof. by rewrite /Omega /= trmx0 !mul0mx add0r. Qed.

(*@ C44 (refuted).  covariance_y adds the vector of variances to every row, so that its result is not
    symmetric for two observations with variances 1 and 2. *)
Lemma covariance_y_refuted_lemma :
  exists (gs : seq (group 1 1)) gamma (c : 'M[R]_2),
    positive_variances gs /\ nonnegative gamma /\
    lme_covariance_y gs LNone gamma = Ok [:: existT (fun n => 'M[R]_n) 2%N c] /\ c^T <> c.
Proof.
  have pv : positive_variances [:: two_obs 1 2].
    by move=> g [<-|[]] i; rewrite /= mxE; case: ifP => _; lra.
  have ng : nonnegative (0 : 'cV[R]_1) by move=> j; rewrite mxE; exact: Rle_refl.
  have ha := admissible_nonneg ng pv.
  have hO : pd (Omega 0 (two_obs 1 2)) by apply: ha; left.
  have [H [eH hH]] := @hessian_beta_psd 1 1 [:: two_obs 1 2] LNone 0 ha I.
  have u : H \in unitmx.
    move: eH; rewrite /lme_hessian_beta recalculate_ok //= addr0 big_cons big_nil addr0 kernel_fac // => -[<-].
    apply: pd_unit; move: (pd_inv hO); move: (invmx _) => W [hs hW]; split.
      by rewrite [LHS]trmx_mul [(_^T *m W)^T]trmx_mul trmxK hs mulmxA.
    move=> x hx.
    have -> : qf ((const_mx 1%coqR : 'cV[R]_2)^T *m W *m const_mx 1%coqR) x = qf W (const_mx 1%coqR *m x).
      by rewrite /qf trmx_mul !mulmxA.
    apply: hW => e0; apply: hx; apply/colP => i; rewrite !ord1 mxE.
    have := congr1 (fun M : 'cV[R]_2 => M ord0 ord0) e0.
    by rewrite /= !mxE big_ord1 mxE mul1r.
  have [ec pc] := @covariance_beta_ok 1 1 [:: two_obs 1 2] LNone 0 H ha I eH u.
  exists [:: two_obs 1 2], 0; eexists; split=> //; split=> //; split.
    by rewrite /lme_covariance_y ec /= recalculate_ok.
  rewrite /group_covariance_y /= mul0mx mul0mx addr0 => e.
  have := congr1 (fun M : 'M[R]_2 => M ord0 (lift ord0 ord0)) e.
  rewrite /= linearD /= trmx_mul trmx_mul trmxK pc.1 mulmxA ![((_ : 'M[R]_2) + _) _ _]mxE.
  move/addrI; rewrite !mxE /=; toR; lra.
Qed.

(** C51 *)
Lemma count_zero (n : nat) (x : 'cV[R]_n) : count_ge 0 x = n.
Proof.
  rewrite /count_ge -[RHS]card_ord -cardsT; apply: eq_card => j; rewrite !inE.
  by case: rlebP => // h; case: h; exact: Rabs_pos.
Qed.

Lemma count_nonzeros (n : nat) tol (x : 'cV[R]_n) : (0 < tol)%coqR ->
  (forall j, x j ord0 = 0%coqR \/ (tol <= Rabs (x j ord0))%coqR) -> count_ge tol x = nonzeros x.
Proof.
  move=> ht h; apply: eq_card => j; rewrite !inE /reqb.
  case: (h j) => [->|hj].
    rewrite Rabs_R0; case: rlebP => [|_]; [lra | by case: Req_EM_T].
  case: rlebP => // _; case: Req_EM_T => // e; move: hj; rewrite e Rabs_R0; lra.
Qed.

(*@ C51 (partial).  With a positive tolerance that separates the non-zero coefficients from 0, the three marginal
    criteria are the published formulas in the likelihood, the numbers of non-zero coefficients, the
    numbers of observations and groups and the effective number of observations. *)
Lemma criteria_count_partial_lemma : forall (p q : nat) (gs : seq (group p q)) (pr : lme_prior p q) tol (beta : 'cV[R]_p) (gamma : 'cV[R]_q),
  (0 < tol)%coqR ->
  (forall j, beta j ord0 = 0%coqR \/ (tol <= Rabs (beta j ord0))%coqR) ->
  (forall j, gamma j ord0 = 0%coqR \/ (tol <= Rabs (gamma j ord0))%coqR) ->
  admissible gs gamma ->
  let L := (\sum_(g <- gs) nll beta gamma g + prior_loss pr beta gamma)%coqR in
  let N := INR (total_obs gs) in
  let P := INR (nonzeros beta) in
  let Q := INR (nonzeros gamma) in
  lme_jones_bic gs pr tol beta gamma = Ok (2 * L + (P + Q) * ln (effective_obs gs gamma))%coqR /\
  lme_muller_ic gs pr tol beta gamma =
    Ok (2 / N * L + 1 / N * ln (INR (size gs)) * P + 2 / N * Q)%coqR /\
  lme_vaida_aic gs pr tol true beta gamma =
    Ok (2 * L + 2 * (if rltb 0 (N - P - Q - 1) then N / (N - P - Q - 1) else 1) * (P + Q))%coqR.
Proof.
  move=> p q gs pr tol beta gamma ht hb hg h /=.
  rewrite /lme_jones_bic /lme_muller_ic /lme_vaida_aic !count_nonzeros // !lme_loss_ok //.
  by rewrite recalculate_ok //= n_eff_ok //= plus_INR.
Qed.

(*@ C51 (partial).  The same for Vaida's conditional criterion; rho is the number of degrees of freedom. *)
Lemma conditional_criterion_partial_lemma : forall (p q : nat) (gs : seq (group p q)) (pr : lme_prior p q) tol (beta : 'cV[R]_p) (gamma : 'cV[R]_q) rho,
  (0 < tol)%coqR ->
  (forall j, beta j ord0 = 0%coqR \/ (tol <= Rabs (beta j ord0))%coqR) ->
  (forall j, gamma j ord0 = 0%coqR \/ (tol <= Rabs (gamma j ord0))%coqR) ->
  blup_variances gamma -> positive_variances gs ->
  lme_ddf gs gamma = Ok rho ->
  let L := (\sum_(g <- gs) conditional_nll beta (blup beta gamma g) g + prior_loss pr beta gamma)%coqR in
  let N := INR (total_obs gs) in
  let P := INR (nonzeros beta) in
  let Q := INR (nonzeros gamma) in
  (N - P - 2 <> 0)%coqR -> (N - P <> 0)%coqR ->
  lme_vaida_aic gs pr tol false beta gamma =
    Ok (2 * L + 2 * N / (N - P - 2) * (rho - (rho - P) / (N - P)) * (P + Q))%coqR.
Proof.
  move=> p q gs pr tol beta gamma rho ht hb hg hv hp er /= h1 h2.
  rewrite /lme_vaida_aic er demarginalized_ok // !count_nonzeros //=.
  rewrite /nonzero /reqb; case: Req_EM_T => // _; by case: Req_EM_T.
Qed.

(*@ non-vacuous: beta = 1, gamma = 0 and tolerance 1/2 *)
Lemma ex_criteria_count_partial_lemma :
  nonzeros (1%:M : 'cV[R]_1) = 1%N /\ count_ge (/ 2) (1%:M : 'cV[R]_1) = 1%N /\
  nonzeros (0 : 'cV[R]_1) = 0%N /\ count_ge (/ 2) (0 : 'cV[R]_1) = 0%N.
Proof.
  have h1 : count_ge (/ 2) (1%:M : 'cV[R]_1) = nonzeros (1%:M : 'cV[R]_1).
    apply: count_nonzeros; first lra.
    by move=> j; right; rewrite !ord1 mxE mulr1n; toR; rewrite Rabs_R1; lra.
  have h0 : count_ge (/ 2) (0 : 'cV[R]_1) = nonzeros (0 : 'cV[R]_1).
    by apply: count_nonzeros; [lra | move=> j; left; rewrite mxE].
  have e1 : nonzeros (1%:M : 'cV[R]_1) = 1%N.
    rewrite /nonzeros -[RHS](card_ord 1) -cardsT; apply: eq_card => j; rewrite !inE !ord1 mxE mulr1n /reqb.
    by case: Req_EM_T => // h; case: R1_neq_R0.
  have e0 : nonzeros (0 : 'cV[R]_1) = 0%N.
    by apply: eq_card0 => j; rewrite !inE mxE /reqb; case: Req_EM_T.
  by rewrite h1 h0.
Qed.

(*@ C51 (refuted).  With the default tolerance 0 every coefficient is counted, zero or not: for beta = gamma = 0
    and two groups of one observation y = 0, Jones' criterion is 2 ln 2 instead of 0. *)
Lemma criteria_count_refuted_lemma :
  (forall n (x : 'cV[R]_n), count_ge 0 x = n) /\
  exists (gs : seq (group 1 1)) beta gamma,
    nonzeros beta = 0%N /\ nonzeros gamma = 0%N /\
    lme_loss gs LNone beta gamma = Ok 0%coqR /\
    lme_jones_bic gs LNone 0 beta gamma = Ok (2 * ln 2)%coqR.
Proof.
  split; first exact: count_zero.
  have pv : positive_variances [:: one_obs 1 0 1 1; one_obs 1 0 1 1].
    by move=> g [<-|[<-|[]]] i; rewrite !ord1 /= mxE mulr1n; toR; lra.
  have e0 : (0 : 'cV[R]_1) = 0%:M by rewrite raddf0.
  have nz : nonzeros (0 : 'cV[R]_1) = 0%N.
    apply: eq_card0 => j; rewrite !inE mxE /reqb; case: Req_EM_T => //.
  exists [:: one_obs 1 0 1 1; one_obs 1 0 1 1], 0, 0; split=> //; split=> //.
  have ha : admissible [:: one_obs 1 0 1 1; one_obs 1 0 1 1] 0.
    by apply: admissible_nonneg => // j; rewrite mxE; exact: Rle_refl.
  have el : lme_loss [:: one_obs 1 0 1 1; one_obs 1 0 1 1] LNone 0 0 = Ok 0%coqR.
    rewrite lme_loss_ok // !big_cons big_nil e0 nll_one; last by toR; lra.
    have -> : (1 * (0 : R) * 1 + 1 = 1)%coqR by toR; ring.
    by rewrite ln_1; congr Ok; rewrite /=; toR; field.
  split=> //; rewrite /lme_jones_bic recalculate_ok // el; cbn [rbind]; rewrite n_eff_zero //; cbn [rbind]; rewrite !count_zero.
  rewrite /total_obs !big_cons big_nil /=; congr Ok.
  by rewrite Rmult_0_r Rplus_0_l.
Qed.

(** C52 *)
(*@ C52.  The information criteria of the SR3 oracle are those of the plain oracle. *)
Lemma sr3_criteria_lemma : forall (p q : nat) (gs : seq (group p q)) (pr : lme_prior p q) tol marginalized beta gamma,
  sr3_jones_bic gs pr tol beta gamma = lme_jones_bic gs pr tol beta gamma /\
  sr3_muller_ic gs pr tol beta gamma = lme_muller_ic gs pr tol beta gamma /\
  sr3_vaida_aic gs pr tol marginalized beta gamma = lme_vaida_aic gs pr tol marginalized beta gamma.
Proof. by []. Qed.

(** C53 *)
(*@ C53.  The hat matrix maps the targets to X beta + Z u at the optimal beta and the random effects there: for
    every group, its rows of the matrix times the stacked targets are the fitted values of the group. *)
Lemma hat_matrix_fits_lemma : forall (p q : nat) (gs : seq (group p q)) gamma,
  blup_variances gamma -> positive_variances gs -> normal_matrix gs gamma \in unitmx ->
  exists ki rows b,
    hat_rows gs gamma = Ok (ki, rows) /\ lme_optimal_beta gs gamma = Ok b /\
    List.map (fun r => f_g (hr_f r)) rows = gs /\
    forall r, List.In r rows -> exists u,
      group_effects b gamma (f_g (hr_f r)) = Ok u /\
      hat_times ki rows (fun f => g_y (f_g f)) r = g_x (f_g (hr_f r)) *m b + g_z (f_g (hr_f r)) *m u.
Proof.
  move=> p q gs gamma hg hv u.
  exists (invmx (normal_matrix gs gamma)), (List.map (hrow gamma) gs),
    (invmx (normal_matrix gs gamma) *m tail gs gamma).
  rewrite hat_rows_ok // /lme_optimal_beta kernel_tail_ok /=; last exact: adm.
  rewrite /np_solve u; split=> //; split=> //; split.
    by rewrite List.map_map /= List.map_id.
  move=> r /List.in_map_iff [g [<- hin]]; eexists; split.
    by apply: group_effects_ok => //; exact: hv.
  exact: hat_times_ok.
Qed.

(*@ non-vacuous: the hypotheses hold for one observation *)
Lemma ex_hat_matrix_fits_lemma :
  blup_variances (1%:M : 'cV[R]_1) /\ positive_variances [:: one_obs 1 3 1 1] /\
  normal_matrix [:: one_obs 1 3 1 1] (1%:M : 'cV[R]_1) \in unitmx.
Proof.
  split; last split.
  - move=> j; right; rewrite !ord1 mxE mulr1n.
    apply: (Rmult_lt_reg_r (10 ^ 10)%coqR); first by apply: pow_lt; lra.
    rewrite /Rdiv Rmult_assoc Rinv_l; last by apply: pow_nonzero; lra.
    by rewrite !Rmult_1_l; apply: (Rlt_pow_R1 10 10); [lra | exact/ltP].
  - by move=> g [<-|[]] i; rewrite !ord1 /= mxE mulr1n; exact: Rlt_0_1.
  - rewrite normal_one; apply: unit_scalar; rewrite Rmult_1_l Rmult_1_r; apply: Rinv_neq_0_compat; toR; lra.
Qed.

(*@ C53.  Its trace, the degrees of freedom of Vaida's AIC, is the number of fixed effects when all variances are 0. *)
Lemma degrees_of_freedom_lemma : forall (p q : nat) (gs : seq (group p q)),
  positive_variances gs -> normal_matrix gs 0 \in unitmx -> lme_ddf gs 0 = Ok (INR p).
Proof.
  move=> p q gs hv u; apply: ddf_zero => //; by move=> j; left; rewrite mxE.
Qed.

(*@ non-vacuous: one observation without variance of the random effect *)
Lemma ex_degrees_of_freedom_lemma : lme_ddf [:: one_obs 1 3 1 1] 0 = Ok 1%coqR.
Proof.
  have e0 : (0 : 'cV[R]_1) = 0%:M by rewrite raddf0.
  rewrite degrees_of_freedom_lemma //.
    by move=> g [<-|[]] i; rewrite !ord1 /= mxE mulr1n; toR; lra.
  rewrite e0 normal_one; apply: unit_scalar; toR.
  by rewrite Rmult_1_l Rmult_1_r; apply: Rinv_neq_0_compat; lra.
Qed.

(** C66 *)
(*@ C66.  For any distribution function cdf of a symmetric distribution, the probability reported for
    coordinate j is cdf (- |beta_j| / sd_j) with sd_j^2 the j-th diagonal entry of the inverse Hessian; it lies
    between 0 and 1/2. *)
Lemma flip_probabilities_lemma : forall (p q : nat) (gs : seq (group p q)) (pr : lme_prior p q) (cdf : R -> R) (beta : 'cV[R]_p) gamma (h : 'M[R]_p),
  (forall x y, (x <= y)%coqR -> (cdf x <= cdf y)%coqR) -> (forall x, (0 <= cdf x)%coqR) ->
  (forall x, cdf (- x)%coqR = (1 - cdf x)%coqR) ->
  admissible gs gamma -> convex_prior pr ->
  lme_hessian_beta gs pr gamma = Ok h -> h \in unitmx ->
  lme_flip_probabilities cdf gs pr beta gamma =
    Ok (List.map (fun j => cdf (- (Rabs (beta j ord0) / sqrt (invmx h j j)))%coqR) (enum 'I_p)) /\
  forall j, (0 < invmx h j j)%coqR /\
    (0 <= cdf (- (Rabs (beta j ord0) / sqrt (invmx h j j))) <= / 2)%coqR.
Proof.
  move=> p q gs pr cdf beta gamma h mono pos sym ha hp eh u.
  have [_ pI] := covariance_beta_ok ha hp eh u.
  have vp j : (0 < invmx h j j)%coqR by exact: pd_diag.
  have sp j : (0 < sqrt (invmx h j j))%coqR by exact: sqrt_lt_R0.
  have half : cdf 0%coqR = (/ 2)%coqR by have := sym 0%coqR; rewrite Ropp_0; lra.
  split; last first.
    move=> j; split=> //; split; first exact: pos.
    rewrite -half; apply: mono; have := Rabs_pos (beta j ord0) => h1.
    have := Rinv_0_lt_compat _ (sp j) => h2.
    by have := Rmult_le_pos _ _ h1 (Rlt_le _ _ h2); rewrite /Rdiv; lra.
  rewrite /lme_flip_probabilities eh /= /np_inv u /=; apply: sequence_map_In => j _.
  have nz : nonzero (sqrt (invmx h j j)).
    by rewrite /nonzero /reqb; case: Req_EM_T => // e; have := sp j; rewrite e; lra.
  move: nz (sp j); move: (sqrt _) (beta j ord0) => sd m nz sj; rewrite nz /=.
  have gen (a : R) : ((0 - a) / sd = - (a / sd))%coqR by rewrite /Rdiv; ring.
  case: rltbP => hm /=.
    by rewrite Rabs_pos_eq; [rewrite gen | exact: Rlt_le].
  case: rltbP => hm' /=.
    rewrite Rabs_left // gen sym.
    have -> : (- (- m / sd) = m / sd)%coqR by rewrite /Rdiv; ring.
    by congr Ok; ring.
  have -> : m = 0%coqR by lra.
  by rewrite Rabs_R0 /Rdiv Rmult_0_l Ropp_0 half.
Qed.

(*@ non-vacuous: the Cauchy distribution satisfies the hypotheses on cdf *)
Lemma ex_flip_probabilities_lemma : exists cdf : R -> R,
  (forall x y, (x <= y)%coqR -> (cdf x <= cdf y)%coqR) /\ (forall x, (0 <= cdf x)%coqR) /\
  (forall x, cdf (- x)%coqR = (1 - cdf x)%coqR) /\ cdf 1%coqR = (3 / 4)%coqR.
Proof.
  have hp := PI_RGT_0; have hi := Rinv_0_lt_compat _ hp.
  exists (fun x => / 2 + atan x * / PI)%coqR; split; last split; last split.
  - move=> x y [h|->]; last exact: Rle_refl.
    apply: Rplus_le_compat_l; apply: Rmult_le_compat_r; first exact: Rlt_le.
    by apply: Rlt_le; exact: atan_increasing.
  - move=> x; have [h _] := atan_bound x.
    have : (- PI / 2 * / PI <= atan x * / PI)%coqR.
      by apply: Rmult_le_compat_r; apply: Rlt_le.
    have -> : (- PI / 2 * / PI = - / 2)%coqR by field; lra.
    lra.
  - by move=> x; rewrite atan_opp; field; lra.
  - by rewrite atan_1; field; lra.
Qed.

(** C69 *)
(*@ C69.  The effective number of observations used by Jones' criterion is the sum over groups of 1' C^-1 1 with C
    the matrix of correlations; it is at least the number of groups, and equals the number of observations
    when all variances of random effects are 0. *)
Lemma effective_observations_lemma : forall (p q : nat) (gs : seq (group p q)) gamma,
  admissible gs gamma ->
  (exists fs, recalculate gs gamma = Ok fs /\ n_eff fs = Ok (effective_obs gs gamma)) /\
  ((forall g, List.In g gs -> (0 < g_n g)%N) -> (INR (size gs) <= effective_obs gs gamma)%coqR) /\
  (gamma = 0 -> positive_variances gs -> effective_obs gs gamma = INR (total_obs gs)).
Proof.
  move=> p q gs gamma h; split; last split.
  - by exists (List.map (fac gamma) gs); rewrite recalculate_ok // n_eff_ok.
  - exact: effective_ge.
  - by move=> g0 hv; have := n_eff_zero g0 hv; rewrite n_eff_ok // => -[].
Qed.

(*@ non-vacuous: two groups of one observation *)
Lemma ex_effective_observations_lemma :
  admissible [:: one_obs 1 0 1 1; one_obs 1 0 1 1] (1%:M : 'cV[R]_1) /\
  effective_obs [:: one_obs 1 0 1 1; one_obs 1 0 1 1] (0 : 'cV[R]_1) = 2%coqR.
Proof.
  have pv : positive_variances [:: one_obs 1 0 1 1; one_obs 1 0 1 1].
    by move=> g [<-|[<-|[]]] i; rewrite !ord1 /= mxE mulr1n; toR; lra.
  split.
    by apply: admissible_nonneg => // j; rewrite !ord1 mxE mulr1n; toR; lra.
  have [|_ [_ h]] := @effective_observations_lemma 1 1 [:: one_obs 1 0 1 1; one_obs 1 0 1 1] 0.
    by apply: admissible_nonneg => // j; rewrite mxE; exact: Rle_refl.
  by rewrite h // /total_obs !big_cons big_nil.
Qed.
