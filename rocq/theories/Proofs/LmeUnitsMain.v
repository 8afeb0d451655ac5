(*HEAD
(** Properties C96-C98: units of measurement (src/pysr3/lme/oracles.py). *)
From Verif.Base Require Import Py Vec RMx.
From mathcomp Require Import ssreflect ssrfun ssrbool eqtype ssrnat choice seq fintype
  finfun bigop finset ssralg matrix mxalgebra.
From Verif.Model Require Import LmeOracle.
From Verif.Spec Require Import MxSpec UnitsSpec.
HEAD*)
From Verif.Base Require Import Py Vec RMx.
From Coq Require Import Lra Lia.
From mathcomp Require Import ssreflect ssrfun ssrbool eqtype ssrnat choice seq fintype
  finfun bigop finset ssralg zmodp matrix mxalgebra.
From Verif.Model Require Import LmeOracle.
From Verif.Spec Require Import MxSpec UnitsSpec.
From Verif.Proofs Require Import MxFacts LmeOracleProofs LmeEstimates LmeBlup LmeCriteria LmeOracleMain LmeEstimateMain
  UnitsProofs.
Import GRing.Theory.
(*OPEN
Set Implicit Arguments.
Unset Strict Implicit.
Unset Printing Implicit Defensive.
Delimit Scope R_scope with coqR.
Local Open Scope ring_scope.
OPEN*)
Set Implicit Arguments.
Unset Strict Implicit.
Unset Printing Implicit Defensive.
Delimit Scope R_scope with coqR.
Local Open Scope ring_scope.

Lemma same_mask p q (U : units p q) gamma : same_estimated U gamma -> re_mask (convert_gamma U gamma) = re_mask gamma.
Proof.
  move=> h; apply/setP => j; rewrite !inE; apply/idP/idP => /rltbP hj; apply/rltbP; by [apply: (proj2 (h j))|apply: (proj1 (h j))].
Qed.
Lemma rmap_comp (X Y Z W : Type) (f : X -> Y) (h : Y -> W) (k : X -> Z) (l : Z -> W) (r : res X) :
  (forall x, h (f x) = l (k x)) -> rmap h (rmap f r) = rmap l (rmap k r).
Proof. by move=> e; case: r => //= x; rewrite e. Qed.

(** ** C96 *)
(*@ C96.  Data in other units - the target multiplied by c and shifted by a combination X b of the fixed features,
    the fixed features replaced by invertible combinations X A of them, the random features multiplied by s_j -
    and the parameters of the same model: the loss changes by N ln|c|, and its derivatives follow the chain rule.
    Exceptions are the same. *)
Lemma derivatives_follow_units_lemma : forall (p q : nat) (U : units p q), sensible U ->
  forall (gs : seq (group p q)) beta gamma,
  let gs' := List.map (convert U) gs in
  let beta' := convert_beta U beta in
  let gamma' := convert_gamma U gamma in
  let c := u_scale U in let A := u_fixed U in let s j := u_random U j ord0 in
  lme_loss gs' LNone beta' gamma' =
    rmap (fun l => l + INR (total_obs gs) * ln (Rabs c))%coqR (lme_loss gs LNone beta gamma) /\
  lme_gradient_beta gs' LNone beta' gamma' =
    rmap (fun d => (/ c)%coqR *: (A^T *m d)) (lme_gradient_beta gs LNone beta gamma) /\
  lme_gradient_gamma gs' LNone beta' gamma' =
    rmap (fun d : 'cV[R]_q => \col_j (s j ^ 2 / c ^ 2 * d j ord0)%coqR) (lme_gradient_gamma gs LNone beta gamma) /\
  lme_hessian_beta gs' LNone gamma' =
    rmap (fun h => (/ c ^ 2)%coqR *: (A^T *m h *m A)) (lme_hessian_beta gs LNone gamma) /\
  (forall positive expected, lme_hessian_gamma gs' LNone positive expected beta' gamma' =
    rmap (fun h : 'M[R]_q => \matrix_(i, j) (s i ^ 2 * s j ^ 2 / c ^ 4 * h i j)%coqR)
      (lme_hessian_gamma gs LNone positive expected beta gamma)) /\
  lme_hessian_beta_gamma gs' beta' gamma' =
    rmap (fun h => (/ c ^ 3)%coqR *: (A^T *m h *m diagv (\col_j (s j ^ 2)%coqR))) (lme_hessian_beta_gamma gs beta gamma).
Proof.
  move=> p q U ok gs beta gamma /=.
  split; first exact: lme_loss_convert.
  split; first exact: lme_gradient_beta_convert.
  split; first exact: lme_gradient_gamma_convert.
  split; first exact: lme_hessian_beta_convert.
  split; first by move=> a b; exact: lme_hessian_gamma_convert.
  exact: lme_hessian_mixed_convert.
Qed.

(*@ C96.  So do the optimal coefficients and their covariance. *)
Lemma optimal_beta_follows_units_lemma : forall (p q : nat) (U : units p q), sensible U ->
  forall (gs : seq (group p q)) gamma,
  let gs' := List.map (convert U) gs in
  let gamma' := convert_gamma U gamma in
  let iA := invmx (u_fixed U) in
  lme_optimal_beta gs' gamma' = rmap (convert_beta U) (lme_optimal_beta gs gamma) /\
  lme_covariance_beta gs' LNone gamma' =
    rmap (fun C => (u_scale U ^ 2)%coqR *: (iA *m C *m iA^T)) (lme_covariance_beta gs LNone gamma).
Proof.
  move=> p q U ok gs gamma /=; split; first exact: lme_optimal_beta_convert.
  have c0 : (u_scale U ^ 2 <> 0)%coqR by apply: pow_nonzero; case: ok.
  rewrite /lme_covariance_beta lme_hessian_beta_convert //; case: (lme_hessian_beta _ _ _) => [h|//]; cbn [rbind rmap].
  by apply: np_inv_sandwich => //; case: ok => _ [].
Qed.

Lemma target_sensible p q c : c <> 0%coqR -> sensible (target_units p q c).
Proof.
  move=> h; split=> //=; split; first exact: unitmx1.
  by move=> j; rewrite mxE; toR; lra.
Qed.
Lemma convert_one c x y z v : convert (target_units 1 1 c) (one_obs x y z v) = one_obs x (c * y)%coqR z (c ^ 2 * v)%coqR.
Proof.
  rewrite /convert /one_obs; cbn [g_n g_x g_y g_z g_v target_units u_fixed u_scale u_shift u_random].
  have -> : const_mx 1%coqR = 1%:M :> 'cV[R]_1 by apply/matrixP => i j; rewrite !mxE !ord1.
  by rewrite /diagv diag_scalar !mulmx1 mulmx0 addr0 !scale_scalar_mx.
Qed.
Lemma convert_beta_one c b : convert_beta (target_units 1 1 c) (b%:M : 'cV[R]_1) = (c * b)%coqR%:M.
Proof. by rewrite /convert_beta /= invmx1 mul1mx addr0 scale_scalar_mx. Qed.
Lemma convert_gamma_one c a : convert_gamma (target_units 1 1 c) (a%:M : 'cV[R]_1) = (c ^ 2 * a)%coqR%:M.
Proof. by apply/matrixP => i j; rewrite !mxE !ord1 eqxx /= !mulr1n; toR; field. Qed.

(*@ one observation of 3 metres, in centimetres: 300, and the optimal coefficient is 300 *)
Lemma ex_derivatives_follow_units_lemma :
  sensible (target_units 1 1 100%coqR) /\
  convert (target_units 1 1 100%coqR) (one_obs 1 3 1 1) = one_obs 1 300%coqR 1 10000%coqR /\
  lme_optimal_beta [:: one_obs 1 3 1 1] 1%:M = Ok 3%coqR%:M /\
  lme_optimal_beta [:: one_obs 1 300%coqR 1 10000%coqR] (10000%coqR%:M : 'cV[R]_1) = Ok 300%coqR%:M.
Proof.
  have ok : sensible (target_units 1 1 100%coqR) by apply: target_sensible; lra.
  have e1 : convert (target_units 1 1 100%coqR) (one_obs 1 3 1 1) = one_obs 1 300%coqR 1 10000%coqR.
    by rewrite convert_one; congr one_obs; rewrite /=; toR; ring.
  do 2 split=> //; split; first exact: ex_optimal_beta_minimises_lemma.
  have := proj1 (optimal_beta_follows_units_lemma ok [:: one_obs 1 3 1 1] 1%:M).
  rewrite ex_optimal_beta_minimises_lemma; cbn [List.map rmap]; rewrite e1 convert_gamma_one convert_beta_one.
  have -> : (100 ^ 2 * 1 = 10000)%coqR by ring.
  by have -> : (100 * 3 = 300)%coqR by ring.
Qed.

(** ** C97 *)
(*@ C97 (partial).  When the variances that exceed 1e-10 are the same in both units, the random effects follow the
    units, the fitted values are those of the old units, converted like the target, and the conditional loss changes
    by N ln|c|. *)
Lemma random_effects_follow_units_partial_lemma : forall (p q : nat) (U : units p q), sensible U ->
  forall (gs : seq (group p q)) beta gamma, same_estimated U gamma ->
  let gs' := List.map (convert U) gs in
  let beta' := convert_beta U beta in
  let gamma' := convert_gamma U gamma in
  lme_random_effects gs' beta' gamma' = rmap (List.map (convert_effects U)) (lme_random_effects gs beta gamma) /\
  (forall (g : group p q) u, fitted_values (convert U g) beta' (convert_effects U u) =
     u_scale U *: (fitted_values g beta u + g_x g *m u_shift U)) /\
  (positive_variances gs -> lme_demarginalized_loss gs' LNone beta' gamma' =
     rmap (fun l => l + INR (total_obs gs) * ln (Rabs (u_scale U)))%coqR (lme_demarginalized_loss gs LNone beta gamma)).
Proof.
  move=> p q U ok gs beta gamma /same_mask same /=; split; first exact: lme_random_effects_convert.
  split; last by move=> hv; exact: lme_demarginalized_convert.
  move=> g u; rewrite /fitted_values /convert_beta; cbn [convert g_n g_x g_z].
  have [c0 [uA hs]] := ok.
  rewrite -scalemxAr mulmxA -(mulmxA (g_x g)) mulmxV // mulmx1 mulmxDr.
  have -> : g_z g *m diagv (u_random U) *m convert_effects U u = u_scale U *: (g_z g *m u).
    rewrite -mulmxA scalemxAr; congr (_ *m _); apply/matrixP => j k; rewrite (ord1 k) mul_diagv !mxE.
    by move: (hs j); set t := u_random U j ord0; set a := u j ord0 => ht; toR; field.
  rewrite -scalerDr; congr (_ *: _); exact: addrAC.
Qed.

Lemma both_large (a b : R) : (1 <= a)%coqR -> (1 <= b)%coqR -> (1 / 10 ^ 10 < Rabs a <-> 1 / 10 ^ 10 < Rabs b)%coqR.
Proof.
  move=> ha hb; have h : (1 / 10 ^ 10 < 1)%coqR.
    apply: (Rmult_lt_reg_r (10 ^ 10)%coqR); first by apply: pow_lt; lra.
    rewrite /Rdiv Rmult_assoc Rinv_l; last by apply: pow_nonzero; lra.
    by rewrite !Rmult_1_l; apply: (Rlt_pow_R1 10 10); [lra | exact/ltP].
  rewrite !Rabs_pos_eq; [|lra|lra]; move: h; set t := (1 / _)%coqR => h; split=> _; lra.
Qed.
(*@ the change from metres to centimetres keeps the variance 1 above the threshold *)
Lemma ex_random_effects_follow_units_partial_lemma :
  sensible (target_units 1 1 100%coqR) /\ same_estimated (target_units 1 1 100%coqR) (1%:M : 'cV[R]_1) /\
  lme_random_effects [:: one_obs 1 3 1 1] 1%:M 1%:M = Ok [:: 1%:M].
Proof.
  split; first by apply: target_sensible; lra.
  split; last exact: ex_random_effects_are_blup_lemma.
  move=> j; rewrite convert_gamma_one !ord1 !mxE eqxx !mulr1n.
  by apply: both_large; toR; lra.
Qed.

Lemma solve_empty (q n : nat) (K : 'M[R]_n) (b : 'cV[R]_n) (s : 'M[R]_(q, n)) : n = 0%N ->
  (let! u := np_solve K b in Ok (s *m u)) = Ok 0.
Proof.
  move=> e; move: K b s; rewrite e => K b s; rewrite /np_solve.
  have -> : K \in unitmx by rewrite unitmxE det_mx00 unitr1.
  by cbn [rbind]; congr Ok; apply/matrixP => i j; rewrite !mxE big_ord0.
Qed.
Lemma effects_empty p q (beta : 'cV[R]_p) (gamma : 'cV[R]_q) (g : group p q) :
  (forall j, (Rabs (gamma j ord0) <= 1 / 10 ^ 10)%coqR) -> group_effects beta gamma g = Ok 0.
Proof.
  move=> h; apply: solve_empty; apply: eq_card0 => j; rewrite inE; case: rltbP => //.
  by have := h j; lra.
Qed.

(*@ C97 (refuted).  The threshold is absolute.  One observation 3 = 1 * 1 + u with variances 1 and 1 has the effect
    u = 1; with the target in millionths of the unit (c = 1e-6) the effect is estimated as 0 rather than 1e-6. *)
Lemma random_effects_follow_units_refuted_lemma :
  exists (U : units 1 1) (gs : seq (group 1 1)) beta gamma u,
    sensible U /\ positive_variances gs /\ nonnegative gamma /\
    lme_random_effects gs beta gamma = Ok [:: u] /\
    lme_random_effects (List.map (convert U) gs) (convert_beta U beta) (convert_gamma U gamma) = Ok [:: 0] /\
    convert_effects U u <> 0.
Proof.
  pose c := (/ 10 ^ 6)%coqR.
  have cp : (0 < c)%coqR by apply: Rinv_0_lt_compat; apply: pow_lt; lra.
  have ec : (c ^ 2 = / 10 ^ 12)%coqR by rewrite /c pow_inv -pow_mult.
  have c2 : (0 < c ^ 2)%coqR by apply: pow_lt.
  exists (target_units 1 1 c), [:: one_obs 1 3 1 1], 1%:M, 1%:M, 1%:M; split; first by apply: target_sensible; lra.
  split; first by move=> g [<-|[]] i; rewrite !ord1 /= mxE mulr1n; exact: Rlt_0_1.
  split; first by move=> j; rewrite !ord1 mxE mulr1n; toR; lra.
  split; first exact: ex_random_effects_are_blup_lemma.
  split.
    cbn [List.map]; rewrite convert_one convert_gamma_one /lme_random_effects recalculate_ok; last first.
      by apply: adm_one; toR; rewrite !Rmult_1_r !Rmult_1_l; lra.
    cbn [rbind List.map sequence]; rewrite effects_empty // => j.
    rewrite !ord1 mxE mulr1n Rmult_1_r Rabs_pos_eq; last by left.
    rewrite ec /Rdiv Rmult_1_l; apply: Rinv_le_contravar; first by apply: pow_lt; lra.
    by apply: Rle_pow; [lra | lia].
  move=> /matrixP /(_ ord0 ord0); rewrite !mxE /= ?mulr1n; toR.
  have -> : (c * 1 / 1 = c)%coqR by field.
  lra.
Qed.

Lemma cov_one v a L : (0 < L)%coqR -> (0 < v)%coqR -> (a + v = L * L)%coqR ->
  lme_covariance_random_effects [:: one_obs 1 0 1 v] LNone (a%:M : 'cV[R]_1) = Ok [:: (a * (/ L - 1) * a)%coqR%:M].
Proof.
  move=> hL hv e.
  have h0 : (0 < 1 * a * 1 + v)%coqR by rewrite Rmult_1_l Rmult_1_r e; exact: Rmult_lt_0_compat.
  have ha : admissible [:: one_obs 1 0 1 v] (a%:M : 'cV[R]_1) by exact: adm_one.
  have eO : (1 * a * 1 + v = L * L)%coqR by rewrite Rmult_1_l Rmult_1_r.
  have eH : lme_hessian_beta [:: one_obs 1 0 1 v] LNone (a%:M : 'cV[R]_1) = Ok (/ (L * L))%coqR%:M.
    rewrite /lme_hessian_beta recalculate_ok //=; congr Ok; rewrite addr0 big_cons big_nil addr0.
    rewrite kernel_fac; last by apply: ha; left.
    rewrite Omega_one eO /= invmx_scalar tr_scalar_mx -!scalar_mxM; congr (_%:M); toR; field; lra.
  have u : ((/ (L * L))%coqR%:M : 'M[R]_1) \in unitmx.
    by apply: unit_scalar; apply: Rinv_neq_0_compat; apply: Rgt_not_eq; exact: Rmult_lt_0_compat.
  rewrite /lme_covariance_random_effects /lme_covariance_beta eH /= /np_inv u /= recalculate_ok //=; congr (Ok [:: _]).
  rewrite /group_covariance_u /= /chol_or0 Omega_one eO.
  have -> : cholesky ((L * L)%coqR%:M : 'M[R]_1) = Ok L%:M.
    have [L' e'] := cholesky_pd (@scalar_pos (L * L)%coqR (Rmult_lt_0_compat _ _ hL hL)); rewrite e'; congr Ok.
    have [e1 _ pL] := cholesky_trig (tr_scalar_mx _ _) e'.
    rewrite [L']mx11_scalar; congr (_%:M).
    have : L' ord0 ord0 * L' ord0 ord0 = (L * L)%coqR.
      by have := congr1 (fun M : 'M[R]_1 => M ord0 ord0) e1; rewrite mxE big_ord1 !mxE mulr1n.
    have gen (x : R) : (0 < x)%coqR -> (x * x = L * L)%coqR -> x = L.
      move=> h1 h2; have : ((x - L) * (x + L) = 0)%coqR by lra.
      by move=> /Rmult_integral [] ?; lra.
    exact: gen (pL ord0).
  rewrite /diagv !diag_scalar !(tr_scalar_mx, invmx_scalar) -!scalar_mxM.
  rewrite -raddfB /= -!scalar_mxM; congr (_%:M); toR; field; lra.
Qed.
(*@ C97 (refuted).  covariance_random_effects has no unit at all: it subtracts the square of an inverse Cholesky
    factor from its first power.  For one observation with Omega = 4 it reports -1/2; with the target in halves of
    the unit (c = 2) it reports -12, where the covariance of the converted effect would be 4 * (-1/2). *)
Lemma covariance_random_effects_units_refuted_lemma :
  exists (U : units 1 1) (gs : seq (group 1 1)) gamma (C C' : 'M[R]_1),
    sensible U /\ positive_variances gs /\ nonnegative gamma /\ same_estimated U gamma /\
    (forall u, convert_effects U u = u_scale U *: u) /\
    lme_covariance_random_effects gs LNone gamma = Ok [:: C] /\
    lme_covariance_random_effects (List.map (convert U) gs) LNone (convert_gamma U gamma) = Ok [:: C'] /\
    C' <> (u_scale U ^ 2)%coqR *: C.
Proof.
  exists (target_units 1 1 2%coqR), [:: one_obs 1 0 1 3], 1%:M; eexists; eexists.
  split; first by apply: target_sensible; lra.
  split; first by move=> g [<-|[]] i; rewrite !ord1 /= mxE mulr1n; lra.
  split; first by move=> j; rewrite !ord1 mxE mulr1n; toR; lra.
  split.
    move=> j; rewrite convert_gamma_one !ord1 !mxE eqxx !mulr1n.
    by apply: both_large; toR; lra.
  split.
    by move=> u; apply/matrixP => i j; rewrite !mxE /= !ord1; toR; field.
  split; first by apply: (@cov_one 3%coqR 1%coqR 2%coqR); toR; lra.
  split.
    cbn [List.map]; rewrite convert_one convert_gamma_one.
    have -> : (2 * 0 = 0)%coqR by ring.
    by apply: (@cov_one _ _ 4%coqR); toR; lra.
  move=> /matrixP /(_ ord0 ord0); rewrite /= !mxE /= !mulr1n; toR; lra.
Qed.

(** ** C98 *)
(*@ C98 (partial).  When the numbers of coefficients at or above the tolerance are the same in both units, Jones'
    criterion and the marginal criterion of Vaida and Blanchard change by 2 N ln|c| and that of Mueller and Hui by
    2 ln|c|; so does the conditional criterion when the estimated random effects are the same.  None of the changes
    depends on the parameters. *)
Lemma criteria_follow_units_partial_lemma : forall (p q : nat) (U : units p q), sensible U ->
  forall (gs : seq (group p q)) tol beta gamma,
  let gs' := List.map (convert U) gs in
  let beta' := convert_beta U beta in
  let gamma' := convert_gamma U gamma in
  let N := INR (total_obs gs) in let k := ln (Rabs (u_scale U)) in
  count_ge tol beta' = count_ge tol beta -> count_ge tol gamma' = count_ge tol gamma ->
  lme_jones_bic gs' LNone tol beta' gamma' = rmap (fun v => v + 2 * N * k)%coqR (lme_jones_bic gs LNone tol beta gamma) /\
  ((0 < total_obs gs)%N -> lme_muller_ic gs' LNone tol beta' gamma' =
    rmap (fun v => v + 2 * k)%coqR (lme_muller_ic gs LNone tol beta gamma)) /\
  lme_vaida_aic gs' LNone tol true beta' gamma' =
    rmap (fun v => v + 2 * N * k)%coqR (lme_vaida_aic gs LNone tol true beta gamma) /\
  (same_estimated U gamma -> positive_variances gs ->
   lme_vaida_aic gs' LNone tol false beta' gamma' =
    rmap (fun v => v + 2 * N * k)%coqR (lme_vaida_aic gs LNone tol false beta gamma)).
Proof.
  move=> p q U ok gs tol beta gamma /= cb cg.
  have et : total_obs (List.map (convert U) gs) = total_obs gs.
    by rewrite /total_obs; elim: gs => [|g l IH] /=; rewrite ?big_nil // !big_cons IH.
  have el := lme_loss_convert ok gs beta gamma.
  split; [|split; [|split]].
  - rewrite /lme_jones_bic; apply: (eval_convert ok) => ha.
    rewrite el cb cg n_eff_convert_all //; case: (lme_loss _ _ _ _) => //= l; case: (n_eff _) => //= n.
    by congr Ok; set x := INR (_ + _); toR; ring.
  - move=> hN; rewrite /lme_muller_ic el cb cg et.
    have -> : size (List.map (convert U) gs) = size gs by elim: (gs) => //= g l ->.
    case: (lme_loss _ _ _ _) => //= l; congr Ok.
    have : (0 < INR (total_obs gs))%coqR by apply: lt_0_INR; exact/ltP.
    set n := INR _; set P := INR (count_ge _ beta); set Q := INR (count_ge _ gamma); set L := ln (INR _) => h.
    by field; lra.
  - rewrite /lme_vaida_aic el cb cg et; case: (lme_loss _ _ _ _) => //= l; congr Ok.
    by set a := if _ then _ else _; toR; ring.
  - move=> /same_mask same hv.
    rewrite /lme_vaida_aic lme_ddf_convert // lme_demarginalized_convert // cb cg et.
    case: (lme_ddf _ _) => //= rho; case: (guard _ _) => //= _.
    by case: (lme_demarginalized_loss _ _ _ _) => //= l; congr Ok; toR; ring.
Qed.

Lemma count_one tol (a : R) : count_ge tol (a%:M : 'cV[R]_1) = (if rleb tol (Rabs a) then 1 else 0)%N.
Proof.
  rewrite /count_ge; case e : (rleb tol (Rabs a)).
    rewrite -[RHS](card_ord 1) -cardsT; congr #|pred_of_set _|; apply/setP => j; rewrite !inE !ord1 mxE mulr1n; exact: e.
  by apply: eq_card0 => j; rewrite !inE !ord1 mxE mulr1n; exact: e.
Qed.
Lemma muller_one tol x y z v b a : (0 < z * a * z + v)%coqR ->
  lme_muller_ic [:: one_obs x y z v] LNone tol (b%:M : 'cV[R]_1) (a%:M : 'cV[R]_1) =
  Ok (((y - x * b) ^ 2 / (z * a * z + v)) + ln (z * a * z + v) + (if rleb tol (Rabs a) then 2 else 0))%coqR.
Proof.
  move=> h; rewrite /lme_muller_ic lme_loss_ok; last exact: adm_one.
  rewrite big_cons big_nil nll_one // !count_one; cbn [rbind size].
  have -> : total_obs [:: one_obs x y z v] = 1%N by rewrite /total_obs big_cons big_nil /= addn0.
  congr Ok; rewrite /= ln_1; case: (rleb tol (Rabs a)); toR; rewrite /=; field; lra.
Qed.
(*@ the counts agree with the tolerance 1/2 for the coefficients 1 and 1, in metres and in centimetres *)
Lemma ex_criteria_follow_units_partial_lemma :
  let U := target_units 1 1 100%coqR in
  sensible U /\ count_ge (1 / 2)%coqR (convert_beta U 1%:M) = count_ge (1 / 2)%coqR (1%:M : 'cV[R]_1) /\
  count_ge (1 / 2)%coqR (convert_gamma U 1%:M) = count_ge (1 / 2)%coqR (1%:M : 'cV[R]_1) /\
  lme_muller_ic [:: one_obs 1 1 1 1] LNone (1 / 2)%coqR 1%:M 1%:M = Ok (ln 2 + 2)%coqR.
Proof.
  have r1 : rleb (1 / 2) (Rabs 1) = true by apply/rlebP; rewrite Rabs_pos_eq; lra.
  split; first by apply: target_sensible; lra.
  rewrite convert_beta_one convert_gamma_one !count_one r1.
  have -> : rleb (1 / 2) (Rabs (100 * 1)) = true by apply/rlebP; rewrite Rabs_pos_eq; lra.
  have -> : rleb (1 / 2) (Rabs (100 ^ 2 * 1)) = true by apply/rlebP; rewrite Rabs_pos_eq; lra.
  do 2 split=> //; rewrite muller_one; last by toR; lra.
  rewrite r1; congr Ok; toR; have -> : (1 * 1 * 1 + 1 = 2)%coqR by ring.
  by field.
Qed.

(*@ C98 (refuted).  The tolerance is absolute, so the unit of the target can decide which of two models has the
    smaller criterion: for the observation 2 = u + e and the tolerance 1/2, the model without variance wins
    against gamma = 1, and loses against it when the target is counted in tens (c = 1/10). *)
Lemma criteria_follow_units_refuted_lemma :
  exists (U : units 1 1) (gs : seq (group 1 1)) tol beta gamma1 gamma2 a1 a2 b1 b2,
    sensible U /\ positive_variances gs /\ nonnegative gamma1 /\ nonnegative gamma2 /\ (0 < tol)%coqR /\
    lme_muller_ic gs LNone tol beta gamma1 = Ok a1 /\ lme_muller_ic gs LNone tol beta gamma2 = Ok a2 /\
    (a1 < a2)%coqR /\
    lme_muller_ic (List.map (convert U) gs) LNone tol (convert_beta U beta) (convert_gamma U gamma1) = Ok b1 /\
    lme_muller_ic (List.map (convert U) gs) LNone tol (convert_beta U beta) (convert_gamma U gamma2) = Ok b2 /\
    (b2 < b1)%coqR.
Proof.
  have l2 : (0 < ln 2)%coqR by rewrite -ln_1; apply: ln_increasing; lra.
  have l3 : (ln 2 < 2)%coqR.
    rewrite -{2}(ln_exp 2); apply: ln_increasing; first lra.
    by have := exp_ineq1 2; lra.
  pose k := ln (/ 100)%coqR.
  exists (target_units 1 1 (/ 10)%coqR), [:: one_obs 1 2 1 1], (/ 2)%coqR, 0%coqR%:M, 0%coqR%:M, 1%coqR%:M,
    4%coqR, (4 + ln 2)%coqR, (4 + k)%coqR, (2 + ln 2 + k)%coqR.
  split; first by apply: target_sensible; apply: Rinv_neq_0_compat; lra.
  split; first by move=> g [<-|[]] i; rewrite !ord1 /= mxE mulr1n; toR; lra.
  split; first by move=> j; rewrite !ord1 mxE mulr1n; toR; lra.
  split; first by move=> j; rewrite !ord1 mxE mulr1n; toR; lra.
  split; first lra.
  have f0 : rleb (/ 2) (Rabs 0) = false by rewrite Rabs_R0; case: rlebP => //; lra.
  split.
    rewrite muller_one; last by toR; lra.
    rewrite f0; congr Ok; toR; have -> : (1 * 0 * 1 + 1 = 1)%coqR by ring.
    by rewrite ln_1; field.
  split.
    rewrite muller_one; last by toR; lra.
    have -> : rleb (/ 2) (Rabs 1) = true by apply/rlebP; rewrite Rabs_pos_eq; lra.
    congr Ok; toR; have -> : (1 * 1 * 1 + 1 = 2)%coqR by ring.
    by field.
  split; first lra.
  cbn [List.map]; rewrite convert_one convert_beta_one !convert_gamma_one.
  split.
    rewrite muller_one; last by toR; lra.
    have -> : ((/ 10) ^ 2 * 0 = 0)%coqR by ring.
    rewrite f0; congr Ok; toR; have -> : (1 * 0 * 1 + (/ 10) ^ 2 * 1 = / 100)%coqR by field.
    by rewrite -/k; field.
  split; last lra.
  rewrite muller_one; last by toR; lra.
  have -> : rleb (/ 2) (Rabs ((/ 10) ^ 2 * 1)) = false by case: rlebP => //; rewrite Rabs_pos_eq; lra.
  congr Ok; toR; have -> : (1 * ((/ 10) ^ 2 * 1) * 1 + (/ 10) ^ 2 * 1 = 2 * / 100)%coqR by field.
  rewrite ln_mult; [|lra|lra]; rewrite -/k; field.
Qed.
