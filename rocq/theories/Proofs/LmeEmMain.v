(** Final lemmas about the EM initializer, restated as theorems in Properties/LmeEm.v. *)
(*HEAD
(** Property C117: what initializer="EM" computes (src/pysr3/lme/models.py, oracles.py). *)
From Verif.Base Require Import Py Vec Mat RMx.
From Verif.Model Require Import LmeProblem Solvers LmeInner LmeFit.
From mathcomp Require Import ssreflect ssrfun ssrbool eqtype ssrnat choice seq fintype
  finfun bigop finset ssralg matrix mxalgebra.
From Verif.Model Require Import LmeOracle LmeBridge.
From Verif.Spec Require Import MxSpec EmSpec.
HEAD*)
From Verif.Base Require Import Py Vec Mat RMx.
From Verif.Model Require Import LmeProblem Regularizers Solvers LmeInner LmeFit.
From Verif.Spec Require Import PracticalSpec.
From Verif.Proofs Require Import VecFacts SolverProofs FitProofs.
From Coq Require Import Lra Lia.
From mathcomp Require Import ssreflect ssrfun ssrbool eqtype ssrnat choice seq fintype
  finfun bigop finset ssralg zmodp matrix mxalgebra.
From Verif.Model Require Import LmeOracle LmeBridge.
From Verif.Spec Require Import MxSpec EmSpec.
From Verif.Proofs Require Import MxFacts LmeOracleProofs LmeOracleMain LmeEstimates LmeCriteria LmeEstimateMain BridgeProofs ApartProofs EmProofs.
(*OPEN
Set Implicit Arguments.
Unset Strict Implicit.
Unset Printing Implicit Defensive.
Delimit Scope R_scope with coqR.
Local Open Scope ring_scope.
OPEN*)
Set Implicit Arguments.
Unset Strict Implicit.
Unset Printing Implicit Defensive.
Delimit Scope R_scope with coqR.
Import GRing.Theory.
Local Open Scope ring_scope.

Lemma plus_minus (a c : R) : a = (a + c - c)%coqR.
Proof. ring. Qed.
Lemma map2_len (x y : vec) n : length x = n -> length y = n -> length (vadd x y) = n.
Proof. by elim: x y n => [|a x IH] [|c y] [|n] //= [h1] [h2]; rewrite (IH _ n). Qed.
Lemma nth_vadd (x y : vec) k : length x = length y ->
  List.nth k (vadd x y) 0%coqR = (List.nth k x 0 + List.nth k y 0)%coqR.
Proof.
  elim: x y k => [|a x IH] [|c y] [|k] //= h; try by rewrite Rplus_0_l.
  by apply: IH; case: h.
Qed.
Lemma sum_squares (q : nat) (cs : seq 'cV[R]_q) :
  let s := List.fold_right (fun u s => vadd (List.map (fun a => a ^ 2)%coqR u) s) (zeros q) (List.map (@vec_of q) cs) in
  length s = q /\ forall j : 'I_q, List.nth j s 0%coqR = \sum_(c <- cs) (c j ord0 ^ 2)%coqR.
Proof.
  elim: cs => [|c cs [IH1 IH2]] /=.
    by split=> [|j]; [rewrite /zeros List.repeat_length | rewrite nth_zeros big_nil].
  have hl : length (List.map (fun a => a ^ 2)%coqR (vec_of c)) = q by rewrite List.map_length length_vec_of.
  split=> [|j]; first exact: map2_len.
  rewrite big_cons -IH2 nth_vadd ?hl ?IH1 //; congr (_ + _)%coqR.
  have e0 : (fun a => a ^ 2)%coqR 0%coqR = 0%coqR by ring.
  by rewrite -{1}e0 List.map_nth nth_vec_of.
Qed.
Lemma mean_squares_inv (q n : nat) (cs : seq 'cV[R]_q) g : mean_squares q (List.map (@vec_of q) cs) n = Ok g ->
  (0 < n)%N /\ length g = q /\ col_of q g = \col_j ((\sum_(c <- cs) (c j ord0 ^ 2)%coqR) / INR n)%coqR.
Proof.
  rewrite /mean_squares; case: PeanoNat.Nat.ltb_spec => //= hn [<-].
  have [h1 h2] := sum_squares cs; split; first exact/ltP.
  rewrite List.map_length h1; split=> //; apply/matrixP => i k; rewrite !mxE -h2.
  have e0 : (fun s => s / INR n)%coqR 0%coqR = 0%coqR by rewrite /Rdiv Rmult_0_l.
  by rewrite -{1}e0 List.map_nth.
Qed.
Lemma sequence_length (A B : Type) (f : A -> res B) (l : seq A) r : sequence (List.map f l) = Ok r -> length r = length l.
Proof. by elim: l r => [|a l IH] r /=; [case=> <- | case: (f a) => //= b; case e: (sequence _) => //= [s] [<-] /=; rewrite (IH _ e)]. Qed.
Lemma groups_of_size p q pr (gs : seq (group p q)) : groups_of p q pr = Ok gs -> size gs = num_groups pr.
Proof.
  rewrite /groups_of; case: (~~ _) => //= /sequence_length; rewrite List.seq_length.
  by rewrite /num_groups /groups_sizes List.map_length.
Qed.
Lemma col_vec n (c : 'cV[R]_n) : col_of n (vec_of c) = c.
Proof. by apply/matrixP => i j; rewrite mxE ord1 nth_vec_of. Qed.

(*@ C117 (partial).  With initializer="EM" a plain model starts from the coefficients that minimise the negative
    log-likelihood at the given variances, and from the averages over the groups of the squares of the predicted random
    effects.  Each of these variances is smaller than the one of an EM step, by the variance that the predictions leave.
    The start does raise the joint density of the observations and of the random effects, with the predictions for the
    effects, above its value at the given start with any effects. *)
Lemma em_initializer_partial_lemma : forall cdf pr gl m (gs : seq (group (num_fixed pr) (num_random pr))) b g b1 g1,
  mo_initializer m = "EM" -> mo_sr3 m = None ->
  groups_of (num_fixed pr) (num_random pr) pr = Ok gs -> positive_variances gs ->
  blup_variances (col_of (num_random pr) g) ->
  initialize m (num_random pr) (num_groups pr) (problem_calls cdf pr gl None) (b, g) = Ok (b1, g1) ->
  let beta1 := col_of (num_fixed pr) b1 in
  let gamma := col_of (num_random pr) g in
  let gamma1 := col_of (num_random pr) g1 in
  length b1 = num_fixed pr /\ length g1 = num_random pr /\
  (forall beta, (marginal gs beta1 gamma <= marginal gs beta gamma)%coqR) /\
  gamma1 = mode_variances beta1 gamma gs /\
  (positive gamma -> forall j,
     gamma1 j ord0 = (em_variances beta1 gamma gs j ord0 - left_variance gamma gs j)%coqR /\
     (0 < left_variance gamma gs j)%coqR) /\
  (positive gamma -> positive gamma1 -> forall beta us, size us = size gs ->
     (joint_total gs beta1 gamma1 (List.map (blup beta1 gamma) gs) <= joint_total gs beta gamma us)%coqR).
Proof.
  move=> cdf pr gl m gs b g b1 g1 hi hs hgs hv hb; rewrite /initialize hi hs /=.
  rewrite /list_optimal_beta /list_random_effects hgs /=.
  case e1: (sized _ g) => [gm|//] /=; have [hlg ->] := sized_inv e1.
  set gamma := col_of _ g; have ha : admissible gs gamma by exact: adm.
  case u: (normal_matrix gs gamma \in unitmx); last first.
    by rewrite lme_optimal_beta_singular //= u.
  have [bt [v [eb [ev hmin]]]] := @lme_optimal_beta_min _ _ gs LNone gamma ha Logic.I u.
  rewrite eb /= sized_ok ?length_vec_of //= col_vec random_effects_ok //=.
  case e2: (mean_squares _ _ _) => [ga|//] /= [<- <-].
  have [hn [hl ec]] := mean_squares_inv e2.
  rewrite length_vec_of col_vec.
  have hsz := groups_of_size hgs; have hn' : (0 < size gs)%N by rewrite hsz.
  have hmode : col_of (num_random pr) ga = mode_variances bt gamma gs.
    rewrite ec /mode_variances hsz; apply/matrixP => j k; rewrite !mxE; congr (_ / _)%coqR.
    by elim: (gs) => [|a l IH] /=; rewrite ?big_nil // !big_cons IH.
  have hbm beta : (marginal gs bt gamma <= marginal gs beta gamma)%coqR.
    have [->|nb] := eqVneq beta bt; first exact: Rle_refl.
    have [|w [ew hw]] := hmin beta; first exact/eqP.
    move: ev ew; rewrite !lme_loss_ok //= => -[e3] [e4].
    by apply: Rlt_le; rewrite /marginal; move: e3 e4 hw; rewrite !Rplus_0_r => <- <-.
  split=> //; split=> //; split=> //; split=> //; split.
    move=> hpos j; rewrite hmode; rewrite em_split; split; first exact: plus_minus.
    exact: left_variance_pos.
  move=> hpos hpos1 beta us hsu; rewrite hmode in hpos1 *; exact: mode_descends.
Qed.

(*@ C117.  What an EM step does, in contrast: its variances minimise the expectation of the negative log-density of the
    random effects given the observations, and they do not raise the negative log-likelihood. *)
Lemma em_step_descends_lemma : forall (p q : nat) (gs : seq (group p q)) beta gamma,
  positive_variances gs -> (0 < size gs)%N -> positive gamma ->
  positive (em_variances beta gamma gs) /\
  (forall gamma', positive gamma' ->
     (expected_nll beta gamma gs (em_variances beta gamma gs) <= expected_nll beta gamma gs gamma')%coqR) /\
  (marginal gs beta (em_variances beta gamma gs) <= marginal gs beta gamma)%coqR.
Proof.
  move=> p q gs beta gamma hv hn hg; split; first exact: em_positive.
  by split; [move=> gamma' hg'; exact: em_minimises | exact: em_descends].
Qed.

(** ** the witness *)
Notation ga := (one_obs 1 3 1 3).
Notation gb := (one_obs 1 (-1) 1 3).
Lemma em_groups : groups_of 1 1 em_problem = Ok [:: ga; gb].
Proof. by rewrite /groups_of /= !mx_of1 !col_of1. Qed.
Lemma em_vars : positive_variances [:: ga; gb].
Proof. by move=> g [<-|[<-|//]] i; rewrite /= !ord1 !mxE eqxx mulr1n; toR; lra. Qed.
Lemma blup_one (b c x y z v : R) : (0 < z * c * z + v)%coqR ->
  blup (b%:M : 'cV[R]_1) (c%:M : 'cV[R]_1) (one_obs x y z v) = (c * z * (y - x * b) / (z * c * z + v))%coqR%:M.
Proof.
  move=> h; rewrite /blup Omega_one resid_one /= !diag_scalar invmx_scalar tr_scalar_mx -!scalar_mxM.
  by congr (_%:M); toR; field; lra.
Qed.
Lemma post_one (c x y z v : R) : (0 < z * c * z + v)%coqR ->
  posterior_cov (c%:M : 'cV[R]_1) (one_obs x y z v) = (c * v / (z * c * z + v))%coqR%:M.
Proof.
  move=> h; rewrite /posterior_cov Omega_one /= !diag_scalar invmx_scalar tr_scalar_mx -!scalar_mxM -raddfB.
  by congr (_%:M); toR; field; lra.
Qed.
Notation m1 := (1%:M : 'cV[R]_1).
Lemma hO : (0 < 1 * 1 * 1 + 3)%coqR. Proof. lra. Qed.
Lemma em_pos : positive m1.
Proof. by move=> j; rewrite !ord1 mxE eqxx mulr1n; toR; lra. Qed.
Lemma em_blup_vars : blup_variances m1.
Proof.
  move=> j; right; rewrite !ord1 mxE mulr1n.
  apply: (Rmult_lt_reg_r (10 ^ 10)%coqR); first by apply: pow_lt; lra.
  rewrite /Rdiv Rmult_assoc Rinv_l; last by apply: pow_nonzero; lra.
  by rewrite !Rmult_1_l; apply: (Rlt_pow_R1 10 10); [lra | exact/ltP].
Qed.
Lemma two_normal (f h : group 1 1) gamma (a c : R) :
  (g_x f)^T *m invmx (Omega gamma f) *m g_x f = a%:M -> (g_x h)^T *m invmx (Omega gamma h) *m g_x h = c%:M ->
  normal_matrix [:: f; h] gamma = (a + c)%coqR%:M.
Proof. by move=> e1 e2; rewrite /normal_matrix sum2 e1 e2 -raddfD. Qed.
Lemma two_tail (f h : group 1 1) gamma (a c : R) :
  (g_x f)^T *m invmx (Omega gamma f) *m g_y f = a%:M -> (g_x h)^T *m invmx (Omega gamma h) *m g_y h = c%:M ->
  tail [:: f; h] gamma = (a + c)%coqR%:M.
Proof. by move=> e1 e2; rewrite /tail sum2 e1 e2 -raddfD. Qed.
Lemma em_beta : lme_optimal_beta [:: ga; gb] m1 = Ok m1.
Proof.
  have ha : admissible [:: ga; gb] m1 by apply: adm; [exact: em_blup_vars | exact: em_vars].
  have nx (y : R) : (g_x (one_obs 1 y 1 3))^T *m invmx (Omega m1 (one_obs 1 y 1 3)) *m g_x (one_obs 1 y 1 3) = (/ 4)%coqR%:M.
    by rewrite Omega_one /= invmx_scalar tr_scalar_mx -!scalar_mxM; congr (_%:M); toR; field.
  have ty (y : R) : (g_x (one_obs 1 y 1 3))^T *m invmx (Omega m1 (one_obs 1 y 1 3)) *m g_y (one_obs 1 y 1 3) = (y / 4)%coqR%:M.
    by rewrite Omega_one /= invmx_scalar tr_scalar_mx -!scalar_mxM; congr (_%:M); toR; field.
  rewrite /lme_optimal_beta kernel_tail_ok // (two_normal (nx _) (nx _)) (two_tail (ty _) (ty _)) /=.
  rewrite /np_solve unit_scalar; last lra.
  by rewrite invmx_scalar -scalar_mxM; congr (Ok _%:M); toR; field.
Qed.
Lemma em_effects : List.map (blup m1 m1) [:: ga; gb] = [:: (/ 2)%coqR%:M; (- / 2)%coqR%:M].
Proof. by rewrite /List.map !blup_one; try exact: hO; congr [:: _%:M; _%:M]; toR; field. Qed.
Lemma em_initialize cdf gl m : mo_initializer m = "EM" -> mo_sr3 m = None ->
  initialize m 1 2 (problem_calls cdf em_problem gl None) ([:: 1%coqR], [:: 1%coqR]) = Ok ([:: 1%coqR], [:: (1 / 4)%coqR]).
Proof.
  move=> hi hs; rewrite /initialize hi hs /=.
  rewrite -[num_fixed em_problem]/1%N -[num_random em_problem]/1%N /list_optimal_beta /list_random_effects /at_params em_groups.
  rewrite /rbind sized_ok // col_of1 em_beta /= sized_ok ?length_vec_of // col_vec.
  rewrite random_effects_ok; [|exact: em_blup_vars|exact: em_vars].
  rewrite em_effects /= !vec_of1 !mxE eqxx !mulr1n /mean_squares /=.
  by congr (Ok ([:: _], [:: _])); field.
Qed.

(*@ C117 (refuted).  The variances of initializer="EM" are not those of an EM step, and the start can be worse than the
    one it replaces: from the default start of ones, with one observation in each of two groups, the code takes 1/4 for
    the variance where an EM step stays at 1, and the negative log-likelihood rises. *)
Lemma em_initializer_is_em_refuted_lemma :
  groups_of 1 1 em_problem = Ok [:: one_obs 1 3 1 3; one_obs 1 (-1) 1 3] /\ positive_variances [:: one_obs 1 3 1 3; one_obs 1 (-1) 1 3] /\
  (forall cdf, initialize (em_model "EM") 1 (num_groups em_problem) (problem_calls cdf em_problem None None)
     ([:: 1%coqR], [:: 1%coqR]) = Ok ([:: 1%coqR], [:: (1 / 4)%coqR])) /\
  col_of 1 [:: (1 / 4)%coqR] <> em_variances (col_of 1 [:: 1%coqR]) (col_of 1 [:: 1%coqR]) [:: one_obs 1 3 1 3; one_obs 1 (-1) 1 3] /\
  em_variances (col_of 1 [:: 1%coqR]) (col_of 1 [:: 1%coqR]) [:: one_obs 1 3 1 3; one_obs 1 (-1) 1 3] = col_of 1 [:: 1%coqR] /\
  (forall cdf, exists v v1,
     lc_loss (problem_calls cdf em_problem None None) [:: 1%coqR] [:: 1%coqR] = Ok v /\
     lc_loss (problem_calls cdf em_problem None None) [:: 1%coqR] [:: (1 / 4)%coqR] = Ok v1 /\ (v < v1)%coqR).
Proof.
  have ee : em_variances (col_of 1 [:: 1%coqR]) (col_of 1 [:: 1%coqR]) [:: ga; gb] = col_of 1 [:: 1%coqR].
    rewrite !col_of1 /em_variances; apply/matrixP => i j; rewrite mxE !ord1 sum2 /expected_square.
    rewrite !blup_one ?post_one; try exact: hO; rewrite !mxE eqxx !mulr1n /=; toR; field.
  have h4 : (0 < 1 * (1 / 4) * 1 + 3)%coqR by lra.
  have loss cdf (c : R) : (0 < c)%coqR -> lc_loss (problem_calls cdf em_problem None None) [:: 1%coqR] [:: c] =
    Ok (4 / (c + 3) + ln (c + 3))%coqR.
    move=> hc; have hp : (0 < 1 * c * 1 + 3)%coqR by lra.
    rewrite -[lc_loss _ _ _]/(list_loss (groups_of 1 1 em_problem) (Ok LNone) [:: 1%coqR] [:: c]).
    rewrite /list_loss /with_prior /at_params em_groups.
    rewrite /rbind !sized_ok // !col_of1 lme_loss_ok; last first.
      apply: admissible_nonneg; [apply: nonneg1; lra | exact: em_vars].
    rewrite sum2 !nll_one //; congr Ok; rewrite !Rmult_1_r !Rmult_1_l /=; toR.
    rewrite ?Rmult_1_r.
    by move: (ln _) => l; field; lra.
  split; first exact: em_groups. split; first exact: em_vars.
  split; first by move=> cdf; exact: em_initialize.
  split; first by rewrite ee !col_of1 => /matrixP /(_ ord0 ord0); rewrite !mxE eqxx !mulr1n; toR; lra.
  split; first exact: ee.
  move=> cdf; exists (4 / (1 + 3) + ln (1 + 3))%coqR, (4 / (1 / 4 + 3) + ln (1 / 4 + 3))%coqR.
  split; first by apply: loss; lra.
  split; first by apply: loss; lra.
  have hl : (ln (16 / 13) < 3 / 13)%coqR.
    have -> : (16 / 13 = 1 + 3 / 13)%coqR by field.
    have := @exp_ineq1 (3 / 13)%coqR _. move=> he.
    rewrite -{2}(ln_exp (3 / 13)); apply: ln_increasing; first lra.
    by apply: he; lra.
  have e : ln (1 + 3)%coqR = (ln (1 / 4 + 3) + ln (16 / 13))%coqR.
    by rewrite -ln_mult; [congr ln; field | lra | lra].
  by rewrite e; move: hl; move: (ln (16 / 13)) (ln (1 / 4 + 3)) => a c hl; lra.
Qed.

(*@ the hypotheses of the first theorem hold for this problem *)
Lemma ex_em_initializer_partial_lemma :
  blup_variances (col_of (num_random em_problem) [:: 1%coqR]) /\ positive (col_of (num_random em_problem) [:: 1%coqR]) /\
  positive (col_of (num_random em_problem) [:: (1 / 4)%coqR]) /\
  mo_initializer (em_model "EM") = "EM" /\ mo_sr3 (em_model "EM") = None.
Proof.
  rewrite -[num_random em_problem]/1%N !col_of1; split; first exact: em_blup_vars.
  split; first exact: em_pos.
  by split; first by move=> j; rewrite !ord1 mxE eqxx mulr1n; toR; lra.
Qed.
