(*HEAD
(** Property C99: the order and the names of the groups (src/pysr3/lme/problems.py, oracles.py, models.py). *)
From Coq Require Import Permutation.
From Verif.Base Require Import Py Vec Mat RMx.
From Verif.Model Require Import LmeProblem Regularizers Solvers LmeInner LmeFit.
From Verif.Spec Require Import FitSpec GroupSpec.
From mathcomp Require Import ssreflect ssrfun ssrbool eqtype ssrnat choice seq fintype
  finfun bigop finset ssralg matrix mxalgebra.
From Verif.Model Require Import LmeOracle LmeBridge.
From Verif.Spec Require Import MxSpec.
HEAD*)
From Coq Require Import Lra Lia Permutation.
From Verif.Base Require Import Py Vec Mat RMx.
From Verif.Model Require Import LmeProblem Regularizers Solvers LmeInner LmeFit.
From Verif.Spec Require Import LmeSpec FitSpec GroupSpec.
From Verif.Proofs Require Import VecFacts LmeProblemProofs LmeProblemMain LmeInnerMain FitProofs.
From mathcomp Require Import ssreflect ssrfun ssrbool eqtype ssrnat choice seq fintype
  finfun bigop finset ssralg zmodp matrix mxalgebra.
From Verif.Model Require Import LmeOracle LmeBridge.
From Verif.Spec Require Import MxSpec.
From Verif.Proofs Require Import MxFacts LmeOracleProofs LmeEstimates LmeBlup LmeCriteria LmeOracleMain LmeEstimateMain
  BridgeProofs LmeFitMain LmeReportMain GroupProofs GroupTable.
Import GRing.Theory.
(*OPEN
Set Implicit Arguments.
Unset Strict Implicit.
Unset Printing Implicit Defensive.
Delimit Scope R_scope with coqR.
Local Open Scope ring_scope.
OPEN*)
Set Implicit Arguments.
Unset Strict Implicit.
Unset Printing Implicit Defensive.
Delimit Scope R_scope with coqR.
Local Open Scope ring_scope.

(** ** C99 *)
(*@ C99.  The loss, its first and second derivatives, the optimal coefficients and the information criteria do not
    depend on the order of the groups; each group has the random effects it has in any other order. *)
Lemma evaluations_ignore_group_order_lemma : forall (p q : nat) (gs gs' : seq (group p q)),
  Permutation gs gs' ->
  (forall pr beta gamma, lme_loss gs' pr beta gamma = lme_loss gs pr beta gamma) /\
  (forall pr beta gamma, lme_gradient_beta gs' pr beta gamma = lme_gradient_beta gs pr beta gamma) /\
  (forall pr beta gamma, lme_gradient_gamma gs' pr beta gamma = lme_gradient_gamma gs pr beta gamma) /\
  (forall pr gamma, lme_hessian_beta gs' pr gamma = lme_hessian_beta gs pr gamma) /\
  (forall pr positive expected beta gamma,
   lme_hessian_gamma gs' pr positive expected beta gamma = lme_hessian_gamma gs pr positive expected beta gamma) /\
  (forall beta gamma, lme_hessian_beta_gamma gs' beta gamma = lme_hessian_beta_gamma gs beta gamma) /\
  (forall gamma, lme_optimal_beta gs' gamma = lme_optimal_beta gs gamma) /\
  (forall pr tol beta gamma, lme_jones_bic gs' pr tol beta gamma = lme_jones_bic gs pr tol beta gamma) /\
  (forall pr tol beta gamma, lme_muller_ic gs' pr tol beta gamma = lme_muller_ic gs pr tol beta gamma) /\
  (forall pr tol marginalized beta gamma,
   lme_vaida_aic gs' pr tol marginalized beta gamma = lme_vaida_aic gs pr tol marginalized beta gamma) /\
  (forall beta gamma,
   match lme_random_effects gs beta gamma, lme_random_effects gs' beta gamma with
   | Ok us, Ok us' => length us = length gs /\ length us' = length gs' /\
                      Permutation (List.combine gs us) (List.combine gs' us')
   | Err e, Err e' => e = e'
   | _, _ => False
   end).
Proof.
  move=> p q gs gs' h.
  rewrite (gperm_loss h) (gperm_gradient_beta h) (gperm_gradient_gamma h) (gperm_hessian_beta h) (gperm_hessian_gamma h).
  rewrite (gperm_hessian_mixed h) (gperm_optimal_beta h) (gperm_jones h) (gperm_muller h) (gperm_vaida h).
  do 10 (split; first by []).
  move=> beta gamma; have := gperm_random_effects h beta gamma; rewrite /perm_results.
  by case: (lme_random_effects gs _ _) => [us|e]; case: (lme_random_effects gs' _ _) => [us'|e'] // [].
Qed.

(*@ C99.  Give the groups of a table other names (numbers): fitting it gives the same coefficients, the same
    variances and the same log, every group has, under its new name, the random effects and coefficients it had
    under the old one, and the same exceptions are raised. *)
Lemma fit_ignores_group_names_lemma :
  forall argsort cdf f g m coef x x' y ls beta0 gamma0 warm ff fr fe re,
  List.nth_error ls g = Some GROUP -> renamed f g x x' ->
  renamed_fit f (lme_fit argsort cdf m coef x y (Some ls) beta0 gamma0 warm ff fr fe re)
    (lme_fit argsort cdf m coef x' y (Some ls) beta0 gamma0 warm ff fr fe re).
Proof. intros; eapply fit_renamed; eassumption. Qed.

(*@ C99.  The information criterion of a model does not depend on the names of the groups. *)
Lemma criterion_ignores_group_names_lemma :
  forall cdf f g m coef x x' y ls ic,
  List.nth_error ls g = Some GROUP -> renamed f g x x' ->
  get_information_criterion cdf m coef x' y (Some ls) ic = get_information_criterion cdf m coef x y (Some ls) ic.
Proof. intros; eapply criterion_renamed; eassumption. Qed.

Definition two_problem : lme_problem :=
  {| pr_fixed := [:: [:: [:: 1]]; [:: [:: 2]]]%coqR; pr_random := [:: [:: [:: 1]]; [:: [:: 1]]]%coqR; pr_random_0d := false;
     pr_answers := Some [:: [:: 1]; [:: 3]]%coqR; pr_obs_vars := [:: [:: 1]; [:: 2]]%coqR; pr_group_labels := [:: 1; 2]%coqR;
     pr_intercept := None; pr_labels := [:: GROUP; FIXED; RANDOM; VARIANCE];
     pr_order := [:: 0%N; 1%N]; pr_fe_columns := None; pr_re_columns := None;
     pr_fe_weights := Some (ones 1); pr_re_weights := Some (ones 1) |}.
Definition two_rows : list vec := [:: [:: 1; 1; 1; 1]; [:: 2; 2; 1; 2]]%coqR.
Lemma two_table_problem : from_x_y {| t_cols := 4; t_rows := two_rows |} (Some [:: 1; 3]%coqR) None (Some flat_labels)
  false false None None = Ok two_problem.
Proof.
  have i1 : is_int 1%coqR = true by apply/is_int_true; exists 1%Z.
  have i2 : is_int 2%coqR = true by apply/is_int_true; exists 2%Z.
  have n1 : nonzero 1%coqR = true by apply/nonzero_true; lra.
  have n2 : nonzero 2%coqR = true by apply/nonzero_true; lra.
  have r1 : reqb 1%coqR 1%coqR = true by exact: reqb_refl.
  have r2 : reqb 2%coqR 2%coqR = true by exact: reqb_refl.
  have r12 : reqb 1%coqR 2%coqR = false by apply/negbTE/negP => /reqb_true; lra.
  have r21 : reqb 2%coqR 1%coqR = false by apply/negbTE/negP => /reqb_true; lra.
  have l12 : rltb 1%coqR 2%coqR = true by apply/rltb_true; lra.
  rewrite /from_x_y /two_rows /flat_labels /=.
  rewrite /column /= n1 n2 /=. rewrite /unique_labels /= i1 i2 /= l12 /=.
  have g0 : LmeProblem.in_group 0 1 [:: 1; 1; 1; 1]%coqR = true by exact: r1.
  have g1 : LmeProblem.in_group 0 1 [:: 2; 2; 1; 2]%coqR = false by exact: r21.
  have g2 : LmeProblem.in_group 0 2 [:: 1; 1; 1; 1]%coqR = false by exact: r12.
  have g3 : LmeProblem.in_group 0 2 [:: 2; 2; 1; 2]%coqR = true by exact: r2.
  by rewrite /where_ /= !g0 !g1 !g2 !g3.
Qed.

Lemma two_fit : exists co lg, lme_fit (fun _ => [::]) (fun x => x) (flat_model PenNone None 0 0%coqR) None
  {| t_cols := 4; t_rows := two_rows |} [:: 1; 3]%coqR (Some flat_labels) None None false false false None None = Ok (co, lg).
Proof.
  rewrite /lme_fit /fit /= two_table_problem; cbn [rbind].
  have [gs [hg h]] := table_problems_evaluate_partial_lemma two_table_problem.
  have pv : positive_variances gs.
    apply: (groups_of_positive hg) => -[|[|[|j]]] [|[|[|i]]] /= hi; lra || lia.
  have ev j : col_of 1 [:: 1%coqR] j ord0 = 1%coqR by rewrite mxE !ord1.
  have nn : nonnegative (col_of 1 [:: 1%coqR]) by move=> j; rewrite ev; toR; lra.
  have bv : blup_variances (col_of 1 [:: 1%coqR]).
    move=> j; right; rewrite ev.
    apply: (Rmult_lt_reg_r (10 ^ 10)%coqR); first by apply: pow_lt; lra.
    rewrite /Rdiv Rmult_assoc Rinv_l; last by apply: pow_nonzero; lra.
    by rewrite !Rmult_1_l; apply: (Rlt_pow_R1 10 10); [lra | exact/ltP].
  have [_ [_ [_ he]]] := h pv (fun x => x) None [:: 1%coqR] [:: 1%coqR] erefl erefl nn.
  have [us hu] := he bv.
  have [gs1 [eg [_ [_ [vs [evs eu]]]]]] := list_effects_inv hu.
  have [u [u' e1]] : exists u u' : R, us = [:: [:: u]; [:: u']].
    have : length gs1 = 2%N by move: eg; rewrite /groups_of /=; case=> <-.
    case: gs1 {eg} evs => [//|g1 [//|g2 [|//]]] evs _; move: evs; rewrite /lme_random_effects.
    case: (recalculate _ _) => //= fs; case: (group_effects _ _ g1) => //= v; case: (group_effects _ _ g2) => //= v'.
    move=> [ev1]; move: eu; rewrite -ev1 /= => ->.
    have := length_vec_of v; case: (vec_of v) => [//|a [|//]] _.
    have := length_vec_of v'; case: (vec_of v') => [//|a' [|//]] _; by exists a, a'.
  have [bm hov] : exists bm, oracle_view_of two_problem = Ok {| ov_p := 1; ov_q := 1; ov_map := bm |} by eexists; vm_compute.
  eexists; eexists.
  eapply fit_problem_run with (g := None) (beta1 := [:: 1%coqR]) (gamma1 := [:: 1%coqR]) (us := us); try reflexivity; try exact hu.
  by rewrite e1; reflexivity.
Qed.
(*@ a table with the groups 1 and 2, and one with -1 and -2, where the groups come in the other order *)
Lemma ex_fit_ignores_group_names_lemma :
  let x := {| t_cols := 4; t_rows := [:: [:: 1; 1; 1; 1]; [:: 2; 2; 1; 2]]%coqR |} in
  let x' := {| t_cols := 4; t_rows := [:: [:: -1; 1; 1; 1]; [:: -2; 2; 1; 2]]%coqR |} in
  List.nth_error flat_labels 0 = Some GROUP /\ renamed Ropp 0 x x' /\
  exists r r', lme_fit (fun _ => [::]) (fun x => x) (flat_model PenNone None 0 0%coqR) None x [:: 1; 3]%coqR
    (Some flat_labels) None None false false false None None = Ok r /\
  lme_fit (fun _ => [::]) (fun x => x) (flat_model PenNone None 0 0%coqR) None x' [:: 1; 3]%coqR
    (Some flat_labels) None None false false false None None = Ok r'.
Proof.
  move=> x x'; split=> //.
  have hr : renamed Ropp 0 x x'.
    split=> //; split.
      by repeat constructor; case=> [//|[|[|[|i]]]].
    split=> [a b _ _|a _]; first lra.
    split=> -[z hz]; exists (- z)%Z; rewrite opp_IZR; lra.
  split=> //; have [co [lg h]] := two_fit; exists (co, lg).
  have := @fit_ignores_group_names_lemma (fun _ => [::]) (fun x => x) Ropp 0
    (flat_model PenNone None 0 0%coqR) None x x' [:: 1; 3]%coqR flat_labels None None false false false None None erefl hr.
  rewrite h; case: (lme_fit _ _ _ _ _ _ _ _ _ _ _ _ _ _) => [r'|//] _; by exists r'.
Qed.
