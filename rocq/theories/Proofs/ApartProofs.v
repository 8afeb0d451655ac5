(** Evaluations of the sample problem of Spec/PracticalSpec.v. *)
From Verif.Base Require Import Py Vec Mat RMx.
From Verif.Model Require Import LmeProblem Regularizers Solvers LmeInner LmeFit.
From Verif.Spec Require Import FitSpec PracticalSpec.
From Verif.Proofs Require Import FitProofs.
From Coq Require Import Lra.
From mathcomp Require Import ssreflect ssrfun ssrbool eqtype ssrnat choice seq fintype
  finfun bigop finset ssralg zmodp matrix mxalgebra.
From Verif.Model Require Import LmeOracle LmeBridge.
From Verif.Spec Require Import MxSpec.
From Verif.Proofs Require Import MxFacts LmeOracleProofs LmeEstimates LmeBlup BridgeProofs.
Set Implicit Arguments.
Unset Strict Implicit.
Unset Printing Implicit Defensive.
Delimit Scope R_scope with coqR.
Import GRing.Theory.
Local Open Scope ring_scope.

Definition apart_groups : seq (group 1 1) :=
  [:: one_obs 1%coqR 42%coqR 0%coqR 1%coqR; one_obs 0%coqR 0%coqR 1%coqR 1%coqR].
Lemma col_of1 a : col_of 1 [:: a] = a%:M.
Proof. by apply/matrixP => i j; rewrite !mxE !ord1 eqxx mulr1n. Qed.
Lemma mx_of1 a : mx_of 1 1 [:: [:: a]] = a%:M.
Proof. by apply/matrixP => i j; rewrite !mxE !ord1 eqxx mulr1n. Qed.
Lemma vec_of1 (c : 'cV[R]_1) : vec_of c = [:: c ord0 ord0].
Proof.
  have h : size (vec_of c) = 1%N by exact: length_vec_of.
  case e: (vec_of c) h => [|a [|b l]] // _; congr cons.
  by have := nth_vec_of c ord0 0%coqR; rewrite e.
Qed.
Lemma enum1 : enum 'I_1 = [:: ord0].
Proof.
  have := size_enum_ord 1; case e: (enum 'I_1) => [|a [|b l]] // _.
  by rewrite (ord1 a).
Qed.
Lemma mat_of1 (c : 'M[R]_1) : mat_of c = [:: [:: c ord0 ord0]].
Proof. by rewrite /mat_of enum1. Qed.

Lemma apart_groupsE : groups_of 1 1 apart_problem = Ok apart_groups.
Proof. by rewrite /groups_of /= !mx_of1 !col_of1. Qed.
Lemma apart_variances : positive_variances apart_groups.
Proof. by move=> g [<-|[<-|//]] i; rewrite /= !ord1 !mxE eqxx mulr1n; toR; lra. Qed.
Lemma nonneg1 g : (0 <= g)%coqR -> nonnegative (g%:M : 'cV[R]_1).
Proof. by move=> h j; rewrite !ord1 mxE eqxx mulr1n. Qed.

Section At.
Variables (b g : R).
Hypothesis hg : (0 <= g)%coqR.
Let gm : 'cV[R]_1 := g%:M.
Let bt : 'cV[R]_1 := b%:M.
Lemma apart_admissible : admissible apart_groups gm.
Proof. by apply: admissible_nonneg; [exact: nonneg1 | exact: apart_variances]. Qed.


Lemma scalar0 n : (0%coqR)%:M = 0 :> 'M[R]_n.
Proof. by apply/matrixP => i j; rewrite !mxE mul0rn. Qed.
Lemma Omega1 : invmx (Omega gm (one_obs 1%coqR 42%coqR 0%coqR 1%coqR)) = 1%:M.
Proof.
  rewrite /Omega /= scalar0 !mul0mx add0r.
  have -> : diag_mx (1%coqR%:M : 'cV[R]_1)^T = 1%:M by apply/matrixP => i j; rewrite !mxE !ord1.
  exact: invmx1.
Qed.
Notation fs := (List.map (fac gm) apart_groups).
Let pd1 : pd (Omega gm (one_obs 1%coqR 42%coqR 0%coqR 1%coqR)).
Proof. by apply: apart_admissible; left. Qed.
Let pd2 : pd (Omega gm (one_obs 0%coqR 0%coqR 1%coqR 1%coqR)).
Proof. by apply: apart_admissible; right; left. Qed.

(** sums over two groups, without computing with the groups *)
Lemma sum2 (T : Type) (V : zmodType) (F : T -> V) a c : \sum_(f <- [:: a; c]) F f = F a + F c.
Proof. by rewrite !big_cons big_nil addr0. Qed.
Lemma gradient_fac (h : group 1 1) : pd (Omega gm h) ->
  group_gradient_beta bt (fac gm h) = - ((g_x h)^T *m invmx (Omega gm h) *m residual h bt).
Proof. by move=> hp; rewrite /group_gradient_beta gram_mid fac_gram. Qed.
Lemma x0_gradient (h : group 1 1) : g_x h = 0 -> group_gradient_beta bt (fac gm h) = 0.
Proof. by move=> e; rewrite /group_gradient_beta /= e mulmx0 trmx0 mul0mx oppr0. Qed.
Lemma x0_kernel (h : group 1 1) : g_x h = 0 -> group_kernel (fac gm h) = 0.
Proof. by move=> e; rewrite /group_kernel /= e mulmx0 trmx0 mul0mx. Qed.
Lemma x0_mixed (h : group 1 1) : g_x h = 0 -> group_hessian_mixed bt (fac gm h) = 0.
Proof. by move=> e; rewrite /group_hessian_mixed /= e !mulmx0. Qed.
Lemma z0_mixed (h : group 1 1) : g_z h = 0 -> group_hessian_mixed bt (fac gm h) = 0.
Proof. by move=> e; rewrite /group_hessian_mixed /= e mulmx0 trmx0 !mul0mx mulmx0. Qed.

Lemma apart_x0 : g_x (one_obs 0%coqR 0%coqR 1%coqR 1%coqR) = 0.
Proof. exact: (scalar0 1). Qed.
Lemma apart_z0 : g_z (one_obs 1%coqR 42%coqR 0%coqR 1%coqR) = 0.
Proof. exact: (scalar0 1). Qed.

(** the evaluations for two groups *)
Section Two.
Variables h k : group 1 1.
Hypothesis ha : admissible [:: h; k] gm.
Let pdh : pd (Omega gm h).
Proof. by apply: ha; left. Qed.
Lemma two_gradient : g_x k = 0 -> lme_gradient_beta [:: h; k] LNone bt gm =
  Ok (- ((g_x h)^T *m invmx (Omega gm h) *m residual h bt)).
Proof.
  move=> k0; rewrite /lme_gradient_beta (recalculate_ok ha); cbn [rbind List.map]; congr Ok.
  by rewrite sum2 (x0_gradient k0) (gradient_fac pdh) !addr0.
Qed.
Lemma two_hessian : g_x k = 0 -> lme_hessian_beta [:: h; k] LNone gm = Ok ((g_x h)^T *m invmx (Omega gm h) *m g_x h).
Proof.
  move=> k0; rewrite /lme_hessian_beta (recalculate_ok ha); cbn [rbind List.map]; congr Ok.
  by rewrite sum2 (x0_kernel k0) (kernel_fac pdh) !addr0.
Qed.
Lemma two_mixed : g_x k = 0 -> g_z h = 0 -> lme_hessian_beta_gamma [:: h; k] bt gm = Ok 0.
Proof.
  move=> k0 h0; rewrite /lme_hessian_beta_gamma (recalculate_ok ha); cbn [rbind List.map]; congr Ok.
  by rewrite sum2 (x0_mixed k0) (z0_mixed h0) addr0 trmx0.
Qed.
End Two.
Lemma apart_gradient_beta : lme_gradient_beta apart_groups LNone bt gm = Ok (b - 42)%coqR%:M.
Proof.
  rewrite (two_gradient apart_admissible apart_x0) Omega1; congr Ok; rewrite mulmx1 /residual.
  apply/matrixP => i j; rewrite !mxE !big_ord1 !mxE !ord1 !eqxx !mulr1n !big_ord1 !mxE !eqxx !mulr1n; toR; ring.
Qed.
Lemma apart_hessian_beta : lme_hessian_beta apart_groups LNone gm = Ok (1%coqR%:M).
Proof.
  rewrite (two_hessian apart_admissible apart_x0) Omega1; congr Ok.
  apply/matrixP => i j; rewrite !mxE !big_ord1 !mxE !ord1 !eqxx !mulr1n !big_ord1 !mxE !eqxx !mulr1n; toR; ring.
Qed.
Lemma apart_mixed : lme_hessian_beta_gamma apart_groups bt gm = Ok 0.
Proof. exact: (two_mixed apart_admissible apart_x0 apart_z0). Qed.
Lemma apart_residual : residual (one_obs 0%coqR 0%coqR 1%coqR 1%coqR) bt = 0.
Proof. by rewrite /residual /= (scalar0 1) mul0mx subr0. Qed.
Section TwoGamma.
Variables h k : group 1 1.
Hypothesis ha : admissible [:: h; k] gm.
Lemma two_hessian_gamma : g_z h = 0 -> residual k bt = 0 -> lme_hessian_gamma [:: h; k] LNone true false bt gm = Ok 0.
Proof.
  move=> h0 k0; rewrite /lme_hessian_gamma (recalculate_ok ha); cbn [rbind List.map]; congr Ok.
  rewrite sum2; cbn [prior_hessian_gamma]; rewrite addr0.
  have -> : group_hessian_gamma true false bt (fac gm h) = 0.
    apply/matrixP => i j; rewrite hessian_gamma_fac; last by apply: ha; left.
    rewrite /zc h0 /=; have -> l : col l (0 : 'M[R]_(g_n h, 1)) = 0 by apply/matrixP => k1 k2; rewrite !mxE.
    by rewrite /bf trmx0 !mul0mx /sc /= !mxE; toR; ring.
  have -> : group_hessian_gamma true false bt (fac gm k) = 0.
    apply/matrixP => i j; rewrite hessian_gamma_fac; last by apply: ha; right; left.
    by rewrite -[resid _ _]/(residual _ _) k0 /bf !mulmx0 /sc /= !mxE; toR; ring.
  by rewrite addr0 scaler0.
Qed.
End TwoGamma.
Lemma apart_hessian_gamma : lme_hessian_gamma apart_groups LNone true false bt gm = Ok 0.
Proof. exact: (two_hessian_gamma apart_admissible apart_z0 apart_residual). Qed.
Lemma apart_gradient_gamma : exists c, lme_gradient_gamma apart_groups LNone bt gm = Ok c.
Proof. by rewrite /lme_gradient_gamma (recalculate_ok apart_admissible); eexists. Qed.
Lemma apart_kernel h : (forall i, (0 < g_v h i ord0)%coqR) -> blup_kernel gm (h : group 1 1) \in unitmx.
Proof.
  move=> hv; apply: pd_unit; rewrite /blup_kernel; apply: pd_add.
    apply: pd_diagv => i; rewrite mxE; apply: Rinv_0_lt_compat; rewrite sel_tr.
    have := enum_valP i; rewrite inE => /rltbP; rewrite /gm mxE !ord1 eqxx mulr1n => h1.
    have := thr_pos; rewrite Rabs_pos_eq in h1; toR; lra.
  have h1 : psd (diagv (vinv (g_v h))).
    by apply: psd_diagv => i; rewrite mxE; have := Rinv_0_lt_compat _ (hv i); lra.
  by have := psd_congr ((g_z h *m select (re_mask gm))^T) h1; rewrite trmxK.
Qed.
Lemma apart_effects : exists u1 u2, lme_random_effects apart_groups bt gm = Ok [:: u1; u2].
Proof.
  rewrite /lme_random_effects (recalculate_ok apart_admissible); cbn [rbind List.map sequence apart_groups].
  rewrite /group_effects /np_solve !apart_kernel; try by move=> i; rewrite /= !ord1 !mxE eqxx mulr1n; toR; lra.
  by cbn [rbind]; eexists; eexists.
Qed.
End At.

(** ** the evaluations as the loop sees them *)
Section Calls.
Variables (cdf : R -> R) (practical : bool) (n : Z).
Let c := problem_calls cdf apart_problem None (Some (apart_settings practical n)).
Let l40 := {| lam_b := 40; lam_g := 40 |}.
Variables (b g : R).
Hypothesis hg : (0 <= g)%coqR.
Lemma apart_callsE : c = list_calls (Ok apart_groups) (Ok LNone) cdf (Some (apart_settings practical n)).
Proof. by rewrite /c /problem_calls apart_groupsE. Qed.
Lemma apart_calls_gradient_beta tb tg :
  sc_gradient_beta (lc_sr3 c) l40 [:: b] [:: g] [:: tb] [:: tg] = Ok [:: (b - 42 + 40 * (b - tb))%coqR].
Proof.
  rewrite apart_callsE; cbn [lc_sr3 list_calls list_sr3_calls sc_gradient_beta].
  rewrite /with_prior /at_params !sized_ok //; cbn [rbind]; rewrite !col_of1 /sr3_gradient_beta apart_gradient_beta //.
  cbn [rbind to_vec rmap lam_b]; rewrite vec_of1 !mxE eqxx !mulr1n; congr Ok.
Qed.
Lemma apart_calls_gradient_gamma tb tg :
  exists v, sc_gradient_gamma (lc_sr3 c) l40 [:: b] [:: g] [:: tb] [:: tg] = Ok [:: v].
Proof.
  rewrite apart_callsE; cbn [lc_sr3 list_calls list_sr3_calls sc_gradient_gamma].
  have [v e] := apart_gradient_gamma b hg.
  rewrite /with_prior /at_params !sized_ok //; cbn [rbind]; rewrite !col_of1 /sr3_gradient_gamma e.
  cbn [rbind to_vec rmap lam_b]; rewrite vec_of1; by eexists.
Qed.
Lemma apart_calls_hessian_beta : sc_hessian_beta (lc_sr3 c) l40 [:: b] [:: g] = Ok [:: [:: 41%coqR]].
Proof.
  rewrite apart_callsE; cbn [lc_sr3 list_calls list_sr3_calls sc_hessian_beta].
  rewrite /with_prior /at_params !sized_ok //; cbn [rbind]; rewrite !col_of1 /sr3_hessian_beta apart_hessian_beta //.
  cbn [rbind to_mat rmap lam_b]; rewrite mat_of1 !mxE eqxx !mulr1n; do 3 f_equal; rewrite /l40 /=; toR; ring.
Qed.
Lemma apart_calls_mixed : sc_hessian_beta_gamma (lc_sr3 c) [:: b] [:: g] = Ok [:: [:: 0%coqR]].
Proof.
  rewrite apart_callsE; cbn [lc_sr3 list_calls list_sr3_calls sc_hessian_beta_gamma].
  rewrite /with_prior /at_params !sized_ok //; cbn [rbind]; rewrite !col_of1 apart_mixed //.
  by cbn [rbind to_mat rmap]; rewrite mat_of1 !mxE.
Qed.
Lemma apart_calls_hessian_gamma : sc_hessian_gamma (lc_sr3 c) l40 [:: b] [:: g] = Ok [:: [:: 40%coqR]].
Proof.
  rewrite apart_callsE; cbn [lc_sr3 list_calls list_sr3_calls sc_hessian_gamma apart_settings ss_positive ss_expected].
  rewrite /with_prior /at_params !sized_ok //; cbn [rbind]; rewrite !col_of1 /sr3_hessian_gamma apart_hessian_gamma //.
  cbn [rbind to_mat rmap lam_g]; rewrite mat_of1 !mxE eqxx !mulr1n; do 3 f_equal; rewrite /l40 /=; toR; ring.
Qed.
Lemma apart_calls_effects : exists u1 u2, lc_random_effects c [:: b] [:: g] = Ok [:: [:: u1]; [:: u2]].
Proof.
  rewrite apart_callsE; cbn [lc_random_effects list_calls].
  have [u1 [u2 e]] := apart_effects b hg.
  rewrite /list_random_effects /at_params !sized_ok //; cbn [rbind]; rewrite !col_of1 e.
  by cbn [rmap List.map]; rewrite !vec_of1; eexists; eexists.
Qed.
End Calls.

(** the Newton system of one fixed and one decoupled random effect *)
Lemma apart_solve g v h f1 f2 f3 : (0 < g)%coqR -> (0 < v)%coqR -> (0 < h)%coqR ->
  exists dv dg, list_solve [:: [:: g; 0%coqR; v]; [:: 0%coqR; 41%coqR; 0%coqR]; [:: (-1)%coqR; 0%coqR; h]] [:: f1; f2; f3]
    = Ok [:: dv; (f2 / 41)%coqR; dg].
Proof.
  move=> hg hv hh; rewrite /list_solve /=.
  set D := (g * h + v)%coqR.
  have hD : (0 < D)%coqR by rewrite /D; have := Rmult_lt_0_compat _ _ hg hh; lra.
  set A := mx_of 3 3 _; set B := mx_of 3 3 [:: [:: (h / D)%coqR; 0%coqR; (- v / D)%coqR]; [:: 0%coqR; (/ 41)%coqR; 0%coqR]; [:: (/ D)%coqR; 0%coqR; (g / D)%coqR]].
  have BA : B *m A = 1%:M.
    apply/matrixP => i j; rewrite !mxE !big_ord_recl big_ord0 !mxE /=.
    have nD : D <> 0%coqR by lra.
    case: i => [[|[|[|//]]] ?]; case: j => [[|[|[|//]]] ?]; rewrite /= ?mulr1n ?mulr0n; toR; rewrite /D in nD *; field; exact: nD.
  have uA := (mulmx1_unit BA).2.
  rewrite /np_solve uA; cbn [rbind].
  have -> : invmx A = B by rewrite -[LHS]mul1mx -BA mulmxK.
  exists ((B *m col_of 3 [:: f1; f2; f3]) ord0 ord0), ((B *m col_of 3 [:: f1; f2; f3]) (inord 2) ord0); congr Ok.
  have h3 : size (vec_of (B *m col_of 3 [:: f1; f2; f3])) = 3%N by exact: length_vec_of.
  have N := @nth_vec_of 3 (B *m col_of 3 [:: f1; f2; f3]).
  case e: (vec_of _) h3 N => [|a0 [|a1 [|a2 [|a3 l]]]] // _ N.
  have N0 := N ord0 0%coqR; have N1 := N (inord 1) 0%coqR; have N2 := N (inord 2) 0%coqR.
  rewrite !inordK // in N1 N2; move: N0 N1 N2 => /= -> -> ->.
  congr [:: _; _; _].
  by rewrite !mxE !big_ord_recl big_ord0 !mxE inordK //=; toR; field.
Qed.
