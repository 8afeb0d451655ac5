(*HEAD
(** Properties C72, C74-C76: what is reported about a fitted mixed model (src/pysr3/lme/models.py). *)
From Verif.Base Require Import Py Vec Mat RMx.
From Verif.Model Require Import LmeProblem Regularizers Solvers LmeInner LmeFit.
From Verif.Spec Require Import LmeSpec FitSpec.
From mathcomp Require Import ssreflect ssrfun ssrbool eqtype ssrnat choice seq fintype
  finfun bigop finset ssralg matrix mxalgebra.
From Verif.Model Require Import LmeOracle LmeBridge.
From Verif.Spec Require Import MxSpec.
HEAD*)
From Verif.Base Require Import Py Vec Mat RMx.
From Verif.Model Require Import LmeProblem Regularizers Solvers LmeInner LmeFit.
From Verif.Spec Require Import LmeSpec FitSpec.
From Verif.Proofs Require Import LmeProblemProofs LmeProblemMain LmeDataMain LmeInnerMain FitProofs ReportProofs.
From Coq Require Import Lra.
From mathcomp Require Import ssreflect ssrfun ssrbool eqtype ssrnat choice seq fintype
  finfun bigop finset ssralg zmodp matrix mxalgebra.
From Verif.Model Require Import LmeOracle LmeBridge.
From Verif.Spec Require Import MxSpec.
From Verif.Proofs Require Import MxFacts LmeOracleProofs LmeEstimates LmeBlup LmeCriteria LmeOracleMain LmeEstimateMain
  BridgeProofs LmeFitMain.
(*OPEN
Set Implicit Arguments.
Unset Strict Implicit.
Unset Printing Implicit Defensive.
Delimit Scope R_scope with coqR.
Local Open Scope ring_scope.
OPEN*)
Set Implicit Arguments.
Unset Strict Implicit.
Unset Printing Implicit Defensive.
Delimit Scope R_scope with coqR.
Import GRing.Theory.
Local Open Scope ring_scope.

(** ** C72 *)
Lemma list_effects_inv p q gs b g us : list_random_effects gs b g = Ok us ->
  exists gs', gs = Ok gs' /\ length b = p /\ length g = q /\
  exists vs, lme_random_effects gs' (col_of p b) (col_of q g) = Ok vs /\ us = List.map (@vec_of q) vs.
Proof.
  rewrite /list_random_effects /at_params.
  case: gs => [gs'|e] //=; case e1: (sized p b) => [c|] //=; case e2: (sized q g) => [d|] //=.
  case: (sized_inv e1) => hb ->; case: (sized_inv e2) => hg ->.
  case e3: (lme_random_effects _ _ _) => [vs|] //= [<-].
  by exists gs'; split=> //; split=> //; split=> //; exists vs.
Qed.

(*@ C72.  A successful fit stores, for every group, the best prediction of its random effects at the stored
    parameters - provided that the stored variances are 0 or above the threshold 1e-10 and the observation variances
    are positive - together with the group labels of the problem and the per-group coefficients made of them. *)
Lemma fitted_effects_are_blup_lemma :
  forall argsort cdf m coef pr beta0 gamma0 warm fe re co lg,
  lme_fit_problem argsort cdf m coef pr beta0 gamma0 warm fe re = Ok (co, lg) ->
  let p := num_fixed pr in
  let q := num_random pr in
  let beta := col_of p (co_beta co) in
  let gamma := col_of q (co_gamma co) in
  length (co_beta co) = p /\ length (co_gamma co) = q /\ co_labels co = pr_group_labels pr /\
  per_group_coefficients (co_beta co) (co_effects co) (pr_intercept pr :: List.map Some (pr_labels pr)) = Ok (co_per_group co) /\
  exists gs, groups_of p q pr = Ok gs /\
    (blup_variances gamma -> positive_variances gs ->
     co_effects co = List.map (fun g => vec_of (blup beta gamma g)) gs).
Proof.
  move=> argsort cdf m coef pr beta0 gamma0 warm fe re co lg H p q beta gamma.
  destruct (fit_problem_inv _ _ _ _ _ _ _ _ _ _ _ _ _ H) as
    (ov & g & wf & wr & r0 & r & bg0 & b1 & g1 & lg0 & x & lg1 & _ & _ & _ & _ & _ & _ & _ & _ & _ & _ & Hu & Hp & Hl & _).
  have [gs [eg [hb [hg [vs [ev eu]]]]]] := list_effects_inv Hu.
  do 4 (split; first by []).
  exists gs; split=> // hv hp.
  have [e _] := random_effects_are_blup_lemma beta hv hp.
  rewrite /beta /gamma in e; rewrite ev in e; case: e => e.
  by rewrite eu e List.map_map.
Qed.

(** ** problems made of tables *)
Lemma group_of_ok p q x y z v : group_of p q (x, Some y, z, v) =
  Ok (@Group p q (length x) (mx_of (length x) p x) (col_of (length x) y) (mx_of (length x) q z) (col_of (length x) v)).
Proof. by []. Qed.
Lemma sequence_all (A B : Type) (f : A -> res B) l : (forall a, List.In a l -> exists b, f a = Ok b) ->
  exists bs, sequence (List.map f l) = Ok bs.
Proof.
  elim: l => [|a l IH] h /=; first by exists [::].
  have [b ->] := h a (or_introl erefl); cbn [rbind].
  have [|bs ->] := IH; first by move=> a' h'; apply: h; right.
  by eexists.
Qed.
Lemma sequence_in (A B : Type) (f : A -> res B) l bs b : sequence (List.map f l) = Ok bs -> List.In b bs ->
  exists a, List.In a l /\ f a = Ok b.
Proof.
  elim: l bs => [|a l IH] bs /=; first by case=> <-.
  case e: (f a) => [b'|] //=; case e': (sequence _) => [bs'|] //= [<-] [<-|h].
    by exists a; split=> //; left.
  by have [a' [h1 h2]] := IH _ e' h; exists a'; split=> //; right.
Qed.
Lemma groups_of_ok p q pr ys : pr_random_0d pr = false -> pr_answers pr = Some ys -> exists gs, groups_of p q pr = Ok gs.
Proof.
  move=> h0 hy; rewrite /groups_of h0 /=; apply: sequence_all => j _.
  by rewrite /group_at hy /=; eexists.
Qed.
Lemma groups_of_positive p q pr gs : groups_of p q pr = Ok gs ->
  (forall j i, (i < length (List.nth j (pr_fixed pr) [::]))%coq_nat ->
     (0 < List.nth i (List.nth j (pr_obs_vars pr) [::]) 0)%coqR) ->
  positive_variances gs.
Proof.
  rewrite /groups_of; case: (guard _ _) => //= _ e h g hin.
  have [j [_]] := sequence_in e hin; rewrite /group_at /group_of.
  case: (option_map _ _) => [y|] // [<-] /= i; rewrite mxE; apply: h.
  exact/ltP/ltn_ord.
Qed.

(** ** C74 *)
Lemma criterion_run cdf m co x y labels ic pr gs :
  from_x_y x (Some y) None labels false false None None = Ok pr ->
  groups_of (num_fixed pr) (num_random pr) pr = Ok gs ->
  length (co_beta co) = num_fixed pr -> length (co_gamma co) = num_random pr ->
  let beta := col_of (num_fixed pr) (co_beta co) in
  let gamma := col_of (num_random pr) (co_gamma co) in
  get_information_criterion cdf m (Some co) x y labels ic =
  if String.eqb ic "muller_ic" then lme_muller_ic gs LNone 0%coqR beta gamma
  else if String.eqb ic "vaida_aic" then lme_vaida_aic gs LNone 0%coqR false beta gamma
  else if String.eqb ic "jones_bic" then lme_jones_bic gs LNone 0%coqR beta gamma
  else Err ValueError.
Proof.
  move=> hpr hgs hb hg beta gamma.
  have [ov hov] : exists ov, oracle_view_of pr = Ok ov.
    by rewrite /oracle_view_of; have [mp [-> _]] := index_map_pairs_lemma pr; eexists.
  rewrite /get_information_criterion hpr; cbn [rbind]; rewrite hov; cbn [rbind].
  rewrite /problem_calls hgs; case: (mo_sr3 m) => [ss|]; cbn [list_calls lc_muller lc_vaida lc_jones];
  rewrite /with_prior /at_params; cbn [rbind prior_mx]; rewrite (sized_ok hb) (sized_ok hg); cbn [rbind] => //.
Qed.

(*@ C74 (partial).  For a table with positive variances and fitted parameters of matching sizes with non-negative
    variances, the value is the formula of the criterion at the fitted parameters with all p coefficients and
    all q variances counted, for plain and SR3 models alike.  Before fit it is NotFittedError, and
    an unknown name is a ValueError. *)
Lemma criterion_formula_partial_lemma :
  (forall cdf m x y labels ic, get_information_criterion cdf m None x y labels ic = Err NotFittedError) /\
  forall cdf m co x y labels pr,
  from_x_y x (Some y) None labels false false None None = Ok pr ->
  exists gs, groups_of (num_fixed pr) (num_random pr) pr = Ok gs /\
  (length (co_beta co) = num_fixed pr -> length (co_gamma co) = num_random pr ->
   let beta := col_of (num_fixed pr) (co_beta co) in
   let gamma := col_of (num_random pr) (co_gamma co) in
   let crit := get_information_criterion cdf m (Some co) x y labels in
   (forall ic, ic <> "muller_ic"%string -> ic <> "vaida_aic"%string -> ic <> "jones_bic"%string -> crit ic = Err ValueError) /\
   (positive_variances gs -> nonnegative gamma ->
    let L := \sum_(g <- gs) nll beta gamma g in
    let N := INR (total_obs gs) in
    let P := INR (num_fixed pr) in
    let Q := INR (num_random pr) in
    crit "muller_ic"%string = Ok (2 / N * L + 1 / N * ln (INR (size gs)) * P + 2 / N * Q)%coqR /\
    crit "jones_bic"%string = Ok (2 * L + (P + Q) * ln (effective_obs gs gamma))%coqR)).
Proof.
  split=> [//|cdf m co x y labels pr hpr].
  have [h0 [[ys hy] _]] := from_x_y_shape _ _ _ _ _ _ _ _ _ hpr.
  have [gs hgs] := groups_of_ok (num_fixed pr) (num_random pr) h0 hy.
  exists gs; split=> // hb hg beta gamma crit; split.
    move=> ic n1 n2 n3; rewrite /crit (criterion_run _ _ _ hpr hgs hb hg).
    by move/String.eqb_neq: n1 => ->; move/String.eqb_neq: n2 => ->; move/String.eqb_neq: n3 => ->.
  move=> hv hn L N P Q.
  have ha : admissible gs gamma by exact: admissible_nonneg.
  rewrite /crit !(criterion_run _ _ _ hpr hgs hb hg) /=; split.
    by rewrite /lme_muller_ic (lme_loss_ok _ _ ha) !count_zero /= Rplus_0_r.
  by rewrite /lme_jones_bic (recalculate_ok ha) (lme_loss_ok _ _ ha); cbn [rbind];
     rewrite (n_eff_ok ha); cbn [rbind]; rewrite !count_zero plus_INR /= Rplus_0_r.
Qed.

(*@ C74 (refuted).  A model in which every coefficient and every variance is zero is charged for all of them: for the
    sample table with two coefficients and one variance, Jones' criterion is 2 L + 3 ln n instead of 2 L. *)
Lemma criterion_counts_zeros_refuted_lemma :
  forall cdf m co, co_beta co = zeros 2 -> co_gamma co = zeros 1 ->
  exists pr gs,
    from_x_y sample_table (Some [:: 10; 20]%coqR) None (Some sample_labels) false false None None = Ok pr /\
    groups_of (num_fixed pr) (num_random pr) pr = Ok gs /\
    get_information_criterion cdf m (Some co) sample_table [:: 10; 20]%coqR (Some sample_labels) "jones_bic" =
    Ok (2 * (\sum_(g <- gs) nll 0 0 g) + 3 * ln (INR (total_obs gs)))%coqR.
Proof.
  move=> cdf m co eb eg.
  have [pr hpr] : exists pr, from_x_y sample_table (Some [:: 10; 20]%coqR) None (Some sample_labels) false false None None = Ok pr.
    by apply: sample_accepted => //; left.
  have [_ [_ [ep eq]]] := from_x_y_shape _ _ _ _ _ _ _ _ _ hpr.
  have [_ H] := criterion_formula_partial_lemma.
  have [gs [hgs h0]] := H cdf m co _ _ _ _ hpr.
  have [||_ h] := h0; [by rewrite eb ep | by rewrite eg eq |].
  exists pr, gs; split=> //; split=> //.
  have pv : positive_variances gs.
    apply: (groups_of_positive hgs) => j i hi.
    have [v [ev h']] := from_x_y_vars _ _ _ _ _ _ _ _ _ hpr.
    have [row [hr ->]] := h' j i hi; case: ev => <-.
    by case: hr => [<-|[<-|[]]] /=; lra.
  have z n k : col_of n (zeros k) = 0 by apply/matrixP => i j; rewrite !mxE nth_zeros.
  have [|_ ->] := h pv; first by rewrite eg z => j; rewrite mxE; toR; lra.
  rewrite eb eg !z.
  have -> : (INR (num_fixed pr) + INR (num_random pr) = 3)%coqR by rewrite ep eq /=; lra.
  have ha : admissible gs 0 by apply: admissible_nonneg => // j; rewrite mxE; toR; lra.
  by have [_ [_ e]] := effective_observations_lemma ha; rewrite e.
Qed.

(*@ C74 (refuted).  After a fit with an intercept, get_information_criterion on the training table always raises. *)
Lemma criterion_with_intercept_refuted_lemma :
  forall argsort cdf m coef x y labels beta0 gamma0 warm ff fr fe re co lg ic v,
  lme_fit argsort cdf m coef x y labels beta0 gamma0 warm ff fr fe re = Ok (co, lg) ->
  ff || fr -> get_information_criterion cdf m (Some co) x y labels ic <> Ok v.
Proof.
  move=> argsort cdf m coef x y labels beta0 gamma0 warm ff fr fe re co lg ic v.
  rewrite /lme_fit /fit; case: (check_X_y _ _) => //= _.
  case e: (from_x_y _ _ _ _ ff fr _ _) => [pr|] //= hf hi.
  have [lb [lg' _]] := fitted_effects_are_blup_lemma hf.
  have [_ [_ [ep eq]]] := from_x_y_shape _ _ _ _ _ _ _ _ _ e.
  rewrite /get_information_criterion; case e': (from_x_y _ _ _ _ false false _ _) => [pr'|] //=.
  have [_ [_ [ep' eq']]] := from_x_y_shape _ _ _ _ _ _ _ _ _ e'.
  case: (oracle_view_of pr') => //= _.
  have bad (A : Type) (k : _ -> _ -> _ -> _ -> res A) : forall r, with_prior (groups_of (num_fixed pr') (num_random pr') pr')
    (prior_mx (num_fixed pr') (num_random pr') None) (co_beta co) (co_gamma co) k <> Ok r.
    move=> r; rewrite /with_prior /at_params; case: (groups_of _ _ _) => //= gs.
    case e1: (sized _ _) => [b|] //=; case e2: (sized _ _) => [g|] //= _.
    have [h1 _] := sized_inv e1; have [h2 _] := sized_inv e2.
    move: hi; rewrite lb ep ep' in h1; rewrite lg' eq eq' in h2.
    by case: (ff) h1; case: (fr) h2 => /= h2 h1 //; lia.
  case: (mo_sr3 m) => [ss|]; cbn [list_calls lc_muller lc_vaida lc_jones];
  by do 3 (case: (String.eqb _ _); first exact: bad).
Qed.

(*@ a fit to which the theorem on the stored effects applies *)
Lemma ex_fitted_effects_lemma : exists co lg gs,
  lme_fit_problem (fun _ => [::]) (fun x => x) (flat_model PenNone None 0 0%coqR) None
    (flat_problem 1 1) None None false None None = Ok (co, lg) /\
  groups_of 1 1 (flat_problem 1 1) = Ok gs /\ positive_variances gs /\ blup_variances (col_of 1 (co_gamma co)).
Proof.
  have [_ [co [lg [h e]]]] := ex_fitted_variances_lemma.
  exists co, lg, [:: flat_group 1 1]; split=> //; split; first exact: flat_groups.
  split; first by move=> g [<-|[]] i; rewrite mxE; toR; lra.
  move=> j; right; rewrite e !ord1 mxE.
  have -> : List.nth (ord0 : 'I_1) [:: 1%coqR] 0%coqR = 1%coqR by [].
  apply: (Rmult_lt_reg_r (10 ^ 10)%coqR); first by apply: pow_lt; lra.
  rewrite /Rdiv Rmult_assoc Rinv_l; last by apply: pow_nonzero; lra.
  by rewrite !Rmult_1_l; apply: (Rlt_pow_R1 10 10); [lra | exact/ltP].
Qed.

(** ** C75 *)
(*@ C75 (refuted).  A problem generated without random effects cannot be fitted by any model: generate leaves
    zero-dimensional arrays for the random features, and the prediction of random effects fails on them. *)
Lemma generated_without_random_effects_refuted_lemma :
  forall xname sizes labels ff ov beta gamma effects features draws pr coefs,
  generate xname sizes labels ff false ov beta gamma effects features draws = Ok (pr, coefs) ->
  sizes <> [::] -> where_ is_random labels = [::] ->
  forall argsort cdf m coef beta0 gamma0 warm fe re r,
  lme_fit_problem argsort cdf m coef pr beta0 gamma0 warm fe re <> Ok r.
Proof.
  move=> xname sizes labels ff ov beta gamma effects features draws pr coefs hg _ hl.
  move=> argsort cdf m coef beta0 gamma0 warm fe re [co lg] h.
  have [_ [_ [_ [_ [gs [e _]]]]]] := fitted_effects_are_blup_lemma h.
  move: e; rewrite /groups_of.
  suff -> : pr_random_0d pr = true by [].
  have [gs' [_ [_ [_ [_ [-> _]]]]]] := generate_inv _ _ _ _ _ _ _ _ _ _ _ _ _ hg.
  by rewrite hl.
Qed.

(*@ non-vacuous: a problem generated without random effects *)
Lemma ex_generated_without_random_effects_lemma : exists pr coefs,
  generate (fun _ => "x"%string) [:: 1%N] [:: "fixed"%string] false false (VScalar 1%coqR) [:: 2%coqR] [::] [::]
    [:: [:: 3%coqR]] [:: ([:: [:: 1%coqR]], [::], [:: 0%coqR])] = Ok (pr, coefs) /\
  where_ is_random [:: "fixed"%string] = [::].
Proof. by eexists; eexists; split; vm_compute. Qed.

(*@ C75 (partial).  Problems made of tables do not have the defect: with positive observation variances the loss and
    the gradients can be evaluated at all parameters of the right sizes with non-negative variances, with and
    without random effects, and the random effects at all variances that are 0 or above 1e-10. *)
Lemma table_problems_evaluate_partial_lemma :
  forall x y given labels ff fr re rr pr,
  from_x_y x (Some y) given labels ff fr re rr = Ok pr ->
  let p := num_fixed pr in
  let q := num_random pr in
  exists gs, groups_of p q pr = Ok gs /\
  (positive_variances gs -> forall cdf ss beta gamma,
   length beta = p -> length gamma = q -> nonnegative (col_of q gamma) ->
   let c := problem_calls cdf pr None ss in
   (exists v, lc_loss c beta gamma = Ok v) /\
   (exists v, lc_gradient_beta c beta gamma = Ok v) /\
   (exists v, lc_gradient_gamma c beta gamma = Ok v) /\
   (blup_variances (col_of q gamma) -> exists us, lc_random_effects c beta gamma = Ok us)).
Proof.
  move=> x y given labels ff fr re rr pr hpr p q.
  have [h0 [[ys hy] _]] := from_x_y_shape _ _ _ _ _ _ _ _ _ hpr.
  have [gs hgs] := groups_of_ok p q h0 hy.
  exists gs; split=> // hv cdf ss beta gamma hb hg hn.
  have ha : admissible gs (col_of q gamma) by exact: admissible_nonneg.
  rewrite /problem_calls hgs; cbn [list_calls lc_loss lc_gradient_beta lc_gradient_gamma lc_random_effects].
  rewrite /list_loss /list_gradient_beta /list_gradient_gamma /list_random_effects /with_prior /at_params.
  cbn [rbind prior_mx]; rewrite (sized_ok hb) (sized_ok hg); cbn [rbind].
  rewrite (lme_loss_ok _ _ ha) /lme_gradient_beta /lme_gradient_gamma (recalculate_ok ha); cbn [rbind].
  split; first by eexists.
  split; first by eexists.
  split; first by eexists.
  by move=> hbl; rewrite (random_effects_ok hbl hv); eexists.
Qed.

(** ** C76 *)
Lemma pd_scalar n (c : R) : (0 < c)%coqR -> pd (c%:M : 'M[R]_n).
Proof.
  move=> h; have -> : (c%:M : 'M[R]_n) = diagv (const_mx c) by rewrite /diagv trmx_const diag_const_mx.
  by apply: pd_diagv => i; rewrite mxE.
Qed.
Lemma pd_congr_unit n (A B : 'M[R]_n) : pd A -> B \in unitmx -> pd (B *m A *m B^T).
Proof.
  move=> hA uB; have [s h] := hA; have [sc' _] := psd_congr B (pd_psd hA); split=> // x hx.
  have -> : qf (B *m A *m B^T) x = qf A (B^T *m x) by rewrite /qf trmx_mul trmxK !mulmxA.
  apply: h => e; apply: hx.
  by rewrite -(mulKmx (_ : B^T \in unitmx) x) ?unitmx_tr // e mulmx0.
Qed.
Lemma shifted_inverse n (A : 'M[R]_n) (lam : R) : pd A -> (0 < lam)%coqR ->
  A + lam *: 1%:M \in unitmx /\ pd (invmx (A + lam *: 1%:M)) /\
  forall j, (invmx (A + lam *: 1%:M) j j < invmx A j j)%coqR.
Proof.
  move=> hA hl; rewrite scalemx1.
  have hB : pd (A + lam%:M) by apply: pd_add => //; apply: pd_psd; exact: pd_scalar.
  have uA := pd_unit hA; have uB := pd_unit hB; have pB := pd_inv hB.
  split=> //; split=> // j.
  have hM : pd (lam%:M + lam ^+ 2 *: invmx A).
    apply: pd_add; first exact: pd_scalar.
    have -> : lam ^+ 2 *: invmx A = lam%:M *m invmx A *m (lam%:M)^T.
      by rewrite tr_scalar_mx -mulmxA mul_mx_scalar mul_scalar_mx scalerA expr2.
    by apply: psd_congr; apply: pd_psd; exact: pd_inv.
  have uI : invmx (A + lam%:M) \in unitmx by rewrite unitmx_inv.
  have := pd_diag j (pd_congr_unit hM uI); rewrite pB.1.
  have -> : invmx (A + lam%:M) *m (lam%:M + lam ^+ 2 *: invmx A) *m invmx (A + lam%:M) = invmx A - invmx (A + lam%:M).
    have e : lam%:M + lam ^+ 2 *: invmx A = (A + lam%:M) *m invmx A *m (A + lam%:M) - (A + lam%:M).
      rewrite [in (A + lam%:M) *m invmx A]mulmxDl mulmxV // mulmxDl mul1mx mul_scalar_mx mulmxDr.
      by rewrite -!scalemxAl mulVmx // mul_mx_scalar scalerA scalemx1 expr2 (addrC (A + _)) addrK.
    by rewrite e mulmxBr mulmxBl !mulmxA mulVmx // !mul1mx -!mulmxA mulmxV // mulmx1.
  move: (invmx A) (invmx (A + _)) => X Y; rewrite !mxE.
  by move: (X j j : R) (Y j j : R) => a b; toR; lra.
Qed.

Lemma flips_run p (cdf : R -> R) (beta : 'cV[R]_p) (cov : 'M[R]_p) :
  (forall x, cdf (- x)%coqR = (1 - cdf x)%coqR) -> pd cov ->
  sequence (List.map (fun j =>
    let m := beta j ord0 in
    let sd := sqrt (cov j j) in
    if rltb 0 m then rbind (guard (nonzero sd) NotFinite) (fun _ => Ok (cdf ((0 - m) / sd))%coqR)
    else if rltb m 0 then rbind (guard (nonzero sd) NotFinite) (fun _ => Ok (1 - cdf ((0 - m) / sd))%coqR)
    else Ok (/ 2)%coqR) (enum 'I_p)) =
  Ok (List.map (fun j => cdf (- (Rabs (beta j ord0) / sqrt (cov j j)))%coqR) (enum 'I_p)).
Proof.
  move=> sym pI.
  have sp j : (0 < sqrt (cov j j))%coqR by apply: sqrt_lt_R0; exact: pd_diag.
  have half : cdf 0%coqR = (/ 2)%coqR by have := sym 0%coqR; rewrite Ropp_0; lra.
  apply: sequence_map_In => j _; cbv zeta beta.
  have nz : nonzero (sqrt (cov j j)).
    by rewrite /nonzero /reqb; case: Req_EM_T => // e; have := sp j; rewrite e; lra.
  move: nz (sp j); move: (sqrt _) (beta j ord0) => sd m nz sj; rewrite nz /=.
  have gen (a : R) : ((0 - a) / sd = - (a / sd))%coqR by rewrite /Rdiv; ring.
  case: rltbP => hm /=.
    by rewrite Rabs_pos_eq; [rewrite gen | exact: Rlt_le].
  case: rltbP => hm' /=.
    rewrite Rabs_left // gen sym.
    have -> : (- (- m / sd) = m / sd)%coqR by rewrite /Rdiv; ring.
    by congr Ok; ring.
  have -> : m = 0%coqR by lra.
  by rewrite Rabs_R0 /Rdiv Rmult_0_l Ropp_0 half.
Qed.

(*@ C76 (partial).  The sign-flip probabilities reported by an SR3 model are those of the likelihood plus the
    relaxation lambda/2 |beta - w|^2: cdf (- |beta_j| / sd_j) with sd_j^2 the j-th diagonal entry of
    (H + lambda I)^-1, between 0 and 1/2.  They never exceed the probabilities of the likelihood. *)
Lemma sr3_flip_probabilities_partial_lemma :
  forall (p q : nat) (gs : seq (group p q)) (pr : lme_prior p q) (cdf : R -> R) (beta : 'cV[R]_p) gamma (h : 'M[R]_p) lam,
  (forall x y, (x <= y)%coqR -> (cdf x <= cdf y)%coqR) -> (forall x, (0 <= cdf x)%coqR) ->
  (forall x, cdf (- x)%coqR = (1 - cdf x)%coqR) ->
  admissible gs gamma -> convex_prior pr -> (0 < lam)%coqR ->
  lme_hessian_beta gs pr gamma = Ok h -> h \in unitmx ->
  let relaxed j := cdf (- (Rabs (beta j ord0) / sqrt (invmx (h + lam%:M) j j)))%coqR in
  sr3_flip_probabilities cdf lam gs pr beta gamma = Ok (List.map relaxed (enum 'I_p)) /\
  exists flips, lme_flip_probabilities cdf gs pr beta gamma = Ok (List.map flips (enum 'I_p)) /\
  forall j, (0 <= relaxed j <= flips j)%coqR /\ (flips j <= / 2)%coqR.
Proof.
  move=> p q gs pr cdf beta gamma h lam mono pos sym ha hp hl eh u relaxed.
  have [e1 b1] := flip_probabilities_lemma beta mono pos sym ha hp eh u.
  have hh : pd h.
    by apply: psd_unit_pd => //; have [H' [e' h']] := hessian_beta_psd ha hp; move: e'; rewrite eh => -[->].
  have [uB [pB lt]] := shifted_inverse hh hl.
  rewrite scalemx1 in uB pB lt.
  split.
    rewrite /sr3_flip_probabilities /sr3_hessian_beta eh; cbn [rbind].
    by rewrite scalemx1 /np_inv uB; cbn [rbind]; exact: flips_run.
  eexists; split; first exact: e1.
  move=> j; have [_ [_ b2]] := b1 j; split=> //; split; first exact: pos.
  apply: mono; apply: Ropp_le_contravar; apply: Rmult_le_compat_l; first exact: Rabs_pos.
  apply: Rinv_le_contravar; first by apply: sqrt_lt_R0; exact: pd_diag.
  by apply: sqrt_le_1_alt; apply: Rlt_le; exact: lt.
Qed.

(*@ C76 (refuted).  Under a strictly increasing distribution function they are strictly smaller than those of the likelihood
    at every coordinate with a nonzero coefficient, for every strength of the relaxation: uncertain signs are reported as certain. *)
Lemma sr3_flip_probabilities_refuted_lemma :
  forall (p q : nat) (gs : seq (group p q)) (pr : lme_prior p q) (cdf : R -> R) (beta : 'cV[R]_p) gamma (h : 'M[R]_p) lam,
  (forall x y, (x < y)%coqR -> (cdf x < cdf y)%coqR) -> (forall x, (0 <= cdf x)%coqR) ->
  (forall x, cdf (- x)%coqR = (1 - cdf x)%coqR) ->
  admissible gs gamma -> convex_prior pr -> (0 < lam)%coqR ->
  lme_hessian_beta gs pr gamma = Ok h -> h \in unitmx ->
  exists flips relaxed,
    lme_flip_probabilities cdf gs pr beta gamma = Ok (List.map flips (enum 'I_p)) /\
    sr3_flip_probabilities cdf lam gs pr beta gamma = Ok (List.map relaxed (enum 'I_p)) /\
    forall j, beta j ord0 <> 0%coqR -> (relaxed j < flips j)%coqR.
Proof.
  move=> p q gs pr cdf beta gamma h lam mono pos sym ha hp hl eh u.
  have mono' x y : (x <= y)%coqR -> (cdf x <= cdf y)%coqR.
    by case=> [/mono|->]; [exact: Rlt_le | exact: Rle_refl].
  have [e1 b1] := flip_probabilities_lemma beta mono' pos sym ha hp eh u.
  have [e2 _] := sr3_flip_probabilities_partial_lemma beta mono' pos sym ha hp hl eh u.
  have hh : pd h.
    by apply: psd_unit_pd => //; have [H' [e' h']] := hessian_beta_psd ha hp; move: e'; rewrite eh => -[->].
  have [uB [pB lt]] := shifted_inverse hh hl.
  rewrite scalemx1 in uB pB lt.
  do 2 eexists; split; first exact: e1.
  split; first exact: e2.
  move=> j hj; apply: mono; apply: Ropp_lt_contravar; apply: Rmult_lt_compat_l; first exact: Rabs_pos_lt.
  have h1 : (0 < invmx (h + lam%:M) j j)%coqR by exact: pd_diag.
  have h2 := lt j.
  apply: Rinv_lt_contravar; last by apply: sqrt_lt_1_alt; lra.
  by apply: Rmult_lt_0_compat; apply: sqrt_lt_R0; lra.
Qed.

(*@ non-vacuous: one observation with Omega = 2, coefficient 1 and relaxation 1/2 *)
Lemma ex_sr3_flip_probabilities_lemma :
  admissible [:: one_obs 1 3 1 1] (1%:M : 'cV[R]_1) /\ convex_prior (LNone : lme_prior 1 1) /\
  exists h, lme_hessian_beta [:: one_obs 1 3 1 1] LNone (1%:M : 'cV[R]_1) = Ok h /\ h \in unitmx /\
  exists cdf : R -> R, (forall x y, (x < y)%coqR -> (cdf x < cdf y)%coqR) /\ (forall x, (0 <= cdf x)%coqR) /\
    (forall x, cdf (- x)%coqR = (1 - cdf x)%coqR).
Proof.
  have [hb [hv hu]] := ex_hat_matrix_fits_lemma.
  have ha := adm hb hv.
  split=> //; split=> //.
  have e : lme_hessian_beta [:: one_obs 1 3 1 1] LNone (1%:M : 'cV[R]_1) = Ok (normal_matrix [:: one_obs 1 3 1 1] 1%:M).
    rewrite /lme_hessian_beta recalculate_ok //=; congr Ok; rewrite addr0 /normal_matrix !big_cons !big_nil !addr0.
    by rewrite kernel_fac //; apply: ha; left.
  eexists; split; first exact: e.
  split=> //.
  have hp := PI_RGT_0; have hi := Rinv_0_lt_compat _ hp.
  exists (fun x => / 2 + atan x * / PI)%coqR; split; last split.
  - move=> x y h; apply: Rplus_lt_compat_l; apply: Rmult_lt_compat_r => //.
    exact: atan_increasing.
  - move=> x; have [h _] := atan_bound x.
    have : (- PI / 2 * / PI <= atan x * / PI)%coqR.
      by apply: Rmult_le_compat_r; apply: Rlt_le.
    have -> : (- PI / 2 * / PI = - / 2)%coqR by field; lra.
    lra.
  - by move=> x; rewrite atan_opp; field; lra.
Qed.
