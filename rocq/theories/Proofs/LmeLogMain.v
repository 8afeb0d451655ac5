(*HEAD
(** Properties C84, C85: the information criteria a fit writes into its log (src/pysr3/lme/models.py). *)
From Verif.Base Require Import Py Vec Mat RMx.
From Verif.Model Require Import LmeProblem Regularizers Solvers LmeInner LmeFit.
From Verif.Spec Require Import LmeSpec FitSpec LogSpec.
From mathcomp Require Import ssreflect ssrfun ssrbool eqtype ssrnat choice seq fintype
  finfun bigop finset ssralg matrix mxalgebra.
From Verif.Model Require Import LmeOracle LmeBridge.
From Verif.Spec Require Import MxSpec.
HEAD*)
From Verif.Base Require Import Py Vec Mat RMx.
From Verif.Model Require Import LmeProblem Regularizers Solvers LmeInner LmeFit.
From Verif.Spec Require Import LmeSpec FitSpec LogSpec.
From Verif.Proofs Require Import LmeProblemProofs LmeProblemMain LmeDataMain LmeInnerMain FitProofs ReportProofs LogProofs.
From Coq Require Import Lra.
From mathcomp Require Import ssreflect ssrfun ssrbool eqtype ssrnat choice seq fintype
  finfun bigop finset ssralg zmodp matrix mxalgebra.
From Verif.Model Require Import LmeOracle LmeBridge.
From Verif.Spec Require Import MxSpec.
From Verif.Proofs Require Import MxFacts LmeOracleProofs LmeEstimates LmeBlup LmeCriteria LmeOracleMain LmeEstimateMain
  BridgeProofs LmeFitMain LmeReportMain LmeUseMain.
(*OPEN
Set Implicit Arguments.
Unset Strict Implicit.
Unset Printing Implicit Defensive.
Delimit Scope R_scope with coqR.
Local Open Scope ring_scope.
OPEN*)
Set Implicit Arguments.
Unset Strict Implicit.
Unset Printing Implicit Defensive.
Delimit Scope R_scope with coqR.
Import GRing.Theory.
Local Open Scope ring_scope.

Lemma with_prior_inv p q (gs : res (seq (group p q))) pri (A : Type) b g (k : seq (group p q) -> lme_prior p q -> 'cV[R]_p -> 'cV[R]_q -> res A) v gs' :
  gs = Ok gs' -> with_prior gs pri b g k = Ok v -> exists pri', pri = Ok pri' /\ k gs' pri' (col_of p b) (col_of q g) = Ok v.
Proof.
  rewrite /with_prior /at_params => ->; cbn [rbind].
  case e1: (sized p b) => [c|] //=; case e2: (sized q g) => [d|] //=.
  case: (sized_inv e1) => hb ->; case: (sized_inv e2) => hg ->.
  by case: pri => [pri'|] //= h; exists pri'.
Qed.

(** ** C84 *)
Lemma logged_criteria_at :
  forall argsort cdf m coef pr beta0 gamma0 warm fe re co lg,
  lme_fit_problem argsort cdf m coef pr beta0 gamma0 warm fe re = Ok (co, lg) ->
  let p := num_fixed pr in
  let q := num_random pr in
  let beta := col_of p (co_beta co) in
  let gamma := col_of q (co_gamma co) in
  let tol := sqrt (solver_tol m) in
  exists g gs, prior_of m pr = Ok g /\ groups_of p q pr = Ok gs /\
  let written k (f : lme_prior p q -> res R) := asked m k ->
    exists pri v, prior_mx p q g = Ok pri /\ (0 <= solver_tol m)%coqR /\ f pri = Ok v /\ logs_number lg k v in
  written "vaida_aic"%string (fun pri => lme_vaida_aic gs pri tol false beta gamma) /\
  written "vaida_aic_marginalized"%string (fun pri => lme_vaida_aic gs pri tol true beta gamma) /\
  written "jones_bic"%string (fun pri => lme_jones_bic gs pri tol beta gamma) /\
  written "muller_ic"%string (fun pri => lme_muller_ic gs pri tol beta gamma) /\
  (asked m "flip_probabilities_beta" -> exists pri v, prior_mx p q g = Ok pri /\
     match mo_sr3 m with
     | None => lme_flip_probabilities cdf gs pri beta gamma
     | Some ss => sr3_flip_probabilities cdf (ss_ell ss) gs pri beta gamma
     end = Ok v /\ get lg "flip_probabilities_beta" = Ok (LAtom (LVec v))).
Proof.
  move=> argsort cdf m coef pr beta0 gamma0 warm fe re co lg H p q beta gamma tol.
  have [_ [_ [_ [_ [gs [hgs _]]]]]] := fitted_effects_are_blup_lemma H.
  have [g [hg]] := fit_logs _ _ _ _ _ _ _ _ _ _ _ _ _ H.
  move=> [h1 [h2 [h3 [h4 h5]]]].
  exists g, gs; split=> //; split=> //=.
  have key k (f : R -> vec -> vec -> res R) (f' : lme_prior p q -> res R) :
      (asked m k -> exists v, (0 <= solver_tol m)%coqR /\ f (sqrt (solver_tol m)) (co_beta co) (co_gamma co) = Ok v /\ logs_number lg k v) ->
      (forall v, f (sqrt (solver_tol m)) (co_beta co) (co_gamma co) = Ok v -> exists pri, prior_mx p q g = Ok pri /\ f' pri = Ok v) ->
      asked m k -> exists pri v, prior_mx p q g = Ok pri /\ (0 <= solver_tol m)%coqR /\ f' pri = Ok v /\ logs_number lg k v.
    move=> h h' ha; have [v [ht [ev hl]]] := h ha; have [pri [e1 e2]] := h' _ ev.
    by exists pri, v.
  split; [|split; [|split; [|split]]].
  - apply: key h1 _ => v; case: (mo_sr3 m) => [ss|] /(with_prior_inv hgs) [pri [e1 e2]]; by exists pri.
  - apply: key h2 _ => v; case: (mo_sr3 m) => [ss|] /(with_prior_inv hgs) [pri [e1 e2]]; by exists pri.
  - apply: key h3 _ => v; case: (mo_sr3 m) => [ss|] /(with_prior_inv hgs) [pri [e1 e2]]; by exists pri.
  - apply: key h4 _ => v; case: (mo_sr3 m) => [ss|] /(with_prior_inv hgs) [pri [e1 e2]]; by exists pri.
  - move=> ha; have [v [ev hl]] := h5 ha; move: ev.
    case: (mo_sr3 m) => [ss|] /(with_prior_inv hgs) [pri [e1 e2]]; by exists pri, v.
Qed.
(*@ C84.  Whatever criteria are among the keys the caller asked for, the log of a successful fit has exactly those
    criteria of the fitted parameters under those keys - the conditional one under "vaida_aic" and the marginal one
    under "vaida_aic_marginalized" - evaluated with the prior of the model and the tolerance sqrt(tol) of its
    solver (1/100 for the practical SR3 models, whatever tol_solver is), for plain and SR3 models, practical or not. *)
Lemma logged_criteria_lemma :
  forall argsort cdf m coef pr beta0 gamma0 warm fe re co lg s, tolerance_used m s ->
  lme_fit_problem argsort cdf m coef pr beta0 gamma0 warm fe re = Ok (co, lg) ->
  let p := num_fixed pr in
  let q := num_random pr in
  let beta := col_of p (co_beta co) in
  let gamma := col_of q (co_gamma co) in
  let tol := sqrt (s) in
  exists g gs, prior_of m pr = Ok g /\ groups_of p q pr = Ok gs /\
  let written k (f : lme_prior p q -> res R) := asked m k ->
    exists pri v, prior_mx p q g = Ok pri /\ (0 <= s)%coqR /\ f pri = Ok v /\ logs_number lg k v in
  written "vaida_aic"%string (fun pri => lme_vaida_aic gs pri tol false beta gamma) /\
  written "vaida_aic_marginalized"%string (fun pri => lme_vaida_aic gs pri tol true beta gamma) /\
  written "jones_bic"%string (fun pri => lme_jones_bic gs pri tol beta gamma) /\
  written "muller_ic"%string (fun pri => lme_muller_ic gs pri tol beta gamma) /\
  (asked m "flip_probabilities_beta" -> exists pri v, prior_mx p q g = Ok pri /\
     match mo_sr3 m with
     | None => lme_flip_probabilities cdf gs pri beta gamma
     | Some ss => sr3_flip_probabilities cdf (ss_ell ss) gs pri beta gamma
     end = Ok v /\ get lg "flip_probabilities_beta" = Ok (LAtom (LVec v))).
Proof.
  by move=> argsort cdf m coef pr beta0 gamma0 warm fe re co lg s /tolerance_used_eq ->; exact: logged_criteria_at.
Qed.

Lemma logged_criteria_formulas_at :
  forall argsort cdf m coef pr beta0 gamma0 warm fe re co lg g gs pri,
  lme_fit_problem argsort cdf m coef pr beta0 gamma0 warm fe re = Ok (co, lg) ->
  let p := num_fixed pr in
  let q := num_random pr in
  let beta := col_of p (co_beta co) in
  let gamma := col_of q (co_gamma co) in
  let tol := sqrt (solver_tol m) in
  prior_of m pr = Ok g -> prior_mx p q g = Ok pri -> groups_of p q pr = Ok gs ->
  (0 < solver_tol m)%coqR ->
  (forall j, beta j ord0 = 0%coqR \/ (tol <= Rabs (beta j ord0))%coqR) ->
  (forall j, gamma j ord0 = 0%coqR \/ (tol <= Rabs (gamma j ord0))%coqR) ->
  nonnegative gamma -> positive_variances gs ->
  let L := (\sum_(g <- gs) nll beta gamma g + prior_loss pri beta gamma)%coqR in
  let C := (\sum_(g <- gs) conditional_nll beta (blup beta gamma g) g + prior_loss pri beta gamma)%coqR in
  let N := INR (total_obs gs) in
  let P := INR (nonzeros beta) in
  let Q := INR (nonzeros gamma) in
  (asked m "jones_bic" -> logs_number lg "jones_bic" (2 * L + (P + Q) * ln (effective_obs gs gamma))%coqR) /\
  (asked m "muller_ic" -> logs_number lg "muller_ic" (2 / N * L + 1 / N * ln (INR (size gs)) * P + 2 / N * Q)%coqR) /\
  (asked m "vaida_aic_marginalized" -> logs_number lg "vaida_aic_marginalized"
     (2 * L + 2 * (if rltb 0 (N - P - Q - 1) then N / (N - P - Q - 1) else 1) * (P + Q))%coqR) /\
  (asked m "vaida_aic" -> blup_variances gamma -> forall rho, lme_ddf gs gamma = Ok rho ->
     (N - P - 2 <> 0)%coqR -> (N - P <> 0)%coqR ->
     logs_number lg "vaida_aic" (2 * C + 2 * N / (N - P - 2) * (rho - (rho - P) / (N - P)) * (P + Q))%coqR).
Proof.
  move=> argsort cdf m coef pr beta0 gamma0 warm fe re co lg g gs pri H p q beta gamma tol hg hpri hgs ht hb hc hn hv L C N P Q.
  have [g' [gs' [eg [egs [w1 [w2 [w3 [w4 _]]]]]]]] := logged_criteria_at H.
  rewrite hg in eg; case: eg => eg; subst g'.
  rewrite hgs in egs; case: egs => egs; subst gs'.
  have htol : (0 < tol)%coqR by exact: sqrt_lt_R0.
  have ha : admissible gs gamma by exact: admissible_nonneg.
  have [f1 [f2 f3]] := criteria_count_partial_lemma pri htol hb hc ha.
  split; [|split; [|split]].
  - move/w3 => [pri' [v [e [_ [ev hl]]]]]; rewrite hpri in e; case: e => e; subst pri'.
    by rewrite f1 in ev; case: ev => ->.
  - move/w4 => [pri' [v [e [_ [ev hl]]]]]; rewrite hpri in e; case: e => e; subst pri'.
    by rewrite f2 in ev; case: ev => ->.
  - move/w2 => [pri' [v [e [_ [ev hl]]]]]; rewrite hpri in e; case: e => e; subst pri'.
    by rewrite f3 in ev; case: ev => ->.
  - move/w1 => [pri' [v [e [_ [ev hl]]]]] hbl rho hrho n1 n2; rewrite hpri in e; case: e => e; subst pri'.
    have f4 := conditional_criterion_partial_lemma pri htol hb hc hbl hv hrho n1 n2.
    by rewrite f4 in ev; case: ev => ->.
Qed.
(*@ C84.  In formulas: when the tolerance is positive and separates the non-zero coefficients from 0, the logged
    numbers are the published criteria in the likelihood of the fitted parameters and the numbers of non-zero
    coefficients and variances. *)
Lemma logged_criteria_formulas_lemma :
  forall argsort cdf m coef pr beta0 gamma0 warm fe re co lg g gs pri s, tolerance_used m s ->
  lme_fit_problem argsort cdf m coef pr beta0 gamma0 warm fe re = Ok (co, lg) ->
  let p := num_fixed pr in
  let q := num_random pr in
  let beta := col_of p (co_beta co) in
  let gamma := col_of q (co_gamma co) in
  let tol := sqrt (s) in
  prior_of m pr = Ok g -> prior_mx p q g = Ok pri -> groups_of p q pr = Ok gs ->
  (0 < s)%coqR ->
  (forall j, beta j ord0 = 0%coqR \/ (tol <= Rabs (beta j ord0))%coqR) ->
  (forall j, gamma j ord0 = 0%coqR \/ (tol <= Rabs (gamma j ord0))%coqR) ->
  nonnegative gamma -> positive_variances gs ->
  let L := (\sum_(g <- gs) nll beta gamma g + prior_loss pri beta gamma)%coqR in
  let C := (\sum_(g <- gs) conditional_nll beta (blup beta gamma g) g + prior_loss pri beta gamma)%coqR in
  let N := INR (total_obs gs) in
  let P := INR (nonzeros beta) in
  let Q := INR (nonzeros gamma) in
  (asked m "jones_bic" -> logs_number lg "jones_bic" (2 * L + (P + Q) * ln (effective_obs gs gamma))%coqR) /\
  (asked m "muller_ic" -> logs_number lg "muller_ic" (2 / N * L + 1 / N * ln (INR (size gs)) * P + 2 / N * Q)%coqR) /\
  (asked m "vaida_aic_marginalized" -> logs_number lg "vaida_aic_marginalized"
     (2 * L + 2 * (if rltb 0 (N - P - Q - 1) then N / (N - P - Q - 1) else 1) * (P + Q))%coqR) /\
  (asked m "vaida_aic" -> blup_variances gamma -> forall rho, lme_ddf gs gamma = Ok rho ->
     (N - P - 2 <> 0)%coqR -> (N - P <> 0)%coqR ->
     logs_number lg "vaida_aic" (2 * C + 2 * N / (N - P - 2) * (rho - (rho - P) / (N - P)) * (P + Q))%coqR).
Proof.
  by move=> argsort cdf m coef pr beta0 gamma0 warm fe re co lg g gs pri s /tolerance_used_eq ->; exact: logged_criteria_formulas_at.
Qed.

Lemma flat_muller tol : (0 < tol)%coqR ->
  lme_muller_ic [:: flat_group 1 1] LNone tol 0 0 = Ok 0%coqR /\
  lme_muller_ic [:: flat_group 1 1] LNone 0 0 0 = Ok 2%coqR.
Proof.
  move=> h.
  have n0 : nonzeros (0 : 'cV[R]_1) = 0%N by apply: eq_card0 => j; rewrite !inE mxE /reqb; case: Req_EM_T.
  pose z : 'cV[R]_1 := 0.
  have hz (j : 'I_1) : z j ord0 = 0%coqR \/ (tol <= Rabs (z j ord0))%coqR by left; rewrite mxE.
  rewrite /lme_muller_ic flat_loss !count_zero !(count_nonzeros h) // n0; cbn [rbind size].
  have -> : total_obs [:: flat_group 1 1] = 1%N by rewrite /total_obs ?big_cons ?big_nil /= ?addn0.
  split; congr Ok; rewrite /= ?ln_1; toR; field.
Qed.

Lemma flat_logging_run_at argsort cdf tol a v : (0 < tol)%coqR ->
  lme_muller_ic [:: flat_group 1 1] LNone (sqrt tol) (col_of 1 [:: a]) (col_of 1 [:: a]) = Ok v -> exists co lg,
  lme_fit_problem argsort cdf (logging_model tol "muller_ic") None
    (flat_problem 1 1) (Some [:: a]) (Some [:: a]) false None None = Ok (co, lg) /\
  co_beta co = [:: a] /\ co_gamma co = [:: a] /\ logs_number lg "muller_ic" v.
Proof.
  move=> h hv.
  have E : lc_random_effects (problem_calls cdf (flat_problem 1 1) None None) [:: a] [:: a] = Ok [:: zeros 1]
    by apply (@flat_calls_effects 1 1 cdf None [:: a] [:: a]).
  have M : lc_muller (problem_calls cdf (flat_problem 1 1) None None) (sqrt tol) [:: a] [:: a] = Ok v.
    rewrite /problem_calls flat_groups; cbn [lc_muller list_calls].
    rewrite /with_prior /at_params; cbn [rbind].
    rewrite !sized_ok //; cbn [rbind prior_mx]; exact: hv.
  pose lg1 := {| lg_kind := KTuple; lg_keys := [:: "muller_ic"; "converged"; "iteration"]%string;
    lg_dict := [:: ("muller_ic", LList [::]); ("converged", LAtom (LBool false)); ("iteration", LAtom (LNum (INR 0)))]%string |}.
  pose lg2 := {| lg_kind := KTuple; lg_keys := [:: "muller_ic"; "converged"; "iteration"]%string;
    lg_dict := [:: ("muller_ic", LAtom (LNum v)); ("converged", LAtom (LBool false)); ("iteration", LAtom (LNum (INR 0)))]%string |}.
  eexists; exists lg2; split.
    rewrite /lme_fit_problem.
    eapply fit_problem_run with (g := None) (beta1 := [:: a]) (gamma1 := [:: a]) (us := [:: zeros 1])
      (x := [:: a; a]) (lg1 := lg1); try reflexivity.
    - exact: E.
    - rewrite /log_criteria.
      change (solver_tol (logging_model tol "muller_ic")) with tol.
      change (mo_sr3 (logging_model tol "muller_ic")) with (@None sr3_settings).
      change (x_to_beta_gamma _ _ _) with ([:: a], [:: a]); cbn [fst snd].
      rewrite /add_if; cbn [lg1 lg_keys has_key existsb String.eqb Ascii.eqb Bool.eqb orb rbind].
      have -> : rleb 0 tol = true by apply/rlebP; lra.
      cbn [guard rbind]; rewrite M; cbn [rbind].
      by [].
  by [].
Qed.

Lemma flat_logging_run argsort cdf tol : (0 < tol)%coqR -> exists co lg,
  lme_fit_problem argsort cdf (logging_model tol "muller_ic") None
    (flat_problem 1 1) (Some [:: 0%coqR]) (Some [:: 0%coqR]) false None None = Ok (co, lg) /\
  co_beta co = [:: 0%coqR] /\ co_gamma co = [:: 0%coqR] /\ logs_number lg "muller_ic" 0%coqR.
Proof.
  move=> h; apply: flat_logging_run_at => //; rewrite flat_col.
  by have [] := flat_muller (sqrt_lt_R0 tol h).
Qed.

(*@ non-vacuous: a run that logs a criterion *)
Lemma ex_logged_criteria_lemma : exists co lg,
  lme_fit_problem (fun _ => [::]) (fun x => x) (logging_model 1 "muller_ic") None
    (flat_problem 1 1) (Some [:: 0%coqR]) (Some [:: 0%coqR]) false None None = Ok (co, lg) /\
  asked (logging_model 1 "muller_ic") "muller_ic" /\ logs_number lg "muller_ic" 0%coqR.
Proof.
  have [|co [lg [h [_ [_ hl]]]]] := @flat_logging_run (fun _ => [::]) (fun x => x) 1; first by lra.
  by exists co, lg; split=> //; split=> //; left.
Qed.
(*@ non-vacuous: the same run satisfies the conditions under which the formulas hold *)
Lemma ex_logged_criteria_formulas_lemma : exists co lg gs,
  lme_fit_problem (fun _ => [::]) (fun x => x) (logging_model 1 "muller_ic") None
    (flat_problem 1 1) (Some [:: 0%coqR]) (Some [:: 0%coqR]) false None None = Ok (co, lg) /\
  groups_of 1 1 (flat_problem 1 1) = Ok gs /\ positive_variances gs /\
  tolerance_used (logging_model 1 "muller_ic") 1%coqR /\
  (forall j, col_of 1 (co_beta co) j ord0 = 0%coqR) /\ (forall j, col_of 1 (co_gamma co) j ord0 = 0%coqR).
Proof.
  have [|co [lg [h [hb [hg hl]]]]] := @flat_logging_run (fun _ => [::]) (fun x => x) 1; first by lra.
  exists co, lg, [:: flat_group 1 1]; split=> //; split; first exact: flat_groups.
  split; first by move=> g [<-|[]] i; rewrite mxE; toR; lra.
  split; first by split=> // [[ss []]].
  by rewrite hb hg flat_col; split=> j; rewrite mxE.
Qed.

(** ** C85 *)
Lemma count_all n tol (x : 'cV[R]_n) : (forall j, (tol <= Rabs (x j ord0))%coqR) -> count_ge tol x = n.
Proof.
  move=> h; rewrite /count_ge -[RHS](card_ord n) -cardsT; apply: eq_card => j; rewrite !inE.
  by apply/rlebP.
Qed.

(*@ C85 (refuted).  The criterion reported by get_information_criterion for the training data is not the one in the log
    of the fit: for one observation of 0 with features 0 and the starting point 0, fit logs Muller's criterion 0 and
    get_information_criterion returns 2, since it counts the zero variance as well. *)
Lemma reported_criterion_refuted_lemma :
  forall argsort cdf tol, (0 < tol)%coqR -> exists co lg,
  lme_fit argsort cdf (logging_model tol "muller_ic") None flat_table [:: 0%coqR] (Some flat_labels)
    (Some [:: 0%coqR]) (Some [:: 0%coqR]) false false false None None = Ok (co, lg) /\
  logs_number lg "muller_ic" 0%coqR /\
  get_information_criterion cdf (logging_model tol "muller_ic") (Some co) flat_table [:: 0%coqR] (Some flat_labels)
    "muller_ic" = Ok 2%coqR.
Proof.
  move=> argsort cdf tol h.
  have [co [lg [hr [hb [hg hl]]]]] := flat_logging_run argsort cdf h.
  exists co, lg; split; first by rewrite /lme_fit /fit /= flat_table_problem.
  split=> //.
  rewrite (criterion_run _ _ _ flat_table_problem (flat_groups 1 1)) ?hb ?hg //.
  rewrite (_ : String.eqb "muller_ic" "muller_ic" = true) // flat_col.
  by have [_ ->] := flat_muller h.
Qed.

Lemma reported_criterion_partial_at :
  forall argsort cdf m coef x y labels beta0 gamma0 warm fe re co lg,
  lme_fit argsort cdf m coef x y labels beta0 gamma0 warm false false fe re = Ok (co, lg) ->
  mo_prior m = None ->
  List.Forall (fun b => sqrt (solver_tol m) <= Rabs b)%coqR (co_beta co) ->
  List.Forall (fun b => sqrt (solver_tol m) <= Rabs b)%coqR (co_gamma co) ->
  forall k, List.In k ["muller_ic"; "vaida_aic"; "jones_bic"]%string -> asked m k -> exists v,
    logs_number lg k v /\ get_information_criterion cdf m (Some co) x y labels k = Ok v.
Proof.
  move=> argsort cdf m coef x y labels beta0 gamma0 warm fe re co lg.
  rewrite /lme_fit /fit; case: (check_X_y x y) => [u|] //; cbn [rbind].
  case hpr: (from_x_y _ _ _ _ _ _ _ _) => [pr|] //; cbn [rbind] => H hp hb hg.
  have [lb [lgm [_ [_ [gs' [egs' _]]]]]] := fitted_effects_are_blup_lemma H.
  have [g [gs [eg [egs [w1 [_ [w3 [w4 _]]]]]]]] := logged_criteria_at H.
  have e0 : g = None by move: eg; rewrite /prior_of hp => [[]].
  have col n (v : vec) : length v = n -> List.Forall (fun b => sqrt (solver_tol m) <= Rabs b)%coqR v ->
      count_ge (sqrt (solver_tol m)) (col_of n v) = count_ge 0 (col_of n v).
    move=> ln /List.Forall_forall h; rewrite count_zero; apply: count_all => j; rewrite mxE; apply: h.
    by apply: List.nth_In; rewrite ln; exact/ltP.
  have cb := col _ _ lb hb; have cg := col _ _ lgm hg.
  subst g.
  move=> k [<-|[<-|[<-|[]]]].
  - move/w4 => [pri [v [[<-] [_ [ev hl]]]]]; exists v; split=> //.
    rewrite (criterion_run _ _ _ hpr egs lb lgm) -ev.
    by rewrite (_ : String.eqb "muller_ic" "muller_ic" = true) // /lme_muller_ic cb cg.
  - move/w1 => [pri [v [[<-] [_ [ev hl]]]]]; exists v; split=> //.
    rewrite (criterion_run _ _ _ hpr egs lb lgm) -ev.
    by rewrite (_ : String.eqb "vaida_aic" "muller_ic" = false) // (_ : String.eqb "vaida_aic" "vaida_aic" = true) // /lme_vaida_aic cb cg.
  - move/w3 => [pri [v [[<-] [_ [ev hl]]]]]; exists v; split=> //.
    rewrite (criterion_run _ _ _ hpr egs lb lgm) -ev.
    by rewrite (_ : String.eqb "jones_bic" "muller_ic" = false) // (_ : String.eqb "jones_bic" "vaida_aic" = false) //
      (_ : String.eqb "jones_bic" "jones_bic" = true) // /lme_jones_bic cb cg.
Qed.
(*@ C85 (partial).  After a fit without intercepts by a model without a prior whose fitted coefficients and
    variances are all at least sqrt(tol) in absolute value, the two numbers are the same, for each of the three
    criteria get_information_criterion knows. *)
Lemma reported_criterion_partial_lemma :
  forall argsort cdf m coef x y labels beta0 gamma0 warm fe re co lg s, tolerance_used m s ->
  lme_fit argsort cdf m coef x y labels beta0 gamma0 warm false false fe re = Ok (co, lg) ->
  mo_prior m = None ->
  List.Forall (fun b => sqrt (s) <= Rabs b)%coqR (co_beta co) ->
  List.Forall (fun b => sqrt (s) <= Rabs b)%coqR (co_gamma co) ->
  forall k, List.In k ["muller_ic"; "vaida_aic"; "jones_bic"]%string -> asked m k -> exists v,
    logs_number lg k v /\ get_information_criterion cdf m (Some co) x y labels k = Ok v.
Proof.
  by move=> argsort cdf m coef x y labels beta0 gamma0 warm fe re co lg s /tolerance_used_eq ->; exact: reported_criterion_partial_at.
Qed.

(*@ non-vacuous: from the starting point 1 with tolerance 1 both are 2 *)
Lemma ex_reported_criterion_partial_lemma :
  let m := logging_model 1 "muller_ic" in
  mo_prior m = None /\ asked m "muller_ic" /\ tolerance_used m 1%coqR /\ exists co lg,
  lme_fit (fun _ => [::]) (fun x => x) m None flat_table [:: 0%coqR] (Some flat_labels)
    (Some [:: 1%coqR]) (Some [:: 1%coqR]) false false false None None = Ok (co, lg) /\
  List.Forall (fun b => sqrt 1 <= Rabs b)%coqR (co_beta co) /\
  List.Forall (fun b => sqrt 1 <= Rabs b)%coqR (co_gamma co) /\
  logs_number lg "muller_ic" 2%coqR.
Proof.
  split=> //; split; first by left.
  split; first by split=> // [[ss []]].
  have h1 (j : 'I_1) : (sqrt 1 <= Rabs (col_of 1 [:: 1%coqR] j ord0))%coqR.
    by rewrite !ord1 mxE /= sqrt_1 Rabs_R1; lra.
  have [||co [lg [h [hb [hg hl]]]]] := @flat_logging_run_at (fun _ => [::]) (fun x => x) 1 1 2; first by lra.
    rewrite /lme_muller_ic flat_loss !(count_all h1); cbn [rbind size].
    have -> : total_obs [:: flat_group 1 1] = 1%N by rewrite /total_obs big_cons big_nil /= addn0.
    by congr Ok; rewrite /= ?ln_1; toR; field.
  exists co, lg; split; first by rewrite /lme_fit /fit /= flat_table_problem.
  rewrite hb hg; split; [|split=> //]; constructor=> //; rewrite sqrt_1 Rabs_R1; lra.
Qed.
