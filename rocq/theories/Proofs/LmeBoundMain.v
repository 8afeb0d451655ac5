(** Final lemmas about lower bounds of the likelihood, restated as theorems in Properties/LmeBound.v. *)
(*HEAD
(** Property C105: the objective of a mixed model is bounded below (src/pysr3/lme/oracles.py, models.py, problems.py). *)
From Verif.Base Require Import Py Vec Mat RMx.
From Verif.Model Require Import LmeProblem Regularizers Solvers LmeInner LmeFit.
From Verif.Spec Require Import ProxSpec SolverSpec ConvergeSpec LmeSpec InnerSpec FitSpec StationarySpec.
From mathcomp Require Import ssreflect ssrfun ssrbool eqtype ssrnat choice seq fintype
  finfun bigop finset ssralg matrix mxalgebra.
From Verif.Model Require Import LmeOracle LmeBridge.
From Verif.Spec Require Import MxSpec BoundSpec.
HEAD*)
From Verif.Base Require Import Py Vec Mat RMx.
From Verif.Model Require Import LmeProblem Regularizers Solvers LmeInner LmeFit.
From Verif.Spec Require Import ProxSpec SolverSpec ConvergeSpec LmeSpec InnerSpec FitSpec StationarySpec.
From Verif.Proofs Require Import VecFacts LmeProblemProofs LmeProblemMain LmeInnerMain FitProofs.
From Coq Require Import Lra Lia.
From mathcomp Require Import ssreflect ssrfun ssrbool eqtype ssrnat choice seq fintype
  finfun bigop finset ssralg zmodp matrix mxalgebra.
From Verif.Model Require Import LmeOracle LmeBridge.
From Verif.Spec Require Import MxSpec BoundSpec.
From Verif.Proofs Require Import MxFacts LmeOracleProofs LmeOracleMain BridgeProofs BoundProofs BoundFit.
(*OPEN
Set Implicit Arguments.
Unset Strict Implicit.
Unset Printing Implicit Defensive.
Delimit Scope R_scope with coqR.
Local Open Scope ring_scope.
OPEN*)
Set Implicit Arguments.
Unset Strict Implicit.
Unset Printing Implicit Defensive.
Delimit Scope R_scope with coqR.
Import GRing.Theory.
Local Open Scope ring_scope.

(*@ C105 (refuted).  from_x_y only requires the variances of the observations to be non-zero.  With the variance -1 the
    objective has no lower bound over the non-negative variances of the random effects. *)
Lemma lme_loss_bounded_refuted_lemma :
  exists pr, from_x_y negative_table (Some [:: 0%coqR]) None (Some flat_labels) false false None None = Ok pr /\
  forall cdf low, exists t v, (0 <= t)%coqR /\
    lc_loss (problem_calls cdf pr None None) [:: 0%coqR] [:: t] = Ok v /\ (v < low)%coqR.
Proof.
  have i0 : is_int 0%coqR = true by apply/is_int_true; exists Z0.
  have n1 : nonzero (-1)%coqR = true by apply/nonzero_true; lra.
  have r0 : reqb 0%coqR 0%coqR = true by exact: reqb_refl.
  eexists; split.
    rewrite /from_x_y /negative_table /flat_labels /=.
    rewrite /column /= n1 /=. rewrite /unique_labels /= i0 /=.
    have g0 : in_group 0 0 [:: 0; 0; 1; -1]%coqR = true by exact: r0.
    rewrite /where_ /= !g0. reflexivity.
  move=> cdf low; set t := (1 + exp (2 * (low - 1)))%coqR.
  have ht := exp_pos (2 * (low - 1)).
  have hpos : (0 < 1 * t * 1 + -1)%coqR by rewrite /t; lra.
  exists t, (low - 1)%coqR; split; first by rewrite /t; lra.
  split; last lra.
  transitivity (@lme_loss 1 1 [:: @Group 1 1 1 (mx_of 1 1 [:: [:: 0%coqR]]) (col_of 1 [:: 0%coqR]) (mx_of 1 1 [:: [:: 1%coqR]])
    (col_of 1 [:: (-1)%coqR])] LNone (col_of 1 [:: 0%coqR]) (col_of 1 [:: t])); first by [].
  have -> : col_of 1 [:: 0%coqR] = 0%coqR%:M by apply/matrixP => i j; rewrite !mxE !ord1 eqxx mulr1n.
  have -> : col_of 1 [:: t] = t%:M by apply/matrixP => i j; rewrite !mxE !ord1 eqxx mulr1n.
  have -> : @Group 1 1 1 (mx_of 1 1 [:: [:: 0%coqR]]) 0%coqR%:M (mx_of 1 1 [:: [:: 1%coqR]]) (col_of 1 [:: (-1)%coqR]) = one_obs 0 0 1 (-1).
    rewrite /one_obs; congr Group; apply/matrixP => i j; rewrite !mxE !ord1 /= ?mulr1n //.
  rewrite lme_loss_ok; last exact: adm_one.
  rewrite big_cons big_nil /= nll_one //; congr Ok; toR.
  have -> : (1 * t * 1 + -1 = exp (2 * (low - 1)))%coqR by rewrite /t; lra.
  rewrite ln_exp; field; lra.
Qed.

(*@ C105 (partial).  When the variances of the observations are positive (and the prior is convex) the objective is
    computed for all coefficients and all non-negative variances of the random effects, and is at least the noise floor
    of the data; a positive variance of any random effect adds its cost, which grows like its logarithm. *)
Lemma lme_loss_bounded_partial_lemma :
  forall p q (gs : seq (group p q)) (pr : lme_prior p q) beta gamma,
  positive_variances gs -> convex_prior pr -> nonnegative gamma ->
  exists v, lme_loss gs pr beta gamma = Ok v /\ (noise_floor gs <= v)%coqR /\
    forall j, (noise_floor gs + variance_cost gs j (gamma j ord0) <= v)%coqR.
Proof.
  move=> p q gs pr beta gamma hv hp hg.
  have [v [ev h1]] := loss_low beta hv hg hp (fun g hgv => logdet_low hg hgv).
  exists v; split=> //; split=> // j.
  have [v' [ev' h2]] := loss_low beta hv hg hp (fun g hgv => logdet_low_var j hg hgv).
  have e : v' = v by move: ev'; rewrite ev => -[].
  rewrite -e; apply: Rle_trans h2; right; rewrite /noise_floor /variance_cost.
  rewrite -RaddE -big_split /=; apply: eq_bigr => g _.
  by toR; rewrite Rmult_plus_distr_l.
Qed.

(*@ C105 (partial).  The floor is reached: by coefficients that predict every observation exactly, with zero variances and
    without prior. *)
Lemma lme_floor_reached_partial_lemma :
  forall p q (gs : seq (group p q)) beta,
  positive_variances gs -> (forall g, List.In g gs -> resid beta g = 0) ->
  lme_loss gs LNone beta 0 = Ok (noise_floor gs).
Proof.
  move=> p q gs beta hv hr; rewrite lme_loss_ok; last exact: admissible_nonneg (@nonneg0 q) hv.
  congr Ok; rewrite /= Rplus_0_r /noise_floor; elim: gs hv hr => [|g gs IH] hv hr; first by rewrite !big_nil.
  rewrite !big_cons IH; [|by move=> g' hin; apply: hv; right|by move=> g' hin; apply: hr; right].
  rewrite {1}/nll hr; last by left.
  rewrite mulmx0 sc0 Rmult_0_r Rplus_0_l logdet0 //; by apply: hv; left.
Qed.

(** the bound for the arrays of a problem *)
Lemma calls_low cdf pr g gs pri b gm :
  groups_of (num_fixed pr) (num_random pr) pr = Ok gs -> prior_mx (num_fixed pr) (num_random pr) g = Ok pri ->
  positive_variances gs -> convex_prior pri ->
  length b = num_fixed pr -> length gm = num_random pr -> nonneg gm ->
  exists v, lc_loss (problem_calls cdf pr g None) b gm = Ok v /\ (noise_floor gs <= v)%coqR /\
    forall j : 'I_(num_random pr), (noise_floor gs + variance_cost gs j (List.nth j gm 0) <= v)%coqR.
Proof.
  move=> eg ep hv hp lb lg hn.
  have hg : nonnegative (col_of (num_random pr) gm).
    move=> i; rewrite mxE; apply: (proj1 (List.Forall_nth _ _) hn); rewrite lg; exact/ltP.
  have [v [ev [h1 h2]]] := lme_loss_bounded_partial_lemma (col_of (num_fixed pr) b) hv hp hg.
  exists v; split; first by rewrite /problem_calls /= /list_loss /with_prior /at_params eg /= !sized_ok //= ep.
  by split=> // j; have := h2 j; rewrite mxE.
Qed.
Lemma loss_prior cdf pr g b gm v : lc_loss (problem_calls cdf pr g None) b gm = Ok v ->
  exists pri, prior_mx (num_fixed pr) (num_random pr) g = Ok pri.
Proof.
  rewrite /problem_calls /= /list_loss /with_prior /at_params; case: (groups_of _ _ _) => //= gs.
  case: (sized _ b) => //= bb; case: (sized _ gm) => //= gg; case: (prior_mx _ _ _) => //= pri _; by exists pri.
Qed.

Lemma cost_one p q (gs : seq (group p q)) j t g : positive_variances gs -> (0 <= t)%coqR -> List.In g gs ->
  (/ 2 * ln (1 + t * signal g j) <= variance_cost gs j t)%coqR.
Proof.
  move=> hv ht; rewrite /variance_cost.
  have pos (g' : group p q) : (forall i, (0 < g_v g' i ord0)%coqR) -> (0 <= / 2 * ln (1 + t * signal g' j))%coqR.
    move=> h; have h1 := Rmult_le_pos _ _ ht (signal_ge0 j h).
    have h2 : (ln 1 <= ln (1 + t * signal g' j))%coqR by apply: ln_mono; lra.
    by rewrite ln_1 in h2; lra.
  have all (l : seq (group p q)) : (forall g, List.In g l -> forall i, (0 < g_v g i ord0)%coqR) ->
    (0 <= \sum_(g <- l) (/ 2 * ln (1 + t * signal g j))%coqR)%coqR.
    elim: l => [|a l IH] h; first by rewrite big_nil; exact: Rle_refl.
    rewrite big_cons; have h1 := pos a (h a (or_introl erefl)).
    have h2 := IH (fun g hin => h g (or_intror hin)). by apply: Rplus_le_le_0_compat.
  elim: gs hv => [//|a gs IH] hv [<-|hin]; rewrite big_cons RaddE.
    have := all gs (fun g hin => hv g (or_intror hin)); lra.
  have := IH (fun g hin => hv g (or_intror hin)) hin; have := pos a (hv a (or_introl erefl)); lra.
Qed.

(*@ C105 (partial).  Fits with line search, without penalty or with L1: if no line search was exhausted (every accepted
    step is above 1e-14), the cost of each fitted variance is at most the objective at the (initialized) start minus the
    noise floor.  So each variance of a random effect that shows in some group is at most an explicit number. *)
Lemma lme_variances_bounded_partial_lemma :
  forall argsort cdf m coef pr beta0 gamma0 warm fe re co lg wf wr pen gs,
  sensible m -> mo_sr3 m = None -> mo_stepping m = "line-search"%string -> (0 <= mo_tol m)%coqR ->
  fit_weights pr fe re = Ok (wf, wr) -> nonneg (wf ++ wr) -> convex_penalty m (wf ++ wr) = Some pen ->
  opt_all (fun b => length b = num_fixed pr) beta0 ->
  opt_all (fun g => nonneg g /\ length g = num_random pr) gamma0 ->
  groups_of (num_fixed pr) (num_random pr) pr = Ok gs -> positive_variances gs ->
  (forall g pri, prior_of m pr = Ok g -> prior_mx (num_fixed pr) (num_random pr) g = Ok pri -> convex_prior pri) ->
  lme_fit_problem argsort cdf m coef pr beta0 gamma0 warm fe re = Ok (co, lg) ->
  exists g b1 g1 rg step path,
    let c := problem_calls cdf pr g None in
    prior_of m pr = Ok g /\ step_length m = Ok step /\
    initialize m (num_random pr) (num_groups pr) c
      (match beta0 with Some b => b | None => ones (num_fixed pr) end,
       match gamma0 with Some g => g | None => ones (num_random pr) end) = Ok (b1, g1) /\
    is_path (pgd_rule (lme_as_oracle (num_fixed pr) (num_random pr) c) rg
      {| s_tol := mo_tol m; s_max_iter := mo_max_iter m; s_stepping := mo_stepping m; s_step_len := step |})
      (b1 ++ g1) path /\
    co_beta co ++ co_gamma co = endpoint (b1 ++ g1) path /\
    (List.Forall (fun st => ls_threshold < fst st)%coqR path -> forall v0, lc_loss c b1 g1 = Ok v0 ->
     let room := (v0 + pen (b1 ++ g1) - noise_floor gs)%coqR in
     forall j : 'I_(num_random pr),
     (0 <= List.nth j (co_gamma co) 0)%coqR /\ (variance_cost gs j (List.nth j (co_gamma co) 0) <= room)%coqR /\
     forall gr, List.In gr gs -> (0 < signal gr j)%coqR ->
       (List.nth j (co_gamma co) 0 <= (exp (2 * room) - 1) / signal gr j)%coqR).
Proof.
  move=> argsort cdf m coef pr beta0 gamma0 warm fe re co lg wf wr pen gs Hm Hsr Hls Ht Ew Hw Hpen Hb Hg Egs Hv Hpri H.
  have [g [b1 [g1 [rg [step [path [Hpr [Hst [Hn [P [Ex F]]]]]]]]]]] := search_run argsort cdf m coef pr beta0 gamma0 warm fe re co lg wf wr pen Hm Hsr Hls Ht Ew Hw Hpen Hb Hg H.
  exists g, b1, g1, rg, step, path; split=> //; split=> //; split=> //; split=> //; split=> //.
  move=> hlong v0 V0 room j.
  have [pri ep] := loss_prior V0. have hp := Hpri _ _ Hpr ep.
  have low : forall b gm, length b = num_fixed pr -> length gm = num_random pr -> nonneg gm ->
    exists v, lc_loss (problem_calls cdf pr g None) b gm = Ok v /\ (noise_floor gs <= v)%coqR.
    move=> b gm lb lg' hn; have [v [ev [h _]]] := calls_low cdf Egs ep Hv hp lb lg' hn; by exists v.
  have [lb [lgm [hn [[v1 [V1 D]] _]]]] := F hlong _ _ V0 low.
  have [v [ev [_ h2]]] := calls_low cdf Egs ep Hv hp lb lgm hn.
  have e : v = v1 by move: ev; rewrite V1 => -[].
  have hj : (0 <= List.nth j (co_gamma co) 0)%coqR.
    apply: (proj1 (List.Forall_nth _ _) hn); rewrite lgm; exact/ltP.
  have hc : (variance_cost gs j (List.nth j (co_gamma co) 0) <= room)%coqR.
    have := h2 j; have := convex_penalty_nonneg m (wf ++ wr) pen (co_beta co ++ co_gamma co) Hm Hw Hpen; rewrite /room e.
    move: D; lra.
  split=> //; split=> // gr hin hs.
  have h1 := cost_one j Hv hj hin.
  have h3 : (0 < 1 + List.nth j (co_gamma co) 0 * signal gr j)%coqR.
    have := Rmult_le_pos _ _ hj (Rlt_le _ _ hs); lra.
  have h4 : (ln (1 + List.nth j (co_gamma co) 0 * signal gr j) <= 2 * room)%coqR by lra.
  have h5 : (1 + List.nth j (co_gamma co) 0 * signal gr j <= exp (2 * room))%coqR.
    rewrite -[X in (X <= _)%coqR](exp_ln _ h3); case: h4 => [h4|->]; [left; exact: exp_increasing | exact: Rle_refl].
  apply: (Rmult_le_reg_r (signal gr j)) => //.
  rewrite /Rdiv Rmult_assoc Rinv_l; lra.
Qed.

(*@ C105 (partial).  The same fits: if the allowed number of iterations is large enough for the objective at the start and
    the noise floor, then the fit reports converged=True, unless a line search was exhausted. *)
Lemma lme_converges_partial_lemma :
  forall argsort cdf m coef pr beta0 gamma0 warm fe re co lg wf wr pen gs,
  sensible m -> mo_sr3 m = None -> mo_stepping m = "line-search"%string -> (0 <= mo_tol m)%coqR ->
  fit_weights pr fe re = Ok (wf, wr) -> nonneg (wf ++ wr) -> convex_penalty m (wf ++ wr) = Some pen ->
  opt_all (fun b => length b = num_fixed pr) beta0 ->
  opt_all (fun g => nonneg g /\ length g = num_random pr) gamma0 ->
  groups_of (num_fixed pr) (num_random pr) pr = Ok gs -> positive_variances gs ->
  (forall g pri, prior_of m pr = Ok g -> prior_mx (num_fixed pr) (num_random pr) g = Ok pri -> convex_prior pri) ->
  lme_fit_problem argsort cdf m coef pr beta0 gamma0 warm fe re = Ok (co, lg) ->
  exists g b1 g1 rg step path,
    let c := problem_calls cdf pr g None in
    prior_of m pr = Ok g /\ step_length m = Ok step /\
    initialize m (num_random pr) (num_groups pr) c
      (match beta0 with Some b => b | None => ones (num_fixed pr) end,
       match gamma0 with Some g => g | None => ones (num_random pr) end) = Ok (b1, g1) /\
    is_path (pgd_rule (lme_as_oracle (num_fixed pr) (num_random pr) c) rg
      {| s_tol := mo_tol m; s_max_iter := mo_max_iter m; s_stepping := mo_stepping m; s_step_len := step |})
      (b1 ++ g1) path /\
    co_beta co ++ co_gamma co = endpoint (b1 ++ g1) path /\
    forall v0, lc_loss c b1 g1 = Ok v0 ->
    enough_iterations (mo_max_iter m) (1 / (2 * step))%coqR (mo_tol m) (v0 + pen (b1 ++ g1))%coqR (noise_floor gs) ->
    reported_converged lg \/ List.Exists (fun st => fst st <= ls_threshold)%coqR path.
Proof.
  move=> argsort cdf m coef pr beta0 gamma0 warm fe re co lg wf wr pen gs Hm Hsr Hls Ht Ew Hw Hpen Hb Hg Egs Hv Hpri H.
  have [g [b1 [g1 [rg [step [path [Hpr [Hst [Hn [P [Ex F]]]]]]]]]]] := search_run argsort cdf m coef pr beta0 gamma0 warm fe re co lg wf wr pen Hm Hsr Hls Ht Ew Hw Hpen Hb Hg H.
  exists g, b1, g1, rg, step, path; split=> //; split=> //; split=> //; split=> //; split=> //.
  move=> v0 V0 He.
  have [pri ep] := loss_prior V0. have hp := Hpri _ _ Hpr ep.
  have low : forall b gm, length b = num_fixed pr -> length gm = num_random pr -> nonneg gm ->
    exists v, lc_loss (problem_calls cdf pr g None) b gm = Ok v /\ (noise_floor gs <= v)%coqR.
    move=> b gm lb lg' hn; have [v [ev [h _]]] := calls_low cdf Egs ep Hv hp lb lg' hn; by exists v.
  have [hlong|hex] : List.Forall (fun st => ls_threshold < fst st)%coqR path \/ List.Exists (fun st => fst st <= ls_threshold)%coqR path.
    elim: path {P Ex F} => [|a l [IH|IH]]; [by left| |by right; right].
    case: (Rle_lt_dec (fst a) ls_threshold) => h; [by right; left|by left; constructor].
  left; have [_ [_ [_ [_ hconv]]]] := F hlong _ _ V0 low; exact: hconv.
by right.
Qed.

(*@ one observation with the random feature 2 and variance 1: the floor is 0, and a variance t costs ln(1 + 4 t) / 2 *)
Lemma ex_loss_bounded_lemma :
  positive_variances [:: one_obs 1 0 2 1] /\ noise_floor [:: one_obs 1 0 2 1] = 0%coqR /\
  signal (one_obs 1 0 2 1) ord0 = 4%coqR /\
  (forall t, variance_cost [:: one_obs 1 0 2 1] ord0 t = (/ 2 * ln (1 + t * 4))%coqR) /\
  resid (0%:M : 'cV[R]_1) (one_obs 1 0 2 1) = 0.
Proof.
  have sg : signal (one_obs 1 0 2 1) ord0 = 4%coqR.
    by rewrite /signal big_ord1 !mxE eqxx !mulr1n; field.
  split; first by move=> g [<-|[]] i; rewrite mxE !ord1 eqxx mulr1n; lra.
  split.
    rewrite /noise_floor big_cons big_nil big_ord1 !mxE eqxx mulr1n ln_1; toR; ring.
  split=> //; split.
    by move=> t; rewrite /variance_cost big_cons big_nil sg; toR; ring.
  rewrite -[0%:M]/(0%coqR%:M) resid_one; apply/matrixP => i j; rewrite !mxE !ord1 eqxx mulr1n; toR; ring.
Qed.

(*@ an L1 model covered by the theorems: started at 0, three iterations are enough *)
Lemma ex_lme_converges_lemma : let m := patient_model in let pen := fun x => (0 / 2 * sqnorm x + 1 * weighted_l1 [:: 1; 1]%coqR x)%coqR in
  sensible m /\ mo_sr3 m = None /\ mo_stepping m = "line-search"%string /\ (0 <= mo_tol m)%coqR /\ step_length m = Ok (1 / 2)%coqR /\
  fit_weights (flat_problem 1 1) None None = Ok ([:: 1%coqR], [:: 1%coqR]) /\
  convex_penalty m [:: 1; 1]%coqR = Some pen /\ mo_prior m = None /\
  (exists gs, groups_of 1 1 (flat_problem 1 1) = Ok gs /\ positive_variances gs /\ noise_floor gs = 0%coqR) /\
  (forall cdf, lc_loss (problem_calls cdf (flat_problem 1 1) None None) [:: 0%coqR] [:: 0%coqR] = Ok 0%coqR) /\
  enough_iterations (mo_max_iter m) (1 / (2 * (1 / 2)))%coqR (mo_tol m) (0 + pen [:: 0; 0]%coqR)%coqR 0%coqR /\
  forall argsort cdf, exists co lg,
    lme_fit_problem argsort cdf m None (flat_problem 1 1) (Some [:: 0%coqR]) (Some [:: 0%coqR]) false None None = Ok (co, lg) /\
    reported_converged lg.
Proof.
  move=> m pen; have [h1 [h2 [h3 [h4 [h5 [h6 [h7 h8]]]]]]] := patient_fit.
  do 8! split=> //.
  split.
    exists [:: flat_group 1 1]; split; first exact: flat_groups.
    split; first by move=> g [<-|[]] i; rewrite mxE; toR; lra.
    by rewrite /noise_floor big_cons big_nil big_ord1 !mxE R1E ln_1; toR; ring.
  split; first by move=> cdf; exact: (@flat_calls_loss 1 1 cdf None).
  split.
    split; first by [].
    rewrite /pen /= /sqnorm /vdot /= Rabs_R0; lra.
  move=> argsort cdf; have [co [lg [e1 [e2 _]]]] := h8 argsort cdf; by exists co, lg.
Qed.
