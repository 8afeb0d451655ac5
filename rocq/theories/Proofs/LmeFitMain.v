(** Final lemmas about lme/models.py and the L0 linear models, restated as theorems in Properties/LmeFit.v. *)
(*HEAD
(** Properties C57-C60, C73: fitting (src/pysr3/lme/models.py, src/pysr3/linear/models.py). *)
From Verif.Base Require Import Py Vec Mat.
From Verif.Model Require Import LmeProblem Regularizers Solvers Linear LmeInner LmeFit LmeBridge.
From Verif.Spec Require Import ProxSpec SolverSpec LinearSpec LmeSpec InnerSpec FitSpec.
HEAD*)
(*OPEN
Open Scope list_scope.
Open Scope R_scope.
OPEN*)
From Coq Require Import Lra Psatz String FunctionalExtensionality.
From Verif.Base Require Import Py Vec Mat.
From Verif.Model Require Import LmeProblem Regularizers Solvers Linear LmeInner LmeFit LmeBridge.
From Verif.Spec Require Import ProxSpec RegSpec SolverSpec LinearSpec LmeSpec InnerSpec FitSpec.
From Verif.Proofs Require Import VecFacts L0Proofs RegularizerProofs L0LMEProofs RegularizersMain SolverProofs SolversMain
  LinearProofs LinearMain InnerProofs LmeInnerMain LmeProblemProofs LmeProblemMain FitProofs BridgeProofs.
Open Scope list_scope.
Open Scope R_scope.

(** ** a fit whose parts are known *)
Lemma fit_problem_run argsort solve calls_of m coef pr beta0 gamma0 warm fe re s ov g wf wr r0 r beta1 gamma1 lg0 x lg1 us pg lg2 :
  let p := num_fixed pr in let q := num_random pr in
  let c := calls_of pr g (mo_sr3 m) in
  step_length m = Ok s -> oracle_view_of pr = Ok ov -> prior_of m pr = Ok g -> fit_weights pr fe re = Ok (wf, wr) ->
  model_reg m ov = Ok r0 -> instantiate r0 (wf ++ wr) (Some ov) = Ok r ->
  initialize m q (num_groups pr) c (match beta0 with Some b => b | None => ones p end,
                                    match gamma0 with Some b => b | None => ones q end) = Ok (beta1, gamma1) ->
  mk_logger (Some (mo_keys m)) = Ok lg0 ->
  run_solver solve m p q c (as_regularizer argsort r) (beta1 ++ gamma1) lg0 = Ok (x, lg1) ->
  let beta := fst (x_to_beta_gamma p q x) in let gamma := snd (x_to_beta_gamma p q x) in
  lc_random_effects c beta gamma = Ok us ->
  per_group_coefficients beta us (pr_intercept pr :: map Some (pr_labels pr)) = Ok pg ->
  log_criteria m c beta gamma lg1 = Ok lg2 ->
  fit_problem argsort solve calls_of m coef pr beta0 gamma0 warm fe re =
  Ok ({| co_beta := beta; co_gamma := gamma; co_effects := us; co_labels := pr_group_labels pr; co_per_group := pg |}, lg2).
Proof.
  intros p q c Hs Hov Hg Hw Hr0 Hr Hi Hl Hx beta gamma Hu Hpg Hlog. unfold fit_problem. fold p q.
  rewrite Hs. cbn [rbind].
  assert (E : (match mo_penalty m with PenSCAD lam rho sigma => rmap (fun _ => tt) (mk_scad rho sigma lam)
             | _ => Ok tt end) = Ok tt).
  { unfold model_reg, penalty_reg in Hr0. destruct (mo_penalty m); try reflexivity.
    destruct (mk_scad rho sigma lam); [reflexivity|discriminate]. }
  rewrite E. cbn [rbind]. rewrite Hov. cbn [rbind]. rewrite Hg. cbn [rbind]. rewrite Hw. cbn [rbind].
  rewrite Hr0. cbn [rbind]. unfold beta_gamma_to_x. rewrite Hr. cbn [rbind]. rewrite start_pointE. cbn [rbind].
  fold c. rewrite Hi. cbn [rbind]. rewrite Hl. cbn [rbind]. rewrite Hx. cbn [rbind].
  destruct (x_to_beta_gamma p q x) as [b gm] eqn:X. unfold beta, gamma in *. cbn [fst snd] in *.
  rewrite Hu. cbn [rbind]. rewrite Hpg. cbn [rbind]. rewrite Hlog. reflexivity.
Qed.

Lemma log_criteria_none m c beta gamma lg :
  forallb (fun k => negb (has_key k (lg_keys lg)))
    ["vaida_aic"; "vaida_aic_marginalized"; "jones_bic"; "muller_ic"; "flip_probabilities_beta"]%string = true ->
  log_criteria m c beta gamma lg = Ok lg.
Proof.
  cbn [forallb]. rewrite !andb_true_iff, !negb_true_iff. intros (H1 & H2 & H3 & H4 & H5 & _).
  unfold log_criteria, add_if. rewrite H1. cbn [rbind]. rewrite H2. cbn [rbind]. rewrite H3. cbn [rbind].
  rewrite H4. cbn [rbind]. rewrite H5. reflexivity.
Qed.

(** ** fits of the sample problem *)
Lemma flat_view : exists bm, oracle_view_of (flat_problem 1 1) = Ok {| ov_p := 1; ov_q := 1; ov_map := bm |}.
Proof. eexists. vm_compute. reflexivity. Qed.
Lemma flat_11 a b : fst (x_to_beta_gamma 1 1 ([a] ++ [b] : vec)) = [a] /\ snd (x_to_beta_gamma 1 1 ([a] ++ [b] : vec)) = [b].
Proof. split; reflexivity. Qed.

(** no iterations: the start is returned *)
Lemma flat_fit_start argsort cdf coef warm (beta0 gamma0 : option vec) a b :
  match beta0 with Some x => x | None => [1] end = [a] ->
  match gamma0 with Some x => x | None => [1] end = [b] ->
  exists co lg, lme_fit_problem argsort cdf (flat_model PenNone None 0 0) coef (flat_problem 1 1) beta0 gamma0 warm None None
    = Ok (co, lg) /\ co_beta co = [a] /\ co_gamma co = [b].
Proof.
  intros Hb Hg. destruct flat_view as [bm Hov].
  assert (E : lc_random_effects (problem_calls cdf (flat_problem 1 1) None None) [a] [b] = Ok [zeros 1])
    by (apply (@flat_calls_effects 1 1 cdf None [a] [b]); reflexivity).
  eexists. eexists. split; [unfold lme_fit_problem; eapply fit_problem_run with (g := None) (beta1 := [a]) (gamma1 := [b]) (us := [zeros 1]); try reflexivity|].
  - change (num_fixed (flat_problem 1 1)) with 1%nat. change (num_random (flat_problem 1 1)) with 1%nat.
    change (ones 1) with [1]. rewrite Hb, Hg. reflexivity.
  - exact E.
  - split; reflexivity.
Qed.

(** one fixed step with elastic_eps = -100 *)
Lemma flat_fit_elastic argsort cdf :
  exists co lg, lme_fit_problem argsort cdf (flat_model PenNone None 1 (-100)) None (flat_problem 1 1)
    (Some [1]) (Some [1]) false None None = Ok (co, lg) /\ co_beta co = [- / 4] /\ co_gamma co = [- / 4].
Proof.
  destruct flat_view as [bm Hov].
  set (c := problem_calls cdf (flat_problem 1 1) None None).
  assert (E : lc_random_effects c [- / 4] [- / 4] = Ok [zeros 1])
    by (apply (@flat_calls_effects 1 1 cdf None [- / 4] [- / 4]); reflexivity).
  assert (Gb : lc_gradient_beta c [1] [1] = Ok (zeros 1)) by (apply (@flat_calls_gradient_beta 1 1 cdf None [1] [1]); reflexivity).
  assert (Gg : lc_gradient_gamma c [1] [1] = Ok (zeros 1)) by (apply (@flat_calls_gradient_gamma 1 1 cdf None [1] [1]); reflexivity).
  set (r := RPos (Some (gamma_mask {| ov_p := 1; ov_q := 1; ov_map := bm |})) (Some (RElastic (-100) (Some RDummy)))).
  assert (P : prox argsort r [1; 1] (5 / 100) = Ok [- / 4; - / 4]).
  { unfold r. cbn [prox gamma_mask ov_p ov_q repeat app length Nat.eqb guard rbind mask_map map2]. 
    unfold clip0, nonzero. rewrite (Rmax_left 1 0) by lra.
    assert (N : reqb (1 + 5 / 100 * -100) 0 = false) by (apply reqb_false; lra).
    rewrite N. cbn [negb guard rbind map]. repeat f_equal; field. }
  eexists. eexists. split; [unfold lme_fit_problem; eapply fit_problem_run with (g := None) (beta1 := [1]) (gamma1 := [1]) (us := [zeros 1]); try reflexivity|].
  - unfold run_solver. cbn [step_length given_step flat_model mo_step_len mo_sr3 mo_penalty rbind mo_tol mo_max_iter mo_stepping].
    change (num_fixed (flat_problem 1 1)) with 1%nat. change (num_random (flat_problem 1 1)) with 1%nat.
    rewrite (pgd_one_step _ _ _ _ ([1] ++ [1]) (zeros 2) [- / 4; - / 4]).
    + cbn [rbind]. reflexivity.
    + discriminate.
    + cbn [lme_as_oracle o_grad]. unfold joint_gradient. cbn [x_to_beta_gamma firstn skipn app].
      fold c. rewrite Gb. cbn [rbind]. rewrite Gg. reflexivity.
    + reflexivity.
    + cbn [as_regularizer r_prox app]. replace (vadd _ _) with [1; 1]; [exact P|].
      cbv [zeros repeat vneg map vscale vadd map2]. f_equal; [ring|f_equal; ring].
    + reflexivity.
  - exact E.
  - reflexivity.
  - reflexivity.
  - split; reflexivity.
Qed.

(** ** C57 *)
(*@ C57.  Every model - plain or SR3, practical or not, any penalty, solver options and initializer - returns
    non-negative variances, for settings in their ranges (lam, elastic_eps, ell, fixed_step_len >= 0, sigma > 0)
    and non-negative starting variances and weights. *)
Lemma fitted_variances_nonneg_lemma :
  forall argsort cdf m coef pr beta0 gamma0 warm fe re co lg,
  sensible m -> opt_all nonneg fe -> opt_all nonneg re ->
  opt_all nonneg (pr_fe_weights pr) -> opt_all nonneg (pr_re_weights pr) ->
  opt_all (fun b => length b = num_fixed pr) beta0 -> opt_all nonneg gamma0 ->
  lme_fit_problem argsort cdf m coef pr beta0 gamma0 warm fe re = Ok (co, lg) ->
  nonneg (co_gamma co).
Proof.
  intros argsort cdf m coef pr beta0 gamma0 warm fe re co lg Hm W1 W2 W3 W4 Hb Hg H.
  refine (fit_nonneg argsort list_solve (problem_calls cdf) m coef pr beta0 gamma0 warm fe re co lg
            _ Hm W1 W2 W3 W4 Hb Hg H).
  intros g. apply problem_calls_sized.
Qed.

(** problems whose constructor got no must-include names *)
Definition no_names (l : option (list string)) : Prop := l = None \/ l = Some [].
Lemma from_x_y_weights x y columns labels ff fr mf mr pr : no_names mf -> no_names mr ->
  from_x_y x y columns labels ff fr mf mr = Ok pr ->
  pr_fe_weights pr = Some (ones (num_fixed pr)) /\ pr_re_weights pr = Some (ones (num_random pr)) /\ pr_intercept pr = intercept_label_of ff fr.
Proof.
  intros Mf Mr H. destruct (from_x_y_inv _ _ _ _ _ _ _ _ _ H) as
    (g & v & gl & fec & rec & wf & wr & _ & _ & _ & _ & _ & _ & _ & Wf & Wr & _ & _ & _ & E).
  assert (Ef : wf = ones (num_fixed pr)).
  { subst pr. unfold num_fixed, built. cbn [pr_labels pr_intercept]. rewrite label_fixed, <- where_length.
    destruct Mf as [-> | ->]; cbn [reg_weights] in Wf; injection Wf as <-; reflexivity. }
  assert (Er : wr = ones (num_random pr)).
  { subst pr. unfold num_random, built. cbn [pr_labels pr_intercept]. rewrite label_random, <- where_length.
    destruct Mr as [-> | ->]; cbn [reg_weights] in Wr; injection Wr as <-; reflexivity. }
  rewrite <- Ef, <- Er. subst pr. unfold built. cbn [pr_fe_weights pr_re_weights pr_intercept]. auto.
Qed.
Lemma from_dataframe_from_x_y d fixed random groups variance target mf mr pr :
  from_dataframe d fixed random groups variance target mf mr = Ok pr ->
  exists x y columns labels, from_x_y x y columns labels (has_key INTERCEPT fixed) (has_key INTERCEPT random) (Some mf) (Some mr) = Ok pr.
Proof.
  unfold from_dataframe. intros H. bind_inv H. bind_inv H. bind_inv H. bind_inv H. bind_inv H. do 4 eexists. exact H.
Qed.

(*@ C57.  The same for fit on a table: the weights of the problem it builds are ones. *)
Lemma fitted_variances_nonneg_table_lemma :
  forall argsort cdf m coef x y labels beta0 gamma0 warm ff fr fe re co lg,
  sensible m -> opt_all nonneg fe -> opt_all nonneg re -> beta0 = None -> opt_all nonneg gamma0 ->
  lme_fit argsort cdf m coef x y labels beta0 gamma0 warm ff fr fe re = Ok (co, lg) ->
  nonneg (co_gamma co).
Proof.
  intros argsort cdf m coef x y labels beta0 gamma0 warm ff fr fe re co lg Hm W1 W2 -> Hg H.
  unfold lme_fit, fit in H. apply rbind_inv in H as [u [_ H]]. apply rbind_inv in H as [pr [Hp H]].
  destruct (from_x_y_weights _ _ _ _ _ _ _ _ _ (or_introl eq_refl) (or_introl eq_refl) Hp) as (E1 & E2 & _).
  refine (fitted_variances_nonneg_lemma argsort cdf m coef pr None gamma0 warm fe re co lg Hm W1 W2 _ _ _ Hg H).
  - intros w Hw. rewrite E1 in Hw. injection Hw as <-. apply nonneg_ones.
  - intros w Hw. rewrite E2 in Hw. injection Hw as <-. apply nonneg_ones.
  - intros b Hb. discriminate.
Qed.

(*@ C57.  The range of elastic_eps matters: nothing checks it, and one step with elastic_eps = -100 turns the
    variance 1 into -1/4. *)
Lemma negative_elastic_eps_refuted_lemma :
  forall argsort cdf, exists m pr co lg,
  mo_penalty m = PenNone /\ mo_eps m = -100 /\
  lme_fit_problem argsort cdf m None pr (Some [1]) (Some [1]) false None None = Ok (co, lg) /\
  co_gamma co = [- / 4].
Proof.
  intros argsort cdf. destruct (flat_fit_elastic argsort cdf) as (co & lg & H & _ & Hg).
  exists (flat_model PenNone None 1 (-100)), (flat_problem 1 1), co, lg. auto.
Qed.
(*@ a fit covered by the theorem *)
Lemma ex_fitted_variances_lemma :
  sensible (flat_model PenNone None 0 0) /\
  exists co lg, lme_fit_problem (fun _ => []) (fun x => x) (flat_model PenNone None 0 0) None
    (flat_problem 1 1) None None false None None = Ok (co, lg) /\ co_gamma co = [1].
Proof.
  split.
  - unfold sensible. cbn [flat_model mo_penalty mo_eps mo_step_len mo_sr3 penalty_ok].
    split; [exact I|]. split; [lra|]. split; intros ? E; discriminate.
  - destruct (flat_fit_start (fun _ => []) (fun x => x) None false None None 1 1 eq_refl eq_refl) as (co & lg & H & _ & Hg).
    exists co, lg. auto.
Qed.

(** ** C58 *)
(*@ C58 (partial).  L0LmeModel and the non-practical L0LmeModelSR3 with at least one solver iteration:
    coefficients and variances stay within both budgets (up to must-include ones), and a penalised variance
    is present only with its fixed effect.  Practical SR3 models: the same, or the starting point is returned. *)
Lemma l0_lme_budget_partial_lemma :
  forall argsort cdf m nb ng coef pr beta0 gamma0 warm fe re co lg wf wr,
  argsort_ok argsort -> sensible m -> mo_penalty m = PenL0 nb ng ->
  fit_weights pr fe re = Ok (wf, wr) -> length wf = num_fixed pr -> length wr = num_random pr ->
  lme_fit_problem argsort cdf m coef pr beta0 gamma0 warm fe re = Ok (co, lg) ->
  (uses_pgd m -> (0 < mo_max_iter m)%Z -> l0_respected pr nb ng wf wr (co_beta co) (co_gamma co)) /\
  (l0_respected pr nb ng wf wr (co_beta co) (co_gamma co) \/
   exists g b1 g1, prior_of m pr = Ok g /\
    initialize m (num_random pr) (num_groups pr) (problem_calls cdf pr g (mo_sr3 m))
     (match beta0 with Some b => b | None => ones (num_fixed pr) end,
      match gamma0 with Some g => g | None => ones (num_random pr) end) = Ok (b1, g1) /\
     (co_beta co, co_gamma co) = x_to_beta_gamma (num_fixed pr) (num_random pr) (b1 ++ g1)).
Proof.
  intros argsort cdf m nb ng coef pr beta0 gamma0 warm fe re co lg wf wr Ha Hm Hp Hw L1 L2 H.
  refine (fit_l0 argsort list_solve (problem_calls cdf) m nb ng coef pr beta0 gamma0 warm fe re co lg wf wr
            _ Ha Hm Hp Hw L1 L2 H).
  intros g. apply problem_calls_sized.
Qed.

(** a practical model without random effects returns its starting point *)
Lemma practical_run_start solve m ss p c rg x b s : mo_sr3 m = Some ss -> ss_practical ss = true ->
  step_length m = Ok s -> length x = p -> sc_optimal_beta (lc_sr3 c) (sm_lam (sr3_start ss)) [] x = Ok b ->
  run_solver solve m p 0 c rg x {| lg_kind := KTuple; lg_keys := []; lg_dict := [] |} =
  Ok (x, {| lg_kind := KTuple; lg_keys := ["converged"]; lg_dict := [("converged", LAtom (LBool true))] |}).
Proof.
  intros Hs Hp Hl L Hb. unfold run_solver. rewrite Hl. cbn [rbind]. rewrite Hs, Hp.
  unfold fake_pgd_optimize, find_optimal_parameters.
  assert (E : x_to_beta_gamma p 0 x = (x, [])).
  { unfold x_to_beta_gamma. subst p. rewrite firstn_all. reflexivity. }
  rewrite E. cbn [vscale map]. unfold find_ip. rewrite Hb. cbn [rbind]. 
  unfold beta_gamma_to_x. rewrite app_nil_r. reflexivity.
Qed.

(*@ C58 (refuted).  A practical L0LmeModelSR3 on a problem without random effects returns the starting point:
    asked for one coefficient it returns two, after any number of allowed iterations. *)
Lemma l0_lme_budget_refuted_lemma :
  forall argsort cdf k, exists m pr co lg,
  mo_penalty m = PenL0 (Some 1%Z) (Some 0%Z) /\ mo_sr3 m = Some (practical_settings k) /\
  fit_weights pr None None = Ok ([1; 1], []) /\
  lme_fit_problem argsort cdf m None pr None None false None None = Ok (co, lg) /\
  co_beta co = [1; 1] /\ ~ within_budget 1 [1; 1] (co_beta co) /\ nonzeros (co_beta co) = 2%nat.
Proof.
  intros argsort cdf k.
  set (m := flat_model (PenL0 (Some 1%Z) (Some 0%Z)) (Some (practical_settings k)) k 0).
  set (c := problem_calls cdf (flat_problem 2 0) None (Some (practical_settings k))).
  assert (E : lc_random_effects c [1; 1] [] = Ok [zeros 0])
    by (apply (@flat_calls_effects 2 0 cdf (Some (practical_settings k)) [1; 1] []); reflexivity).
  destruct (@flat_calls_optimal_beta 2 0 cdf (Some (practical_settings k)) [1; 1] [] eq_refl eq_refl
              {| lam_b := 40; lam_g := 40 |}) as [b' Eb]; [cbn [lam_b]; lra|].
  exists m, (flat_problem 2 0). eexists. eexists.
  split; [reflexivity|]. split; [reflexivity|]. split; [reflexivity|].
  split; [unfold lme_fit_problem; eapply fit_problem_run with (g := None) (beta1 := [1; 1]) (gamma1 := []) (us := [zeros 0]) (x := [1; 1]); try reflexivity|].
  - apply (practical_run_start _ _ (practical_settings k) 2 _ _ [1; 1] b' (1 / 40)); try reflexivity; [|exact Eb].
    unfold step_length. cbn [m flat_model given_step mo_step_len mo_sr3 practical_settings ss_ell].
    replace (reqb 40 0) with false; [reflexivity|]. symmetry. apply reqb_false. lra.
  - exact E.
  - reflexivity.
  - cbn [co_beta]. change (fst _) with [1; 1]. split; [reflexivity|].
    unfold within_budget, zero_count. cbn [penalised_nonzeros nonzeros length].
    destruct (Req_EM_T 1 0); [lra|]. split; [lia|reflexivity].
Qed.

Lemma pgd_cases S (orc : oracle S) rg slv x0 s lg x lg' s' :
  pgd_optimize orc rg slv x0 s lg = Ok (x, lg', s') -> 0 < s_step_len slv ->
  (x = x0 /\ (x0 = [] \/ (s_max_iter slv <= 0)%Z)) \/ exists y t, 0 < t /\ r_prox rg y t = Ok x.
Proof.
  intros H Hs. destruct (pgd_iterations_bounded_and_reported_lemma _ _ _ _ _ _ _ _ _ _ H) as (path & _ & Ex & _ & Hi).
  destruct path as [|st path].
  - left. split; [exact Ex|]. destruct x0 as [|a x0]; [left; reflexivity|right].
    destruct (Z_le_gt_dec (s_max_iter slv) 0) as [L|L]; [exact L|exfalso].
    destruct (pgd_iterates S orc rg slv (a :: x0) s lg x lg' s') as (n & Hn & G); [discriminate|lia|exact H|].
    rewrite Hi in G. injection G as G. apply lt_INR in Hn. cbn [length INR] in G, Hn. lra.
  - right. destruct (pgd_result_is_prox_output_lemma _ _ _ _ _ _ _ _ _ _ (length (st :: path)) H) as (y & t & E1 & E2 & _);
      [lra|exact Hi|cbn [length]; lia|]. exists y, t. auto.
Qed.
Lemma practical_loop_prox o pr d rg tol mi : forall fuel x xp it x' n,
  practical_loop fuel o pr d rg tol mi x xp it = Ok (x', n) ->
  x' = x \/ exists y, r_prox rg y (1 / so_lam o) = Ok x'.
Proof.
  induction fuel as [|fuel IH]; intros x xp it x' n E; cbn [practical_loop] in E.
  - bind_inv E. destruct (_ && _); [discriminate|]. injection E as <- <-. left. reflexivity.
  - bind_inv E. destruct (_ && _); [|injection E as <- <-; left; reflexivity].
    bind_inv E. bind_inv E. destruct (IH _ _ _ _ _ E) as [->|R]; [right; eauto|right; exact R].
Qed.
Lemma find_prox o rg tol mi x0 x : (0 < mi)%Z -> sr3_find o rg tol mi x0 = Ok x ->
  x = [] \/ exists y t, r_prox rg y t = Ok x.
Proof.
  intros Hm H. unfold sr3_find in H. apply rbind_inv in H as [[x' n] [H E]]. injection E as <-.
  unfold sr3_find_count in H. apply rbind_inv in H as [u [_ H]].
  destruct (so_problem o) as [pr|]; [|discriminate]. destruct (so_data o) as [d|]; [|discriminate].
  destruct x0 as [|a x0].
  - destruct (practical_loop_prox _ _ _ _ _ _ _ _ _ _ _ _ H) as [->|[y Hy]]; eauto.
  - right. destruct (Z.to_nat mi) as [|fuel] eqn:F; [lia|]. cbn [practical_loop moved rbind] in H.
    replace (true && (Z.of_nat 0 <? mi)%Z) with true in H by (symmetry; cbn; apply Z.ltb_lt; lia).
    bind_inv H. bind_inv H. destruct (practical_loop_prox _ _ _ _ _ _ _ _ _ _ _ _ H) as [->|[y Hy]]; eauto.
Qed.

(*@ C58.  The linear L0 models (plain, SR3, practical SR3) with at least one iteration allowed: the fitted vector
    has no more than nnz non-zeros, must-include ones (weight 0) being counted first. *)
Lemma l0_linear_budget_lemma :
  forall argsort, argsort_ok argsort -> forall inv m nnz pr x0 warm weights x lg,
  lm_reg m = mk_l0 nnz -> (0 < lm_max_iter m)%Z -> 0 < effective_step m ->
  linear_fit_problem argsort inv m pr x0 warm weights = Ok (x, lg) ->
  let w := match weights with Some w => w | None => ones (lp_p pr) end in
  let k := match nnz with Some n => n | None => Z.of_nat (length x) end in
  within_budget k w x /\ (Z.of_nat (nonzeros x) <= Z.max k (Z.of_nat (zero_count w)))%Z.
Proof.
  intros argsort Ha inv m nnz pr x0 warm weights x lg Hr Hm Hs H w k.
  assert (P : forall r y t, instantiate (lm_reg m) w None = Ok r -> prox argsort r y t = Ok x ->
     within_budget k w x /\ (Z.of_nat (nonzeros x) <= Z.max k (Z.of_nat (zero_count w)))%Z).
  { intros r y t Hi Hp. rewrite Hr in Hi.
    assert (L : length w = length y).
    { injection Hi as <-. cbn [prox] in Hp. unfold l0_prox, take_masked in Hp.
      bind_inv Hp. unfold guard in E. destruct (_ =? _)%nat eqn:E1; [|discriminate]. apply Nat.eqb_eq in E1.
      unfold astype_bool in E1. rewrite map_length in E1. exact E1. }
    destruct (l0_prox_must_include_lemma argsort Ha nnz w y t r L Hi) as (z & Ez & Lz & _ & B & _ & N & _).
    assert (z = x) by congruence. subst z. unfold k. rewrite Lz. split; assumption. }
  assert (N : x = [] -> within_budget k w x /\ (Z.of_nat (nonzeros x) <= Z.max k (Z.of_nat (zero_count w)))%Z).
  { intros ->. unfold within_budget. replace (penalised_nonzeros w []) with 0%nat by (destruct w; reflexivity).
    cbn [nonzeros]. lia. }
  unfold linear_fit_problem in H. fold w in H. cbv zeta in H.
  set (start := if warm then match x0 with Some x => x | None => ones (lp_p pr) end else ones (lp_p pr)) in H.
  apply rbind_inv in H as [[[run aic] bic] [H0 H]].
  apply rbind_inv in H as [r [Hi H]]. apply rbind_inv in H as [lg0 [_ H]].
  apply rbind_inv in H as [[[x' lg1] s] [Hrun H]].
  apply rbind_inv in H as [lg2 [_ H]]. apply rbind_inv in H as [lg3 [_ H]]. injection H as -> _.
  destruct (lm_el m) as [el|].
  - apply rbind_inv in H0 as [o0 [_ H0]]. apply rbind_inv in H0 as [o [_ H0]]. injection H0 as <- <- <-.
    destruct (lm_practical m).
    + unfold fake_pgd_optimize in Hrun. apply rbind_inv in Hrun as [[[x1 lg4] s1] [F Hrun]].
      apply rbind_inv in Hrun as [[lg5 s2] [_ Hrun]]. apply rbind_inv in Hrun as [lg6 [_ Hrun]]. injection Hrun as -> _ _.
      apply rbind_inv in F as [x2 [F E]]. injection E as -> _ _.
      destruct (find_prox _ _ _ _ _ _ Hm F) as [E|(y & t & E)]; [exact (N E)|exact (P _ _ _ Hi E)].
    + destruct (pgd_cases _ _ _ _ _ _ _ _ _ _ Hrun Hs) as [[E0 [E|E]]|(y & t & _ & E)].
      * exact (N (eq_trans E0 E)).
      * cbn [s_max_iter] in E. lia.
      * exact (P _ _ _ Hi E).
  - apply rbind_inv in H0 as [o [_ H0]]. injection H0 as <- <- <-.
    destruct (pgd_cases _ _ _ _ _ _ _ _ _ _ Hrun Hs) as [[E0 [E|E]]|(y & t & _ & E)].
    * exact (N (eq_trans E0 E)).
    * cbn [s_max_iter] in E. lia.
    * exact (P _ _ _ Hi E).
Qed.
(*@ one step of an L0 model allowed no coefficient *)
Lemma ex_l0_linear_fit_lemma :
  forall argsort, argsort_ok argsort -> 0 < effective_step (sample_linear None false (mk_l0 (Some 0%Z))) /\
  exists lg, linear_fit_problem argsort inv_one (sample_linear None false (mk_l0 (Some 0%Z))) (sample_problem 1) None false None
    = Ok ([0], lg).
Proof.
  intros argsort Ha. split; [unfold effective_step; simpl; lra|].
  set (m := sample_linear None false (mk_l0 (Some 0%Z))). set (pr := sample_problem 1).
  set (g := vadd (tmv 1 [[1]] (vsub (mv [[1]] [1]) [1])) (zeros 1)).
  set (y := vadd [1] (vscale (5 / 100) (vneg g))).
  destruct (l0_prox_must_include_lemma argsort Ha (Some 0%Z) [1] y (5 / 100) _ eq_refl eq_refl) as (z & Ez & Lz & _ & _ & _ & N & _).
  change (length y) with 1%nat in Lz.
  assert (z = [0]).
  { destruct z as [|a [|]]; try discriminate. unfold zero_count in N. cbn [nonzeros length] in N.
    destruct (Req_EM_T 1 0); [lra|]. destruct (Req_EM_T a 0) as [->|]; [reflexivity|]. cbn in N. lia. }
  subst z. eexists. unfold linear_fit_problem.
  cbn [m sample_linear lm_el lm_prior lin_instantiate lo_prior rbind lm_reg mk_l0 instantiate lm_keys mk_logger].
  change (ones (lp_p pr)) with [1]. change (effective_step m) with (5 / 100).
  erewrite pgd_one_step with (g := g) (x1 := [0]); [reflexivity| discriminate | reflexivity | reflexivity | exact Ez | reflexivity].
Qed.
(*@ an L0 mixed model covered by the theorem on the budget *)
Lemma ex_l0_lme_fit_lemma :
  uses_pgd (flat_model (PenL0 (Some 0%Z) (Some 0%Z)) None 1 0) /\
  sensible (flat_model (PenL0 (Some 0%Z) (Some 0%Z)) None 1 0) /\
  fit_weights (flat_problem 1 1) None None = Ok ([1], [1]) /\
  forall argsort cdf, argsort_ok argsort -> exists co lg,
    lme_fit_problem argsort cdf (flat_model (PenL0 (Some 0%Z) (Some 0%Z)) None 1 0) None (flat_problem 1 1)
      None None false None None = Ok (co, lg) /\ co_beta co = [0] /\ co_gamma co = [0].
Proof.
  split; [intros ss E; discriminate|]. split.
  { unfold sensible. cbn [flat_model mo_penalty mo_eps mo_step_len mo_sr3 penalty_ok].
    split; [exact I|]. split; [lra|]. split; intros ? E; discriminate. }
  split; [reflexivity|]. intros argsort cdf Ha.
  set (m := flat_model (PenL0 (Some 0%Z) (Some 0%Z)) None 1 0).
  set (c := problem_calls cdf (flat_problem 1 1) None None).
  assert (E : lc_random_effects c [0] [0] = Ok [zeros 1])
    by (apply (@flat_calls_effects 1 1 cdf None [0] [0]); reflexivity).
  assert (Gb : lc_gradient_beta c [1] [1] = Ok (zeros 1)) by (apply (@flat_calls_gradient_beta 1 1 cdf None [1] [1]); reflexivity).
  assert (Gg : lc_gradient_gamma c [1] [1] = Ok (zeros 1)) by (apply (@flat_calls_gradient_gamma 1 1 cdf None [1] [1]); reflexivity).
  assert (N1 : reqb 1 0 = false) by (apply reqb_false; lra).
  destruct flat_view as [bm Hov]. assert (bm = [(-1)%Z]) by (vm_compute in Hov; congruence). subst bm.
  destruct (model_reg m {| ov_p := 1; ov_q := 1; ov_map := [(-1)%Z] |}) as [r0|] eqn:Hr0; [|discriminate].
  destruct (instantiate r0 ([1] ++ [1]) (Some {| ov_p := 1; ov_q := 1; ov_map := [(-1)%Z] |})) as [r|] eqn:Hr;
    [|injection Hr0 as <-; discriminate].
  assert (P : forall a b, prox argsort r [a; b] (5 / 100) = Ok [0; 0]).
  { intros a b. injection Hr0 as <-. injection Hr as <-.
    cbn [prox gamma_mask ov_p ov_q repeat app length Nat.eqb guard rbind mask_map map2].
    assert (N : nonzero (1 + 5 / 100 * 0) = true).
    { unfold nonzero. apply negb_true_iff. apply reqb_false. lra. }
    rewrite N. cbn [guard rbind map]. unfold l0lme_prox, optimal_tbeta, optimal_tgamma, take_masked, hierarchy_zeros.
    unfold nonzero. rewrite N1. cbn. destruct (reqb 0 0); reflexivity. }
  eexists. eexists. split; [unfold lme_fit_problem; eapply fit_problem_run with (g := None) (beta1 := [1]) (gamma1 := [1]) (us := [zeros 1]) (x := [0; 0]);
     [reflexivity|exact Hov|reflexivity|reflexivity|exact Hr0|exact Hr|reflexivity|reflexivity| | | |]|].
  - unfold run_solver. cbn [step_length given_step m flat_model mo_step_len mo_sr3 mo_penalty rbind mo_tol mo_max_iter mo_stepping].
    change (num_fixed (flat_problem 1 1)) with 1%nat. change (num_random (flat_problem 1 1)) with 1%nat.
    rewrite (pgd_one_step _ _ _ _ ([1] ++ [1]) (zeros 2) [0; 0]).
    + cbn [rbind]. reflexivity.
    + discriminate.
    + cbn [lme_as_oracle o_grad]. unfold joint_gradient. cbn [x_to_beta_gamma firstn skipn app].
      fold c. rewrite Gb. cbn [rbind]. rewrite Gg. reflexivity.
    + reflexivity.
    + apply P.
    + reflexivity.
  - exact E.
  - reflexivity.
  - reflexivity.
  - split; reflexivity.
Qed.

(** ** C59 *)
(*@ C59 (refuted).  Whatever was fitted before, fit with warm_start=True is the fit without it on a fresh model: the
    previous coefficients are never read and NotFittedError is never raised for their absence.  A witness:
    after a fit ending at beta = 5, a warm-started fit that makes no steps returns beta = 1. *)
Lemma lme_warm_start_refuted_lemma :
  (forall argsort cdf m rqs rq,
     let step := fit_step argsort list_solve (problem_calls cdf) in
     let after := fit_history argsort list_solve (problem_calls cdf) m None rqs in
     step m after rq =
     step m None {| fq_problem := fq_problem rq; fq_beta0 := fq_beta0 rq; fq_gamma0 := fq_gamma0 rq; fq_warm := false;
                    fq_fe := fq_fe rq; fq_re := fq_re rq |}) /\
  (forall argsort cdf, exists m pr co1 lg1 co2 lg2,
     lme_fit_problem argsort cdf m None pr (Some [5]) None false None None = Ok (co1, lg1) /\ co_beta co1 = [5] /\
     lme_fit_problem argsort cdf m (Some co1) pr None None true None None = Ok (co2, lg2) /\ co_beta co2 = [1]) /\
  (forall argsort cdf, exists m pr co lg,
     lme_fit_problem argsort cdf m None pr None None true None None = Ok (co, lg)).
Proof.
  split; [|split].
  - intros argsort cdf m rqs rq step after. unfold step, fit_step, fit_problem. rewrite !start_pointE. reflexivity.
  - intros argsort cdf.
    destruct (flat_fit_start argsort cdf None false (Some [5]) None 5 1 eq_refl eq_refl) as (co1 & lg1 & H1 & B1 & _).
    destruct (flat_fit_start argsort cdf (Some co1) true None None 1 1 eq_refl eq_refl) as (co2 & lg2 & H2 & B2 & _).
    exists (flat_model PenNone None 0 0), (flat_problem 1 1), co1, lg1, co2, lg2. auto.
  - intros argsort cdf.
    destruct (flat_fit_start argsort cdf None true None None 1 1 eq_refl eq_refl) as (co & lg & H & _).
    exists (flat_model PenNone None 0 0), (flat_problem 1 1), co, lg. auto.
Qed.

(*@ C59 (refuted).  Linear models: warm_start=True without initial parameters is the cold start, whatever was fitted
    before (the fit has no access to coef_), and without warm_start the initial parameters are ignored. *)
Lemma linear_warm_start_refuted_lemma :
  forall argsort inv m pr weights,
  linear_fit_problem argsort inv m pr None true weights = linear_fit_problem argsort inv m pr None false weights /\
  forall x0, linear_fit_problem argsort inv m pr (Some x0) false weights = linear_fit_problem argsort inv m pr None false weights.
Proof. intros argsort inv m pr weights. split; reflexivity. Qed.

(*@ C59 (partial).  What does choose the start: for mixed models the initial parameters, with ones by default - a fit
    that may make no steps and has no initializer returns exactly them. *)
Lemma lme_start_partial_lemma :
  forall argsort cdf m coef pr beta0 gamma0 warm fe re co lg,
  uses_pgd m -> (mo_max_iter m <= 0)%Z -> mo_initializer m <> "EM" ->
  lme_fit_problem argsort cdf m coef pr beta0 gamma0 warm fe re = Ok (co, lg) ->
  (co_beta co, co_gamma co) = x_to_beta_gamma (num_fixed pr) (num_random pr)
    ((match beta0 with Some b => b | None => ones (num_fixed pr) end) ++
     (match gamma0 with Some g => g | None => ones (num_random pr) end)).
Proof.
  intros argsort cdf m coef pr beta0 gamma0 warm fe re co lg Hu Hm Hi H.
  destruct (fit_problem_inv _ _ _ _ _ _ _ _ _ _ _ _ _ H) as
    (ov & g & wf & wr & r0 & r & bg0 & beta1 & gamma1 & lg0 & x & lg1 & _ & _ & _ & _ & _ & Hs & Hn & _ & Hx & Hc & _).
  rewrite start_pointE in Hs. injection Hs as <-. unfold initialize in Hn.
  apply String.eqb_neq in Hi. rewrite Hi in Hn. injection Hn as <- <-. rewrite Hc. f_equal.
  assert (PGD : forall S (orc : oracle S) rg slv x0 s lg x lg' s', (s_max_iter slv <= 0)%Z ->
            pgd_optimize orc rg slv x0 s lg = Ok (x, lg', s') -> x = x0).
  { clear. intros S orc rg slv x0 s lg x lg' s' Hm H.
    destruct (pgd_iterations_bounded_and_reported_lemma _ _ _ _ _ _ _ _ _ _ H) as (path & _ & Ex & B & _).
    destruct path as [|st path]; [exact Ex|]. cbn [length] in B. lia. }
  unfold run_solver in Hx. apply rbind_inv in Hx as [step [_ Hx]]. unfold uses_pgd in Hu.
  destruct (mo_sr3 m) as [ss|].
  - rewrite (Hu ss eq_refl) in Hx. apply rbind_inv in Hx as [[[x1 lg2] s1] [Hx E]]. injection E as -> _.
    eapply PGD; [|exact Hx]. exact Hm.
  - apply rbind_inv in Hx as [[[x1 lg2] s1] [Hx E]]. injection E as -> _. eapply PGD; [|exact Hx]. exact Hm.
Qed.

(** ** C60 *)
Lemma ones_head n : (0 < n)%nat -> nth 0 (ones n) 0 = 1.
Proof. destruct n; [lia|reflexivity]. Qed.
Lemma stored_ones_weights pr : pr_fe_weights pr = Some (ones (num_fixed pr)) -> pr_re_weights pr = Some (ones (num_random pr)) ->
  fit_weights pr None None = Ok (ones (num_fixed pr), ones (num_random pr)) /\
  (fixed_intercept (pr_intercept pr) = true -> nth 0 (ones (num_fixed pr)) 0 = 1) /\
  (random_intercept (pr_intercept pr) = true -> nth 0 (ones (num_random pr)) 0 = 1).
Proof.
  intros E1 E2. unfold fit_weights, default_weights. rewrite E1, E2. split; [reflexivity|].
  split; intros E; apply ones_head; unfold num_fixed, num_random; rewrite E; cbn [b2n]; lia.
Qed.

(*@ C60 (refuted).  Every constructor stores weights of one, intercept included, when no must-include names are given,
    and fit uses the stored weights: the intercept's coefficient and variance have weight 1 for all problems from
    from_x_y (hence fit), from_dataframe and generate. *)
Lemma intercept_penalised_refuted_lemma :
  (forall x y columns labels ff fr mf mr pr, (mf = None \/ mf = Some []) -> (mr = None \/ mr = Some []) ->
     from_x_y x y columns labels ff fr mf mr = Ok pr ->
     exists wf wr, fit_weights pr None None = Ok (wf, wr) /\ (ff = true -> nth 0 wf 0 = 1) /\ (fr = true -> nth 0 wr 0 = 1)) /\
  (forall d fixed random groups variance target pr,
     from_dataframe d fixed random groups variance target [] [] = Ok pr ->
     exists wf wr, fit_weights pr None None = Ok (wf, wr) /\ (In "intercept"%string fixed -> nth 0 wf 0 = 1) /\
       (In "intercept"%string random -> nth 0 wr 0 = 1)) /\
  (forall xname sizes labels ff fr ov beta gamma given features draws pr coefs,
     generate xname sizes labels ff fr ov beta gamma given features draws = Ok (pr, coefs) ->
     exists wf wr, fit_weights pr None None = Ok (wf, wr) /\ (ff = true -> nth 0 wf 0 = 1) /\ (fr = true -> nth 0 wr 0 = 1)).
Proof.
  assert (X : forall x y columns labels ff fr mf mr pr, no_names mf -> no_names mr ->
     from_x_y x y columns labels ff fr mf mr = Ok pr ->
     exists wf wr, fit_weights pr None None = Ok (wf, wr) /\ (ff = true -> nth 0 wf 0 = 1) /\ (fr = true -> nth 0 wr 0 = 1)).
  { intros x y columns labels ff fr mf mr pr Mf Mr H.
    destruct (from_x_y_weights _ _ _ _ _ _ _ _ _ Mf Mr H) as (E1 & E2 & E3).
    destruct (stored_ones_weights pr E1 E2) as (W & A & B). rewrite E3, label_fixed in A. rewrite E3, label_random in B.
    exists (ones (num_fixed pr)), (ones (num_random pr)). auto. }
  split; [exact X|]. split.
  - intros d fixed random groups variance target pr H.
    destruct (from_dataframe_from_x_y _ _ _ _ _ _ _ _ _ H) as (x & y & columns & labels & H').
    destruct (X _ _ _ _ _ _ _ _ _ (or_intror eq_refl) (or_intror eq_refl) H') as (wf & wr & W & A & B).
    exists wf, wr. split; [exact W|]. split; intros I; [apply A|apply B]; apply has_key_In; exact I.
  - intros xname sizes labels ff fr ov beta gamma given features draws pr coefs H.
    unfold generate in H. apply rbind_inv in H as [u1 [_ H]]. apply rbind_inv in H as [u2 [_ H]].
    apply rbind_inv in H as [u3 [_ H]]. apply rbind_inv in H as [u4 [_ H]]. apply rbind_inv in H as [gs [_ H]].
    apply rbind_inv in H as [cs [_ H]]. injection H as <- _.
    eexists. eexists. split; [reflexivity|].
    split; intros ->; cbn [b2n]; rewrite Nat.add_1_r; reflexivity.
Qed.

(*@ C60 (partial).  Only a problem without stored weights - the LMEProblem constructor called directly without them -
    gets weight 0 for its intercept, and 1 elsewhere. *)
Lemma intercept_unpenalised_partial_lemma :
  forall pr, pr_fe_weights pr = None -> pr_re_weights pr = None ->
  exists wf wr, fit_weights pr None None = Ok (wf, wr) /\ length wf = num_fixed pr /\ length wr = num_random pr /\
    (forall i, (i < num_fixed pr)%nat ->
       nth i wf 0 = if fixed_intercept (pr_intercept pr) && (i =? 0)%nat then 0 else 1) /\
    (forall i, (i < num_random pr)%nat ->
       nth i wr 0 = if random_intercept (pr_intercept pr) && (i =? 0)%nat then 0 else 1).
Proof.
  intros pr E1 E2.
  assert (D : forall n b, (b = true -> 0 < n)%nat -> exists w, default_weights None None n b = Ok w /\ length w = n /\
     forall i, (i < n)%nat -> nth i w 0 = if b && (i =? 0)%nat then 0 else 1).
  { intros n b Hb. assert (O : forall k i, (i < k)%nat -> nth i (ones k) 0 = 1).
    { intros k i Hi. unfold ones. rewrite (nth_indep _ 0 1) by (rewrite repeat_length; exact Hi). apply nth_repeat. }
    destruct b; cbn [default_weights].
    - specialize (Hb eq_refl). destruct n as [|n]; [lia|]. change (ones (S n)) with (1 :: ones n).
      exists (0 :: ones n). split; [reflexivity|]. split; [cbn [length]; rewrite ones_length; reflexivity|].
      intros [|i] Hi; [reflexivity|]. cbn [nth Nat.eqb andb]. apply O. lia.
    - exists (ones n). split; [reflexivity|]. split; [apply ones_length|]. intros i Hi. apply O. exact Hi. }
  unfold fit_weights. rewrite E1, E2.
  destruct (D (num_fixed pr) (fixed_intercept (pr_intercept pr))) as (wf & -> & L1 & V1).
  { intros E. unfold num_fixed. rewrite E. cbn [b2n]. lia. }
  destruct (D (num_random pr) (random_intercept (pr_intercept pr))) as (wr & -> & L2 & V2).
  { intros E. unfold num_random. rewrite E. cbn [b2n]. lia. }
  exists wf, wr. split; [reflexivity|]. auto.
Qed.

(** ** C73 *)
Lemma path_descends S (orc : oracle S) rg dom pen slv f g path : forall x,
  exact_for rg dom pen -> value_is orc f -> grad_is orc g -> s_stepping slv = "line-search" ->
  is_path (pgd_rule orc rg slv) x path -> Forall (fun p => ls_threshold < fst p) path ->
  non_increasing dom (fun x => f x + pen x) x path.
Proof.
  induction path as [|[s x'] path IH]; intros x Hex Hf Hg Hst P A; [exact I|].
  destruct P as [[[t1 [g1 [t2 [E [Hl P1]]]]] [_ Hr]] P]. inversion A as [|? ? A1 A2]; subst. cbn [fst] in A1.
  pose proof (Hg _ _ _ _ E) as ->. specialize (Hr f g Hf Hg). unfold step_rule in Hr. rewrite Hst in Hr.
  destruct Hr as [k [_ [_ [Hr|Hr]]]]; [lra|].
  assert (Hs : 0 < s) by (unfold ls_threshold in A1; lra).
  destruct (descends_for rg dom pen f g x s x' Hex Hs Hl P1 Hr) as [D1 D2].
  cbn [non_increasing]. split; [exact D1|]. split; [exact D2|]. apply IH; auto.
Qed.

Lemma dummy_exact argsort : exact_for (as_regularizer argsort RDummy) all_vecs (fun _ => 0).
Proof.
  intros y t z Ht E. cbn in E. injection E as <-. split; [reflexivity|]. split; [exact I|].
  intros z' L _. unfold prox_cost. rewrite vsub_self, sqnorm_zeros.
  pose proof (sqnorm_nonneg (vsub z' y)). lra.
Qed.
Lemma l1_exact argsort lam w : 0 <= lam -> nonneg w ->
  exact_for (as_regularizer argsort (RL1 lam (Some w))) all_vecs (fun z => lam * weighted_l1 w z).
Proof.
  intros Hl Hw y t z Ht E. change (l1_prox lam (Some w) y t = Ok z) in E. pose proof E as E0.
  assert (Ly : length w = length y).
  { clear E0. unfold l1_prox in E. apply rbind_inv in E as [u [G _]]. apply guard_inv in G. apply Nat.eqb_eq in G. auto. }
  destruct (l1_prox_unique lam w y t) as [z' [E' U]]; auto; [lra|].
  assert (Ez : z' = z) by (apply Ok_inj; etransitivity; [symmetry; exact E' | exact E0]).
  subst z'. apply unique_is_prox. auto.
Qed.

(** the prox of a model is optimal for its penalty on the non-negative variances *)
Lemma model_exact argsort m ov w r0 r pen : sensible m -> nonneg w -> convex_penalty m w = Some pen ->
  model_reg m ov = Ok r0 -> instantiate r0 w (Some ov) = Ok r ->
  exact_for (as_regularizer argsort r) (fun z => nonneg_on (gamma_mask ov) z) pen.
Proof.
  intros Hm Hw Hp H HI.
  pose proof (model_reg_params _ _ _ _ _ Hm Hw H HI) as Hok.
  destruct (model_reg_shape _ _ _ _ _ H HI) as (pen0 & pen' & Hr & Hi & ->).
  intros y t z Ht E. cbn [as_regularizer r_prox] in E.
  assert (X : exists g, pen = (fun x => mo_eps m / 2 * sqnorm x + g x) /\ exact_for (as_regularizer argsort pen') all_vecs g).
  { unfold convex_penalty in Hp. destruct Hm as (Hpen & He & _). cbn [params_ok] in Hok.
    destruct (mo_penalty m) as [|nb ng|lam|lam rho|lam rho sigma]; try discriminate; cbn [penalty_reg] in Hr; injection Hr as <-;
      injection Hi as <-; injection Hp as <-.
    - exists (fun _ => 0). split; [|apply dummy_exact].
      apply functional_extensionality. intros x. ring.
    - exists (fun x => lam * weighted_l1 w x). split; [reflexivity|]. apply l1_exact; auto. }
  destruct X as (g & -> & Hex). destruct Hm as (_ & He & _).
  cbn [prox] in E. apply rbind_inv in E as [y1 [E1 E]].
  assert (Ly : length (gamma_mask ov) = length y).
  { destruct (length (gamma_mask ov) =? length y)%nat eqn:L; [apply Nat.eqb_eq in L; exact L|discriminate]. }
  rewrite Ly, Nat.eqb_refl in E1. cbn [guard rbind] in E1. injection E1 as <-.
  pose proof E as E2.
  assert (Hd : 0 < 1 + t * mo_eps m) by nra.
  assert (nz : nonzero (1 + t * mo_eps m) = true) by (unfold nonzero; apply negb_true_iff, reqb_false; lra).
  rewrite nz in E2. cbn [guard rbind] in E2.
  assert (Ht' : 0 < t / (1 + t * mo_eps m)) by (apply Rdiv_lt_0_compat; auto).
  pose proof (Hex _ _ _ Ht' E2) as IP.
  destruct (elastic_prox_exact_lemma argsort pen' all_vecs g (mo_eps m) _ t z He Ht E2 IP) as [E3 IP2].
  destruct (positive_quadrant_prox_exact_lemma argsort (gamma_mask ov) (RElastic (mo_eps m) (Some pen')) all_vecs _ y t z (Rlt_le _ _ Ht) Hok Ly E3 IP2) as [_ [L1 [[D1 _] L2]]].
  split; [exact L1|]. split; [exact D1|]. intros z' Lz' Dz'. apply L2; [exact Lz'|]. split; [exact Dz'|exact I].
Qed.

Lemma split_all {A} p q (x : list A) : (length x <= p + q)%nat -> firstn p x ++ firstn q (skipn p x) = x.
Proof.
  intros H. rewrite (firstn_all2 (skipn p x)) by (rewrite skipn_length; lia). apply firstn_skipn.
Qed.
Lemma nonneg_on_start p q bm (b g : vec) : length b = p -> nonneg g ->
  nonneg_on (gamma_mask {| ov_p := p; ov_q := q; ov_map := bm |}) (b ++ g).
Proof.
  intros L N. unfold nonneg_on, gamma_mask. cbn [ov_p ov_q].
  assert (E : mask_select (repeat false p ++ repeat true q) (b ++ g) = mask_select (repeat true q) g).
  { revert b L. induction p as [|p IH]; intros [|a b] L; try discriminate; [reflexivity|].
    cbn [repeat app mask_select]. apply IH. injection L as L; exact L. }
  rewrite E. clear E L. revert g N. induction q as [|q IH]; intros g N; [constructor|].
  destruct g as [|a g]; [constructor|]. cbn [repeat mask_select]. inversion N; subst. constructor; [assumption|apply IH; assumption].
Qed.
Lemma mean_squares_len q us n g : mean_squares q us n = Ok g -> (length g <= q)%nat.
Proof.
  unfold mean_squares. intros H. bind_inv H. injection H as <-. rewrite map_length.
  induction us as [|u us IH]; cbn [fold_right]; [unfold zeros; rewrite repeat_length; lia|].
  unfold vadd in *. rewrite map2_length. lia.
Qed.

(*@ C73.  A mixed model without relaxation, without penalty or with the L1 penalty, fitted with line search:
    if every accepted step is above 1e-14, the negative log-likelihood plus prior, L1 penalty and elastic term at the
    returned parameters is at most its value at the (initialized) start. *)
Lemma lme_line_search_no_worse_lemma :
  forall argsort cdf m coef pr beta0 gamma0 warm fe re co lg wf wr pen,
  sensible m -> mo_sr3 m = None -> mo_stepping m = "line-search" ->
  fit_weights pr fe re = Ok (wf, wr) -> nonneg (wf ++ wr) -> convex_penalty m (wf ++ wr) = Some pen ->
  opt_all (fun b => length b = num_fixed pr) beta0 ->
  opt_all (fun g => nonneg g /\ length g = num_random pr) gamma0 ->
  lme_fit_problem argsort cdf m coef pr beta0 gamma0 warm fe re = Ok (co, lg) ->
  exists g b1 g1 rg step path,
    let c := problem_calls cdf pr g None in
    prior_of m pr = Ok g /\ step_length m = Ok step /\
    initialize m (num_random pr) (num_groups pr) c
      (match beta0 with Some b => b | None => ones (num_fixed pr) end,
       match gamma0 with Some g => g | None => ones (num_random pr) end) = Ok (b1, g1) /\
    is_path (pgd_rule (lme_as_oracle (num_fixed pr) (num_random pr) c) rg
      {| s_tol := mo_tol m; s_max_iter := mo_max_iter m; s_stepping := mo_stepping m; s_step_len := step |})
      (b1 ++ g1) path /\
    co_beta co ++ co_gamma co = endpoint (b1 ++ g1) path /\
    (Forall (fun st => ls_threshold < fst st) path ->
     forall v0 v1, lc_loss c b1 g1 = Ok v0 -> lc_loss c (co_beta co) (co_gamma co) = Ok v1 ->
     v1 + pen (co_beta co ++ co_gamma co) <= v0 + pen (b1 ++ g1)).
Proof.
  intros argsort cdf m coef pr beta0 gamma0 warm fe re co lg wf wr pen Hm Hsr Hls Ew Hw Hpen Hb Hg H.
  destruct (fit_problem_inv _ _ _ _ _ _ _ _ _ _ _ _ _ H) as
    (ov & g & wf' & wr' & r0 & r & bg0 & b1 & g1 & lg0 & x & lg1 & Hov & Hpr & Hw' & Hr0 & Hr & Hs & Hn & _ & Hx & Hc & _).
  assert (wf' = wf /\ wr' = wr) as [-> ->] by (rewrite Ew in Hw'; injection Hw' as -> ->; auto).
  rewrite start_pointE in Hs. injection Hs as <-. rewrite Hsr in *.
  set (c := problem_calls cdf pr g None) in *. set (p := num_fixed pr) in *. set (q := num_random pr) in *.
  set (b := match beta0 with Some b => b | None => ones p end) in *.
  set (gm := match gamma0 with Some g => g | None => ones q end) in *.
  assert (Lb : length b = p).
  { unfold b. destruct beta0 as [v|]; [apply Hb; reflexivity|apply ones_length]. }
  assert (Ng : nonneg gm /\ length gm = q).
  { unfold gm. destruct gamma0 as [v|]; [apply Hg; reflexivity|]. split; [apply nonneg_ones|apply ones_length]. }
  destruct (problem_calls_sized cdf pr g None) as (S1 & S2 & _). fold c p q in S1, S2.
  destruct (initialize_start m q (num_groups pr) c b gm b1 g1 p S1 S2 Lb (proj1 Ng) Hn) as [L1 N1].
  assert (L2 : (length g1 <= q)%nat).
  { unfold initialize in Hn. destruct (String.eqb (mo_initializer m) "EM").
    - apply rbind_inv in Hn as [b2 [_ Hn]]. apply rbind_inv in Hn as [us [_ Hn]]. apply rbind_inv in Hn as [g2 [Hn E]].
      injection E as <- <-. eapply mean_squares_len. exact Hn.
    - injection Hn as <- <-. rewrite (proj2 Ng). lia. }
  unfold run_solver in Hx. apply rbind_inv in Hx as [step [Hst Hx]]. rewrite Hsr in Hx.
  apply rbind_inv in Hx as [[[x' lg2] u] [Hx E]]. injection E as -> ->.
  destruct (pgd_iterations_bounded_and_reported_lemma _ _ _ _ _ _ _ _ _ _ Hx) as (path & P & Ex & _).
  assert (Lx : (length x <= p + q)%nat).
  { destruct (pgd_cases _ _ _ _ _ _ _ _ _ _ Hx) as [[-> _]|(y & t & _ & Ey)].
    - cbn [s_step_len]. eapply step_length_pos; eauto.
    - rewrite app_length. lia.
    - destruct (model_prox_len _ _ _ _ _ _ _ _ _ Hr0 Hr Ey) as [A B].
      destruct (oracle_viewE _ _ Hov) as [Ep Eq]. rewrite Ep, Eq in A. fold p q in A. lia. }
  assert (Sx : co_beta co ++ co_gamma co = x).
  { unfold x_to_beta_gamma in Hc. injection Hc as -> ->. apply split_all. exact Lx. }
  exists g, b1, g1, (as_regularizer argsort r), step, path. fold c.
  split; [exact Hpr|]. split; [exact Hst|]. split; [exact Hn|]. split; [exact P|]. split; [rewrite Sx; exact Ex|].
  intros A v0 v1 V0 V1.
  set (f := fun z => match joint_loss p q (lc_loss c) z with Ok v => v | Err _ => 0 end).
  set (dg := fun z => match joint_gradient p q (lc_gradient_beta c) (lc_gradient_gamma c) z with Ok v => v | Err _ => [] end).
  assert (D : non_increasing (fun z => nonneg_on (gamma_mask ov) z) (fun z => f z + pen z) (b1 ++ g1) path).
  { refine (path_descends _ _ _ _ _ _ f dg _ _ _ _ _ _ P A); [|intros s z v s' E|intros s z v s' E|exact Hls].
    - exact (model_exact argsort m ov (wf ++ wr) r0 r pen Hm Hw Hpen Hr0 Hr).
    - cbn [lme_as_oracle o_value] in E. apply rbind_inv in E as [v' [E1 E]]. injection E as -> _. unfold f. rewrite E1. reflexivity.
    - cbn [lme_as_oracle o_grad] in E. apply rbind_inv in E as [v' [E1 E]]. injection E as -> _. unfold dg. rewrite E1. reflexivity. }
  assert (Dom : nonneg_on (gamma_mask ov) (b1 ++ g1)).
  { destruct ov as [op oq om]. destruct (oracle_viewE _ _ Hov) as [Ep Eq]. cbn [ov_p ov_q] in Ep, Eq. subst op oq.
    apply nonneg_on_start; auto. }
  pose proof (non_increasing_end _ _ _ _ Dom D) as F. cbv beta in F. rewrite <- Ex, <- Sx in F.
  assert (F0 : f (b1 ++ g1) = v0).
  { unfold f, joint_loss, x_to_beta_gamma. rewrite firstn_app_len, skipn_app_len by exact L1.
    rewrite firstn_all2 by exact L2. rewrite V0. reflexivity. }
  assert (F1 : f (co_beta co ++ co_gamma co) = v1).
  { unfold f, joint_loss. rewrite Sx. rewrite <- Hc. rewrite V1. reflexivity. }
  rewrite F0, F1 in F. exact F.
Qed.

(** one step with line search, accepted at once *)
Lemma pgd_one_search (orc : oracle unit) rg tol step x0 g x1 :
  x0 <> [] -> ls_threshold < step -> o_grad orc tt x0 = Ok (g, tt) -> length g = length x0 ->
  r_prox rg (vadd x0 (vscale step (vneg g))) step = Ok x1 -> length x1 = length x0 ->
  ls_accept orc tt x0 (vneg g) x1 step = Ok (true, tt) ->
  pgd_optimize orc rg {| s_tol := tol; s_max_iter := 1; s_stepping := "line-search"; s_step_len := step |} x0 tt
    {| lg_kind := KTuple; lg_keys := []; lg_dict := [] |} =
  Ok (x1, {| lg_kind := KTuple; lg_keys := ["converged"; "iteration"];
             lg_dict := [("converged", LAtom (LBool false)); ("iteration", LAtom (LNum 1))] |}, tt).
Proof.
  intros Hn Ht Hg Lg Hp Lx Ha. set (lg := {| lg_kind := KTuple; lg_keys := []; lg_dict := [] |}).
  set (slv := {| s_tol := tol; s_max_iter := 1; s_stepping := "line-search"; s_step_len := step |}).
  set (st1 := {| st_x := x1; st_x_prev := Some x0; st_iteration := 1; st_loss := None;
                 st_direction := Some (vneg g); st_step_len := Some step;
                 st_y := Some (vadd x0 (vscale step (vneg g))); st_z := Some x1; st_oracle := tt; st_logger := lg |}).
  assert (H1 : pgd_step orc rg slv x0 (pgd_init x0 tt lg) = Ok st1).
  { unfold pgd_step. cbn [pgd_init st_x st_oracle st_z st_loss st_iteration st_logger].
    rewrite Hg. cbn [rbind slv s_stepping s_step_len]. rewrite String.eqb_refl.
    unfold ls_fuel. cbn [line_search]. assert (T : rltb ls_threshold step = true) by (apply rltb_true; exact Ht).
    rewrite T. unfold move. rewrite vneg_length, Lg, Nat.eqb_refl. cbn [guard rbind].
    rewrite Hp. cbn [rbind]. rewrite Ha. cbn [rbind]. rewrite Hp. cbn [rbind]. apply log_state_quiet. reflexivity. }
  assert (H2 : pgd_loop orc rg slv 1 x0 (pgd_init x0 tt lg) = Ok st1).
  { apply (pgd_loop_S _ _ _ _ _ _ st1); auto.
    - unfold moved. cbn [pgd_init st_x_prev st_x]. destruct x0; congruence.
    - simpl pgd_loop. rewrite Lx, Nat.eqb_refl. cbn [guard rbind].
      change (Z.of_nat (st_iteration st1) <? s_max_iter slv)%Z with false. rewrite andb_false_r. reflexivity. }
  unfold pgd_optimize. rewrite log_state_quiet by reflexivity. cbn [rbind].
  change (Z.to_nat (s_max_iter slv)) with 1%nat. rewrite H2. reflexivity.
Qed.

(*@ an L1 model covered by the theorem: one step by 1/2 moves both parameters from 1 to 1/2 *)
Lemma ex_line_search_lemma :
  let m := searching (flat_model (PenL1 1) None 1 0) in
  sensible m /\ mo_sr3 m = None /\ mo_stepping m = "line-search" /\
  fit_weights (flat_problem 1 1) None None = Ok ([1], [1]) /\
  convex_penalty m [1; 1] = Some (fun x => 0 / 2 * sqnorm x + 1 * weighted_l1 [1; 1] x) /\
  forall argsort cdf, exists co lg,
    lme_fit_problem argsort cdf m None (flat_problem 1 1) None None false None None = Ok (co, lg) /\
    co_beta co = [/ 2] /\ co_gamma co = [/ 2].
Proof.
  set (m := searching (flat_model (PenL1 1) None 1 0)). cbv zeta. split.
  { unfold sensible. cbn [m searching flat_model mo_penalty mo_eps mo_step_len mo_sr3 penalty_ok].
    split; [lra|]. split; [lra|]. split; intros ? E; discriminate. }
  split; [reflexivity|]. split; [reflexivity|]. split; [reflexivity|]. split; [reflexivity|].
  intros argsort cdf. destruct flat_view as [bm Hov].
  set (c := problem_calls cdf (flat_problem 1 1) None None).
  assert (E : lc_random_effects c [/ 2] [/ 2] = Ok [zeros 1])
    by (apply (@flat_calls_effects 1 1 cdf None [/ 2] [/ 2]); reflexivity).
  assert (V : forall a b, lc_loss c [a] [b] = Ok 0) by (intros a b; apply (@flat_calls_loss 1 1 cdf None [a] [b]); reflexivity).
  assert (Gb : lc_gradient_beta c [1] [1] = Ok (zeros 1)) by (apply (@flat_calls_gradient_beta 1 1 cdf None [1] [1]); reflexivity).
  assert (Gg : lc_gradient_gamma c [1] [1] = Ok (zeros 1)) by (apply (@flat_calls_gradient_gamma 1 1 cdf None [1] [1]); reflexivity).
  set (r := RPos (Some (gamma_mask {| ov_p := 1; ov_q := 1; ov_map := bm |})) (Some (RElastic 0 (Some (RL1 1 (Some [1; 1])))))).
  assert (P : prox argsort r [1; 1] (1 / 2) = Ok [/ 2; / 2]).
  { unfold r. cbn [prox gamma_mask ov_p ov_q repeat app length Nat.eqb guard rbind mask_map map2].
    unfold clip0, nonzero. rewrite (Rmax_left 1 0) by lra.
    assert (N : reqb (1 + 1 / 2 * 0) 0 = false) by (apply reqb_false; lra).
    rewrite N. cbn [negb guard rbind map]. unfold l1_prox. cbn [length Nat.eqb guard rbind map2].
    assert (X : soft (1 / 2 / (1 + 1 / 2 * 0) * 1 * 1) (1 / (1 + 1 / 2 * 0)) = / 2).
    { replace (1 / 2 / (1 + 1 / 2 * 0) * 1 * 1) with (/ 2) by field. replace (1 / (1 + 1 / 2 * 0)) with 1 by field.
      unfold soft, clip0. rewrite Rmax_left, Rmax_right by lra. lra. }
    rewrite X. reflexivity. }
  assert (St : step_length m = Ok (1 / 2)).
  { unfold step_length. change (given_step m) with (@None R). change (mo_sr3 m) with (@None sr3_settings).
    change (mo_penalty m) with (PenL1 1). unfold nonzero. assert (N : reqb (1 + 1) 0 = false) by (apply reqb_false; lra).
    rewrite N. cbn [negb guard rbind]. do 2 f_equal. }
  eexists. eexists. split; [unfold lme_fit_problem; eapply fit_problem_run with (g := None) (beta1 := [1]) (gamma1 := [1]) (us := [zeros 1]) (x := [/ 2; / 2]);
     [exact St|exact Hov|reflexivity|reflexivity|reflexivity|reflexivity|reflexivity|reflexivity| | | |]|].
  - unfold run_solver. rewrite St. cbn [m searching flat_model mo_sr3 mo_penalty rbind mo_tol mo_max_iter mo_stepping].
    change (num_fixed (flat_problem 1 1)) with 1%nat. change (num_random (flat_problem 1 1)) with 1%nat.
    rewrite (pgd_one_search _ _ _ _ ([1] ++ [1]) (zeros 2) [/ 2; / 2]).
    + cbn [rbind]. reflexivity.
    + discriminate.
    + unfold ls_threshold. lra.
    + cbn [lme_as_oracle o_grad]. unfold joint_gradient. cbn [x_to_beta_gamma firstn skipn app].
      fold c. rewrite Gb. cbn [rbind]. rewrite Gg. reflexivity.
    + reflexivity.
    + cbn [as_regularizer r_prox app]. replace (vadd _ _) with [1; 1]; [exact P|].
      cbv [zeros repeat vneg map vscale vadd map2]. f_equal; [ring|f_equal; ring].
    + reflexivity.
    + unfold ls_accept. cbn [lme_as_oracle o_value app]. unfold joint_loss. cbn [x_to_beta_gamma firstn skipn fst snd].
      fold c. rewrite !V. cbn [rbind length Nat.eqb guard]. do 2 f_equal. apply rleb_true.
      cbv [zeros repeat vneg vsub vdot map map2 fold_right norm sqnorm vsum vmul].
      set (n := sqrt _). pose proof (pow2_ge_0 n). replace (1 / (2 * (1 / 2))) with 1 by field. lra.
  - exact E.
  - reflexivity.
  - reflexivity.
  - split; reflexivity.
Qed.
