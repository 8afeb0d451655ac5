(** Final lemmas about the log of the interior-point method, restated as theorems in Properties/LmeTrace.v. *)
(*HEAD
(** Properties C100, C101: what the interior-point method of the SR3 mixed-model oracle reports
    (src/pysr3/lme/oracles.py, src/pysr3/solvers.py). *)
From Verif.Base Require Import Py Vec Mat.
From Verif.Model Require Import LmeProblem Regularizers Solvers LmeInner LmeTrace LmeFit LmeBridge.
From Verif.Spec Require Import InnerSpec TraceSpec FitSpec.
HEAD*)
(*OPEN
Open Scope string_scope.
Open Scope list_scope.
Open Scope R_scope.
OPEN*)
From Coq Require Import Lra Lia String.
From Verif.Base Require Import Py Vec Mat.
From Verif.Model Require Import LmeProblem Regularizers Solvers LmeInner LmeTrace LmeFit LmeBridge.
From Verif.Spec Require Import InnerSpec TraceSpec FitSpec.
From Verif.Proofs Require Import VecFacts MatFacts SolverProofs InnerProofs InnerIP LmeInnerMain FitProofs BridgeProofs
  TraceProofs LmeFitMain LmeStationaryMain.
Open Scope string_scope.
Open Scope list_scope.
Open Scope R_scope.

(** ** runs of the sample oracle *)
Lemma body_directions calls opts p q solve ms n s s' : ip_body calls opts p q solve ms n s = Ok s' ->
  exists f df d, ip_F calls (is_lam s) (is_tbeta s) (is_tgamma s) n (is_x s) (is_mu s) = Ok f /\
    ip_dF calls (is_lam s) n (is_x s) = Ok df /\ solve df (vneg f) = Ok d.
Proof.
  intros H. unfold ip_body in H. apply rbind_inv in H. destruct H as [f [Ff H]].
  apply rbind_inv in H. destruct H as [df [Fd H]]. apply rbind_inv in H. destruct H as [d [Fs _]]. exists f, df, d. repeat split; assumption.
Qed.
Lemma bowl_F l b g tb tg mu : exists f, ip_F bowl l tb tg 1 [b; g] mu = Ok f.
Proof. unfold ip_F. cbn [bowl sc_gradient_beta sc_gradient_gamma rbind]. eexists. reflexivity. Qed.
Lemma bowl_good opts s : exists b, good_stop bowl opts 1 s = Ok b.
Proof. unfold good_stop, ip_F. cbn [bowl sc_gradient_beta sc_gradient_gamma rbind]. eexists. reflexivity. Qed.
Lemma bowl_trace : exists lg, find_ip_log bowl (plain_options 1) 1 1 (knows [-95/100; 0; 5/100]) no_minimiser true fresh_memory
  [0] [1] [0] [1] bowl_logger = Ok lg.
Proof.
  destruct (bowl_body [-95/100; 0; 5/100] 1 1 (or_introl (conj eq_refl eq_refl))) as [s B].
  unfold find_ip_log. cbn [length Nat.ltb Nat.leb guard rbind]. change (Z.to_nat (io_n_iter (plain_options 1))) with 1%nat.
  set (l1 := {| lg_kind := KTuple; lg_keys := ["mu_effective"]; lg_dict := [("mu_effective", LList [])] |}).
  set (lg := {| lg_kind := KTuple; lg_keys := ["mu_effective"; "mu"]; lg_dict := [("mu_effective", LList []); ("mu", LList [])] |}).
  change (add bowl_logger "mu_effective" (LList [])) with (Ok l1). cbn [rbind].
  change (add l1 "mu" (LList [])) with (Ok lg). cbn [rbind].
  assert (C : ip_continue bowl (plain_options 1) 1 (ip_start true fresh_memory [0] [1] [0] [1]) = Ok true).
  { unfold ip_continue, ip_start, ip_F. cbn -[rltb norm vdot Rdiv nonzero].
    replace (nonzero 1) with true by (symmetry; apply nonzero_true; lra). cbn [andb].
    replace (rltb (/ 1000000) (/ 10 * vdot [1] [1] / 1)) with true; [rewrite orb_true_r; reflexivity|].
    symmetry. apply rltb_true. unfold vdot. cbn. lra. }
  assert (D : ip_continue bowl (plain_options 1) 1 s = Ok false).
  { unfold ip_continue. rewrite (ip_body_iter _ _ _ _ _ _ _ _ _ B). cbn [ip_start is_iter sm_warm fresh_memory].
    rewrite andb_comm. reflexivity. }
  destruct (body_directions _ _ _ _ _ _ _ _ _ B) as (f & df & d & Ff & Fd & Fs).
  destruct (bowl_good (plain_options 1) s) as [b Gb].
  assert (L : exists tx lg', ip_log_step bowl (plain_options 1) (knows [-95/100; 0; 5/100]) 1
    (ip_start true fresh_memory [0] [1] [0] [1]) s None lg = Ok (tx, lg') /\ lg_kind lg' = KTuple).
  { unfold ip_log_step. destruct (ip_off_path _ _ _); [do 2 eexists; split; reflexivity|].
    rewrite Ff, Fd. cbn [rbind]. rewrite Fs. cbn [rbind]. do 2 eexists. split; reflexivity. }
  destruct L as (tx & lg' & L & K).
  cbn [ip_trace]. rewrite C. cbn [rbind]. rewrite B. cbn [rbind]. rewrite L. cbn [rbind]. rewrite D. cbn [rbind].
  rewrite Gb. cbn [rbind]. unfold add. destruct (has_key "good_stopping_reason" (lg_keys lg')); rewrite ?K; cbn [rbind lg_keys lg_kind lg_dict].
  - destruct (has_key "iteration" _); rewrite ?K; eexists; reflexivity.
  - destruct (has_key "iteration" _); eexists; reflexivity.
Qed.
Lemma bowl_trace_asking : exists lg, find_ip_log bowl (plain_options 1) 1 1 (knows [-95/100; 0; 5/100]) no_minimiser true fresh_memory
  [0] [1] [0] [1] (asking_logger "prev_gamma") = Ok lg.
Proof.
  destruct (bowl_body [-95/100; 0; 5/100] 1 1 (or_introl (conj eq_refl eq_refl))) as [s B].
  unfold find_ip_log. cbn [length Nat.ltb Nat.leb guard rbind]. change (Z.to_nat (io_n_iter (plain_options 1))) with 1%nat.
  set (l1 := {| lg_kind := KTuple; lg_keys := ["prev_gamma"; "mu_effective"]; lg_dict := [("prev_gamma", LList []); ("mu_effective", LList [])] |}).
  set (lg := {| lg_kind := KTuple; lg_keys := ["prev_gamma"; "mu_effective"; "mu"]; lg_dict := [("prev_gamma", LList []); ("mu_effective", LList []); ("mu", LList [])] |}).
  change (add (asking_logger "prev_gamma") "mu_effective" (LList [])) with (Ok l1). cbn [rbind].
  change (add l1 "mu" (LList [])) with (Ok lg). cbn [rbind].
  assert (C : ip_continue bowl (plain_options 1) 1 (ip_start true fresh_memory [0] [1] [0] [1]) = Ok true).
  { unfold ip_continue, ip_start, ip_F. cbn -[rltb norm vdot Rdiv nonzero].
    replace (nonzero 1) with true by (symmetry; apply nonzero_true; lra). cbn [andb].
    replace (rltb (/ 1000000) (/ 10 * vdot [1] [1] / 1)) with true; [rewrite orb_true_r; reflexivity|].
    symmetry. apply rltb_true. unfold vdot. cbn. lra. }
  assert (D : ip_continue bowl (plain_options 1) 1 s = Ok false).
  { unfold ip_continue. rewrite (ip_body_iter _ _ _ _ _ _ _ _ _ B). cbn [ip_start is_iter sm_warm fresh_memory].
    rewrite andb_comm. reflexivity. }
  destruct (body_directions _ _ _ _ _ _ _ _ _ B) as (f & df & d & Ff & Fd & Fs).
  destruct (bowl_good (plain_options 1) s) as [b Gb].
  assert (L : exists tx lg', ip_log_step bowl (plain_options 1) (knows [-95/100; 0; 5/100]) 1
    (ip_start true fresh_memory [0] [1] [0] [1]) s None lg = Ok (tx, lg') /\ lg_kind lg' = KTuple).
  { unfold ip_log_step. destruct (ip_off_path _ _ _); [do 2 eexists; split; reflexivity|].
    rewrite Ff, Fd. cbn [rbind]. rewrite Fs. cbn [rbind]. do 2 eexists. split; reflexivity. }
  destruct L as (tx & lg' & L & K).
  cbn [ip_trace]. rewrite C. cbn [rbind]. rewrite B. cbn [rbind]. rewrite L. cbn [rbind]. rewrite D. cbn [rbind].
  rewrite Gb. cbn [rbind]. unfold add. destruct (has_key "good_stopping_reason" (lg_keys lg')); rewrite ?K; cbn [rbind lg_keys lg_kind lg_dict].
  - destruct (has_key "iteration" _); rewrite ?K; eexists; reflexivity.
  - destruct (has_key "iteration" _); eexists; reflexivity.
Qed.

(*@ C100.  If the method returns, its log holds the number of iterations, the barrier parameters "mu" after the iterations
    that ended near the central path, in order, with the averages "mu_effective" they were computed from, and
    "good_stopping_reason", which is True if and only if barrier and residual are below the tolerance. *)
Lemma interior_point_log_lemma : forall calls opts p q solve ms warm mem beta gamma tbeta tgamma lg lg',
  tgamma <> [] -> length (start_gamma warm mem gamma) = length gamma -> NoDup (lg_keys lg) ->
  find_ip_log calls opts p q solve ms warm mem beta gamma tbeta tgamma lg = Ok lg' ->
  exists path s mem',
    find_ip calls opts p q solve ms warm mem beta gamma tbeta tgamma =
      Ok (is_beta s, is_gamma s, is_tbeta s, is_tgamma s, mem') /\
    ip_path calls opts p q solve ms (length gamma) (ip_start warm mem beta gamma tbeta tgamma) path s /\
    (Z.of_nat (length path) <= Z.max 0 (io_n_iter opts))%Z /\ (0 < length gamma)%nat /\
    ip_logged calls opts (length gamma) path s lg'.
Proof. intros. eapply find_ip_logged; eassumption. Qed.
(*@ C100.  A requested local variable of the table (the iterates, the previous iterates, the relaxed parameters, the step
    and the options) is logged once per iteration that ended near the central path, in order, with its value then. *)
Lemma interior_point_log_values_lemma : forall calls opts p q solve ms warm mem beta gamma tbeta tgamma lg lg' k f l,
  tgamma <> [] -> length (start_gamma warm mem gamma) = length gamma -> NoDup (lg_keys lg) ->
  find_ip_log calls opts p q solve ms warm mem beta gamma tbeta tgamma lg = Ok lg' ->
  In (k, f) (ip_recorded opts (length gamma)) -> In k (lg_keys lg) -> get lg k = Ok (LList l) ->
  let s0 := ip_start warm mem beta gamma tbeta tgamma in
  exists path s steps, ip_path calls opts p q solve ms (length gamma) s0 path s /\
    get lg' "iteration" = Ok (LAtom (LNum (INR (length path)))) /\
    picked (fun t => centred opts (length gamma) (snd t)) (iterations_of s0 path) steps /\
    get lg' k = Ok (LList (l ++ map (fun t => f (fst t) (snd t)) steps)).
Proof.
  intros. eapply find_ip_record; eassumption.
Qed.
(*@ A run that was asked for "prev_gamma". *)
Lemma ex_interior_point_log_values_lemma :
  let lg0 := asking_logger "prev_gamma" in
  NoDup (lg_keys lg0) /\ length (start_gamma true fresh_memory [1]) = length [1] /\
  In ("prev_gamma", fun s _ => LVec (is_gamma s)) (ip_recorded (plain_options 1) 1) /\
  In "prev_gamma" (lg_keys lg0) /\ get lg0 "prev_gamma" = Ok (LList []) /\
  exists lg, find_ip_log bowl (plain_options 1) 1 1 (knows [-95/100; 0; 5/100]) no_minimiser true fresh_memory
    [0] [1] [0] [1] lg0 = Ok lg.
Proof.
  split; [repeat constructor; intros []|]. split; [reflexivity|]. split; [cbn; tauto|]. split; [left; reflexivity|].
  split; [reflexivity|exact bowl_trace_asking].
Qed.
(*@ non-vacuous: a run of one iteration *)
Lemma ex_interior_point_log_lemma : NoDup (lg_keys bowl_logger) /\ length (start_gamma true fresh_memory [1]) = length [1] /\
  exists lg, find_ip_log bowl (plain_options 1) 1 1 (knows [-95/100; 0; 5/100]) no_minimiser true fresh_memory
    [0] [1] [0] [1] bowl_logger = Ok lg.
Proof. split; [constructor|]. split; [reflexivity|exact bowl_trace]. Qed.

(** ** the fitted models *)
Lemma practical_log argsort cdf m ss coef pr beta0 gamma0 warm fe re co lg :
  mo_sr3 m = Some ss -> ss_practical ss = true ->
  lme_fit_problem argsort cdf m coef pr beta0 gamma0 warm fe re = Ok (co, lg) ->
  exists g bg0 b1 g1 r lg0 lg1 x mem,
    let c := problem_calls cdf pr g (Some ss) in
    let o := ip_options_of ss (Some (r_prox (as_regularizer argsort r))) in
    prior_of m pr = Ok g /\ start_point coef warm beta0 gamma0 (num_fixed pr) (num_random pr) = Ok bg0 /\
    initialize m (num_random pr) (num_groups pr) c bg0 = Ok (b1, g1) /\
    fitted_reg m pr fe re r /\
    mk_logger (Some (mo_keys m)) = Ok lg0 /\
    find_optimal_parameters_log (lc_sr3 c) o (num_fixed pr) (num_random pr) list_solve no_minimizer (ss_warm ss)
      (sr3_start ss) (b1 ++ g1) lg0 = Ok lg1 /\
    find_optimal_parameters (lc_sr3 c) o (num_fixed pr) (num_random pr) list_solve no_minimizer (ss_warm ss)
      (sr3_start ss) (b1 ++ g1) = Ok (x, mem) /\
    (co_beta co, co_gamma co) = x_to_beta_gamma (num_fixed pr) (num_random pr) x /\
    get lg "converged" = Ok (LAtom (LBool true)) /\
    (forall k, ~ In k ["loss"; "converged"; "vaida_aic"; "vaida_aic_marginalized"; "jones_bic"; "muller_ic";
                       "flip_probabilities_beta"] -> get lg k = get lg1 k).
Proof.
  intros Hs Hp H.
  destruct (fit_problem_inv _ _ _ _ _ _ _ _ _ _ _ _ _ H) as
    (ov & g & wf & wr & r0 & r & bg0 & b1 & g1 & lg0 & x & lg1 & Hov & Hpr & Hw & Hr0 & Hr & Hst & Hn & Hk & Hx & Hc & _ & _ & _ & Hlog).
  rewrite Hs in *. unfold run_solver in Hx. apply rbind_inv in Hx. destruct Hx as [step [_ Hx]]. rewrite Hs, Hp in Hx.
  apply rbind_inv in Hx. destruct Hx as [[[x1 lg2] mem] [Hx E]]. injection E as <- <-.
  unfold fake_pgd_optimize in Hx. apply rbind_inv in Hx. destruct Hx as [[[x2 lg3] mem2] [Hx E]].
  apply rbind_inv in Hx. destruct Hx as [lg4 [HL Hx]]. apply rbind_inv in Hx. destruct Hx as [[x3 mem3] [HF E2]].
  injection E2 as <- <- <-. apply rbind_inv in E. destruct E as [[lg5 mem5] [H5 E]].
  apply rbind_inv in E. destruct E as [lg6 [H6 E]]. injection E as <- <- _.
  exists g, bg0, b1, g1, r, lg0, lg4, x3, mem3. cbv zeta.
  repeat (split; [first [assumption|exists ov, wf, wr, r0; auto]|]).
  assert (E5 : forall k, k <> "loss" -> get lg5 k = get lg4 k).
  { intros k K. destruct (has_key "loss" (lg_keys lg4)); [|injection H5 as <- _; reflexivity].
    apply rbind_inv in H5. destruct H5 as [[f s'] [_ H5]]. apply rbind_inv in H5. destruct H5 as [v [_ H5]].
    apply rbind_inv in H5. destruct H5 as [lg' [H5 E]]. injection E as <- _. rewrite (add_get _ _ _ _ _ H5).
    apply String.eqb_neq in K. rewrite K. reflexivity. }
  split.
  - rewrite (log_criteria_get _ _ _ _ _ _ "converged" Hlog).
    + rewrite (add_get _ _ _ _ _ H6). reflexivity.
    + cbn [In]. intros [K|[K|[K|[K|[K|K]]]]]; try discriminate; exact K.
  - intros k K. cbn [In] in K. rewrite (log_criteria_get _ _ _ _ _ _ k Hlog) by (cbn [In]; tauto).
    rewrite (add_get _ _ _ _ _ H6). assert (N : k <> "converged") by (intros ->; tauto).
    apply String.eqb_neq in N. rewrite N. apply E5. intros ->; tauto.
Qed.

(*@ C100.  A practical SR3 mixed model with random effects: after a fit its log holds all this about the one run of the
    method that produced the coefficients, started from twice the starting point. *)
Lemma fit_logs_interior_point_lemma : forall argsort cdf m ss coef pr beta0 gamma0 warm fe re co lg,
  mo_sr3 m = Some ss -> ss_practical ss = true -> NoDup (snd (mo_keys m)) ->
  lme_fit_problem argsort cdf m coef pr beta0 gamma0 warm fe re = Ok (co, lg) ->
  exists g bg0 b1 g1 r tb tg,
    let c := problem_calls cdf pr g (Some ss) in
    let o := ip_options_of ss (Some (r_prox (as_regularizer argsort r))) in
    prior_of m pr = Ok g /\ start_point coef warm beta0 gamma0 (num_fixed pr) (num_random pr) = Ok bg0 /\
    initialize m (num_random pr) (num_groups pr) c bg0 = Ok (b1, g1) /\ fitted_reg m pr fe re r /\
    x_to_beta_gamma (num_fixed pr) (num_random pr) (b1 ++ g1) = (tb, tg) /\
    get lg "converged" = Ok (LAtom (LBool true)) /\
    (tg <> [] -> exists path s,
       ip_path (lc_sr3 c) o (num_fixed pr) (num_random pr) list_solve no_minimizer (length tg)
         (ip_start (ss_warm ss) (sr3_start ss) (vscale 2 tb) (vscale 2 tg) tb tg) path s /\
       (Z.of_nat (length path) <= Z.max 0 (ss_max_iter ss))%Z /\
       ip_logged (lc_sr3 c) o (length tg) path s lg /\
       (co_beta co, co_gamma co) = x_to_beta_gamma (num_fixed pr) (num_random pr) (is_tbeta s ++ is_tgamma s)).
Proof.
  intros argsort cdf m ss coef pr beta0 gamma0 warm fe re co lg Hs Hp Hk H.
  destruct (practical_log _ _ _ _ _ _ _ _ _ _ _ _ _ Hs Hp H) as
    (g & bg0 & b1 & g1 & r & lg0 & lg1 & x & mem & A1 & A2 & A3 & A4 & A5 & A6 & A7 & A8 & A9 & A10).
  destruct (x_to_beta_gamma (num_fixed pr) (num_random pr) (b1 ++ g1)) as [tb tg] eqn:X.
  exists g, bg0, b1, g1, r, tb, tg. cbv zeta. repeat (split; [assumption|]). intros T.
  unfold find_optimal_parameters_log in A6. unfold find_optimal_parameters in A7. rewrite X in A6, A7.
  assert (N : NoDup (lg_keys lg0)).
  { unfold mk_logger in A5. destruct (mo_keys m) as [kd ks]. injection A5 as <-. exact Hk. }
  assert (L : length (start_gamma (ss_warm ss) (sr3_start ss) (vscale 2 tg)) = length (vscale 2 tg))
    by (unfold start_gamma; cbn; destruct (ss_warm ss); reflexivity).
  destruct (find_ip_logged _ _ _ _ _ _ _ _ _ _ _ _ _ _ T L N A6) as (path & s & mem' & B1 & B2 & B3 & B4 & B5).
  rewrite B1 in A7. cbn [rbind] in A7. injection A7 as <- _.
  rewrite vscale_length in B2, B4, B5. exists path, s. split; [exact B2|]. split; [exact B3|]. split; [|exact A8].
  destruct B5 as (G1 & (steps & S & G2 & G3 & G4) & b & G5 & G6). split; [|split].
  - rewrite A10; [exact G1|]. cbn [In]. intuition discriminate.
  - exists steps. split; [exact S|]. rewrite !A10 by (cbn [In]; intuition discriminate). auto.
  - exists b. split; [|exact G6]. rewrite A10 by (cbn [In]; intuition discriminate). exact G5.
Qed.

Lemma path_nonneg calls opts p q solve ms warm mem beta gamma tb tg path s :
  (0 < length gamma)%nat -> length (start_gamma warm mem gamma) = length gamma -> nonneg (start_gamma warm mem gamma) ->
  (io_line_search opts = true -> minimiser_in_bounds ms) ->
  ip_path calls opts p q solve ms (length gamma) (ip_start warm mem beta gamma tb tg) path s ->
  packed_with nonneg (length gamma) s.
Proof. intros N L P M H. eapply interior_point_nonneg_partial_lemma; eauto. eapply path_steps; eauto. Qed.
Lemma fresh_log ks lg k v : mk_logger (Some ks) = Ok lg -> get lg k = Ok (LAtom v) -> False.
Proof.
  unfold mk_logger. destruct ks as [kd ks]. intros H. injection H as <-. unfold get. cbn [lg_dict].
  rewrite fold_set_lookup. destruct (has_key k ks); discriminate.
Qed.
Lemma nonneg_double x : nonneg x -> nonneg (vscale 2 x).
Proof. intros H. apply Forall_map. eapply Forall_impl; [|exact H]. cbn. intros. lra. Qed.

(*@ C101.  "good_stopping_reason" True: from non-negative starting variances, the point the method ended at has non-negative
    variances and satisfies the first-order conditions for minimising the relaxed loss over them, up to the tolerance. *)
Lemma good_stop_is_optimal_lemma : forall calls opts p q solve ms warm mem beta gamma tbeta tgamma lg lg',
  tgamma <> [] -> length (start_gamma warm mem gamma) = length gamma -> NoDup (lg_keys lg) ->
  nonneg (start_gamma warm mem gamma) -> (io_line_search opts = true -> minimiser_in_bounds ms) ->
  variance_sized calls (length gamma) ->
  find_ip_log calls opts p q solve ms warm mem beta gamma tbeta tgamma lg = Ok lg' ->
  get lg' "good_stopping_reason" = Ok (LAtom (LBool true)) ->
  exists s mem', find_ip calls opts p q solve ms warm mem beta gamma tbeta tgamma =
      Ok (is_beta s, is_gamma s, is_tbeta s, is_tgamma s, mem') /\ near_optimal calls s (io_tol opts).
Proof.
  intros calls opts p q solve ms warm mem beta gamma tbeta tgamma lg lg' T L N P M W H G.
  destruct (find_ip_logged _ _ _ _ _ _ _ _ _ _ _ _ _ _ T L N H) as (path & s & mem' & B1 & B2 & B3 & B4 & _ & _ & b & B5 & B6).
  exists s, mem'. split; [exact B1|]. rewrite G in B5. injection B5 as <-.
  eapply solved_near; [|exact W|apply B6; reflexivity]. eapply path_nonneg; eauto.
Qed.
(*@ non-vacuous: a run with a tolerance of 2 that needs no iteration *)
Lemma ex_good_stop_is_optimal_lemma :
  let o := with_tol (plain_options 0) 2 in
  nonneg (start_gamma true fresh_memory [1]) /\ variance_sized bowl 1 /\
  exists lg, find_ip_log bowl o 1 1 (knows [-95/100; 0; 5/100]) no_minimiser true fresh_memory [0] [1] [0] [1] bowl_logger = Ok lg /\
    get lg "good_stopping_reason" = Ok (LAtom (LBool true)).
Proof.
  cbv zeta. split; [repeat constructor; lra|]. split.
  { intros l b g tb tg r Hg H. cbn in H. injection H as <-. rewrite map_length. exact Hg. }
  unfold find_ip_log. cbn [length Nat.ltb Nat.leb guard rbind].
  set (l1 := {| lg_kind := KTuple; lg_keys := ["mu_effective"]; lg_dict := [("mu_effective", LList [])] |}).
  set (lg := {| lg_kind := KTuple; lg_keys := ["mu_effective"; "mu"]; lg_dict := [("mu_effective", LList []); ("mu", LList [])] |}).
  change (add bowl_logger "mu_effective" (LList [])) with (Ok l1). cbn [rbind].
  change (add l1 "mu" (LList [])) with (Ok lg). cbn [rbind].
  change (Z.to_nat (io_n_iter (with_tol (plain_options 0) 2))) with 0%nat.
  set (s := ip_start true fresh_memory [0] [1] [0] [1]).
  assert (C : ip_continue bowl (with_tol (plain_options 0) 2) 1 s = Ok false).
  { unfold ip_continue. cbn [with_tol io_n_iter plain_options s ip_start is_iter sm_warm fresh_memory].
    rewrite andb_comm. reflexivity. }
  cbn [ip_trace]. rewrite C. cbn [rbind].
  assert (G : good_stop bowl (with_tol (plain_options 0) 2) 1 s = Ok true).
  { unfold good_stop, ip_F. cbn -[rltb norm vdot Rdiv]. f_equal. apply andb_true_intro. split; apply rltb_true.
    - unfold norm. rewrite <- (sqrt_pow2 2) by lra. apply sqrt_lt_1_alt. unfold sqnorm, vdot. cbn. lra.
    - unfold vdot. cbn. lra. }
  rewrite G. cbn [rbind add has_key existsb lg_keys lg_kind lg_dict app String.eqb dict_set Ascii.eqb Bool.eqb orb].
  eexists. split; reflexivity.
Qed.

(*@ C101.  A practical SR3 mixed model that logs "good_stopping_reason" True: the inner parameters of the run behind the
    returned coefficients satisfy these conditions for the likelihood with the relaxation, up to tol_oracle. *)
Lemma fit_good_stop_is_optimal_lemma : forall argsort cdf m ss coef pr beta0 gamma0 warm fe re co lg,
  mo_sr3 m = Some ss -> ss_practical ss = true -> NoDup (snd (mo_keys m)) ->
  opt_all (fun b => length b = num_fixed pr) beta0 -> opt_all nonneg gamma0 ->
  lme_fit_problem argsort cdf m coef pr beta0 gamma0 warm fe re = Ok (co, lg) ->
  get lg "good_stopping_reason" = Ok (LAtom (LBool true)) ->
  exists g s, prior_of m pr = Ok g /\
    near_optimal (lc_sr3 (problem_calls cdf pr g (Some ss))) s (ss_tol ss) /\ is_lam s = sm_lam (sr3_start ss) /\
    (co_beta co, co_gamma co) = x_to_beta_gamma (num_fixed pr) (num_random pr) (is_tbeta s ++ is_tgamma s).
Proof.
  intros argsort cdf m ss coef pr beta0 gamma0 warm fe re co lg Hs Hp Hk Hb Hg H G.
  destruct (practical_log _ _ _ _ _ _ _ _ _ _ _ _ _ Hs Hp H) as
    (g & bg0 & b1 & g1 & r & lg0 & lg1 & x & mem & A1 & A2 & A3 & A4 & A5 & A6 & A7 & A8 & _ & A10).
  rewrite A10 in G by (cbn [In]; intuition discriminate).
  rewrite start_pointE in A2. injection A2 as <-.
  set (c := problem_calls cdf pr g (Some ss)) in *. destruct (problem_calls_sized cdf pr g (Some ss)) as (S1 & S2 & _).
  fold c in S1, S2.
  assert (Lb : length (match beta0 with Some b => b | None => ones (num_fixed pr) end) = num_fixed pr)
    by (destruct beta0 as [v|]; [apply Hb; reflexivity|apply ones_length]).
  assert (Ng : nonneg (match gamma0 with Some g => g | None => ones (num_random pr) end))
    by (destruct gamma0 as [v|]; [apply Hg; reflexivity|apply nonneg_ones]).
  destruct (initialize_start _ _ _ _ _ _ _ _ _ S1 S2 Lb Ng A3) as [L1 N1].
  assert (X : x_to_beta_gamma (num_fixed pr) (num_random pr) (b1 ++ g1) = (b1, firstn (num_random pr) g1)).
  { unfold x_to_beta_gamma. rewrite <- L1. rewrite firstn_app, firstn_all, Nat.sub_diag, skipn_app, skipn_all, Nat.sub_diag.
    cbn [firstn skipn app]. rewrite app_nil_r. reflexivity. }
  unfold find_optimal_parameters_log in A6. unfold find_optimal_parameters in A7. rewrite X in A6, A7.
  assert (N : NoDup (lg_keys lg0)).
  { unfold mk_logger in A5. destruct (mo_keys m) as [kd ks]. injection A5 as <-. exact Hk. }
  destruct (firstn (num_random pr) g1) as [|t tg] eqn:T.
  { exfalso. cbn in A6. injection A6 as <-. exact (fresh_log _ _ _ _ A5 G). }
  assert (Nt : nonneg (t :: tg)) by (rewrite <- T; rewrite <- (firstn_skipn (num_random pr) g1) in N1; apply Forall_app in N1; apply N1).
  assert (E : t :: tg <> []) by discriminate. set (tg' := t :: tg) in *. clearbody tg'.
  assert (L : start_gamma (ss_warm ss) (sr3_start ss) (vscale 2 tg') = vscale 2 tg')
    by (unfold start_gamma; cbn; destruct (ss_warm ss); reflexivity).
  destruct (find_ip_logged _ _ _ _ _ _ _ _ _ _ _ _ _ _ E (f_equal (@length R) L) N A6)
    as (path & s & mem' & B1 & B2 & B3 & B4 & _ & _ & b & B5 & B6).
  rewrite B1 in A7. cbn [rbind] in A7. injection A7 as <- _. rewrite G in B5. injection B5 as <-.
  exists g, s. split; [exact A1|]. split; [|split; [|exact A8]].
  - apply (solved_near (lc_sr3 c) (ip_options_of ss (Some (r_prox (as_regularizer argsort r)))) (length (vscale 2 tg'))).
    + refine (path_nonneg _ _ _ _ _ _ _ _ _ _ _ _ _ _ B4 _ _ _ B2); [rewrite L; reflexivity|rewrite L; apply nonneg_double, Nt|discriminate].
    + intros l bb gm tb2 tg2 r' Hl Hr'. rewrite <- Hl. exact (@problem_calls_gradient_length cdf pr g (Some ss) _ _ _ _ _ _ Hr').
    + apply B6. reflexivity.
  - destruct (ip_startE (length (vscale 2 tg')) (ss_warm ss) (sr3_start ss) (vscale 2 b1) (vscale 2 tg') b1 tg' eq_refl)
      as (X1 & _ & X2 & _ & _ & _ & _ & X3 & _). rewrite <- X3. eapply path_lam; [|exact B2|]; [reflexivity|].
    exists (ones (length (vscale 2 tg'))). split; [apply ones_length|]. split; [rewrite X2, L; reflexivity|exact X1].
Qed.
(** a practical fit that logs a good reason to stop *)
Lemma loose_find cdf rg : let c := lc_sr3 (problem_calls cdf (flat_problem 1 1) None (Some loose_settings)) in
  let o := ip_options_of loose_settings (Some rg) in
  let lg0 := {| lg_kind := KTuple; lg_keys := []; lg_dict := [] |} in
  find_optimal_parameters_log c o 1 1 list_solve no_minimizer true (sr3_start loose_settings) [0; 0] lg0 =
    Ok {| lg_kind := KTuple; lg_keys := ["mu_effective"; "mu"; "good_stopping_reason"; "iteration"];
          lg_dict := [("mu_effective", LList []); ("mu", LList []); ("good_stopping_reason", LAtom (LBool true));
                      ("iteration", LAtom (LNum 0))] |} /\
  exists mem, find_optimal_parameters c o 1 1 list_solve no_minimizer true (sr3_start loose_settings) [0; 0] = Ok ([0; 0], mem).
Proof.
  cbv zeta. unfold find_optimal_parameters_log, find_optimal_parameters.
  change (x_to_beta_gamma 1 1 [0; 0]) with ([0], [0]). cbv iota beta.
  assert (D : vscale 2 [0] = [0]) by (cbn; f_equal; lra). rewrite D. clear D.
  unfold find_ip_log, find_ip. cbn [length Nat.ltb Nat.leb guard rbind].
  change (Z.to_nat (io_n_iter (ip_options_of loose_settings (Some rg)))) with 0%nat.
  set (c := lc_sr3 _). set (o := ip_options_of _ _). set (s := ip_start true (sr3_start loose_settings) [0] [0] [0] [0]).
  assert (C : ip_continue c o 1 s = Ok false) by (unfold ip_continue; rewrite andb_comm; reflexivity).
  assert (G : good_stop c o 1 s = Ok true).
  { destruct (@flat_calls_sr3_gradients 1 1 cdf (Some loose_settings) [0] [0] eq_refl eq_refl (is_lam s)) as [G1 G2].
    change (sc_gradient_beta c (is_lam s) [0] [0] [0] [0] = Ok (zeros 1)) in G1.
    change (sc_gradient_gamma c (is_lam s) [0] [0] [0] [0] = Ok (zeros 1)) in G2.
    unfold good_stop, ip_F.
    change (ip_b 1 (is_x s)) with [0]. change (ip_g 1 (is_x s)) with [0]. change (ip_v 1 (is_x s)) with [1].
    change (is_tbeta s) with [0]. change (is_tgamma s) with [0].
    rewrite G1. cbn [rbind]. rewrite G2. cbn [rbind]. f_equal.
    replace (is_mu s) with 0 by (unfold s; cbn; lra). cbn -[rltb norm]. apply andb_true_intro.
    split; apply rltb_true; [|unfold o; cbn; lra].
    unfold norm. change (io_tol o) with 2. rewrite <- (sqrt_pow2 2) by lra. apply sqrt_lt_1_alt. unfold sqnorm, vdot. cbn. lra. }
  cbn [ip_loop ip_trace]. rewrite C. cbn [rbind].
  set (l1 := {| lg_kind := KTuple; lg_keys := []; lg_dict := [] |}).
  assert (A : (let! lg1 := add l1 "mu_effective" (LList []) in add lg1 "mu" (LList [])) =
    Ok {| lg_kind := KTuple; lg_keys := ["mu_effective"; "mu"]; lg_dict := [("mu_effective", LList []); ("mu", LList [])] |}) by reflexivity.
  split; [|eexists; reflexivity].
  destruct (add l1 "mu_effective" (LList [])) as [l2|]; [|discriminate]. cbn [rbind] in A. cbn [rbind]. rewrite A. cbn [rbind].
  rewrite G. cbn [rbind]. reflexivity.
Qed.
Lemma loose_run cdf rg : run_solver list_solve (flat_model PenNone (Some loose_settings) 0 0) 1 1
    (problem_calls cdf (flat_problem 1 1) None (Some loose_settings)) rg [0; 0] {| lg_kind := KTuple; lg_keys := []; lg_dict := [] |} =
  Ok ([0; 0], {| lg_kind := KTuple; lg_keys := ["mu_effective"; "mu"; "good_stopping_reason"; "iteration"; "converged"];
          lg_dict := [("mu_effective", LList []); ("mu", LList []); ("good_stopping_reason", LAtom (LBool true));
                      ("iteration", LAtom (LNum 0)); ("converged", LAtom (LBool true))] |}).
Proof.
  unfold run_solver. assert (St : step_length (flat_model PenNone (Some loose_settings) 0 0) = Ok (1 / 40)).
  { unfold step_length. cbn [flat_model mo_step_len mo_sr3 loose_settings ss_ell given_step].
    replace (reqb 40 0) with false; [reflexivity|]. symmetry. apply reqb_false. lra. }
  rewrite St. cbn [rbind flat_model mo_sr3]. change (ss_practical loose_settings) with true. change (ss_warm loose_settings) with true.
  cbv iota. unfold fake_pgd_optimize.
  destruct (loose_find cdf (r_prox rg)) as [F1 [mem F2]]. cbv zeta in F1, F2. rewrite F1. cbn [rbind]. rewrite F2. cbn [rbind].
  reflexivity.
Qed.
Lemma loose_fit argsort cdf : exists co lg,
  lme_fit_problem argsort cdf (flat_model PenNone (Some loose_settings) 0 0) None (flat_problem 1 1)
    (Some [0]) (Some [0]) false None None = Ok (co, lg) /\
  get lg "good_stopping_reason" = Ok (LAtom (LBool true)).
Proof.
  set (m := flat_model PenNone (Some loose_settings) 0 0).
  set (c := problem_calls cdf (flat_problem 1 1) None (Some loose_settings)).
  assert (E : lc_random_effects c [0] [0] = Ok [zeros 1])
    by (apply (@flat_calls_effects 1 1 cdf (Some loose_settings) [0] [0]); reflexivity).
  do 2 eexists. split.
  - unfold lme_fit_problem. eapply fit_problem_run with (g := None) (beta1 := [0]) (gamma1 := [0]) (us := [zeros 1]) (x := [0; 0]); try reflexivity.
    + apply loose_run.
    + exact E.
    + reflexivity.
  - reflexivity.
Qed.
(*@ non-vacuous: a practical model and a problem with a random effect *)
Lemma ex_fit_logs_interior_point_lemma : forall argsort cdf, exists m co lg,
  m = flat_model PenNone (Some loose_settings) 0 0 /\ NoDup (snd (mo_keys m)) /\
  lme_fit_problem argsort cdf m None (flat_problem 1 1) (Some [0]) (Some [0]) false None None = Ok (co, lg).
Proof.
  intros argsort cdf. destruct (loose_fit argsort cdf) as (co & lg & H & _). do 3 eexists. split; [reflexivity|].
  split; [constructor|exact H].
Qed.
(*@ non-vacuous: the same run logs "good_stopping_reason" True *)
Lemma ex_fit_good_stop_is_optimal_lemma : forall argsort cdf, exists m co lg,
  m = flat_model PenNone (Some loose_settings) 0 0 /\ NoDup (snd (mo_keys m)) /\
  lme_fit_problem argsort cdf m None (flat_problem 1 1) (Some [0]) (Some [0]) false None None = Ok (co, lg) /\
  get lg "good_stopping_reason" = Ok (LAtom (LBool true)) /\ opt_all nonneg (Some [0]).
Proof.
  intros argsort cdf. destruct (loose_fit argsort cdf) as (co & lg & H & G). do 3 eexists. split; [reflexivity|].
  split; [constructor|]. split; [exact H|]. split; [exact G|]. intros v Hv. injection Hv as <-. constructor; [apply Rle_refl|constructor].
Qed.
