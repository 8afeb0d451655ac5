(** Runs of the mixed models with line search, when the likelihood is bounded below. *)
From Coq Require Import Lra Psatz String.
From Verif.Base Require Import Py Vec Mat.
From Verif.Model Require Import LmeProblem Regularizers Solvers Linear LmeInner LmeFit LmeBridge.
From Verif.Spec Require Import ProxSpec RegSpec SolverSpec LinearSpec RateSpec ConvergeSpec LmeSpec InnerSpec FitSpec StationarySpec BoundSpec.
From Verif.Proofs Require Import VecFacts L0Proofs RegularizerProofs L0LMEProofs RegularizersMain MatFacts SolverProofs SolversMain
  LinearProofs LinearMain InnerProofs LmeInnerMain LmeProblemProofs LmeProblemMain FitProofs BridgeProofs RateProofs SelectProofs
  ConvergeProofs LmeFitMain LmeStationaryMain ConvergeMain.
Open Scope list_scope.
Open Scope R_scope.

Lemma convex_penalty_nonneg m w pen z : sensible m -> nonneg w -> convex_penalty m w = Some pen -> 0 <= pen z.
Proof.
  intros (Hp & He & _) Hw H. pose proof (sqnorm_nonneg z) as Q.
  assert (0 <= mo_eps m / 2 * sqnorm z) by (apply Rmult_le_pos; lra).
  unfold convex_penalty in H. destruct (mo_penalty m) as [|nb ng|lam|lam rho|lam rho sigma]; try discriminate; injection H as <-.
  - auto.
  - cbn [penalty_ok] in Hp. pose proof (weighted_l1_nonneg w Hw z) as W.
    assert (0 <= lam * weighted_l1 w z) by (apply Rmult_le_pos; auto). lra.
Qed.

Lemma is_path_and P (Q : vec -> R -> vec -> Prop) path : forall x, is_path P x path ->
  Forall (fun st => ls_threshold < fst st) path -> is_path (fun x s x' => P x s x' /\ ls_threshold < s) x path.
Proof.
  induction path as [|[s x'] path IH]; intros x HP HF; [exact I|].
  destruct HP as [P1 P2]. inversion HF as [|? ? F1 F2]; subst. cbn [fst] in F1. split; [auto|apply IH; auto].
Qed.

(** a step of the line search that was not exhausted *)
Lemma searched_step S (orc : oracle S) rg dom pen slv f g x s x' :
  exact_for rg dom pen -> convex_on dom pen -> value_is orc f -> grad_is orc g -> s_stepping slv = "line-search"%string ->
  0 < s_step_len slv -> pgd_rule orc rg slv x s x' -> ls_threshold < s ->
  length x' = length x /\ dom x' /\
  (dom x -> f x' + pen x' + 1 / (2 * s_step_len slv) * sqnorm (vsub x' x) <= f x + pen x).
Proof.
  intros Hex Hcv Hv Hg Hls Hpos [[t1 [g1 [t2 [A [Hl P]]]]] [Hk Hr]] Ht.
  specialize (Hr f g Hv Hg). unfold step_rule in Hr. rewrite Hls in Hr, Hk. cbn [String.eqb Ascii.eqb Bool.eqb] in Hr, Hk.
  pose proof (Hg _ _ _ _ A) as ->.
  destruct Hr as [k [_ [_ [Hr|Hr]]]]; [lra|].
  assert (Hs : 0 < s) by (unfold ls_threshold in Ht; lra).
  pose proof (Hex _ _ _ Hs P) as Hp. pose proof Hp as [L [D _]].
  rewrite vsub_length, vscale_length, Hl in L by (rewrite vscale_length; auto).
  split; [exact L|]. split; [exact D|]. intros Dx.
  pose proof (prox_convex_gain dom pen f g x s x' Hs Hl Hcv Hp Hr Dx) as G.
  assert (Hle : s <= s_step_len slv) by (destruct Hk as [j ->]; apply halved_range; lra).
  assert (1 / (2 * s_step_len slv) * sqnorm (vsub x' x) <= 1 / (2 * s) * sqnorm (vsub x' x)).
  { apply Rmult_le_compat_r; [apply sqnorm_nonneg|]. apply Rmult_le_compat_l; [lra|].
    apply Rinv_le_contravar; lra. }
  lra.
Qed.

Lemma search_run argsort cdf m coef pr beta0 gamma0 warm fe re co lg wf wr pen :
  sensible m -> mo_sr3 m = None -> mo_stepping m = "line-search"%string -> 0 <= mo_tol m ->
  fit_weights pr fe re = Ok (wf, wr) -> nonneg (wf ++ wr) -> convex_penalty m (wf ++ wr) = Some pen ->
  opt_all (fun b => length b = num_fixed pr) beta0 ->
  opt_all (fun g => nonneg g /\ length g = num_random pr) gamma0 ->
  lme_fit_problem argsort cdf m coef pr beta0 gamma0 warm fe re = Ok (co, lg) ->
  exists g b1 g1 rg step path,
    let c := problem_calls cdf pr g None in
    prior_of m pr = Ok g /\ step_length m = Ok step /\ 
    initialize m (num_random pr) (num_groups pr) c
      (match beta0 with Some b => b | None => ones (num_fixed pr) end,
       match gamma0 with Some g => g | None => ones (num_random pr) end) = Ok (b1, g1) /\
    is_path (pgd_rule (lme_as_oracle (num_fixed pr) (num_random pr) c) rg
      {| s_tol := mo_tol m; s_max_iter := mo_max_iter m; s_stepping := mo_stepping m; s_step_len := step |})
      (b1 ++ g1) path /\
    co_beta co ++ co_gamma co = endpoint (b1 ++ g1) path /\
    (Forall (fun st => ls_threshold < fst st) path ->
     forall low v0, lc_loss c b1 g1 = Ok v0 ->
     (forall b gm, length b = num_fixed pr -> length gm = num_random pr -> nonneg gm ->
        exists v, lc_loss c b gm = Ok v /\ low <= v) ->
     length (co_beta co) = num_fixed pr /\ length (co_gamma co) = num_random pr /\ nonneg (co_gamma co) /\
     (exists v1, lc_loss c (co_beta co) (co_gamma co) = Ok v1 /\
        v1 + pen (co_beta co ++ co_gamma co) <= v0 + pen (b1 ++ g1)) /\
     (enough_iterations (mo_max_iter m) (1 / (2 * step)) (mo_tol m) (v0 + pen (b1 ++ g1)) low -> reported_converged lg)).
Proof.
  intros Hm Hsr Hls Htol Ew Hw Hpen Hb Hg H.
  destruct (fit_problem_inv _ _ _ _ _ _ _ _ _ _ _ _ _ H) as
    (ov & g & wf' & wr' & r0 & r & bg0 & b1 & g1 & lg0 & x & lg1 & Hov & Hpr & Hw' & Hr0 & Hr & Hs & Hn & _ & Hx & Hc & _ & _ & _ & Hlog).
  assert (wf' = wf /\ wr' = wr) as [-> ->] by (rewrite Ew in Hw'; injection Hw' as -> ->; auto).
  rewrite start_pointE in Hs. injection Hs as <-. rewrite Hsr in *.
  set (c := problem_calls cdf pr g None) in *. set (p := num_fixed pr) in *. set (q := num_random pr) in *.
  set (b := match beta0 with Some b => b | None => ones p end) in *.
  set (gm := match gamma0 with Some g => g | None => ones q end) in *.
  assert (Lb : length b = p).
  { unfold b. destruct beta0 as [v|]; [apply Hb; reflexivity|apply ones_length]. }
  assert (Ng : nonneg gm /\ length gm = q).
  { unfold gm. destruct gamma0 as [v|]; [apply Hg; reflexivity|]. split; [apply nonneg_ones|apply ones_length]. }
  destruct (problem_calls_sized cdf pr g None) as (S1 & S2 & _). fold c p q in S1, S2.
  destruct (initialize_start m q (num_groups pr) c b gm b1 g1 p S1 S2 Lb (proj1 Ng) Hn) as [L1 N1].
  assert (L2 : (length g1 <= q)%nat).
  { unfold initialize in Hn. destruct (String.eqb (mo_initializer m) "EM").
    - apply rbind_inv in Hn as [b2 [_ Hn]]. apply rbind_inv in Hn as [us [_ Hn]]. apply rbind_inv in Hn as [g2 [Hn E]].
      injection E as <- <-. eapply mean_squares_len. exact Hn.
    - injection Hn as <- <-. rewrite (proj2 Ng). lia. }
  unfold run_solver in Hx. apply rbind_inv in Hx as [step [Hst Hx]]. rewrite Hsr in Hx.
  apply rbind_inv in Hx as [[[x' lg2] u] [Hx E]]. injection E as -> ->.
  pose proof (step_length_pos _ _ Hm Hst) as Hpos.
  set (slv := {| s_tol := mo_tol m; s_max_iter := mo_max_iter m; s_stepping := mo_stepping m; s_step_len := step |}) in *.
  destruct (pgd_optimize_inv _ _ _ _ _ _ _ _ _ Hx) as [path [P [Ex [A [_ [_ [C _]]]]]]].
  assert (Lx : (length x <= p + q)%nat).
  { destruct (pgd_cases _ _ _ _ _ _ _ _ _ _ Hx) as [[-> _]|(y & t & _ & Ey)].
    - exact Hpos.
    - rewrite app_length. lia.
    - destruct (model_prox_len _ _ _ _ _ _ _ _ _ Hr0 Hr Ey) as [A1 B1].
      destruct (oracle_viewE _ _ Hov) as [Ep Eq]. rewrite Ep, Eq in A1. fold p q in A1. lia. }
  assert (Sx : co_beta co ++ co_gamma co = x).
  { unfold x_to_beta_gamma in Hc. injection Hc as -> ->. apply split_all. exact Lx. }
  exists g, b1, g1, (as_regularizer argsort r), step, path. fold c p q slv.
  split; [exact Hpr|]. split; [exact Hst|]. split; [exact Hn|]. split; [exact P|]. split; [rewrite Sx; exact Ex|].
  intros Hlong low v0 V0 Hlow.
  assert (L3 : length g1 = q).
  { assert (K := V0). unfold c, problem_calls in K. cbn [list_calls lc_loss] in K. unfold list_loss, with_prior, at_params in K.
    apply rbind_inv in K as [gs [_ K]]. apply rbind_inv in K as [bb [_ K]]. apply rbind_inv in K as [gg [K _]].
    apply sized_inv in K as [K _]. exact K. }
  set (f := fun z => match joint_loss p q (lc_loss c) z with Ok v => v | Err _ => 0 end).
  set (dg := fun z => match joint_gradient p q (lc_gradient_beta c) (lc_gradient_gamma c) z with Ok v => v | Err _ => [] end).
  destruct (oracle_viewE _ _ Hov) as [Ep Eq]. fold p in Ep. fold q in Eq.
  set (dom := fun z => nonneg_on (gamma_mask ov) z).
  assert (Dom : dom (b1 ++ g1)).
  { apply (nonneg_on_skip ov p q); auto; [rewrite app_length; lia|]. unfold variances_nonneg.
    rewrite skipn_app_len by exact L1. exact N1. }
  assert (Hstep : forall z s z', length z = (p + q)%nat ->
    (pgd_rule (lme_as_oracle p q c) (as_regularizer argsort r) slv z s z' /\ ls_threshold < s) ->
    length z' = (p + q)%nat /\ dom z' /\
    (dom z -> (f z' + pen z') + 1 / (2 * step) * sqnorm (vsub z' z) <= f z + pen z)).
  { intros z s z' Lz [R1 R2].
    assert (Hv : value_is (lme_as_oracle p q c) f).
    { intros t y v t' E. cbn [lme_as_oracle o_value] in E. apply rbind_inv in E as [v' [E1 E]]. injection E as -> _. unfold f. rewrite E1. reflexivity. }
    assert (Hgr : grad_is (lme_as_oracle p q c) dg).
    { intros t y v t' E. cbn [lme_as_oracle o_grad] in E. apply rbind_inv in E as [v' [E1 E]]. injection E as -> _. unfold dg. rewrite E1. reflexivity. }
    destruct (searched_step _ _ _ dom pen slv f dg z s z' (model_exact argsort m ov (wf ++ wr) r0 r pen Hm Hw Hpen Hr0 Hr)
      (convex_penalty_convex m (wf ++ wr) pen (gamma_mask ov) Hm Hw Hpen) Hv Hgr Hls Hpos R1 R2) as (K1 & K2 & K3).
    split; [congruence|]. split; [exact K2|exact K3]. }
  assert (L0 : length (b1 ++ g1) = (p + q)%nat) by (rewrite app_length; lia).
  pose proof (is_path_and _ (fun _ _ _ => True) path (b1 ++ g1) P Hlong) as P'.
  assert (Hend : forall path z, length z = (p + q)%nat -> dom z ->
    is_path (fun x s x' => pgd_rule (lme_as_oracle p q c) (as_regularizer argsort r) slv x s x' /\ ls_threshold < s) z path ->
    length (endpoint z path) = (p + q)%nat /\ dom (endpoint z path) /\
    f (endpoint z path) + pen (endpoint z path) <= f z + pen z).
  { clear - Hstep Hpos. induction path as [|[s z'] path IH]; intros z Lz Dz HP.
    - unfold endpoint. cbn. split; [auto|]. split; [auto|lra].
    - destruct HP as [P1 P2]. destruct (Hstep z s z' Lz P1) as (K1 & K2 & K3). specialize (K3 Dz).
      rewrite endpoint_cons. destruct (IH z' K1 K2 P2) as (J1 & J2 & J3). split; [auto|]. split; [auto|].
      pose proof (sqnorm_nonneg (vsub z' z)).
      assert (0 <= 1 / (2 * step) * sqnorm (vsub z' z)).
      { apply Rmult_le_pos; [|auto]. apply Rlt_le, Rdiv_lt_0_compat; lra. }
      lra. }
  destruct (Hend path (b1 ++ g1) L0 Dom P') as (E1 & E2 & E3). rewrite <- Ex in E1, E2, E3.
  assert (Lco : length (co_beta co) = p /\ length (co_gamma co) = q /\ co_gamma co = skipn p x).
  { unfold x_to_beta_gamma in Hc. injection Hc as -> ->. rewrite !firstn_length, skipn_length.
    split; [lia|]. split; [lia|]. apply firstn_all2. rewrite skipn_length. lia. }
  destruct Lco as (Lcb & Lcg & Ecg).
  assert (Ncg : nonneg (co_gamma co)).
  { rewrite Ecg. apply (nonneg_on_skip ov p q); auto. }
  assert (F0 : f (b1 ++ g1) = v0).
  { unfold f, joint_loss, x_to_beta_gamma. rewrite firstn_app_len, skipn_app_len by exact L1.
    rewrite firstn_all2 by exact L2. rewrite V0. reflexivity. }
  destruct (Hlow _ _ Lcb Lcg Ncg) as [v1 [V1 _]].
  assert (F1 : f (co_beta co ++ co_gamma co) = v1).
  { unfold f, joint_loss. rewrite Sx. rewrite <- Hc. rewrite V1. reflexivity. }
  split; [exact Lcb|]. split; [exact Lcg|]. split; [exact Ncg|]. split.
  - exists v1. split; [exact V1|]. rewrite <- Sx, F1, F0 in E3. exact E3.
  - intros [Hm2 He].
    assert (Hlow' : bounded_below (p + q) dom (fun z => f z + pen z) low).
    { intros z Lz Dz. apply (nonneg_on_skip ov p q) in Dz; auto.
      assert (K1 : length (firstn p z) = p) by (rewrite firstn_length; lia).
      assert (K2 : firstn q (skipn p z) = skipn p z) by (apply firstn_all2; rewrite skipn_length; lia).
      destruct (Hlow (firstn p z) (skipn p z) K1 ltac:(rewrite skipn_length; lia) Dz) as [v [V B]].
      unfold f, joint_loss, x_to_beta_gamma. rewrite K2, V.
      pose proof (convex_penalty_nonneg m (wf ++ wr) pen z Hm Hw Hpen). lra. }
    assert (Hc0 : 0 <= 1 / (2 * step)) by (apply Rlt_le, Rdiv_lt_0_compat; lra).
    pose proof (count _ (fun z => f z + pen z) dom (p + q) slv (1 / (2 * step)) low Hc0 Htol Hlow' Hstep path (b1 ++ g1) None L0 Dom P' A) as B.
    cbv beta in B. rewrite F0 in B. change (s_tol slv) with (mo_tol m) in B.
    unfold reported_converged. rewrite (log_criteria_get _ _ _ _ _ _ "converged"%string Hlog);
      [|cbn [In]; intros [K|[K|[K|[K|[K|K]]]]]; try discriminate; exact K].
    rewrite C. change (s_max_iter slv) with (mo_max_iter m).
    destruct (Z.of_nat (length path) <? mo_max_iter m)%Z eqn:E; [reflexivity|].
    exfalso. apply Z.ltb_ge in E.
    assert (IZR (mo_max_iter m) <= INR (length path)) by (rewrite INR_IZR_INZ; apply IZR_le; auto).
    set (d := 1 / (2 * step) * mo_tol m ^ 2) in *.
    assert (Hd : 0 <= d) by (apply Rmult_le_pos; [auto|apply pow2_ge_0]).
    assert (d * IZR (mo_max_iter m) <= INR (length path) * d) by (rewrite Rmult_comm; apply Rmult_le_compat_r; auto).
    lra.
Qed.

(** one step with line search which stays where it is *)
Lemma pgd_rests_search (orc : oracle unit) rg tol step x0 g :
  x0 <> [] -> 0 <= tol -> ls_threshold < step -> o_grad orc tt x0 = Ok (g, tt) -> length g = length x0 ->
  r_prox rg (vadd x0 (vscale step (vneg g))) step = Ok x0 ->
  ls_accept orc tt x0 (vneg g) x0 step = Ok (true, tt) ->
  pgd_optimize orc rg {| s_tol := tol; s_max_iter := 3; s_stepping := "line-search"; s_step_len := step |} x0 tt
    {| lg_kind := KTuple; lg_keys := []; lg_dict := [] |} =
  Ok (x0, {| lg_kind := KTuple; lg_keys := ["converged"; "iteration"]%string;
             lg_dict := [("converged"%string, LAtom (LBool true)); ("iteration"%string, LAtom (LNum 1))] |}, tt).
Proof.
  intros Hn Htol Ht Hg Lg Hp Ha. set (lg := {| lg_kind := KTuple; lg_keys := []; lg_dict := [] |}).
  set (slv := {| s_tol := tol; s_max_iter := 3; s_stepping := "line-search"; s_step_len := step |}).
  set (st1 := {| st_x := x0; st_x_prev := Some x0; st_iteration := 1; st_loss := None;
                 st_direction := Some (vneg g); st_step_len := Some step;
                 st_y := Some (vadd x0 (vscale step (vneg g))); st_z := Some x0; st_oracle := tt; st_logger := lg |}).
  assert (H1 : pgd_step orc rg slv x0 (pgd_init x0 tt lg) = Ok st1).
  { unfold pgd_step. cbn [pgd_init st_x st_oracle st_z st_loss st_iteration st_logger].
    rewrite Hg. cbn [rbind slv s_stepping s_step_len]. rewrite String.eqb_refl.
    unfold ls_fuel. cbn [line_search]. assert (T : rltb ls_threshold step = true) by (apply rltb_true; exact Ht).
    rewrite T. unfold move. rewrite vneg_length, Lg, Nat.eqb_refl. cbn [guard rbind].
    rewrite Hp. cbn [rbind]. rewrite Ha. cbn [rbind]. rewrite Hp. cbn [rbind]. apply log_state_quiet. reflexivity. }
  assert (H2 : pgd_loop orc rg slv 3 x0 (pgd_init x0 tt lg) = Ok st1).
  { apply (pgd_loop_S _ _ _ _ _ _ st1); auto.
    - unfold moved. cbn [pgd_init st_x_prev st_x]. destruct x0; congruence.
    - apply (pgd_loop_stop _ _ _ _ _ _ false); [|reflexivity].
      unfold moved. cbn [st1 st_x st_x_prev]. rewrite Nat.eqb_refl. cbn [guard rbind]. f_equal.
      apply rltb_false. unfold norm. rewrite vsub_self, sqnorm_zeros, sqrt_0. cbn [slv s_tol]. lra. }
  unfold pgd_optimize. rewrite log_state_quiet by reflexivity. cbn [rbind].
  change (Z.to_nat (s_max_iter slv)) with 3%nat. rewrite H2. reflexivity.
Qed.

Lemma patient_fit : let m := patient_model in
  sensible m /\ mo_sr3 m = None /\ mo_stepping m = "line-search"%string /\ 0 <= mo_tol m /\ step_length m = Ok (1 / 2) /\
  fit_weights (flat_problem 1 1) None None = Ok ([1], [1]) /\
  convex_penalty m [1; 1] = Some (fun x => 0 / 2 * sqnorm x + 1 * weighted_l1 [1; 1] x) /\
  forall argsort cdf, exists co lg,
    lme_fit_problem argsort cdf m None (flat_problem 1 1) (Some [0]) (Some [0]) false None None = Ok (co, lg) /\
    reported_converged lg /\ co_beta co = [0] /\ co_gamma co = [0].
Proof.
  set (m := patient_model). cbv zeta.
  assert (St : step_length m = Ok (1 / 2)).
  { unfold step_length. change (given_step m) with (@None R). change (mo_sr3 m) with (@None sr3_settings).
    change (mo_penalty m) with (PenL1 1). unfold nonzero. assert (N : reqb (1 + 1) 0 = false) by (apply reqb_false; lra).
    rewrite N. cbn [negb guard rbind]. do 2 f_equal. }
  split.
  { unfold sensible. cbn [m patient_model mo_penalty mo_eps mo_step_len mo_sr3 penalty_ok].
    split; [lra|]. split; [lra|]. split; intros ? E; discriminate. }
  split; [reflexivity|]. split; [reflexivity|]. split; [cbn [m patient_model mo_tol]; lra|]. split; [exact St|].
  split; [reflexivity|]. split; [reflexivity|].
  intros argsort cdf. destruct flat_view as [bm Hov].
  set (c := problem_calls cdf (flat_problem 1 1) None None).
  assert (E : lc_random_effects c [0] [0] = Ok [zeros 1])
    by (apply (@flat_calls_effects 1 1 cdf None [0] [0]); reflexivity).
  assert (V : forall a b, lc_loss c [a] [b] = Ok 0) by (intros a b; apply (@flat_calls_loss 1 1 cdf None [a] [b]); reflexivity).
  assert (Gb : lc_gradient_beta c [0] [0] = Ok (zeros 1)) by (apply (@flat_calls_gradient_beta 1 1 cdf None [0] [0]); reflexivity).
  assert (Gg : lc_gradient_gamma c [0] [0] = Ok (zeros 1)) by (apply (@flat_calls_gradient_gamma 1 1 cdf None [0] [0]); reflexivity).
  set (r := RPos (Some (gamma_mask {| ov_p := 1; ov_q := 1; ov_map := bm |})) (Some (RElastic 0 (Some (RL1 1 (Some [1; 1])))))).
  assert (P : prox argsort r [0; 0] (1 / 2) = Ok [0; 0]).
  { unfold r. cbn [prox gamma_mask ov_p ov_q repeat app length Nat.eqb guard rbind mask_map map2].
    unfold clip0, nonzero. rewrite (Rmax_left 0 0) by lra.
    assert (N : reqb (1 + 1 / 2 * 0) 0 = false) by (apply reqb_false; lra).
    rewrite N. cbn [negb guard rbind map]. unfold l1_prox. cbn [length Nat.eqb guard rbind map2].
    assert (X : soft (1 / 2 / (1 + 1 / 2 * 0) * 1 * 1) (0 / (1 + 1 / 2 * 0)) = 0).
    { replace (1 / 2 / (1 + 1 / 2 * 0) * 1 * 1) with (/ 2) by field. replace (0 / (1 + 1 / 2 * 0)) with 0 by field.
      unfold soft, clip0. rewrite !Rmax_right by lra. lra. }
    rewrite X. reflexivity. }
  eexists. eexists. split; [unfold lme_fit_problem; eapply fit_problem_run with (g := None) (beta1 := [0]) (gamma1 := [0]) (us := [zeros 1]) (x := [0; 0]);
     [exact St|exact Hov|reflexivity|reflexivity|reflexivity|reflexivity|reflexivity|reflexivity| | | |]|].
  - unfold run_solver. rewrite St. cbn [m patient_model mo_sr3 mo_penalty rbind mo_tol mo_max_iter mo_stepping].
    change (num_fixed (flat_problem 1 1)) with 1%nat. change (num_random (flat_problem 1 1)) with 1%nat.
    rewrite (pgd_rests_search _ _ _ _ ([0] ++ [0]) (zeros 2)).
    + cbn [rbind]. reflexivity.
    + discriminate.
    + lra.
    + unfold ls_threshold. lra.
    + cbn [lme_as_oracle o_grad]. unfold joint_gradient. cbn [x_to_beta_gamma firstn skipn app].
      fold c. rewrite Gb. cbn [rbind]. rewrite Gg. reflexivity.
    + reflexivity.
    + cbn [as_regularizer r_prox app]. replace (vadd _ _) with [0; 0]; [exact P|].
      cbv [zeros repeat vneg map vscale vadd map2]. f_equal; [ring|f_equal; ring].
    + unfold ls_accept. cbn [lme_as_oracle o_value app]. unfold joint_loss. cbn [x_to_beta_gamma firstn skipn fst snd].
      fold c. rewrite !V. cbn [rbind length Nat.eqb guard]. do 2 f_equal. apply rleb_true.
      cbv [zeros repeat vneg vsub vdot map map2 fold_right norm sqnorm vsum vmul].
      set (n := sqrt _). pose proof (pow2_ge_0 n). replace (1 / (2 * (1 / 2))) with 1 by field. lra.
  - exact E.
  - reflexivity.
  - reflexivity.
  - split; [reflexivity|]. split; reflexivity.
Qed.
