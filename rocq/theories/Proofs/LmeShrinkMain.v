(** Final lemmas about the strength of the penalty which removes every effect, restated as theorems in Properties/LmeShrink.v. *)
(*HEAD
(** Property C122: the strength of the L1 penalty from which a mixed model keeps no effect (src/pysr3/lme/models.py, oracles.py). *)
From Coq Require Import String.
From Verif.Base Require Import Py Vec RMx.
From Verif.Model Require Import LmeProblem Solvers LmeInner LmeFit LmeOracle LmeBridge.
From Verif.Spec Require Import InnerSpec LmeSpec FitSpec StationarySpec MxSpec ShrinkLmeSpec PracticalSpec.
HEAD*)
(*OPEN
Open Scope list_scope.
Open Scope R_scope.
OPEN*)
From Coq Require Import Lra Psatz String.
From Verif.Base Require Import Py Vec Mat RMx.
From Verif.Model Require Import LmeProblem Regularizers Solvers Linear LmeInner LmeFit LmeOracle LmeBridge.
From Verif.Spec Require Import ProxSpec RegSpec SolverSpec LinearSpec RateSpec LmeSpec InnerSpec FitSpec StationarySpec MxSpec ShrinkLmeSpec PracticalSpec.
From Verif.Proofs Require Import VecFacts SolverProofs SolversMain LinearProofs FitProofs LmeFitMain LmeStationaryMain BridgeProofs ApartProofs
  ShrinkLme ShrinkZero ShrinkBridge.
Open Scope list_scope.
Open Scope R_scope.

Lemma scaled_weights lam w : 0 <= lam -> nonneg w -> Forall (fun wi => 0 <= lam * wi) w.
Proof. intros H. unfold nonneg. apply Forall_impl. intros a Ha. apply Rmult_le_pos; auto. Qed.
Lemma sensible_eps m : sensible m -> 0 <= mo_eps m.
Proof. intros (_ & H & _). exact H. Qed.

(*@ C122.  At beta = 0 and gamma = 0 the gradients are minus the scores and minus the gains. *)
Lemma lme_gradient_at_zero_lemma :
  forall p q (gs : list (group p q)), positive_variances gs ->
  (forall i, entry (lme_gradient_beta gs LNone (zero_col p) (zero_col q)) i = - score gs i) /\
  (forall j, entry (lme_gradient_gamma gs LNone (zero_col p) (zero_col q)) j = - gain gs j).
Proof.
  intros p q gs H. split; [apply gradient_beta0|apply gradient_gamma0]; exact H.
Qed.

(*@ C122.  A mixed model with the L1 penalty, without relaxation and prior, started at zero: if no feature asks for more
    than the penalty takes, the fit returns zero for all coefficients, variances and random effects, for every stepping
    and every number of iterations; and it reports convergence if it may make two iterations. *)
Lemma lme_l1_stays_at_zero_lemma :
  forall argsort cdf m lam coef pr warm fe re co lg wf wr gs,
  let p := num_fixed pr in let q := num_random pr in
  sensible m -> mo_penalty m = PenL1 lam -> mo_sr3 m = None -> mo_prior m = None -> mo_initializer m <> "EM"%string ->
  fit_weights pr fe re = Ok (wf, wr) -> length wf = p -> length wr = q -> nonneg (wf ++ wr) ->
  groups_of p q pr = Ok gs -> positive_variances gs -> nothing_pays lam wf wr gs ->
  lme_fit_problem argsort cdf m coef pr (Some (zeros p)) (Some (zeros q)) warm fe re = Ok (co, lg) ->
  co_beta co = zeros p /\ co_gamma co = zeros q /\ (forall u, In u (co_effects co) -> u = zeros q) /\
  (0 <= mo_tol m -> (1 < mo_max_iter m)%Z -> reported_converged lg).
Proof.
  intros argsort cdf m lam coef pr warm fe re co lg wf wr gs p q Hm Hp Hsr Hpri Hinit Ew L1 L2 Hw Hgs Hv Hn H.
  destruct (l1_fit_inv _ _ _ _ _ _ _ _ _ _ _ _ _ Hp Hsr H) as
    (g & wf' & wr' & b1 & g1 & step & path & Hpr & Hw' & Hst & Hi & P & Hb & Hg & S & T & Hu & C & _).
  fold p q in Hi, P, Hb, Hg, S, T.
  assert (wf' = wf /\ wr' = wr) as [-> ->] by (rewrite Ew in Hw'; injection Hw' as -> ->; auto).
  unfold prior_of in Hpr. rewrite Hpri in Hpr. injection Hpr as <-.
  unfold initialize in Hi. apply String.eqb_neq in Hinit. rewrite Hinit in Hi. injection Hi as <- <-.
  assert (E0 : zeros p ++ zeros q = zeros (p + q)) by (unfold zeros; symmetry; apply repeat_app).
  rewrite E0 in *.
  pose proof (step_length_pos _ _ Hm Hst) as Hpos.
  assert (Hlam : 0 <= lam) by (destruct Hm as [Hm _]; rewrite Hp in Hm; exact Hm).
  assert (He : 0 <= mo_eps m) by (exact (sensible_eps m Hm)).
  apply Forall_app in Hw as [W1 W2].
  apply (scaled_weights lam _ Hlam) in W1. apply (scaled_weights lam _ Hlam) in W2.
  set (slv := {| s_tol := mo_tol m; s_max_iter := mo_max_iter m; s_stepping := mo_stepping m; s_step_len := step |}) in *.
  set (c := problem_calls cdf pr None None) in *.
  assert (Hk : zero_kept p q c lam wf wr).
  { intros gb gg Gb Gg A B. apply (@kept_iff cdf pr gs Hgs Hv lam wf wr gb gg L1 L2 A B Gb Gg). exact Hn. }
  assert (X : endpoint (zeros (p + q)) path = zeros (p + q))
    by (exact (kept_path argsort p q c (mo_eps m) lam wf wr slv L1 L2 He Hpos W1 W2 path Hk P)).
  rewrite X in Hb, Hg. destruct (zeros_firstn p q) as [F1 F2]. rewrite F1 in Hb. rewrite F2 in Hg.
  split; [exact Hb|]. split; [exact Hg|]. rewrite Hb, Hg in Hu. split; [exact (@zero_effects cdf pr gs Hgs Hv _ Hu)|].
  intros Ht Hmax. unfold reported_converged. rewrite C. do 3 f_equal. apply Z.ltb_lt.
  pose proof (kept_short argsort p q c (mo_eps m) lam wf wr slv L1 L2 He Hpos W1 W2 path Hk Ht P S). lia.
Qed.

(*@ C122.  Conversely, a fit of such a model from anywhere, with tol = 0, which reports convergence and has removed
    everything: no feature asks for more than the penalty takes. *)
Lemma lme_l1_zero_is_justified_lemma :
  forall argsort cdf m lam coef pr beta0 gamma0 warm fe re co lg wf wr gs,
  let p := num_fixed pr in let q := num_random pr in
  sensible m -> mo_penalty m = PenL1 lam -> mo_sr3 m = None -> mo_prior m = None -> mo_tol m = 0 -> (0 < p)%nat ->
  fit_weights pr fe re = Ok (wf, wr) -> length wf = p -> length wr = q -> nonneg (wf ++ wr) ->
  groups_of p q pr = Ok gs -> positive_variances gs ->
  lme_fit_problem argsort cdf m coef pr beta0 gamma0 warm fe re = Ok (co, lg) -> reported_converged lg ->
  co_beta co = zeros p -> co_gamma co = zeros q -> nothing_pays lam wf wr gs.
Proof.
  intros argsort cdf m lam coef pr beta0 gamma0 warm fe re co lg wf wr gs p q Hm Hp Hsr Hpri Ht Hpp Ew L1 L2 Hw Hgs Hv H Hconv Zb Zg.
  destruct (l1_fit_inv _ _ _ _ _ _ _ _ _ _ _ _ _ Hp Hsr H) as
    (g & wf' & wr' & b1 & g1 & step & path & Hpr & Hw' & Hst & Hi & P & Hb & Hg & S & T & Hu & C & Hl).
  fold p q in Hi, P, Hb, Hg, S, T, Hl.
  assert (wf' = wf /\ wr' = wr) as [-> ->] by (rewrite Ew in Hw'; injection Hw' as -> ->; auto).
  unfold prior_of in Hpr. rewrite Hpri in Hpr. injection Hpr as <-.
  pose proof (step_length_pos _ _ Hm Hst) as Hpos.
  assert (Hlam : 0 <= lam) by (destruct Hm as [Hm _]; rewrite Hp in Hm; exact Hm).
  assert (He : 0 <= mo_eps m) by (exact (sensible_eps m Hm)).
  apply Forall_app in Hw as [W1 W2].
  apply (scaled_weights lam _ Hlam) in W1. apply (scaled_weights lam _ Hlam) in W2.
  set (slv := {| s_tol := mo_tol m; s_max_iter := mo_max_iter m; s_stepping := mo_stepping m; s_step_len := step |}) in *.
  set (c := problem_calls cdf pr None None) in *.
  assert (Hlt : (Z.of_nat (length path) < mo_max_iter m)%Z).
  { unfold reported_converged in Hconv. rewrite C in Hconv. injection Hconv as K. apply Z.ltb_lt. exact K. }
  destruct T as [T|T]; [|lia].
  set (x := endpoint (b1 ++ g1) path) in *.
  destruct path as [|sx path].
  { exfalso. cbn [last_prev still] in T. apply T. left. intros K. rewrite K in Hb.
    rewrite Hb in Zb. apply (f_equal (@length R)) in Zb. rewrite zeros_length, firstn_nil in Zb. cbn [length] in Zb. lia. }
  destruct (last_rule unit _ _ slv (sx :: path) (b1 ++ g1) None ltac:(discriminate) P) as (z & s & Hz & R1).
  fold x in R1. rewrite Hz in T. cbn [still slv s_tol] in T.
  destruct (rule_len argsort p q c (mo_eps m) lam wf wr slv L1 L2 z s x R1) as [Lz Lx].
  assert (Ex : x = z) by (apply norm_zero_eq; [congruence|rewrite Ht in T; lra]).
  rewrite <- Ex in R1.
  assert (X0 : x = zeros (p + q)).
  { rewrite <- (split_all p q x) by lia. rewrite <- Hb, <- Hg, Zb, Zg. unfold zeros. symmetry. apply repeat_app. }
  rewrite X0 in R1.
  destruct (step_from_zero argsort p q c (mo_eps m) lam wf wr slv L1 L2 He Hpos W1 W2 s _ R1) as (gb & gg & Gb & Gg & A & B & E).
  apply (@kept_iff cdf pr gs Hgs Hv lam wf wr gb gg L1 L2 A B Gb Gg). apply E. reflexivity.
Qed.

(*@ C122.  For a given fixed step, positive weights and any data, prior, initializer and start: from some penalty on, every fit
    which makes an iteration returns zero for all coefficients and variances. *)
Lemma lme_l1_removes_all_lemma :
  forall argsort cdf m s coef pr beta0 gamma0 warm fe re wf wr,
  let p := num_fixed pr in let q := num_random pr in
  mo_sr3 m = None -> 0 <= mo_eps m -> mo_step_len m = Some s -> 0 < s -> mo_stepping m <> "line-search"%string ->
  (1 <= mo_max_iter m)%Z -> (0 < p)%nat ->
  opt_all (fun b => length b = p) beta0 ->
  fit_weights pr fe re = Ok (wf, wr) -> length wf = p -> length wr = q -> Forall (fun w => 0 < w) (wf ++ wr) ->
  exists lam0, 0 <= lam0 /\ forall lam co lg, lam0 <= lam ->
    lme_fit_problem argsort cdf (with_l1 lam m) coef pr beta0 gamma0 warm fe re = Ok (co, lg) ->
    co_beta co = zeros p /\ co_gamma co = zeros q.
Proof.
  intros argsort cdf m s coef pr beta0 gamma0 warm fe re wf wr p q Hsr He Hs Hs0 Hk Hmax Hpp Hb0 Ew L1 L2 Hw.
  apply Forall_app in Hw as [F1 F2].
  assert (Hst : forall lam step, step_length (with_l1 lam m) = Ok step -> step = s).
  { intros lam step. unfold step_length, given_step. cbn [with_l1 mo_step_len]. rewrite Hs.
    assert (N : reqb s 0 = false) by (apply reqb_false; lra). rewrite N. intros E. apply Ok_inj in E. auto. }
  destruct (prior_of m pr) as [g|e] eqn:Hpr.
  2: { exists 0. split; [lra|]. intros lam co lg _ H. exfalso.
       destruct (l1_fit_inv argsort cdf (with_l1 lam m) lam _ _ _ _ _ _ _ _ _ eq_refl Hsr H) as (g & ? & ? & ? & ? & ? & ? & K & _).
       change (prior_of (with_l1 lam m) pr) with (prior_of m pr) in K. congruence. }
  set (c := problem_calls cdf pr g None).
  destruct (initialize m q (num_groups pr) c (match beta0 with Some b => b | None => ones p end,
                                              match gamma0 with Some g => g | None => ones q end)) as [[b1 g1]|e] eqn:Hi.
  2: { exists 0. split; [lra|]. intros lam co lg _ H. exfalso.
       destruct (l1_fit_inv argsort cdf (with_l1 lam m) lam _ _ _ _ _ _ _ _ _ eq_refl Hsr H) as (g' & ? & ? & ? & ? & ? & ? & K & _ & _ & K2 & _).
       change (prior_of (with_l1 lam m) pr) with (prior_of m pr) in K. rewrite Hpr in K. apply Ok_inj in K. subst g'.
       fold p q c in K2. change (initialize (with_l1 lam m)) with (initialize m) in K2. congruence. }
  assert (Lb : length b1 = p).
  { destruct (problem_calls_sized cdf pr g None) as (S1 & _). fold c p in S1.
    unfold initialize in Hi. rewrite Hsr in Hi. destruct (String.eqb (mo_initializer m) "EM").
    - apply rbind_inv in Hi as [bb [K1 Hi]]. apply rbind_inv in Hi as [us [_ Hi]]. apply rbind_inv in Hi as [gm [_ Hi]].
      injection Hi as <- _. exact (S1 _ _ K1).
    - injection Hi as <- _. destruct beta0 as [b|]; [apply Hb0; reflexivity|apply ones_length]. }
  destruct (Nat.eq_dec (length (b1 ++ g1)) (p + q)) as [Lx|Lx].
  - destruct (large_kept p q c wf wr L1 L2 F1 F2) as (l1 & N1 & K1).
    destruct (large_first p q c s (b1 ++ g1) wf wr Hs0 L1 L2 Lx F1 F2) as (l2 & N2 & K2).
    exists (Rmax l1 l2). split; [apply Rle_trans with l1; [exact N1|apply Rmax_l]|].
    intros lam co lg Hl H.
    assert (Hlam : 0 <= lam) by (apply Rle_trans with l1; [exact N1|]; apply Rle_trans with (Rmax l1 l2); [apply Rmax_l|exact Hl]).
    specialize (K1 lam (Rle_trans _ _ _ (Rmax_l _ _) Hl)). specialize (K2 lam (Rle_trans _ _ _ (Rmax_r _ _) Hl)).
    destruct (l1_fit_inv argsort cdf (with_l1 lam m) lam _ _ _ _ _ _ _ _ _ eq_refl Hsr H) as
      (g' & wf' & wr' & b1' & g1' & step & path & Hpr' & Hw' & Hst' & Hi' & P & Hb & Hg & S & T & _ & _ & _).
    fold p q in Hi', P, Hb, Hg, S, T.
    change (prior_of (with_l1 lam m) pr) with (prior_of m pr) in Hpr'. rewrite Hpr in Hpr'. apply Ok_inj in Hpr'. subst g'.
    fold c in Hi', P. change (initialize (with_l1 lam m)) with (initialize m) in Hi'. rewrite Hi in Hi'. injection Hi' as <- <-.
    assert (wf' = wf /\ wr' = wr) as [-> ->] by (rewrite Ew in Hw'; injection Hw' as -> ->; auto).
    apply Hst in Hst'. subst step. cbn [with_l1 mo_tol mo_max_iter mo_stepping mo_eps] in *.
    set (slv := {| s_tol := mo_tol m; s_max_iter := mo_max_iter m; s_stepping := mo_stepping m; s_step_len := s |}) in *.
    assert (W1 : Forall (fun wi => 0 <= lam * wi) wf)
      by (apply scaled_weights; [exact Hlam|]; revert F1; apply Forall_impl; intros a; apply Rlt_le).
    assert (W2 : Forall (fun wi => 0 <= lam * wi) wr)
      by (apply scaled_weights; [exact Hlam|]; revert F2; apply Forall_impl; intros a; apply Rlt_le).
    assert (X : endpoint (b1 ++ g1) path = zeros (p + q)).
    { destruct path as [|[t x'] path].
      - exfalso. destruct T as [T|T]; [|cbn [length Z.of_nat] in T; lia]. cbn [last_prev still endpoint map last] in T.
        apply T. left. destruct b1; [cbn [length] in Lb; lia|discriminate].
      - destruct P as [P1 P].
        destruct (step_zero argsort p q c (mo_eps m) lam wf wr slv L1 L2 He Hs0 W1 W2 _ _ _ Lx P1)
          as (_ & Et & gb & gg & Gb & Gg & A & B & E).
        assert (t = s) as -> by (apply Et; apply String.eqb_neq; exact Hk).
        assert (x' = zeros (p + q)) as -> by (apply E, K2; assumption).
        rewrite endpoint_cons. exact (kept_path argsort p q c (mo_eps m) lam wf wr slv L1 L2 He Hs0 W1 W2 path K1 P). }
    rewrite X in Hb, Hg. destruct (zeros_firstn p q) as [Z1 Z2]. rewrite Z1 in Hb. rewrite Z2 in Hg. auto.
  - exists 0. split; [lra|]. intros lam co lg _ H. exfalso.
    destruct (l1_fit_inv argsort cdf (with_l1 lam m) lam _ _ _ _ _ _ _ _ _ eq_refl Hsr H) as
      (g' & wf' & wr' & b1' & g1' & step & path & Hpr' & Hw' & Hst' & Hi' & P & Hb & Hg & S & T & _ & _ & Hl).
    fold p q in Hi', Hl, T.
    change (prior_of (with_l1 lam m) pr) with (prior_of m pr) in Hpr'. rewrite Hpr in Hpr'. apply Ok_inj in Hpr'. subst g'.
    fold c in Hi'. change (initialize (with_l1 lam m)) with (initialize m) in Hi'. rewrite Hi in Hi'. injection Hi' as <- <-.
    destruct Hl as [-> | Hl]; [|exact (Lx Hl)].
    destruct T as [T|T]; [|cbn [length Z.of_nat with_l1 mo_max_iter] in T; lia]. cbn [last_prev still endpoint map last] in T.
    apply T. left. destruct b1; [cbn [length] in Lb; lia|discriminate].
Qed.

(*@ one group with (x, y, z, v) = (1, 42, 0, 1) and one with (0, 0, 1, 1): the penalty has to be 42 *)
Lemma ex_nothing_pays_lemma :
  exists gs, groups_of 1 1 apart_problem = Ok gs /\ positive_variances gs /\
    forall lam, nothing_pays lam [1] [1] gs <-> 42 <= lam.
Proof.
  exists apart_groups. split; [exact apart_groupsE|]. split; [exact apart_variances|]. exact apart_pays.
Qed.

(*@ the assumptions for staying at zero hold for a fit which returns, and that fit reports convergence with tol = 0 *)
Lemma ex_lme_l1_stays_lemma :
  let m := flat_model (PenL1 1) None 2 0 in let pr := flat_problem 1 1 in
  sensible m /\ mo_penalty m = PenL1 1 /\ mo_sr3 m = None /\ mo_prior m = None /\ mo_initializer m <> "EM"%string /\ mo_tol m = 0 /\
  num_fixed pr = 1%nat /\ num_random pr = 1%nat /\ fit_weights pr None None = Ok ([1], [1]) /\ nonneg [1; 1] /\
  (exists gs, groups_of 1 1 pr = Ok gs /\ positive_variances gs /\ nothing_pays 1 [1] [1] gs) /\
  forall argsort cdf, exists co lg,
    lme_fit_problem argsort cdf m None pr (Some (zeros 1)) (Some (zeros 1)) false None None = Ok (co, lg) /\
    reported_converged lg /\ co_beta co = zeros 1 /\ co_gamma co = zeros 1.
Proof.
  destruct ex_lme_converged_lemma as (H1 & H2 & H3 & _ & H4 & H5 & _ & H6). cbv zeta.
  split; [exact H1|]. split; [reflexivity|]. split; [reflexivity|]. split; [reflexivity|]. split; [discriminate|]. split; [reflexivity|].
  split; [reflexivity|]. split; [reflexivity|]. split; [reflexivity|].
  split; [repeat constructor; lra|]. split; [|exact H6].
  exists [flat_group 1 1]. split; [exact (flat_groups 1 1)|]. exact flat_pays.
Qed.

(*@ from the start (1, 1) with the step 1, penalties from 1 on *)
Lemma ex_lme_l1_removes_lemma :
  let m := {| mo_penalty := PenNone; mo_sr3 := None; mo_tol := 0; mo_max_iter := 1; mo_stepping := "fixed";
              mo_step_len := Some 1; mo_eps := 0; mo_initializer := "None"; mo_keys := (KTuple, []); mo_prior := None |} in
  let pr := flat_problem 1 1 in
  fit_weights pr None None = Ok ([1], [1]) /\ Forall (fun w => 0 < w) [1; 1] /\
  forall argsort cdf lam, 1 <= lam -> exists co lg,
    lme_fit_problem argsort cdf (with_l1 lam m) None pr None None false None None = Ok (co, lg) /\
    co_beta co = [0] /\ co_gamma co = [0].
Proof.
  set (m := {| mo_penalty := PenNone |}). cbv zeta. split; [reflexivity|]. split; [repeat constructor; lra|].
  intros argsort cdf lam Hl. destruct flat_view as [bm Hov].
  assert (St : step_length (with_l1 lam m) = Ok 1).
  { unfold step_length, given_step. cbn [with_l1 mo_step_len m].
    assert (N : reqb 1 0 = false) by (apply reqb_false; lra). rewrite N. reflexivity. }
  set (c := problem_calls cdf (flat_problem 1 1) None None).
  assert (E : lc_random_effects c [0] [0] = Ok [zeros 1])
    by (apply (@flat_calls_effects 1 1 cdf None [0] [0]); reflexivity).
  assert (Gb : lc_gradient_beta c [1] [1] = Ok (zeros 1)) by (apply (@flat_calls_gradient_beta 1 1 cdf None [1] [1]); reflexivity).
  assert (Gg : lc_gradient_gamma c [1] [1] = Ok (zeros 1)) by (apply (@flat_calls_gradient_gamma 1 1 cdf None [1] [1]); reflexivity).
  set (r := RPos (Some (gamma_mask {| ov_p := 1; ov_q := 1; ov_map := bm |})) (Some (RElastic 0 (Some (RL1 lam (Some [1; 1])))))).
  assert (P : prox argsort r [1; 1] 1 = Ok [0; 0]).
  { unfold r. cbn [prox gamma_mask ov_p ov_q repeat app length Nat.eqb guard rbind mask_map map2].
    unfold clip0, nonzero. rewrite (Rmax_right 0 1) || rewrite (Rmax_left 1 0); try lra.
    assert (N : reqb (1 + 1 * 0) 0 = false) by (apply reqb_false; lra).
    rewrite N. cbn [negb guard rbind map]. unfold l1_prox. cbn [length Nat.eqb guard rbind map2].
    assert (X : soft (1 / (1 + 1 * 0) * 1 * lam) (1 / (1 + 1 * 0)) = 0).
    { replace (1 / (1 + 1 * 0) * 1 * lam) with lam by field. replace (1 / (1 + 1 * 0)) with 1 by field.
      apply soft_is_zero; [lra|]. rewrite Rabs_right; lra. }
    rewrite X. reflexivity. }
  eexists. eexists. split; [unfold lme_fit_problem; eapply fit_problem_run with (g := None) (beta1 := [1]) (gamma1 := [1]) (us := [zeros 1]) (x := [0; 0]);
     [exact St|exact Hov|reflexivity|reflexivity|reflexivity|reflexivity|reflexivity|reflexivity| | | |]|].
  - unfold run_solver. rewrite St. cbn [m with_l1 mo_sr3 mo_penalty rbind mo_tol mo_max_iter mo_stepping].
    change (num_fixed (flat_problem 1 1)) with 1%nat. change (num_random (flat_problem 1 1)) with 1%nat.
    rewrite (pgd_one_step _ _ _ _ ([1] ++ [1]) (zeros 2) [0; 0]).
    + cbn [rbind]. reflexivity.
    + discriminate.
    + cbn [lme_as_oracle o_grad]. unfold joint_gradient. cbn [x_to_beta_gamma firstn skipn app].
      fold c. rewrite Gb. cbn [rbind]. rewrite Gg. reflexivity.
    + reflexivity.
    + cbn [as_regularizer r_prox app]. replace (vadd _ _) with [1; 1]; [exact P|].
      cbv [zeros repeat vneg map vscale vadd map2]. f_equal; [ring|f_equal; ring].
    + reflexivity.
  - exact E.
  - reflexivity.
  - reflexivity.
  - split; reflexivity.
Qed.
