(** Final lemmas about what "converged" means for the fitted parameters, restated as theorems in Properties/LmeStationary.v. *)
(*HEAD
(** Property C83: a run reported as converged ends at a stationary point (src/pysr3/solvers.py, src/pysr3/lme/models.py). *)
From Verif.Base Require Import Py Vec Mat.
From Verif.Model Require Import LmeProblem Regularizers Solvers Linear LmeInner LmeFit LmeBridge.
From Verif.Spec Require Import ProxSpec SolverSpec LinearSpec RateSpec LmeSpec InnerSpec FitSpec StationarySpec.
HEAD*)
(*OPEN
Open Scope list_scope.
Open Scope R_scope.
OPEN*)
From Coq Require Import Lra Psatz String FunctionalExtensionality.
From Verif.Base Require Import Py Vec Mat.
From Verif.Model Require Import LmeProblem Regularizers Solvers Linear LmeInner LmeFit LmeBridge.
From Verif.Spec Require Import ProxSpec RegSpec SolverSpec LinearSpec RateSpec LmeSpec InnerSpec FitSpec StationarySpec.
From Verif.Proofs Require Import VecFacts L0Proofs RegularizerProofs L0LMEProofs RegularizersMain MatFacts SolverProofs SolversMain
  LinearProofs LinearMain InnerProofs LmeInnerMain LmeProblemProofs LmeProblemMain FitProofs BridgeProofs RateProofs SelectProofs LmeFitMain.
Open Scope list_scope.
Open Scope R_scope.

(** ** the solver *)
Lemma last_rule S (orc : oracle S) rg slv path : forall x q0, path <> [] ->
  is_path (pgd_rule orc rg slv) x path ->
  exists q s, last_prev q0 x path = Some q /\ pgd_rule orc rg slv q s (endpoint x path).
Proof.
  induction path as [|[s x'] path IH]; intros x q0 N P; [congruence|].
  destruct P as [P1 P]. rewrite endpoint_cons. simpl last_prev.
  destruct path as [|sx path].
  - exists x, s. split; [reflexivity|exact P1].
  - apply IH; [discriminate|exact P].
Qed.

Lemma prox_stationary dom h s q g x tol : 0 < s -> convex_on dom h -> length g = length q ->
  is_prox dom h s (vsub q (vscale s g)) x -> norm (vsub x q) <= tol ->
  first_order dom h g x (tol / s).
Proof.
  intros Hs Hc Lg P Ht. pose proof P as [Lx [Dx _]].
  assert (Ly : length (vsub q (vscale s g)) = length q) by (apply vsub_len; auto; apply vscale_len; auto).
  rewrite Ly in Lx. split; [exact Dx|]. intros u Lu Du.
  pose proof (prox_slope dom h s _ x u Hs Hc P ltac:(congruence) Du) as H.
  rewrite (vdot_vsub_l x) in H by congruence.
  rewrite (vdot_vsub_l q) in H by (rewrite vscale_length; congruence).
  rewrite vdot_vscale_l in H.
  assert (C : vdot (vsub x q) (vsub u x) <= tol * norm (vsub u x)).
  { apply Rle_trans with (1 := norm_dot _ _). apply Rmult_le_compat_r; [apply norm_nonneg|exact Ht]. }
  rewrite vdot_vsub_l in C by congruence.
  apply Rmult_le_reg_l with s; [exact Hs|].
  replace (s * (h u + vdot g (vsub u x) + tol / s * norm (vsub u x)))
    with (s * h u + s * vdot g (vsub u x) + tol * norm (vsub u x)) by (field; lra).
  lra.
Qed.

(*@ C83.  Whatever the loss: if proximal gradient descent reports converged=True for a penalty with an exact, convex
    prox, then the returned point x is stationary up to tol / step, the gradient g being taken at a point q within tol
    of x. *)
Lemma converged_is_stationary_lemma :
  forall S (orc : oracle S) rg dom pen slv x0 s0 lg x lg' s',
  exact_for rg dom pen -> convex_on dom pen -> 0 < s_step_len slv -> x0 <> [] ->
  pgd_optimize orc rg slv x0 s0 lg = Ok (x, lg', s') -> reported_converged lg' ->
  exists q s1 g s2 step,
    o_grad orc s1 q = Ok (g, s2) /\ length g = length q /\ length x = length q /\
    norm (vsub x q) <= s_tol slv /\
    0 < step <= s_step_len slv /\ (s_stepping slv <> "line-search"%string -> step = s_step_len slv) /\
    r_prox rg (vsub q (vscale step g)) step = Ok x /\
    first_order dom pen g x (s_tol slv / step).
Proof.
  intros S orc rg dom pen slv x0 s0 lg x lg' s' Hex Hc Hs Hn H Hconv.
  destruct (pgd_optimize_inv _ _ _ _ _ _ _ _ _ H) as (path & P & E & _ & T & _ & C & _).
  unfold reported_converged in Hconv. rewrite C in Hconv. injection Hconv as Hb. apply Z.ltb_lt in Hb.
  destruct T as [T|T]; [|lia].
  assert (N : path <> []).
  { intros ->. unfold endpoint in E. simpl in E. subst x. apply T. left. exact Hn. }
  destruct (last_rule _ _ _ _ path x0 None N P) as (q & st & Eq & R). rewrite Eq in T. cbn [still] in T.
  apply Rnot_lt_le in T. subst x. destruct R as [[s1 [g [s2 [G [Lg Pr]]]]] [Hst _]].
  assert (Hp : 0 < st <= s_step_len slv /\ (s_stepping slv <> "line-search"%string -> st = s_step_len slv)).
  { destruct (String.eqb_spec (s_stepping slv) "line-search") as [e|ne].
    - destruct Hst as [k ->]. split; [apply halved_range; exact Hs|]. congruence.
    - subst st. split; [lra|reflexivity]. }
  destruct Hp as [Hp1 Hp2].
  pose proof (Hex _ _ _ (proj1 Hp1) Pr) as IP.
  exists q, s1, g, s2, st. split; [exact G|]. split; [exact Lg|]. split.
  { destruct IP as [L _]. rewrite L. apply vsub_len; auto. apply vscale_len; auto. }
  split; [exact T|]. split; [exact Hp1|]. split; [exact Hp2|]. split; [exact Pr|].
  eapply prox_stationary; eauto. apply Hp1.
Qed.

(** ** the mixed models *)
Lemma log_criteria_get m c beta gamma lg lg' k :
  log_criteria m c beta gamma lg = Ok lg' ->
  ~ In k ["vaida_aic"; "vaida_aic_marginalized"; "jones_bic"; "muller_ic"; "flip_probabilities_beta"]%string ->
  get lg' k = get lg k.
Proof.
  intros H Hk. unfold log_criteria in H.
  apply rbind_inv in H. destruct H as [l1 [H1 H]]. apply rbind_inv in H. destruct H as [l2 [H2 H]].
  apply rbind_inv in H. destruct H as [l3 [H3 H]]. apply rbind_inv in H. destruct H as [l4 [H4 H]].
  destruct (add_if_inv _ _ _ _ H1) as (_ & L1 & _). destruct (add_if_inv _ _ _ _ H2) as (_ & L2 & _).
  destruct (add_if_inv _ _ _ _ H3) as (_ & L3 & _). destruct (add_if_inv _ _ _ _ H4) as (_ & L4 & _).
  destruct (add_if_inv _ _ _ _ H) as (_ & L5 & _). cbn [In] in Hk.
  unfold get. rewrite L5, L4, L3, L2, L1; [reflexivity|intros ->; tauto ..].
Qed.

Lemma skip_mask p q : forall z : vec, length z = (p + q)%nat ->
  mask_select (repeat false p ++ repeat true q) z = skipn p z.
Proof.
  induction p as [|p IH]; intros z L.
  - cbn [repeat app skipn]. simpl in L. revert z L. induction q as [|q IH]; intros [|a z] L; try discriminate; [reflexivity|].
    cbn [repeat mask_select]. rewrite IH; [reflexivity|]. injection L as L. exact L.
  - destruct z as [|a z]; [discriminate|]. cbn [repeat app mask_select skipn]. apply IH. injection L as L. exact L.
Qed.
Lemma nonneg_on_skip ov p q z : ov_p ov = p -> ov_q ov = q -> length z = (p + q)%nat ->
  nonneg_on (gamma_mask ov) z <-> variances_nonneg p z.
Proof.
  intros <- <- L. unfold nonneg_on, gamma_mask, variances_nonneg, nonneg. rewrite skip_mask by exact L. reflexivity.
Qed.

Lemma mask_between m : forall x z t, length x = length z -> 0 <= t <= 1 ->
  nonneg_on m x -> nonneg_on m z -> nonneg_on m (between t x z).
Proof.
  unfold nonneg_on. induction m as [|b m IH]; intros x z t L Ht Hx Hz; [constructor|].
  destruct x as [|a x], z as [|c z]; try discriminate; [constructor|].
  change (between t (a :: x) (c :: z)) with ((a + t * (c - a)) :: between t x z).
  injection L as L. destruct b; cbn [mask_select] in *.
  - inversion Hx; inversion Hz; subst. constructor; [|apply IH; auto].
    replace (a + t * (c - a)) with ((1 - t) * a + t * c) by ring.
    apply Rplus_le_le_0_compat; apply Rmult_le_pos; lra.
  - apply IH; auto.
Qed.
Lemma sqnorm_between x z t : length x = length z -> 0 <= t <= 1 ->
  sqnorm (between t x z) <= (1 - t) * sqnorm x + t * sqnorm z.
Proof.
  revert z. induction x as [|a x IH]; intros [|c z] L Ht; try discriminate.
  - unfold between, sqnorm, vdot, vsum. simpl. lra.
  - change (between t (a :: x) (c :: z)) with ((a + t * (c - a)) :: between t x z). injection L as L.
    change (sqnorm ((a + t * (c - a)) :: between t x z)) with ((a + t * (c - a)) * (a + t * (c - a)) + sqnorm (between t x z)).
    change (sqnorm (a :: x)) with (a * a + sqnorm x). change (sqnorm (c :: z)) with (c * c + sqnorm z).
    specialize (IH z L Ht). pose proof (pow2_ge_0 (c - a)).
    assert (0 <= t * (1 - t) * (c - a) ^ 2) by (apply Rmult_le_pos; [apply Rmult_le_pos; lra|assumption]). nra.
Qed.
Lemma convex_penalty_convex m w pen mask : sensible m -> nonneg w -> convex_penalty m w = Some pen ->
  convex_on (fun z => nonneg_on mask z) pen.
Proof.
  intros (Hp & He & _) Hw H x z t L Dx Dz Ht. split; [apply mask_between; auto|].
  pose proof (sqnorm_between x z t L Ht) as Q.
  apply Rmult_le_compat_l with (r := mo_eps m / 2) in Q; [|lra].
  unfold convex_penalty in H. destruct (mo_penalty m) as [|nb ng|lam|lam rho|lam rho sigma]; try discriminate; injection H as <-.
  - lra.
  - cbn [penalty_ok] in Hp. pose proof (weighted_l1_between w Hw x z t L Ht) as W.
    apply Rmult_le_compat_l with (r := lam) in W; [|exact Hp]. lra.
Qed.

(*@ C83.  A mixed model without relaxation, without penalty or with the L1 penalty: if its fit reports converged=True, the
    returned (beta, gamma) has non-negative variances and is stationary for the likelihood, prior, L1 and elastic terms on
    them up to tol / step, the gradient being that of the likelihood at parameters within tol. *)
Lemma lme_converged_is_stationary_lemma :
  forall argsort cdf m coef pr beta0 gamma0 warm fe re co lg wf wr pen step,
  sensible m -> mo_sr3 m = None -> step_length m = Ok step ->
  fit_weights pr fe re = Ok (wf, wr) -> nonneg (wf ++ wr) -> convex_penalty m (wf ++ wr) = Some pen ->
  (0 < num_fixed pr)%nat ->
  opt_all (fun b => length b = num_fixed pr) beta0 ->
  opt_all (fun g => nonneg g /\ length g = num_random pr) gamma0 ->
  lme_fit_problem argsort cdf m coef pr beta0 gamma0 warm fe re = Ok (co, lg) ->
  reported_converged lg ->
  exists g bq gq gb gg s,
    let c := problem_calls cdf pr g None in
    let x := co_beta co ++ co_gamma co in
    prior_of m pr = Ok g /\
    length (co_beta co) = num_fixed pr /\ length (co_gamma co) = num_random pr /\
    length bq = num_fixed pr /\ length gq = num_random pr /\
    norm (vsub x (bq ++ gq)) <= mo_tol m /\
    lc_gradient_beta c bq gq = Ok gb /\ length gb = num_fixed pr /\
    lc_gradient_gamma c bq gq = Ok gg /\ length gg = num_random pr /\
    0 < s <= step /\ (mo_stepping m <> "line-search"%string -> s = step) /\
    first_order (variances_nonneg (num_fixed pr)) pen (gb ++ gg) x (mo_tol m / s).
Proof.
  intros argsort cdf m coef pr beta0 gamma0 warm fe re co lg wf wr pen step Hm Hsr Hst Ew Hw Hpen Hpp Hb Hg H Hconv.
  destruct (fit_problem_inv _ _ _ _ _ _ _ _ _ _ _ _ _ H) as
    (ov & g & wf' & wr' & r0 & r & bg0 & b1 & g1 & lg0 & x & lg1 & Hov & Hpr & Hw' & Hr0 & Hr & Hs & Hn & _ & Hx & Hc & _ & _ & _ & Hlog).
  assert (wf' = wf /\ wr' = wr) as [-> ->] by (rewrite Ew in Hw'; injection Hw' as -> ->; auto).
  rewrite start_pointE in Hs. injection Hs as <-. rewrite Hsr in *.
  set (c := problem_calls cdf pr g None) in *. set (p := num_fixed pr) in *. set (q := num_random pr) in *.
  set (b := match beta0 with Some b => b | None => ones p end) in *.
  set (gm := match gamma0 with Some g => g | None => ones q end) in *.
  assert (Lb : length b = p).
  { unfold b. destruct beta0 as [v|]; [apply Hb; reflexivity|apply ones_length]. }
  assert (Ng : nonneg gm /\ length gm = q).
  { unfold gm. destruct gamma0 as [v|]; [apply Hg; reflexivity|]. split; [apply nonneg_ones|apply ones_length]. }
  destruct (problem_calls_sized cdf pr g None) as (S1 & S2 & _). fold c p q in S1, S2.
  destruct (initialize_start m q (num_groups pr) c b gm b1 g1 p S1 S2 Lb (proj1 Ng) Hn) as [L1 N1].
  unfold run_solver in Hx. rewrite Hst in Hx. cbn [rbind] in Hx. rewrite Hsr in Hx.
  apply rbind_inv in Hx as [[[x' lg2] u] [Hx E]]. injection E as -> ->.
  assert (Hconv1 : reported_converged lg1).
  { unfold reported_converged. rewrite <- (log_criteria_get _ _ _ _ _ _ "converged"%string Hlog); [exact Hconv|].
    cbn [In]. intros [K|[K|[K|[K|[K|K]]]]]; try discriminate; exact K. }
  pose proof (step_length_pos _ _ Hm Hst) as Hpos.
  assert (Hne : b1 ++ g1 <> []) by (destruct b1; [simpl in L1; lia|discriminate]).
  destruct (converged_is_stationary_lemma _ _ _ (fun z => nonneg_on (gamma_mask ov) z) pen
    {| s_tol := mo_tol m; s_max_iter := mo_max_iter m; s_stepping := mo_stepping m; s_step_len := step |} _ _ _ _ _ _
    (model_exact argsort m ov (wf ++ wr) r0 r pen Hm Hw Hpen Hr0 Hr)
    (convex_penalty_convex m (wf ++ wr) pen (gamma_mask ov) Hm Hw Hpen) Hpos Hne Hx Hconv1)
    as (z & s1 & dg & s2 & s & G & Ldg & Lx & Hnorm & Hs & Hfix & Pr & [Dx F]).
  cbn [s_tol s_step_len s_stepping] in *.
  destruct (model_prox_len _ _ _ _ _ _ _ _ _ Hr0 Hr Pr) as [A B].
  destruct (oracle_viewE _ _ Hov) as [Ep Eq]. fold p in Ep. fold q in Eq. rewrite Ep, Eq in A.
  assert (Lz : length z = (p + q)%nat).
  { rewrite <- A. symmetry. apply vsub_len; auto. apply vscale_len; auto. }
  rewrite A in B.
  assert (Sx : co_beta co ++ co_gamma co = x /\ length (co_beta co) = p /\ length (co_gamma co) = q).
  { unfold x_to_beta_gamma in Hc. injection Hc as -> ->. rewrite split_all by lia.
    rewrite !firstn_length, skipn_length. split; [reflexivity|lia]. }
  destruct Sx as (Sx & Lcb & Lcg).
  cbn [lme_as_oracle o_grad] in G. apply rbind_inv in G as [v' [G E]]. injection E as <- _.
  unfold joint_gradient, x_to_beta_gamma in G.
  apply rbind_inv in G as [gb [Gb G]]. apply rbind_inv in G as [u1 [K1 G]]. apply guard_inv in K1. apply Nat.eqb_eq in K1.
  apply rbind_inv in G as [gg [Gg G]]. apply rbind_inv in G as [u2 [K2 G]]. apply guard_inv in K2. apply Nat.eqb_eq in K2.
  replace (length z - p - q)%nat with 0%nat in G by lia. unfold zeros in G. cbn [repeat] in G. rewrite app_nil_r in G. apply Ok_inj in G. subst v'.
  assert (Lbq : length (firstn p z) = p) by (rewrite firstn_length; lia).
  assert (Lgq : length (firstn q (skipn p z)) = q) by (rewrite firstn_length, skipn_length; lia).
  exists g, (firstn p z), (firstn q (skipn p z)), gb, gg, s. fold c p q. cbv zeta.
  rewrite Sx, split_all by lia.
  split; [exact Hpr|]. split; [exact Lcb|]. split; [exact Lcg|]. split; [exact Lbq|]. split; [exact Lgq|].
  split; [exact Hnorm|]. split; [exact Gb|]. split; [congruence|]. split; [exact Gg|]. split; [congruence|].
  split; [exact Hs|]. split; [exact Hfix|]. split.
  - apply (nonneg_on_skip ov p q); auto.
  - intros w Lw Dw. apply F; [exact Lw|]. apply (nonneg_on_skip ov p q); auto. congruence.
Qed.

Lemma app_inj_len : forall (a b c d : vec), a ++ b = c ++ d -> length a = length c -> a = c /\ b = d.
Proof.
  induction a as [|x a IH]; intros b [|y c] d H L; try discriminate; [auto|].
  injection H as -> H. destruct (IH b c d H) as [-> ->]; [injection L as L; exact L|auto].
Qed.
Lemma norm_zero_eq : forall (x q : vec), length x = length q -> norm (vsub x q) <= 0 -> x = q.
Proof.
  intros x q L H.
  assert (Z : sqnorm (vsub x q) = 0).
  { rewrite <- norm_sq. pose proof (norm_nonneg (vsub x q)). replace (norm (vsub x q)) with 0 by lra. ring. }
  clear H. revert q L Z. induction x as [|a x IH]; intros [|b q] L Z; try discriminate; [reflexivity|].
  injection L as L. change (sqnorm (vsub (a :: x) (b :: q))) with ((a - b) * (a - b) + sqnorm (vsub x q)) in Z.
  pose proof (sqnorm_nonneg (vsub x q)). pose proof (Rle_0_sqr (a - b)) as Q. unfold Rsqr in Q.
  assert (Z0 : (a - b) * (a - b) = 0) by lra. apply Rmult_integral in Z0.
  f_equal; [destruct Z0; lra|]. apply IH; [exact L|lra].
Qed.

(*@ C83.  With tol = 0 the gradient is that at the returned parameters themselves: they satisfy the first-order conditions
    exactly. *)
Lemma lme_converged_exactly_lemma :
  forall argsort cdf m coef pr beta0 gamma0 warm fe re co lg wf wr pen step,
  sensible m -> mo_sr3 m = None -> step_length m = Ok step -> mo_tol m = 0 ->
  fit_weights pr fe re = Ok (wf, wr) -> nonneg (wf ++ wr) -> convex_penalty m (wf ++ wr) = Some pen ->
  (0 < num_fixed pr)%nat ->
  opt_all (fun b => length b = num_fixed pr) beta0 ->
  opt_all (fun g => nonneg g /\ length g = num_random pr) gamma0 ->
  lme_fit_problem argsort cdf m coef pr beta0 gamma0 warm fe re = Ok (co, lg) ->
  reported_converged lg ->
  exists g gb gg, let c := problem_calls cdf pr g None in
    prior_of m pr = Ok g /\
    lc_gradient_beta c (co_beta co) (co_gamma co) = Ok gb /\
    lc_gradient_gamma c (co_beta co) (co_gamma co) = Ok gg /\
    first_order (variances_nonneg (num_fixed pr)) pen (gb ++ gg) (co_beta co ++ co_gamma co) 0.
Proof.
  intros argsort cdf m coef pr beta0 gamma0 warm fe re co lg wf wr pen step Hm Hsr Hst Ht Ew Hw Hpen Hpp Hb Hg H Hconv.
  destruct (lme_converged_is_stationary_lemma argsort cdf m coef pr beta0 gamma0 warm fe re co lg wf wr pen step
    Hm Hsr Hst Ew Hw Hpen Hpp Hb Hg H Hconv) as (g & bq & gq & gb & gg & s & Hpr & L1 & L2 & L3 & L4 & Hn & Gb & _ & Gg & _ & Hs & _ & F).
  rewrite Ht in Hn, F. apply norm_zero_eq in Hn; [|rewrite !app_length; congruence].
  assert (E : co_beta co = bq /\ co_gamma co = gq).
  { apply app_inj_len in Hn; [exact Hn|congruence]. }
  destruct E as [<- <-]. exists g, gb, gg. cbv zeta.
  split; [exact Hpr|]. split; [exact Gb|]. split; [exact Gg|].
  replace (0 / s) with 0 in F by (field; lra). exact F.
Qed.

(** one fixed step which stays where it is, with two iterations allowed *)
Lemma pgd_rests (orc : oracle unit) rg step x0 g :
  x0 <> [] -> o_grad orc tt x0 = Ok (g, tt) -> length g = length x0 ->
  r_prox rg (vadd x0 (vscale step (vneg g))) step = Ok x0 ->
  pgd_optimize orc rg {| s_tol := 0; s_max_iter := 2; s_stepping := "fixed"; s_step_len := step |} x0 tt
    {| lg_kind := KTuple; lg_keys := []; lg_dict := [] |} =
  Ok (x0, {| lg_kind := KTuple; lg_keys := ["converged"; "iteration"]%string;
             lg_dict := [("converged"%string, LAtom (LBool true)); ("iteration"%string, LAtom (LNum 1))] |}, tt).
Proof.
  intros Hn Hg Lg Hp. set (lg := {| lg_kind := KTuple; lg_keys := []; lg_dict := [] |}).
  set (slv := {| s_tol := 0; s_max_iter := 2; s_stepping := "fixed"; s_step_len := step |}).
  set (st1 := {| st_x := x0; st_x_prev := Some x0; st_iteration := 1; st_loss := None;
                 st_direction := Some (vneg g); st_step_len := Some step;
                 st_y := Some (vadd x0 (vscale step (vneg g))); st_z := None; st_oracle := tt; st_logger := lg |}).
  assert (H1 : pgd_step orc rg slv x0 (pgd_init x0 tt lg) = Ok st1).
  { unfold pgd_step. cbn [pgd_init st_x st_oracle st_z st_loss st_iteration st_logger].
    rewrite Hg. cbn [rbind slv s_stepping s_step_len]. cbn [String.eqb Ascii.eqb Bool.eqb].
    unfold move. rewrite vneg_length, Lg, Nat.eqb_refl. cbn [guard rbind].
    rewrite Hp. cbn [rbind]. apply log_state_quiet. reflexivity. }
  assert (H2 : pgd_loop orc rg slv 2 x0 (pgd_init x0 tt lg) = Ok st1).
  { apply (pgd_loop_S _ _ _ _ _ _ st1); auto.
    - unfold moved. cbn [pgd_init st_x_prev st_x]. destruct x0; congruence.
    - apply (pgd_loop_stop _ _ _ _ _ _ false); [|reflexivity].
      unfold moved. cbn [st1 st_x st_x_prev]. rewrite Nat.eqb_refl. cbn [guard rbind]. f_equal.
      apply rltb_false. unfold norm. rewrite vsub_self, sqnorm_zeros, sqrt_0. cbn [slv s_tol]. lra. }
  unfold pgd_optimize. rewrite log_state_quiet by reflexivity. cbn [rbind].
  change (Z.to_nat (s_max_iter slv)) with 2%nat. rewrite H2. reflexivity.
Qed.

(*@ an L1 model covered by the theorem: started at 0 it makes one step, stays there and reports convergence *)
Lemma ex_lme_converged_lemma :
  let m := flat_model (PenL1 1) None 2 0 in
  sensible m /\ mo_sr3 m = None /\ mo_tol m = 0 /\ step_length m = Ok (1 / 2) /\ num_fixed (flat_problem 1 1) = 1%nat /\
  fit_weights (flat_problem 1 1) None None = Ok ([1], [1]) /\
  convex_penalty m [1; 1] = Some (fun x => 0 / 2 * sqnorm x + 1 * weighted_l1 [1; 1] x) /\
  forall argsort cdf, exists co lg,
    lme_fit_problem argsort cdf m None (flat_problem 1 1) (Some [0]) (Some [0]) false None None = Ok (co, lg) /\
    reported_converged lg /\ co_beta co = [0] /\ co_gamma co = [0].
Proof.
  set (m := flat_model (PenL1 1) None 2 0). cbv zeta.
  assert (St : step_length m = Ok (1 / 2)).
  { unfold step_length. change (given_step m) with (@None R). change (mo_sr3 m) with (@None sr3_settings).
    change (mo_penalty m) with (PenL1 1). unfold nonzero. assert (N : reqb (1 + 1) 0 = false) by (apply reqb_false; lra).
    rewrite N. cbn [negb guard rbind]. do 2 f_equal. }
  split.
  { unfold sensible. cbn [m flat_model mo_penalty mo_eps mo_step_len mo_sr3 penalty_ok].
    split; [lra|]. split; [lra|]. split; intros ? E; discriminate. }
  split; [reflexivity|]. split; [reflexivity|]. split; [exact St|]. split; [reflexivity|]. split; [reflexivity|]. split; [reflexivity|].
  intros argsort cdf. destruct flat_view as [bm Hov].
  set (c := problem_calls cdf (flat_problem 1 1) None None).
  assert (E : lc_random_effects c [0] [0] = Ok [zeros 1])
    by (apply (@flat_calls_effects 1 1 cdf None [0] [0]); reflexivity).
  assert (Gb : lc_gradient_beta c [0] [0] = Ok (zeros 1)) by (apply (@flat_calls_gradient_beta 1 1 cdf None [0] [0]); reflexivity).
  assert (Gg : lc_gradient_gamma c [0] [0] = Ok (zeros 1)) by (apply (@flat_calls_gradient_gamma 1 1 cdf None [0] [0]); reflexivity).
  set (r := RPos (Some (gamma_mask {| ov_p := 1; ov_q := 1; ov_map := bm |})) (Some (RElastic 0 (Some (RL1 1 (Some [1; 1])))))).
  assert (P : prox argsort r [0; 0] (1 / 2) = Ok [0; 0]).
  { unfold r. cbn [prox gamma_mask ov_p ov_q repeat app length Nat.eqb guard rbind mask_map map2].
    unfold clip0, nonzero. rewrite (Rmax_left 0 0) by lra.
    assert (N : reqb (1 + 1 / 2 * 0) 0 = false) by (apply reqb_false; lra).
    rewrite N. cbn [negb guard rbind map]. unfold l1_prox. cbn [length Nat.eqb guard rbind map2].
    assert (X : soft (1 / 2 / (1 + 1 / 2 * 0) * 1 * 1) (0 / (1 + 1 / 2 * 0)) = 0).
    { replace (1 / 2 / (1 + 1 / 2 * 0) * 1 * 1) with (/ 2) by field. replace (0 / (1 + 1 / 2 * 0)) with 0 by field.
      unfold soft, clip0. rewrite !Rmax_right by lra. lra. }
    rewrite X. reflexivity. }
  eexists. eexists. split; [unfold lme_fit_problem; eapply fit_problem_run with (g := None) (beta1 := [0]) (gamma1 := [0]) (us := [zeros 1]) (x := [0; 0]);
     [exact St|exact Hov|reflexivity|reflexivity|reflexivity|reflexivity|reflexivity|reflexivity| | | |]|].
  - unfold run_solver. rewrite St. cbn [m flat_model mo_sr3 mo_penalty rbind mo_tol mo_max_iter mo_stepping].
    change (num_fixed (flat_problem 1 1)) with 1%nat. change (num_random (flat_problem 1 1)) with 1%nat.
    rewrite (pgd_rests _ _ _ ([0] ++ [0]) (zeros 2)).
    + cbn [rbind]. reflexivity.
    + discriminate.
    + cbn [lme_as_oracle o_grad]. unfold joint_gradient. cbn [x_to_beta_gamma firstn skipn app].
      fold c. rewrite Gb. cbn [rbind]. rewrite Gg. reflexivity.
    + reflexivity.
    + cbn [as_regularizer r_prox app]. replace (vadd _ _) with [0; 0]; [exact P|].
      cbv [zeros repeat vneg map vscale vadd map2]. f_equal; [ring|f_equal; ring].
  - exact E.
  - reflexivity.
  - reflexivity.
  - split; [reflexivity|]. split; reflexivity.
Qed.

(*@ the solver on its own: f(x) = x.x/2 without penalty, started at 0 *)
Lemma ex_converged_lemma :
  exact_for free_reg all_vecs (fun _ => 0) /\ convex_on all_vecs (fun _ => 0) /\
  exists x lg s, pgd_optimize quad_oracle free_reg
      {| s_tol := 0; s_max_iter := 2; s_stepping := "fixed"; s_step_len := 1 |} [0] tt
      {| lg_kind := KTuple; lg_keys := []; lg_dict := [] |} = Ok (x, lg, s) /\ reported_converged lg.
Proof.
  split; [exact (dummy_exact (fun _ => []))|]. split; [intros x z t L _ _ Ht; split; [exact I|lra]|].
  exists [0]. eexists. exists tt. split; [apply (pgd_rests _ _ _ [0] [0]); try reflexivity; try discriminate|reflexivity].
  cbn [free_reg r_prox]. cbv [vneg map vscale vadd map2]. repeat f_equal. ring.
Qed.
