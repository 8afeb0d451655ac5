(** Facts about fit_problem that hold for any oracle. *)
From Coq Require Import Lra Psatz String.
From Verif.Base Require Import Py Vec Mat.
From Verif.Model Require Import LmeProblem Regularizers Solvers LmeInner LmeFit.
From Verif.Spec Require Import ProxSpec RegSpec SolverSpec InnerSpec FitSpec.
From Verif.Proofs Require Import VecFacts L0Proofs RegularizerProofs L0LMEProofs RegularizersMain SolverProofs SolversMain
  InnerProofs InnerLoops InnerIP LmeInnerMain.
Open Scope list_scope.
Open Scope R_scope.

Ltac bind_inv H :=
  match type of H with
  | rbind ?m _ = Ok _ =>
      let a := fresh "a" in let E := fresh "E" in
      destruct m as [a|] eqn:E; cbn [rbind] in H; [|discriminate H]
  end.
Ltac guard_inv H E :=
  match type of H with
  | rbind (guard ?b _) _ = Ok _ => destruct b eqn:E; cbn [guard rbind] in H; [|discriminate H]
  end.

(** ** lengths of prox outputs *)
Lemma take_masked_len argsort part x n z : take_masked argsort part x n = Ok z -> length z = length x.
Proof. intros H. symmetry. eapply Forall2_len. eapply take_masked_entries. exact H. Qed.

Lemma l0lme_prox_len argsort s o x z : lz_oracle s = Some o -> length x = (ov_p o + ov_q o)%nat ->
  l0lme_prox argsort s x = Ok z -> length z = length x.
Proof.
  intros Ho HL H. unfold l0lme_prox in H. rewrite Ho in H. unfold x_to_beta_gamma in H.
  bind_inv H. bind_inv H. injection H as <-.
  pose proof (Forall2_len _ _ _ (optimal_tbeta_entries argsort s _ _ E)) as L1.
  pose proof (Forall2_len _ _ _ (optimal_tgamma_entries argsort s _ _ _ E0)) as L2.
  unfold beta_gamma_to_x. rewrite app_length, <- L1, <- L2, !firstn_length, skipn_length. lia.
Qed.
Lemma l1_prox_len lam w x a z : l1_prox lam w x a = Ok z -> length z = length x.
Proof.
  unfold l1_prox. destruct w as [w|]; intros H.
  - guard_inv H E. apply Nat.eqb_eq in E. injection H as <-. rewrite map2_length. lia.
  - injection H as <-. apply map_length.
Qed.
Lemma cad_prox_len rho lam w x a z : cad_prox rho lam w x a = Ok z -> length z = length x.
Proof.
  unfold cad_prox. destruct w as [w|]; intros H.
  - guard_inv H E. apply Nat.eqb_eq in E. injection H as <-. rewrite map2_length. lia.
  - injection H as <-. apply map_length.
Qed.
Lemma scad_loop_len rho sigma lam a w : forall x z, scad_prox_loop rho sigma lam a w x = Ok z -> length z = length x.
Proof.
  induction w as [|wi w IH]; intros [|xi x] z H; cbn [scad_prox_loop] in H; try discriminate.
  - injection H as <-. reflexivity.
  - injection H as <-. apply repeat_length.
  - bind_inv H. bind_inv H. injection H as <-. cbn [length]. f_equal. eauto.
Qed.

(** the instantiated regularizer of a model *)
Definition gamma_mask (ov : oracle_view) : list bool := repeat false (ov_p ov) ++ repeat true (ov_q ov).
Lemma mask_len ov : length (gamma_mask ov) = (ov_p ov + ov_q ov)%nat.
Proof. unfold gamma_mask. rewrite app_length, !repeat_length. reflexivity. Qed.

Lemma model_reg_shape m ov w r0 r : model_reg m ov = Ok r0 -> instantiate r0 w (Some ov) = Ok r ->
  exists pen pen', penalty_reg (mo_penalty m) ov = Ok pen /\ instantiate pen w None = Ok pen' /\
    r = RPos (Some (gamma_mask ov)) (Some (RElastic (mo_eps m) (Some pen'))).
Proof.
  unfold model_reg. intros H HI. bind_inv H. injection H as <-. exists a.
  cbn [mk_pos mk_elastic instantiate] in HI. bind_inv HI. injection HI as <-.
  bind_inv E0. injection E0 as <-. exists a1. auto.
Qed.

Lemma model_reg_params m ov w r0 r : sensible m -> nonneg w ->
  model_reg m ov = Ok r0 -> instantiate r0 w (Some ov) = Ok r -> params_ok r.
Proof.
  intros [Hp [He _]] Hw H HI. destruct (model_reg_shape _ _ _ _ _ H HI) as (pen & pen' & Hr & Hi & ->).
  cbn [params_ok]. split; [exact He|].
  assert (W : weights_nonneg (Some w)).
  { cbn. exact Hw. }
  destruct (mo_penalty m); cbn [penalty_reg penalty_ok] in *.
  - injection Hr as <-. injection Hi as <-. exact I.
  - injection Hr as <-. cbn [mk_l0lme instantiate] in Hi. bind_inv Hi. injection Hi as <-. exact I.
  - injection Hr as <-. injection Hi as <-. cbn [params_ok]. auto.
  - injection Hr as <-. injection Hi as <-. cbn [params_ok]. auto.
  - unfold mk_scad in Hr. guard_inv Hr E. injection Hr as <-. injection Hi as <-. cbn [params_ok].
    apply rltb_true in E. tauto.
Qed.

Lemma model_prox_len argsort m ov w r0 r x a z :
  model_reg m ov = Ok r0 -> instantiate r0 w (Some ov) = Ok r ->
  prox argsort r x a = Ok z -> length x = (ov_p ov + ov_q ov)%nat /\ length z = length x.
Proof.
  intros H HI HP. destruct (model_reg_shape _ _ _ _ _ H HI) as (pen & pen' & Hr & Hi & ->).
  cbn [prox] in HP. bind_inv HP. guard_inv E L. injection E as <-.
  apply Nat.eqb_eq in L. rewrite mask_len in L. split; [auto|].
  guard_inv HP D. set (y := map (fun xi => xi / (1 + a * mo_eps m)) (mask_map (gamma_mask ov) clip0 x)) in *.
  assert (Ly : length y = length x).
  { unfold y. rewrite map_length. apply mask_map_length. }
  rewrite <- Ly. destruct (mo_penalty m); cbn [penalty_reg] in Hr.
  - injection Hr as <-. injection Hi as <-. cbn [prox] in HP. injection HP as <-. reflexivity.
  - injection Hr as <-. cbn [mk_l0lme instantiate] in Hi. bind_inv Hi. injection Hi as <-.
    cbn [prox] in HP. eapply l0lme_prox_len with (o := ov); [|lia|exact HP].
    unfold l0lme_instantiate in E. cbn [lz_oracle] in E. destruct (x_to_beta_gamma _ _ w). injection E as <-. reflexivity.
  - injection Hr as <-. injection Hi as <-. eapply l1_prox_len. exact HP.
  - injection Hr as <-. injection Hi as <-. eapply cad_prox_len. exact HP.
  - unfold mk_scad in Hr. guard_inv Hr E. injection Hr as <-. injection Hi as <-. eapply scad_loop_len. exact HP.
Qed.

(** the gamma part of a prox output is non-negative *)
Lemma nonneg_nth (x : vec) : (forall j, (j < length x)%nat -> 0 <= nth j x 0) -> nonneg x.
Proof. intros H. apply Forall_nth. intros i d Hi. rewrite (nth_indep _ _ 0 Hi). auto. Qed.

Lemma model_prox_nonneg argsort m ov w r0 r x a z : sensible m -> nonneg w -> 0 <= a ->
  model_reg m ov = Ok r0 -> instantiate r0 w (Some ov) = Ok r -> prox argsort r x a = Ok z ->
  nonneg (snd (x_to_beta_gamma (ov_p ov) (ov_q ov) z)).
Proof.
  intros Hm Hw Ha H HI HP. destruct (model_prox_len _ _ _ _ _ _ _ _ _ H HI HP) as [L1 L2].
  pose proof (model_reg_params _ _ _ _ _ Hm Hw H HI) as Hok.
  apply nonneg_nth. cbn [x_to_beta_gamma snd]. intros j Hj.
  rewrite firstn_length, skipn_length in Hj.
  rewrite nth_firstn by lia. rewrite nth_skipn'.
  unfold model_reg in H. bind_inv H. injection H as <-.
  eapply (positive_quadrant_variances_nonneg_lemma argsort _ w ov r x a z j); eauto. lia.
Qed.

(** step lengths *)
Lemma step_length_pos m s : sensible m -> step_length m = Ok s -> 0 < s.
Proof.
  intros (Hp & _ & Hs & He) H. unfold step_length in H.
  destruct (given_step m) as [s'|] eqn:G.
  - injection H as <-. unfold given_step in G. destruct (mo_step_len m) as [s0|]; [|discriminate].
    destruct (reqb s0 0) eqn:Z; [discriminate|]. injection G as <-. apply reqb_false in Z.
    pose proof (Hs s0 eq_refl). lra.
  - destruct (mo_sr3 m) as [ss|].
    + injection H as <-. pose proof (He ss eq_refl). destruct (reqb (ss_ell ss) 0) eqn:Z; [lra|].
      apply reqb_false in Z. apply Rdiv_lt_0_compat; lra.
    + destruct (mo_penalty m); cbn [penalty_ok] in Hp; try (injection H as <-; lra);
      guard_inv H E; injection H as <-; apply Rdiv_lt_0_compat; lra.
Qed.

(** ** the result of the solver *)
Lemma resplit {A} p q (x : list A) :
  x_to_beta_gamma p q (firstn p x ++ firstn q (skipn p x)) = x_to_beta_gamma p q x.
Proof.
  unfold x_to_beta_gamma. destruct (Nat.le_gt_cases (length x) p) as [H|H].
  - rewrite skipn_all2 by lia. rewrite firstn_nil, app_nil_r, firstn_firstn, Nat.min_id.
    rewrite skipn_all2 by (rewrite firstn_length; lia). rewrite firstn_nil. reflexivity.
  - rewrite firstn_app, skipn_app, firstn_length, Nat.min_l, Nat.sub_diag by lia.
    cbn [firstn skipn]. rewrite app_nil_r, firstn_firstn, Nat.min_id.
    rewrite skipn_all2 by (rewrite firstn_length; lia). rewrite app_nil_l, firstn_firstn, Nat.min_id. reflexivity.
Qed.

Lemma practical_cases calls opts p q solve ms warm mem w x mem' : sm_warm mem = None ->
  find_optimal_parameters calls opts p q solve ms warm mem w = Ok (x, mem') ->
  x_to_beta_gamma p q x = x_to_beta_gamma p q w \/
  exists pr y tx, io_prox opts = Some pr /\ pr y (io_prox_step opts) = Ok tx /\
    x_to_beta_gamma p q x = x_to_beta_gamma p q tx.
Proof.
  intros HM H. unfold find_optimal_parameters in H.
  destruct (x_to_beta_gamma p q w) as [tb tg] eqn:W.
  apply rbind_inv in H. destruct H as [[[[[b g] tb'] tg'] m'] [H E]]. injection E as <- <-.
  assert (SG : length (start_gamma warm mem (vscale 2 tg)) = length (vscale 2 tg)).
  { unfold start_gamma. rewrite HM. destruct warm; reflexivity. }
  assert (C : (tb', tg') = (tb, tg) \/ exists pr y tx, io_prox opts = Some pr /\
            pr y (io_prox_step opts) = Ok tx /\ (tb', tg') = x_to_beta_gamma p q tx).
  { destruct (list_eq_dec Req_EM_T tg []) as [->|T].
    - unfold find_ip in H. apply rbind_inv in H. destruct H as [b0 [_ H]]. inversion H; subst. left; reflexivity.
    - destruct (find_ip_inv _ _ _ _ _ _ _ _ _ _ _ _ _ _ _ _ _ T H) as (k & s & K & St & C & Nn & _ & _ & E3 & E4 & _).
      set (n := length (vscale 2 tg)) in *.
      destruct (ip_startE n warm mem (vscale 2 tb) (vscale 2 tg) tb tg eq_refl) as (X & Bs & Gs & Tb & Tg & _).
      set (Q := fun s => packed n s /\ ((is_tbeta s, is_tgamma s) = (tb, tg) \/
         exists pr y tx, io_prox opts = Some pr /\ pr y (io_prox_step opts) = Ok tx /\
            (is_tbeta s, is_tgamma s) = x_to_beta_gamma p q tx)).
      assert (P : Q s); [|unfold Q in P; subst tb' tg'; tauto].
      eapply (ip_steps_inv _ _ _ _ _ _ _ Q); [|exact St|].
      + intros s0 s1 [P1 P2] B. split; [eapply ip_body_packed; eauto|].
        destruct P1 as [v [Hv [Hg Hx]]].
        destruct (ip_body_inv _ _ _ _ _ _ _ _ _ _ Hv Hg Hx B) as
          (f & df & dv & db & dg & a & _ & _ & _ & _ & _ & _ & _ & _ & _ & _ & _ & _ & _ & U).
        destruct U as [(_ & Eb & Eg & _)|(_ & _ & [(pr & tx & E1 & _ & _ & E5 & Eb & Eg)|(_ & Eb & Eg)] & _)];
          rewrite Eb, Eg; auto.
        right. exists pr. eexists. exists tx. split; [exact E1|]. split; [exact E5|].
        unfold x_to_beta_gamma. reflexivity.
      + split; [|left; rewrite Tb, Tg; reflexivity].
        exists (ones n). split; [apply ones_length|]. split; [rewrite Gs; exact SG|exact X]. }
  assert (R : forall y, x_to_beta_gamma p q y = (tb', tg') ->
              x_to_beta_gamma p q (beta_gamma_to_x tb' tg') = x_to_beta_gamma p q y).
  { intros y Hy. unfold beta_gamma_to_x. pose proof (resplit p q y) as S.
    unfold x_to_beta_gamma in Hy at 1. injection Hy as <- <-. exact S. }
  destruct C as [C|(pr & y & tx & E1 & E2 & E3)].
  - left. rewrite <- W. apply R. congruence.
  - right. exists pr, y, tx. repeat split; auto.
Qed.

(** a first iteration is made whenever there is something to fit *)
Lemma pgd_iterates S (orc : oracle S) rg slv x0 s lg x lg' s' : x0 <> [] -> (0 < s_max_iter slv)%Z ->
  pgd_optimize orc rg slv x0 s lg = Ok (x, lg', s') ->
  exists n, (0 < n)%nat /\ get lg' "iteration" = Ok (LAtom (LNum (INR n))).
Proof.
  intros Hx Hm H. destruct (pgd_optimize_inv _ _ _ _ _ _ _ _ _ H) as (path & _ & Ex & _ & C & _ & _ & Hi).
  exists (length path). split; [|exact Hi]. destruct path as [|st path]; cbn [length]; [|lia].
  exfalso. destruct C as [C|C]; [|cbn [length] in C; lia]. apply C. cbn [last_prev]. cbn [endpoint] in Ex. subst x.
  left. exact Hx.
Qed.

(** ** the regularizer of the L0 models *)
Lemma firstn_app_len {A} n (a b : list A) : length a = n -> firstn n (a ++ b) = a.
Proof. intros <-. rewrite firstn_app, Nat.sub_diag, firstn_all, firstn_O, app_nil_r. reflexivity. Qed.
Lemma skipn_app_len {A} n (a b : list A) : length a = n -> skipn n (a ++ b) = b.
Proof. intros <-. rewrite skipn_app, Nat.sub_diag, skipn_all. reflexivity. Qed.

Lemma l0_model_prox argsort m nb ng pr ov wf wr r0 r y a z : argsort_ok argsort -> mo_penalty m = PenL0 nb ng ->
  oracle_view_of pr = Ok ov -> length wf = num_fixed pr -> length wr = num_random pr ->
  model_reg m ov = Ok r0 -> instantiate r0 (wf ++ wr) (Some ov) = Ok r -> prox argsort r y a = Ok z ->
  l0_respected pr nb ng wf wr (firstn (num_fixed pr) z) (firstn (num_random pr) (skipn (num_fixed pr) z)) /\
  length z = (num_fixed pr + num_random pr)%nat.
Proof.
  intros Ha Hp Hov L1 L2 H HI HP.
  destruct (model_prox_len _ _ _ _ _ _ _ _ _ H HI HP) as [Ly Lz].
  destruct (model_reg_shape _ _ _ _ _ H HI) as (pen & pen' & Hr & Hi & ->).
  rewrite Hp in Hr. cbn [penalty_reg] in Hr. injection Hr as <-.
  unfold oracle_view_of in Hov. bind_inv Hov. injection Hov as <-. cbn [ov_p ov_q] in *.
  destruct (index_map_pairs_lemma pr) as (bm & Eb & Lb & Mp & On & Bd).
  assert (a0 = bm) by congruence. subst a0.
  cbn [prox] in HP. bind_inv HP. guard_inv E0 LL. injection E0 as <-.
  guard_inv HP D.
  match type of HP with prox _ _ ?v ?t = _ => set (yy := v) in *; set (aa := t) in * end.
  assert (Lyy : length yy = (num_fixed pr + num_random pr)%nat).
  { unfold yy. rewrite map_length, mask_map_length. exact Ly. }
  destruct (l0lme_prox_budgets_and_hierarchy_lemma argsort Ha nb ng false (num_fixed pr) (num_random pr) bm
              (wf ++ wr) yy aa pen') as (tb & tg & Et & Lb1 & Lg1 & _ & W1 & W2 & N1 & N2 & Hh & _); auto.
  - rewrite app_length. lia.
  - intros i Hi'. destruct (On i Hi') as (c & l & Hc & Hf & <-).
    rewrite (nth_error_nth _ _ _ (Mp c l Hc Hf)). destruct (is_random l) eqn:Hr; [|lia].
    pose proof (Bd c l Hc Hr). lia.
  - assert (z = tb ++ tg) by congruence. subst z.
    rewrite (firstn_app_len _ tb tg Lb1), (skipn_app_len _ tb tg Lb1).
    rewrite (firstn_all2 tg) by lia.
    rewrite (firstn_app_len _ wf wr L1), (skipn_app_len _ wf wr L1) in *.
    split; [|rewrite app_length; lia]. unfold l0_respected.
    split; [exact W1|]. split; [exact W2|]. split; [exact N1|]. split; [exact N2|].
    exists bm. split; [exact Eb|]. apply Hh. reflexivity.
Qed.

Section Solver.
Variable argsort : vec -> list nat.
Variable solve : mat -> vec -> res vec.

Lemma run_solver_cases m p q c rg x0 lg x lg' : sensible m ->
  run_solver solve m p q c rg x0 lg = Ok (x, lg') ->
  x_to_beta_gamma p q x = x_to_beta_gamma p q x0 \/
  exists y s tx, 0 < s /\ r_prox rg y s = Ok tx /\ x_to_beta_gamma p q x = x_to_beta_gamma p q tx.
Proof.
  intros Hm H. unfold run_solver in H. apply rbind_inv in H. destruct H as [step [Hs H]].
  pose proof (step_length_pos _ _ Hm Hs) as Ps.
  assert (PGD : forall S (orc : oracle S) slv s0 s1, s_step_len slv = step ->
    pgd_optimize orc rg slv x0 s0 lg = Ok (x, lg', s1) ->
    x = x0 \/ exists y s, 0 < s /\ r_prox rg y s = Ok x).
  { intros S orc slv s0 s1 Hst HP.
    destruct (pgd_iterations_bounded_and_reported_lemma _ _ _ _ _ _ _ _ _ _ HP) as (path & _ & Ex & _ & Hi).
    destruct path as [|st path]; [left; exact Ex|right].
    destruct (pgd_result_is_prox_output_lemma _ _ _ _ _ _ _ _ _ _ (length (st :: path)) HP) as (y & s & E1 & E2 & _);
      [lra|exact Hi|cbn [length]; lia|]. exists y, s. auto. }
  destruct (mo_sr3 m) as [ss|].
  - destruct (ss_practical ss).
    + apply rbind_inv in H. destruct H as [[[x1 lg1] mem1] [H E]]. injection E as <- <-.
      unfold fake_pgd_optimize in H. apply rbind_inv in H. destruct H as [[[x2 lg2] mem2] [H E]].
      apply rbind_inv in H. destruct H as [lg3 [_ H]].
      apply rbind_inv in H. destruct H as [[x3 mem3] [H E2]]. injection E2 as <- <- <-.
      apply rbind_inv in E. destruct E as [[lg4 mem4] [_ E]].
      apply rbind_inv in E. destruct E as [lg5 [_ E]]. injection E as <- <- <-.
      destruct (practical_cases _ _ _ _ _ _ _ (sr3_start ss) _ _ _ eq_refl H) as [C|(pr & y & tx & E1 & E2 & E3)]; [auto|].
      right. injection E1 as <-. exists y, 1, tx. split; [lra|]. auto.
    + apply rbind_inv in H. destruct H as [[[x1 lg1] mem1] [H E]]. injection E as <- <-.
      assert (C := fun e => PGD _ _ _ _ _ e H); specialize (C eq_refl); destruct C as [->|(y & s & ? & ?)]; [auto|right; exists y, s, x1; auto].
  - apply rbind_inv in H. destruct H as [[[x1 lg1] mem1] [H E]]. injection E as <- <-.
    assert (C := fun e => PGD _ _ _ _ _ e H); specialize (C eq_refl); destruct C as [->|(y & s & ? & ?)]; [auto|right; exists y, s, x1; auto].
Qed.

(** with PGDSolver, an iteration means a prox output *)
Lemma run_solver_iterated m p q c rg x0 lg x lg' : sensible m -> uses_pgd m ->
  run_solver solve m p q c rg x0 lg = Ok (x, lg') -> iterated lg' ->
  exists y s, 0 < s /\ r_prox rg y s = Ok x.
Proof.
  intros Hm Hu H (n & Hn & Hi). unfold run_solver in H. apply rbind_inv in H. destruct H as [step [Hs H]].
  pose proof (step_length_pos _ _ Hm Hs) as Ps. unfold uses_pgd in Hu.
  destruct (mo_sr3 m) as [ss|]; [rewrite (Hu ss eq_refl) in H|];
  apply rbind_inv in H; destruct H as [[[x1 lg1] mem1] [H E]]; injection E as <- <-;
  (destruct (pgd_result_is_prox_output_lemma _ _ _ _ _ _ _ _ _ _ n H) as (y & s & E1 & E2 & _); eauto).
Qed.

Lemma run_solver_positive m p q c rg x0 lg x lg' : sensible m -> uses_pgd m -> (0 < mo_max_iter m)%Z -> x0 <> [] ->
  run_solver solve m p q c rg x0 lg = Ok (x, lg') ->
  exists y s, 0 < s /\ r_prox rg y s = Ok x.
Proof.
  intros Hm Hu Hp Hx H. apply (run_solver_iterated _ _ _ _ _ _ _ _ _ Hm Hu H). unfold iterated.
  unfold run_solver in H. apply rbind_inv in H. destruct H as [step [Hs H]]. unfold uses_pgd in Hu.
  destruct (mo_sr3 m) as [ss|]; [rewrite (Hu ss eq_refl) in H|];
  apply rbind_inv in H; destruct H as [[[x1 lg1] mem1] [H E]]; injection E as <- <-;
  (eapply pgd_iterates; [exact Hx| |exact H]; exact Hp).
Qed.

Variable calls_of : lme_problem -> option gauss_lme -> option sr3_settings -> lme_calls.

(** what a successful fit has done *)
Lemma fit_problem_inv m coef pr beta0 gamma0 warm fe re co lg :
  fit_problem argsort solve calls_of m coef pr beta0 gamma0 warm fe re = Ok (co, lg) ->
  exists ov g wf wr r0 r bg0 beta1 gamma1 lg0 x lg1,
    oracle_view_of pr = Ok ov /\ prior_of m pr = Ok g /\ fit_weights pr fe re = Ok (wf, wr) /\
    model_reg m ov = Ok r0 /\ instantiate r0 (wf ++ wr) (Some ov) = Ok r /\
    start_point coef warm beta0 gamma0 (num_fixed pr) (num_random pr) = Ok bg0 /\
    initialize m (num_random pr) (num_groups pr) (calls_of pr g (mo_sr3 m)) bg0 = Ok (beta1, gamma1) /\
    mk_logger (Some (mo_keys m)) = Ok lg0 /\
    run_solver solve m (num_fixed pr) (num_random pr) (calls_of pr g (mo_sr3 m))
      (as_regularizer argsort r) (beta1 ++ gamma1) lg0 = Ok (x, lg1) /\
    (co_beta co, co_gamma co) = x_to_beta_gamma (num_fixed pr) (num_random pr) x /\
    lc_random_effects (calls_of pr g (mo_sr3 m)) (co_beta co) (co_gamma co) = Ok (co_effects co) /\
    per_group_coefficients (co_beta co) (co_effects co) (pr_intercept pr :: map Some (pr_labels pr)) = Ok (co_per_group co) /\
    co_labels co = pr_group_labels pr /\
    log_criteria m (calls_of pr g (mo_sr3 m)) (co_beta co) (co_gamma co) lg1 = Ok lg.
Proof.
  unfold fit_problem. intros H.
  apply rbind_inv in H. destruct H as [st [_ H]]. apply rbind_inv in H. destruct H as [u [_ H]].
  apply rbind_inv in H. destruct H as [ov [Hov H]]. apply rbind_inv in H. destruct H as [g [Hg H]].
  apply rbind_inv in H. destruct H as [[wf wr] [Hw H]]. apply rbind_inv in H. destruct H as [r0 [Hr0 H]].
  apply rbind_inv in H. destruct H as [r [Hr H]]. apply rbind_inv in H. destruct H as [bg0 [Hs H]].
  apply rbind_inv in H. destruct H as [[beta1 gamma1] [Hi H]]. apply rbind_inv in H. destruct H as [lg0 [Hl H]].
  apply rbind_inv in H. destruct H as [[x lg1] [Hx H]].
  destruct (x_to_beta_gamma (num_fixed pr) (num_random pr) x) as [beta gamma] eqn:X.
  apply rbind_inv in H. destruct H as [us [Hu H]]. apply rbind_inv in H. destruct H as [pg [Hp H]].
  apply rbind_inv in H. destruct H as [lg2 [Hc H]]. injection H as <- <-.
  exists ov, g, wf, wr, r0, r, bg0, beta1, gamma1, lg0, x, lg1. cbn [co_beta co_gamma co_effects co_per_group co_labels].
  repeat (split; [assumption|]). split; [symmetry; exact X|]. auto.
Qed.

(** the EM initializer *)
Lemma nonneg_vadd x y : nonneg x -> nonneg y -> nonneg (vadd x y).
Proof.
  intros Hx. revert y. induction Hx as [|a x Ha Hx IH]; intros [|b y] Hy; try constructor; inversion Hy; subst.
  - apply Rplus_le_le_0_compat; auto.
  - apply IH; auto.
Qed.
Lemma mean_squares_nonneg q us n g : mean_squares q us n = Ok g -> nonneg g.
Proof.
  unfold mean_squares. intros H. guard_inv H E. injection H as <-. apply Nat.ltb_lt in E.
  assert (N : nonneg (fold_right (fun u s => vadd (map (fun a => a ^ 2) u) s) (zeros q) us)).
  { induction us as [|u us IH]; cbn [fold_right].
    - apply Forall_forall. intros a Ha. apply repeat_spec in Ha. lra.
    - apply nonneg_vadd; [|exact IH]. apply Forall_map. apply Forall_forall. intros a _. apply pow2_ge_0. }
  apply Forall_map. eapply Forall_impl; [|exact N]. intros a Ha. cbn beta.
  apply lt_INR in E. cbn in E. apply Rmult_le_pos; [exact Ha|]. left. apply Rinv_0_lt_compat. exact E.
Qed.

Lemma initialize_start m q n c b g b' g' p :
  (forall gm bb, lc_optimal_beta c gm = Ok bb -> length bb = p) ->
  (forall l gm t bb, sc_optimal_beta (lc_sr3 c) l gm t = Ok bb -> length bb = p) ->
  length b = p -> nonneg g -> initialize m q n c (b, g) = Ok (b', g') -> length b' = p /\ nonneg g'.
Proof.
  intros H1 H2 Lb Ng H. unfold initialize in H. destruct (String.eqb (mo_initializer m) "EM").
  - apply rbind_inv in H. destruct H as [bb [Hb H]]. apply rbind_inv in H. destruct H as [us [_ H]].
    apply rbind_inv in H. destruct H as [gg [Hg H]]. injection H as <- <-. split.
    + destruct (mo_sr3 m); eauto.
    + eapply mean_squares_nonneg. exact Hg.
  - injection H as <- <-. auto.
Qed.

Lemma start_pointE coef warm beta0 gamma0 p q :
  start_point coef warm beta0 gamma0 p q =
  Ok (match beta0 with Some b => b | None => ones p end, match gamma0 with Some g => g | None => ones q end).
Proof. unfold start_point. destruct coef as [c|]; [|reflexivity]. destruct warm; reflexivity. Qed.

Lemma nonneg_ones n : nonneg (ones n).
Proof. apply Forall_forall. intros a Ha. apply repeat_spec in Ha. lra. Qed.

Lemma default_weights_nonneg given stored n b w : opt_all nonneg given -> opt_all nonneg stored ->
  default_weights given stored n b = Ok w -> nonneg w.
Proof.
  intros H1 H2 H. unfold default_weights in H. destruct given as [x|].
  - injection H as <-. apply H1. reflexivity.
  - destruct stored as [x|].
    + injection H as <-. apply H2. reflexivity.
    + destruct b; [|injection H as <-; apply nonneg_ones]. pose proof (nonneg_ones n) as N.
      destruct (ones n) as [|a l]; [discriminate|]. injection H as <-. inversion N; subst. constructor; [lra|auto].
Qed.
Lemma fit_weights_nonneg pr fe re wf wr : opt_all nonneg fe -> opt_all nonneg re ->
  opt_all nonneg (pr_fe_weights pr) -> opt_all nonneg (pr_re_weights pr) ->
  fit_weights pr fe re = Ok (wf, wr) -> nonneg (wf ++ wr).
Proof.
  intros H1 H2 H3 H4 H. unfold fit_weights in H. apply rbind_inv in H. destruct H as [a [Ha H]].
  apply rbind_inv in H. destruct H as [b [Hb H]]. injection H as <- <-. apply nonneg_app.
  split; [eapply default_weights_nonneg; [exact H1|exact H3|exact Ha]|eapply default_weights_nonneg; [exact H2|exact H4|exact Hb]].
Qed.

Lemma oracle_viewE pr ov : oracle_view_of pr = Ok ov -> ov_p ov = num_fixed pr /\ ov_q ov = num_random pr.
Proof. unfold oracle_view_of. intros H. apply rbind_inv in H. destruct H as [m [_ H]]. injection H as <-. auto. Qed.

(** evaluations which look at the lengths of their arguments *)
Definition well_sized (p q : nat) (c : lme_calls) : Prop :=
  (forall gm b, lc_optimal_beta c gm = Ok b -> length b = p) /\
  (forall l gm t b, sc_optimal_beta (lc_sr3 c) l gm t = Ok b -> length b = p) /\
  (forall b g us, lc_random_effects c b g = Ok us -> length b = p /\ length g = q).
Definition all_sized (m : lme_model) (pr : lme_problem) : Prop :=
  forall g, well_sized (num_fixed pr) (num_random pr) (calls_of pr g (mo_sr3 m)).

Lemma fit_nonneg m coef pr beta0 gamma0 warm fe re co lg :
  all_sized m pr ->
  sensible m -> opt_all nonneg fe -> opt_all nonneg re ->
  opt_all nonneg (pr_fe_weights pr) -> opt_all nonneg (pr_re_weights pr) ->
  opt_all (fun b => length b = num_fixed pr) beta0 -> opt_all nonneg gamma0 ->
  fit_problem argsort solve calls_of m coef pr beta0 gamma0 warm fe re = Ok (co, lg) ->
  nonneg (co_gamma co).
Proof.
  intros S Hm W1 W2 W3 W4 Hb Hg H.
  destruct (fit_problem_inv _ _ _ _ _ _ _ _ _ _ H) as
    (ov & g & wf & wr & r0 & r & bg0 & beta1 & gamma1 & lg0 & x & lg1 & Hov & Hp & Hw & Hr0 & Hr & Hs & Hi & Hl & Hx & Hc & _).
  rewrite start_pointE in Hs. injection Hs as <-.
  destruct (oracle_viewE _ _ Hov) as [Ep Eq].
  destruct (S g) as (S1 & S2 & _).
  apply (initialize_start _ _ _ _ _ _ _ _ (num_fixed pr)) in Hi; [|exact S1|exact S2| |].
  - destruct Hi as [L1 N1].
    assert (Eg : co_gamma co = snd (x_to_beta_gamma (num_fixed pr) (num_random pr) x)) by (rewrite <- Hc; reflexivity).
    rewrite Eg. destruct (run_solver_cases _ _ _ _ _ _ _ _ _ Hm Hx) as [C|(y & s & tx & Ps & Ex & C)]; rewrite C.
    + cbn [x_to_beta_gamma snd]. rewrite skipn_app, skipn_all2, L1, Nat.sub_diag by lia. cbn [skipn app].
      apply Forall_forall. intros a Ha. eapply Forall_forall; [exact N1|]. rewrite <- (firstn_skipn (num_random pr) gamma1).
      apply in_or_app. auto.
    + rewrite <- Ep, <- Eq. cbn [as_regularizer r_prox] in Ex.
      eapply model_prox_nonneg; [exact Hm| |left; exact Ps|exact Hr0|exact Hr|exact Ex].
      eapply fit_weights_nonneg; [exact W1|exact W2|exact W3|exact W4|exact Hw].
  - destruct beta0 as [b|]; [apply Hb; reflexivity|apply repeat_length].
  - destruct gamma0 as [gm|]; [apply Hg; reflexivity|apply nonneg_ones].
Qed.

(** ** L0 models *)
Lemma fit_weights_len pr fe re wf wr :
  opt_all (fun w => length w = num_fixed pr) fe -> opt_all (fun w => length w = num_fixed pr) (pr_fe_weights pr) ->
  opt_all (fun w => length w = num_random pr) re -> opt_all (fun w => length w = num_random pr) (pr_re_weights pr) ->
  fit_weights pr fe re = Ok (wf, wr) -> length wf = num_fixed pr /\ length wr = num_random pr.
Proof.
  intros H1 H2 H3 H4 H. unfold fit_weights in H. apply rbind_inv in H. destruct H as [a [Ha H]].
  apply rbind_inv in H. destruct H as [b [Hb H]]. injection H as <- <-.
  assert (D : forall given stored n i w, opt_all (fun w => length w = n) given -> opt_all (fun w => length w = n) stored ->
     default_weights given stored n i = Ok w -> length w = n).
  { intros given stored n i w G1 G2 G. unfold default_weights in G. destruct given as [x|].
    - injection G as <-. apply G1. reflexivity.
    - destruct stored as [x|]; [injection G as <-; apply G2; reflexivity|].
      pose proof (ones_length n) as On.
      destruct i; [|injection G as <-; exact On]. destruct (ones n); [discriminate|]. injection G as <-. exact On. }
  split; [exact (D _ _ _ _ _ H1 H2 Ha)|exact (D _ _ _ _ _ H3 H4 Hb)].
Qed.

Lemma fit_l0 m nb ng coef pr beta0 gamma0 warm fe re co lg wf wr :
  all_sized m pr -> argsort_ok argsort -> sensible m -> mo_penalty m = PenL0 nb ng ->
  fit_weights pr fe re = Ok (wf, wr) -> length wf = num_fixed pr -> length wr = num_random pr ->
  fit_problem argsort solve calls_of m coef pr beta0 gamma0 warm fe re = Ok (co, lg) ->
  (uses_pgd m -> (0 < mo_max_iter m)%Z -> l0_respected pr nb ng wf wr (co_beta co) (co_gamma co)) /\
  (l0_respected pr nb ng wf wr (co_beta co) (co_gamma co) \/
   exists g b1 g1, prior_of m pr = Ok g /\
    initialize m (num_random pr) (num_groups pr) (calls_of pr g (mo_sr3 m))
     (match beta0 with Some b => b | None => ones (num_fixed pr) end,
      match gamma0 with Some g => g | None => ones (num_random pr) end) = Ok (b1, g1) /\
     (co_beta co, co_gamma co) = x_to_beta_gamma (num_fixed pr) (num_random pr) (b1 ++ g1)).
Proof.
  intros S Ha Hm Hp Ew L1 L2 H.
  destruct (fit_problem_inv _ _ _ _ _ _ _ _ _ _ H) as
    (ov & g & wf' & wr' & r0 & r & bg0 & beta1 & gamma1 & lg0 & x & lg1 & Hov & Hg & Hw & Hr0 & Hr & Hs & Hi & Hl & Hx & Hc & Hu & _).
  rewrite Ew in Hw. injection Hw as <- <-. rewrite start_pointE in Hs. injection Hs as <-.
  assert (P : forall y s tx, r_prox (as_regularizer argsort r) y s = Ok tx ->
              l0_respected pr nb ng wf wr (firstn (num_fixed pr) tx) (firstn (num_random pr) (skipn (num_fixed pr) tx))).
  { intros y s tx E. cbn [as_regularizer r_prox] in E.
    apply (l0_model_prox argsort m nb ng pr ov wf wr r0 r y s tx Ha Hp Hov L1 L2 Hr0 Hr E). }
  split.
  - intros Hu' Hi'. destruct (list_eq_dec Req_EM_T (beta1 ++ gamma1) []) as [N|N].
    + destruct (S g) as (_ & _ & S3). destruct (S3 _ _ _ Hu) as [Lb Lg].
      destruct (run_solver_cases _ _ _ _ _ _ _ _ _ Hm Hx) as [C|(y & s & tx & _ & Ex & C)].
      * rewrite N in C. rewrite <- Hc in C. unfold x_to_beta_gamma in C.
        rewrite firstn_nil, skipn_nil, firstn_nil in C. injection C as Cb Cg. rewrite Cb, Cg in *.
        cbn [length] in Lb, Lg. rewrite <- Lb in L1. rewrite <- Lg in L2.
        destruct wf; [|discriminate]. destruct wr; [|discriminate].
        destruct (index_map_pairs_lemma pr) as (bm & Eb & _).
        unfold l0_respected, within_budget, zero_count. cbn [penalised_nonzeros nonzeros length].
        split; [lia|]. split; [lia|]. split; [lia|]. split; [lia|]. exists bm. split; [exact Eb|].
        intros i j Hi2. cbn [length] in Hi2. lia.
      * rewrite <- Hc in C. unfold x_to_beta_gamma in C. injection C as -> ->. eapply P. exact Ex.
    + destruct (run_solver_positive _ _ _ _ _ _ _ _ _ Hm Hu' Hi' N Hx) as (y & s & _ & Ex).
      unfold x_to_beta_gamma in Hc. injection Hc as -> ->. eapply P. exact Ex.
  - destruct (run_solver_cases _ _ _ _ _ _ _ _ _ Hm Hx) as [C|(y & s & tx & _ & Ex & C)].
    + right. exists g, beta1, gamma1. split; [exact Hg|]. split; [exact Hi|]. rewrite Hc. exact C.
    + left. rewrite <- Hc in C. unfold x_to_beta_gamma in C. injection C as -> ->. eapply P. exact Ex.
Qed.
End Solver.
