(** Final lemmas about the SR3 relaxation and the problem that it relaxes, restated as theorems
    in Properties/LinearRelax.v. *)
(*HEAD
(** Property C120: how far the SR3 relaxation of a linear model is from the problem that it relaxes
    (src/pysr3/linear/oracles.py, src/pysr3/linear/models.py). *)
From Verif.Base Require Import Py Vec Mat.
From Verif.Model Require Import Regularizers Linear.
From Verif.Spec Require Import ProxSpec LinearSpec RateSpec RelaxSpec.
HEAD*)
(*OPEN
Open Scope string_scope.
Open Scope list_scope.
Open Scope R_scope.
OPEN*)
From Coq Require Import Lra Psatz.
From Verif.Base Require Import Py Vec Mat.
From Verif.Model Require Import Regularizers Linear.
From Verif.Spec Require Import ProxSpec RegSpec SolverSpec LinearSpec RateSpec RelaxSpec.
From Verif.Proofs Require Import VecFacts L0Proofs RegularizerProofs RegularizersMain MatFacts ScalarProx SolverProofs SolversMain LinearProofs LinearMain RateProofs LinearRateMain RelaxProofs.
Open Scope string_scope.
Open Scope list_scope.
Open Scope R_scope.

(** ** the oracle *)
Section Use.
Variables (inv : nat -> mat -> res mat) (pr : linear_problem) (o0 o : sr3_oracle) (hi : mat).
Hypothesis Hw : wf_linear pr.
Hypothesis Hc : lp_c pr = eye (lp_p pr).
Hypothesis Hl : 0 < so_lam o0.
Hypothesis S1 : is_shape (lp_p pr) (lp_p pr) hi.
Hypothesis S2 : forall v, length v = lp_p pr -> mv (h_matrix (so_lam o0) pr) (mv hi v) = v.
Notation v := (vfun pr (so_lam o0) hi).
Lemma vfun_best w z : length w = lp_p pr -> length z = lp_p pr -> v w <= relaxed_loss (so_lam o0) pr z w.
Proof.
  intros Lw Lz. unfold vfun. rewrite (relaxed_min pr (so_lam o0) hi Hw (relax_symmetric pr Hc) S1 S2 w z) by auto.
  pose proof (sqnorm_nonneg (mv (lp_a pr) (vsub z (xstar pr (so_lam o0) hi w)))).
  pose proof (sqnorm_nonneg (mv (lp_c pr) (vsub z (xstar pr (so_lam o0) hi w)))).
  assert (0 <= so_lam o0 / 2 * sqnorm (mv (lp_c pr) (vsub z (xstar pr (so_lam o0) hi w)))) by (apply Rmult_le_pos; lra). lra.
Qed.
End Use.
Lemma sr3_gives inv o0 pr o : inv_ok inv -> wf_linear pr -> lp_c pr = eye (lp_p pr) -> 0 < so_lam o0 ->
  so_practical o0 = false -> sr3_instantiate inv o0 pr = Ok o ->
  exists hi, is_shape (lp_p pr) (lp_p pr) hi /\
    (forall v, length v = lp_p pr -> mv (h_matrix (so_lam o0) pr) (mv hi v) = v) /\
    forall x, length x = lp_p pr -> sr3_value o x = Ok (vfun pr (so_lam o0) hi x) /\
      sr3_gradient o x = Ok (vgrad pr (so_lam o0) hi x).
Proof.
  intros Hi Hw Hc Hl Hp H. destruct (sr3_instantiate_inv _ _ _ _ Hi Hw H) as [hi [S1 [S2 [_ [E1 [E2 [E3 E4]]]]]]].
  exists hi. split; [auto|]. split; [auto|]. intros x Lx. rewrite Hp in *.
  destruct (sr3_eval o pr _ hi x E2 E3 E4 Lx) as [V G].
  pose proof (relax_symmetric pr Hc) as Hs. pose proof (Rlt_le _ _ Hl) as Hl'.
  rewrite value_is_relaxed in V by auto. rewrite gradient_is in G by auto. auto.
Qed.

(*@ C120.  With the identity as c, value_function is below the loss of the problem without the relaxation, exactly by
    |g|^2/(2 el) + |a g|^2/(2 el^2) for the gradient g that gradient_value_function returns, and by at most
    |a'(a x - b)|^2/(2 el). *)
Lemma relaxed_value_below_loss_lemma :
  forall inv o0 pr o x, inv_ok inv -> wf_linear pr -> lp_c pr = eye (lp_p pr) -> 0 < so_lam o0 ->
  so_practical o0 = false -> sr3_instantiate inv o0 pr = Ok o -> length x = lp_p pr ->
  exists v g, sr3_value o x = Ok v /\ sr3_gradient o x = Ok g /\
    least_squares pr x = v + / (2 * so_lam o0) * sqnorm g + / (2 * so_lam o0 ^ 2) * sqnorm (mv (lp_a pr) g) /\
    least_squares pr x - / (2 * so_lam o0) * sqnorm (tmv (lp_p pr) (lp_a pr) (vsub (mv (lp_a pr) x) (lp_b pr))) <= v.
Proof.
  intros inv o0 pr o x Hi Hw Hc Hl Hp H Lx. destruct (sr3_gives _ _ _ _ Hi Hw Hc Hl Hp H) as [hi [S1 [S2 E]]].
  destruct (E x Lx) as [V G]. eexists. eexists. split; [exact V|]. split; [exact G|].
  split; [apply relax_gap; auto|].
  set (z := xstar pr (so_lam o0) hi x). assert (Lz : length z = lp_p pr) by (apply xstar_len; auto).
  destruct (ls_convex_smooth pr Hw x Lx) as [Lg Cv]. specialize (Cv z Lz).
  change (ls_grad pr x) with (tmv (lp_p pr) (lp_a pr) (vsub (mv (lp_a pr) x) (lp_b pr))) in *.
  set (gr := tmv _ _ _) in *.
  unfold vfun. fold z. unfold relaxed_loss. rewrite Hc, mv_eye by auto.
  pose proof (sqnorm_nonneg (vadd (vscale (/ so_lam o0) gr) (vsub z x))) as N.
  rewrite sqnorm_vadd, sqnorm_vscale, vdot_vscale_l in N
    by (rewrite vscale_length, Lg; symmetry; apply vsub_len; auto).
  apply (Rmult_le_compat_l (so_lam o0 / 2)) in N; [|lra]. rewrite Rmult_0_r in N.
  match type of N with 0 <= ?e => replace e with (/ (2 * so_lam o0) * sqnorm gr + vdot gr (vsub z x) + so_lam o0 / 2 * sqnorm (vsub z x)) in N by (field; lra) end.
  lra.
Qed.

(*@ An oracle within the hypotheses. *)
Lemma ex_relaxed_value_below_loss_lemma :
  inv_ok inv_one /\ wf_linear (sample_problem 4) /\ lp_c (sample_problem 4) = eye (lp_p (sample_problem 4)) /\
  exists o, sr3_instantiate inv_one {| so_lam := 1; so_practical := false; so_problem := None; so_data := None |}
    (sample_problem 4) = Ok o.
Proof.
  destruct ex_sr3_instance_lemma as [A [B [_ D]]]. auto.
Qed.

(*@ C120.  A larger el gives a larger value, so a closer one. *)
Lemma relaxed_value_grows_lemma :
  forall inv o1' o2' pr o1 o2 x, inv_ok inv -> wf_linear pr -> lp_c pr = eye (lp_p pr) ->
  0 < so_lam o1' <= so_lam o2' -> so_practical o1' = false -> so_practical o2' = false ->
  sr3_instantiate inv o1' pr = Ok o1 -> sr3_instantiate inv o2' pr = Ok o2 -> length x = lp_p pr ->
  exists v1 v2, sr3_value o1 x = Ok v1 /\ sr3_value o2 x = Ok v2 /\ v1 <= v2 <= least_squares pr x.
Proof.
  intros inv o1' o2' pr o1 o2 x Hi Hw Hc Hl P1 P2 H1 H2 Lx.
  assert (L1 : 0 < so_lam o1') by lra. assert (L2 : 0 < so_lam o2') by lra.
  destruct (sr3_gives _ _ _ _ Hi Hw Hc L1 P1 H1) as [h1 [S1 [T1 E1]]].
  destruct (sr3_gives _ _ _ _ Hi Hw Hc L2 P2 H2) as [h2 [S2 [T2 E2]]].
  destruct (E1 x Lx) as [V1 _]. destruct (E2 x Lx) as [V2 _]. eexists. eexists. split; [exact V1|]. split; [exact V2|].
  split.
  - set (z := xstar pr (so_lam o2') h2 x). assert (Lz : length z = lp_p pr) by (apply xstar_len; auto).
    eapply Rle_trans; [apply (vfun_best pr o1' h1 Hw Hc L1 S1 T1 x z Lx Lz)|].
    unfold vfun. fold z. unfold relaxed_loss. pose proof (sqnorm_nonneg (vsub (mv (lp_c pr) z) x)). nra.
  - rewrite (relax_gap pr (so_lam o2') h2 Hw Hc L2 S2 T2 x Lx).
    pose proof (sqnorm_nonneg (vgrad pr (so_lam o2') h2 x)). pose proof (sqnorm_nonneg (mv (lp_a pr) (vgrad pr (so_lam o2') h2 x))).
    assert (0 < / (2 * so_lam o2')) by (apply Rinv_0_lt_compat; lra).
    assert (0 < / (2 * so_lam o2' ^ 2)) by (apply Rinv_0_lt_compat; nra). nra.
Qed.

(*@ C120.  If x with its best z is within e0 + a|x - u| of every pair for the relaxed problem with the penalty
    lam sum w|x|, then it is within that plus a term of the order 1/el of every u for the problem itself; for an exact
    minimiser e0 and a are 0. *)
Lemma relaxed_minimiser_near_best_lemma :
  forall inv o0 pr o lam w best x a e0, inv_ok inv -> wf_linear pr -> lp_c pr = eye (lp_p pr) -> 0 < so_lam o0 ->
  so_practical o0 = false -> sr3_instantiate inv o0 pr = Ok o ->
  0 <= lam -> Forall (fun wi => 0 <= wi) w -> length w = lp_p pr -> 0 <= a -> 0 <= e0 ->
  length best = lp_p pr -> length x = lp_p pr ->
  (forall z u, length z = lp_p pr -> length u = lp_p pr ->
     relaxed_objective (so_lam o0) lam w pr best x <= relaxed_objective (so_lam o0) lam w pr z u + (e0 + a * norm (vsub x u))) ->
  forall u, length u = lp_p pr ->
    plain_objective lam w pr x <= plain_objective lam w pr u + (e0 + a * norm (vsub x u))
      + relaxation_gap (so_lam o0) (lam * norm w + 2 * a + sqrt (2 * so_lam o0 * e0)) pr.
Proof.
  intros inv o0 pr o lam w best x a e0 Hi Hw Hc Hl Hp H Hb Fw Lw Ha He Lb Lx Near.
  destruct (sr3_gives _ _ _ _ Hi Hw Hc Hl Hp H) as [hi [S1 [S2 _]]].
  apply (relax_plain pr (so_lam o0) hi Hw Hc Hl S1 S2 lam w x a e0); auto.
  intros u Lu. pose proof (vfun_best pr o0 hi Hw Hc Hl S1 S2 x best Lx Lb) as B.
  assert (Lz : length (xstar pr (so_lam o0) hi u) = lp_p pr) by (apply xstar_len; auto).
  specialize (Near _ u Lz Lu). unfold relaxed_objective in Near. fold (vfun pr (so_lam o0) hi u) in Near.
  change (relaxed_loss (so_lam o0) pr (xstar pr (so_lam o0) hi u) u) with (vfun pr (so_lam o0) hi u) in Near. lra.
Qed.

(*@ C120.  The SR3 linear L1 model: if 'converged' is True, the fitted coefficients are nearly the best ones for the
    L1 problem without the relaxation, with an error that consists of the solver's and of the relaxation's. *)
Lemma sr3_l1_fit_near_plain_best_lemma :
  forall argsort inv m pr x0 (warm : bool) weights x lg lam el sm,
  inv_ok inv -> wf_linear pr -> lp_c pr = eye (lp_p pr) ->
  lm_el m = Some el -> 0 < el -> lm_practical m = false -> lm_reg m = mk_l1 lam -> 0 <= lam -> 0 <= lm_tol m ->
  let w := match weights with Some w => w | None => ones (lp_p pr) end in
  Forall (fun wi => 0 <= wi) w -> length w = lp_p pr ->
  let start := if warm then match x0 with Some x => x | None => ones (lp_p pr) end else ones (lp_p pr) in
  length start = lp_p pr ->
  safe_steps {| s_tol := lm_tol m; s_max_iter := lm_max_iter m; s_stepping := lm_stepping m; s_step_len := effective_step m |}
    el sm ->
  linear_fit_problem argsort inv m pr x0 warm weights = Ok (x, lg) ->
  get lg "converged" = Ok (LAtom (LBool true)) ->
  let a := lm_tol m / sm in
  let e0 := lm_tol m ^ 2 / (2 * sm) in
  forall u, length u = lp_p pr ->
    plain_objective lam w pr x <= plain_objective lam w pr u + (e0 + a * norm (vsub x u))
      + relaxation_gap el (lam * norm w + 2 * a + sqrt (2 * el * e0)) pr.
Proof.
  intros argsort inv m pr x0 warm weights x lg lam el sm Hinv Hw Hc Hel Hel0 Hpr Hr Hl Ht w Hwn Lw start Ls Hst H Cv a e0.
  destruct (fit_logger _ _ _ _ _ _ _ _ _ H) as [run [aic [bic [r [lg0 [lg1 [s [H0 [Hi [_ [Hp [Hk _]]]]]]]]]]]].
  rewrite Hel in H0. apply rbind_inv in H0 as [o0 [Ho0 H0]]. apply rbind_inv in H0 as [o [Ho H0]].
  unfold mk_sr3 in Ho0. apply rbind_inv in Ho0 as [u0 [_ Ho0]]. injection Ho0 as <-.
  apply Ok_inj in H0. injection H0 as <- <- <-. rewrite Hpr in Hp.
  fold start in Hp. rewrite Hr in Hi. simpl in Hi. injection Hi as <-. fold w in Hp.
  pose proof (relax_symmetric pr Hc) as Hsym.
  destruct (sr3_convex_smooth inv {| so_lam := el; so_practical := false; so_problem := None; so_data := None |} pr o Hinv Hw Hsym (Rlt_le _ _ Hel0) eq_refl Ho) as [f [g [xs [V [G [Sm [Bx Bm]]]]]]].
  cbn [so_lam] in *.
  destruct (optimize_rate _ _ _ f g all_vecs (fun z => lam * weighted_l1 w z)
    (lp_p pr) el sm V G Sm (Rlt_le _ _ Hel0) (l1_exact argsort lam w Hl Hwn) (weighted_l1_convex lam w Hl Hwn)
    Hst start tt lg0 x lg1 s Ls Hp) as [n [b [A [B [Lx [_ [C D]]]]]]].
  destruct (Bx x Lx) as [Lb Eb]. rewrite Hk in Cv by discriminate. assert (b = true) by congruence. subst b.
  cbn [s_tol] in D. destruct Hst as [[Hsm _] _].
  apply (relaxed_minimiser_near_best_lemma inv {| so_lam := el; so_practical := false; so_problem := None; so_data := None |}
    pr o lam w (xs x) x a e0); auto.
  - apply Rmult_le_pos; [auto|]. left. apply Rinv_0_lt_compat. auto.
  - apply Rmult_le_pos; [apply pow2_ge_0|]. left. apply Rinv_0_lt_compat. lra.
  - cbn [so_lam]. intros z u Lz Lu. specialize (D eq_refl u Lu I). cbv beta in D. specialize (Bm u z Lu Lz).
    unfold relaxed_objective. rewrite <- Eb.
    replace (e0 + a * norm (vsub x u)) with (lm_tol m / sm * (norm (vsub x u) + lm_tol m / 2)) by (unfold e0, a; field; lra). lra.
Qed.

Lemma pgd_one_step_stop (orc : oracle unit) rg tol step x0 g x1 :
  x0 <> [] -> o_grad orc tt x0 = Ok (g, tt) -> length g = length x0 ->
  r_prox rg (vadd x0 (vscale step (vneg g))) step = Ok x1 -> length x1 = length x0 -> norm (vsub x1 x0) <= tol ->
  pgd_optimize orc rg {| s_tol := tol; s_max_iter := 2; s_stepping := "fixed"; s_step_len := step |} x0 tt
    {| lg_kind := KTuple; lg_keys := []; lg_dict := [] |} =
  Ok (x1, {| lg_kind := KTuple; lg_keys := ["converged"; "iteration"];
             lg_dict := [("converged", LAtom (LBool true)); ("iteration", LAtom (LNum 1))] |}, tt).
Proof.
  intros Hn Hg Lg Hp Lx Ht. set (lg := {| lg_kind := KTuple; lg_keys := []; lg_dict := [] |}).
  set (slv := {| s_tol := tol; s_max_iter := 2; s_stepping := "fixed"; s_step_len := step |}).
  set (st1 := {| st_x := x1; st_x_prev := Some x0; st_iteration := 1; st_loss := None;
                 st_direction := Some (vneg g); st_step_len := Some step;
                 st_y := Some (vadd x0 (vscale step (vneg g))); st_z := None; st_oracle := tt; st_logger := lg |}).
  assert (H1 : pgd_step orc rg slv x0 (pgd_init x0 tt lg) = Ok st1).
  { unfold pgd_step. cbn [pgd_init st_x st_oracle st_z st_loss st_iteration st_logger].
    rewrite Hg. cbn [rbind slv s_stepping s_step_len]. change (String.eqb "fixed" "line-search") with false.
    cbn iota. cbn [rbind]. unfold move. rewrite vneg_length, Lg, Nat.eqb_refl. cbn [guard rbind].
    rewrite Hp. cbn [rbind]. apply log_state_quiet. reflexivity. }
  assert (H2 : pgd_loop orc rg slv 2 x0 (pgd_init x0 tt lg) = Ok st1).
  { apply (pgd_loop_S _ _ _ _ _ _ st1); auto.
    - unfold moved. cbn [pgd_init st_x_prev st_x]. destruct x0; congruence.
    - simpl pgd_loop. rewrite Lx, Nat.eqb_refl. cbn [guard rbind].
      assert (E : rltb tol (norm (vsub x1 x0)) = false) by (apply rltb_false; lra). rewrite E. reflexivity. }
  unfold pgd_optimize. rewrite log_state_quiet by reflexivity. cbn [rbind].
  change (Z.to_nat (s_max_iter slv)) with 2%nat. rewrite H2. reflexivity.
Qed.

(*@ A fit within the hypotheses that converges. *)
Lemma ex_sr3_l1_fit_near_plain_best_lemma :
  inv_ok inv_one /\ wf_linear (sample_problem 4) /\ lp_c (sample_problem 4) = eye (lp_p (sample_problem 4)) /\
  length (ones (lp_p (sample_problem 4))) = lp_p (sample_problem 4) /\
  safe_steps {| s_tol := 10; s_max_iter := 2; s_stepping := "fixed"; s_step_len := effective_step two_steps |} 1 1 /\
  exists x lg, linear_fit_problem (fun _ => []) inv_one two_steps (sample_problem 4) None false None = Ok ([x], lg) /\
    x = 3 / 2 /\ get lg "converged" = Ok (LAtom (LBool true)).
Proof.
  split; [exact inv_one_ok|]. split; [apply sample_wf|]. split; [reflexivity|]. split; [reflexivity|].
  assert (St : effective_step two_steps = 1 / 1) by (unfold effective_step; simpl; rewrite reqb_10; auto).
  split.
  { unfold safe_steps. cbn [s_step_len s_stepping]. rewrite St.
    change ("fixed" =? "line-search")%string with false. cbn iota. lra. }
  set (pr := sample_problem 4).
  destruct ex_sr3_instance_lemma as [_ [_ [_ [o Eo]]]]. fold pr in Eo.
  set (o0 := {| so_lam := 1; so_practical := false; so_problem := None; so_data := None |}) in *.
  destruct (sr3_value_is_partial_minimum_lemma inv_one o0 pr o [1] inv_one_ok (sample_wf 4) (sample_symmetric 4)
    ltac:(cbn; lra) eq_refl Eo eq_refl) as [d [xs [v [g [Ed [Exs [_ [_ [_ [_ [_ [Hg [Eg _]]]]]]]]]]]]].
  pose proof Eo as Eo'. unfold sr3_instantiate in Eo'. apply rbind_inv in Eo' as [hi [Ei Eo']].
  apply Ok_inj in Eo'. rewrite <- Eo' in Ed. cbn in Ed. injection Ed as <-. cbn [sd_h_inv] in Exs.
  change (h_matrix (so_lam o0) pr) with [[1 * 1 + 0 + 1 * (1 * 1 + 0)]] in Ei. cbn in Ei.
  destruct (reqb (1 * 1 + 0 + 1 * (1 * 1 + 0)) 0) eqn:E; [discriminate|]. injection Ei as <-.
  set (y1 := nth 0 xs 0). assert (Ey : xs = [y1]) by (unfold y1; rewrite Exs; reflexivity).
  assert (Ex : y1 = 5 / 2) by (unfold y1; rewrite Exs; unfold mv, tmv, vdot, vmul, vsum; simpl; field; lra).
  assert (Eg' : g = [1 * (1 - vdot [1] [y1])]) by (rewrite Eg, Ey; reflexivity). clearbody y1.
  set (g1 := 1 * (1 - vdot [1] [y1])) in *.
  assert (Eg1 : g1 = - (3 / 2)) by (unfold g1, vdot, vmul, vsum; simpl; rewrite Ex; field).
  assert (Hg' : o_grad (sr3_as_oracle o) tt [1] = Ok ([g1], tt)) by (cbn [sr3_as_oracle o_grad]; rewrite Hg, Eg'; reflexivity).
  set (x2 := soft (1 / 1 * 1 * 1) (1 + 1 / 1 * - g1)).
  assert (Ex2 : x2 = 3 / 2).
  { unfold x2. destruct (soft_cases (1 / 1 * 1 * 1) (1 + 1 / 1 * - g1)); rewrite ?Eg1 in *; lra. }
  set (rg := as_regularizer (fun _ => []) (RL1 1 (Some [1]))).
  assert (N : norm (vsub [x2] [1]) <= 10).
  { rewrite Ex2. unfold norm. apply Rle_trans with (sqrt (10 ^ 2)); [|rewrite sqrt_pow2; lra].
    apply sqrt_le_1_alt. unfold sqnorm, vdot, vmul, vsub, vsum. simpl. lra. }
  pose proof (pgd_one_step_stop (sr3_as_oracle o) rg 10 (1 / 1) [1] [g1] [x2] ltac:(discriminate) Hg' eq_refl eq_refl eq_refl N) as R.
  exists x2. eexists. split; [|split; [exact Ex2|]].
  - unfold linear_fit_problem. rewrite St.
    cbn [two_steps lm_el lm_practical lm_reg lm_tol lm_max_iter lm_prior lm_keys lm_stepping].
    cbn [mk_sr3 negb guard rbind]. fold o0. rewrite Eo. cbn [rbind mk_l1 instantiate mk_logger].
    change (ones (lp_p pr)) with [1]. change (fold_left _ _ _) with (@nil (string * lobj)).
    eapply rbind_ok_intro; [exact R|]. reflexivity.
  - reflexivity.
Qed.
