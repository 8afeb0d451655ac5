(** Final lemmas about runs that stop by themselves, restated as theorems in Properties/Converge.v. *)
(*HEAD
(** Property C104: a run with enough iterations reports convergence (src/pysr3/solvers.py, with the
    linear models of src/pysr3/linear). *)
From Verif.Base Require Import Py Vec Mat.
From Verif.Model Require Import Regularizers Linear.
From Verif.Spec Require Import ProxSpec RegSpec SolverSpec LinearSpec RateSpec ConvergeSpec.
From Verif.Proofs Require Import L0Proofs.
HEAD*)
(*OPEN
Open Scope string_scope.
Open Scope list_scope.
Open Scope R_scope.
OPEN*)
From Coq Require Import Lra Psatz.
From Verif.Base Require Import Py Vec Mat.
From Verif.Model Require Import Regularizers Linear.
From Verif.Spec Require Import ProxSpec RegSpec SolverSpec LinearSpec RateSpec ConvergeSpec.
From Verif.Proofs Require Import VecFacts L0Proofs RegularizerProofs RegularizersMain MatFacts ScalarProx SolverProofs SolversMain LinearProofs LinearMain RateProofs LinearRateMain ConvergeProofs.
Open Scope string_scope.
Open Scope list_scope.
Open Scope R_scope.

(*@ C104.  Convex penalties, fixed steps or line search: f need not be convex, only of curvature at most L
    with steps that respect it, and f + penalty at least low.  With u = x0 in the domain the surrogate is the
    initial objective. *)
Lemma pgd_converges_convex_partial_lemma :
  forall S (orc : oracle S) rg slv f g dom pen p L sm low x0 u s lg x lg' s',
  value_is orc f -> grad_is orc g -> curved_below p L f g -> 0 <= L ->
  exact_for rg dom pen -> convex_on dom pen -> safe_steps slv L sm -> 0 <= s_tol slv ->
  length x0 = p -> length u = p -> dom u -> bounded_below p dom (fun z => f z + pen z) low ->
  enough_iterations (s_max_iter slv) (1 / (2 * s_step_len slv)) (s_tol slv) (surrogate f g pen sm x0 u) low ->
  pgd_optimize orc rg slv x0 s lg = Ok (x, lg', s') -> get lg' "converged" = Ok (LAtom (LBool true)).
Proof.
  intros S orc rg slv f g dom pen p L sm low x0 u s lg x lg' s'.
  exact (convex_stops orc rg slv f g dom pen p L sm low x0 u s lg x lg' s').
Qed.

(*@ C104.  Penalties that need not be convex, with a fixed step below 1/L. *)
Lemma pgd_converges_fixed_partial_lemma :
  forall S (orc : oracle S) rg slv f g dom pen p L low x0 u s lg x lg' s',
  value_is orc f -> grad_is orc g -> curved_below p L f g -> 0 <= L ->
  exact_for rg dom pen -> s_stepping slv <> "line-search" -> 0 < s_step_len slv -> L * s_step_len slv <= 1 ->
  0 <= s_tol slv -> length x0 = p -> length u = p -> dom u -> bounded_below p dom (fun z => f z + pen z) low ->
  enough_iterations (s_max_iter slv) (1 / (2 * s_step_len slv) - L / 2) (s_tol slv)
    (surrogate f g pen (s_step_len slv) x0 u) low ->
  pgd_optimize orc rg slv x0 s lg = Ok (x, lg', s') -> get lg' "converged" = Ok (LAtom (LBool true)).
Proof.
  intros S orc rg slv f g dom pen p L low x0 u s lg x lg' s'.
  exact (fixed_stops orc rg slv f g dom pen p L low x0 u s lg x lg' s').
Qed.

Lemma weighted_l1_nonneg w : Forall (fun wi => 0 <= wi) w -> forall z, 0 <= weighted_l1 w z.
Proof.
  induction 1 as [|wi w Hw _ IH]; intros z; [simpl; lra|]. destruct z as [|zi z]; [simpl; lra|].
  simpl. specialize (IH z). pose proof (Rabs_pos zi). assert (0 <= wi * Rabs zi) by (apply Rmult_le_pos; auto). lra.
Qed.
Lemma least_squares_nonneg pr z : 0 <= least_squares pr z.
Proof. unfold least_squares. pose proof (sqnorm_nonneg (vsub (mv (lp_a pr) z) (lp_b pr))). lra. Qed.
Lemma relaxed_nonneg el pr z u : 0 <= el -> 0 <= relaxed_loss el pr z u.
Proof.
  intros H. unfold relaxed_loss. pose proof (least_squares_nonneg pr z).
  pose proof (sqnorm_nonneg (vsub (mv (lp_c pr) z) u)).
  assert (0 <= el / 2 * sqnorm (vsub (mv (lp_c pr) z) u)) by (apply Rmult_le_pos; lra). lra.
Qed.
Lemma convex_curved p L f g : convex_smooth p L f g -> curved_below p L f g.
Proof. intros H x Lx. destruct (H x Lx) as [A B]. split; [exact A|]. intros z Lz. apply (B z Lz). Qed.

(*@ C104.  The linear L1 model: with steps that respect the data, it reports convergence as soon as
    max_iter - 2 exceeds 2 step / tol^2 times the initial objective. *)
Lemma linear_l1_converges_partial_lemma :
  forall argsort inv m pr x0 (warm : bool) weights x lg lam sm,
  wf_linear pr -> lm_el m = None -> lm_reg m = mk_l1 lam -> 0 <= lam -> 0 <= lm_tol m ->
  let w := match weights with Some w => w | None => ones (lp_p pr) end in
  Forall (fun wi => 0 <= wi) w ->
  let start := if warm then match x0 with Some x => x | None => ones (lp_p pr) end else ones (lp_p pr) in
  length start = lp_p pr ->
  safe_steps {| s_tol := lm_tol m; s_max_iter := lm_max_iter m; s_stepping := lm_stepping m; s_step_len := effective_step m |}
    (frob (lp_a pr)) sm ->
  enough_iterations (lm_max_iter m) (1 / (2 * effective_step m)) (lm_tol m)
    (least_squares pr start + lam * weighted_l1 w start) 0 ->
  linear_fit_problem argsort inv m pr x0 warm weights = Ok (x, lg) ->
  get lg "converged" = Ok (LAtom (LBool true)).
Proof.
  intros argsort inv m pr x0 warm weights x lg lam sm Hw Hel Hr Hl Ht w Hwn start Ls Hst He H.
  destruct (fit_logger _ _ _ _ _ _ _ _ _ H) as [run [aic [bic [r [lg0 [lg1 [s [H0 [Hi [_ [Hp [Hk _]]]]]]]]]]]].
  rewrite Hel in H0. apply rbind_inv in H0 as [o [Ho H0]]. unfold lin_instantiate in Ho. simpl in Ho.
  destruct (lm_prior m); [|discriminate]. injection Ho as <-. apply Ok_inj in H0. injection H0 as <- <- <-.
  fold start in Hp. rewrite Hr in Hi. simpl in Hi. injection Hi as <-. fold w in Hp.
  set (o := {| lo_problem := Some pr; lo_prior := PNone |}) in *.
  rewrite Hk by discriminate.
  refine (convex_stops _ _ _ (least_squares pr) (ls_grad pr) all_vecs (fun z => lam * weighted_l1 w z)
    (lp_p pr) (frob (lp_a pr)) sm 0 start start tt lg0 x lg1 s (lin_value_is o pr eq_refl eq_refl)
    (lin_grad_is o pr Hw eq_refl eq_refl) (convex_curved _ _ _ _ (ls_convex_smooth pr Hw)) (frob_nonneg _)
    (l1_exact argsort lam w Hl Hwn) (weighted_l1_convex lam w Hl Hwn) Hst Ht Ls Ls I _ _ Hp).
  - intros z _ _. pose proof (least_squares_nonneg pr z). pose proof (weighted_l1_nonneg w Hwn z).
    assert (0 <= lam * weighted_l1 w z) by (apply Rmult_le_pos; auto). lra.
  - cbn [s_max_iter s_step_len s_tol]. rewrite surrogate_self. exact He.
Qed.

(*@ C104.  The SR3 linear L1 model, el bounding the curvature; z is any guess for the fitted coefficients. *)
Lemma sr3_l1_converges_partial_lemma :
  forall argsort inv m pr x0 (warm : bool) weights x lg lam el sm z,
  inv_ok inv -> wf_linear pr -> symmetric (lp_p pr) (lp_c pr) ->
  lm_el m = Some el -> 0 <= el -> lm_practical m = false -> lm_reg m = mk_l1 lam -> 0 <= lam -> 0 <= lm_tol m ->
  let w := match weights with Some w => w | None => ones (lp_p pr) end in
  Forall (fun wi => 0 <= wi) w ->
  let start := if warm then match x0 with Some x => x | None => ones (lp_p pr) end else ones (lp_p pr) in
  length start = lp_p pr -> length z = lp_p pr ->
  safe_steps {| s_tol := lm_tol m; s_max_iter := lm_max_iter m; s_stepping := lm_stepping m; s_step_len := effective_step m |}
    el sm ->
  enough_iterations (lm_max_iter m) (1 / (2 * effective_step m)) (lm_tol m)
    (relaxed_loss el pr z start + lam * weighted_l1 w start) 0 ->
  linear_fit_problem argsort inv m pr x0 warm weights = Ok (x, lg) ->
  get lg "converged" = Ok (LAtom (LBool true)).
Proof.
  intros argsort inv m pr x0 warm weights x lg lam el sm z Hinv Hw Hsym Hel Hel0 Hpr Hr Hl Ht w Hwn start Ls Lz Hst He H.
  destruct (fit_logger _ _ _ _ _ _ _ _ _ H) as [run [aic [bic [r [lg0 [lg1 [s [H0 [Hi [_ [Hp [Hk _]]]]]]]]]]]].
  rewrite Hel in H0. apply rbind_inv in H0 as [o0 [Ho0 H0]]. apply rbind_inv in H0 as [o [Ho H0]].
  unfold mk_sr3 in Ho0. apply rbind_inv in Ho0 as [u0 [_ Ho0]]. injection Ho0 as <-.
  apply Ok_inj in H0. injection H0 as <- <- <-. rewrite Hpr in Hp.
  fold start in Hp. rewrite Hr in Hi. simpl in Hi. injection Hi as <-. fold w in Hp.
  destruct (sr3_convex_smooth inv {| so_lam := el; so_practical := false; so_problem := None; so_data := None |} pr o Hinv Hw Hsym Hel0 eq_refl Ho) as [f [g [xs [V [G [Sm [Bx Bm]]]]]]].
  cbn [so_lam] in *.
  rewrite Hk by discriminate.
  refine (convex_stops _ _ _ f g all_vecs (fun z => lam * weighted_l1 w z)
    (lp_p pr) el sm 0 start start tt lg0 x lg1 s V G (convex_curved _ _ _ _ Sm) Hel0
    (l1_exact argsort lam w Hl Hwn) (weighted_l1_convex lam w Hl Hwn) Hst Ht Ls Ls I _ _ Hp).
  - intros u Lu _. destruct (Bx u Lu) as [_ ->]. pose proof (relaxed_nonneg el pr (xs u) u Hel0).
    pose proof (weighted_l1_nonneg w Hwn u).
    assert (0 <= lam * weighted_l1 w u) by (apply Rmult_le_pos; auto). lra.
  - cbn [s_max_iter s_step_len s_tol]. rewrite surrogate_self. destruct He as [He1 He2]. split; [exact He1|].
    specialize (Bm start z Ls Lz). lra.
Qed.

Lemma l0_exact argsort nnz w r : argsort_ok argsort -> instantiate (mk_l0 nnz) w None = Ok r ->
  exact_for (as_regularizer argsort r)
    (fun z => within_budget (match nnz with Some n => n | None => Z.of_nat (length z) end) w z) (fun _ => 0).
Proof.
  intros Hs HI y t z Ht E. change (prox argsort r y t = Ok z) in E.
  assert (Ly : length w = length y).
  { pose proof HI as HI'. injection HI' as <-. simpl in E. unfold take_masked in E.
    apply rbind_inv in E as [u [G _]]. apply guard_inv in G. apply Nat.eqb_eq in G.
    unfold astype_bool in G. rewrite map_length in G. exact G. }
  destruct (l0_prox_must_include_lemma argsort Hs nnz w y t r Ly HI) as [z' [E' [Lz [_ [B [_ [_ O]]]]]]].
  assert (z' = z) by congruence. subst z'. split; [exact Lz|]. split; [rewrite Lz; exact B|].
  intros u Lu Du. rewrite Lu in Du. specialize (O u Lu Du). unfold prox_cost. lra.
Qed.

(*@ C104.  The SR3 linear L0 model with the identity as c and the default step 1/el: its penalty is not
    convex, but the relaxed problem is strictly flatter than el; z is any guess for the coefficients and u any
    point within the budget. *)
Lemma sr3_l0_converges_partial_lemma :
  forall argsort inv m pr x0 (warm : bool) weights x lg nnz el z u,
  argsort_ok argsort -> inv_ok inv -> wf_linear pr -> lp_c pr = eye (lp_p pr) ->
  lm_el m = Some el -> 0 < el -> lm_practical m = false -> lm_reg m = mk_l0 nnz -> 0 <= lm_tol m ->
  lm_stepping m <> "line-search" -> effective_step m = 1 / el ->
  let w := match weights with Some w => w | None => ones (lp_p pr) end in
  let start := if warm then match x0 with Some x => x | None => ones (lp_p pr) end else ones (lp_p pr) in
  length start = lp_p pr -> length z = lp_p pr -> length u = lp_p pr ->
  within_budget (match nnz with Some n => n | None => Z.of_nat (lp_p pr) end) w u ->
  enough_iterations (lm_max_iter m) (el ^ 2 / (2 * (frob (lp_a pr) + el))) (lm_tol m)
    (2 * relaxed_loss el pr z start + el * sqnorm (vsub start u)) 0 ->
  linear_fit_problem argsort inv m pr x0 warm weights = Ok (x, lg) ->
  get lg "converged" = Ok (LAtom (LBool true)).
Proof.
  intros argsort inv m pr x0 warm weights x lg nnz el z u Hs Hinv Hw Hc Hel Hel0 Hpr Hr Ht Hls Hstep w start Ls Lz Lu Du He H.
  destruct (fit_logger _ _ _ _ _ _ _ _ _ H) as [run [aic [bic [r [lg0 [lg1 [s [H0 [Hi [_ [Hp [Hk _]]]]]]]]]]]].
  rewrite Hel in H0. apply rbind_inv in H0 as [o0 [Ho0 H0]]. apply rbind_inv in H0 as [o [Ho H0]].
  unfold mk_sr3 in Ho0. apply rbind_inv in Ho0 as [u0 [_ Ho0]]. injection Ho0 as <-.
  apply Ok_inj in H0. injection H0 as <- <- <-. rewrite Hpr in Hp.
  fold start in Hp. rewrite Hr in Hi. fold w in Hi.
  destruct (sr3_curved inv {| so_lam := el; so_practical := false; so_problem := None; so_data := None |} pr o Hinv Hw Hc Hel0 eq_refl Ho) as [f [g [xs [V [G [Sm [Bx [Bm Sg]]]]]]]].
  cbn [so_lam] in *.
  rewrite Hk by discriminate. set (fr := frob (lp_a pr)) in *. assert (Hfr : 0 <= fr) by apply frob_nonneg.
  assert (HL : 0 <= el * fr / (fr + el)).
  { apply Rmult_le_pos; [apply Rmult_le_pos; lra|]. apply Rlt_le, Rinv_0_lt_compat. lra. }
  match type of Hp with pgd_optimize _ _ ?sl _ _ _ = _ => set (slv := sl) in * end.
  refine (fixed_stops _ _ slv f g _ (fun _ => 0) (lp_p pr) (el * fr / (fr + el)) 0 start u tt lg0 x lg1 s V G Sm HL
    (l0_exact argsort nnz w r Hs Hi) Hls _ _ Ht Ls Lu _ _ _ Hp); cbn [slv s_step_len s_max_iter s_tol]; rewrite ?Hstep.
  - apply Rdiv_lt_0_compat; lra.
  - replace (el * fr / (fr + el) * (1 / el)) with (fr / (fr + el)) by (field; lra).
    apply Rmult_le_reg_r with (fr + el); [lra|]. replace (fr / (fr + el) * (fr + el)) with fr by (field; lra). lra.
  - cbv beta. rewrite Lu. exact Du.
  - intros v Lv _. destruct (Bx v Lv) as [_ ->]. pose proof (relaxed_nonneg el pr (xs v) v (Rlt_le _ _ Hel0)). lra.
  - destruct He as [He1 He2]. split; [exact He1|].
    replace (1 / (2 * (1 / el)) - el * fr / (fr + el) / 2) with (el ^ 2 / (2 * (fr + el))) by (field; lra).
    apply Rle_lt_trans with (2 := He2). unfold surrogate.
    replace (1 / (2 * (1 / el))) with (el / 2) by (field; lra). rewrite (Sg start u Ls Lu).
    specialize (Bm start z Ls Lz). destruct (Bx start Ls) as [Lx Ex]. rewrite Ex in Bm.
    set (xw := xs start) in *. unfold relaxed_loss in Bm |- *. rewrite Hc in Bm |- *. rewrite !mv_eye in Bm by auto.
    rewrite !mv_eye by auto.
    pose proof (least_squares_nonneg pr xw).
    assert (T : sqnorm (vsub xw u) <= 2 * sqnorm (vsub xw start) + 2 * sqnorm (vsub start u)).
    { pose proof (sqnorm_nonneg (vsub (vsub xw start) (vsub start u))) as N.
      rewrite sqnorm_vsub in N by (rewrite !(vsub_len (lp_p pr)); auto).
      rewrite vdot_vsub_l, !vdot_vsub_r in N by congruence. rewrite !sqnorm_vsub in * by congruence. unfold sqnorm in *.
      rewrite ?(vdot_comm start xw) in *. lra. }
    assert (T2 : el / 2 * sqnorm (vsub xw u) <= el / 2 * (2 * sqnorm (vsub xw start) + 2 * sqnorm (vsub start u)))
      by (apply Rmult_le_compat_l; lra).
    lra.
Qed.

(** ** a fixed step that is too long *)
Lemma runs_on {S} (orc : oracle S) rg slv (Inv : vec -> Prop) x0 :
  String.eqb (s_stepping slv) "line-search" = false ->
  (forall s x, Inv x -> x <> [] /\ exists g x' s', o_grad orc s x = Ok (g, s') /\ length g = length x /\
     r_prox rg (vadd x (vscale (s_step_len slv) (vneg g))) (s_step_len slv) = Ok x' /\
     Inv x' /\ length x' = length x /\ s_tol slv < norm (vsub x' x)) ->
  forall fuel st, quiet (st_logger st) -> Inv (st_x st) ->
  match st_x_prev st with None => True
  | Some q => length (st_x st) = length q /\ s_tol slv < norm (vsub (st_x st) q) end ->
  Z.of_nat (st_iteration st + fuel) = s_max_iter slv ->
  exists st', pgd_loop orc rg slv fuel x0 st = Ok st' /\
    st_logger st' = st_logger st /\ Z.of_nat (st_iteration st') = s_max_iter slv.
Proof.
  intros Hls Hstep. induction fuel as [|fuel IH]; intros st Hq HI Hprev Hit.
  - exists st. rewrite Nat.add_0_r in Hit. split; [|auto].
    destruct (Hstep (st_oracle st) _ HI) as [Hn _].
    assert (M : exists b, moved (s_tol slv) (st_x st) (st_x_prev st) = Ok b).
    { unfold moved. destruct (st_x_prev st) as [q|]; [|destruct (st_x st); eauto].
      destruct Hprev as [L _]. rewrite L, Nat.eqb_refl. cbn [guard rbind]. eauto. }
    destruct M as [b M]. cbn [pgd_loop]. rewrite M. cbn [rbind].
    assert (E : (Z.of_nat (st_iteration st) <? s_max_iter slv)%Z = false) by (apply Z.ltb_ge; lia).
    rewrite E, andb_false_r. reflexivity.
  - destruct (Hstep (st_oracle st) _ HI) as [Hn [g [x' [s' [Eg [Lg [Ep [HI' [Lx' Hm]]]]]]]]].
    assert (M : moved (s_tol slv) (st_x st) (st_x_prev st) = Ok true).
    { unfold moved. destruct (st_x_prev st) as [q|]; [|destruct (st_x st); congruence].
      destruct Hprev as [L Hl]. rewrite L, Nat.eqb_refl. cbn [guard rbind]. f_equal. apply rltb_true. exact Hl. }
    set (st1 := {| st_x := x'; st_x_prev := Some (st_x st); st_iteration := Datatypes.S (st_iteration st);
       st_loss := st_loss st; st_direction := Some (vneg g); st_step_len := Some (s_step_len slv);
       st_y := Some (vadd (st_x st) (vscale (s_step_len slv) (vneg g))); st_z := st_z st; st_oracle := s';
       st_logger := st_logger st |}).
    assert (H1 : pgd_step orc rg slv x0 st = Ok st1).
    { unfold pgd_step. rewrite Eg. cbn [rbind]. rewrite Hls. cbn [rbind]. unfold move.
      rewrite vneg_length, Lg, Nat.eqb_refl. cbn [guard rbind]. rewrite Ep. cbn [rbind]. apply log_state_quiet. exact Hq. }
    destruct (IH st1 Hq HI') as [st' [E1 [E2 E3]]].
    + cbn [st_x_prev st_x st1]. auto.
    + cbn [st_iteration st1]. lia.
    + exists st'. split; [|split; auto].
      cbn [pgd_loop]. rewrite M. cbn [rbind].
      assert (E : (Z.of_nat (st_iteration st) <? s_max_iter slv)%Z = true) by (apply Z.ltb_lt; lia).
      rewrite E. cbn [andb]. rewrite H1. cbn [rbind]. exact E1.
Qed.

Lemma soft_zero v : soft 0 v = v.
Proof. destruct (soft_cases 0 v); lra. Qed.

(*@ C104 fails for a fixed step longer than the curvature permits: with the default fixed step 0.05 a single
    observation a = 10 makes the iterates 1, -4, 16, ... and whatever max_iter the fit reports 'converged'
    False. *)
Lemma fixed_step_never_converges_refuted_lemma :
  forall argsort inv max_iter, (0 < max_iter)%Z ->
  wf_linear steep_problem /\
  exists x lg, linear_fit_problem argsort inv (steep_model max_iter) steep_problem None false None = Ok (x, lg) /\
    get lg "converged" = Ok (LAtom (LBool false)).
Proof.
  intros argsort inv mi Hmi. split.
  { repeat split; try (repeat constructor). }
  set (slv := {| s_tol := / 10; s_max_iter := mi; s_stepping := "fixed"; s_step_len := 5 / 100 |}).
  set (o := {| lo_problem := Some steep_problem; lo_prior := PNone |}).
  set (rg := as_regularizer argsort (RL1 0 (Some [1]))).
  set (lg0 := {| lg_kind := KTuple; lg_keys := []; lg_dict := [] |}).
  destruct (runs_on (lin_as_oracle o) rg slv (fun x => exists v, x = [v] /\ 1 <= Rabs v) [1] eq_refl) with
    (fuel := Z.to_nat mi) (st := pgd_init [1] tt lg0) as [st' [E1 [E2 E3]]].
  - intros s x [v [-> Hv]]. split; [discriminate|].
    set (G := (10 * v + 0 - 0) * 10 + 0 + 0).
    set (y := vadd [v] (vscale (5 / 100) (vneg [G]))).
    assert (Ey : exists t, y = [t] /\ t = - (4) * v).
    { eexists. split; [reflexivity|]. unfold G. field. }
    destruct Ey as [t [Ey Et]].
    exists [G], [t], s. split; [reflexivity|]. split; [reflexivity|]. split.
    { change (s_step_len slv) with (5 / 100). fold y. rewrite Ey.
      change (r_prox rg [t] (5 / 100)) with (Ok [soft (5 / 100 * 1 * 0) t]).
      rewrite Rmult_0_r, soft_zero. reflexivity. }
    assert (Ha : Rabs t = 4 * Rabs v).
    { rewrite Et, Rabs_mult, Rabs_Ropp, (Rabs_right 4) by lra. reflexivity. }
    split. { exists t. split; [reflexivity|lra]. }
    split; [reflexivity|].
    change (s_tol slv) with (/ 10). apply Rlt_le_trans with (Rabs (t - v)).
    + replace (t - v) with (- (5) * v) by lra. rewrite Rabs_mult, Rabs_Ropp, (Rabs_right 5) by lra. lra.
    + unfold norm, vsub. rewrite <- sqrt_Rsqr_abs. apply sqrt_le_1_alt. unfold sqnorm, vdot, Rsqr, vsum. cbn. lra.
  - reflexivity.
  - exists 1. rewrite Rabs_R1. split; [reflexivity|lra].
  - exact I.
  - cbn. lia.
  - assert (Hf : exists lg1, pgd_optimize (lin_as_oracle o) rg slv [1] tt lg0 = Ok (st_x st', lg1, st_oracle st') /\
      lg_keys lg1 = ["converged"; "iteration"] /\ get lg1 "converged" = Ok (LAtom (LBool false))).
    { unfold pgd_optimize. rewrite log_state_quiet by reflexivity. cbn [rbind].
      change (s_max_iter slv) with mi in *. rewrite E1. cbn [rbind]. rewrite E2, E3, Z.ltb_irrefl.
      eexists. split; [reflexivity|]. split; reflexivity. }
    destruct Hf as [lg1 [Hf [Hk Hc]]]. exists (st_x st'), lg1. split; [|exact Hc].
    change ((let! (x, lg2, _) := pgd_optimize (lin_as_oracle o) rg slv [1] tt lg0 in
             let! lg3 := (if has_key "aic" (lg_keys lg2)
                          then let! v := lin_aic o x in add lg2 "aic" (LAtom (LNum v)) else Ok lg2) in
             let! lg4 := (if has_key "bic" (lg_keys lg3)
                          then let! v := lin_bic o x in add lg3 "bic" (LAtom (LNum v)) else Ok lg3) in
             Ok (x, lg4)) = Ok (st_x st', lg1)).
    rewrite Hf. cbn [rbind]. rewrite Hk.
    cbn [has_key existsb]. cbn. rewrite Hk. reflexivity.
Qed.

(** a run that starts at a fixed point of the step *)
Lemma settles (orc : oracle unit) rg tol mi step x0 g :
  x0 <> [] -> 0 <= tol -> (1 < mi)%Z -> o_grad orc tt x0 = Ok (g, tt) -> length g = length x0 ->
  r_prox rg (vadd x0 (vscale step (vneg g))) step = Ok x0 ->
  pgd_optimize orc rg {| s_tol := tol; s_max_iter := mi; s_stepping := "fixed"; s_step_len := step |} x0 tt
    {| lg_kind := KTuple; lg_keys := []; lg_dict := [] |} =
  Ok (x0, {| lg_kind := KTuple; lg_keys := ["converged"; "iteration"];
             lg_dict := [("converged", LAtom (LBool true)); ("iteration", LAtom (LNum 1))] |}, tt).
Proof.
  intros Hn Ht Hmi Hg Lg Hp. set (lg := {| lg_kind := KTuple; lg_keys := []; lg_dict := [] |}).
  set (slv := {| s_tol := tol; s_max_iter := mi; s_stepping := "fixed"; s_step_len := step |}).
  set (st1 := {| st_x := x0; st_x_prev := Some x0; st_iteration := 1; st_loss := None;
                 st_direction := Some (vneg g); st_step_len := Some step;
                 st_y := Some (vadd x0 (vscale step (vneg g))); st_z := None; st_oracle := tt; st_logger := lg |}).
  assert (H1 : pgd_step orc rg slv x0 (pgd_init x0 tt lg) = Ok st1).
  { unfold pgd_step. cbn [pgd_init st_x st_oracle st_z st_loss st_iteration st_logger].
    rewrite Hg. cbn [rbind slv s_stepping s_step_len]. change (String.eqb "fixed" "line-search") with false.
    cbn iota. cbn [rbind]. unfold move. rewrite vneg_length, Lg, Nat.eqb_refl. cbn [guard rbind].
    rewrite Hp. cbn [rbind]. apply log_state_quiet. reflexivity. }
  assert (Ef : exists k, Z.to_nat mi = Datatypes.S k) by (exists (Z.to_nat (mi - 1)); lia).
  destruct Ef as [k Ef].
  assert (H2 : pgd_loop orc rg slv (Z.to_nat (s_max_iter slv)) x0 (pgd_init x0 tt lg) = Ok st1).
  { change (s_max_iter slv) with mi. rewrite Ef. apply (pgd_loop_S _ _ _ _ _ _ st1); auto.
    - unfold moved. cbn [pgd_init st_x_prev st_x]. destruct x0; congruence.
    - apply Z.ltb_lt. cbn. lia.
    - apply pgd_loop_stop with (b := false); [|reflexivity].
      unfold moved. cbn [st1 st_x st_x_prev]. rewrite Nat.eqb_refl. cbn [guard rbind]. f_equal. apply rltb_false.
      unfold norm. rewrite vsub_self, sqnorm_zeros, sqrt_0. exact Ht. }
  unfold pgd_optimize. rewrite log_state_quiet by reflexivity. cbn [rbind]. rewrite H2. cbn [rbind].
  cbn [st1 st_logger st_iteration st_x st_oracle]. change (s_max_iter slv) with mi.
  assert (Eb : (Z.of_nat 1 <? mi)%Z = true) by (apply Z.ltb_lt; lia). rewrite Eb. reflexivity.
Qed.

Lemma enough_sample mi c top : (2000 <= mi)%Z -> / 4 <= c -> top <= 4 -> enough_iterations mi c (/ 10) top 0.
Proof.
  intros Hm Hc Ht. split; [lia|]. apply IZR_le in Hm. nra.
Qed.
Lemma patient_step mi : effective_step (patient_l1 None mi) = 1.
Proof. unfold effective_step. simpl. rewrite reqb_10. auto. Qed.
Lemma patient_step3 mi : effective_step (patient_l1 (Some 1) mi) = 1 / 1.
Proof. unfold effective_step. simpl. rewrite reqb_10. auto. Qed.
Lemma patient_step0 k mi : effective_step (patient_l0 k mi) = 1 / 1.
Proof. unfold effective_step. simpl. rewrite reqb_10. auto. Qed.

(*@ Started at its solution 3, the model with a = 1, b = 4 and the penalty |x| is within the hypotheses from
    2000 iterations on. *)
Lemma ex_linear_l1_converges_partial_lemma :
  forall max_iter, (2000 <= max_iter)%Z -> let m := patient_l1 None max_iter in
  safe_steps {| s_tol := lm_tol m; s_max_iter := lm_max_iter m; s_stepping := lm_stepping m; s_step_len := effective_step m |}
    (frob (lp_a (sample_problem 4))) 1 /\
  enough_iterations (lm_max_iter m) (1 / (2 * effective_step m)) (lm_tol m)
    (least_squares (sample_problem 4) [3] + 1 * weighted_l1 [1] [3]) 0 /\
  exists lg, linear_fit_problem (fun _ => []) inv_one m (sample_problem 4) (Some [3]) true None = Ok ([3], lg).
Proof.
  intros mi Hmi m. split; [|split].
  { unfold safe_steps, m. cbn [s_step_len s_stepping patient_l1 lm_stepping]. rewrite patient_step.
    change ("fixed" =? "line-search")%string with false. cbn iota.
    assert (E : frob (lp_a (sample_problem 4)) = 1) by (unfold frob, sqnorm, vdot, vmul, vsum; simpl; ring).
    rewrite E. lra. }
  { apply enough_sample; [exact Hmi| |].
    - unfold m. rewrite patient_step. lra.
    - unfold least_squares, sqnorm, mv, vdot, vmul, vsub, vsum; simpl. unfold vdot, vmul, vsum; simpl.
      rewrite Rabs_right by lra. lra. }
  set (orc := lin_as_oracle {| lo_problem := Some (sample_problem 4); lo_prior := PNone |}).
  assert (Hg : exists g, o_grad orc tt [3] = Ok ([g], tt) /\ g = -1).
  { eexists. split; [reflexivity|]. unfold vdot, vmul, vsum; simpl.
    replace (vdot [1] [3]) with 3 by (unfold vdot, vmul, vsum; simpl; ring). ring. }
  destruct Hg as [g [Hg Eg]].
  assert (Hp : r_prox (as_regularizer (fun _ => []) (RL1 1 (Some [1]))) (vadd [3] (vscale 1 (vneg [g]))) 1 = Ok [3]).
  { change (vadd [3] (vscale 1 (vneg [g]))) with [3 + 1 * - g]. rewrite l1_prox_one, soft_one; rewrite Eg; [|lra].
    do 2 f_equal. lra. }
  pose proof (settles orc _ (/ 10) mi 1 [3] [g] ltac:(discriminate) ltac:(lra) ltac:(lia) Hg eq_refl Hp) as R.
  eexists. unfold linear_fit_problem, m. rewrite patient_step.
  cbn [patient_l1 lm_el lm_practical lm_reg lm_tol lm_max_iter lm_prior lm_keys lm_stepping].
  cbn [lin_instantiate rbind lo_prior]. fold orc. cbn [mk_l1 instantiate mk_logger rbind].
  change (ones (lp_p (sample_problem 4))) with [1].
  change (fold_left _ _ _) with (@nil (string * lobj)).
  eapply rbind_ok_intro; [exact R|]. reflexivity.
Qed.

(** the SR3 oracle of a = 1, b = 4 with el = 1 *)
Lemma sr3_sample w : exists o,
  sr3_instantiate inv_one {| so_lam := 1; so_practical := false; so_problem := None; so_data := None |} (sample_problem 4) = Ok o /\
  exists g, o_grad (sr3_as_oracle o) tt [w] = Ok ([g], tt) /\ g = (w - 4) / 2.
Proof.
  set (pr := sample_problem 4).
  set (h := 1 * 1 + 0 + 1 * (1 * 1 + 0)).
  assert (Hh : h = 2) by (unfold h; ring).
  set (hi := [[1 / h]]).
  assert (Ei : inv_one 1 (h_matrix 1 pr) = Ok hi).
  { change (h_matrix 1 pr) with [[h]]. unfold inv_one.
    destruct (reqb h 0) eqn:E; [apply reqb_true in E; lra|reflexivity]. }
  set (o0 := {| so_lam := 1; so_practical := false; so_problem := None; so_data := None |}).
  set (o := {| so_lam := 1; so_practical := false; so_problem := Some pr;
               so_data := Some {| sd_h_inv := hi; sd_ab := tmv 1 [[1]] [4];
                 sd_fg := Some (f_matrix 1 pr hi, mv (g_matrix 1 pr hi) [4]) |} |}).
  assert (Eo : sr3_instantiate inv_one o0 pr = Ok o).
  { unfold sr3_instantiate. cbn [o0 so_lam so_practical]. change (lp_p pr) with 1%nat. rewrite Ei. reflexivity. }
  exists o. split; [exact Eo|].
  set (y := mv hi (vadd (tmv 1 [[1]] [4]) (vscale 1 (tmv 1 [[1]] [w])))).
  set (y1 := nth 0 y 0).
  assert (Ey : y = [y1]) by reflexivity.
  assert (Ex : y1 = (4 + w) / 2).
  { unfold y1, y, hi, mv, vdot, vmul, vsum; simpl. rewrite Hh. field. }
  destruct (sr3_value_is_partial_minimum_lemma inv_one o0 pr o [w] inv_one_ok (sample_wf 4) (sample_symmetric 4)
    ltac:(cbn; lra) eq_refl Eo eq_refl) as [d [xs [v [g [Ed [Exs [_ [_ [_ [_ [_ [Hg [Eg _]]]]]]]]]]]]].
  injection Ed as <-. change (xs = y) in Exs. rewrite Exs, Ey in Eg.
  assert (Eg' : g = [1 * (w - vdot [1] [y1])]) by exact Eg.
  exists (1 * (w - vdot [1] [y1])). split.
  - cbn [sr3_as_oracle o_grad]. rewrite Hg, Eg'. reflexivity.
  - unfold vdot, vmul, vsum; simpl. rewrite Ex. field.
Qed.

(*@ The same with the relaxation el = 1, whose solution is 2. *)
Lemma ex_sr3_l1_converges_partial_lemma :
  inv_ok inv_one /\ wf_linear (sample_problem 4) /\ symmetric 1 (lp_c (sample_problem 4)) /\
  forall max_iter, (2000 <= max_iter)%Z -> let m := patient_l1 (Some 1) max_iter in
  safe_steps {| s_tol := lm_tol m; s_max_iter := lm_max_iter m; s_stepping := lm_stepping m; s_step_len := effective_step m |}
    1 1 /\
  enough_iterations (lm_max_iter m) (1 / (2 * effective_step m)) (lm_tol m)
    (relaxed_loss 1 (sample_problem 4) [3] [2] + 1 * weighted_l1 [1] [2]) 0 /\
  exists lg, linear_fit_problem (fun _ => []) inv_one m (sample_problem 4) (Some [2]) true None = Ok ([2], lg).
Proof.
  split; [exact inv_one_ok|]. split; [apply sample_wf|]. split; [apply sample_symmetric|].
  intros mi Hmi m. split; [|split].
  { unfold safe_steps, m. cbn [s_step_len s_stepping patient_l1 lm_stepping]. rewrite patient_step3.
    change ("fixed" =? "line-search")%string with false. cbn iota. lra. }
  { apply enough_sample; [exact Hmi| |].
    - unfold m. rewrite patient_step3. lra.
    - unfold relaxed_loss, least_squares, sqnorm, mv, vdot, vmul, vsub, vsum; simpl. unfold vdot, vmul, vsum; simpl.
      rewrite Rabs_right by lra. lra. }
  destruct (sr3_sample 2) as [o [Eo [g [Hg Eg]]]].
  assert (Hp : r_prox (as_regularizer (fun _ => []) (RL1 1 (Some [1]))) (vadd [2] (vscale (1 / 1) (vneg [g]))) (1 / 1) = Ok [2]).
  { change (vadd [2] (vscale (1 / 1) (vneg [g]))) with [2 + 1 / 1 * - g].
    change (@Ok vec [soft (1 / 1 * 1 * 1) (2 + 1 / 1 * - g)] = Ok [2]). do 2 f_equal. rewrite Eg.
    destruct (soft_cases (1 / 1 * 1 * 1) (2 + 1 / 1 * - ((2 - 4) / 2))); lra. }
  pose proof (settles (sr3_as_oracle o) _ (/ 10) mi (1 / 1) [2] [g] ltac:(discriminate) ltac:(lra) ltac:(lia) Hg eq_refl Hp) as R.
  eexists. unfold linear_fit_problem, m. rewrite patient_step3.
  cbn [patient_l1 lm_el lm_practical lm_reg lm_tol lm_max_iter lm_prior lm_keys lm_stepping].
  cbn [mk_sr3 negb guard rbind]. rewrite Eo. cbn [rbind mk_l1 instantiate mk_logger].
  change (ones (lp_p (sample_problem 4))) with [1].
  change (fold_left _ _ _) with (@nil (string * lobj)).
  eapply rbind_ok_intro; [exact R|]. reflexivity.
Qed.

(*@ ... and with room for one non-zero instead of the penalty, whose solution is 4. *)
Lemma ex_sr3_l0_converges_partial_lemma :
  argsort_ok argsort_ins /\
  forall max_iter, (2000 <= max_iter)%Z -> let m := patient_l0 1 max_iter in
  effective_step m = 1 / 1 /\ lm_stepping m <> "line-search" /\ within_budget 1 [1] [4] /\
  enough_iterations (lm_max_iter m) (1 ^ 2 / (2 * (frob (lp_a (sample_problem 4)) + 1))) (lm_tol m)
    (2 * relaxed_loss 1 (sample_problem 4) [4] [4] + 1 * sqnorm (vsub [4] [4])) 0 /\
  exists lg, linear_fit_problem argsort_ins inv_one m (sample_problem 4) (Some [4]) true None = Ok ([4], lg).
Proof.
  split; [exact ex_argsort_ok_lemma|]. intros mi Hmi m.
  split; [apply patient_step0|]. split; [discriminate|]. split; [|split].
  { unfold within_budget, zero_count. cbn [penalised_nonzeros nonzeros].
    destruct (Req_EM_T 1 0); [lra|]. destruct (Req_EM_T 4 0); [lra|]. cbn. lia. }
  { assert (E : frob (lp_a (sample_problem 4)) = 1) by (unfold frob, sqnorm, vdot, vmul, vsum; simpl; ring).
    rewrite E. apply enough_sample; [exact Hmi|lra|].
    unfold relaxed_loss, least_squares, sqnorm, mv, vdot, vmul, vsub, vsum; simpl. unfold vdot, vmul, vsum; simpl. lra. }
  destruct (sr3_sample 4) as [o [Eo [g [Hg Eg]]]].
  set (r := RL0 (Some 1%Z) (Some [1]) (Some (astype_bool [1]))).
  assert (Hp : r_prox (as_regularizer argsort_ins r) (vadd [4] (vscale (1 / 1) (vneg [g]))) (1 / 1) = Ok [4]).
  { assert (Ey : vadd [4] (vscale (1 / 1) (vneg [g])) = [4]).
    { change (vadd [4] (vscale (1 / 1) (vneg [g]))) with [4 + 1 / 1 * - g]. rewrite Eg. f_equal. field. }
    rewrite Ey. change (prox argsort_ins r [4] (1 / 1) = Ok [4]).
    destruct (l0_prox_must_include_lemma argsort_ins ex_argsort_ok_lemma (Some 1%Z) [1] [4] (1 / 1) r eq_refl eq_refl)
      as [z [Ez [Lz [_ [_ [_ [_ O]]]]]]].
    rewrite Ez. f_equal. destruct z as [|z1 [|z2 z]]; try discriminate.
    specialize (O [4] eq_refl). unfold within_budget, zero_count in O. cbn [penalised_nonzeros nonzeros length] in O.
    destruct (Req_EM_T 1 0); [lra|]. destruct (Req_EM_T 4 0); [lra|]. cbn in O. specialize (O ltac:(lia)).
    unfold sqnorm, vdot, vmul, vsum in O; simpl in O.
    assert (z1 - 4 = 0) by nra. f_equal. lra. }
  pose proof (settles (sr3_as_oracle o) _ (/ 10) mi (1 / 1) [4] [g] ltac:(discriminate) ltac:(lra) ltac:(lia) Hg eq_refl Hp) as R.
  eexists. unfold linear_fit_problem, m. rewrite patient_step0.
  cbn [patient_l0 lm_el lm_practical lm_reg lm_tol lm_max_iter lm_prior lm_keys lm_stepping].
  cbn [mk_sr3 negb guard rbind]. rewrite Eo. cbn [rbind mk_l0 instantiate mk_logger].
  change (ones (lp_p (sample_problem 4))) with [1].
  change (fold_left _ _ _) with (@nil (string * lobj)).
  eapply rbind_ok_intro; [exact R|]. reflexivity.
Qed.
