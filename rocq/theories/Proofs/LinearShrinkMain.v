(*HEAD
(** Property C111: a strong L1 penalty removes every feature of a linear model (src/pysr3/linear). *)
From Verif.Base Require Import Py Vec Mat.
From Verif.Model Require Import Regularizers Linear.
From Verif.Spec Require Import ProxSpec SolverSpec LinearSpec RateSpec ShrinkSpec.
HEAD*)
From Coq Require Import Lra Psatz.
From Verif.Base Require Import Py Vec Mat.
From Verif.Model Require Import Regularizers Linear.
From Verif.Spec Require Import ProxSpec SolverSpec LinearSpec RateSpec ShrinkSpec.
From Verif.Proofs Require Import VecFacts MatFacts ScalarProx RegularizerProofs SolverProofs LinearProofs LinearMain RateProofs LinearRateMain
  ConvergeMain ColumnCases ShrinkProofs.
(*OPEN
Open Scope string_scope.
Open Scope list_scope.
Open Scope R_scope.
OPEN*)
Open Scope string_scope.
Open Scope list_scope.
Open Scope R_scope.

Lemma below_opp lam w mu v : below_penalty lam w mu v -> below_penalty lam w mu (vneg v).
Proof. induction 1; constructor; auto. rewrite Rabs_Ropp. auto. Qed.
Lemma below_mono lam w mu mu' v : mu' <= mu -> below_penalty lam w mu v -> below_penalty lam w mu' v.
Proof. intros H. induction 1; constructor; auto. lra. Qed.
Lemma below_weights lam w mu v : 0 <= lam -> 0 < mu -> below_penalty lam w mu v -> Forall (fun wi => 0 <= wi) w.
Proof.
  intros Hl Hm. induction 1; constructor; auto. pose proof (Rabs_pos y). apply Rnot_lt_le. intros K.
  assert (lam * x <= 0) by nra. lra.
Qed.
Lemma below_len lam w mu v : below_penalty lam w mu v -> length w = length v.
Proof. induction 1; simpl; auto. Qed.

Lemma mv_zeros a p : mv a (zeros p) = zeros (length a).
Proof.
  unfold mv. induction a as [|r a IH]; [reflexivity|]. cbn [map length]. rewrite IH, vdot_comm, vdot_zeros_l. reflexivity.
Qed.
Lemma grad_at_zero pr : wf_linear pr -> ls_grad pr (zeros (lp_p pr)) = vneg (correlations pr).
Proof.
  intros [[La W] [Lb _]]. unfold ls_grad, correlations. rewrite mv_zeros.
  apply vdot_ext; [rewrite vneg_length, !tmv_len; auto|]. intros d Ld. rewrite tmv_len in Ld by auto.
  rewrite vdot_vneg_l, !tmv_adj by (auto; rewrite ?(vsub_len (length (lp_a pr))); auto; try apply zeros_length; congruence).
  rewrite vdot_vsub_l by (rewrite zeros_length; congruence). rewrite vdot_zeros_l. ring.
Qed.
Lemma ls_grad_len pr x : wf_linear pr -> length (ls_grad pr x) = lp_p pr.
Proof. intros [[_ W] _]. unfold ls_grad. apply tmv_len. auto. Qed.

(*@ C111.  The zero vector minimises 1/2 |a z - b|^2 + lam sum w|z| exactly when no feature has a correlation with the
    target above lam times its weight. *)
Lemma zero_is_best_iff_lemma : forall pr lam w, wf_linear pr -> length w = lp_p pr ->
  (forall z, length z = lp_p pr ->
     least_squares pr (zeros (lp_p pr)) + lam * weighted_l1 w (zeros (lp_p pr)) <= least_squares pr z + lam * weighted_l1 w z) <->
  below_penalty lam w 0 (correlations pr).
Proof.
  intros pr lam w Hw Lw. set (z0 := zeros (lp_p pr)). assert (L0 : length z0 = lp_p pr) by apply zeros_length.
  destruct (ls_convex_smooth pr Hw z0 L0) as [Lg Sm]. pose proof (grad_at_zero pr Hw) as Eg. fold z0 in Eg. rewrite Eg in Lg, Sm.
  rewrite vneg_length in Lg.
  assert (Dz : forall z v, length z = lp_p pr -> vdot v (vsub z z0) = vdot v z).
  { intros z v Lz. rewrite vdot_vsub_r by congruence. rewrite (vdot_comm v z0). unfold z0. rewrite vdot_zeros_l. ring. }
  unfold z0 at 2. rewrite weighted_zeros. split.
  - intros H. apply below_nth; [congruence|]. intros i Hi. rewrite Rplus_0_r. apply Rnot_lt_le. intros K.
    destruct (step_pays lam w i (vneg (correlations pr)) Hi) as [e [Le He]].
    { rewrite vneg_length. congruence. }
    { unfold vneg. rewrite <- Ropp_0, map_nth, Rabs_Ropp. rewrite Ropp_0 in *. auto. }
    rewrite Lw in Le. set (k := vdot (vneg (correlations pr)) e + lam * weighted_l1 w e) in *.
    set (q := frob (lp_a pr) / 2 * sqnorm e).
    assert (Hq : 0 <= q) by (apply Rmult_le_pos; [pose proof (frob_nonneg (lp_a pr)); lra|apply sqnorm_nonneg]).
    set (t := - k / (2 * (q + 1))).
    assert (Ht : 0 < t) by (apply Rdiv_lt_0_compat; lra).
    assert (Lt : length (vscale t e) = lp_p pr) by (rewrite vscale_length; auto).
    specialize (H (vscale t e) Lt). destruct (Sm _ Lt) as [_ U].
    assert (Es : sqnorm (vsub (vscale t e) z0) = t ^ 2 * sqnorm e).
    { rewrite sqnorm_vsub by congruence. rewrite (vdot_comm _ z0). unfold z0. rewrite vdot_zeros_l, sqnorm_zeros, sqnorm_vscale. ring. }
    rewrite Es, Dz, vdot_vscale_r in U by auto. rewrite weighted_scale in H by lra.
    assert (B : 0 <= t * k + t ^ 2 * q).
    { unfold k, q. lra. }
    assert (B2 : 0 <= k + t * q) by (apply Rmult_le_reg_l with t; auto; lra).
    assert (E : t * q = - k * (q / (2 * (q + 1)))) by (unfold t; field; lra).
    assert (F : q / (2 * (q + 1)) <= / 2).
    { apply Rmult_le_reg_r with (2 * (q + 1)); [lra|]. replace (q / (2 * (q + 1)) * (2 * (q + 1))) with q by (field; lra). lra. }
    rewrite E in B2. nra.
  - intros H z Lz. destruct (Sm z Lz) as [U _]. rewrite Dz in U by auto.
    pose proof (outweigh _ _ _ _ (below_opp _ _ _ _ H) z ltac:(rewrite vneg_length; congruence)) as O. lra.
Qed.

(*@ C111.  If the correlations are below the penalty by mu, the fit of an L1 model is exactly zero: with steps that
    respect the data, a tolerance below sm mu / 4, and more than |start|^2 / (sm mu)^2 iterations. *)
Lemma linear_l1_removes_all_partial_lemma :
  forall argsort inv m pr x0 (warm : bool) weights x lg lam sm mu,
  wf_linear pr -> lm_el m = None -> lm_reg m = mk_l1 lam -> 0 <= lam -> 0 < mu ->
  let w := match weights with Some w => w | None => ones (lp_p pr) end in
  below_penalty lam w mu (correlations pr) ->
  let start := if warm then match x0 with Some x => x | None => ones (lp_p pr) end else ones (lp_p pr) in
  length start = lp_p pr ->
  safe_steps {| s_tol := lm_tol m; s_max_iter := lm_max_iter m; s_stepping := lm_stepping m; s_step_len := effective_step m |}
    (frob (lp_a pr)) sm ->
  0 <= lm_tol m <= sm * mu / 4 -> (0 < lm_max_iter m)%Z -> sqnorm start <= (sm * mu) ^ 2 * (IZR (lm_max_iter m) - 1) ->
  linear_fit_problem argsort inv m pr x0 warm weights = Ok (x, lg) ->
  x = zeros (lp_p pr).
Proof.
  intros argsort inv m pr x0 warm weights x lg lam sm mu Hw Hel Hr Hl Hmu w Hb start Ls Hst Ht Hm Hk H.
  pose proof (below_weights _ _ _ _ Hl Hmu Hb) as Hwn.
  destruct (fit_logger _ _ _ _ _ _ _ _ _ H) as [run [aic [bic [r [lg0 [lg1 [s [H0 [Hi [_ [Hp _]]]]]]]]]]].
  rewrite Hel in H0. apply rbind_inv in H0 as [o [Ho H0]]. unfold lin_instantiate in Ho. simpl in Ho.
  destruct (lm_prior m); [|discriminate]. injection Ho as <-. apply Ok_inj in H0. injection H0 as <- <- <-.
  fold start in Hp. rewrite Hr in Hi. simpl in Hi. injection Hi as <-. fold w in Hp.
  set (o := {| lo_problem := Some pr; lo_prior := PNone |}) in *.
  assert (Hb' : below_penalty lam w mu (ls_grad pr (zeros (lp_p pr)))) by (rewrite grad_at_zero by auto; apply below_opp; auto).
  exact (reaches_zero _ _ _ (least_squares pr) (ls_grad pr) (lp_p pr) (frob (lp_a pr)) sm lam mu w
    (l1_exact argsort lam w Hl Hwn) (weighted_l1_convex lam w Hl Hwn) (fun x _ => ls_grad_len pr x Hw) Hb'
    (lin_value_is o pr eq_refl eq_refl) (lin_grad_is o pr Hw eq_refl eq_refl)
    (ls_convex_smooth pr Hw) (frob_nonneg _) Hst Hmu start tt lg0 x lg1 s Ls Hm Ht Hk Hp).
Qed.

Lemma sr3_zero inv o0 pr o r : inv_ok inv -> wf_linear pr -> symmetric (lp_p pr) (lp_c pr) -> 0 < so_lam o0 ->
  so_practical o0 = false -> sr3_instantiate inv o0 pr = Ok o -> length r = lp_p pr ->
  (forall z, length z = lp_p pr -> relaxed_loss (so_lam o0) pr r (zeros (lp_p pr)) <= relaxed_loss (so_lam o0) pr z (zeros (lp_p pr))) ->
  forall g, grad_is (sr3_as_oracle o) g -> g (zeros (lp_p pr)) = vneg (vscale (so_lam o0) (mv (lp_c pr) r)).
Proof.
  intros Hi Hw Hs Hl Hp H Lr Hr g G.
  destruct (sr3_instantiate_inv _ _ _ _ Hi Hw H) as [hi [S1 [S2 [_ [E1 [E2 [E3 E4]]]]]]]. rewrite Hp in *.
  set (z0 := zeros (lp_p pr)) in *. assert (L0 : length z0 = lp_p pr) by apply zeros_length.
  destruct (sr3_eval o pr _ hi z0 E2 E3 E4 L0) as [_ G1]. rewrite gradient_is in G1 by (auto; lra).
  assert (Lc : length (lp_c pr) = lp_p pr) by apply Hw.
  rewrite <- (G tt z0 (vscale (so_lam o0) (wres pr (so_lam o0) hi z0)) tt) by (cbn [sr3_as_oracle o_grad]; rewrite G1; reflexivity).
  set (xs := xstar pr (so_lam o0) hi z0). assert (Lx : length xs = lp_p pr) by (apply xstar_len; auto).
  pose proof (relaxed_min pr (so_lam o0) hi Hw Hs S1 S2 z0 r L0 Lr) as E. fold xs in E.
  pose proof (Hr xs Lx) as B. rewrite E in B.
  pose proof (sqnorm_nonneg (mv (lp_a pr) (vsub r xs))). pose proof (sqnorm_nonneg (mv (lp_c pr) (vsub r xs))).
  assert (Q : so_lam o0 / 2 * sqnorm (mv (lp_c pr) (vsub r xs)) <= 0) by lra.
  assert (Q0 : sqnorm (mv (lp_c pr) (vsub r xs)) = 0).
  { apply Rle_antisym; auto. apply Rmult_le_reg_l with (so_lam o0 / 2); lra. }
  rewrite mv_vsub in Q0 by congruence.
  assert (Ec : mv (lp_c pr) r = mv (lp_c pr) xs) by (apply vsub_zero_eq; auto; rewrite !mv_length; auto).
  rewrite Ec. unfold wres. fold xs. apply vdot_ext.
  - rewrite vneg_length, !vscale_length. rewrite (vsub_len (lp_p pr)); auto; rewrite mv_length; auto.
  - intros d _. rewrite vdot_vneg_l, !vdot_vscale_l, vdot_vsub_l by (rewrite mv_length; congruence).
    unfold z0. rewrite vdot_zeros_l. ring.
Qed.

(*@ C111.  The same for SR3 models; here el c r takes the place of the correlations, where r minimises
    1/2 |a z - b|^2 + el/2 |c z|^2. *)
Lemma sr3_l1_removes_all_partial_lemma :
  forall argsort inv m pr x0 (warm : bool) weights x lg lam el r sm mu,
  inv_ok inv -> wf_linear pr -> symmetric (lp_p pr) (lp_c pr) ->
  lm_el m = Some el -> 0 < el -> lm_practical m = false -> lm_reg m = mk_l1 lam -> 0 <= lam -> 0 < mu ->
  let w := match weights with Some w => w | None => ones (lp_p pr) end in
  length r = lp_p pr ->
  (forall z, length z = lp_p pr -> relaxed_loss el pr r (zeros (lp_p pr)) <= relaxed_loss el pr z (zeros (lp_p pr))) ->
  below_penalty lam w mu (vscale el (mv (lp_c pr) r)) ->
  let start := if warm then match x0 with Some x => x | None => ones (lp_p pr) end else ones (lp_p pr) in
  length start = lp_p pr ->
  safe_steps {| s_tol := lm_tol m; s_max_iter := lm_max_iter m; s_stepping := lm_stepping m; s_step_len := effective_step m |}
    el sm ->
  0 <= lm_tol m <= sm * mu / 4 -> (0 < lm_max_iter m)%Z -> sqnorm start <= (sm * mu) ^ 2 * (IZR (lm_max_iter m) - 1) ->
  linear_fit_problem argsort inv m pr x0 warm weights = Ok (x, lg) ->
  x = zeros (lp_p pr).
Proof.
  intros argsort inv m pr x0 warm weights x lg lam el rr sm mu Hinv Hw Hsym Hel Hel0 Hpr Hr Hl Hmu w Lr Hmin Hb start Ls Hst Ht Hm Hk H.
  pose proof (below_weights _ _ _ _ Hl Hmu Hb) as Hwn.
  destruct (fit_logger _ _ _ _ _ _ _ _ _ H) as [run [aic [bic [r [lg0 [lg1 [s [H0 [Hi [_ [Hp _]]]]]]]]]]].
  rewrite Hel in H0. apply rbind_inv in H0 as [o0 [Ho0 H0]]. apply rbind_inv in H0 as [o [Ho H0]].
  unfold mk_sr3 in Ho0. apply rbind_inv in Ho0 as [u0 [_ Ho0]]. injection Ho0 as <-.
  apply Ok_inj in H0. injection H0 as <- <- <-. rewrite Hpr in Hp.
  fold start in Hp. rewrite Hr in Hi. simpl in Hi. injection Hi as <-. fold w in Hp.
  destruct (sr3_convex_smooth inv {| so_lam := el; so_practical := false; so_problem := None; so_data := None |} pr o Hinv Hw Hsym (Rlt_le _ _ Hel0) eq_refl Ho) as [f [g [xs [V [G [Sm [Bx Bm]]]]]]].
  cbn [so_lam] in *.
  assert (Hb' : below_penalty lam w mu (g (zeros (lp_p pr)))).
  { rewrite (sr3_zero inv {| so_lam := el; so_practical := false; so_problem := None; so_data := None |} pr o rr Hinv Hw Hsym Hel0 eq_refl Ho Lr Hmin g G).
    apply below_opp. auto. }
  exact (reaches_zero _ _ _ f g (lp_p pr) el sm lam mu w
    (l1_exact argsort lam w Hl Hwn) (weighted_l1_convex lam w Hl Hwn) (fun x Lx => proj1 (Sm x Lx)) Hb'
    V G Sm (Rlt_le _ _ Hel0) Hst Hmu start tt lg0 x lg1 s Ls Hm Ht Hk Hp).
Qed.

(*@ C111.  ... and for the practical routine, whose steps have length 1/el. *)
Lemma practical_l1_removes_all_partial_lemma :
  forall argsort inv m pr x0 (warm : bool) weights x lg lam el r mu,
  inv_ok inv -> wf_linear pr -> lp_c pr = eye (lp_p pr) ->
  lm_el m = Some el -> 0 < el -> lm_practical m = true -> lm_reg m = mk_l1 lam -> 0 <= lam -> 0 < mu ->
  let w := match weights with Some w => w | None => ones (lp_p pr) end in
  length r = lp_p pr ->
  (forall z, length z = lp_p pr -> relaxed_loss el pr r (zeros (lp_p pr)) <= relaxed_loss el pr z (zeros (lp_p pr))) ->
  below_penalty lam w mu (vscale el (mv (lp_c pr) r)) ->
  let start := if warm then match x0 with Some x => x | None => ones (lp_p pr) end else ones (lp_p pr) in
  length start = lp_p pr ->
  0 <= lm_tol m <= mu / el / 4 -> (0 < lm_max_iter m)%Z -> sqnorm start <= (mu / el) ^ 2 * (IZR (lm_max_iter m) - 1) ->
  linear_fit_problem argsort inv m pr x0 warm weights = Ok (x, lg) ->
  x = zeros (lp_p pr).
Proof.
  intros argsort inv m pr x0 warm weights x lg lam el rr mu Hinv Hw Hc Hel Hel0 Hpr Hr Hl Hmu w Lr Hmin Hb start Ls Ht Hm Hk H.
  pose proof (below_weights _ _ _ _ Hl Hmu Hb) as Hwn.
  destruct (fit_logger _ _ _ _ _ _ _ _ _ H) as [run [aic [bic [r [lg0 [lg1 [s [H0 [Hi [_ [Hp _]]]]]]]]]]].
  rewrite Hel in H0. apply rbind_inv in H0 as [o0 [Ho0 H0]]. apply rbind_inv in H0 as [o [Ho H0]].
  unfold mk_sr3 in Ho0. apply rbind_inv in Ho0 as [u0 [_ Ho0]]. injection Ho0 as <-.
  apply Ok_inj in H0. injection H0 as <- <- <-. rewrite Hpr in Hp.
  fold start in Hp. rewrite Hr in Hi. simpl in Hi. injection Hi as <-. fold w in Hp.
  unfold fake_pgd_optimize in Hp. apply rbind_inv in Hp as [[[x1 lg2] s1] [Hf Hp]].
  apply rbind_inv in Hf as [x2 [Hf Ef]]. apply Ok_inj in Ef. injection Ef as -> <- <-.
  apply rbind_inv in Hp as [[lg3 s3] [_ Hp]]. apply rbind_inv in Hp as [lg4 [_ Hp]].
  apply Ok_inj in Hp. injection Hp as -> _ _.
  unfold sr3_find in Hf. apply rbind_inv in Hf as [[x3 n] [Hf E3]]. apply Ok_inj in E3. subst x3.
  assert (Hsym : symmetric (lp_p pr) (lp_c pr)) by (rewrite Hc; apply eye_symmetric).
  pose proof (practical_equals_fixed_step_pgd_lemma inv {| so_lam := el; so_practical := false; so_problem := None; so_data := None |}
    {| so_lam := el; so_practical := false; so_problem := None; so_data := None |} o o pr
    (as_regularizer argsort (RL1 lam (Some w))) (lm_tol m) (lm_max_iter m) start Hinv Hw Hc Hel0 eq_refl eq_refl Ho Ho) as R.
  cbv zeta in R. rewrite Hf in R. destruct R as [lgr [R It]]. cbn [so_lam] in R.
  destruct (sr3_convex_smooth inv {| so_lam := el; so_practical := false; so_problem := None; so_data := None |} pr o Hinv Hw Hsym (Rlt_le _ _ Hel0) eq_refl Ho) as [f [g [xs [V [G [Sm [Bx Bm]]]]]]].
  cbn [so_lam] in *.
  match type of R with pgd_optimize _ _ ?sl _ _ _ = _ => set (slv := sl) in * end.
  assert (Hst : safe_steps slv el (1 / el)).
  { unfold safe_steps. change (s_step_len slv) with (1 / el).
    change (s_stepping slv =? "line-search")%string with false. cbn iota.
    assert (0 < 1 / el) by (apply Rdiv_lt_0_compat; lra). split; [lra|].
    replace (el * (1 / el)) with 1 by (field; lra). lra. }
  assert (Hb' : below_penalty lam w mu (g (zeros (lp_p pr)))).
  { rewrite (sr3_zero inv {| so_lam := el; so_practical := false; so_problem := None; so_data := None |} pr o rr Hinv Hw Hsym Hel0 eq_refl Ho Lr Hmin g G).
    apply below_opp. auto. }
  assert (Em : 1 / el * mu = mu / el) by (field; lra).
  refine (reaches_zero _ _ _ f g (lp_p pr) el (1 / el) lam mu w
    (l1_exact argsort lam w Hl Hwn) (weighted_l1_convex lam w Hl Hwn) (fun x Lx => proj1 (Sm x Lx)) Hb'
    V G Sm (Rlt_le _ _ Hel0) Hst Hmu start tt _ _ lgr tt Ls Hm _ _ R); rewrite Em; auto.
Qed.

(*@ C111.  A fit that starts at zero stays there if the correlations are not above the penalty, whatever the steps, the
    tolerance and the number of iterations. *)
Lemma linear_l1_stays_at_zero_lemma :
  forall argsort inv m pr weights x lg lam,
  wf_linear pr -> lm_el m = None -> lm_reg m = mk_l1 lam -> 0 <= lam -> 0 < effective_step m ->
  let w := match weights with Some w => w | None => ones (lp_p pr) end in
  Forall (fun wi => 0 <= wi) w -> below_penalty lam w 0 (correlations pr) ->
  linear_fit_problem argsort inv m pr (Some (zeros (lp_p pr))) true weights = Ok (x, lg) ->
  x = zeros (lp_p pr).
Proof.
  intros argsort inv m pr weights x lg lam Hw Hel Hr Hl Hs w Hwn Hb H.
  destruct (fit_logger _ _ _ _ _ _ _ _ _ H) as [run [aic [bic [r [lg0 [lg1 [s [H0 [Hi [_ [Hp _]]]]]]]]]]].
  rewrite Hel in H0. apply rbind_inv in H0 as [o [Ho H0]]. unfold lin_instantiate in Ho. simpl in Ho.
  destruct (lm_prior m); [|discriminate]. injection Ho as <-. apply Ok_inj in H0. injection H0 as <- <- <-.
  rewrite Hr in Hi. simpl in Hi. injection Hi as <-. fold w in Hp.
  set (o := {| lo_problem := Some pr; lo_prior := PNone |}) in *.
  assert (Hb' : below_penalty lam w 0 (ls_grad pr (zeros (lp_p pr)))) by (rewrite grad_at_zero by auto; apply below_opp; auto).
  destruct (pgd_optimize_inv _ _ _ _ _ _ _ _ _ Hp) as [path [P [E _]]]. rewrite E.
  match type of P with is_path (pgd_rule _ _ ?sl) _ _ => refine (stays_path _ _ sl (ls_grad pr) (lp_p pr) lam 0 w
    (l1_exact argsort lam w Hl Hwn) (weighted_l1_convex lam w Hl Hwn) (fun x _ => ls_grad_len pr x Hw) Hb'
    (lin_grad_is o pr Hw eq_refl eq_refl) path (Rle_refl 0) Hs P) end.
Qed.

Lemma two_steps argsort inv m pr r x1 x2 (b : bool) :
  lm_el m = None -> lm_prior m = PNone -> lm_stepping m = "fixed"%string -> lm_keys m = (KTuple, []) ->
  (2 < lm_max_iter m)%Z -> (0 < lp_p pr)%nat ->
  instantiate (lm_reg m) (ones (lp_p pr)) None = Ok r ->
  let o := {| lo_problem := Some pr; lo_prior := PNone |} in
  let step x := (let! g := lin_gradient o x in
     if (length g =? length x)%nat then prox argsort r (vadd x (vscale (effective_step m) (vneg g))) (effective_step m) else Err ValueError) in
  step (ones (lp_p pr)) = Ok x1 -> moved (lm_tol m) x1 (Some (ones (lp_p pr))) = Ok b ->
  (if b then step x1 = Ok x2 /\ moved (lm_tol m) x2 (Some x1) = Ok false else x2 = x1) ->
  exists lg, linear_fit_problem argsort inv m pr None false None = Ok (x2, lg) /\
    get lg "converged" = Ok (LAtom (LBool true)).
Proof.
  intros E1 E2 E4 E5 Hm Hp Hr o step S1 M1 S2.
  set (slv := {| s_tol := lm_tol m; s_max_iter := lm_max_iter m; s_stepping := lm_stepping m; s_step_len := effective_step m |}).
  set (rg := as_regularizer argsort r).
  set (lg0 := {| lg_kind := KTuple; lg_keys := []; lg_dict := [] |}).
  set (st0 := pgd_init (ones (lp_p pr)) tt lg0).
  assert (Q : forall st x', step (st_x st) = Ok x' -> st_logger st = lg0 ->
    exists st', pgd_step (lin_as_oracle o) rg slv (ones (lp_p pr)) st = Ok st' /\ st_x st' = x' /\ st_x_prev st' = Some (st_x st) /\
      st_iteration st' = Datatypes.S (st_iteration st) /\ st_logger st' = lg0).
  { intros st x' Hx Hlg. unfold step in Hx. apply rbind_inv in Hx as [g [Hg Hx]].
    destruct (Nat.eqb_spec (length g) (length (st_x st))) as [Lg|]; [|discriminate].
    destruct (quiet_step (lin_as_oracle o) rg slv (ones (lp_p pr)) st g (st_oracle st) x') as [st' [A1 [A2 [A3 [A4 [A5 _]]]]]]; auto.
    - rewrite Hlg. reflexivity.
    - cbn [lin_as_oracle o_grad]. rewrite Hg. reflexivity.
    - exists st'. rewrite A5, Hlg. auto. }
  destruct (Q st0 x1 S1 eq_refl) as [st1 [A1 [A2 [A3 [A4 A5]]]]].
  assert (M0 : moved (s_tol slv) (st_x st0) (st_x_prev st0) = Ok true).
  { cbn [st0 pgd_init st_x st_x_prev moved]. destruct (lp_p pr); [lia|reflexivity]. }
  assert (F : exists n, Z.to_nat (lm_max_iter m) = Datatypes.S (Datatypes.S n)) by (exists (Z.to_nat (lm_max_iter m) - 2)%nat; lia).
  destruct F as [n Hn].
  assert (E : exists st, pgd_loop (lin_as_oracle o) rg slv (Datatypes.S (Datatypes.S n)) (ones (lp_p pr)) st0 = Ok st /\ st_x st = x2 /\
     st_logger st = lg0 /\ (st_iteration st <= 2)%nat).
  { rewrite (loop_again _ _ _ _ _ _ st1 M0); [|apply Z.ltb_lt; cbn [st0 pgd_init st_iteration slv s_max_iter]; lia|exact A1].
    destruct b.
    - destruct S2 as [S2 M2]. rewrite <- A2 in S2. destruct (Q st1 x2 S2 A5) as [st2 [B1 [B2 [B3 [B4 B5]]]]].
      rewrite (loop_again _ _ _ _ _ _ st2).
      + exists st2. rewrite loop_ends; [|rewrite B2, B3, A2; exact M2]. rewrite B4, A4. cbn [st0 pgd_init st_iteration]. auto.
      + rewrite A2, A3. exact M1.
      + apply Z.ltb_lt. rewrite A4. cbn [st0 pgd_init st_iteration slv s_max_iter]. lia.
      + exact B1.
    - exists st1. rewrite loop_ends; [|rewrite A2, A3; exact M1]. rewrite A4. cbn [st0 pgd_init st_iteration].
      split; [reflexivity|]. rewrite S2. auto. }
  destruct E as [st [E [X [L I]]]]. eexists. split.
  - unfold linear_fit_problem. rewrite E1, E2. cbn [lin_instantiate lo_prior rbind]. rewrite Hr, E5. cbn [rbind mk_logger fold_left].
    fold o. fold slv. fold rg. fold lg0. unfold pgd_optimize. rewrite log_state_quiet by reflexivity. cbn [rbind]. fold st0.
    change (s_max_iter slv) with (lm_max_iter m). rewrite Hn, E. cbn [rbind]. rewrite L.
    assert (C : (Z.of_nat (st_iteration st) <? lm_max_iter m)%Z = true) by (apply Z.ltb_lt; lia). rewrite C.
    unfold add, lg0. cbn [lg_keys lg_dict lg_kind has_key existsb dict_set rbind app String.eqb Ascii.eqb Bool.eqb].
    rewrite X. reflexivity.
  - reflexivity.
Qed.
Lemma norm_one v : norm [v] = Rabs v.
Proof. unfold norm, sqnorm, vdot, vmul. cbn. rewrite Rplus_0_r. apply sqrt_Rsqr_abs. Qed.

(*@ C111 (refuted).  With the default step 0.05, tolerance 1e-5 and 1000 iterations the fit of the target 0 to one
    feature 1/100 under the penalty 1e-5 |x| reports convergence after one iteration, at 0.9999945, although zero is the
    only best point. *)
Lemma linear_l1_removes_all_refuted_lemma : forall argsort inv,
  wf_linear faint_problem /\ below_penalty (/ 100000) (ones 1) (/ 100000) (correlations faint_problem) /\
  exists x lg, linear_fit_problem argsort inv (default_l1 (/ 100000)) faint_problem None false None = Ok ([x], lg) /\
    get lg "converged" = Ok (LAtom (LBool true)) /\ x = 9999945 / 10000000.
Proof.
  intros argsort inv. split; [|split].
  - repeat split; repeat constructor.
  - unfold correlations, faint_problem. cbn. constructor; [|constructor]. cbn. rewrite Rabs_pos_eq; lra.
  - exists (9999945 / 10000000).
    destruct (two_steps argsort inv (default_l1 (/ 100000)) faint_problem (RL1 (/ 100000) (Some (ones 1)))
      [9999945 / 10000000] [9999945 / 10000000] false) as [lg [A B]]; try reflexivity; [simpl; lia| | |exists lg; auto].
    + cbn [lin_gradient]. unfold residual. cbn. f_equal. f_equal. match goal with |- soft ?t ?v = _ => destruct (soft_cases t v ltac:(lra)) as [[A E]|[[A E]|[A E]]]; rewrite E; unfold vdot, vmul in *; cbn in *; lra end.
    + unfold moved. cbn [length ones repeat Nat.eqb guard rbind faint_problem lp_p vsub map2]. rewrite norm_one.
      f_equal. apply rltb_false. rewrite Rabs_left; cbn [default_l1 lm_tol]; lra.
Qed.

(*@ A fit within the hypotheses: the target 4 under the penalty 5 |x|, with the step 1 and three iterations. *)
Lemma ex_linear_l1_removes_all_partial_lemma :
  let m := {| lm_el := None; lm_practical := false; lm_reg := mk_l1 5; lm_tol := / 10; lm_max_iter := 3;
     lm_stepping := "fixed"; lm_step_len := Some 1; lm_prior := PNone; lm_keys := (KTuple, []) |} in
  wf_linear (sample_problem 4) /\ below_penalty 5 (ones 1) 1 (correlations (sample_problem 4)) /\
  safe_steps {| s_tol := lm_tol m; s_max_iter := lm_max_iter m; s_stepping := lm_stepping m; s_step_len := effective_step m |}
    (frob (lp_a (sample_problem 4))) 1 /\
  0 <= lm_tol m <= 1 * 1 / 4 /\ sqnorm (ones 1) <= (1 * 1) ^ 2 * (IZR (lm_max_iter m) - 1) /\
  exists lg, linear_fit_problem (fun _ => []) inv_one m (sample_problem 4) None false None = Ok (zeros 1, lg).
Proof.
  intros m. assert (Es : effective_step m = 1) by (unfold m, effective_step; cbn [lm_step_len]; rewrite reqb_10; reflexivity).
  split; [apply sample_wf|]. split.
  { unfold correlations. cbn. constructor; [|constructor]. cbn. rewrite Rabs_pos_eq; lra. }
  split.
  { unfold safe_steps. cbn [s_stepping s_step_len m lm_stepping]. change ("fixed" =? "line-search")%string with false. cbv iota.
    fold m. rewrite Es. cbn. unfold frob, sqnorm, vdot, vmul. cbn. lra. }
  split; [cbn; lra|]. split; [unfold sqnorm, vdot, vmul; cbn; lra|].
  destruct (two_steps (fun _ => []) inv_one m (sample_problem 4) (RL1 5 (Some (ones 1))) [0] [0] true) as [lg [A _]];
    try reflexivity; [simpl; lia| | | |exists lg; exact A].
  - rewrite Es. cbn [lin_gradient]. unfold residual. cbn. f_equal. f_equal. match goal with |- soft ?t ?v = _ => destruct (soft_cases t v ltac:(lra)) as [[A E]|[[A E]|[A E]]]; rewrite E; unfold vdot, vmul in *; cbn in *; lra end.
  - unfold moved. cbn [length ones repeat Nat.eqb guard rbind sample_problem lp_p vsub map2]. rewrite norm_one.
    f_equal. apply rltb_true. rewrite Rabs_left; cbn; lra.
  - split.
    + rewrite Es. cbn [lin_gradient]. unfold residual. cbn. f_equal. f_equal. match goal with |- soft ?t ?v = _ => destruct (soft_cases t v ltac:(lra)) as [[A E]|[[A E]|[A E]]]; rewrite E; unfold vdot, vmul in *; cbn in *; lra end.
    + apply not_moved. cbn. lra.
Qed.

(*@ The same with the relaxation el = 1 and the penalty 3 |x|: the relaxed solution is 2. *)
Lemma ex_sr3_l1_removes_all_partial_lemma :
  let m := {| lm_el := Some 1; lm_practical := false; lm_reg := mk_l1 3; lm_tol := / 10; lm_max_iter := 3;
     lm_stepping := "fixed"; lm_step_len := None; lm_prior := PNone; lm_keys := (KTuple, []) |} in
  inv_ok inv_one /\ wf_linear (sample_problem 4) /\ symmetric 1 (lp_c (sample_problem 4)) /\
  (forall z, length z = 1%nat -> relaxed_loss 1 (sample_problem 4) [2] (zeros 1) <= relaxed_loss 1 (sample_problem 4) z (zeros 1)) /\
  below_penalty 3 (ones 1) 1 (vscale 1 (mv (lp_c (sample_problem 4)) [2])) /\
  safe_steps {| s_tol := lm_tol m; s_max_iter := lm_max_iter m; s_stepping := lm_stepping m; s_step_len := effective_step m |} 1 1 /\
  0 <= lm_tol m <= 1 * 1 / 4 /\ sqnorm (zeros 1) <= (1 * 1) ^ 2 * (IZR (lm_max_iter m) - 1) /\
  exists lg, linear_fit_problem (fun _ => []) inv_one m (sample_problem 4) (Some [0]) true None = Ok (zeros 1, lg).
Proof.
  intros m. assert (Es : effective_step m = 1 / 1) by (unfold m, effective_step; cbn; rewrite reqb_10; reflexivity).
  split; [exact inv_one_ok|]. split; [apply sample_wf|]. split; [apply sample_symmetric|]. split.
  { intros [|z [|z2 z3]]; try discriminate. intros _.
    unfold relaxed_loss, least_squares, sqnorm, mv, vdot, vmul, vsub, vsum; simpl. unfold vdot, vmul, vsum; simpl.
    pose proof (Rle_0_sqr (z - 2)) as Q. unfold Rsqr in Q. lra. }
  split.
  { constructor; [|constructor]. unfold mv, vdot, vmul, vsum; simpl. rewrite Rabs_pos_eq; lra. }
  split.
  { unfold safe_steps. cbn [s_stepping s_step_len m lm_stepping]. change ("fixed" =? "line-search")%string with false. cbv iota.
    fold m. rewrite Es. lra. }
  split; [cbn; lra|]. split; [rewrite sqnorm_zeros; cbn; lra|].
  destruct (sr3_sample 0) as [o [Eo [g [Hg Eg]]]].
  assert (Hp : r_prox (as_regularizer (fun _ => []) (RL1 3 (Some [1]))) (vadd [0] (vscale (1 / 1) (vneg [g]))) (1 / 1) = Ok [0]).
  { change (vadd [0] (vscale (1 / 1) (vneg [g]))) with [0 + 1 / 1 * - g].
    cbn. do 2 f_equal. rewrite Eg.
    match goal with |- soft ?t ?v = _ => destruct (soft_cases t v); lra end. }
  pose proof (settles (sr3_as_oracle o) _ (/ 10) 3 (1 / 1) [0] [g] ltac:(discriminate) ltac:(lra) ltac:(lia) Hg eq_refl Hp) as R.
  eexists. unfold linear_fit_problem. rewrite Es.
  cbn [m lm_el lm_practical lm_reg lm_tol lm_max_iter lm_prior lm_keys lm_stepping].
  cbn [mk_sr3 negb guard rbind]. rewrite Eo. cbn [rbind mk_l1 instantiate mk_logger].
  change (ones (lp_p (sample_problem 4))) with [1].
  change (fold_left _ _ _) with (@nil (string * lobj)).
  eapply rbind_ok_intro; [exact R|]. reflexivity.
Qed.
