(** Final lemmas about distances to the best coefficients, restated as theorems in
    Properties/LinearDistance.v. *)
(*HEAD
(** Property C115: how far the coefficients of a linear L1 model (src/pysr3/linear, src/pysr3/solvers.py) are
    from the best ones when the columns are independent. *)
From Verif.Base Require Import Py Vec Mat.
From Verif.Model Require Import Regularizers Linear.
From Verif.Spec Require Import ProxSpec SolverSpec LinearSpec RateSpec DistanceSpec.
HEAD*)
(*OPEN
Open Scope string_scope.
Open Scope list_scope.
Open Scope R_scope.
OPEN*)
From Coq Require Import Lra Psatz.
From Verif.Base Require Import Py Vec Mat.
From Verif.Model Require Import Regularizers Linear.
From Verif.Spec Require Import ProxSpec RegSpec SolverSpec LinearSpec RateSpec DistanceSpec.
From Verif.Proofs Require Import VecFacts L0Proofs RegularizerProofs RegularizersMain MatFacts ScalarProx SolverProofs SolversMain LinearProofs LinearMain RateProofs LinearRateMain DistanceProofs.
Open Scope string_scope.
Open Scope list_scope.
Open Scope R_scope.

(*@ C115.  A run on a strongly convex objective: n iterations divide the squared distance to the minimiser u by
    (1 + sm mu)^n, and when 'converged' is True the distance is at most tol (2 / (sm mu) + 1/2). *)
Lemma pgd_distance_lemma :
  forall S (orc : oracle S) rg slv f g dom pen p L sm mu u x0 s lg x lg' s',
  value_is orc f -> grad_is orc g -> convex_smooth p L f g -> 0 <= L -> 0 < mu -> curved_above p mu f g ->
  exact_for rg dom pen -> convex_on dom pen -> safe_steps slv L sm ->
  best_in p dom (fun z => f z + pen z) u -> length x0 = p -> (0 < p)%nat ->
  pgd_optimize orc rg slv x0 s lg = Ok (x, lg', s') ->
  exists n b, get lg' "iteration" = Ok (LAtom (LNum (INR n))) /\ get lg' "converged" = Ok (LAtom (LBool b)) /\
    geometric sm mu n x0 u x /\ (b = true -> settled sm mu (s_tol slv) u x).
Proof.
  intros S orc rg slv f g dom pen p L sm mu u x0 s lg x lg' s' H1 H2 H3 H4 H5 H6 H7 H8 H9 H10 H11 Hp H.
  destruct (optimize_distance orc rg slv f g dom pen p L sm mu H1 H2 H3 H5 H6 H4 H7 H8 H9 u H10 _ _ _ _ _ _ H11 H)
    as [n [b [A [B [_ [_ [C D]]]]]]].
  exists n, b. auto.
Qed.

(** the proximal operator of L1 as a function *)
Lemma l1_is_prox lam w s y : 0 <= lam -> Forall (fun wi => 0 <= wi) w -> 0 < s -> length w = length y ->
  is_prox all_vecs (fun z => lam * weighted_l1 w z) s y (map2 (fun wi xi => soft (s * wi * lam) xi) w y).
Proof.
  intros Hl Hw Hs L. apply (l1_exact (fun _ => []) lam w Hl Hw y s); auto.
  change (l1_prox lam (Some w) y s = Ok (map2 (fun wi xi => soft (s * wi * lam) xi) w y)).
  unfold l1_prox. rewrite L, Nat.eqb_refl. reflexivity.
Qed.

Lemma ls_bound pr d : sqnorm (mv (lp_a pr) d) <= frob (lp_a pr) * sqnorm d.
Proof. apply frob_bound. Qed.
Lemma safe_len L : 0 <= L -> 0 < 1 / (L + 1) /\ L * (1 / (L + 1)) <= 1.
Proof.
  intros H. split; [apply Rdiv_lt_0_compat; lra|].
  apply Rmult_le_reg_r with (L + 1); [lra|]. replace (L * (1 / (L + 1)) * (L + 1)) with L by (field; lra). lra.
Qed.

(*@ C115.  The plain L1 model: the objective has exactly one minimiser u, n iterations divide the squared distance to
    it by (1 + sm mu)^n, and when 'converged' is True the distance is at most tol (2 / (sm mu) + 1/2). *)
Lemma linear_l1_fit_distance_lemma :
  forall argsort inv m pr x0 (warm : bool) weights x lg lam sm mu,
  wf_linear pr -> (0 < lp_p pr)%nat -> lm_el m = None -> lm_reg m = mk_l1 lam -> 0 <= lam ->
  let w := match weights with Some w => w | None => ones (lp_p pr) end in
  Forall (fun wi => 0 <= wi) w -> length w = lp_p pr ->
  let start := if warm then match x0 with Some x => x | None => ones (lp_p pr) end else ones (lp_p pr) in
  length start = lp_p pr ->
  safe_steps {| s_tol := lm_tol m; s_max_iter := lm_max_iter m; s_stepping := lm_stepping m; s_step_len := effective_step m |}
    (frob (lp_a pr)) sm ->
  independent (lp_p pr) mu (lp_a pr) ->
  linear_fit_problem argsort inv m pr x0 warm weights = Ok (x, lg) ->
  let F := fun z => least_squares pr z + lam * weighted_l1 w z in
  exists u, best_in (lp_p pr) all_vecs F u /\ (forall u', best_in (lp_p pr) all_vecs F u' -> u' = u) /\
  exists n b, get lg "iteration" = Ok (LAtom (LNum (INR n))) /\ get lg "converged" = Ok (LAtom (LBool b)) /\
    geometric sm mu n start u x /\ (b = true -> settled sm mu (lm_tol m) u x).
Proof.
  intros argsort inv m pr x0 warm weights x lg lam sm mu Hw Hp0 Hel Hr Hl w Hwn Lw start Ls Hst Hi H F.
  assert (Ha : wf_mat (lp_p pr) (lp_a pr)) by apply Hw.
  assert (Hb : length (lp_b pr) = length (lp_a pr)).
  { destruct Hw as [[E _] [E2 _]]. etransitivity; [exact E2|symmetry; exact E]. }
  destruct (safe_len (frob (lp_a pr)) (frob_nonneg _)) as [Hs0 Hs1].
  destruct (quad_best_exists (lp_p pr) (lp_a pr) (lp_b pr) (frob (lp_a pr)) mu (1 / (frob (lp_a pr) + 1)) Ha Hb
    (fun d _ => ls_bound pr d) (frob_nonneg _) Hi Hs0 Hs1 all_vecs (fun z => lam * weighted_l1 w z)
    (weighted_l1_convex lam w Hl Hwn) (map2 (fun wi xi => soft (1 / (frob (lp_a pr) + 1) * wi * lam) xi) w)) as [u Hu].
  { intros y Ly. apply l1_is_prox; auto. congruence. }
  assert (Hcs : curved_above (lp_p pr) mu (least_squares pr) (ls_grad pr)).
  { exact (quad_curved_above (lp_p pr) (lp_a pr) (lp_b pr) mu Ha Hb Hi). }
  destruct Hi as [Hmu Hi].
  exists u. split; [exact Hu|]. split.
  { intros u' Hu'. exact (best_unique (lp_p pr) all_vecs (least_squares pr) (ls_grad pr) _ mu u' u Hmu Hcs
      (weighted_l1_convex lam w Hl Hwn) Hu' Hu). }
  destruct (fit_logger _ _ _ _ _ _ _ _ _ H) as [run [aic [bic [r [lg0 [lg1 [s [H0 [Hin [_ [Hp [Hk _]]]]]]]]]]]].
  rewrite Hel in H0. apply rbind_inv in H0 as [o [Ho H0]]. unfold lin_instantiate in Ho. simpl in Ho.
  destruct (lm_prior m); [|discriminate]. injection Ho as <-. apply Ok_inj in H0. injection H0 as <- <- <-.
  fold start in Hp. rewrite Hr in Hin. simpl in Hin. injection Hin as <-. fold w in Hp.
  set (o := {| lo_problem := Some pr; lo_prior := PNone |}) in *.
  destruct (optimize_distance _ _ _ (least_squares pr) (ls_grad pr) all_vecs (fun z => lam * weighted_l1 w z)
    (lp_p pr) (frob (lp_a pr)) sm mu (lin_value_is o pr eq_refl eq_refl) (lin_grad_is o pr Hw eq_refl eq_refl)
    (ls_convex_smooth pr Hw) Hmu Hcs (frob_nonneg _) (l1_exact argsort lam w Hl Hwn) (weighted_l1_convex lam w Hl Hwn)
    Hst u Hu start tt lg0 x lg1 s Ls Hp) as [n [b [A [B [_ [_ [C D]]]]]]].
  exists n, b. rewrite !Hk by discriminate. cbn [s_tol] in D. auto.
Qed.

(** ** SR3 *)
Lemma relaxed_curvature_pos el mu : 0 < el -> 0 < mu -> 0 < relaxed_curvature el mu.
Proof. intros. unfold relaxed_curvature. apply Rdiv_lt_0_compat; [apply Rmult_lt_0_compat; auto|lra]. Qed.
Lemma F_independent pr el hi mu : wf_linear pr -> lp_c pr = eye (lp_p pr) -> 0 < el ->
  is_shape (lp_p pr) (lp_p pr) hi ->
  independent (lp_p pr) mu (lp_a pr) ->
  independent (lp_p pr) (relaxed_curvature el mu) (f_matrix el pr hi).
Proof.
  intros Hw Hc Hel S1 [Hmu Hi]. split; [apply relaxed_curvature_pos; auto|]. intros d Ld.
  assert (Hsym : symmetric (lp_p pr) (lp_c pr)) by (rewrite Hc; apply eye_symmetric).
  rewrite (f_apply pr el hi Hw S1 d Ld).
  set (u := ustar pr hi d). assert (Lu : length u = lp_p pr) by (apply ustar_len; auto).
  rewrite sqnorm_app, !sqnorm_vscale. rewrite Hc, mv_eye by auto.
  replace (sqrt el ^ 2) with el by (rewrite <- Rsqr_pow2, Rsqr_sqrt; lra).
  rewrite sqnorm_vsub by (rewrite vscale_length; congruence). rewrite sqnorm_vscale, vdot_vscale_r.
  specialize (Hi u Lu).
  assert (B : el ^ 2 * (mu * sqnorm u) <= el ^ 2 * sqnorm (mv (lp_a pr) u))
    by (apply Rmult_le_compat_l; auto; apply pow2_ge_0).
  assert (Q : 0 <= sqnorm (vsub (vscale (el * (mu + el)) u) (vscale el d))) by apply sqnorm_nonneg.
  rewrite sqnorm_vsub in Q by (rewrite !vscale_length; congruence).
  rewrite !sqnorm_vscale, vdot_vscale_l, vdot_vscale_r in Q. rewrite (vdot_comm u d) in Q.
  set (U := sqnorm u) in *. set (D := sqnorm d) in *. set (K := vdot d u) in *.
  assert (Hme : 0 < mu + el) by lra.
  assert (E : el ^ 2 * (mu * U) + el * (D - 2 * (el * K) + el ^ 2 * U) - relaxed_curvature el mu * D =
              ((el * (mu + el)) ^ 2 * U - 2 * (el * (mu + el) * (el * K)) + el ^ 2 * D) / (mu + el)).
  { unfold relaxed_curvature. field. lra. }
  assert (0 <= ((el * (mu + el)) ^ 2 * U - 2 * (el * (mu + el) * (el * K)) + el ^ 2 * D) / (mu + el)).
  { apply Rmult_le_pos; [exact Q|apply Rlt_le, Rinv_0_lt_compat; auto]. }
  lra.
Qed.

(** what the objects of a standard SR3 model know about the relaxed problem *)
Lemma sr3_strong inv o0 pr o mu : inv_ok inv -> wf_linear pr -> lp_c pr = eye (lp_p pr) ->
  0 < so_lam o0 -> so_practical o0 = false -> sr3_instantiate inv o0 pr = Ok o ->
  independent (lp_p pr) mu (lp_a pr) ->
  let el := so_lam o0 in
  exists f g xs, value_is (sr3_as_oracle o) f /\ grad_is (sr3_as_oracle o) g /\
    convex_smooth (lp_p pr) el f g /\ curved_above (lp_p pr) (relaxed_curvature el mu) f g /\
    (forall w, length w = lp_p pr -> length (xs w) = lp_p pr /\ f w = relaxed_loss el pr (xs w) w) /\
    (forall w z, length w = lp_p pr -> length z = lp_p pr ->
       f w + mu / 2 * sqnorm (vsub z (xs w)) <= relaxed_loss el pr z w) /\
    (forall dom pen s prox, 0 < s -> el * s <= 1 -> convex_on dom pen ->
       (forall y, length y = lp_p pr -> is_prox dom pen s y (prox y)) ->
       exists u, best_in (lp_p pr) dom (fun z => f z + pen z) u) /\
    (forall x y, length x = lp_p pr -> length y = lp_p pr -> norm (vsub (g x) (g y)) <= el * norm (vsub x y)) /\
    (forall w, length w = lp_p pr -> g w = vscale el (vsub w (xs w))).
Proof.
  intros Hi Hw Hc Hl Hp H Hmu el.
  assert (Hs : symmetric (lp_p pr) (lp_c pr)) by (rewrite Hc; apply eye_symmetric).
  destruct (sr3_instantiate_inv _ _ _ _ Hi Hw H) as [hi [S1 [S2 [_ [E1 [E2 [E3 E4]]]]]]].
  destruct (sr3_value_is inv o0 pr o Hi Hw Hs (Rlt_le _ _ Hl) Hp H) as [f [g [V [G [Lg [Ev _]]]]]].
  rewrite Hp in *. fold el in E4, S2.
  pose proof (F_independent pr el hi mu Hw Hc Hl S1 Hmu) as HF.
  assert (Ev' : forall x, length x = lp_p pr ->
    f x = / 2 * sqnorm (vsub (mv (f_matrix el pr hi) x) (mv (g_matrix el pr hi) (lp_b pr))) /\
    g x = tmv (lp_p pr) (f_matrix el pr hi) (vsub (mv (f_matrix el pr hi) x) (mv (g_matrix el pr hi) (lp_b pr)))).
  { intros x Lx. destruct (sr3_eval o pr _ hi x E2 E3 E4 Lx) as [V1 G1].
    destruct (Ev x Lx) as [V2 G2]. split; congruence. }
  assert (Wf : wf_mat (lp_p pr) (f_matrix el pr hi)) by (apply f_wf; auto).
  assert (Lf : length (mv (g_matrix el pr hi) (lp_b pr)) = length (f_matrix el pr hi)).
  { rewrite (f_len pr el hi Hw), mv_length. unfold g_matrix. rewrite app_length, mscale_length, mm_length.
    unfold msub. rewrite map2_length, eye_length, !mm_length. destruct Hw as [[A _] [B [C _]]].
    rewrite A, C. lia. }
  assert (HFn : forall d, length d = lp_p pr -> sqnorm (mv (f_matrix el pr hi) d) <= el * sqnorm d).
  { intros d Ld. apply F_norm_le; auto. unfold el. lra. }
  exists f, g, (xstar pr el hi). split; [auto|]. split; [auto|]. split; [|split; [|split; [|split; [|split; [|split]]]]].
  - destruct (sr3_convex_smooth inv o0 pr o Hi Hw Hs (Rlt_le _ _ Hl) Hp H) as [f' [g' [_ [V' [G' [Sm _]]]]]].
    intros x Lx. split; [auto|]. intros z Lz.
    pose proof (quad_convex_smooth (lp_p pr) (f_matrix el pr hi) (mv (g_matrix el pr hi) (lp_b pr)) el Wf Lf HFn x Lx) as [_ B].
    specialize (B z Lz). cbv beta in B. destruct (Ev' x Lx) as [-> ->]. destruct (Ev' z Lz) as [-> _]. exact B.
  - intros x z Lx Lz.
    pose proof (quad_curved_above (lp_p pr) (f_matrix el pr hi) (mv (g_matrix el pr hi) (lp_b pr)) _ Wf Lf HF x z Lx Lz) as B.
    cbv beta in B. destruct (Ev' x Lx) as [-> ->]. destruct (Ev' z Lz) as [-> _]. exact B.
  - intros w Lw. split; [apply xstar_len; auto|]. destruct (Ev' w Lw) as [-> _].
    apply value_is_relaxed; auto. unfold el; lra.
  - intros w z Lw Lz. destruct (Ev' w Lw) as [-> _].
    rewrite (value_is_relaxed pr el hi Hw (Rlt_le _ _ Hl) S1 w) by auto.
    rewrite (relaxed_min pr el hi Hw Hs S1 S2 w z) by auto.
    destruct Hmu as [Hmu Hin]. specialize (Hin (vsub z (xstar pr el hi w)) (vsub_len _ _ _ Lz (xstar_len pr el hi S1 w))).
    pose proof (sqnorm_nonneg (mv (lp_c pr) (vsub z (xstar pr el hi w)))).
    assert (0 <= el / 2 * sqnorm (mv (lp_c pr) (vsub z (xstar pr el hi w))))
      by (apply Rmult_le_pos; [unfold el; lra|auto]). lra.
  - intros dom pen s prox Hs0 Hs1 Hcv Hpx.
    destruct (quad_best_exists (lp_p pr) (f_matrix el pr hi) (mv (g_matrix el pr hi) (lp_b pr)) el
      (relaxed_curvature el mu) s Wf Lf HFn (Rlt_le _ _ Hl) HF Hs0 Hs1 dom pen Hcv prox Hpx) as [u [Lu [Du Hu]]].
    exists u. split; [auto|]. split; [auto|]. intros z Lz Dz. specialize (Hu z Lz Dz). cbv beta in Hu.
    destruct (Ev' u Lu) as [-> _]. destruct (Ev' z Lz) as [-> _]. exact Hu.
  - intros x y Lx Ly. destruct (Ev' x Lx) as [_ ->]. destruct (Ev' y Ly) as [_ ->].
    apply quad_lipschitz; auto. unfold el; lra.
  - intros w Lw. destruct (Ev' w Lw) as [_ ->]. rewrite gradient_is by (auto; unfold el; lra).
    unfold wres. rewrite Hc, mv_eye by (apply xstar_len; auto). reflexivity.
Qed.

(** the best pair *)
Lemma pair_of pr el mu pen f xs : 0 < mu ->
  (forall w, length w = lp_p pr -> length (xs w) = lp_p pr /\ f w = relaxed_loss el pr (xs w) w) ->
  (forall w z, length w = lp_p pr -> length z = lp_p pr ->
     f w + mu / 2 * sqnorm (vsub z (xs w)) <= relaxed_loss el pr z w) ->
  (forall u, best_in (lp_p pr) all_vecs (fun z => f z + pen z) u ->
     best_pair (lp_p pr) (fun z v => relaxed_loss el pr z v + pen v) (xs u) u) /\
  (forall z u, best_pair (lp_p pr) (fun z v => relaxed_loss el pr z v + pen v) z u ->
     best_in (lp_p pr) all_vecs (fun z => f z + pen z) u /\ z = xs u).
Proof.
  intros Hmu Hx Hm. split.
  - intros u [Lu [_ Hu]]. destruct (Hx u Lu) as [Lx Ex]. split; [auto|]. split; [auto|].
    intros z v Lz Lv. rewrite <- Ex. specialize (Hu v Lv I). cbv beta in Hu. specialize (Hm v z Lv Lz).
    pose proof (sqnorm_nonneg (vsub z (xs v))). assert (0 <= mu / 2 * sqnorm (vsub z (xs v))) by (apply Rmult_le_pos; lra). lra.
  - intros z u [Lz [Lu Hb]]. destruct (Hx u Lu) as [Lx Ex].
    pose proof (Hm u z Lu Lz) as H1. pose proof (Hb (xs u) u Lx Lu) as H2. cbv beta in H2. rewrite <- Ex in H2.
    pose proof (sqnorm_nonneg (vsub z (xs u))) as N. split.
    + split; [auto|]. split; [exact I|]. intros v Lv _. destruct (Hx v Lv) as [Lxv Exv].
      specialize (Hb (xs v) v Lxv Lv). cbv beta in Hb. rewrite <- Exv in Hb.
      assert (0 <= mu / 2 * sqnorm (vsub z (xs u))) by (apply Rmult_le_pos; lra). lra.
    + apply vsub_zero_eq; [congruence|]. apply Rle_antisym; auto.
      apply Rmult_le_reg_l with (mu / 2); lra.
Qed.

(*@ C115.  The SR3 L1 model with c = I: the relaxed objective has exactly one minimising pair (z, u), and the fitted
    coefficients approach u as above, with the curvature mu el / (mu + el). *)
Lemma sr3_l1_fit_distance_lemma :
  forall argsort inv m pr x0 (warm : bool) weights x lg lam el sm mu,
  inv_ok inv -> wf_linear pr -> (0 < lp_p pr)%nat -> lp_c pr = eye (lp_p pr) ->
  lm_el m = Some el -> 0 < el -> lm_practical m = false -> lm_reg m = mk_l1 lam -> 0 <= lam ->
  let w := match weights with Some w => w | None => ones (lp_p pr) end in
  Forall (fun wi => 0 <= wi) w -> length w = lp_p pr ->
  let start := if warm then match x0 with Some x => x | None => ones (lp_p pr) end else ones (lp_p pr) in
  length start = lp_p pr ->
  safe_steps {| s_tol := lm_tol m; s_max_iter := lm_max_iter m; s_stepping := lm_stepping m; s_step_len := effective_step m |}
    el sm ->
  independent (lp_p pr) mu (lp_a pr) ->
  linear_fit_problem argsort inv m pr x0 warm weights = Ok (x, lg) ->
  let F := fun z u => relaxed_loss el pr z u + lam * weighted_l1 w u in
  exists z u, best_pair (lp_p pr) F z u /\ (forall z' u', best_pair (lp_p pr) F z' u' -> z' = z /\ u' = u) /\
  exists n b, get lg "iteration" = Ok (LAtom (LNum (INR n))) /\ get lg "converged" = Ok (LAtom (LBool b)) /\
    geometric sm (relaxed_curvature el mu) n start u x /\
    (b = true -> settled sm (relaxed_curvature el mu) (lm_tol m) u x).
Proof.
  intros argsort inv m pr x0 warm weights x lg lam el sm mu Hinv Hw Hp0 Hc Hel Hel0 Hpr Hr Hl w Hwn Lw start Ls Hst Hi H F.
  destruct (fit_logger _ _ _ _ _ _ _ _ _ H) as [run [aic [bic [r [lg0 [lg1 [s [H0 [Hin [_ [Hp [Hk _]]]]]]]]]]]].
  rewrite Hel in H0. apply rbind_inv in H0 as [o0 [Ho0 H0]]. apply rbind_inv in H0 as [o [Ho H0]].
  unfold mk_sr3 in Ho0. apply rbind_inv in Ho0 as [u0 [_ Ho0]]. injection Ho0 as <-.
  apply Ok_inj in H0. injection H0 as <- <- <-. rewrite Hpr in Hp.
  fold start in Hp. rewrite Hr in Hin. simpl in Hin. injection Hin as <-. fold w in Hp.
  destruct (sr3_strong inv {| so_lam := el; so_practical := false; so_problem := None; so_data := None |} pr o mu
    Hinv Hw Hc Hel0 eq_refl Ho Hi) as [f [g [xs [V [G [Sm [Cv [Bx [Bm [Bex _]]]]]]]]]].
  cbn [so_lam] in *.
  set (pen := fun z => lam * weighted_l1 w z) in *.
  pose proof (weighted_l1_convex lam w Hl Hwn) as Hcv. fold pen in Hcv.
  assert (Hinvpos : 0 < 1 / el) by (apply Rdiv_lt_0_compat; lra).
  destruct (Bex all_vecs pen (1 / el) (map2 (fun wi xi => soft (1 / el * wi * lam) xi) w)) as [u Hu]; auto.
  { right. field. lra. }
  { intros y Ly. apply l1_is_prox; auto. congruence. }
  destruct Hi as [Hmu Hi].
  pose proof (relaxed_curvature_pos el mu Hel0 Hmu) as Hrc.
  destruct (pair_of pr el mu pen f xs Hmu Bx Bm) as [P1 P2].
  exists (xs u), u. split; [apply P1; exact Hu|]. split.
  { intros z' u' Hb. destruct (P2 z' u' Hb) as [Hu' ->].
    rewrite (best_unique _ _ f g pen _ u' u Hrc Cv Hcv Hu' Hu). auto. }
  destruct (optimize_distance _ _ _ f g all_vecs pen
    (lp_p pr) el sm _ V G Sm Hrc Cv (Rlt_le _ _ Hel0) (l1_exact argsort lam w Hl Hwn) Hcv
    Hst u Hu start tt lg0 x lg1 s Ls Hp) as [n [b [A [B [_ [_ [C D]]]]]]].
  exists n, b. rewrite !Hk by discriminate. cbn [s_tol] in D. auto.
Qed.

(*@ C115.  The practical SR3 L1 model does not report its iterations: its answer is either that of max_iter
    iterations, or of a last step within tol (the step is 1/el). *)
Lemma practical_l1_fit_distance_lemma :
  forall argsort inv m pr x0 (warm : bool) weights x lg lam el mu,
  inv_ok inv -> wf_linear pr -> (0 < lp_p pr)%nat -> lp_c pr = eye (lp_p pr) ->
  lm_el m = Some el -> 0 < el -> lm_practical m = true -> (0 < lm_max_iter m)%Z ->
  lm_reg m = mk_l1 lam -> 0 <= lam ->
  let w := match weights with Some w => w | None => ones (lp_p pr) end in
  Forall (fun wi => 0 <= wi) w -> length w = lp_p pr ->
  let start := if warm then match x0 with Some x => x | None => ones (lp_p pr) end else ones (lp_p pr) in
  length start = lp_p pr ->
  independent (lp_p pr) mu (lp_a pr) ->
  linear_fit_problem argsort inv m pr x0 warm weights = Ok (x, lg) ->
  let F := fun z u => relaxed_loss el pr z u + lam * weighted_l1 w u in
  exists z u, best_pair (lp_p pr) F z u /\ (forall z' u', best_pair (lp_p pr) F z' u' -> z' = z /\ u' = u) /\
    (geometric (1 / el) (relaxed_curvature el mu) (Z.to_nat (lm_max_iter m)) start u x \/
     settled (1 / el) (relaxed_curvature el mu) (lm_tol m) u x).
Proof.
  intros argsort inv m pr x0 warm weights x lg lam el mu Hinv Hw Hp0 Hc Hel Hel0 Hpr Hmi Hr Hl w Hwn Lw start Ls Hi H F.
  destruct (fit_logger _ _ _ _ _ _ _ _ _ H) as [run [aic [bic [r [lg0 [lg1 [s [H0 [Hin [_ [Hp [Hk _]]]]]]]]]]]].
  rewrite Hel in H0. apply rbind_inv in H0 as [o0 [Ho0 H0]]. apply rbind_inv in H0 as [o [Ho H0]].
  unfold mk_sr3 in Ho0. apply rbind_inv in Ho0 as [u0 [_ Ho0]]. injection Ho0 as <-.
  apply Ok_inj in H0. injection H0 as <- <- <-. rewrite Hpr in Hp.
  fold start in Hp. rewrite Hr in Hin. simpl in Hin. injection Hin as <-. fold w in Hp.
  unfold fake_pgd_optimize in Hp. apply rbind_inv in Hp as [[[x1 lg2] s1] [Hf Hp]].
  apply rbind_inv in Hf as [x2 [Hf Ef]]. apply Ok_inj in Ef. injection Ef as -> <- <-.
  apply rbind_inv in Hp as [[lg3 s3] [_ Hp]]. apply rbind_inv in Hp as [lg4 [_ Hp]].
  apply Ok_inj in Hp. injection Hp as -> _ _.
  unfold sr3_find in Hf. apply rbind_inv in Hf as [[x3 n] [Hf E3]]. apply Ok_inj in E3. subst x3.
  assert (Hsym : symmetric (lp_p pr) (lp_c pr)) by (rewrite Hc; apply eye_symmetric).
  pose proof (practical_equals_fixed_step_pgd_lemma inv {| so_lam := el; so_practical := false; so_problem := None; so_data := None |}
    {| so_lam := el; so_practical := false; so_problem := None; so_data := None |} o o pr
    (as_regularizer argsort (RL1 lam (Some w))) (lm_tol m) (lm_max_iter m) start Hinv Hw Hc Hel0 eq_refl eq_refl Ho Ho) as R.
  cbv zeta in R. rewrite Hf in R. destruct R as [lgr [R It]]. cbn [so_lam] in R.
  match type of R with pgd_optimize _ _ ?sl _ _ _ = _ => set (slv := sl) in * end.
  assert (Hinvpos : 0 < 1 / el) by (apply Rdiv_lt_0_compat; lra).
  assert (Hst : safe_steps slv el (1 / el)).
  { unfold safe_steps. change (s_step_len slv) with (1 / el).
    change (s_stepping slv =? "line-search")%string with false. cbn iota. split; [lra|].
    replace (el * (1 / el)) with 1 by (field; lra). lra. }
  destruct (sr3_strong inv {| so_lam := el; so_practical := false; so_problem := None; so_data := None |} pr o mu
    Hinv Hw Hc Hel0 eq_refl Ho Hi) as [f [g [xs [V [G [Sm [Cv [Bx [Bm [Bex _]]]]]]]]]].
  cbn [so_lam] in *.
  set (pen := fun z => lam * weighted_l1 w z) in *.
  pose proof (weighted_l1_convex lam w Hl Hwn) as Hcv. fold pen in Hcv.
  destruct (Bex all_vecs pen (1 / el) (map2 (fun wi xi => soft (1 / el * wi * lam) xi) w)) as [u Hu]; auto.
  { right. field. lra. }
  { intros y Ly. apply l1_is_prox; auto. congruence. }
  destruct Hi as [Hmu Hi].
  pose proof (relaxed_curvature_pos el mu Hel0 Hmu) as Hrc.
  destruct (pair_of pr el mu pen f xs Hmu Bx Bm) as [P1 P2].
  exists (xs u), u. split; [apply P1; exact Hu|]. split.
  { intros z' u' Hb. destruct (P2 z' u' Hb) as [Hu' ->].
    rewrite (best_unique _ _ f g pen _ u' u Hrc Cv Hcv Hu' Hu). auto. }
  destruct (optimize_distance _ _ _ f g all_vecs pen
    (lp_p pr) el (1 / el) _ V G Sm Hrc Cv (Rlt_le _ _ Hel0) (l1_exact argsort lam w Hl Hwn) Hcv
    Hst u Hu start tt _ _ lgr tt Ls R) as [n' [b [A [B [_ [Nb [C D]]]]]]].
  change (s_tol slv) with (lm_tol m) in D. change (s_max_iter slv) with (lm_max_iter m) in Nb.
  destruct b; [right; auto|]. left. specialize (Nb eq_refl Hmi). rewrite <- Nb, Nat2Z.id. auto.
Qed.

(*@ The hypotheses hold for the fits of C78: one observation a = 1 has the curvature 1 (1/2 after the relaxation
    with el = 1), the minimisers are 3 and (3, 2), and the fits from 1 return 3 and 3/2 (C78). *)
Lemma ex_linear_l1_distance_lemma :
  independent 1 1 (lp_a (sample_problem 4)) /\ relaxed_curvature 1 1 = / 2 /\
  best_in 1 all_vecs (fun z => least_squares (sample_problem 4) z + 1 * weighted_l1 [1] z) [3] /\
  best_pair 1 (fun z u => relaxed_loss 1 (sample_problem 4) z u + 1 * weighted_l1 [1] u) [3] [2] /\
  geometric 1 (/ 2) 1 [1] [2] [3 / 2].
Proof.
  split; [|split; [|split; [|split]]].
  - split; [lra|]. intros z Lz. destruct z as [|a [|b z]]; try discriminate.
    unfold sqnorm, mv, vdot, vmul, vsum; simpl. unfold vdot, vmul, vsum; simpl. lra.
  - unfold relaxed_curvature. field.
  - split; [reflexivity|]. split; [exact I|]. intros z Lz _. destruct z as [|a [|b z]]; try discriminate.
    unfold least_squares, sqnorm, mv, vdot, vmul, vsum; simpl. unfold vdot, vmul, vsum; simpl.
    rewrite (Rabs_right 3) by lra. pose proof (Rle_abs a). pose proof (pow2_ge_0 (a - 3)). nra.
  - split; [reflexivity|]. split; [reflexivity|]. intros z v Lz Lv.
    destruct z as [|a [|b z]]; try discriminate. destruct v as [|c [|d v]]; try discriminate.
    unfold relaxed_loss, least_squares, sqnorm, mv, vdot, vmul, vsum; simpl. unfold vdot, vmul, vsum; simpl.
    rewrite (Rabs_right 2) by lra. pose proof (Rle_abs c). pose proof (pow2_ge_0 (a - 3)). pose proof (pow2_ge_0 (a - c - 1)). nra.
  - unfold geometric, sqnorm, vdot, vmul, vsum; simpl. lra.
Qed.

(*@ Without independent columns the best coefficients are not unique: with two equal columns, 2 = x1 + x2 and lam = 1,
    both (1, 0) and (0, 1) are best. *)
Lemma ex_twin_columns_lemma :
  let F := fun z => least_squares twin_problem z + 1 * weighted_l1 [1; 1] z in
  best_in 2 all_vecs F [1; 0] /\ best_in 2 all_vecs F [0; 1] /\ forall mu, ~ independent 2 mu (lp_a twin_problem).
Proof.
  intros F.
  assert (B : forall z, length z = 2%nat -> 3 / 2 <= F z).
  { intros z Lz. destruct z as [|a [|b [|c z]]]; try discriminate.
    unfold F, least_squares, sqnorm, mv, vdot, vmul, vsum; simpl. unfold vdot, vmul, vsum; simpl.
    pose proof (Rle_abs a). pose proof (Rle_abs b). pose proof (pow2_ge_0 (a + b - 1)). nra. }
  assert (E : F [1; 0] = 3 / 2 /\ F [0; 1] = 3 / 2).
  { unfold F, least_squares, sqnorm, mv, vdot, vmul, vsum; simpl. unfold vdot, vmul, vsum; simpl.
    rewrite Rabs_R0, (Rabs_right 1) by lra. split; field. }
  destruct E as [E1 E2]. split; [|split].
  - split; [reflexivity|]. split; [exact I|]. intros z Lz _. rewrite E1. auto.
  - split; [reflexivity|]. split; [exact I|]. intros z Lz _. rewrite E2. auto.
  - intros mu [Hmu H]. specialize (H [1; -1] eq_refl).
    unfold sqnorm, mv, vdot, vmul, vsum in H; simpl in H. unfold vdot, vmul, vsum in H; simpl in H. lra.
Qed.
