(** Final lemmas about the features selected by L1 models, restated as theorems in
    Properties/LinearSelection.v. *)
(*HEAD
(** Property C116: which features a linear L1 model (src/pysr3/linear, src/pysr3/solvers.py) selects. *)
From Verif.Base Require Import Py Vec Mat.
From Verif.Model Require Import Regularizers Linear.
From Verif.Spec Require Import ProxSpec SolverSpec LinearSpec RateSpec DistanceSpec SelectionSpec.
HEAD*)
(*OPEN
Open Scope string_scope.
Open Scope list_scope.
Open Scope R_scope.
OPEN*)
From Coq Require Import Lra Psatz.
From Verif.Base Require Import Py Vec Mat.
From Verif.Model Require Import Regularizers Linear.
From Verif.Spec Require Import ProxSpec RegSpec SolverSpec LinearSpec RateSpec DistanceSpec SelectionSpec.
From Verif.Proofs Require Import VecFacts L0Proofs RegularizerProofs RegularizersMain MatFacts ScalarProx SolverProofs SolversMain LinearProofs LinearMain RateProofs LinearRateMain DistanceProofs LinearDistanceMain SelectionProofs.
Open Scope string_scope.
Open Scope list_scope.
Open Scope R_scope.

(*@ C116.  The plain L1 model with independent columns: when the best coefficients u are told apart from zero by the
    margins dz (of the penalty) and dn (of u), enough iterations, or converged=True with tol small enough for the
    margins, give exactly the features of u with its signs. *)
Lemma linear_l1_fit_selects_lemma :
  forall argsort inv m pr x0 (warm : bool) weights x lg lam sm mu u dz dn,
  wf_linear pr -> (0 < lp_p pr)%nat -> lm_el m = None -> lm_reg m = mk_l1 lam -> 0 <= lam ->
  let w := match weights with Some w => w | None => ones (lp_p pr) end in
  Forall (fun wi => 0 <= wi) w -> length w = lp_p pr ->
  let start := if warm then match x0 with Some x => x | None => ones (lp_p pr) end else ones (lp_p pr) in
  length start = lp_p pr ->
  safe_steps {| s_tol := lm_tol m; s_max_iter := lm_max_iter m; s_stepping := lm_stepping m; s_step_len := effective_step m |}
    (frob (lp_a pr)) sm ->
  independent (lp_p pr) mu (lp_a pr) ->
  linear_fit_problem argsort inv m pr x0 warm weights = Ok (x, lg) ->
  best_in (lp_p pr) all_vecs (fun z => least_squares pr z + lam * weighted_l1 w z) u ->
  0 < dz -> 0 < dn -> clear_cut lam w (residual_correlations pr u) u dz dn ->
  exists n b, get lg "iteration" = Ok (LAtom (LNum (INR n))) /\ get lg "converged" = Ok (LAtom (LBool b)) /\
    (enough_steps sm mu (frob (lp_a pr)) dz dn n (sqnorm (vsub start u)) -> same_selection u x) /\
    (b = true -> fine_enough sm mu (frob (lp_a pr)) dz dn (lm_tol m) -> same_selection u x).
Proof.
  intros argsort inv m pr x0 warm weights x lg lam sm mu u dz dn Hw Hp0 Hel Hr Hl w Hwn Lw start Ls Hst Hi H Hu Hdz Hdn Hcc.
  assert (Ha : wf_mat (lp_p pr) (lp_a pr)) by apply Hw.
  assert (Hb : length (lp_b pr) = length (lp_a pr)).
  { destruct Hw as [[E _] [E2 _]]. etransitivity; [exact E2|symmetry; exact E]. }
  assert (Hcs : curved_above (lp_p pr) mu (least_squares pr) (ls_grad pr)).
  { exact (quad_curved_above (lp_p pr) (lp_a pr) (lp_b pr) mu Ha Hb Hi). }
  destruct Hi as [Hmu Hi].
  destruct (fit_logger _ _ _ _ _ _ _ _ _ H) as [run [aic [bic [r [lg0 [lg1 [s [H0 [Hin [_ [Hp [Hk _]]]]]]]]]]]].
  rewrite Hel in H0. apply rbind_inv in H0 as [o [Ho H0]]. unfold lin_instantiate in Ho. simpl in Ho.
  destruct (lm_prior m); [|discriminate]. injection Ho as <-. apply Ok_inj in H0. injection H0 as <- <- <-.
  fold start in Hp. rewrite Hr in Hin. simpl in Hin. injection Hin as <-. fold w in Hp.
  set (o := {| lo_problem := Some pr; lo_prior := PNone |}) in *.
  assert (Hlip : forall x y, length x = lp_p pr -> length y = lp_p pr ->
    norm (vsub (ls_grad pr x) (ls_grad pr y)) <= frob (lp_a pr) * norm (vsub x y)).
  { intros x1 y1 L1 L2. apply (quad_lipschitz (lp_p pr) (lp_a pr) (lp_b pr)); auto; [intros; apply ls_bound|apply frob_nonneg]. }
  destruct (optimize_selects _ _ _ (least_squares pr) (ls_grad pr)
    (lp_p pr) (frob (lp_a pr)) sm mu lam w (lin_value_is o pr eq_refl eq_refl) (lin_grad_is o pr Hw eq_refl eq_refl)
    (ls_convex_smooth pr Hw) Hlip Hmu Hcs (frob_nonneg _) Hl Hwn Lw (l1_exact argsort lam w Hl Hwn)
    Hst u Hu start tt lg0 x lg1 s dz dn Ls Hp0 Hdz Hdn Hcc Hp) as [n [b [A [B [_ [C D]]]]]].
  exists n, b. rewrite !Hk by discriminate. cbn [s_tol] in D. auto.
Qed.

(*@ C116.  The SR3 L1 model with c = I: the same for the best pair (z, u); the gradient at u is el (u - z). *)
Lemma sr3_l1_fit_selects_lemma :
  forall argsort inv m pr x0 (warm : bool) weights x lg lam el sm mu z u dz dn,
  inv_ok inv -> wf_linear pr -> (0 < lp_p pr)%nat -> lp_c pr = eye (lp_p pr) ->
  lm_el m = Some el -> 0 < el -> lm_practical m = false -> lm_reg m = mk_l1 lam -> 0 <= lam ->
  let w := match weights with Some w => w | None => ones (lp_p pr) end in
  Forall (fun wi => 0 <= wi) w -> length w = lp_p pr ->
  let start := if warm then match x0 with Some x => x | None => ones (lp_p pr) end else ones (lp_p pr) in
  length start = lp_p pr ->
  safe_steps {| s_tol := lm_tol m; s_max_iter := lm_max_iter m; s_stepping := lm_stepping m; s_step_len := effective_step m |}
    el sm ->
  independent (lp_p pr) mu (lp_a pr) ->
  linear_fit_problem argsort inv m pr x0 warm weights = Ok (x, lg) ->
  best_pair (lp_p pr) (fun z u => relaxed_loss el pr z u + lam * weighted_l1 w u) z u ->
  0 < dz -> 0 < dn -> clear_cut lam w (vscale el (vsub u z)) u dz dn ->
  exists n b, get lg "iteration" = Ok (LAtom (LNum (INR n))) /\ get lg "converged" = Ok (LAtom (LBool b)) /\
    (enough_steps sm (relaxed_curvature el mu) el dz dn n (sqnorm (vsub start u)) -> same_selection u x) /\
    (b = true -> fine_enough sm (relaxed_curvature el mu) el dz dn (lm_tol m) -> same_selection u x).
Proof.
  intros argsort inv m pr x0 warm weights x lg lam el sm mu z u dz dn Hinv Hw Hp0 Hc Hel Hel0 Hpr Hr Hl w Hwn Lw start Ls Hst Hi H Hbp Hdz Hdn Hcc.
  destruct (fit_logger _ _ _ _ _ _ _ _ _ H) as [run [aic [bic [r [lg0 [lg1 [s [H0 [Hin [_ [Hp [Hk _]]]]]]]]]]]].
  rewrite Hel in H0. apply rbind_inv in H0 as [o0 [Ho0 H0]]. apply rbind_inv in H0 as [o [Ho H0]].
  unfold mk_sr3 in Ho0. apply rbind_inv in Ho0 as [u0 [_ Ho0]]. injection Ho0 as <-.
  apply Ok_inj in H0. injection H0 as <- <- <-. rewrite Hpr in Hp.
  fold start in Hp. rewrite Hr in Hin. simpl in Hin. injection Hin as <-. fold w in Hp.
  destruct (sr3_strong inv {| so_lam := el; so_practical := false; so_problem := None; so_data := None |} pr o mu
    Hinv Hw Hc Hel0 eq_refl Ho Hi) as [f [g [xs [V [G [Sm [Cv [Bx [Bm [_ [Bl Bg]]]]]]]]]]].
  cbn [so_lam] in *.
  set (pen := fun z => lam * weighted_l1 w z) in *.
  destruct Hi as [Hmu Hi].
  pose proof (relaxed_curvature_pos el mu Hel0 Hmu) as Hrc.
  destruct (pair_of pr el mu pen f xs Hmu Bx Bm) as [_ P2]. destruct (P2 z u Hbp) as [Hu Ez].
  assert (Lu : length u = lp_p pr) by apply Hu.
  rewrite Ez, <- (Bg u Lu) in Hcc.
  destruct (optimize_selects _ _ _ f g
    (lp_p pr) el sm _ lam w V G Sm Bl Hrc Cv (Rlt_le _ _ Hel0) Hl Hwn Lw (l1_exact argsort lam w Hl Hwn)
    Hst u Hu start tt lg0 x lg1 s dz dn Ls Hp0 Hdz Hdn Hcc Hp) as [n [b [A [B [_ [C D]]]]]].
  exists n, b. rewrite !Hk by discriminate. cbn [s_tol] in D. auto.
Qed.

(*@ C116.  The practical SR3 L1 model does not report its iterations: both conditions are asked for. *)
Lemma practical_l1_fit_selects_lemma :
  forall argsort inv m pr x0 (warm : bool) weights x lg lam el mu z u dz dn,
  inv_ok inv -> wf_linear pr -> (0 < lp_p pr)%nat -> lp_c pr = eye (lp_p pr) ->
  lm_el m = Some el -> 0 < el -> lm_practical m = true -> (0 < lm_max_iter m)%Z ->
  lm_reg m = mk_l1 lam -> 0 <= lam ->
  let w := match weights with Some w => w | None => ones (lp_p pr) end in
  Forall (fun wi => 0 <= wi) w -> length w = lp_p pr ->
  let start := if warm then match x0 with Some x => x | None => ones (lp_p pr) end else ones (lp_p pr) in
  length start = lp_p pr ->
  independent (lp_p pr) mu (lp_a pr) ->
  linear_fit_problem argsort inv m pr x0 warm weights = Ok (x, lg) ->
  best_pair (lp_p pr) (fun z u => relaxed_loss el pr z u + lam * weighted_l1 w u) z u ->
  0 < dz -> 0 < dn -> clear_cut lam w (vscale el (vsub u z)) u dz dn ->
  enough_steps (1 / el) (relaxed_curvature el mu) el dz dn (Z.to_nat (lm_max_iter m)) (sqnorm (vsub start u)) ->
  fine_enough (1 / el) (relaxed_curvature el mu) el dz dn (lm_tol m) -> same_selection u x.
Proof.
  intros argsort inv m pr x0 warm weights x lg lam el mu z u dz dn Hinv Hw Hp0 Hc Hel Hel0 Hpr Hmi Hr Hl w Hwn Lw start Ls Hi H Hbp Hdz Hdn Hcc Hen Hfi.
  destruct (fit_logger _ _ _ _ _ _ _ _ _ H) as [run [aic [bic [r [lg0 [lg1 [s [H0 [Hin [_ [Hp [Hk _]]]]]]]]]]]].
  rewrite Hel in H0. apply rbind_inv in H0 as [o0 [Ho0 H0]]. apply rbind_inv in H0 as [o [Ho H0]].
  unfold mk_sr3 in Ho0. apply rbind_inv in Ho0 as [u0 [_ Ho0]]. injection Ho0 as <-.
  apply Ok_inj in H0. injection H0 as <- <- <-. rewrite Hpr in Hp.
  fold start in Hp. rewrite Hr in Hin. simpl in Hin. injection Hin as <-. fold w in Hp.
  unfold fake_pgd_optimize in Hp. apply rbind_inv in Hp as [[[x1 lg2] s1] [Hf Hp]].
  apply rbind_inv in Hf as [x2 [Hf Ef]]. apply Ok_inj in Ef. injection Ef as -> <- <-.
  apply rbind_inv in Hp as [[lg3 s3] [_ Hp]]. apply rbind_inv in Hp as [lg4 [_ Hp]].
  apply Ok_inj in Hp. injection Hp as -> _ _.
  unfold sr3_find in Hf. apply rbind_inv in Hf as [[x3 n] [Hf E3]]. apply Ok_inj in E3. subst x3.
  assert (Hsym : symmetric (lp_p pr) (lp_c pr)) by (rewrite Hc; apply eye_symmetric).
  pose proof (practical_equals_fixed_step_pgd_lemma inv {| so_lam := el; so_practical := false; so_problem := None; so_data := None |}
    {| so_lam := el; so_practical := false; so_problem := None; so_data := None |} o o pr
    (as_regularizer argsort (RL1 lam (Some w))) (lm_tol m) (lm_max_iter m) start Hinv Hw Hc Hel0 eq_refl eq_refl Ho Ho) as R.
  cbv zeta in R. rewrite Hf in R. destruct R as [lgr [R It]]. cbn [so_lam] in R.
  match type of R with pgd_optimize _ _ ?sl _ _ _ = _ => set (slv := sl) in * end.
  assert (Hinvpos : 0 < 1 / el) by (apply Rdiv_lt_0_compat; lra).
  assert (Hst : safe_steps slv el (1 / el)).
  { unfold safe_steps. change (s_step_len slv) with (1 / el).
    change (s_stepping slv =? "line-search")%string with false. cbn iota. split; [lra|].
    replace (el * (1 / el)) with 1 by (field; lra). lra. }
  destruct (sr3_strong inv {| so_lam := el; so_practical := false; so_problem := None; so_data := None |} pr o mu
    Hinv Hw Hc Hel0 eq_refl Ho Hi) as [f [g [xs [V [G [Sm [Cv [Bx [Bm [_ [Bl Bg]]]]]]]]]]].
  cbn [so_lam] in *.
  set (pen := fun z => lam * weighted_l1 w z) in *.
  destruct Hi as [Hmu Hi].
  pose proof (relaxed_curvature_pos el mu Hel0 Hmu) as Hrc.
  destruct (pair_of pr el mu pen f xs Hmu Bx Bm) as [_ P2]. destruct (P2 z u Hbp) as [Hu Ez].
  assert (Lu : length u = lp_p pr) by apply Hu.
  rewrite Ez, <- (Bg u Lu) in Hcc.
  destruct (optimize_selects _ _ _ f g
    (lp_p pr) el (1 / el) _ lam w V G Sm Bl Hrc Cv (Rlt_le _ _ Hel0) Hl Hwn Lw (l1_exact argsort lam w Hl Hwn)
    Hst u Hu start tt _ _ lgr tt dz dn Ls Hp0 Hdz Hdn Hcc R) as [n' [b [A [B [Nb [C D]]]]]].
  change (s_tol slv) with (lm_tol m) in D. change (s_max_iter slv) with (lm_max_iter m) in Nb.
  destruct b; [auto|]. specialize (Nb eq_refl Hmi). apply C. rewrite <- (Nat2Z.id n'), Nb. exact Hen.
Qed.

(*@ The conditions hold for two independent features with the responses 4 and 1/2 and lam = 1: the best coefficients
    are (3, 0), with the margins 1/2 and 3.  From (1, 1) twenty steps of length 1/2 or tol = 1/50 suffice. *)
Lemma ex_l1_selects_lemma :
  independent 2 1 (lp_a two_features) /\ frob (lp_a two_features) = 2 /\
  best_in 2 all_vecs (fun z => least_squares two_features z + 1 * weighted_l1 [1; 1] z) [3; 0] /\
  clear_cut 1 [1; 1] (residual_correlations two_features [3; 0]) [3; 0] (1 / 2) 3 /\
  enough_steps (1 / 2) 1 2 (1 / 2) 3 20 (sqnorm (vsub [1; 1] [3; 0])) /\
  fine_enough (1 / 2) 1 2 (1 / 2) 3 (1 / 50) /\
  same_selection [3; 0] [5 / 2; 0] /\ ~ same_selection [3; 0] [3; 1 / 1000].
Proof.
  assert (E : forall i, (i < 2)%nat -> i = 0%nat \/ i = 1%nat) by (intros; lia).
  repeat split.
  - lra.
  - intros z Lz. destruct z as [|a [|b [|c z]]]; try discriminate.
    unfold sqnorm, mv, vdot, vmul, vsum; simpl. unfold vdot, vmul, vsum; simpl. lra.
  - unfold frob, sqnorm, vdot, vmul, vsum; simpl. unfold sqnorm, vdot, vmul, vsum; simpl. lra.
  - intros z Lz _. destruct z as [|a [|b [|c z]]]; try discriminate.
    unfold least_squares, sqnorm, mv, vdot, vmul, vsum; simpl. unfold vdot, vmul, vsum; simpl.
    rewrite (Rabs_right 3), Rabs_R0 by lra.
    pose proof (Rle_abs a). pose proof (Rle_abs b). pose proof (pow2_ge_0 (a - 3)). pose proof (pow2_ge_0 b).
    pose proof (Rabs_pos b). nra.
  - destruct (E i H) as [-> | ->]; simpl; [lra|]. intros _.
    unfold residual_correlations, tmv, mv, vdot, vmul, vsum; simpl. unfold vdot, vmul, vsum; simpl.
    match goal with |- Rabs ?t + _ <= _ => replace t with (- (1 / 2)) by lra end. rewrite Rabs_Ropp, Rabs_right; lra.
  - destruct (E i H) as [-> | ->]; simpl; [|lra]. intros _. rewrite Rabs_right; lra.
  - lia.
  - unfold sqnorm, vdot, vmul, vsum; simpl. lra.
  - unfold sqnorm, vdot, vmul, vsum; simpl. lra.
  - lra.
  - lra.
  - destruct (E i H) as [-> | ->]; simpl; lra.
  - destruct (E i H) as [-> | ->]; simpl; lra.
  - destruct (E i H) as [-> | ->]; simpl; lra.
  - intros [_ H]. destruct (H 1%nat ltac:(simpl; lia)) as [[_ H1] _]. simpl in H1. specialize (H1 eq_refl). lra.
Qed.
