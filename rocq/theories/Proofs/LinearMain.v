(** Final lemmas about linear models and priors, restated as theorems in
    Properties/Linear.v. *)
(*HEAD
(** Properties C18-C28: linear models (src/pysr3/linear) and priors (src/pysr3/priors.py,
    src/pysr3/lme/priors.py). *)
From Verif.Base Require Import Py Vec Mat.
From Verif.Model Require Import Regularizers Linear.
From Verif.Spec Require Import ProxSpec SolverSpec LinearSpec.
HEAD*)
(*OPEN
Open Scope string_scope.
Open Scope list_scope.
Open Scope R_scope.
OPEN*)
From Coq Require Import Lra Psatz.
From Verif.Base Require Import Py Vec Mat.
From Verif.Model Require Import Regularizers Linear.
From Verif.Spec Require Import ProxSpec RegSpec SolverSpec LinearSpec.
From Verif.Proofs Require Import VecFacts L0Proofs RegularizerProofs RegularizersMain MatFacts SolverProofs SolversMain LinearProofs.
Open Scope string_scope.
Open Scope list_scope.
Open Scope R_scope.

Lemma inv_one_ok : inv_ok inv_one.
Proof.
  intros p m mi Hs H. unfold inv_one in H.
  destruct m as [|[|v [|]] [|]]; try discriminate. destruct (reqb v 0) eqn:E; [discriminate|].
  apply reqb_false in E. injection H as <-. destruct Hs as [Hp _]. simpl in Hp. subst p. split.
  - split; [reflexivity|]. repeat constructor.
  - intros [|x [|]] Hl; try discriminate. unfold mv, vdot, vmul, vsum; simpl. f_equal. field. auto.
Qed.
Lemma sample_wf b : wf_linear (sample_problem b).
Proof. repeat split; repeat constructor. Qed.
Lemma sample_symmetric b : symmetric 1 (lp_c (sample_problem b)).
Proof.
  intros [|x [|]] [|y [|]] Hx Hy; try discriminate. unfold mv, vdot, vmul, vsum; simpl. ring.
Qed.

(*@ C18 (refuted).  FakePGDSolver reports converged = True for every run, whatever the inner
    routine did; *)
Lemma practical_converged_flag_refuted_lemma :
  (forall S (orc : oracle S) rg find x0 s lg x lg' s',
     fake_pgd_optimize orc rg find x0 s lg = Ok (x, lg', s') ->
     get lg' "converged" = Ok (LAtom (LBool true))) /\
  (exists m pr o x1 lg, lm_practical m = true /\ lm_tol m = / 10 /\ lm_max_iter m = 1%Z /\
     sr3_instantiate inv_one {| so_lam := 1; so_practical := false; so_problem := None; so_data := None |} pr = Ok o /\
     sr3_find_count o (as_regularizer (fun _ => []) RDummy) (lm_tol m) (lm_max_iter m) [1] = Ok ([x1], 1%nat) /\
     / 10 < norm (vsub [x1] [1]) /\
     linear_fit_problem (fun _ => []) inv_one m pr None false None = Ok ([x1], lg) /\
     get lg "converged" = Ok (LAtom (LBool true))).
Proof.
  split; [exact fake_pgd_always_converged_lemma|].
  set (pr := sample_problem 4).
  set (m := sample_linear (Some 1) true RDummy).
  set (h := 1 * 1 + 0 + 1 * (1 * 1 + 0)).
  assert (Hh : h = 2) by (unfold h; ring).
  set (hi := [[1 / h]]).
  assert (Ei : inv_one 1 (h_matrix 1 pr) = Ok hi).
  { change (h_matrix 1 pr) with [[h]]. unfold inv_one.
    destruct (reqb h 0) eqn:E; [apply reqb_true in E; lra|reflexivity]. }
  set (o := {| so_lam := 1; so_practical := false; so_problem := Some pr;
               so_data := Some {| sd_h_inv := hi; sd_ab := tmv 1 [[1]] [4];
                 sd_fg := Some (f_matrix 1 pr hi, mv (g_matrix 1 pr hi) [4]) |} |}).
  assert (Eo : sr3_instantiate inv_one {| so_lam := 1; so_practical := false; so_problem := None; so_data := None |} pr = Ok o).
  { unfold sr3_instantiate. cbn [so_lam so_practical]. change (lp_p pr) with 1%nat. rewrite Ei. reflexivity. }
  set (y := mv hi (vadd (tmv 1 [[1]] [4]) (vscale 1 (tmv 1 [[1]] [1])))).
  set (x1 := nth 0 y 0).
  assert (Ey : y = [x1]) by reflexivity.
  assert (Ex : x1 = 5 / 2).
  { unfold x1, y, hi, mv, vdot, vmul, vsum; simpl. rewrite Hh. field. }
  assert (Ef : sr3_find_count o (as_regularizer (fun _ => []) RDummy) (/ 10) 1 [1] = Ok ([x1], 1%nat)).
  { unfold sr3_find_count, o. cbn [so_lam so_problem so_data].
    assert (N1 : nonzero 1 = true) by (apply nonzero_true; lra). rewrite N1. cbn [guard rbind].
    change (Z.to_nat 1) with 1%nat. cbn [practical_loop moved rbind]. simpl andb. cbn iota.
    change (length [1] =? lp_p pr)%nat with true. cbn [guard rbind].
    cbn [so_lam sd_h_inv sd_ab]. change (lp_p pr) with 1%nat. change (lp_c pr) with [[1]]. fold y.
    change (r_prox (as_regularizer (fun _ => []) RDummy) y (1 / 1)) with (@Ok vec y).
    cbn [rbind]. rewrite Ey. cbn [practical_loop moved length Nat.eqb guard rbind].
    change (Z.of_nat 1 <? 1)%Z with false. rewrite andb_false_r. reflexivity. }
  exists m, pr, o, x1,
    {| lg_kind := KTuple; lg_keys := ["converged"]; lg_dict := [("converged", LAtom (LBool true))] |}.
  do 3 (split; [reflexivity|]). split; [auto|]. split; [auto|]. split; [|split; [|reflexivity]].
  - unfold norm, sqnorm, vdot, vmul, vsum; simpl.
    replace ((x1 - 1) * (x1 - 1) + 0) with ((3 / 2) * (3 / 2)) by (rewrite Ex; field).
    rewrite sqrt_square by lra. lra.
  - unfold linear_fit_problem. cbn [m sample_linear lm_el lm_practical lm_reg lm_tol lm_max_iter lm_prior lm_keys].
    cbn [mk_sr3 negb guard rbind]. rewrite Eo. cbn [rbind instantiate mk_logger].
    unfold fake_pgd_optimize, sr3_find. change (ones (lp_p pr)) with [1].
    rewrite Ef. reflexivity.
Qed.

(*@ C18 (partial).  What is true: the inner iteration makes at most max_iter steps, and when it
    makes fewer the last step moved the point by at most tol. *)
Lemma practical_stops_truthfully_partial_lemma :
  forall o rg tol max_iter x0 x n,
  sr3_find_count o rg tol max_iter x0 = Ok (x, n) ->
  (n <= Z.to_nat max_iter)%nat /\
  ((Z.of_nat n < max_iter)%Z -> (n = 0%nat /\ x = x0 /\ x0 = []) \/
     exists x_prev, norm (vsub x x_prev) <= tol).
Proof.
  intros o rg tol mi x0 x n H. unfold sr3_find_count in H. apply rbind_inv in H as [u [_ H]].
  destruct (so_problem o) as [pr|]; [|discriminate]. destruct (so_data o) as [d|]; [|discriminate].
  assert (G : forall fuel x xp it x' n', practical_loop fuel o pr d rg tol mi x xp it = Ok (x', n') ->
     (it <= n' <= it + fuel)%nat /\
     ((Z.of_nat n' < mi)%Z ->
        (n' = it /\ x' = x /\ match xp with None => x = [] | Some p => norm (vsub x p) <= tol end) \/
        exists p, norm (vsub x' p) <= tol)).
  { induction fuel as [|fuel IH]; intros y xp it x' n' E; simpl in E.
    - apply rbind_inv in E as [b [Hm E]]. destruct (b && (Z.of_nat it <? mi)%Z) eqn:Eb; [discriminate|].
      inversion E; subst. split; [lia|]. intros Hlt. apply andb_false_iff in Eb as [Eb|Eb].
      + subst b. left. split; [auto|]. split; [auto|]. unfold moved in Hm. destruct xp as [p|].
        * apply rbind_inv in Hm as [u' [_ Hm]]. apply Ok_inj in Hm. apply rltb_false in Hm. auto.
        * destruct x'; auto. discriminate.
      + apply Z.ltb_ge in Eb. lia.
    - apply rbind_inv in E as [b [Hm E]]. destruct (b && (Z.of_nat it <? mi)%Z) eqn:Eb.
      + apply rbind_inv in E as [u' [_ E]]. apply rbind_inv in E as [x2 [_ E]].
        destruct (IH _ _ _ _ _ E) as [R1 R2]. split; [lia|]. intros Hlt.
        destruct (R2 Hlt) as [[_ [-> Hn]]|R]; auto. right. eauto.
      + inversion E; subst. split; [lia|]. intros Hlt. apply andb_false_iff in Eb as [Eb|Eb].
        * subst b. left. split; [auto|]. split; [auto|]. unfold moved in Hm. destruct xp as [p|].
          -- apply rbind_inv in Hm as [u' [_ Hm]]. apply Ok_inj in Hm. apply rltb_false in Hm. auto.
          -- destruct x'; auto. discriminate.
        * apply Z.ltb_ge in Eb. lia. }
  destruct (G _ _ _ _ _ _ H) as [G1 G2]. split; [lia|]. intros Hlt.
  destruct (G2 Hlt) as [[-> [-> E]]|G3]; auto.
Qed.

(*@ C19.  gradient and hessian are the exact first and second derivatives of loss, with or
    without an (instantiated) Gaussian prior. *)
Lemma linear_gradient_hessian_exact_lemma :
  forall pr pri x d, wf_linear pr -> length x = lp_p pr -> length d = lp_p pr ->
  (pri = PNone \/ exists g0 g cols, gauss_instantiate g0 cols = Ok g /\ length cols = lp_p pr /\ pri = PGauss g) ->
  let o := {| lo_problem := Some pr; lo_prior := pri |} in
  exists f f' g h, lin_loss o x = Ok f /\ lin_loss o (vadd x d) = Ok f' /\
    lin_gradient o x = Ok g /\ lin_hessian o = Ok h /\
    length g = lp_p pr /\ is_shape (lp_p pr) (lp_p pr) h /\
    f' = f + vdot g d + / 2 * vdot d (mv h d).
Proof.
  intros pr pri x d Hw Hx Hd Hp o. apply linear_expansion; auto. simpl.
  destruct Hp as [->|[g0 [g [cols [Hg [Hc ->]]]]]]; [exact I|]. simpl. rewrite <- Hc.
  eapply gauss_instantiate_ready; eauto.
Qed.
(*@ One observation a = 1, b = 4 with the prior N(1, 2), at 3: 1/2 for the residual and 1 for the prior. *)
Lemma ex_linear_gradient_lemma :
  wf_linear (sample_problem 4) /\
  exists g, gauss_instantiate (mk_gauss [("a", (1, 2))]) ["a"] = Ok g /\
  exists v, lin_loss {| lo_problem := Some (sample_problem 4); lo_prior := PGauss g |} [3] = Ok v /\ v = / 2 + 1.
Proof.
  split; [apply sample_wf|].
  assert (E1 : rleb 0 2 = true) by (apply rleb_true; lra).
  assert (E2 : rltb 0 2 = true) by (apply rltb_true; lra).
  exists {| gp_params := [("a", (1, 2))]; gp_inst := Some ([1], [2], [1]) |}. split.
  - unfold gauss_instantiate, gauss_column. simpl. rewrite E1, E2. reflexivity.
  - eexists. split; [reflexivity|].
    unfold norm, sqnorm, vdot, vmul, vsum; simpl.
    replace (vdot [1] [3]) with 3 by (unfold vdot, vmul, vsum; simpl; ring).
    replace ((3 - 4) * (3 - 4) + 0) with (1 * 1) by ring.
    rewrite sqrt_square by lra. field.
Qed.

(*@ C19.  The least-squares loss itself: half the squared residual norm. *)
Lemma linear_loss_is_least_squares_lemma :
  forall pr x, wf_linear pr -> length x = lp_p pr ->
  lin_loss {| lo_problem := Some pr; lo_prior := PNone |} x = Ok (least_squares pr x).
Proof.
  intros pr x Hw Hx. rewrite (lin_loss_ok _ pr x 0) by auto. f_equal. ring.
Qed.

Lemma fit_plain_inv argsort inv m pr x0 ws weights x lg :
  lm_el m = None -> linear_fit_problem argsort inv m pr x0 ws weights = Ok (x, lg) ->
  exists r lg0 lg1 s,
    instantiate (lm_reg m) (match weights with Some w => w | None => ones (lp_p pr) end) None = Ok r /\
    pgd_optimize (lin_as_oracle {| lo_problem := Some pr; lo_prior := PNone |}) (as_regularizer argsort r)
      {| s_tol := lm_tol m; s_max_iter := lm_max_iter m; s_stepping := lm_stepping m; s_step_len := effective_step m |}
      (if ws then match x0 with Some x => x | None => ones (lp_p pr) end else ones (lp_p pr)) tt lg0 = Ok (x, lg1, s).
Proof.
  intros Hel H. unfold linear_fit_problem in H. rewrite Hel in H.
  apply rbind_inv in H as [[[run aic] bic] [H0 H]].
  apply rbind_inv in H0 as [o [Ho H0]]. unfold lin_instantiate in Ho. simpl in Ho.
  destruct (lm_prior m); [|discriminate]. injection Ho as <-. injection H0 as <- <- <-.
  apply rbind_inv in H as [r [Hr H]]. apply rbind_inv in H as [lg0 [_ H]].
  apply rbind_inv in H as [[[x' lg1] s] [Hp H]].
  apply rbind_inv in H as [lg2 [_ H]]. apply rbind_inv in H as [lg3 [_ H]]. inversion H; subst.
  exists r, lg0, lg1, s. auto.
Qed.

(*@ C20.  For data with squared Frobenius norm up to 5e13, every line search of a least-squares
    fit ends with an accepted step, and the penalised loss never increases along the run (from
    the first point in the penalty's domain on). *)
Lemma linear_line_search_always_accepted_lemma :
  forall pr rg dom pen slv x0 s lg x lg' s',
  wf_linear pr -> frob (lp_a pr) <= 50000000000000 -> exact_for rg dom pen ->
  s_stepping slv = "line-search" -> ls_threshold < s_step_len slv ->
  let orc := lin_as_oracle {| lo_problem := Some pr; lo_prior := PNone |} in
  pgd_optimize orc rg slv x0 s lg = Ok (x, lg', s') ->
  exists path, is_path (pgd_rule orc rg slv) x0 path /\ x = endpoint x0 path /\
    Forall (fun p => ls_threshold < fst p) path /\
    non_increasing dom (fun x => least_squares pr x + pen x) x0 path /\
    (dom x0 -> least_squares pr x + pen x <= least_squares pr x0 + pen x0).
Proof.
  intros pr rg dom pen slv x0 s lg x lg' s' Hw HK Hex Hst Hsl orc H.
  destruct (pgd_optimize_inv _ _ _ _ _ _ _ _ _ H) as [path [P [E _]]].
  destruct (lin_path_descends {| lo_problem := Some pr; lo_prior := PNone |} pr rg dom pen slv path x0) as [A B]; auto.
  exists path. do 4 (split; [auto|]). intros Hd. subst x.
  apply (non_increasing_end dom (fun x => least_squares pr x + pen x)); auto.
Qed.

(*@ C20.  Fitting the L1 model: least squares + lam * sum w|x| of the coefficients is at most that of the
    starting point (all ones unless warm started). *)
Lemma linear_l1_fit_no_worse_than_start_lemma :
  forall argsort inv m pr x0 (warm : bool) weights x lg lam,
  wf_linear pr -> frob (lp_a pr) <= 50000000000000 ->
  lm_el m = None -> lm_reg m = mk_l1 lam -> 0 <= lam ->
  lm_stepping m = "line-search" -> ls_threshold < effective_step m ->
  let w := match weights with Some w => w | None => ones (lp_p pr) end in
  Forall (fun wi => 0 <= wi) w ->
  let start := if warm then match x0 with Some x => x | None => ones (lp_p pr) end else ones (lp_p pr) in
  linear_fit_problem argsort inv m pr x0 warm weights = Ok (x, lg) ->
  least_squares pr x + lam * weighted_l1 w x <= least_squares pr start + lam * weighted_l1 w start.
Proof.
  intros argsort inv m pr x0 warm weights x lg lam Hw HK Hel Hr Hl Hst Hsl w Hwn start H.
  destruct (fit_plain_inv _ _ _ _ _ _ _ _ _ Hel H) as [r [lg0 [lg1 [s [Hi Hp]]]]].
  rewrite Hr in Hi. simpl in Hi. injection Hi as <-. fold w in Hp. fold start in Hp.
  assert (Hex : exact_for (as_regularizer argsort (RL1 lam (Some w))) all_vecs (fun z => lam * weighted_l1 w z)).
  { intros y t z Ht E. change (l1_prox lam (Some w) y t = Ok z) in E. pose proof E as E0.
    assert (Ly : length w = length y).
    { clear E0. unfold l1_prox in E. apply rbind_inv in E as [u [G _]]. apply guard_inv in G. apply Nat.eqb_eq in G. auto. }
    destruct (l1_prox_unique lam w y t) as [z' [E' U]]; auto; [lra|].
    assert (Ez : z' = z) by (apply Ok_inj; etransitivity; [symmetry; exact E' | exact E0]).
    subst z'. apply unique_is_prox. auto. }
  match type of Hp with pgd_optimize _ _ ?slv _ _ _ = _ =>
    destruct (linear_line_search_always_accepted_lemma pr _ _ _ slv _ _ _ _ _ _ Hw HK Hex Hst Hsl Hp)
    as [path [_ [_ [_ [_ G]]]]] end.
  apply G. exact I.
Qed.
(*@ A problem and a model within the bounds of the theorem. *)
Lemma ex_linear_fit_bounds_lemma :
  frob (lp_a (sample_problem 1)) <= 50000000000000 /\
  ls_threshold < effective_step (sample_linear None false (mk_l1 1)).
Proof.
  split.
  - unfold frob, vsum, sqnorm, vdot, vmul, vsum; simpl. lra.
  - unfold effective_step, ls_threshold; simpl. lra.
Qed.

(*@ C21.  value_function(w) is the minimum over x of the relaxed loss, attained at
    x = H^-1(A'b + lam C'w); gradient_value_function(w) is lam (w - C x) and is the derivative of
    the value function, whose curvature is at most lam. *)
Lemma sr3_value_is_partial_minimum_lemma :
  forall inv o0 pr o w, inv_ok inv -> wf_linear pr -> symmetric (lp_p pr) (lp_c pr) ->
  0 <= so_lam o0 -> so_practical o0 = false -> sr3_instantiate inv o0 pr = Ok o -> length w = lp_p pr ->
  exists d x v g, so_data o = Some d /\
    x = mv (sd_h_inv d) (vadd (tmv (lp_p pr) (lp_a pr) (lp_b pr)) (vscale (so_lam o0) (tmv (lp_p pr) (lp_c pr) w))) /\
    length x = lp_p pr /\
    sr3_value o w = Ok v /\ sr3_loss o x w = Ok v /\ v = relaxed_loss (so_lam o0) pr x w /\
    (forall x', length x' = lp_p pr -> v <= relaxed_loss (so_lam o0) pr x' w) /\
    sr3_gradient o w = Ok g /\ g = vscale (so_lam o0) (vsub w (mv (lp_c pr) x)) /\
    (forall e, length e = lp_p pr -> exists v' q, sr3_value o (vadd w e) = Ok v' /\
       v' = v + vdot g e + / 2 * q /\ 0 <= q <= so_lam o0 * sqnorm e).
Proof.
  intros inv o0 pr o w Hi Hw Hs Hl Hp H Lw.
  destruct (sr3_instantiate_inv _ _ _ _ Hi Hw H) as [hi [S1 [S2 [_ [E1 [E2 [E3 E4]]]]]]].
  rewrite Hp in *. destruct (sr3_eval o pr _ hi w E2 E3 E4 Lw) as [V G].
  rewrite value_is_relaxed in V by auto. rewrite gradient_is in G by auto.
  eexists _, (xstar pr (so_lam o0) hi w), _, _. split; [exact E4|]. split; [reflexivity|].
  assert (Lx : length (xstar pr (so_lam o0) hi w) = lp_p pr) by (apply xstar_len; auto).
  split; [auto|]. split; [exact V|]. split.
  { unfold sr3_loss. rewrite E3, residual_ok by auto. cbn [rbind].
    assert (Lc : length (lp_c pr) = lp_p pr) by apply Hw.
    rewrite Lw. change (length (lp_c pr)) with (@length (list R) (lp_c pr)).
    destruct (Nat.eqb_spec (lp_p pr) (@length (list R) (lp_c pr))) as [_|N]; [|exfalso; apply N; symmetry; exact Lc].
    cbn [guard rbind]. rewrite !norm_sq, E1. f_equal. unfold relaxed_loss, least_squares. lra. }
  split; [reflexivity|]. split.
  { intros x' Lx'. rewrite (relaxed_min pr (so_lam o0) hi Hw Hs S1 S2 w x') by auto.
    pose proof (sqnorm_nonneg (mv (lp_a pr) (vsub x' (xstar pr (so_lam o0) hi w)))).
    pose proof (sqnorm_nonneg (mv (lp_c pr) (vsub x' (xstar pr (so_lam o0) hi w)))).
    assert (0 <= so_lam o0 / 2 * sqnorm (mv (lp_c pr) (vsub x' (xstar pr (so_lam o0) hi w))))
      by (apply Rmult_le_pos; lra). lra. }
  split; [exact G|]. split; [reflexivity|].
  intros e Le. assert (Lwe : length (vadd w e) = lp_p pr) by (apply vadd_len; auto).
  destruct (sr3_eval o pr _ hi (vadd w e) E2 E3 E4 Lwe) as [V' _].
  rewrite value_is_relaxed in V' by auto.
  exists (vfun pr (so_lam o0) hi (vadd w e)), (sqnorm (mv (f_matrix (so_lam o0) pr hi) e)).
  split; [exact V'|]. split; [apply value_expand; auto|]. split; [apply sqnorm_nonneg|].
  apply F_norm_le; auto.
Qed.
(*@ An inverse that keeps the contract and an SR3 oracle that is instantiated with it. *)
Lemma ex_sr3_instance_lemma :
  inv_ok inv_one /\ wf_linear (sample_problem 4) /\ symmetric 1 (lp_c (sample_problem 4)) /\
  exists o, sr3_instantiate inv_one {| so_lam := 1; so_practical := false; so_problem := None; so_data := None |}
    (sample_problem 4) = Ok o.
Proof.
  split; [exact inv_one_ok|]. split; [apply sample_wf|]. split; [apply sample_symmetric|].
  destruct practical_converged_flag_refuted_lemma as [_ _].
  unfold sr3_instantiate. cbn [so_lam so_practical].
  change (h_matrix 1 (sample_problem 4)) with [[1 * 1 + 0 + 1 * (1 * 1 + 0)]]. unfold inv_one.
  destruct (reqb (1 * 1 + 0 + 1 * (1 * 1 + 0)) 0) eqn:E; [apply reqb_true in E; lra|].
  eexists. reflexivity.
Qed.

(*@ C22.  find_optimal_parameters returns the same point after the same number of iterations, or
    raises the same exception, as PGDSolver with the fixed step 1/lam on the value function. *)
Lemma practical_equals_fixed_step_pgd_lemma :
  forall inv o1' o2' o1 o2 pr rg tol max_iter x0,
  inv_ok inv -> wf_linear pr -> lp_c pr = eye (lp_p pr) -> 0 < so_lam o2' ->
  so_lam o1' = so_lam o2' -> so_practical o2' = false ->
  sr3_instantiate inv o1' pr = Ok o1 -> sr3_instantiate inv o2' pr = Ok o2 ->
  let slv := {| s_tol := tol; s_max_iter := max_iter; s_stepping := "fixed"; s_step_len := 1 / so_lam o2' |} in
  let quiet_logger := {| lg_kind := KTuple; lg_keys := []; lg_dict := [] |} in
  let run := pgd_optimize (sr3_as_oracle o2) rg slv x0 tt quiet_logger in
  match sr3_find_count o1 rg tol max_iter x0 with
  | Ok (x, n) => exists lg', run = Ok (x, lg', tt) /\
       get lg' "iteration" = Ok (LAtom (LNum (INR n)))
  | Err e => run = Err e
  end.
Proof.
  intros inv o1' o2' o1 o2 pr rg tol mi x0 Hi Hw Hc Hl El Hp H1 H2 slv ql run.
  destruct (sr3_instantiate_inv _ _ _ _ Hi Hw H1) as [hi [S1 [S2 [I1 [A1 [A2 [A3 A4]]]]]]].
  destruct (sr3_instantiate_inv _ _ _ _ Hi Hw H2) as [hi2 [_ [_ [I2 [B1 [B2 [B3 B4]]]]]]].
  rewrite El in *. rewrite I1 in I2. injection I2 as <-. rewrite Hp in *.
  unfold sr3_find_count. rewrite A1, A3, A4.
  assert (Nz : nonzero (so_lam o2') = true) by (apply nonzero_true; lra). rewrite Nz. cbn [guard rbind].
  pose proof (practical_loop_pgd o1 o2 pr (so_lam o2') hi
     {| sd_h_inv := hi; sd_ab := tmv (lp_p pr) (lp_a pr) (lp_b pr);
        sd_fg := if so_practical o1' then None else Some (f_matrix (so_lam o2') pr hi, mv (g_matrix (so_lam o2') pr hi) (lp_b pr)) |}
     rg tol mi x0 (Z.to_nat mi) (pgd_init x0 tt ql) Hw Hc Hl S1 S2 A1 eq_refl eq_refl B2 B3 B4 eq_refl eq_refl) as L.
  cbn [st_x st_x_prev st_iteration pgd_init st_logger] in L. fold slv in L.
  unfold run, pgd_optimize. rewrite log_state_quiet by reflexivity. cbn [rbind]. cbn [s_max_iter slv].
  destruct (practical_loop (Z.to_nat mi) o1 pr _ rg tol mi x0 None 0) as [[x n]|e].
  - destruct L as [st' [L1 [L2 [L3 [L4 L5]]]]]. rewrite L1. cbn [rbind]. rewrite L2, L3, L4, L5.
    eexists. split; reflexivity.
  - rewrite L. reflexivity.
Qed.

Lemma fixed_path_descends inv o0 pr o rg dom pen slv path : forall x,
  inv_ok inv -> wf_linear pr -> symmetric (lp_p pr) (lp_c pr) -> 0 < so_lam o0 -> so_practical o0 = false ->
  sr3_instantiate inv o0 pr = Ok o -> exact_for rg dom pen ->
  s_stepping slv <> "line-search" -> s_step_len slv = 1 / so_lam o0 ->
  is_path (pgd_rule (sr3_as_oracle o) rg slv) x path ->
  forall F, (forall x v, sr3_value o x = Ok v -> F x = v) ->
  non_increasing dom (fun x => F x + pen x) x path.
Proof.
  intros x Hi Hw Hs Hl Hp H Hex Hst Hsl P F HF.
  destruct (sr3_value_is inv o0 pr o Hi Hw Hs ltac:(lra) Hp H) as [f [g [Vf [Vg [Lg [Ev Suf]]]]]].
  destruct (sr3_instantiate_inv _ _ _ _ Hi Hw H) as [hi [_ [_ [_ [_ [_ [E3 _]]]]]]].
  revert x P. induction path as [|[s x'] path IH]; intros x P; [exact I|].
  destruct P as [[[t1 [g1 [t2 [A [Hlg Pr]]]]] [Hst' _]] P]. simpl.
  assert (Es : s = 1 / so_lam o0).
  { destruct (String.eqb_spec (s_stepping slv) "line-search"); [congruence|]. congruence. }
  assert (Lx : length x = lp_p pr).
  { simpl in A. apply rbind_inv in A as [v [A _]]. eapply sr3_gradient_len; eauto. }
  rewrite (Vg _ _ _ _ A) in *. assert (Hs0 : 0 < s).
  { rewrite Es. apply Rdiv_lt_0_compat; lra. }
  destruct (Hex _ _ _ Hs0 Pr) as [Lx' _].
  assert (Lx2 : length x' = lp_p pr).
  { rewrite Lx', vsub_min, vscale_length, Lg; auto. lia. }
  destruct (descends_for rg dom pen f g x s x') as [D1 D2]; auto.
  { rewrite Es. apply Suf; auto. }
  split; [auto|]. split; [|apply IH; auto].
  intros Hd. rewrite (HF x (f x)), (HF x' (f x')) by (apply Ev; auto). auto.
Qed.

(*@ C23.  With the fixed step 1/lam every iteration on the SR3 value function with an exact prox
    does not increase value_function + penalty (from the first point in the penalty's domain on). *)
Lemma sr3_fixed_step_descends_lemma :
  forall inv o0 pr o rg dom pen slv x0 s lg x lg' s' F,
  inv_ok inv -> wf_linear pr -> symmetric (lp_p pr) (lp_c pr) -> 0 < so_lam o0 -> so_practical o0 = false ->
  sr3_instantiate inv o0 pr = Ok o -> exact_for rg dom pen ->
  s_stepping slv = "fixed" -> s_step_len slv = 1 / so_lam o0 ->
  (forall x v, sr3_value o x = Ok v -> F x = v) ->
  pgd_optimize (sr3_as_oracle o) rg slv x0 s lg = Ok (x, lg', s') ->
  exists path, is_path (pgd_rule (sr3_as_oracle o) rg slv) x0 path /\ x = endpoint x0 path /\
    non_increasing dom (fun x => F x + pen x) x0 path /\
    (dom x0 -> F x + pen x <= F x0 + pen x0).
Proof.
  intros inv o0 pr o rg dom pen slv x0 s lg x lg' s' F Hi Hw Hs Hl Hp H Hex Hst Hsl HF Hr.
  destruct (pgd_optimize_inv _ _ _ _ _ _ _ _ _ Hr) as [path [P [E _]]].
  assert (N : non_increasing dom (fun x => F x + pen x) x0 path).
  { eapply fixed_path_descends; eauto. rewrite Hst. discriminate. }
  exists path. do 3 (split; [auto|]). intros Hd. subst x.
  apply (non_increasing_end dom (fun x => F x + pen x)); auto.
Qed.

(*@ C23.  The default step of the SR3 linear models is 1/el. *)
Lemma sr3_default_step_lemma :
  forall m el, lm_el m = Some el -> el <> 0 -> lm_step_len m = None -> effective_step m = 1 / el.
Proof.
  intros m el H1 H2 H3. unfold effective_step. rewrite H3, H1. apply reqb_false in H2. rewrite H2. reflexivity.
Qed.

(*@ C24 (partial).  Without c the identity is used; a non-zero (1,1) array is used as given. *)
Lemma custom_c_partial_lemma :
  (forall a p b s w, exists pr, mk_linear_problem a p b None s w = Ok pr /\ lp_c pr = eye p) /\
  (forall a b s w v, v <> 0 -> exists pr, mk_linear_problem a 1 b (Some [[v]]) s w = Ok pr /\ lp_c pr = [[v]]) /\
  (forall a b s w, exists pr, mk_linear_problem a 1 b (Some [[0]]) s w = Ok pr /\ lp_c pr = eye 1).
Proof.
  split; [|split].
  - intros. eexists. split; reflexivity.
  - intros a b s w v Hv. apply nonzero_true in Hv. unfold mk_linear_problem, array_truth. simpl. rewrite Hv.
    eexists. split; reflexivity.
  - intros. unfold mk_linear_problem, array_truth. simpl.
    assert (E : nonzero 0 = false) by (apply nonzero_false; reflexivity). rewrite E. eexists. split; reflexivity.
Qed.

(*@ C24 (refuted).  Every (p,p) array with p >= 2 is rejected with ValueError. *)
Lemma custom_c_refuted_lemma :
  forall a p b s w c, (2 <= p)%nat -> is_shape p p c ->
  mk_linear_problem a p b (Some c) s w = Err ValueError.
Proof.
  intros a p b s w c Hp [Hc Wc]. unfold mk_linear_problem, array_truth.
  destruct c as [|r1 [|r2 c]]; simpl in Hc; try lia.
  apply wf_mat_cons in Wc as [L1 Wc].
  destruct r1 as [|x1 [|x2 r1]]; simpl in L1; try lia. reflexivity.
Qed.
(*@ The shape a caller would pass for two features. *)
Lemma ex_custom_c_lemma : is_shape 2 2 [[1; 0]; [0; 1]].
Proof. split; [reflexivity|]. repeat constructor. Qed.

Lemma must_weights_spec features must f i :
  (i < length features)%nat -> nth i features f = f ->
  match must with None => True | Some _ => True end ->
  nth i (must_include_weights features must) 1 =
  if has_key f (match must with Some ms => ms | None => [] end) then 0 else 1.
Proof.
  intros Hi Hf _. unfold must_include_weights.
  destruct must as [[|m ms]|]; simpl has_key at 1.
  - unfold ones. rewrite nth_repeat. reflexivity.
  - rewrite nth_indep with (d' := (fun f0 => if has_key f0 (m :: ms) then 0 else 1) f)
      by (rewrite map_length; auto).
    rewrite (map_nth (fun f0 => if has_key f0 (m :: ms) then 0 else 1)). rewrite Hf. reflexivity.
  - unfold ones. rewrite nth_repeat. reflexivity.
Qed.

(*@ C25 (partial).  from_dataframe gives weight 0 to the features named in must_include_features and 1
    to the others, and lays out the data as one row per record and one column per feature. *)
Lemma must_include_weights_partial_lemma :
  forall d features target must std c pr, linear_from_dataframe d features target must std c = Ok pr ->
  exists w, lp_weights pr = Some w /\ length w = length features /\ lp_p pr = length features /\
  (forall i, (i < length features)%nat ->
    (In (nth i features ""%string) (match must with Some ms => ms | None => [] end) -> nth i w 1 = 0) /\
    (~ In (nth i features ""%string) (match must with Some ms => ms | None => [] end) -> nth i w 1 = 1)) /\
  df_col d target = Ok (lp_b pr) /\
  (forall i k, (i < length features)%nat -> (k < df_n d)%nat ->
     exists col, df_col d (nth i features ""%string) = Ok col /\ nth i (nth k (lp_a pr) []) 0 = nth k col 0).
Proof.
  intros d features target must std c pr H. unfold linear_from_dataframe in H.
  apply rbind_inv in H as [cols [Hc H]]. apply rbind_inv in H as [b [Hb H]].
  unfold mk_linear_problem in H. apply rbind_inv in H as [c' [_ H]]. inversion H; subst; clear H. simpl.
  exists (must_include_weights features must). split; [reflexivity|]. split.
  { unfold must_include_weights. destruct must as [[|]|]; rewrite ?ones_length, ?map_length; auto. }
  split; [reflexivity|]. split; [|split; [auto|]].
  - intros i Hi. set (f := nth i features ""%string).
    assert (Hf : nth i features f = f) by (unfold f; apply nth_indep; auto).
    rewrite (must_weights_spec features must f i Hi Hf) by (destruct must; auto).
    split; intros Hin.
    + apply has_key_In in Hin. rewrite Hin. reflexivity.
    + destruct (has_key f _) eqn:E; auto. apply has_key_In in E. contradiction.
  - intros i k Hi Hk. apply sequence_Forall2 in Hc.
    assert (Hcol : df_col d (nth i features ""%string) = Ok (nth i cols [])).
    { clear - Hc Hi. revert i Hi. induction Hc; intros i Hi; simpl in *; [lia|].
      destruct i; auto. apply IHHc. lia. }
    exists (nth i cols []). split; [auto|].
    assert (Li : (i < length cols)%nat).
    { replace (length cols) with (length features); auto. clear - Hc. induction Hc; simpl; auto. }
    assert (Er : nth k (tr (df_n d) cols) [] = map (fun row => nth k row 0) cols).
    { unfold tr. rewrite nth_indep with (d' := (fun j => map (fun row => nth j row 0) cols) 0%nat)
        by (rewrite map_length, seq_length; auto).
      rewrite (map_nth (fun j => map (fun row => nth j row 0) cols)), seq_nth by auto. reflexivity. }
    rewrite Er.
    rewrite nth_indep with (d' := (fun row => nth k row 0) []) by (rewrite map_length; auto).
    rewrite (map_nth (fun row => nth k row 0)). reflexivity.
Qed.
(*@ Two features, the second of which must be included. *)
Lemma ex_must_include_lemma :
  exists pr, linear_from_dataframe {| df_n := 1; df_cols := [("a", [1]); ("b", [2]); ("y", [3])] |}
    ["a"; "b"] "y" (Some ["b"]) None None = Ok pr /\ lp_weights pr = Some [1; 0].
Proof. eexists. split; reflexivity. Qed.

Lemma practical_loop_weights fuel o o' pr w s d rg tol mi x xp it : so_lam o = so_lam o' ->
  practical_loop fuel o pr d rg tol mi x xp it =
  practical_loop fuel o' {| lp_a := lp_a pr; lp_b := lp_b pr; lp_n := lp_n pr; lp_p := lp_p pr;
                            lp_c := lp_c pr; lp_weights := w; lp_obs_std := s |} d rg tol mi x xp it.
Proof.
  intros Ho. revert x xp it. induction fuel as [|fuel IH]; intros x xp it; [reflexivity|].
  simpl. destruct (moved tol x xp); [|reflexivity]. cbn [rbind].
  destruct (a && (Z.of_nat it <? mi)%Z); [|reflexivity].
  destruct (length x =? lp_p pr)%nat; [|reflexivity]. cbn [guard rbind]. rewrite Ho.
  destruct (r_prox rg _ _); [|reflexivity]. cbn [rbind]. apply IH.
Qed.

(*@ C25 (refuted).  fit_problem never looks at these weights, so a must-include feature is
    shrunk like any other: here from 1 to 1/2, although its weight is 0. *)
Lemma must_include_fit_refuted_lemma :
  (forall argsort inv m pr w s x0 warm weights,
     let pr' := {| lp_a := lp_a pr; lp_b := lp_b pr; lp_n := lp_n pr; lp_p := lp_p pr; lp_c := lp_c pr; lp_weights := w; lp_obs_std := s |} in
     linear_fit_problem argsort inv m pr' x0 warm weights =
     linear_fit_problem argsort inv m pr x0 warm weights) /\
  (exists d m pr x lg xw lgw,
     linear_from_dataframe d ["a"] "y" (Some ["a"]) None None = Ok pr /\ lp_weights pr = Some [0] /\
     linear_fit_problem (fun _ => []) inv_one m pr None false None = Ok ([x], lg) /\ x = / 2 /\
     linear_fit_problem (fun _ => []) inv_one m pr None false (lp_weights pr) = Ok ([xw], lgw) /\ xw = 1).
Proof.
  split.
  - intros argsort inv m pr w s x0 warm weights pr'. unfold linear_fit_problem.
    destruct (lm_el m) as [el|].
    + change (lp_p pr') with (lp_p pr). destruct (mk_sr3 el false _) as [o0|e]; [|reflexivity]. cbn [rbind].
      unfold sr3_instantiate. change (h_matrix (so_lam o0) pr') with (h_matrix (so_lam o0) pr).
      change (lp_p pr') with (lp_p pr). destruct (inv (lp_p pr) (h_matrix (so_lam o0) pr)); [|reflexivity].
      cbn [rbind]. change (lp_b pr') with (lp_b pr). change (lp_n pr') with (lp_n pr).
      destruct (length (lp_b pr) =? lp_n pr)%nat; [|reflexivity]. cbn [guard rbind].
      match goal with |- rbind (instantiate ?a ?b ?c) _ = _ => destruct (instantiate a b c) as [r|e]; [|reflexivity] end.
      cbn [rbind]. destruct (mk_logger _) as [lg|e]; [|reflexivity]. cbn [rbind].
      destruct (lm_practical m); [|reflexivity].
      unfold fake_pgd_optimize, sr3_find, sr3_find_count. cbn [so_lam so_problem so_data].
      destruct (guard (nonzero (so_lam o0)) ZeroDivisionError); [|reflexivity]. cbn [rbind].
      match goal with |- context [practical_loop ?f ?o pr ?d ?rg ?tol ?mi ?x ?xp ?it] =>
        match goal with |- context [practical_loop f ?o' pr' _ _ _ _ _ _ _] =>
          rewrite (practical_loop_weights f o o' pr w s d rg tol mi x xp it eq_refl) end end. reflexivity.
    + unfold lin_instantiate. cbn [lo_prior]. destruct (lm_prior m); reflexivity.
  - set (pr := {| lp_a := [[1]]; lp_b := [1]; lp_n := 1; lp_p := 1; lp_c := eye 1; lp_weights := Some [0]; lp_obs_std := None |}).
    set (m := sample_linear None false (mk_l1 10)).
    set (g := vadd (tmv 1 [[1]] (vsub (mv [[1]] [1]) [1])) (zeros 1)).
    set (y := vadd [1] (vscale (5 / 100) (vneg g))).
    assert (Ey : exists y0, y = [y0] /\ y0 = 1).
    { eexists. split; [reflexivity|]. unfold vdot, vmul, vsum; simpl. lra. }
    destruct Ey as [y0 [Ey Ey0]].
    assert (Run : forall w x1, l1_prox 10 (Some w) y (5 / 100) = Ok [x1] ->
      exists lg, linear_fit_problem (fun _ => []) inv_one m pr None false (Some w) = Ok ([x1], lg)).
    { intros w x1 Hx. eexists. unfold linear_fit_problem.
      cbn [m sample_linear lm_el lm_prior lin_instantiate lo_prior rbind lm_reg mk_l1 instantiate lm_keys mk_logger].
      change (ones (lp_p pr)) with [1]. change (effective_step m) with (5 / 100).
      erewrite pgd_one_step with (g := g) (x1 := [x1]); [reflexivity| discriminate | reflexivity | reflexivity | exact Hx | reflexivity]. }
    destruct (Run [1] (/ 2)) as [lg Hlg].
    { rewrite Ey. unfold l1_prox. cbn [length Nat.eqb guard rbind map2]. do 2 f_equal.
      subst y0. unfold soft, clip0, Rmax. rsolve. }
    destruct (Run [0] 1) as [lgw Hlgw].
    { rewrite Ey. unfold l1_prox. cbn [length Nat.eqb guard rbind map2]. do 2 f_equal.
      subst y0. unfold soft, clip0, Rmax. rsolve. }
    exists {| df_n := 1; df_cols := [("a", [1]); ("y", [1])] |}, m, pr, (/ 2), lg, 1, lgw.
    repeat split; auto.
Qed.

Lemma nnz_count_nonzeros x : nnz_count x = nonzeros x.
Proof.
  unfold nnz_count, countb. induction x as [|a x IH]; simpl; auto.
  destruct (Req_EM_T a 0) as [E|E].
  - apply nonzero_false in E. rewrite E. auto.
  - apply nonzero_true in E. rewrite E. simpl. auto.
Qed.

(*@ C26.  The criteria are the least-squares loss plus 2 or log(n) per non-zero coefficient, and the
    SR3 oracle reports the same numbers as the plain oracle on the same data. *)
Lemma linear_information_criteria_lemma :
  (forall pr x, wf_linear pr -> length x = lp_p pr ->
     let o := {| lo_problem := Some pr; lo_prior := PNone |} in
     lin_aic o x = Ok (least_squares pr x + 2 * INR (nonzeros x)) /\
     lin_bic o x = Ok (least_squares pr x + ln (INR (lp_n pr)) * INR (nonzeros x))) /\
  (forall inv o0 pr o x, sr3_instantiate inv o0 pr = Ok o ->
     sr3_aic o x = lin_aic {| lo_problem := Some pr; lo_prior := PNone |} x /\
     sr3_bic o x = lin_bic {| lo_problem := Some pr; lo_prior := PNone |} x).
Proof.
  split.
  - intros pr x Hw Hx o. unfold lin_aic, lin_bic, o. cbn [lo_problem].
    rewrite linear_loss_is_least_squares_lemma by auto. cbn [rbind].
    rewrite nnz_count_nonzeros. auto.
  - intros inv o0 pr o x H. unfold sr3_instantiate in H.
    apply rbind_inv in H as [hi [_ H]]. apply rbind_inv in H as [u [_ H]]. inversion H; subst. auto.
Qed.
(*@ A problem that meets the hypotheses, and a count of non-zero coefficients. *)
Lemma ex_information_criteria_lemma :
  wf_linear (sample_problem 4) /\ nonzeros [3; 0; 1] = 2%nat.
Proof.
  split; [apply sample_wf|]. simpl. destruct (Req_EM_T 3 0); [lra|]. destruct (Req_EM_T 0 0); [|lra].
  destruct (Req_EM_T 1 0); [lra|]. reflexivity.
Qed.

(** C27 *)
Lemma gauss_column_ok params c : match lookup c params with Some (_, s) => 0 <= s | None => True end ->
  exists m s w, gauss_column params c = Ok (m, s, w) /\ 0 < s /\
  (forall xi, w * (1 / (2 * s)) * (xi - m) ^ 2 =
     match lookup c params with
     | Some (m, s) => if Rlt_dec 0 s then (xi - m) ^ 2 / (2 * s) else 0
     | None => 0 end).
Proof.
  intros Hs. unfold gauss_column. destruct (lookup c params) as [[m s]|] eqn:E.
  - assert (E1 : rleb 0 s = true) by (apply rleb_true; auto). rewrite E1. cbn [guard rbind].
    destruct (rltb 0 s) eqn:E2.
    + apply rltb_true in E2. exists m, s, 1. split; [auto|]. split; [auto|]. intros xi.
      destruct (Rlt_dec 0 s); [|lra]. field. lra.
    + apply rltb_false in E2. exists m, 1, 0. split; [auto|]. split; [lra|]. intros xi.
      destruct (Rlt_dec 0 s); [lra|]. ring.
  - assert (E1 : rleb 0 0 = true) by (apply rleb_true; lra). rewrite E1. cbn [guard rbind].
    assert (E2 : rltb 0 0 = false) by (apply rltb_false; lra). rewrite E2.
    exists 0, 1, 0. split; [auto|]. split; [lra|]. intros; ring.
Qed.

Lemma gauss_instantiate_loss params columns : 
  Forall (fun c => match lookup c params with Some (_, s) => 0 <= s | None => True end) columns ->
  exists cols, sequence (map (gauss_column params) columns) = Ok cols /\ length cols = length columns /\
  forall x, length x = length columns ->
    vsum (vmul (vmul (map snd cols) (map (fun s => 1 / (2 * s)) (map (fun c => snd (fst c)) cols)))
               (map (fun d => d ^ 2) (vsub x (map (fun c => fst (fst c)) cols)))) =
    gauss_energy_coded params columns x.
Proof.
  induction columns as [|c cs IH]; intros H.
  - exists []. split; [reflexivity|]. split; [reflexivity|]. intros [|]; [reflexivity|discriminate].
  - inversion H; subst. destruct (IH H3) as [cols [E1 [E2 E3]]].
    destruct (gauss_column_ok params c H2) as [m [s [w [F1 [F2 F3]]]]].
    exists ((m, s, w) :: cols). cbn [map sequence]. rewrite F1. cbn [rbind]. rewrite E1. cbn [rbind].
    split; [reflexivity|]. split; [simpl; auto|]. intros [|x0 x] Hx; [discriminate|]. injection Hx as Hx.
    specialize (E3 x Hx). unfold vmul, vsub in *. cbn [map map2 fst snd gauss_energy_coded].
    rewrite <- E3. specialize (F3 x0). unfold vsum. cbn [fold_right]. rewrite <- F3. ring.
Qed.

Lemma has_key_fst_lookup (c : string) (params : prior_params) :
  lookup c params <> None <-> has_key c (map fst params) = true.
Proof.
  induction params as [|[k v] params IH]; simpl; [split; congruence|].
  destruct (String.eqb c k); simpl; [split; congruence|auto].
Qed.

(*@ C27 (partial).  A parameter dictionary is accepted exactly when all its names are columns and all its
    standard deviations are non-negative; the accepted prior then contributes
    sum (x - mean)^2 / (2 std) over the parameters with std > 0 and nothing for the others. *)
Lemma gauss_prior_partial_lemma :
  forall params columns,
  (Forall (fun kv => In (fst kv) columns) params /\
   Forall (fun c => match lookup c params with Some (_, s) => 0 <= s | None => True end) columns ->
   exists g, gauss_instantiate (mk_gauss params) columns = Ok g /\
     forall x, length x = length columns -> gauss_loss g x = Ok (gauss_energy_coded params columns x)) /\
  (~ (Forall (fun kv => In (fst kv) columns) params /\
      Forall (fun c => match lookup c params with Some (_, s) => 0 <= s | None => True end) columns) ->
   gauss_instantiate (mk_gauss params) columns = Err AssertionError).
Proof.
  intros params columns. split.
  - intros [H1 H2]. unfold gauss_instantiate, mk_gauss. cbn [gp_params].
    assert (F : forallb (fun kv : string * (R * R) => has_key (fst kv) columns) params = true).
    { apply forallb_forall. intros kv Hin. rewrite Forall_forall in H1. apply has_key_In. auto. }
    rewrite F. cbn [guard rbind].
    destruct (gauss_instantiate_loss params columns H2) as [cols [E1 [E2 E3]]]. rewrite E1. cbn [rbind].
    eexists. split; [reflexivity|]. intros x Hx. unfold gauss_loss, gauss_match. cbn [gp_inst].
    rewrite map_length, E2, Hx, Nat.eqb_refl. cbn [guard rbind]. f_equal. auto.
  - intros N. unfold gauss_instantiate, mk_gauss. cbn [gp_params].
    destruct (forallb (fun kv : string * (R * R) => has_key (fst kv) columns) params) eqn:F; [|reflexivity].
    cbn [guard rbind]. destruct (sequence (map (gauss_column params) columns)) as [cols|e] eqn:E; cbn [rbind].
    + exfalso. apply N. split.
      * apply Forall_forall. intros kv Hin. rewrite forallb_forall in F. apply has_key_In. auto.
      * apply sequence_Forall2 in E. clear - E. induction E; constructor; auto.
        unfold gauss_column in H. destruct (lookup x params) as [[m s]|]; auto.
        apply rbind_inv in H as [u [G _]]. apply guard_inv in G. apply rleb_true in G. auto.
    + apply sequence_err in E as [c [_ E]]. unfold gauss_column in E.
      destruct (match lookup c params with Some ms => ms | None => (0, 0) end) as [m s].
      destruct (rleb 0 s); simpl in E; congruence.
Qed.

(*@ C27 (partial).  The gradient and hessian are the exact derivatives of this loss, for every
    accepted dictionary; in particular they agree with the documented density when all std are 1. *)
Lemma gauss_prior_derivatives_partial_lemma :
  forall g0 columns g x d, gauss_instantiate g0 columns = Ok g ->
  length x = length columns -> length d = length columns ->
  exists l l' gr h, gauss_loss g x = Ok l /\ gauss_loss g (vadd x d) = Ok l' /\
    gauss_gradient g x = Ok gr /\ gauss_hessian g = Ok h /\
    l' = l + vdot gr d + / 2 * vdot d (mv h d).
Proof.
  intros g0 columns g x d H Hx Hd. pose proof (gauss_instantiate_ready _ _ _ H) as Rd.
  destruct (prior_expand (PGauss g) (length columns) x d Rd Hx Hd) as [l [l' [gr [h [A [B [C [D [_ [_ E]]]]]]]]]].
  exists l, l', gr, h.
  destruct (gauss_same g _ x Rd Hx) as [E1 E2].
  destruct (gauss_same g _ (vadd x d) Rd) as [E3 _]; [apply vadd_len; auto|].
  rewrite <- E1, <- E2, <- E3. auto.
Qed.
(*@ A dictionary for one of two columns, and its contribution. *)
Lemma ex_gauss_prior_lemma :
  Forall (fun kv : string * (R * R) => In (fst kv) ["a"; "b"]) [("b", (1, 2))] /\
  Forall (fun c => match lookup c [("b", (1, 2))] with Some (_, s) => 0 <= s | None => True end) ["a"; "b"] /\
  gauss_energy_coded [("b", (1, 2))] ["a"; "b"] [7; 3] = 1.
Proof.
  split; [|split].
  - constructor; [right; left; reflexivity|constructor].
  - constructor; [exact I|]. constructor; [simpl; lra|constructor].
  - simpl. destruct (Rlt_dec 0 2); lra.
Qed.

(*@ C27 (refuted).  The coded contribution divides by std, not by std^2: with std = 2 it is twice the
    Gaussian negative log-density; both agree for std = 1. *)
Lemma gauss_prior_density_refuted_lemma :
  (exists params columns x g v, gauss_instantiate (mk_gauss params) columns = Ok g /\
     gauss_loss g x = Ok v /\ v <> gauss_energy params columns x) /\
  (forall params columns x,
     Forall (fun c => match lookup c params with Some (_, s) => s <= 0 \/ s = 1 | None => True end) columns ->
     gauss_energy_coded params columns x = gauss_energy params columns x).
Proof.
  split.
  - destruct (gauss_prior_partial_lemma [("a", (0, 2))] ["a"]) as [P _].
    destruct P as [g [G1 G2]].
    { split; (constructor; [|constructor]); [left; reflexivity|simpl; lra]. }
    exists [("a", (0, 2))], ["a"], [1], g, (gauss_energy_coded [("a", (0, 2))] ["a"] [1]).
    split; [auto|]. split; [apply G2; reflexivity|]. simpl. destruct (Rlt_dec 0 2); lra.
  - intros params columns. induction columns as [|c cs IH]; intros [|x0 x] H; simpl; auto.
    inversion H; subst. rewrite IH by auto. f_equal.
    destruct (lookup c params) as [[m s]|]; auto. destruct (Rlt_dec 0 s); auto.
    destruct H2 as [H2| ->]; [lra|]. field.
Qed.

(*@ C28 (partial).  GaussianPrior: whatever happened before, instantiate does what it does on a fresh
    object with the same parameters, and forget goes back to the fresh object. *)
Lemma gauss_prior_history_partial_lemma :
  forall params ops,
  let g := live gauss_op (mk_gauss params) ops in
  gauss_forget g = mk_gauss params /\
  forall columns, gauss_instantiate g columns = gauss_instantiate (mk_gauss params) columns.
Proof.
  intros params ops g.
  assert (E : gp_params g = params).
  { unfold g. assert (G : forall g0, gp_params (live gauss_op g0 ops) = gp_params g0).
    { induction ops as [|op ops IH]; intros g0; simpl; auto. rewrite IH. clear.
      destruct (gauss_op g0 op) as [g1|] eqn:E; auto. destruct op as [cols|]; simpl in E.
      - unfold gauss_instantiate in E. apply rbind_inv in E as [u [_ E]]. apply rbind_inv in E as [l [_ E]].
        inversion E; auto.
      - inversion E; auto. }
    rewrite G. reflexivity. }
  split.
  - unfold gauss_forget, mk_gauss. rewrite E. reflexivity.
  - intros columns. unfold gauss_instantiate. rewrite E. reflexivity.
Qed.

(*@ C28 (partial).  GaussianPriorLME: as long as forget has not been called, instantiate does what it does on a
    fresh object. *)
Lemma gauss_lme_history_partial_lemma :
  forall fe re ops fcols rcols, ~ In LForget ops ->
  gauss_lme_instantiate (live gauss_lme_do (mk_gauss_lme fe re) ops) fcols rcols =
  gauss_lme_instantiate (mk_gauss_lme fe re) fcols rcols.
Proof.
  intros fe re ops fcols rcols Hn.
  assert (E : forall g0, gl_fe g0 = Some fe -> gl_re g0 = Some re -> gp_params (gl_beta g0) = fe ->
     gp_params (gl_gamma g0) = re ->
     let g := live gauss_lme_do g0 ops in
     gl_fe g = Some fe /\ gl_re g = Some re /\ gp_params (gl_beta g) = fe /\ gp_params (gl_gamma g) = re).
  { induction ops as [|op ops IH]; intros g0 A B C D; simpl; auto.
    assert (Hn' : ~ In LForget ops) by (intros H; apply Hn; right; auto).
    destruct (gauss_lme_do g0 op) as [g1|] eqn:Eo; [|apply IH; auto].
    destruct op as [f r|]; [|exfalso; apply Hn; left; auto]. simpl in Eo.
    unfold gauss_lme_instantiate in Eo. destruct f as [[|c f]|]; try discriminate.
    destruct r as [[|d r]|]; try discriminate. rewrite A in Eo.
    apply rbind_inv in Eo as [u [_ Eo]]. apply rbind_inv in Eo as [b [Hb Eo]].
    apply rbind_inv in Eo as [r' [Hr Eo]]. inversion Eo; subst g1. clear Eo.
    unfold gauss_instantiate in Hb, Hr. apply rbind_inv in Hb as [u1 [_ Hb]]. apply rbind_inv in Hb as [l [_ Hb]].
    apply rbind_inv in Hr as [u2 [_ Hr]]. apply rbind_inv in Hr as [l2 [_ Hr]].
    inversion Hb; subst b. inversion Hr; subst r'. apply IH; auto. }
  destruct (E (mk_gauss_lme fe re)) as [A [B [C D]]]; auto.
  unfold gauss_lme_instantiate. rewrite A. cbn [mk_gauss_lme gl_fe gl_beta gl_gamma].
  unfold gauss_instantiate. rewrite B, C, D. reflexivity.
Qed.
(*@ A GaussianPriorLME that can be instantiated. *)
Lemma ex_gauss_lme_lemma :
  exists g, gauss_lme_instantiate (mk_gauss_lme [("a", (0, 1))] []) (Some ["a"]) (Some ["a"]) = Ok g.
Proof.
  assert (E1 : rleb 0 1 = true) by (apply rleb_true; lra).
  assert (E3 : rleb 0 0 = true) by (apply rleb_true; lra).
  unfold gauss_lme_instantiate, gauss_instantiate, gauss_column. simpl. rewrite E1, E3. simpl.
  eexists. reflexivity.
Qed.

(*@ C28 (refuted).  After forget, a GaussianPriorLME can never be instantiated again; and a Gaussian prior
    cannot be used with any linear model: instantiating the oracle is a TypeError, or an
    AssertionError for SR3. *)
Lemma priors_reinstantiate_refuted_lemma :
  (forall g c fcols d rcols,
     gauss_lme_instantiate (gauss_lme_forget g) (Some (c :: fcols)) (Some (d :: rcols)) = Err AttributeError) /\
  (forall g pr pr0, lin_instantiate {| lo_problem := pr0; lo_prior := PGauss g |} pr = Err TypeError) /\
  (forall argsort inv m pr x0 warm weights g r, lm_prior m = PGauss g ->
     linear_fit_problem argsort inv m pr x0 warm weights <> Ok r).
Proof.
  split; [|split].
  - reflexivity.
  - reflexivity.
  - intros argsort inv m pr x0 warm weights g r Hp H. unfold linear_fit_problem in H. rewrite Hp in H.
    destruct (lm_el m); simpl in H; discriminate.
Qed.

(*@ C67.  predict is the data matrix times the fitted coefficients, row by row; it fails before fit, for
    an empty table and for another number of columns than in training, and never otherwise. *)
Lemma linear_predict_exact_lemma :
  forall x p, linear_predict None x p = Err NotFittedError /\
  forall coef,
    linear_predict (Some coef) x p =
      if (length x =? 0)%nat || (p =? 0)%nat then Err ValueError
      else if (p =? length coef)%nat then Ok (map (fun row => vdot row coef) x) else Err AssertionError.
Proof.
  intros x p. split; [reflexivity|]. intros coef. unfold linear_predict.
  destruct (length x =? 0)%nat; [reflexivity|]. destruct (p =? 0)%nat; [reflexivity|].
  cbn. destruct (p =? length coef)%nat; reflexivity.
Qed.
(*@ Two predictions. *)
Lemma ex_linear_predict_lemma : linear_predict (Some [2; 3]) [[1; 10]; [1; 20]] 2 = Ok [32; 62].
Proof.
  cbn. apply f_equal. apply f_equal2; [|apply f_equal2; [|reflexivity]]; unfold vdot, vmul, vsum; simpl; lra.
Qed.

(*@ C68.  A generated linear problem is linear: targets minus scaled noise are the data times the true
    coefficients, the first column is the intercept, and to_x_y gives data and targets back. *)
Lemma linear_generate_is_linear_lemma :
  forall p a0 x s noise pr, wf_mat p a0 -> length noise = length a0 ->
  linear_generate p a0 x s noise = Ok pr ->
  let '(a, b) := linear_to_x_y pr in
  vsub b (vscale s noise) = mv a x /\ length b = length a0 /\ is_shape (length a0) p a /\
  Forall (fun row => exists rest, row = 1 :: rest) a /\
  lp_n pr = length a0 /\ lp_p pr = p /\ lp_weights pr = Some (ones p) /\ lp_c pr = eye p.
Proof.
  intros p a0 x s noise pr W HL H. unfold linear_generate in H. apply rbind_inv in H as [u [Hu H]].
  apply guard_inv in Hu. apply rbind_inv in H as [u' [_ H]]. cbn in H. apply Ok_inj in H. subst pr.
  cbn [linear_to_x_y lp_a lp_b lp_n lp_p lp_weights lp_c].
  set (a := map (fun row : list R => 1 :: tl row) a0).
  assert (La : length a = length a0) by apply map_length.
  assert (Ln : length (mv a x) = length (vscale s noise)) by (rewrite mv_length, vscale_length; congruence).
  split; [|split; [|split; [|split; [|auto]]]].
  - clear - Ln. revert Ln. generalize (mv a x) (vscale s noise). intros u v. revert v.
    induction u as [|b u IH]; intros [|c v] H; try discriminate; [reflexivity|].
    cbn [vadd vsub map2]. apply f_equal2; [lra|]. apply IH. simpl in H. lia.
  - rewrite vadd_length by auto. rewrite vscale_length. auto.
  - split; [auto|]. unfold a, wf_mat in *. rewrite Forall_map. eapply Forall_impl; [|exact W].
    simpl. intros row Hr. destruct row as [|r row]; simpl in *; [|auto]. subst p. discriminate Hu.
  - unfold a. rewrite Forall_map. apply Forall_forall. eauto.
Qed.
(*@ A generated problem with two objects. *)
Lemma ex_linear_generate_lemma : exists pr, linear_generate 2 [[7; 1]; [8; 2]] [1; 1] (1/2) [1; 1] = Ok pr.
Proof. eexists. reflexivity. Qed.
