(** Final lemmas about the speed of convergence, restated as theorems in
    Properties/LinearRate.v. *)
(*HEAD
(** Properties C78-C79: how close the solver's answer is to the best one, for the solver
    (src/pysr3/solvers.py) on any convex problem and for the linear L1 models
    (src/pysr3/linear). *)
From Verif.Base Require Import Py Vec Mat.
From Verif.Model Require Import Regularizers Linear.
From Verif.Spec Require Import ProxSpec SolverSpec LinearSpec RateSpec.
HEAD*)
(*OPEN
Open Scope string_scope.
Open Scope list_scope.
Open Scope R_scope.
OPEN*)
From Coq Require Import Lra Psatz.
From Verif.Base Require Import Py Vec Mat.
From Verif.Model Require Import Regularizers Linear.
From Verif.Spec Require Import ProxSpec RegSpec SolverSpec LinearSpec RateSpec.
From Verif.Proofs Require Import VecFacts L0Proofs RegularizerProofs RegularizersMain MatFacts ScalarProx SolverProofs SolversMain LinearProofs LinearMain RateProofs.
Open Scope string_scope.
Open Scope list_scope.
Open Scope R_scope.

(*@ C78.  After n iterations the objective exceeds its value at any competitor u by at most
    |x0 - u|^2 / (2 sm n), where no step is shorter than sm. *)
Lemma pgd_convex_rate_lemma :
  forall S (orc : oracle S) rg slv f g dom pen p L sm x0 s lg x lg' s',
  value_is orc f -> grad_is orc g -> convex_smooth p L f g -> 0 <= L ->
  exact_for rg dom pen -> convex_on dom pen -> safe_steps slv L sm -> length x0 = p ->
  pgd_optimize orc rg slv x0 s lg = Ok (x, lg', s') ->
  exists n, get lg' "iteration" = Ok (LAtom (LNum (INR n))) /\
    ((0 < n)%nat -> near_best p dom (fun z => f z + pen z) x (fun u => sqnorm (vsub x0 u) / (2 * sm * INR n))).
Proof.
  intros S orc rg slv f g dom pen p L sm x0 s lg x lg' s' H1 H2 H3 H4 H5 H6 H7 H8 H.
  destruct (optimize_rate orc rg slv f g dom pen p L sm H1 H2 H3 H4 H5 H6 H7 _ _ _ _ _ _ H8 H) as [n [b [A [_ [_ [_ [B _]]]]]]].
  exists n. auto.
Qed.

(*@ C79.  If 'converged' is True, the objective exceeds its value at any competitor u by at most
    (tol / sm) (|x - u| + tol / 2). *)
Lemma pgd_converged_near_optimal_lemma :
  forall S (orc : oracle S) rg slv f g dom pen p L sm x0 s lg x lg' s',
  value_is orc f -> grad_is orc g -> convex_smooth p L f g -> 0 <= L ->
  exact_for rg dom pen -> convex_on dom pen -> safe_steps slv L sm -> length x0 = p ->
  pgd_optimize orc rg slv x0 s lg = Ok (x, lg', s') ->
  get lg' "converged" = Ok (LAtom (LBool true)) ->
  near_best p dom (fun z => f z + pen z) x (fun u => s_tol slv / sm * (norm (vsub x u) + s_tol slv / 2)).
Proof.
  intros S orc rg slv f g dom pen p L sm x0 s lg x lg' s' H1 H2 H3 H4 H5 H6 H7 H8 H Hc.
  destruct (optimize_rate orc rg slv f g dom pen p L sm H1 H2 H3 H4 H5 H6 H7 _ _ _ _ _ _ H8 H) as [n [b [_ [A [_ [_ [_ B]]]]]]].
  apply B. congruence.
Qed.

Lemma free_exact : exact_for free_reg all_vecs (fun _ => 0).
Proof.
  intros y t z Ht E. cbn in E. injection E as <-. split; [auto|]. split; [exact I|]. intros z' L _.
  unfold prox_cost. rewrite vsub_self, sqnorm_zeros. pose proof (sqnorm_nonneg (vsub z' y)). lra.
Qed.
Lemma quad_smooth p : convex_smooth p 1 (fun x => / 2 * sqnorm x) (fun x => x).
Proof.
  intros x Lx. split; [auto|]. intros z Lz.
  assert (E : / 2 * sqnorm z = / 2 * sqnorm x + vdot x (vsub z x) + / 2 * sqnorm (vsub z x)).
  { rewrite sqnorm_vsub, vdot_vsub_r, (vdot_comm z x) by congruence. unfold sqnorm. lra. }
  pose proof (sqnorm_nonneg (vsub z x)). rewrite E. lra.
Qed.
(*@ The hypotheses hold for x.x/2 without a penalty, with the fixed step 1 and with the line
    search from 1; and a run on it converges. *)
Lemma ex_pgd_convex_rate_lemma :
  value_is quad_oracle (fun x => / 2 * sqnorm x) /\ grad_is quad_oracle (fun x => x) /\
  convex_smooth 1 1 (fun x => / 2 * sqnorm x) (fun x => x) /\
  exact_for free_reg all_vecs (fun _ => 0) /\ convex_on all_vecs (fun _ => 0) /\
  safe_steps (sample_solver "fixed" 2) 1 1 /\ safe_steps (sample_solver "line-search" 2) 1 (/ 2) /\
  exists lg' s', pgd_optimize quad_oracle free_reg (sample_solver "fixed" 2) [1] tt
    {| lg_kind := KTuple; lg_keys := []; lg_dict := [] |} = Ok ([1 + 1 * -1], lg', s') /\
  get lg' "converged" = Ok (LAtom (LBool true)) /\ get lg' "iteration" = Ok (LAtom (LNum 1)).
Proof.
  split. { intros s x r s' E. cbn in E. congruence. }
  split. { intros s x r s' E. cbn in E. congruence. }
  split; [apply quad_smooth|]. split; [apply free_exact|].
  split. { intros x z t _ _ _ _. split; [exact I|lra]. }
  split. { unfold safe_steps. change (s_step_len (sample_solver "fixed" 2)) with 1.
           change (s_stepping (sample_solver "fixed" 2) =? "line-search")%string with false. lra. }
  split. { unfold safe_steps. change (s_step_len (sample_solver "line-search" 2)) with 1.
           change (s_stepping (sample_solver "line-search" 2) =? "line-search")%string with true.
           unfold ls_threshold. lra. }
  exact ex_pgd_converged_flag_lemma.
Qed.

(** ** the linear L1 models *)
Lemma l1_exact argsort lam w : 0 <= lam -> Forall (fun wi => 0 <= wi) w ->
  exact_for (as_regularizer argsort (RL1 lam (Some w))) all_vecs (fun z => lam * weighted_l1 w z).
Proof.
  intros Hl Hwn y t z Ht E. change (l1_prox lam (Some w) y t = Ok z) in E. pose proof E as E0.
  assert (Ly : length w = length y).
  { clear E0. unfold l1_prox in E. apply rbind_inv in E as [u [G _]]. apply guard_inv in G. apply Nat.eqb_eq in G. auto. }
  destruct (l1_prox_unique lam w y t) as [z' [E' U]]; auto; [lra|].
  assert (Ez : z' = z) by (apply Ok_inj; etransitivity; [symmetry; exact E' | exact E0]).
  subst z'. apply unique_is_prox. auto.
Qed.

Lemma get_add lg k v lg' k' : add lg k v = Ok lg' -> k' <> k -> get lg' k' = get lg k'.
Proof.
  intros H N. destruct (add_lookup _ _ _ _ H) as [L _]. unfold get. rewrite L.
  destruct (String.eqb_spec k' k); [contradiction|auto].
Qed.
Lemma fit_logger argsort inv m pr x0 ws weights x lg :
  linear_fit_problem argsort inv m pr x0 ws weights = Ok (x, lg) ->
  exists run aic bic r lg0 lg1 s,
    (match lm_el m with
     | None =>
         let! o := lin_instantiate {| lo_problem := None; lo_prior := lm_prior m |} pr in
         Ok ((fun rg lg => pgd_optimize (lin_as_oracle o) rg
                {| s_tol := lm_tol m; s_max_iter := lm_max_iter m; s_stepping := lm_stepping m; s_step_len := effective_step m |}
                (if ws then match x0 with Some x => x | None => ones (lp_p pr) end else ones (lp_p pr)) tt lg), lin_aic o, lin_bic o)
     | Some el =>
         let! o0 := mk_sr3 el false (match lm_prior m with PNone => false | PGauss _ => true end) in
         let! o := sr3_instantiate inv o0 pr in
         Ok ((fun rg lg =>
                if lm_practical m
                then fake_pgd_optimize (sr3_as_oracle o) rg
                       (fun s x lg => let! x' := sr3_find o rg (lm_tol m) (lm_max_iter m) x in Ok (x', lg, s))
                       (if ws then match x0 with Some x => x | None => ones (lp_p pr) end else ones (lp_p pr)) tt lg
                else pgd_optimize (sr3_as_oracle o) rg
                {| s_tol := lm_tol m; s_max_iter := lm_max_iter m; s_stepping := lm_stepping m; s_step_len := effective_step m |}
                (if ws then match x0 with Some x => x | None => ones (lp_p pr) end else ones (lp_p pr)) tt lg),
             sr3_aic o, sr3_bic o)
     end) = Ok (run, aic, bic) /\
    instantiate (lm_reg m) (match weights with Some w => w | None => ones (lp_p pr) end) None = Ok r /\
    mk_logger (Some (lm_keys m)) = Ok lg0 /\
    run (as_regularizer argsort r) lg0 = Ok (x, lg1, s) /\
    (forall k, k <> "aic" -> k <> "bic" -> get lg k = get lg1 k) /\
    (has_key "aic" (lg_keys lg1) = true -> exists v, aic x = Ok v /\ get lg "aic" = Ok (LAtom (LNum v))) /\
    (has_key "bic" (lg_keys lg1) = true -> exists v, bic x = Ok v /\ get lg "bic" = Ok (LAtom (LNum v))).
Proof.
  intros H. unfold linear_fit_problem in H.
  apply rbind_inv in H as [[[run aic] bic] [H0 H]].
  apply rbind_inv in H as [r [Hr H]]. apply rbind_inv in H as [lg0 [Hl H]].
  apply rbind_inv in H as [[[x' lg1] s] [Hp H]].
  apply rbind_inv in H as [lg2 [Ha H]]. apply rbind_inv in H as [lg3 [Hb H]]. inversion H; subst.
  exists run, aic, bic, r, lg0, lg1, s. split; [exact H0|]. do 3 (split; [auto|]).
  assert (Ea : (forall k, k <> "aic" -> get lg2 k = get lg1 k) /\
    (has_key "aic" (lg_keys lg1) = true -> exists v, aic x = Ok v /\ get lg2 "aic" = Ok (LAtom (LNum v))) /\
    (has_key "bic" (lg_keys lg1) = true -> has_key "bic" (lg_keys lg2) = true)).
  { destruct (has_key "aic" (lg_keys lg1)) eqn:K.
    - apply rbind_inv in Ha as [v [Hv Ha]]. split; [intros; eapply get_add; eauto|].
      destruct (add_lookup _ _ _ _ Ha) as [L [_ Ek]]. rewrite K in Ek. rewrite Ek. split; auto.
      intros _. exists v. split; auto. unfold get. rewrite L. reflexivity.
    - inversion Ha; subst. split; auto. split; auto. congruence. }
  destruct Ea as [A1 [A2 A3]].
  destruct (has_key "bic" (lg_keys lg2)) eqn:K.
  - apply rbind_inv in Hb as [v [Hv Hb]].
    destruct (add_lookup _ _ _ _ Hb) as [L _].
    split; [intros k N1 N2; rewrite (get_add _ _ _ _ _ Hb N2); auto|]. split.
    + intros E. destruct (A2 E) as [v1 [V1 V2]]. exists v1. split; auto.
      rewrite (get_add _ _ _ _ _ Hb); auto. discriminate.
    + intros _. exists v. split; auto. unfold get. rewrite L. reflexivity.
  - inversion Hb; subst. split; [auto|]. split; [auto|]. intros E. specialize (A3 E). congruence.
Qed.

(*@ C78, C79.  The linear L1 model: 1/2 |a z - b|^2 + lam sum w|z| at the fitted coefficients is within
    |start - u|^2 / (2 sm n) of its value at any u, and, when 'converged' is True, within
    (tol / sm) (|x - u| + tol / 2); the squared Frobenius norm of the data bounds the curvature. *)
Lemma linear_l1_fit_near_best_lemma :
  forall argsort inv m pr x0 (warm : bool) weights x lg lam sm,
  wf_linear pr -> lm_el m = None -> lm_reg m = mk_l1 lam -> 0 <= lam ->
  let w := match weights with Some w => w | None => ones (lp_p pr) end in
  Forall (fun wi => 0 <= wi) w ->
  let start := if warm then match x0 with Some x => x | None => ones (lp_p pr) end else ones (lp_p pr) in
  length start = lp_p pr ->
  safe_steps {| s_tol := lm_tol m; s_max_iter := lm_max_iter m; s_stepping := lm_stepping m; s_step_len := effective_step m |}
    (frob (lp_a pr)) sm ->
  linear_fit_problem argsort inv m pr x0 warm weights = Ok (x, lg) ->
  let F := fun z => least_squares pr z + lam * weighted_l1 w z in
  exists n b, get lg "iteration" = Ok (LAtom (LNum (INR n))) /\ get lg "converged" = Ok (LAtom (LBool b)) /\
    ((0 < n)%nat -> near_best (lp_p pr) all_vecs F x (fun u => sqnorm (vsub start u) / (2 * sm * INR n))) /\
    (b = true -> near_best (lp_p pr) all_vecs F x (fun u => lm_tol m / sm * (norm (vsub x u) + lm_tol m / 2))).
Proof.
  intros argsort inv m pr x0 warm weights x lg lam sm Hw Hel Hr Hl w Hwn start Ls Hst H F.
  destruct (fit_logger _ _ _ _ _ _ _ _ _ H) as [run [aic [bic [r [lg0 [lg1 [s [H0 [Hi [_ [Hp [Hk _]]]]]]]]]]]].
  rewrite Hel in H0. apply rbind_inv in H0 as [o [Ho H0]]. unfold lin_instantiate in Ho. simpl in Ho.
  destruct (lm_prior m); [|discriminate]. injection Ho as <-. apply Ok_inj in H0. injection H0 as <- <- <-.
  fold start in Hp. rewrite Hr in Hi. simpl in Hi. injection Hi as <-. fold w in Hp.
  set (o := {| lo_problem := Some pr; lo_prior := PNone |}) in *.
  destruct (optimize_rate _ _ _ (least_squares pr) (ls_grad pr) all_vecs (fun z => lam * weighted_l1 w z)
    (lp_p pr) (frob (lp_a pr)) sm (lin_value_is o pr eq_refl eq_refl) (lin_grad_is o pr Hw eq_refl eq_refl)
    (ls_convex_smooth pr Hw) (frob_nonneg _) (l1_exact argsort lam w Hl Hwn) (weighted_l1_convex lam w Hl Hwn)
    Hst start tt lg0 x lg1 s Ls Hp) as [n [b [A [B [_ [_ [C D]]]]]]].
  exists n, b. rewrite !Hk by discriminate. auto.
Qed.

(** ** SR3 *)
Lemma sr3_convex_smooth inv o0 pr o : inv_ok inv -> wf_linear pr -> symmetric (lp_p pr) (lp_c pr) ->
  0 <= so_lam o0 -> so_practical o0 = false -> sr3_instantiate inv o0 pr = Ok o ->
  exists f g xs, value_is (sr3_as_oracle o) f /\ grad_is (sr3_as_oracle o) g /\
    convex_smooth (lp_p pr) (so_lam o0) f g /\
    (forall w, length w = lp_p pr -> length (xs w) = lp_p pr /\ f w = relaxed_loss (so_lam o0) pr (xs w) w) /\
    (forall w z, length w = lp_p pr -> length z = lp_p pr -> f w <= relaxed_loss (so_lam o0) pr z w).
Proof.
  intros Hi Hw Hs Hl Hp H.
  destruct (sr3_instantiate_inv _ _ _ _ Hi Hw H) as [hi [S1 [S2 [_ [E1 [E2 [E3 E4]]]]]]].
  destruct (sr3_value_is inv o0 pr o Hi Hw Hs Hl Hp H) as [f [g [V [G [Lg [Ev _]]]]]].
  rewrite Hp in *.
  assert (Ev' : forall x, length x = lp_p pr -> f x = vfun pr (so_lam o0) hi x /\ g x = vgrad pr (so_lam o0) hi x).
  { intros x Lx. destruct (sr3_eval o pr _ hi x E2 E3 E4 Lx) as [V1 G1].
    rewrite value_is_relaxed in V1 by auto. rewrite gradient_is in G1 by auto.
    destruct (Ev x Lx) as [V2 G2]. unfold vfun, vgrad. split; congruence. }
  exists f, g, (xstar pr (so_lam o0) hi). split; [auto|]. split; [auto|]. split; [|split].
  - intros x Lx. split; [auto|]. intros z Lz.
    pose proof (value_expand pr (so_lam o0) hi Hw Hs Hl S1 S2 x (vsub z x) Lx (vsub_len _ _ _ Lz Lx)) as E.
    rewrite (vadd_vsub (lp_p pr)) in E by auto.
    destruct (Ev' x Lx) as [-> ->]. destruct (Ev' z Lz) as [-> _]. rewrite E.
    pose proof (F_norm_le pr (so_lam o0) hi Hw Hs Hl S1 S2 (vsub z x) (vsub_len _ _ _ Lz Lx)).
    pose proof (sqnorm_nonneg (mv (f_matrix (so_lam o0) pr hi) (vsub z x))). lra.
  - intros w Lw. split; [apply xstar_len; auto|]. apply Ev'; auto.
  - intros w z Lw Lz. destruct (Ev' w Lw) as [-> _]. unfold vfun.
    rewrite (relaxed_min pr (so_lam o0) hi Hw Hs S1 S2 w z) by auto.
    pose proof (sqnorm_nonneg (mv (lp_a pr) (vsub z (xstar pr (so_lam o0) hi w)))).
    pose proof (sqnorm_nonneg (mv (lp_c pr) (vsub z (xstar pr (so_lam o0) hi w)))).
    assert (0 <= so_lam o0 / 2 * sqnorm (mv (lp_c pr) (vsub z (xstar pr (so_lam o0) hi w))))
      by (apply Rmult_le_pos; lra). lra.
Qed.

(*@ C78, C79.  The SR3 linear L1 model: together with its best x the fitted w is within the same errors of
    every pair (z, u) for 1/2 |a z - b|^2 + el/2 |c z - u|^2 + lam sum w|u|; el bounds the curvature. *)
Lemma sr3_l1_fit_near_best_lemma :
  forall argsort inv m pr x0 (warm : bool) weights x lg lam el sm,
  inv_ok inv -> wf_linear pr -> symmetric (lp_p pr) (lp_c pr) ->
  lm_el m = Some el -> 0 <= el -> lm_practical m = false -> lm_reg m = mk_l1 lam -> 0 <= lam ->
  let w := match weights with Some w => w | None => ones (lp_p pr) end in
  Forall (fun wi => 0 <= wi) w ->
  let start := if warm then match x0 with Some x => x | None => ones (lp_p pr) end else ones (lp_p pr) in
  length start = lp_p pr ->
  safe_steps {| s_tol := lm_tol m; s_max_iter := lm_max_iter m; s_stepping := lm_stepping m; s_step_len := effective_step m |}
    el sm ->
  linear_fit_problem argsort inv m pr x0 warm weights = Ok (x, lg) ->
  let F := fun z u => relaxed_loss el pr z u + lam * weighted_l1 w u in
  exists best n b, length best = lp_p pr /\
    get lg "iteration" = Ok (LAtom (LNum (INR n))) /\ get lg "converged" = Ok (LAtom (LBool b)) /\
    ((0 < n)%nat -> forall z, length z = lp_p pr ->
       forall u, length u = lp_p pr -> F best x <= F z u + sqnorm (vsub start u) / (2 * sm * INR n)) /\
    (b = true -> forall z, length z = lp_p pr ->
       forall u, length u = lp_p pr -> F best x <= F z u + lm_tol m / sm * (norm (vsub x u) + lm_tol m / 2)).
Proof.
  intros argsort inv m pr x0 warm weights x lg lam el sm Hinv Hw Hsym Hel Hel0 Hpr Hr Hl w Hwn start Ls Hst H F.
  destruct (fit_logger _ _ _ _ _ _ _ _ _ H) as [run [aic [bic [r [lg0 [lg1 [s [H0 [Hi [_ [Hp [Hk _]]]]]]]]]]]].
  rewrite Hel in H0. apply rbind_inv in H0 as [o0 [Ho0 H0]]. apply rbind_inv in H0 as [o [Ho H0]].
  unfold mk_sr3 in Ho0. apply rbind_inv in Ho0 as [u0 [_ Ho0]]. injection Ho0 as <-.
  apply Ok_inj in H0. injection H0 as <- <- <-. rewrite Hpr in Hp.
  fold start in Hp. rewrite Hr in Hi. simpl in Hi. injection Hi as <-. fold w in Hp.
  destruct (sr3_convex_smooth inv {| so_lam := el; so_practical := false; so_problem := None; so_data := None |} pr o Hinv Hw Hsym Hel0 eq_refl Ho) as [f [g [xs [V [G [Sm [Bx Bm]]]]]]].
  cbn [so_lam] in *.
  destruct (optimize_rate _ _ _ f g all_vecs (fun z => lam * weighted_l1 w z)
    (lp_p pr) el sm V G Sm Hel0 (l1_exact argsort lam w Hl Hwn) (weighted_l1_convex lam w Hl Hwn)
    Hst start tt lg0 x lg1 s Ls Hp) as [n [b [A [B [Lx [_ [C D]]]]]]].
  destruct (Bx x Lx) as [Lb Eb].
  exists (xs x), n, b. rewrite !Hk by discriminate. do 3 (split; [auto|]). unfold F. rewrite <- Eb.
  cbn [s_tol] in D. split.
  - intros Hn z Lz u Lu. specialize (C Hn u Lu I). cbv beta in C. specialize (Bm u z Lu Lz). lra.
  - intros Hb z Lz u Lu. specialize (D Hb u Lu I). cbv beta in D. specialize (Bm u z Lu Lz). lra.
Qed.

(*@ C78.  The practical SR3 L1 model, which does not report its iterations: with a positive el and
    max_iter its answer is either that of max_iter iterations, or of a last step within tol. *)
Lemma practical_l1_fit_near_best_lemma :
  forall argsort inv m pr x0 (warm : bool) weights x lg lam el,
  inv_ok inv -> wf_linear pr -> lp_c pr = eye (lp_p pr) ->
  lm_el m = Some el -> 0 < el -> lm_practical m = true -> (0 < lm_max_iter m)%Z ->
  lm_reg m = mk_l1 lam -> 0 <= lam ->
  let w := match weights with Some w => w | None => ones (lp_p pr) end in
  Forall (fun wi => 0 <= wi) w ->
  let start := if warm then match x0 with Some x => x | None => ones (lp_p pr) end else ones (lp_p pr) in
  length start = lp_p pr ->
  linear_fit_problem argsort inv m pr x0 warm weights = Ok (x, lg) ->
  let F := fun z u => relaxed_loss el pr z u + lam * weighted_l1 w u in
  exists best, length best = lp_p pr /\
    ((forall z, length z = lp_p pr -> forall u, length u = lp_p pr ->
        F best x <= F z u + el * sqnorm (vsub start u) / (2 * IZR (lm_max_iter m))) \/
     (forall z, length z = lp_p pr -> forall u, length u = lp_p pr ->
        F best x <= F z u + lm_tol m * el * (norm (vsub x u) + lm_tol m / 2))).
Proof.
  intros argsort inv m pr x0 warm weights x lg lam el Hinv Hw Hc Hel Hel0 Hpr Hmi Hr Hl w Hwn start Ls H F.
  destruct (fit_logger _ _ _ _ _ _ _ _ _ H) as [run [aic [bic [r [lg0 [lg1 [s [H0 [Hi [_ [Hp [Hk _]]]]]]]]]]]].
  rewrite Hel in H0. apply rbind_inv in H0 as [o0 [Ho0 H0]]. apply rbind_inv in H0 as [o [Ho H0]].
  unfold mk_sr3 in Ho0. apply rbind_inv in Ho0 as [u0 [_ Ho0]]. injection Ho0 as <-.
  apply Ok_inj in H0. injection H0 as <- <- <-. rewrite Hpr in Hp.
  fold start in Hp. rewrite Hr in Hi. simpl in Hi. injection Hi as <-. fold w in Hp.
  unfold fake_pgd_optimize in Hp. apply rbind_inv in Hp as [[[x1 lg2] s1] [Hf Hp]].
  apply rbind_inv in Hf as [x2 [Hf Ef]]. apply Ok_inj in Ef. injection Ef as -> <- <-.
  apply rbind_inv in Hp as [[lg3 s3] [_ Hp]]. apply rbind_inv in Hp as [lg4 [_ Hp]].
  apply Ok_inj in Hp. injection Hp as -> _ _.
  unfold sr3_find in Hf. apply rbind_inv in Hf as [[x3 n] [Hf E3]]. apply Ok_inj in E3. subst x3.
  assert (Hsym : symmetric (lp_p pr) (lp_c pr)) by (rewrite Hc; apply eye_symmetric).
  pose proof (practical_equals_fixed_step_pgd_lemma inv {| so_lam := el; so_practical := false; so_problem := None; so_data := None |}
    {| so_lam := el; so_practical := false; so_problem := None; so_data := None |} o o pr
    (as_regularizer argsort (RL1 lam (Some w))) (lm_tol m) (lm_max_iter m) start Hinv Hw Hc Hel0 eq_refl eq_refl Ho Ho) as R.
  cbv zeta in R. rewrite Hf in R. destruct R as [lgr [R It]]. cbn [so_lam] in R.
  destruct (sr3_convex_smooth inv {| so_lam := el; so_practical := false; so_problem := None; so_data := None |} pr o Hinv Hw Hsym (Rlt_le _ _ Hel0) eq_refl Ho) as [f [g [xs [V [G [Sm [Bx Bm]]]]]]].
  cbn [so_lam] in *.
  match type of R with pgd_optimize _ _ ?sl _ _ _ = _ => set (slv := sl) in * end.
  assert (Hst : safe_steps slv el (1 / el)).
  { unfold safe_steps. change (s_step_len slv) with (1 / el).
    change (s_stepping slv =? "line-search")%string with false. cbn iota.
    assert (0 < 1 / el) by (apply Rdiv_lt_0_compat; lra). split; [lra|].
    replace (el * (1 / el)) with 1 by (field; lra). lra. }
  destruct (optimize_rate _ _ _ f g all_vecs (fun z => lam * weighted_l1 w z)
    (lp_p pr) el (1 / el) V G Sm (Rlt_le _ _ Hel0) (l1_exact argsort lam w Hl Hwn) (weighted_l1_convex lam w Hl Hwn)
    Hst start tt _ _ lgr tt Ls R) as [n' [b [A [B [Lx [Nb [C D]]]]]]].
  destruct (Bx _ Lx) as [Lb Eb]. eexists. split; [exact Lb|]. unfold F. rewrite <- Eb.
  change (s_tol slv) with (lm_tol m) in D. change (s_max_iter slv) with (lm_max_iter m) in Nb.
  destruct b.
  - right. intros z Lz u Lu. specialize (D eq_refl u Lu I). cbv beta in D. specialize (Bm u z Lu Lz).
    replace (lm_tol m / (1 / el)) with (lm_tol m * el) in D by (field; lra). lra.
  - left. specialize (Nb eq_refl Hmi). intros z Lz u Lu.
    specialize (C ltac:(lia) u Lu I). cbv beta in C. specialize (Bm u z Lu Lz).
    rewrite INR_IZR_INZ, Nb in C. assert (0 < IZR (lm_max_iter m)) by (apply (IZR_lt 0); auto).
    replace (el * sqnorm (vsub start u) / (2 * IZR (lm_max_iter m)))
      with (sqnorm (vsub start u) / (2 * (1 / el) * IZR (lm_max_iter m))) by (field; lra). lra.
Qed.

Lemma reqb_10 : reqb 1 0 = false.
Proof. apply reqb_false. lra. Qed.
Lemma short_step pc : effective_step (short_l1 None pc) = 1.
Proof. unfold effective_step. simpl. rewrite reqb_10. auto. Qed.
Lemma short_step3 pc : effective_step (short_l1 (Some 1) pc) = 1 / 1.
Proof. unfold effective_step. simpl. rewrite reqb_10. auto. Qed.
Lemma l1_prox_one v : r_prox (as_regularizer (fun _ => []) (RL1 1 (Some [1]))) [v] 1 = Ok [soft (1 * 1 * 1) v].
Proof. reflexivity. Qed.
Lemma soft_one v : 1 < v -> soft (1 * 1 * 1) v = v - 1.
Proof. intros H. destruct (soft_cases (1 * 1 * 1) v); lra. Qed.

(*@ A fit within the hypotheses: 4 is shrunk to 3 in one iteration. *)
Lemma ex_linear_l1_fit_lemma :
  safe_steps {| s_tol := / 10; s_max_iter := 1; s_stepping := "fixed"; s_step_len := effective_step (short_l1 None false) |}
    (frob (lp_a (sample_problem 4))) 1 /\
  exists x lg, linear_fit_problem (fun _ => []) inv_one (short_l1 None false) (sample_problem 4) None false None = Ok ([x], lg) /\
    x = 3 /\ get lg "iteration" = Ok (LAtom (LNum 1)) /\ get lg "converged" = Ok (LAtom (LBool false)).
Proof.
  split.
  { unfold safe_steps. cbn [s_step_len s_stepping]. rewrite short_step.
    change ("fixed" =? "line-search")%string with false. cbn iota.
    assert (E : frob (lp_a (sample_problem 4)) = 1) by (unfold frob, sqnorm, vdot, vmul, vsum; simpl; ring).
    rewrite E. lra. }
  set (orc := lin_as_oracle {| lo_problem := Some (sample_problem 4); lo_prior := PNone |}).
  assert (Hg : exists g, o_grad orc tt [1] = Ok ([g], tt) /\ g = -3).
  { eexists. split; [reflexivity|]. unfold vdot, vmul, vsum; simpl.
    replace (vdot [1] [1]) with 1 by (unfold vdot, vmul, vsum; simpl; ring). ring. }
  destruct Hg as [g [Hg Eg]].
  pose proof (pgd_one_step orc (as_regularizer (fun _ => []) (RL1 1 (Some [1]))) (/ 10) 1 [1] [g]
    [soft (1 * 1 * 1) (1 + 1 * - g)] ltac:(discriminate) Hg eq_refl (l1_prox_one _) eq_refl) as R.
  exists (soft (1 * 1 * 1) (1 + 1 * - g)). eexists. split; [|split; [|split]].
  - unfold linear_fit_problem. rewrite short_step.
    cbn [short_l1 lm_el lm_practical lm_reg lm_tol lm_max_iter lm_prior lm_keys lm_stepping].
    cbn [lin_instantiate rbind lo_prior]. fold orc. cbn [mk_l1 instantiate mk_logger rbind].
    change (ones (lp_p (sample_problem 4))) with [1].
    change (fold_left _ _ _) with (@nil (string * lobj)).
    eapply rbind_ok_intro; [exact R|]. reflexivity.
  - rewrite soft_one; rewrite Eg; lra.
  - reflexivity.
  - reflexivity.
Qed.

(*@ The same with the relaxation el = 1, fitted by PGDSolver and by the practical routine: the
    relaxed solution 5/2 is shrunk to 3/2. *)
Lemma ex_sr3_l1_fit_lemma :
  inv_ok inv_one /\ wf_linear (sample_problem 4) /\ lp_c (sample_problem 4) = eye 1 /\
  safe_steps {| s_tol := / 10; s_max_iter := 1; s_stepping := "fixed"; s_step_len := effective_step (short_l1 (Some 1) false) |}
    1 1 /\
  exists x lg lg', x = 3 / 2 /\
    linear_fit_problem (fun _ => []) inv_one (short_l1 (Some 1) false) (sample_problem 4) None false None = Ok ([x], lg) /\
    linear_fit_problem (fun _ => []) inv_one (short_l1 (Some 1) true) (sample_problem 4) None false None = Ok ([x], lg') /\
    get lg "iteration" = Ok (LAtom (LNum 1)).
Proof.
  split; [exact inv_one_ok|]. split; [apply sample_wf|]. split; [reflexivity|]. split.
  { unfold safe_steps. cbn [s_step_len s_stepping]. rewrite short_step3.
    change ("fixed" =? "line-search")%string with false. cbn iota. lra. }
  set (pr := sample_problem 4).
  set (h := 1 * 1 + 0 + 1 * (1 * 1 + 0)).
  assert (Hh : h = 2) by (unfold h; ring).
  set (hi := [[1 / h]]).
  assert (Ei : inv_one 1 (h_matrix 1 pr) = Ok hi).
  { change (h_matrix 1 pr) with [[h]]. unfold inv_one.
    destruct (reqb h 0) eqn:E; [apply reqb_true in E; lra|reflexivity]. }
  set (o0 := {| so_lam := 1; so_practical := false; so_problem := None; so_data := None |}).
  set (o := {| so_lam := 1; so_practical := false; so_problem := Some pr;
               so_data := Some {| sd_h_inv := hi; sd_ab := tmv 1 [[1]] [4];
                 sd_fg := Some (f_matrix 1 pr hi, mv (g_matrix 1 pr hi) [4]) |} |}).
  assert (Eo : sr3_instantiate inv_one o0 pr = Ok o).
  { unfold sr3_instantiate. cbn [o0 so_lam so_practical]. change (lp_p pr) with 1%nat. rewrite Ei. reflexivity. }
  set (y := mv hi (vadd (tmv 1 [[1]] [4]) (vscale 1 (tmv 1 [[1]] [1])))).
  set (y1 := nth 0 y 0).
  assert (Ey : y = [y1]) by reflexivity.
  assert (Ex : y1 = 5 / 2).
  { unfold y1, y, hi, mv, vdot, vmul, vsum; simpl. rewrite Hh. field. }
  set (rg := as_regularizer (fun _ => []) (RL1 1 (Some [1]))).
  set (x1 := soft (1 / 1 * 1 * 1) y1).
  assert (Ex1 : x1 = 3 / 2).
  { unfold x1. destruct (soft_cases (1 / 1 * 1 * 1) y1); rewrite ?Ex in *; lra. }
  assert (Ef : sr3_find_count o rg (/ 10) 1 [1] = Ok ([x1], 1%nat)).
  { unfold sr3_find_count, o. cbn [so_lam so_problem so_data].
    assert (N1 : nonzero 1 = true) by (apply nonzero_true; lra). rewrite N1. cbn [guard rbind].
    change (Z.to_nat 1) with 1%nat. cbn [practical_loop moved rbind]. simpl andb. cbn iota.
    change (length [1] =? lp_p pr)%nat with true. cbn [guard rbind].
    cbn [so_lam sd_h_inv sd_ab]. change (lp_p pr) with 1%nat. change (lp_c pr) with [[1]]. fold y.
    rewrite Ey. change (r_prox rg [y1] (1 / 1)) with (@Ok vec [x1]).
    cbn [rbind]. cbn [practical_loop moved length Nat.eqb guard rbind].
    change (Z.of_nat 1 <? 1)%Z with false. rewrite andb_false_r. reflexivity. }
  destruct (sr3_value_is_partial_minimum_lemma inv_one o0 pr o [1] inv_one_ok (sample_wf 4) (sample_symmetric 4)
    ltac:(cbn; lra) eq_refl Eo eq_refl) as [d [xs [v [g [Ed [Exs [_ [_ [_ [_ [_ [Hg [Eg _]]]]]]]]]]]]].
  injection Ed as <-. change (xs = y) in Exs. rewrite Exs, Ey in Eg.
  assert (Eg' : g = [1 * (1 - vdot [1] [y1])]) by exact Eg. clear Eg.
  set (g1 := 1 * (1 - vdot [1] [y1])) in *.
  assert (Eg1 : g1 = - (3 / 2)).
  { unfold g1, vdot, vmul, vsum; simpl. rewrite Ex. field. }
  assert (Hg' : o_grad (sr3_as_oracle o) tt [1] = Ok ([g1], tt)).
  { cbn [sr3_as_oracle o_grad]. rewrite Hg, Eg'. reflexivity. }
  set (x2 := soft (1 / 1 * 1 * 1) (1 + 1 / 1 * - g1)).
  assert (Ex2 : x2 = x1).
  { unfold x2. rewrite Ex1. destruct (soft_cases (1 / 1 * 1 * 1) (1 + 1 / 1 * - g1)); rewrite ?Eg1 in *; lra. }
  pose proof (pgd_one_step (sr3_as_oracle o) rg (/ 10) (1 / 1) [1] [g1] [x2] ltac:(discriminate) Hg' eq_refl eq_refl eq_refl) as R.
  exists x1. eexists. eexists. split; [auto|]. split; [|split].
  - unfold linear_fit_problem. rewrite short_step3.
    cbn [short_l1 lm_el lm_practical lm_reg lm_tol lm_max_iter lm_prior lm_keys lm_stepping].
    cbn [mk_sr3 negb guard rbind]. fold o0. rewrite Eo. cbn [rbind mk_l1 instantiate mk_logger].
    change (ones (lp_p pr)) with [1]. change (fold_left _ _ _) with (@nil (string * lobj)).
    rewrite <- Ex2. eapply rbind_ok_intro; [exact R|]. reflexivity.
  - unfold linear_fit_problem.
    cbn [short_l1 lm_el lm_practical lm_reg lm_tol lm_max_iter lm_prior lm_keys lm_stepping].
    cbn [mk_sr3 negb guard rbind]. fold o0. rewrite Eo. cbn [rbind mk_l1 instantiate mk_logger].
    change (ones (lp_p pr)) with [1]. unfold fake_pgd_optimize, sr3_find.
    change (as_regularizer (fun _ : vec => []) (RL1 1 (Some [1]))) with rg. rewrite Ef. reflexivity.
  - reflexivity.
Qed.

(*@ The bound on the fixed step is needed: with the default step 5/100 and a = 10 one iteration
    on 1/2 |10 x|^2 multiplies the loss by 16. *)
Lemma ex_long_fixed_step_lemma :
  let pr := {| lp_a := [[10]]; lp_b := [0]; lp_n := 1; lp_p := 1; lp_c := [[1]]; lp_weights := Some [0]; lp_obs_std := None |} in
  frob (lp_a pr) * effective_step (sample_linear None false RDummy) = 5 /\
  exists x lg, linear_fit_problem (fun _ => []) inv_one (sample_linear None false RDummy) pr None false None = Ok ([x], lg) /\
    least_squares pr [x] = 16 * least_squares pr [1].
Proof.
  intros pr. split.
  { change (effective_step (sample_linear None false RDummy)) with (5 / 100).
    unfold frob, sqnorm, vdot, vmul, vsum; simpl. field. }
  set (orc := lin_as_oracle {| lo_problem := Some pr; lo_prior := PNone |}).
  assert (Hg : exists g, o_grad orc tt [1] = Ok ([g], tt) /\ g = 100).
  { eexists. split; [reflexivity|]. unfold vdot, vmul, vsum; simpl.
    replace (vdot [10] [1]) with 10 by (unfold vdot, vmul, vsum; simpl; ring). ring. }
  destruct Hg as [g [Hg Eg]].
  pose proof (pgd_one_step orc (as_regularizer (fun _ => []) RDummy) (/ 10) (5 / 100) [1] [g]
    [1 + 5 / 100 * - g] ltac:(discriminate) Hg eq_refl eq_refl eq_refl) as R.
  exists (1 + 5 / 100 * - g). eexists. split.
  - unfold linear_fit_problem. change (effective_step (sample_linear None false RDummy)) with (5 / 100).
    cbn [sample_linear lm_el lm_practical lm_reg lm_tol lm_max_iter lm_prior lm_keys lm_stepping].
    cbn [lin_instantiate rbind lo_prior]. fold orc. cbn [instantiate mk_logger rbind].
    change (ones (lp_p pr)) with [1]. change (fold_left _ _ _) with (@nil (string * lobj)).
    eapply rbind_ok_intro; [exact R|]. reflexivity.
  - rewrite Eg. unfold least_squares, sqnorm, mv, vdot, vmul, vsum; simpl. field.
Qed.
