(** Final lemmas about get_information_criterion of the linear models, restated as theorems in
    Properties/LinearCriterion.v. *)
(*HEAD
(** Property C80: get_information_criterion of the linear models (src/pysr3/linear/models.py). *)
From Verif.Base Require Import Py Vec Mat.
From Verif.Model Require Import Regularizers Linear.
From Verif.Spec Require Import ProxSpec SolverSpec LinearSpec RateSpec.
HEAD*)
(*OPEN
Open Scope string_scope.
Open Scope list_scope.
Open Scope R_scope.
OPEN*)
From Coq Require Import Lra Psatz.
From Verif.Base Require Import Py Vec Mat.
From Verif.Model Require Import Regularizers Linear.
From Verif.Spec Require Import ProxSpec RegSpec SolverSpec LinearSpec RateSpec.
From Verif.Proofs Require Import VecFacts L0Proofs RegularizerProofs RegularizersMain MatFacts ScalarProx SolverProofs SolversMain LinearProofs LinearMain RateProofs LinearRateMain.
Open Scope string_scope.
Open Scope list_scope.
Open Scope R_scope.

Lemma add_keeps_key lg k v lg' k' : add lg k v = Ok lg' -> has_key k' (lg_keys lg) = true ->
  has_key k' (lg_keys lg') = true.
Proof.
  intros H K. destruct (add_lookup _ _ _ _ H) as [_ [_ ->]]. destruct (has_key k (lg_keys lg)); auto.
  apply has_key_In. apply has_key_In in K. apply in_or_app. auto.
Qed.
Lemma pgd_keeps_key {S} (orc : oracle S) rg slv x0 s lg x lg' s' k :
  pgd_optimize orc rg slv x0 s lg = Ok (x, lg', s') -> has_key k (lg_keys lg) = true ->
  has_key k (lg_keys lg') = true.
Proof.
  unfold pgd_optimize. intros H K. apply rbind_inv in H as [st0 [H0 H]].
  apply rbind_inv in H as [st [H1 H]]. apply rbind_inv in H as [lg1 [Ha H]].
  apply rbind_inv in H as [lg2 [Hb H]]. inversion H; subst; clear H.
  apply log_state_inv in H0 as [_ [_ [_ [E _]]]]. apply log_keys_loop in H1.
  eapply add_keeps_key; eauto. eapply add_keeps_key; eauto. rewrite H1, E. auto.
Qed.
Lemma fake_keeps_key {S} (orc : oracle S) rg find x0 s lg x lg' s' k :
  (forall s x lg r, find s x lg = Ok r -> snd (fst r) = lg) ->
  fake_pgd_optimize orc rg find x0 s lg = Ok (x, lg', s') -> has_key k (lg_keys lg) = true ->
  has_key k (lg_keys lg') = true.
Proof.
  intros Hf H K. unfold fake_pgd_optimize in H. apply rbind_inv in H as [[[x1 lg1] s1] [H0 H]].
  apply Hf in H0. simpl in H0. subst lg1.
  apply rbind_inv in H as [[lg2 s2] [H1 H]]. apply rbind_inv in H as [lg3 [Hb H]]. inversion H; subst; clear H.
  eapply add_keeps_key; eauto.
  destruct (has_key "loss" (lg_keys lg)).
  - apply rbind_inv in H1 as [[f s3] [_ H1]]. apply rbind_inv in H1 as [r [_ H1]].
    apply rbind_inv in H1 as [lg4 [Ha H1]]. inversion H1; subst. eapply add_keeps_key; eauto.
  - inversion H1; subst. auto.
Qed.
Lemma mk_logger_key kd ks lg k : mk_logger (Some (kd, ks)) = Ok lg -> In k ks -> has_key k (lg_keys lg) = true.
Proof.
  intros H I. unfold mk_logger in H. inversion H; subst. cbn [lg_keys]. apply has_key_In. auto.
Qed.

Definition criterion (pr : linear_problem) (ic : string) (c : vec) : res R :=
  let o := {| lo_problem := Some pr; lo_prior := PNone |} in
  if String.eqb ic "aic" then lin_aic o c else if String.eqb ic "bic" then lin_bic o c else Err ValueError.
Lemma criterion_fit argsort inv m pr x0 ws weights c lg ic :
  linear_fit_problem argsort inv m pr x0 ws weights = Ok (c, lg) ->
  ic = "aic" \/ ic = "bic" -> In ic (snd (lm_keys m)) ->
  exists v, criterion pr ic c = Ok v /\ get lg ic = Ok (LAtom (LNum v)).
Proof.
  intros H Hic Hin.
  destruct (fit_logger _ _ _ _ _ _ _ _ _ H) as [run [aic [bic [r [lg0 [lg1 [s [H0 [_ [Hl [Hp [_ [Ka Kb]]]]]]]]]]]]].
  assert (K : has_key ic (lg_keys lg0) = true).
  { destruct (lm_keys m) as [kd ks]. eapply mk_logger_key; eauto. }
  assert (A : has_key ic (lg_keys lg1) = true /\
     aic = lin_aic {| lo_problem := Some pr; lo_prior := PNone |} /\
     bic = lin_bic {| lo_problem := Some pr; lo_prior := PNone |}).
  { destruct (lm_el m) as [el|].
    - apply rbind_inv in H0 as [o0 [_ H0]]. apply rbind_inv in H0 as [o [Ho H0]].
      apply Ok_inj in H0. injection H0 as <- <- <-.
      split; [|unfold sr3_instantiate in Ho; apply rbind_inv in Ho as [hi [_ Ho]];
               apply rbind_inv in Ho as [u [_ Ho]]; inversion Ho; subst; auto].
      destruct (lm_practical m).
      + eapply fake_keeps_key; eauto. intros s1 x1 lgx rx E. apply rbind_inv in E as [x2 [_ E]].
        apply Ok_inj in E. subst rx. auto.
      + eapply pgd_keeps_key; eauto.
    - apply rbind_inv in H0 as [o [Ho H0]]. unfold lin_instantiate in Ho. simpl in Ho.
      destruct (lm_prior m); [|discriminate]. injection Ho as <-.
      apply Ok_inj in H0. injection H0 as <- <- <-. split; auto. eapply pgd_keeps_key; eauto. }
  destruct A as [K1 [-> ->]]. destruct Hic as [->| ->].
  - destruct (Ka K1) as [v [V1 V2]]. exists v. auto.
  - destruct (Kb K1) as [v [V1 V2]]. exists v. auto.
Qed.

(*@ C80.  After fit(x, y) with 'aic' or 'bic' among the logger keys, get_information_criterion(x, y) of the
    plain model returns the logged number; that of the SR3 model too, whatever its el, provided
    a'a + I can be inverted. *)
Lemma linear_criterion_matches_log_lemma :
  forall argsort inv m x p y x0 warm weights c lg ic,
  linear_fit argsort inv m x p y x0 warm weights = Ok (c, lg) ->
  ic = "aic" \/ ic = "bic" -> In ic (snd (lm_keys m)) ->
  exists v, get lg ic = Ok (LAtom (LNum v)) /\
    (lm_el m = None -> linear_information_criterion inv m (Some c) x p y ic = Ok v) /\
    (forall w, linear_information_criterion inv m (Some c) x p y ic = Ok w -> w = v) /\
    (forall el pr h, lm_el m = Some el -> linear_from_x_y x p y None None = Ok pr ->
       inv p (h_matrix 1 pr) = Ok h -> linear_information_criterion inv m (Some c) x p y ic = Ok v).
Proof.
  intros argsort inv m x p y x0 warm weights c lg ic H Hic Hin.
  unfold linear_fit in H. apply rbind_inv in H as [pr [Hpr H]].
  destruct (criterion_fit _ _ _ _ _ _ _ _ _ _ H Hic Hin) as [v [V G]].
  exists v. split; [auto|].
  assert (N : lm_el m = None -> linear_information_criterion inv m (Some c) x p y ic = Ok v).
  { intros E. unfold linear_information_criterion. rewrite Hpr, E. cbn [rbind lin_instantiate lo_prior]. exact V. }
  assert (P : forall el o, lm_el m = Some el ->
    sr3_instantiate inv {| so_lam := 1; so_practical := false; so_problem := None; so_data := None |} pr = Ok o ->
    linear_information_criterion inv m (Some c) x p y ic = Ok v).
  { intros el o E Ho. unfold linear_information_criterion. rewrite Hpr, E. cbn [rbind mk_sr3 negb guard]. rewrite Ho.
    cbn [rbind]. unfold sr3_instantiate in Ho. apply rbind_inv in Ho as [hi [_ Ho]].
    apply rbind_inv in Ho as [u [_ Ho]]. inversion Ho; subst. exact V. }
  split; [auto|]. split.
  - intros w W. destruct (lm_el m) as [el|] eqn:E; [|specialize (N eq_refl); congruence].
    pose proof W as W0. unfold linear_information_criterion in W. rewrite Hpr, E in W. cbn [rbind mk_sr3 negb guard] in W.
    apply rbind_inv in W as [o [Ho _]]. specialize (P el o eq_refl Ho). congruence.
  - intros el pr' h E Hpr' Hh. assert (pr' = pr) by congruence. subst pr'.
    assert (Hb : exists o, sr3_instantiate inv {| so_lam := 1; so_practical := false; so_problem := None; so_data := None |} pr = Ok o).
    { assert (Hp : lp_p pr = p).
      { unfold linear_from_x_y, mk_linear_problem in Hpr. cbn in Hpr. inversion Hpr. auto. }
      unfold sr3_instantiate. cbn [so_lam so_practical]. rewrite Hp, Hh. cbn [rbind].
      assert (L : length (lp_b pr) = lp_n pr).
      { assert (R : exists l, lin_loss {| lo_problem := Some pr; lo_prior := PNone |} c = Ok l).
        { clear - V. unfold criterion in V. destruct (String.eqb ic "aic").
          - apply rbind_inv in V as [l [V _]]. eauto.
          - destruct (String.eqb ic "bic"); [|discriminate]. apply rbind_inv in V as [l [V _]]. eauto. }
        destruct R as [l R]. unfold lin_loss in R. cbn [lo_problem] in R.
        apply rbind_inv in R as [r0 [R _]]. apply residual_inv in R. apply R. }
      apply Nat.eqb_eq in L. rewrite L. cbn [guard rbind]. eexists. reflexivity. }
    destruct Hb as [o Ho]. apply (P el o E Ho).
Qed.

(*@ C80.  Before fit it raises NotFittedError; a name other than 'aic' and 'bic' is a ValueError; and its
    value is the least-squares loss plus 2 or log(n) per non-zero coefficient of the stored
    vector, also for data other than the training data. *)
Lemma linear_criterion_lemma :
  (forall inv m x p y ic, linear_information_criterion inv m None x p y ic = Err NotFittedError) /\
  (forall inv m c x p y ic, lm_el m = None -> ic <> "aic" -> ic <> "bic" ->
     linear_information_criterion inv m (Some c) x p y ic = Err ValueError) /\
  (forall inv m c x p y pr, linear_from_x_y x p y None None = Ok pr -> wf_linear pr -> length c = p ->
     lm_el m = None \/ (exists el h, lm_el m = Some el /\ inv p (h_matrix 1 pr) = Ok h) ->
     linear_information_criterion inv m (Some c) x p y "aic" = Ok (least_squares pr c + 2 * INR (nonzeros c)) /\
     linear_information_criterion inv m (Some c) x p y "bic" =
       Ok (least_squares pr c + ln (INR (length x)) * INR (nonzeros c))).
Proof.
  split; [reflexivity|]. split.
  { intros inv m c x p y ic E N1 N2. unfold linear_information_criterion. rewrite E. cbn [linear_from_x_y mk_linear_problem rbind lin_instantiate lo_prior].
    apply String.eqb_neq in N1, N2. rewrite N1, N2. reflexivity. }
  intros inv m c x p y pr Hpr Hw Lc Hm.
  assert (Hp : lp_p pr = p /\ lp_n pr = length x).
  { unfold linear_from_x_y, mk_linear_problem in Hpr. cbn in Hpr. inversion Hpr. auto. }
  destruct Hp as [Hp Hn]. destruct linear_information_criteria_lemma as [F S].
  destruct (F pr c Hw ltac:(congruence)) as [Fa Fb].
  unfold linear_information_criterion. rewrite Hpr. cbn [rbind]. rewrite Hn in Fb.
  destruct Hm as [E|[el [h [E Hh]]]]; rewrite E; cbn [mk_sr3 negb guard rbind lin_instantiate lo_prior].
  - change ("aic" =? "aic")%string with true. change ("bic" =? "aic")%string with false.
    change ("bic" =? "bic")%string with true. auto.
  - destruct (sr3_instantiate inv {| so_lam := 1; so_practical := false; so_problem := None; so_data := None |} pr) as [o|e] eqn:Eo.
    + destruct (S _ _ _ _ c Eo) as [Sa Sb]. cbn [rbind].
      change ("aic" =? "aic")%string with true. change ("bic" =? "aic")%string with false.
      change ("bic" =? "bic")%string with true. split; [etransitivity; [exact Sa|exact Fa]|etransitivity; [exact Sb|exact Fb]].
    + exfalso. unfold sr3_instantiate in Eo. cbn [so_lam] in Eo. rewrite Hp, Hh in Eo. cbn [rbind] in Eo.
      destruct Hw as [_ [L _]]. apply Nat.eqb_eq in L. rewrite L in Eo. discriminate.
Qed.

(*@ A fit of an SR3 model with el = 3 that logs its AIC: one observation, no iteration. *)
Lemma ex_linear_criterion_lemma :
  let m := {| lm_el := Some 3; lm_practical := true; lm_reg := RDummy; lm_tol := / 10; lm_max_iter := 0;
              lm_stepping := "fixed"; lm_step_len := None; lm_prior := PNone; lm_keys := (KTuple, ["aic"]) |} in
  exists lg v h, linear_fit (fun _ => []) inv_one m [[1]] 1 [4] None false None = Ok ([1], lg) /\
    get lg "aic" = Ok (LAtom (LNum v)) /\ v = 9 / 2 + 2 /\ inv_one 1 (h_matrix 1 (sample_problem 4)) = Ok h.
Proof.
  intros m.
  assert (Eh : forall t, 0 < t -> exists h, inv_one 1 (h_matrix t (sample_problem 4)) = Ok h).
  { intros t Ht. change (h_matrix t (sample_problem 4)) with [[1 * 1 + 0 + t * (1 * 1 + 0)]]. unfold inv_one.
    destruct (reqb (1 * 1 + 0 + t * (1 * 1 + 0)) 0) eqn:E; [apply reqb_true in E; lra|eauto]. }
  destruct (Eh 1 ltac:(lra)) as [h Hh]. destruct (Eh 3 ltac:(lra)) as [h3 Hh3].
  set (pr := {| lp_a := [[1]]; lp_b := [4]; lp_n := 1; lp_p := 1; lp_c := [[1]]; lp_weights := None; lp_obs_std := None |}).
  assert (Hw : wf_linear pr) by (repeat split; repeat constructor).
  destruct linear_information_criteria_lemma as [F _]. destruct (F pr [1] Hw eq_refl) as [Fa _].
  set (v := least_squares pr [1] + 2 * INR (nonzeros [1])) in *.
  eexists _, v, h. split; [|split; [|split]]; [| | |exact Hh].
  - unfold linear_fit. change (linear_from_x_y [[1]] 1 [4] None None) with (Ok pr). cbn [rbind].
    unfold linear_fit_problem. cbn [m lm_el lm_practical lm_reg lm_tol lm_max_iter lm_prior lm_keys lm_stepping].
    cbn [mk_sr3 negb guard rbind]. unfold sr3_instantiate at 1. cbn [so_lam so_practical].
    change (inv_one (lp_p pr) (h_matrix 3 pr)) with (inv_one 1 (h_matrix 3 (sample_problem 4))). rewrite Hh3.
    cbn [rbind instantiate mk_logger]. change (length (lp_b pr) =? lp_n pr)%nat with true. cbn [guard rbind].
    change (ones (lp_p pr)) with [1]. unfold fake_pgd_optimize, sr3_find, sr3_find_count. cbn [so_lam so_problem so_data].
    assert (N3 : nonzero 3 = true) by (apply nonzero_true; lra). rewrite N3. cbn [guard rbind].
    change (Z.to_nat 0) with 0%nat. cbn [practical_loop moved rbind]. change (Z.of_nat 0 <? 0)%Z with false.
    rewrite andb_false_r. cbn iota. cbn [rbind lg_keys]. change (has_key "loss" ["aic"]) with false. cbn iota. cbn [rbind].
    unfold sr3_aic. cbn [so_problem].
    match goal with |- context [add ?l "converged" ?b] =>
      change (add l "converged" b) with (Ok {| lg_kind := KTuple; lg_keys := ["aic"; "converged"];
        lg_dict := [("aic", LList []); ("converged", LAtom (LBool true))] |}) end.
    cbn [rbind lg_keys]. change (has_key "aic" ["aic"; "converged"]) with true. cbn iota. rewrite Fa.
    reflexivity.
  - reflexivity.
  - unfold v, least_squares, sqnorm, mv, vdot, vmul, vsum. simpl. destruct (Req_EM_T 1 0); [lra|]. simpl. field.
Qed.
