(*HEAD
(** Properties C108 - C110: order and signs of the features, order of the observations (src/pysr3/linear). *)
From Verif.Base Require Import Py Vec Mat.
From Verif.Model Require Import Regularizers Linear.
From Verif.Spec Require Import ProxSpec LinearSpec ColumnSpec.
From Verif.Proofs Require Import L0Proofs.
HEAD*)
From Coq Require Import Lra Permutation FunctionalExtensionality.
From Verif.Base Require Import Py Vec Mat.
From Verif.Model Require Import Regularizers Linear.
From Verif.Spec Require Import ProxSpec LinearSpec ColumnSpec.
From Verif.Proofs Require Import VecFacts MatFacts L0Proofs SolverProofs LinearProofs LinearMain ColumnProofs ColumnFit ColumnCases.
(*OPEN
Open Scope R_scope.
OPEN*)
Open Scope R_scope.

(*@ C108.  For every penalty but L0, fitting the data with the features in another order (and the weights and the
    start, if given, in that order) gives the same coefficients in that order, and the same log; SR3 models under the
    contract of np.linalg.inv. *)
Lemma fit_reorders_features_partial_lemma : forall argsort inv m a p b order x0 warm w,
  coefficientwise (lm_reg m) -> is_order p order -> wf_mat p a ->
  (forall x, x0 = Some x -> length x = p) -> (forall v, w = Some v -> length v = p) ->
  sr3_ready inv m p b a (permute_columns order a) ->
  linear_fit argsort inv m (permute_columns order a) p b
    (option_map (permute order) x0) warm (option_map (permute order) w)
  = rmap (fit_map (permute order)) (linear_fit argsort inv m a p b x0 warm w).
Proof. intros. apply permute_fit; auto. Qed.

(*@ C108.  Predictions with reordered coefficients on reordered data are the same. *)
Lemma predictions_reorder_features_lemma : forall p order a x,
  is_order p order -> wf_mat p a -> length x = p ->
  linear_predict (Some (permute order x)) (permute_columns order a) p = linear_predict (Some x) a p.
Proof.
  intros p order a x Ho W Hx. unfold linear_predict, linear_from_x_y, mk_linear_problem, linear_predict_problem.
  unfold permute_columns at 1. rewrite map_length.
  destruct (guard _ _); [|reflexivity]. cbn [rbind lp_p lp_a]. rewrite (permute_len p order Ho), Hx.
  rewrite (permute_mv p order Ho); auto.
Qed.

Lemma one_step_fit argsort inv m a p b g x1 :
  lm_el m = None -> lm_prior m = PNone -> lm_max_iter m = 1%Z -> lm_stepping m = "fixed"%string ->
  lm_keys m = (KTuple, []) -> (0 < p)%nat ->
  lin_gradient (lin_of {| lp_a := a; lp_b := b; lp_n := length a; lp_p := p; lp_c := eye p; lp_weights := None; lp_obs_std := None |})
    (ones p) = Ok g -> length g = p ->
  forall r, instantiate (lm_reg m) (ones p) None = Ok r ->
  prox argsort r (vadd (ones p) (vscale (effective_step m) (vneg g))) (effective_step m) = Ok x1 -> length x1 = p ->
  exists lg, linear_fit argsort inv m a p b None false None = Ok (x1, lg).
Proof.
  intros E1 E2 E3 E4 E5 Hp Hg Lg r Hr Hx Lx. eexists. unfold linear_fit, linear_from_x_y, mk_linear_problem. cbn [rbind].
  unfold linear_fit_problem. cbn [lp_p]. rewrite E1, E2. cbn [lin_instantiate lo_prior rbind]. rewrite Hr, E5.
  cbn [rbind mk_logger fold_left]. rewrite E3, E4.
  erewrite pgd_one_step with (g := g) (x1 := x1); [reflexivity| | | | |].
  - destruct p; [lia|discriminate].
  - cbn [lin_as_oracle o_grad]. unfold lin_of in Hg. rewrite Hg. reflexivity.
  - rewrite ones_length. auto.
  - exact Hx.
  - rewrite ones_length. auto.
Qed.

(*@ C108 (refuted).  An L0 model may keep one of two features that are equal.  Exchanging the features does not change
    the data, so it does not change the fit; but the fit is not its own exchange, because the coefficient that is kept
    is not at the same place.  This happens whatever order argsort chooses for equal entries. *)
Lemma fit_reorders_features_refuted_lemma : forall argsort inv, argsort_ok argsort ->
  is_order 2 [1; 0]%nat /\ wf_mat 2 twin_features /\
  linear_fit argsort inv keep_one (permute_columns [1; 0]%nat twin_features) 2 [2] None false None
  <> rmap (fit_map (permute [1; 0]%nat)) (linear_fit argsort inv keep_one twin_features 2 [2] None false None).
Proof.
  intros argsort inv Ha. split; [apply perm_swap|]. split; [repeat constructor|].
  change (permute_columns [1; 0]%nat twin_features) with twin_features.
  set (one := vadd (ones 2) (vscale (effective_step keep_one) (vneg (vadd (tmv 2 [[1; 1]] (vsub (mv [[1; 1]] (ones 2)) [2])) (zeros 2))))).
  assert (E1 : one = [1; 1]).
  { unfold one, effective_step, keep_one. cbn. unfold vdot, vmul. cbn. f_equal; [|f_equal]; lra. }
  assert (T : exists x1, take_only_k_max argsort [1; 1] 1 = x1 /\ (x1 = [1; 0] \/ x1 = [0; 1])).
  { eexists. split; [reflexivity|]. unfold take_only_k_max. change (0 <? 1)%Z with true. cbv iota.
    unfold vabs, last_k. cbn [map]. change (Z.to_nat 1) with 1%nat.
    destruct (Ha [Rabs 1; Rabs 1]) as [A1 [A2 _]]. revert A1 A2. generalize (argsort [Rabs 1; Rabs 1]). intros l A1 A2.
    assert (Pl : Permutation l (seq 0 2)).
    { apply NoDup_Permutation; auto using seq_NoDup. intros i. rewrite A1, in_seq. simpl. lia. }
    assert (Ll : length l = 2%nat) by (apply Permutation_length in Pl; exact Pl).
    destruct l as [|i [|j [|? ?]]]; try discriminate. cbn [length skipn Nat.sub].
    assert (Hj : (j < 2)%nat) by (apply A1; right; left; auto).
    unfold mapi. cbn [mapi_from memb existsb]. rewrite !orb_false_r.
    destruct j as [|[|j]]; [left|right|lia]; reflexivity. }
  destruct T as [x1 [T1 T2]].
  assert (Hx : prox argsort (RL0 (Some 1%Z) (Some (ones 2)) (Some (astype_bool (ones 2)))) one (effective_step keep_one) = Ok x1).
  { cbn [prox l0_prox]. rewrite E1. unfold take_masked, astype_bool. cbn [ones repeat map].
    assert (N : nonzero 1 = true) by (apply nonzero_true; lra). rewrite !N. cbn [length Nat.eqb guard rbind].
    cbn [mask_select]. change (1 - Z.of_nat (countb negb [true; true]))%Z with 1%Z. rewrite T1.
    destruct T2; subst x1; reflexivity. }
  destruct (one_step_fit argsort inv keep_one twin_features 2 [2] _ x1 eq_refl eq_refl eq_refl eq_refl eq_refl
    ltac:(lia) eq_refl eq_refl _ eq_refl Hx) as [lg F]; [destruct T2; subst x1; reflexivity|].
  rewrite F. cbn [rmap]. unfold fit_map. cbn [fst snd]. intros K. apply Ok_inj in K.
  assert (K1 : x1 = permute [1; 0]%nat x1) by congruence.
  destruct T2 as [T2|T2]; rewrite T2 in K1;
    apply (f_equal (fun l => nth 0 l 0)) in K1; unfold permute in K1; cbn [nth map] in K1; lra.
Qed.

(** the runs of the two examples below *)
Lemma plain_run argsort inv a b x1 : wf_mat 2 a -> length b = length a ->
  let g x := vadd (tmv 2 a (vsub (mv a x) b)) (zeros 2) in
  (x1 = [1; 1] \/ moved (/ 10) x1 (Some [1; 1]) = Ok true) ->
  vadd [1; 1] (vscale (/ 2) (vneg (g [1; 1]))) = x1 ->
  vadd x1 (vscale (/ 2) (vneg (g x1))) = x1 -> length x1 = 2%nat ->
  exists lg, linear_fit argsort inv plain_model a 2 b None false None = Ok (x1, lg) /\
    get lg "converged" = Ok (LAtom (LBool true)).
Proof.
  intros W Lb g Hm H1 H2 Lx.
  set (o := {| lo_problem := Some {| lp_a := a; lp_b := b; lp_n := length a; lp_p := 2; lp_c := eye 2; lp_weights := None; lp_obs_std := None |};
               lo_prior := PNone |}).
  assert (Es : effective_step plain_model = / 2).
  { unfold effective_step, plain_model. cbn [lm_step_len]. unfold reqb. destruct (Req_EM_T (/ 2) 0); [lra|reflexivity]. }
  set (slv := {| s_tol := / 10; s_max_iter := 10; s_stepping := "fixed"; s_step_len := / 2 |}).
  set (rg := as_regularizer argsort RDummy).
  assert (G : forall x s, length x = 2%nat -> o_grad (lin_as_oracle o) s x = Ok (g x, s)).
  { intros x s Hx. cbn [lin_as_oracle o_grad]. unfold lin_gradient, residual, o. cbn [lo_problem lo_prior lp_p lp_n lp_a lp_b].
    rewrite Hx, Lb, !Nat.eqb_refl. cbn [Nat.eqb guard rbind prior_gradient]. rewrite Hx. reflexivity. }
  assert (Lg : forall x, length (g x) = 2%nat).
  { intros x. unfold g. apply vadd_len; [apply tmv_len; auto|reflexivity]. }
  set (lg0 := {| lg_kind := KTuple; lg_keys := []; lg_dict := [] |}).
  set (st0 := pgd_init [1; 1] tt lg0).
  destruct (quiet_step (lin_as_oracle o) rg slv [1; 1] st0 (g [1; 1]) tt x1) as [st1 [S1 [X1 [P1 [I1 [L1 O1]]]]]];
    [reflexivity|reflexivity|apply G; reflexivity|apply Lg|cbn [slv s_step_len st0 pgd_init st_x]; rewrite H1; reflexivity|].
  destruct (quiet_step (lin_as_oracle o) rg slv [1; 1] st1 (g x1) tt x1) as [st2 [S2 [X2 [P2 [I2 [L2 O2]]]]]];
    [rewrite L1; reflexivity|reflexivity|rewrite X1; destruct (st_oracle st1); apply G; auto|rewrite X1, Lg; auto|
     rewrite X1; cbn [slv s_step_len]; rewrite H2; reflexivity|].
  assert (E : exists st, pgd_loop (lin_as_oracle o) rg slv 10 [1; 1] st0 = Ok st /\ st_x st = x1 /\ st_logger st = lg0 /\
                (st_iteration st <= 2)%nat).
  { assert (M0 : moved (s_tol slv) (st_x st0) (st_x_prev st0) = Ok true) by reflexivity.
    rewrite (loop_again _ _ _ 9 _ _ st1 M0 eq_refl S1).
    destruct Hm as [Hm|Hm].
    - exists st1. rewrite loop_ends; [|rewrite X1, P1; cbn [st0 pgd_init st_x]; rewrite Hm; apply not_moved; cbn; lra].
      split; [reflexivity|]. rewrite X1, L1, I1. cbn. auto.
    - rewrite (loop_again _ _ _ 8 _ _ st2).
      + exists st2. rewrite loop_ends; [|rewrite X2, P2, X1; apply not_moved; cbn; lra].
        split; [reflexivity|]. rewrite X2, L2, L1, I2, I1. cbn. auto.
      + rewrite X1, P1. exact Hm.
      + rewrite I1. reflexivity.
      + exact S2. }
  destruct E as [st [E [X [L I]]]].
  eexists. split.
  - unfold linear_fit, linear_from_x_y, mk_linear_problem. cbn [rbind]. unfold linear_fit_problem. cbn [lp_p].
    cbn [plain_model lm_el lm_prior lin_instantiate lo_prior rbind lm_reg instantiate lm_keys mk_logger fold_left lm_tol
      lm_max_iter lm_stepping]. fold plain_model. rewrite Es. fold o. fold slv. fold rg. fold lg0.
    change (ones 2) with [1; 1]. unfold pgd_optimize. rewrite log_state_quiet by reflexivity. cbn [rbind]. fold st0.
    change (Z.to_nat (s_max_iter slv)) with 10%nat. rewrite E. cbn [rbind]. rewrite L.
    assert (C : (Z.of_nat (st_iteration st) <? s_max_iter slv)%Z = true) by (apply Z.ltb_lt; cbn; lia).
    rewrite C. unfold add, lg0. cbn [lg_keys lg_dict lg_kind has_key existsb dict_set rbind app String.eqb Ascii.eqb Bool.eqb].
    rewrite X. reflexivity.
  - reflexivity.
Qed.
Lemma run_a argsort inv : exists lg,
  linear_fit argsort inv plain_model [[1; 1]] 2 [2] None false None = Ok ([1; 1], lg) /\
  get lg "converged" = Ok (LAtom (LBool true)).
Proof.
  apply plain_run; [repeat constructor|reflexivity|left; reflexivity| |  |reflexivity];
    unfold mv, vdot, vmul; cbn; f_equal; [|f_equal|..|f_equal]; lra.
Qed.
Lemma run_b argsort inv : exists lg,
  linear_fit argsort inv plain_model [[1; -1]] 2 [2] None false None = Ok ([2; 0], lg) /\
  get lg "converged" = Ok (LAtom (LBool true)).
Proof.
  apply plain_run; [repeat constructor|reflexivity|right| |  |reflexivity].
  - unfold moved. cbn [length Nat.eqb guard rbind]. f_equal. apply rltb_true. unfold norm.
    rewrite <- (sqrt_pow2 (/ 10)) by lra. apply sqrt_lt_1_alt. unfold sqnorm, vdot, vmul, vsub. cbn. lra.
  - unfold mv, vdot, vmul; cbn; f_equal; [|f_equal]; lra.
  - unfold mv, vdot, vmul; cbn; f_equal; [|f_equal]; lra.
Qed.

(*@ A fit of two features that the theorem applies to, and an SR3 model that meets its contract. *)
Lemma ex_fit_reorders_features_lemma :
  coefficientwise (lm_reg plain_model) /\ is_order 2 [1; 0]%nat /\ wf_mat 2 [[1; -1]] /\
   sr3_ready inv_one plain_model 2 [2] [[1; -1]] (permute_columns [1; 0]%nat [[1; -1]]) /\
  argsort_ok argsort_ins /\
  sr3_ready inv_one (sample_linear (Some 1) false (mk_l1 1)) 1 [2] [[1]] (permute_columns [0]%nat [[1]]) /\
  exists lg, linear_fit argsort_ins inv_one plain_model (permute_columns [1; 0]%nat [[1; -1]]) 2 [2] None false None
     = Ok ([0; 2], lg).
Proof.
  assert (Ho : is_order 2 [1; 0]%nat) by apply perm_swap.
  split; [exact I|]. split; [exact Ho|]. split; [repeat constructor|]. split; [exact I|]. split; [apply argsort_ins_ok|].
  split.
  - cbn [sr3_ready sample_linear lm_el]. split; [lra|]. split; [apply inv_one_ok|].
    change (permute_columns [0]%nat [[1]]) with [[1]].
    assert (X : invertible inv_one 1 [[1]] 1 [2]); [|auto].
    eexists. eexists. split; [reflexivity|]. unfold h_matrix, inv_one. cbn. unfold reqb.
    match goal with |- context [Req_EM_T ?u 0] => destruct (Req_EM_T u 0) as [K|K] end; [lra|reflexivity].
  - destruct (run_b argsort_ins inv_one) as [lg [R _]].
    pose proof (permute_fit 2 [1; 0]%nat Ho argsort_ins inv_one plain_model [[1; -1]] [2] None false None I
      ltac:(repeat constructor) ltac:(discriminate) ltac:(discriminate) I) as P.
    eexists. etransitivity; [exact P|]. etransitivity; [exact (f_equal (rmap (fit_map (permute [1; 0]%nat))) R)|]. reflexivity.
Qed.

(*@ C109.  For every penalty of a linear model, multiplying features by -1 multiplies their coefficients by -1, if the
    start is given and is changed in the same way; the log is the same. *)
Lemma fit_flips_signs_partial_lemma : forall argsort inv m a p b signs x0 w,
  even_penalty (lm_reg m) -> is_signs p signs -> wf_mat p a ->
  length x0 = p -> (forall v, w = Some v -> length v = p) ->
  sr3_ready inv m p b a (flip_columns signs a) ->
  linear_fit argsort inv m (flip_columns signs a) p b (Some (flip signs x0)) true w
  = rmap (fit_map (flip signs)) (linear_fit argsort inv m a p b (Some x0) true w).
Proof. intros. apply flip_fit; auto. Qed.

(*@ C109 (refuted).  With the default start, all ones, this fails, also for runs that converge: one observation 2 of two
    features 1, 1 is fitted by 1, 1, but with the second feature multiplied by -1 it is fitted by 2, 0. *)
Lemma fit_flips_signs_refuted_lemma : forall argsort inv, exists lg lg',
  is_signs 2 [1; -1] /\
  linear_fit argsort inv plain_model [[1; 1]] 2 [2] None false None = Ok ([1; 1], lg) /\
  linear_fit argsort inv plain_model (flip_columns [1; -1] [[1; 1]]) 2 [2] None false None = Ok ([2; 0], lg') /\
  get lg "converged" = Ok (LAtom (LBool true)) /\ get lg' "converged" = Ok (LAtom (LBool true)) /\
  flip [1; -1] [1; 1] <> [2; 0].
Proof.
  intros argsort inv. destruct (run_a argsort inv) as [lg [R C]]. destruct (run_b argsort inv) as [lg' [R' C']].
  exists lg, lg'. split; [split; [reflexivity|constructor; [left; lra|constructor; [right; lra|constructor]]]|]. split; [exact R|].
  split.
  - replace (flip_columns [1; -1] [[1; 1]]) with [[1; -1]]; [exact R'|].
    unfold flip_columns, flip, vmul. cbn. repeat f_equal; lra.
  - split; [exact C|]. split; [exact C'|]. unfold flip, vmul. cbn. intros K. inversion K. lra.
Qed.
(*@ The hypotheses can hold, for an L0 model as well. *)
Lemma ex_fit_flips_signs_lemma :
  even_penalty (lm_reg keep_one) /\ even_penalty (lm_reg plain_model) /\ is_signs 2 [1; -1] /\ wf_mat 2 twin_features /\
  length [1; 1] = 2%nat /\ sr3_ready inv_one keep_one 2 [2] twin_features (flip_columns [1; -1] twin_features).
Proof. repeat split; auto; repeat constructor; auto. Qed.

(** ** order of the observations *)
Lemma practical_rows o o' pr pr' d d' rg tol mi : lp_p pr' = lp_p pr -> lp_c pr' = lp_c pr ->
  so_lam o' = so_lam o -> sd_h_inv d' = sd_h_inv d -> sd_ab d' = sd_ab d -> forall fuel x xp it,
  practical_loop fuel o' pr' d' rg tol mi x xp it = practical_loop fuel o pr d rg tol mi x xp it.
Proof.
  intros E1 E2 E3 E4 E5. induction fuel as [|fuel IH]; intros x xp it; simpl; [reflexivity|].
  destruct (moved tol x xp); [|reflexivity]. cbn [rbind]. destruct (_ && _)%bool; [|reflexivity].
  rewrite E1. destruct (guard _ _); [|reflexivity]. cbn [rbind]. rewrite E2, E3, E4, E5.
  destruct (r_prox rg _ _); [|reflexivity]. cbn [rbind]. apply IH.
Qed.

(*@ C110.  The fit of a linear model, its log included, does not depend on the order of the observations, whatever the
    penalty; SR3 models under the contract of np.linalg.inv. *)
Lemma linear_fit_ignores_row_order_lemma : forall argsort inv m a b a' b' p x0 warm w,
  same_observations a b a' b' -> wf_mat p a ->
  (forall el, lm_el m = Some el -> 0 < el /\ inv_ok inv) ->
  linear_fit argsort inv m a' p b' x0 warm w = linear_fit argsort inv m a p b x0 warm w.
Proof.
  intros argsort inv m a b a' b' p x0 warm w Same W Hs.
  assert (W' : wf_mat p a') by (destruct Same as [d [d' [Hd [[-> ->] [-> ->]]]]]; exact (rows_wf p d d' Hd W)).
  assert (Eb : length b = length a) by (destruct Same as [d [d' [Hd [[-> ->] [-> ->]]]]]; rewrite !map_length; auto).
  assert (La : length a' = length a)
    by (destruct Same as [d [d' [Hd [[-> ->] [-> ->]]]]]; rewrite !map_length; symmetry; apply Permutation_length; auto).
  assert (Lb : length b' = length b)
    by (destruct Same as [d [d' [Hd [[-> ->] [-> ->]]]]]; rewrite !map_length; symmetry; apply Permutation_length; auto).
  assert (Eb' : length b' = length a') by congruence.
  assert (Res : forall x, sqnorm (vsub (mv a' x) b') = sqnorm (vsub (mv a x) b))
    by (destruct Same as [d [d' [Hd [[-> ->] [-> ->]]]]]; exact (rows_res d d' Hd)).
  assert (Gram : forall x, tmv p a' (mv a' x) = tmv p a (mv a x))
    by (destruct Same as [d [d' [Hd [[-> ->] [-> ->]]]]]; exact (rows_gram p d d' Hd W)).
  assert (Ab : tmv p a' b' = tmv p a b)
    by (destruct Same as [d [d' [Hd [[-> ->] [-> ->]]]]]; exact (tmv_rows p d d' Hd W snd)).
  set (pr := {| lp_a := a; lp_b := b; lp_n := length a; lp_p := p; lp_c := eye p; lp_weights := None; lp_obs_std := None |}).
  set (pr' := {| lp_a := a'; lp_b := b'; lp_n := length a'; lp_p := p; lp_c := eye p; lp_weights := None; lp_obs_std := None |}).
  assert (Eh : forall el, h_matrix el pr' = h_matrix el pr)
    by (unfold pr, pr'; destruct Same as [d [d' [Hd [[-> ->] [-> ->]]]]]; exact (rows_h p d d' Hd W)).
  clear Same.
  unfold linear_fit, linear_from_x_y, mk_linear_problem. cbn [rbind]. fold pr pr'.
  unfold linear_fit_problem. change (lp_p pr') with p. change (lp_p pr) with p.
  assert (Eloss : lin_loss (lin_of pr') = lin_loss (lin_of pr)).
  { apply functional_extensionality. intros x. unfold lin_loss, lin_of, residual, pr, pr'. cbn [lo_problem lo_prior lp_p lp_n lp_a lp_b].
    rewrite Eb, Eb', !Nat.eqb_refl. destruct (guard (length x =? p)%nat ValueError); [|reflexivity]. cbn [guard rbind prior_loss].
    rewrite !norm_sq, Res. reflexivity. }
  assert (Egrad : lin_gradient (lin_of pr') = lin_gradient (lin_of pr)).
  { apply functional_extensionality. intros x. unfold lin_gradient, lin_of, residual, pr, pr'. cbn [lo_problem lo_prior lp_p lp_n lp_a lp_b].
    rewrite Eb, Eb', !Nat.eqb_refl. destruct (guard (length x =? p)%nat ValueError); [|reflexivity]. cbn [guard rbind prior_gradient].
    do 2 f_equal. rewrite !tmv_vsub by (auto; rewrite ?mv_length; auto). rewrite Gram, Ab. reflexivity. }
  assert (Eaic : lin_aic (lin_of pr') = lin_aic (lin_of pr)).
  { apply functional_extensionality. intros x. unfold lin_aic. rewrite Eloss. reflexivity. }
  assert (Ebic : lin_bic (lin_of pr') = lin_bic (lin_of pr)).
  { apply functional_extensionality. intros x. unfold lin_bic. rewrite Eloss. cbn [lin_of lo_problem pr pr' lp_n].
    rewrite La. reflexivity. }
  destruct (lm_el m) as [el|].
  - destruct (Hs el eq_refl) as [Hel Hi]. destruct (lm_prior m); [|reflexivity]. cbn [mk_sr3 negb guard rbind].
    unfold sr3_instantiate. cbn [so_lam so_practical].
    change (lp_p pr') with p. change (lp_p pr) with p. rewrite Eh.
    destruct (inv p (h_matrix el pr)) as [hi|e] eqn:Ei; [|reflexivity]. cbn [rbind].
    change (length (lp_b pr') =? lp_n pr')%nat with (length b' =? length a')%nat.
    change (length (lp_b pr) =? lp_n pr)%nat with (length b =? length a)%nat.
    rewrite Eb, Eb', !Nat.eqb_refl. cbn [guard rbind].
    change (lp_a pr') with a'. change (lp_b pr') with b'. change (lp_a pr) with a. change (lp_b pr) with b.
    destruct (Hi _ _ _ (h_wf el a p b W) Ei) as [Sh Hinv].
    assert (Hinv' : forall v, length v = p -> mv (h_matrix el pr') (mv hi v) = v) by (rewrite Eh; exact Hinv).
    set (o := {| so_lam := el; so_practical := false; so_problem := Some pr; so_data := Some
      {| sd_h_inv := hi; sd_ab := tmv p a b; sd_fg := Some (f_matrix el pr hi, mv (g_matrix el pr hi) b) |} |}).
    set (o' := {| so_lam := el; so_practical := false; so_problem := Some pr'; so_data := Some
      {| sd_h_inv := hi; sd_ab := tmv p a' b'; sd_fg := Some (f_matrix el pr' hi, mv (g_matrix el pr' hi) b') |} |}).
    pose proof (sr3_value_map p (fun x => x) (fun x H => H) (fun x y _ _ => eq_refl) (fun x y _ _ => eq_refl)
      (fun c x _ => eq_refl) (fun x y _ _ => eq_refl) a a' b b' W W' La Lb
      (fun x _ _ => Res x) (fun x _ => Gram x) (fun _ => Ab)
      el hi hi Hel Eb Sh Sh Hinv Hinv' o o' eq_refl eq_refl eq_refl eq_refl eq_refl eq_refl) as V.
    pose proof (sr3_gradient_map p (fun x => x) (fun x H => H) (fun x y _ _ => eq_refl) (fun x y _ _ => eq_refl)
      (fun c x _ => eq_refl) a a' b b' W W' La Lb
      (fun x _ => Gram x) (fun _ => Ab)
      el hi hi Hel Eb Sh Sh Hinv Hinv' o o' eq_refl eq_refl eq_refl eq_refl eq_refl eq_refl) as G.
    assert (Eo : sr3_as_oracle o' = sr3_as_oracle o).
    { unfold sr3_as_oracle. f_equal; apply functional_extensionality; intros s; apply functional_extensionality; intros x.
      - destruct (Nat.eqb_spec (length x) p) as [Lx|Lx]; [rewrite V by auto; reflexivity|].
        unfold sr3_value, sr3_fg, o, o'. cbn [so_practical negb guard rbind so_problem so_data sd_fg].
        change (lp_p pr') with p. change (lp_p pr) with p. apply Nat.eqb_neq in Lx. rewrite Lx. reflexivity.
      - destruct (Nat.eqb_spec (length x) p) as [Lx|Lx].
        + rewrite G by auto. destruct (sr3_gradient o x); reflexivity.
        + unfold sr3_gradient, sr3_fg, o, o'. cbn [so_practical negb guard rbind so_problem so_data sd_fg].
          change (lp_p pr') with p. change (lp_p pr) with p. apply Nat.eqb_neq in Lx. rewrite Lx. reflexivity. }
    assert (Ef : forall rg tol mi, sr3_find o' rg tol mi = sr3_find o rg tol mi).
    { intros rg tol mi. apply functional_extensionality. intros x. unfold sr3_find, sr3_find_count.
      change (so_lam o) with el. change (so_lam o') with el.
      change (so_problem o) with (Some pr). change (so_problem o') with (Some pr').
      unfold o at 1, o' at 1. cbn [so_data]. destruct (guard (nonzero el) ZeroDivisionError); [|reflexivity]. cbn [rbind].
      erewrite (practical_rows o o' pr pr'); [reflexivity|..]; try reflexivity. exact Ab. }
    assert (Ea : sr3_aic o' = sr3_aic o) by exact Eaic. assert (Ec : sr3_bic o' = sr3_bic o) by exact Ebic.
    rewrite Eo, Ea, Ec. destruct (instantiate _ _ _); [|reflexivity]. cbn [rbind].
    destruct (mk_logger _); [|reflexivity]. cbn [rbind]. rewrite Ef. reflexivity.
  - destruct (lm_prior m); [|reflexivity]. cbn [lin_instantiate lo_prior rbind].
    fold (lin_of pr) (lin_of pr').
    assert (Eo : lin_as_oracle (lin_of pr') = lin_as_oracle (lin_of pr)) by (unfold lin_as_oracle; rewrite Eloss, Egrad; reflexivity).
    rewrite Eo, Eaic, Ebic. reflexivity.
Qed.
(*@ Two observations in two orders. *)
Lemma ex_linear_fit_ignores_row_order_lemma :
  same_observations [[1; 0]; [0; 1]] [3; 4] [[0; 1]; [1; 0]] [4; 3] /\ wf_mat 2 [[1; 0]; [0; 1]] /\ inv_ok inv_one.
Proof.
  split; [|split; [repeat constructor|apply inv_one_ok]].
  exists [([1; 0], 3); ([0; 1], 4)], [([0; 1], 4); ([1; 0], 3)]. split; [apply perm_swap|]. repeat split.
Qed.
