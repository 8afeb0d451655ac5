(** An L0 mixed model on two features that are the same. *)
From Coq Require Import Lra Psatz String Permutation.
From Verif.Base Require Import Py Vec Mat.
From Verif.Model Require Import LmeProblem Regularizers Solvers Linear LmeInner LmeFit LmeBridge.
From Verif.Spec Require Import ProxSpec RegSpec SolverSpec LinearSpec LmeSpec InnerSpec FitSpec ColumnSpec FeatureTableSpec.
From Verif.Proofs Require Import VecFacts L0Proofs RegularizerProofs L0LMEProofs RegularizersMain SolverProofs SolversMain
  LinearProofs LinearMain InnerProofs LmeInnerMain LmeProblemProofs LmeProblemMain FitProofs BridgeProofs LmeFitMain.
Open Scope list_scope.
Open Scope R_scope.

Lemma twin_problem : from_x_y twin_table (Some [0]) None (Some twin_labels) false false None None = Ok (flat_problem 2 1).
Proof.
  assert (i0 : is_int 0 = true) by (apply is_int_true; exists 0%Z; reflexivity).
  assert (n1 : nonzero 1 = true) by (apply nonzero_true; lra).
  assert (r0 : reqb 0 0 = true) by apply reqb_refl.
  assert (l0 : rltb 0 0 = false) by (apply rltb_false; lra).
  unfold from_x_y, twin_table, twin_labels. cbn. unfold column. cbn. rewrite n1. cbn.
  unfold unique_labels. cbn. rewrite i0. cbn.
  assert (g0 : in_group 0 0 [0; 0; 0; 0; 1] = true) by exact r0.
  unfold where_. cbn. rewrite !g0. reflexivity.
Qed.

Lemma keep_one_of_two argsort : argsort_ok argsort ->
  take_only_k_max argsort [1; 1] 1 = [1; 0] \/ take_only_k_max argsort [1; 1] 1 = [0; 1].
Proof.
  intros Ha. unfold take_only_k_max. change (0 <? 1)%Z with true. cbv iota.
  unfold vabs, last_k. cbn [map]. change (Z.to_nat 1) with 1%nat.
  destruct (Ha [Rabs 1; Rabs 1]) as [A1 [A2 _]]. revert A1 A2. generalize (argsort [Rabs 1; Rabs 1]). intros l A1 A2.
  assert (Pl : Permutation l (seq 0 2)).
  { apply NoDup_Permutation; auto using seq_NoDup. intros i. rewrite A1, in_seq. simpl. lia. }
  assert (Ll : length l = 2%nat) by (apply Permutation_length in Pl; exact Pl).
  destruct l as [|i [|j [|? ?]]]; try discriminate. cbn [length skipn Nat.sub].
  assert (Hj : (j < 2)%nat) by (apply A1; right; left; auto).
  unfold mapi. cbn [mapi_from memb existsb]. rewrite !orb_false_r.
  destruct j as [|[|j]]; [left|right|lia]; reflexivity.
Qed.
Lemma keep_one_of_one argsort : argsort_ok argsort -> take_only_k_max argsort [1] 1 = [1].
Proof.
  intros Ha. unfold take_only_k_max. change (0 <? 1)%Z with true. cbv iota.
  unfold vabs, last_k. cbn [map]. change (Z.to_nat 1) with 1%nat.
  destruct (Ha [Rabs 1]) as [A1 [A2 _]]. revert A1 A2. generalize (argsort [Rabs 1]). intros l A1 A2.
  assert (Pl : Permutation l (seq 0 1)).
  { apply NoDup_Permutation; auto using seq_NoDup. intros i. rewrite A1, in_seq. simpl. lia. }
  assert (Ll : length l = 1%nat) by (apply Permutation_length in Pl; exact Pl).
  destruct l as [|i [|? ?]]; try discriminate. cbn [length skipn Nat.sub].
  assert (Hj : (i < 1)%nat) by (apply A1; left; auto).
  unfold mapi. cbn [mapi_from memb existsb]. rewrite !orb_false_r.
  destruct i as [|i]; [|lia]; reflexivity.
Qed.

Lemma twin_fit argsort cdf : argsort_ok argsort -> exists co lg,
  lme_fit argsort cdf twin_model None twin_table [0] (Some twin_labels) None None false false false None None = Ok (co, lg) /\
  (co_beta co = [1; 0] \/ co_beta co = [0; 1]).
Proof.
  intros Ha.
  assert (F : lme_fit argsort cdf twin_model None twin_table [0] (Some twin_labels) None None false false false None None
    = lme_fit_problem argsort cdf twin_model None (flat_problem 2 1) None None false None None).
  { unfold lme_fit, fit. change (check_X_y twin_table [0]) with (@Ok unit tt). cbn [rbind].
    exact (f_equal (fun r => rbind r (fun pr => lme_fit_problem argsort cdf twin_model None pr None None false None None)) twin_problem). }
  rewrite F.
  set (m := twin_model). set (c := problem_calls cdf (flat_problem 2 1) None None).
  assert (B : exists b1, take_only_k_max argsort [1; 1] 1 = b1 /\ (b1 = [1; 0] \/ b1 = [0; 1])).
  { destruct (keep_one_of_two argsort Ha) as [K|K]; eauto. }
  destruct B as [b1 [K2 Hb]]. pose proof (keep_one_of_one argsort Ha) as K1.
  assert (Lb : length b1 = 2%nat) by (destruct Hb as [Hb|Hb]; rewrite Hb; reflexivity).
  assert (E : lc_random_effects c b1 [1] = Ok [zeros 1])
    by (apply (@flat_calls_effects 2 1 cdf None b1 [1]); auto).
  assert (Gb : lc_gradient_beta c [1; 1] [1] = Ok (zeros 2)) by (apply (@flat_calls_gradient_beta 2 1 cdf None [1; 1] [1]); reflexivity).
  assert (Gg : lc_gradient_gamma c [1; 1] [1] = Ok (zeros 1)) by (apply (@flat_calls_gradient_gamma 2 1 cdf None [1; 1] [1]); reflexivity).
  assert (N1 : reqb 1 0 = false) by (apply reqb_false; lra).
  assert (Hov : oracle_view_of (flat_problem 2 1) = Ok {| ov_p := 2; ov_q := 1; ov_map := [(-1)%Z; (-1)%Z] |}) by (vm_compute; reflexivity).
  destruct (model_reg m {| ov_p := 2; ov_q := 1; ov_map := [(-1)%Z; (-1)%Z] |}) as [r0|] eqn:Hr0; [|discriminate].
  destruct (instantiate r0 ([1; 1] ++ [1]) (Some {| ov_p := 2; ov_q := 1; ov_map := [(-1)%Z; (-1)%Z] |})) as [r|] eqn:Hr;
    [|injection Hr0 as <-; discriminate].
  assert (P : prox argsort r [1; 1; 1] (5 / 100) = Ok (b1 ++ [1])).
  { injection Hr0 as <-. injection Hr as <-.
    cbn [prox gamma_mask ov_p ov_q repeat app length Nat.eqb guard rbind mask_map map2].
    assert (N : nonzero (1 + 5 / 100 * 0) = true).
    { unfold nonzero. apply negb_true_iff. apply reqb_false. lra. }
    rewrite N. cbn [guard rbind map].
    assert (H2 : clip0 1 = 1) by (unfold clip0, Rmax; destruct (Rle_dec 1 0); lra).
    assert (H1 : 1 / (1 + 5 / 100 * 0) = 1) by field.
    unfold l0lme_prox, optimal_tbeta, optimal_tgamma, take_masked, hierarchy_zeros.
    unfold nonzero. rewrite N1. cbn -[take_only_k_max reqb]. rewrite ?H1, K2. clear K2 E.
    clear Lb. destruct Hb as [Hb|Hb]; rewrite Hb; cbn -[take_only_k_max reqb]; rewrite ?N1, ?(reqb_refl 0); cbn -[take_only_k_max reqb]; rewrite H2, H1, K1; reflexivity. }
  clear K2.
  assert (PG : exists pg, per_group_coefficients (fst (x_to_beta_gamma 2 1 (b1 ++ [1]))) [zeros 1]
    (pr_intercept (flat_problem 2 1) :: map Some (pr_labels (flat_problem 2 1))) = Ok pg).
  { destruct Hb as [Hb|Hb]; rewrite Hb; eexists; reflexivity. }
  destruct PG as [pg PG].
  eexists. eexists. split; [unfold lme_fit_problem; eapply fit_problem_run with (g := None) (beta1 := [1; 1]) (gamma1 := [1]) (us := [zeros 1]) (x := b1 ++ [1]);
     [reflexivity|exact Hov|reflexivity|reflexivity|exact Hr0|exact Hr|reflexivity|reflexivity| | | |]|].
  - unfold run_solver. cbn [step_length given_step m twin_model flat_model mo_step_len mo_sr3 mo_penalty rbind mo_tol mo_max_iter mo_stepping].
    change (num_fixed (flat_problem 2 1)) with 2%nat. change (num_random (flat_problem 2 1)) with 1%nat.
    rewrite (pgd_one_step _ _ _ _ ([1; 1] ++ [1]) (zeros 3) (b1 ++ [1])).
    + cbn [rbind]. reflexivity.
    + discriminate.
    + cbn [lme_as_oracle o_grad]. unfold joint_gradient. cbn [x_to_beta_gamma firstn skipn app].
      fold c. rewrite Gb. cbn [rbind]. rewrite Gg. reflexivity.
    + reflexivity.
    + cbn [as_regularizer r_prox s_step_len].
      replace (vadd ([1; 1] ++ [1]) (vscale (5 / 100) (vneg (zeros 3)))) with [1; 1; 1]; [exact P|].
      unfold vadd, vscale, vneg, zeros. cbn. repeat f_equal; lra.
    + rewrite app_length, Lb. reflexivity.
  - change (num_fixed (flat_problem 2 1)) with 2%nat. change (num_random (flat_problem 2 1)) with 1%nat.
    destruct Hb as [Hb|Hb]; rewrite Hb in *; exact E.
  - exact PG.
  - reflexivity.
  - destruct Hb as [Hb|Hb]; [left|right]; rewrite Hb; reflexivity.
Qed.

(** no iterations: the start is returned *)
Lemma twin_start argsort cdf a b d : exists co lg,
  lme_fit argsort cdf (flat_model PenNone None 0 0) None twin_table [0] (Some twin_labels) (Some [a; b]) (Some [d]) false false false None None
  = Ok (co, lg) /\ co_beta co = [a; b].
Proof.
  assert (F : lme_fit argsort cdf (flat_model PenNone None 0 0) None twin_table [0] (Some twin_labels) (Some [a; b]) (Some [d]) false false false None None
    = lme_fit_problem argsort cdf (flat_model PenNone None 0 0) None (flat_problem 2 1) (Some [a; b]) (Some [d]) false None None).
  { unfold lme_fit, fit. change (check_X_y twin_table [0]) with (@Ok unit tt). cbn [rbind].
    exact (f_equal (fun r => rbind r (fun pr => lme_fit_problem argsort cdf (flat_model PenNone None 0 0) None pr (Some [a; b]) (Some [d]) false None None)) twin_problem). }
  rewrite F.
  assert (Hov : oracle_view_of (flat_problem 2 1) = Ok {| ov_p := 2; ov_q := 1; ov_map := [(-1)%Z; (-1)%Z] |}) by (vm_compute; reflexivity).
  assert (E : lc_random_effects (problem_calls cdf (flat_problem 2 1) None None) [a; b] [d] = Ok [zeros 1])
    by (apply (@flat_calls_effects 2 1 cdf None [a; b] [d]); reflexivity).
  eexists. eexists. split; [unfold lme_fit_problem; eapply fit_problem_run with (g := None) (beta1 := [a; b]) (gamma1 := [d]) (us := [zeros 1]); try reflexivity|].
  - exact E.
  - reflexivity.
Qed.

(** the table is not changed by an exchange of the twins *)
Lemma twin_exchanged : reorder_table [0; 2; 1; 3; 4]%nat twin_table = twin_table /\
  reorder_labels [0; 2; 1; 3; 4]%nat twin_labels = twin_labels.
Proof. split; reflexivity. Qed.
Lemma twin_refuted argsort cdf : argsort_ok argsort ->
  lme_fit argsort cdf twin_model None (reorder_table [0; 2; 1; 3; 4]%nat twin_table) [0]
    (Some (reorder_labels [0; 2; 1; 3; 4]%nat twin_labels)) None None false false false None None
  <> rmap (reorder_fit 2 [1; 0]%nat [0]%nat [0; 2; 1; 3; 4]%nat)
       (lme_fit argsort cdf twin_model None twin_table [0] (Some twin_labels) None None false false false None None).
Proof.
  intros Ha. destruct twin_exchanged as [X1 X2]. rewrite X1, X2.
  destruct (twin_fit argsort cdf Ha) as (co & lg & F & B). rewrite F. cbn [rmap]. unfold reorder_fit. cbn [fst snd].
  intros K. apply Ok_inj in K. apply (f_equal (fun r => nth 0 (co_beta (fst r)) 0)) in K. cbn [fst co_beta] in K.
  destruct B as [B|B]; rewrite B in K; unfold permute in K; cbn [nth map] in K; lra.
Qed.
Lemma twin_order : is_order 5 [0; 2; 1; 3; 4]%nat /\ role_order is_fixed false twin_labels [0; 2; 1; 3; 4]%nat = [1; 0]%nat /\
  role_order is_random false twin_labels [0; 2; 1; 3; 4]%nat = [0]%nat /\ wf_table twin_table /\
  role_order is_fixed true twin_labels [0; 2; 1; 3; 4]%nat = [0; 2; 1]%nat.
Proof.
  split; [apply perm_skip, perm_swap|]. split; [reflexivity|]. split; [reflexivity|].
  split; [repeat constructor|reflexivity].
Qed.
