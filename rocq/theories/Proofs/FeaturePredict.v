(** Predictions and scores for tables with their columns in another order. *)
From Coq Require Import Lra Lia.
From Verif.Base Require Import Py Vec Mat.
From Verif.Model Require Import LmeProblem Solvers LmeFit LmePredict LmeUse.
From Verif.Spec Require Import ColumnSpec LmeSpec FeatureTableSpec.
From Verif.Proofs Require Import VecFacts ColumnCases LinearProofs FeatureTable FeatureCoefs FlipPredict.
Open Scope R_scope.

Lemma mv_reorder o x b : is_order (length b) o -> wf_mat (length b) x -> mv (permute_columns o x) (permute o b) = mv x b.
Proof.
  intros O W. unfold mv, permute_columns. rewrite map_map. apply map_ext_in. intros row Hr.
  unfold wf_mat in W. rewrite Forall_forall in W. apply (permute_dot (length b)); auto.
Qed.

Section Predict.
Variables (order : list nat) (labels : list string) (ff fr : bool).
Hypothesis Ho : is_order (length labels) order.
Notation labels' := (reorder_labels order labels).
Notation p := (countb is_fixed labels + b2n ff)%nat.
Notation q := (countb is_random labels + b2n fr)%nat.
Notation o1 := (role_order is_fixed ff labels order).
Notation o2 := (role_order is_random fr labels order).
Variable co : LmeFit.lme_coef.
Hypothesis Lb : length (co_beta co) = p.
Hypothesis Lu : Forall (fun u => length u = q) (co_effects co).
Variable lg : logger.
Notation co' := (fst (reorder_fit p o1 o2 order (co, lg))).
Lemma O1 : is_order p o1.
Proof. apply role_is_order; auto. Qed.
Lemma O2 : is_order q o2.
Proof. apply role_is_order; auto. Qed.

Lemma group_reorder label x z : wf_mat p x -> wf_mat q z ->
  predict_group (predictor co') q label (permute_columns o1 x) (permute_columns o2 z) = predict_group (predictor co) q label x z.
Proof.
  pose proof O1 as H1. pose proof O2 as H2.
  intros Wx Wz. unfold predict_group. cbn [predictor reorder_fit fst snd cf_beta cf_us cf_group_labels co_beta co_effects co_labels].
  rewrite mv_reorder by (rewrite Lb; auto). destruct (0 <? q)%nat eqn:Q; [|reflexivity]. apply Nat.ltb_lt in Q.
  rewrite take_map. destruct (take_rows (co_effects co) _) as [us|] eqn:T; [|reflexivity]. cbn [rmap rbind].
  assert (U : forall u, In u us -> length u = q) by (intros u Hu; rewrite Forall_forall in Lu; apply Lu; eapply take_in; eauto).
  assert (E : length (concat (map (permute o2) us)) = length (concat us)).
  { rewrite <- (map_id us) at 2. apply same_length. intros u Hu. rewrite (permute_len q o2 H2), U; auto. }
  rewrite E. destruct (length (concat us) =? q)%nat eqn:C; [|reflexivity]. apply Nat.eqb_eq in C. cbn [guard rbind].
  destruct us as [|u [|w us]].
  - cbn in C. lia.
  - cbn [map concat]. rewrite !app_nil_r, mv_reorder by (rewrite (U u) by (left; auto); auto). reflexivity.
  - cbn [concat] in C. rewrite !app_length, (U u), (U w) in C by (cbn; auto). lia.
Qed.
Lemma groups_predict_reorder : forall (ls : list R) fixed random, Forall (wf_mat p) fixed -> Forall (wf_mat q) random ->
  map2 (fun label xz => predict_group (predictor co') q label (fst xz) (snd xz)) ls
    (combine (map (permute_columns o1) fixed) (map (permute_columns o2) random))
  = map2 (fun label xz => predict_group (predictor co) q label (fst xz) (snd xz)) ls (combine fixed random).
Proof.
  induction ls as [|l ls IH]; intros [|x fixed] [|z random] Wf Wr; try reflexivity.
  inversion Wf; subst. inversion Wr; subst. cbn [map combine map2 fst snd]. rewrite group_reorder, IH by auto. reflexivity.
Qed.
Lemma predict_reorder x : wf_table x -> t_cols x = length labels ->
  predict (Some (predictor co')) (reorder_table order x) (Some labels') ff fr = predict (Some (predictor co)) x (Some labels) ff fr.
Proof.
  intros W Hx. unfold predict. cbn [reorder_table t_rows t_cols]. unfold permute_columns at 1. rewrite map_length.
  destruct (guard _ ValueError) as [u|]; [|reflexivity]. cbn [rbind].
  pose proof (from_x_y_reorder order labels ff fr Ho x None W Hx) as F.
  change {| t_cols := t_cols x; t_rows := permute_columns order (t_rows x) |} with (reorder_table order x).
  destruct (from_x_y x None None (Some labels) ff fr None None) as [pr|er];
    destruct (from_x_y (reorder_table order x) None None (Some labels') ff fr None None) as [pr'|er']; try contradiction;
    [|rewrite F; reflexivity].
  cbn [rbind]. destruct (ts_p _ _ _ _ Ho _ _ F) as [Ep Ep']. destruct (ts_q _ _ _ _ Ho _ _ F) as [Eq Eq'].
  unfold predict_problem. rewrite Ep, Ep', Eq, Eq', (ts_groups _ _ _ _ _ _ F), (ts_fixed _ _ _ _ _ _ F), (ts_random _ _ _ _ _ _ F).
  rewrite (groups_predict_reorder (pr_group_labels pr) _ _ (ts_flen _ _ _ _ _ _ F) (ts_rlen _ _ _ _ _ _ F)).
  change (cf_beta (predictor co')) with (permute o1 (co_beta co)). change (cf_us (predictor co')) with (map (permute o2) (co_effects co)).
  rewrite (permute_len p o1 O1). change (cf_beta (predictor co)) with (co_beta co). change (cf_us (predictor co)) with (co_effects co). rewrite Lb.
  destruct (guard (p =? p)%nat AssertionError); [|reflexivity]. cbn [rbind].
  assert (G : match map (permute o2) (co_effects co) with [] => Ok tt | u0 :: _ => guard (q =? length u0)%nat AssertionError end
    = match co_effects co with [] => Ok tt | u0 :: _ => guard (q =? length u0)%nat AssertionError end).
  { destruct Lu as [|w ws Hw]; [reflexivity|]. cbn [map]. rewrite (permute_len q o2 O2), Hw. reflexivity. }
  rewrite G. reflexivity.
Qed.
Lemma score_reorder x y : wf_table x -> t_cols x = length labels ->
  score (Some (predictor co')) (reorder_table order x) y (Some labels') ff fr = score (Some (predictor co)) x y (Some labels) ff fr.
Proof. intros W Hx. unfold score. rewrite predict_reorder by auto. reflexivity. Qed.
End Predict.
