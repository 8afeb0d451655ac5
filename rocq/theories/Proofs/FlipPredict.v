(** Predictions and scores for tables with changed signs. *)
From Coq Require Import Lra Lia.
From Verif.Base Require Import Py Vec Mat.
From Verif.Model Require Import LmeProblem Solvers LmeFit LmePredict LmeUse.
From Verif.Spec Require Import ColumnSpec LmeSpec FlipSpec.
From Verif.Proofs Require Import VecFacts ColumnCases LinearProofs FlipTable.
Open Scope R_scope.

Lemma vsum_cons a x : vsum (a :: x) = a + vsum x.
Proof. reflexivity. Qed.
Lemma dot_flip (e : R) : forall s x b, all_signs s -> length x = length s -> length b = length s ->
  vdot (flip s x) (flip (vscale e s) b) = e * vdot x b.
Proof.
  unfold flip, vscale, vdot. induction s as [|t s IH]; intros [|a x] [|c b] A L1 L2; try discriminate; [unfold vmul; cbn; ring|].
  inversion A; subst. cbn [map]. specialize (IH x b H2 ltac:(cbn in L1; lia) ltac:(cbn in L2; lia)).
  unfold vmul in *. cbn [map2]. rewrite !vsum_cons, IH. destruct H1 as [->| ->]; ring.
Qed.
Lemma mv_flip e s x b : is_signs (length b) s -> wf_mat (length b) x ->
  mv (flip_columns s x) (flip (vscale e s) b) = vscale e (mv x b).
Proof.
  intros [L A] W. unfold mv, flip_columns, vscale at 2. rewrite !map_map. apply map_ext_in. intros row Hr.
  unfold wf_mat in W. rewrite Forall_forall in W. apply dot_flip; auto; rewrite L; auto.
Qed.
Lemma vscale_add e : forall x y, vscale e (vadd x y) = vadd (vscale e x) (vscale e y).
Proof. unfold vscale, vadd. induction x as [|a x IH]; intros [|b y]; cbn; try reflexivity. rewrite IH. f_equal. ring. Qed.
Lemma take_map {A B} (f : A -> B) us idx : take_rows (map f us) idx = rmap (map f) (take_rows us idx).
Proof.
  unfold take_rows. induction idx as [|i idx IH]; [reflexivity|]. cbn [map sequence]. rewrite IH, nth_error_map.
  destruct (nth_error us i); [|reflexivity]. cbn [option_map rbind].
  destruct (sequence (map (fun i => match nth_error us i with Some v => Ok v | None => Err IndexError end) idx)); reflexivity.
Qed.
Lemma take_in {A} (us : list A) idx vs : take_rows us idx = Ok vs -> forall v, In v vs -> In v us.
Proof.
  unfold take_rows. revert vs. induction idx as [|i idx IH]; intros vs; cbn [map sequence]; [intros [= <-] v []|].
  destruct (nth_error us i) as [u|] eqn:E; [|discriminate]. cbn [rbind].
  destruct (sequence (map (fun i => match nth_error us i with Some v => Ok v | None => Err IndexError end) idx)) as [ws|]; [|discriminate].
  cbn [rbind]. intros [= <-] v [<-|H]; [apply nth_error_In in E; auto|]. apply (IH ws); auto.
Qed.
Lemma same_length {A B} (f : A -> list B) (g : A -> list B) l : (forall a, In a l -> length (f a) = length (g a)) ->
  length (concat (map f l)) = length (concat (map g l)).
Proof. induction l as [|a l IH]; intros H; [reflexivity|]. cbn. rewrite !app_length, IH, (H a); auto using in_eq, in_cons. Qed.

Section Predict.
Variables (cs : vec) (labels : list string) (ff fr : bool) (e : R).
Hypothesis Hcs : column_signs labels cs.
Hypothesis He : e = 1 \/ e = -1.
Notation p := (countb is_fixed labels + b2n ff)%nat.
Notation q := (countb is_random labels + b2n fr)%nat.
Notation s1 := (role_signs is_fixed ff labels cs).
Notation s2 := (role_signs is_random fr labels cs).
Variable co : LmeFit.lme_coef.
Hypothesis Lb : length (co_beta co) = p.
Hypothesis Lu : Forall (fun u => length u = q) (co_effects co).
Variable lg : logger.
Notation co' := (fst (flip_lme_fit q e s1 s2 cs (co, lg))).

Lemma sized_flip n s x : is_signs n s -> length x = n -> length (flip (vscale e s) x) = n.
Proof. intros [L _] H. unfold flip, vmul. rewrite map2_length. unfold vscale. rewrite map_length, L, H. apply Nat.min_id. Qed.

Lemma group_flip label x z : wf_mat p x -> wf_mat q z ->
  predict_group (predictor co') q label (flip_columns s1 x) (flip_columns s2 z)
  = rmap (vscale e) (predict_group (predictor co) q label x z).
Proof.
  pose proof (plain_signs cs labels e Hcs He is_fixed ff) as H1. pose proof (plain_signs cs labels e Hcs He is_random fr) as H2.
  intros Wx Wz. unfold predict_group. cbn [predictor flip_lme_fit fst snd cf_beta cf_us cf_group_labels co_beta co_effects co_labels].
  rewrite mv_flip by (rewrite Lb; auto). destruct (0 <? q)%nat eqn:Q; [|reflexivity]. apply Nat.ltb_lt in Q.
  rewrite take_map. destruct (take_rows (co_effects co) _) as [us|] eqn:T; [|reflexivity]. cbn [rmap rbind].
  assert (U : forall u, In u us -> length u = q) by (intros u Hu; rewrite Forall_forall in Lu; apply Lu; eapply take_in; eauto).
  assert (E : length (concat (map (flip (vscale e s2)) us)) = length (concat us)).
  { rewrite <- (map_id us) at 2. apply same_length. intros u Hu. rewrite (sized_flip q); auto. rewrite U; auto. }
  rewrite E. destruct (length (concat us) =? q)%nat eqn:C; [|reflexivity]. apply Nat.eqb_eq in C. cbn [guard rbind rmap].
  destruct us as [|u [|w us]].
  - cbn in C. lia.
  - cbn [map concat]. rewrite !app_nil_r, mv_flip by (rewrite (U u) by (left; auto); auto). rewrite vscale_add. reflexivity.
  - cbn [concat] in C. rewrite !app_length, (U u), (U w) in C by (cbn; auto). lia.
Qed.

Lemma groups_predict : forall (ls : list R) fixed random, Forall (wf_mat p) fixed -> Forall (wf_mat q) random ->
  sequence (map2 (fun label xz => predict_group (predictor co') q label (fst xz) (snd xz)) ls
    (combine (map (flip_columns s1) fixed) (map (flip_columns s2) random)))
  = rmap (map (vscale e)) (sequence (map2 (fun label xz => predict_group (predictor co) q label (fst xz) (snd xz)) ls (combine fixed random))).
Proof.
  induction ls as [|l ls IH]; intros [|x fixed] [|z random] Wf Wr; try reflexivity.
  inversion Wf; subst. inversion Wr; subst. cbn [map combine map2 sequence fst snd]. rewrite group_flip by auto. rewrite IH by auto.
  destruct (predict_group (predictor co) q l x z); [|reflexivity]. cbn [rmap rbind].
  destruct (sequence _); reflexivity.
Qed.
Lemma concat_scale : forall ys, concat (map (vscale e) ys) = vscale e (concat ys).
Proof. unfold vscale. induction ys as [|y ys IH]; [reflexivity|]. cbn. rewrite IH, map_app. reflexivity. Qed.

Lemma predict_flip x : wf_table x -> t_cols x = length labels ->
  predict (Some (predictor co')) (flip_table cs x) (Some labels) ff fr
  = rmap (vscale e) (predict (Some (predictor co)) x (Some labels) ff fr).
Proof.
  intros W Hx. unfold predict. cbn [flip_table t_rows t_cols]. unfold flip_columns at 1. rewrite map_length.
  destruct (guard _ ValueError) as [u|]; [|reflexivity]. cbn [rbind].
  pose proof (from_x_y_flip cs labels ff fr e Hcs x None W Hx) as F. cbn [option_map] in F.
  destruct (from_x_y x None None (Some labels) ff fr None None) as [pr|er];
    change {| t_cols := t_cols x; t_rows := flip_columns cs (t_rows x) |} with (flip_table cs x);
    destruct (from_x_y (flip_table cs x) None None (Some labels) ff fr None None) as [pr'|er']; try contradiction;
    [|rewrite F; reflexivity].
  cbn [rbind]. destruct (fs_p _ _ _ _ _ _ _ F) as [Ep Ep']. destruct (fs_q _ _ _ _ _ _ _ F) as [Eq Eq'].
  pose proof (scaled_signs cs labels e Hcs He is_fixed ff) as H1. pose proof (plain_signs cs labels e Hcs He is_random fr) as H2.
  unfold predict_problem. rewrite Ep, Ep', Eq, Eq', (fs_groups _ _ _ _ _ _ _ F), (fs_fixed _ _ _ _ _ _ _ F), (fs_random _ _ _ _ _ _ _ F).
  rewrite (groups_predict (pr_group_labels pr) _ _ (fs_flen _ _ _ _ _ _ _ F) (fs_rlen _ _ _ _ _ _ _ F)).
  change (cf_beta (predictor co')) with (flip (vscale e s1) (co_beta co)).
  change (cf_us (predictor co')) with (map (flip (vscale e s2)) (co_effects co)).
  rewrite (sized_flip p s1) by (auto using (plain_signs cs labels e Hcs He is_fixed ff)).
  change (cf_beta (predictor co)) with (co_beta co). change (cf_us (predictor co)) with (co_effects co). rewrite Lb.
  destruct (guard (p =? p)%nat AssertionError); [|reflexivity]. cbn [rbind].
  assert (G : match map (flip (vscale e s2)) (co_effects co) with [] => Ok tt | u0 :: _ => guard (q =? length u0)%nat AssertionError end
    = match co_effects co with [] => Ok tt | u0 :: _ => guard (q =? length u0)%nat AssertionError end).
  { destruct Lu as [|w ws Hw]; [reflexivity|]. cbn [map]. rewrite (sized_flip q s2) by auto. rewrite Hw. reflexivity. }
  rewrite G. destruct (match co_effects co with [] => Ok tt | u0 :: _ => guard (q =? length u0)%nat AssertionError end); [|reflexivity].
  cbn [rbind]. destruct (sequence _) as [ys|]; [|reflexivity]. cbn [rmap rbind].
  destruct ys as [|y ys]; [reflexivity|]. cbn [map rmap]. f_equal. apply (concat_scale (y :: ys)).
Qed.

Lemma sum_scale_sq : forall x, vsum (map (fun d => d ^ 2) (vscale e x)) = vsum (map (fun d => d ^ 2) x).
Proof.
  unfold vscale. induction x as [|a x IH]; [reflexivity|]. cbn [map] in *. rewrite !vsum_cons, IH.
  f_equal. destruct He as [->| ->]; ring.
Qed.
Lemma vscale_sub : forall x y, vsub (vscale e x) (vscale e y) = vscale e (vsub x y).
Proof. unfold vscale, vsub. induction x as [|a x IH]; intros [|b y]; cbn; try reflexivity. rewrite IH. f_equal. ring. Qed.
Lemma sum_scale : forall x, vsum (vscale e x) = e * vsum x.
Proof. unfold vscale. induction x as [|a x IH]; cbn [map] in *; [unfold vsum; cbn; ring|]. rewrite !vsum_cons, IH. ring. Qed.
Lemma score_flip x y : wf_table x -> t_cols x = length labels ->
  score (Some (predictor co')) (flip_table cs x) (vscale e y) (Some labels) ff fr
  = score (Some (predictor co)) x y (Some labels) ff fr.
Proof.
  intros W Hx. unfold score. rewrite predict_flip by auto. destruct (predict _ x _ _ _) as [yp|]; [|reflexivity]. cbn [rmap rbind].
  assert (E : length (vscale e yp) = length yp /\ length (vscale e y) = length y) by (unfold vscale; rewrite !map_length; auto).
  destruct E as [-> ->]. destruct (guard _ ValueError); [|reflexivity]. cbn [rbind]. rewrite vscale_sub, sum_scale_sq.
  assert (V : vsum (map (fun a => (a - mean (vscale e y)) ^ 2) (vscale e y)) = vsum (map (fun a => (a - mean y) ^ 2) y)).
  { unfold mean. rewrite sum_scale. replace (length (vscale e y)) with (length y) by (unfold vscale; rewrite map_length; auto).
    f_equal. unfold vscale at 1. rewrite map_map. apply map_ext. intros z. unfold Rdiv. destruct He as [->| ->]; ring. }
  rewrite V. reflexivity.
Qed.
End Predict.
