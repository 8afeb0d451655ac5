(** Tables with changed signs, and the coefficients per group. *)
From Coq Require Import Lra.
From Verif.Base Require Import Py Vec Mat.
From Verif.Model Require Import LmeProblem Regularizers LmeInner LmeFit.
From Verif.Spec Require Import LmeSpec ColumnSpec InnerSpec FlipSpec.
From Verif.Proofs Require Import VecFacts SolverProofs LinearProofs LmeProblemProofs ColumnCases FeatureTable FeatureCoefs.
Open Scope R_scope.

Lemma nth_vmul : forall (a b : vec) i, length a = length b -> nth i (vmul a b) 0 = nth i a 0 * nth i b 0.
Proof.
  induction a as [|x a IH]; intros b i L; destruct b as [|y b]; try discriminate.
  - destruct i; simpl; ring.
  - unfold vmul in *. cbn [map2]. destruct i; cbn [nth]; [reflexivity|]. apply IH. simpl in L. lia.
Qed.
Lemma nth_vscale e : forall (a : vec) i, nth i (vscale e a) 0 = e * nth i a 0.
Proof.
  induction a as [|x a IH]; intros i; [destruct i; simpl; ring|]. unfold vscale in *. destruct i; cbn [map nth]; auto.
Qed.
Lemma pick_combine (k : string -> bool) : forall labels cs pre, length labels = length cs ->
  pick (where_from (length pre) k labels) (pre ++ cs) = map snd (filter (fun lc => k (fst lc)) (combine labels cs)).
Proof.
  induction labels as [|l labels IH]; intros cs pre L; destruct cs as [|c cs]; try discriminate; [reflexivity|].
  assert (E : pick (where_from (S (length pre)) k labels) (pre ++ c :: cs) = map snd (filter (fun lc => k (fst lc)) (combine labels cs))).
  { specialize (IH cs (pre ++ [c])). rewrite app_length, <- app_assoc, Nat.add_1_r in IH. cbn [app] in IH. apply IH. simpl in L. lia. }
  cbn [where_from combine filter fst]. destruct (k l); [|exact E]. unfold pick in *. cbn [map snd]. rewrite E. f_equal.
  rewrite app_nth2, Nat.sub_diag by lia. reflexivity.
Qed.

Section Columns.
Variables (cs : vec) (labels : list string) (ff fr : bool) (e : R).
Hypothesis Hcs : column_signs labels cs.
Hypothesis He : e = 1 \/ e = -1.
Notation p := (countb is_fixed labels + b2n ff)%nat.
Notation q := (countb is_random labels + b2n fr)%nat.
Notation lab i := (nth i labels EmptyString).

Lemma cs_len : length cs = length labels.
Proof. symmetry. induction Hcs; simpl; auto. Qed.
Lemma cs_all : all_signs cs.
Proof.
  unfold all_signs. revert Hcs. generalize labels. induction cs as [|c l IH]; intros ls H; [constructor|].
  inversion H as [|l0 c0 ls0 l1 H1 H2]; subst. constructor; [tauto|]. eapply IH. exact H2.
Qed.
Lemma cs_keep j : (j < length labels)%nat -> lab j = GROUP \/ lab j = VARIANCE -> nth j cs 0 = 1.
Proof.
  revert j. revert Hcs. generalize labels. clear. induction cs as [|c l IH]; intros ls H j Hj K; inversion H as [|l0 c0 ls0 l1 H1 H2]; subst; [simpl in Hj; lia|].
  destruct j as [|j]; cbn [nth] in *; [tauto|]. eapply IH; eauto. simpl in Hj. lia.
Qed.
Lemma role_row k b : role_signs k b labels cs = feature_row b (where_ k labels) cs.
Proof.
  unfold role_signs, feature_row. pose proof (pick_combine k labels cs [] (eq_sym cs_len)) as E. cbn [length app] in E.
  unfold where_. rewrite E. destruct b; reflexivity.
Qed.
Lemma role_len k b : length (role_signs k b labels cs) = (countb k labels + b2n b)%nat.
Proof. rewrite role_row, feature_row_length, where_length. reflexivity. Qed.
Lemma role_all k b : all_signs (role_signs k b labels cs).
Proof.
  unfold role_signs, all_signs. apply Forall_app. split; [destruct b; repeat constructor; auto|].
  apply Forall_forall. intros s H. apply in_map_iff in H as [[l c] [<- H]]. apply filter_In in H as [H _].
  apply in_combine_r in H. pose proof cs_all as A. unfold all_signs in A. rewrite Forall_forall in A. auto.
Qed.
Lemma scaled_signs k b : is_signs (countb k labels + b2n b) (vscale e (role_signs k b labels cs)).
Proof.
  split; [unfold vscale; rewrite map_length; apply role_len|]. apply Forall_forall. intros s H.
  apply in_map_iff in H as [t [<- H]]. pose proof (role_all k b) as A. unfold all_signs in A. rewrite Forall_forall in A.
  destruct (A _ H) as [->| ->], He as [->| ->]; [left|right|right|left]; ring.
Qed.
Lemma plain_signs k b : is_signs (countb k labels + b2n b) (role_signs k b labels cs).
Proof. split; [apply role_len|apply role_all]. Qed.
Lemma pick_flip idx row : length row = length labels -> pick idx (flip cs row) = flip (pick idx cs) (pick idx row).
Proof.
  intros L. unfold pick, flip. induction idx as [|i idx IH]; [reflexivity|]. cbn [map]. rewrite IH.
  rewrite nth_vmul by (rewrite cs_len; auto). reflexivity.
Qed.
Lemma row_flip k b row : length row = length labels ->
  feature_row b (where_ k labels) (flip cs row) = flip (role_signs k b labels cs) (feature_row b (where_ k labels) row).
Proof.
  intros L. rewrite role_row. unfold feature_row. rewrite pick_flip by auto. destruct b; [|reflexivity].
  unfold flip, vmul. cbn [map2]. f_equal. ring.
Qed.
Lemma role_at k b j : (j < length labels)%nat -> k (lab j) = true ->
  nth (b2n b + rank k labels j) (role_signs k b labels cs) 0 = nth j cs 0.
Proof.
  intros Hj Hk. rewrite role_row.
  assert (E : nth (rank k labels j) (pick (where_ k labels) cs) 0 = nth j cs 0).
  { unfold pick. rewrite (nth_map_lt (fun i => nth i cs 0) (where_ k labels) _ 0 0%nat).
    - unfold rank. rewrite (nth_where_rank k EmptyString); auto.
    - rewrite where_length. apply rank_lt; auto. }
  unfold feature_row. destruct b; exact E.
Qed.

(** ** coefficients per group *)
Notation d1 := (vscale e (role_signs is_fixed ff labels cs)).
Notation d2 := (vscale e (role_signs is_random fr labels cs)).
Lemma entry_flip k b v j : length v = (countb k labels + b2n b)%nat -> (j < length labels)%nat -> k (lab j) = true ->
  nth (b2n b + rank k labels j) (flip (vscale e (role_signs k b labels cs)) v) 0
  = e * nth j cs 0 * nth (b2n b + rank k labels j) v 0.
Proof.
  intros L Hj Hk. unfold flip. rewrite nth_vmul by (unfold vscale; rewrite map_length, role_len; auto).
  rewrite nth_vscale, role_at by auto. reflexivity.
Qed.
Lemma coef_flip beta u j : length beta = p -> length u = q -> (j < length labels)%nat ->
  coef_at labels (flip d1 beta) (flip d2 u) (b2n ff) (b2n fr) j
  = e * nth j cs 0 * coef_at labels beta u (b2n ff) (b2n fr) j.
Proof.
  intros Lb Lu Hj. unfold coef_at.
  destruct (is_fixed (lab j)) eqn:F; destruct (is_random (lab j)) eqn:G; rewrite ?entry_flip by auto; ring.
Qed.
Lemma first_flip k b v : b = true -> length v = (countb k labels + b2n b)%nat ->
  nth 0 (flip (vscale e (role_signs k b labels cs)) v) 0 = e * nth 0 v 0.
Proof.
  intros -> L. unfold flip. rewrite nth_vmul by (unfold vscale; rewrite map_length, role_len; auto).
  rewrite nth_vscale. unfold role_signs. cbn [app nth]. ring.
Qed.
Lemma per_group_flip beta us : length beta = p -> Forall (fun u => length u = q) us ->
  per_group_coefficients (flip d1 beta) (map (flip d2) us) (intercept_label_of ff fr :: map Some labels)
  = rmap (map (flip (vscale e (1 :: cs)))) (per_group_coefficients beta us (intercept_label_of ff fr :: map Some labels)).
Proof.
  intros Hb F. rewrite Forall_forall in F. unfold per_group_coefficients.
  assert (E : sequence (map (fun u : vec => group_coefficients (intercept_label_of ff fr :: map Some labels) beta u 0 0) us)
    = Ok (map (fun u : vec => (if ff then nth 0 beta 0 else 0) + (if fr then nth 0 u 0 else 0)
        :: map (coef_at labels beta u (b2n ff) (b2n fr)) (seq 0 (length labels))) us)).
  { apply seq_ok_in. intros u Hu. apply coefs_intercept; auto. }
  rewrite E. clear E. cbn [rmap]. rewrite map_map. rewrite map_map.
  apply seq_ok_in. intros u Hu. rewrite coefs_intercept.
  2:{ apply (flip_len _ _ (scaled_signs is_fixed ff)). auto. }
  2:{ apply (flip_len _ _ (scaled_signs is_random fr)). auto. }
  assert (FC : forall a l, flip (vscale e (1 :: cs)) (a :: l) = e * 1 * a :: vmul (vscale e cs) l) by reflexivity.
  f_equal. rewrite FC. f_equal.
  - pose proof (first_flip is_fixed ff beta) as A. pose proof (first_flip is_random fr u) as B.
    destruct ff, fr; rewrite ?A, ?B by auto; ring.
  - apply (nth_ext _ _ 0 0).
    + unfold vmul, vscale. rewrite map2_length, !map_length, seq_length, cs_len. symmetry. apply Nat.min_id.
    + rewrite map_length, seq_length. intros j Hj.
      rewrite nth_vmul by (unfold vscale; rewrite !map_length, seq_length; apply cs_len).
      rewrite nth_vscale, !(nth_map_lt _ (seq 0 (length labels)) j 0 0%nat) by (rewrite seq_length; auto).
      rewrite seq_nth, Nat.add_0_l by auto. apply coef_flip; auto.
Qed.

(** ** from_x_y *)
Lemma nth_keep row j : length row = length labels -> nth j cs 0 = 1 -> nth j (flip cs row) 0 = nth j row 0.
Proof. intros L K. unfold flip. rewrite nth_vmul by (rewrite cs_len; auto). rewrite K. ring. Qed.
Lemma column_keep rows j : Forall (fun row => length row = length labels) rows -> nth j cs 0 = 1 ->
  column (flip_columns cs rows) j = column rows j.
Proof.
  intros W K. unfold column, flip_columns. rewrite map_map. apply map_ext_in. intros row Hr.
  rewrite Forall_forall in W. apply nth_keep; auto.
Qed.
Lemma group_keep rows j l : Forall (fun row => length row = length labels) rows -> nth j cs 0 = 1 ->
  filter (in_group j l) (flip_columns cs rows) = flip_columns cs (filter (in_group j l) rows) /\
  map (in_group j l) (flip_columns cs rows) = map (in_group j l) rows.
Proof.
  intros W K. unfold flip_columns. induction W as [|row rows Hr W [I1 I2]]; [split; reflexivity|]. cbn [map filter].
  assert (E : in_group j l (flip cs row) = in_group j l row) by (unfold in_group; rewrite nth_keep; auto).
  rewrite E, I1, I2. split; [|reflexivity]. destruct (in_group j l row); reflexivity.
Qed.
Lemma select_scale : forall (mk : list bool) y, mask_select mk (vscale e y) = vscale e (mask_select mk y).
Proof.
  induction mk as [|b mk IH]; intros y; destruct y as [|a y]; try reflexivity; try (destruct b; reflexivity).
  unfold vscale in *. cbn [map mask_select]. rewrite IH. destruct b; reflexivity.
Qed.

Record flip_sim (pr pr' : lme_problem) : Prop := {
  fs_labels : pr_labels pr = labels;
  fs_labels' : pr_labels pr' = labels;
  fs_intercept : pr_intercept pr = intercept_label_of ff fr;
  fs_intercept' : pr_intercept pr' = intercept_label_of ff fr;
  fs_groups : pr_group_labels pr' = pr_group_labels pr;
  fs_fixed : pr_fixed pr' = map (flip_columns (role_signs is_fixed ff labels cs)) (pr_fixed pr);
  fs_random : pr_random pr' = map (flip_columns (role_signs is_random fr labels cs)) (pr_random pr);
  fs_answers : pr_answers pr' = option_map (map (vscale e)) (pr_answers pr);
  fs_vars : pr_obs_vars pr' = pr_obs_vars pr;
  fs_0d : pr_random_0d pr' = pr_random_0d pr;
  fs_wf : pr_fe_weights pr = Some (ones p);
  fs_wf' : pr_fe_weights pr' = Some (ones p);
  fs_wr : pr_re_weights pr = Some (ones q);
  fs_wr' : pr_re_weights pr' = Some (ones q);
  fs_flen : Forall (wf_mat p) (pr_fixed pr);
  fs_rlen : Forall (wf_mat q) (pr_random pr) }.

Lemma from_x_y_flip x y : wf_table x -> t_cols x = length labels ->
  match from_x_y x y None (Some labels) ff fr None None,
        from_x_y (flip_table cs x) (option_map (vscale e) y) None (Some labels) ff fr None None with
  | Ok pr, Ok pr' => flip_sim pr pr'
  | Err er, Err er' => er' = er
  | _, _ => False
  end.
Proof.
  intros W Hx. unfold from_x_y. cbn [default_labels].
  assert (C : match option_map (vscale e) y with Some y' => check_X_y (flip_table cs x) y' | None => Ok tt end
    = match y with Some y' => check_X_y x y' | None => Ok tt end).
  { destruct y as [y|]; [|reflexivity]. cbn [option_map]. unfold check_X_y. cbn [flip_table t_rows t_cols].
    unfold flip_columns, vscale. rewrite !map_length. reflexivity. }
  rewrite C. destruct (match y with Some y' => check_X_y x y' | None => Ok tt end) as [u|er]; [|reflexivity]. cbn [rbind].
  destruct (guard (forallb known_label labels) AssertionError) as [u1|er]; [|reflexivity]. cbn [rbind].
  change (t_cols (flip_table cs x)) with (t_cols x).
  change (t_rows (flip_table cs x)) with (flip_columns cs (t_rows x)).
  destruct (guard (length labels =? t_cols x)%nat AssertionError) as [u2|er]; [|reflexivity]. cbn [rbind].
  destruct (where_ (String.eqb GROUP) labels) as [|g [|? ?]] eqn:Eg; [reflexivity| |reflexivity].
  destruct (where_ (String.eqb VARIANCE) labels) as [|v [|? ?]] eqn:Evr; [reflexivity| |reflexivity].
  destruct (where_single _ labels g EmptyString Eg) as [G1 [G2 _]]. destruct (where_single _ labels v EmptyString Evr) as [V1 [V2 _]].
  apply String.eqb_eq in G2. apply String.eqb_eq in V2.
  assert (Kg : nth g cs 0 = 1) by (apply cs_keep; auto). assert (Kv : nth v cs 0 = 1) by (apply cs_keep; auto).
  assert (WL : Forall (fun row => length row = length labels) (t_rows x)).
  { apply Forall_forall. intros row Hr. unfold wf_table in W. rewrite Forall_forall in W. rewrite <- Hx. auto. }
  rewrite !column_keep by auto.
  destruct (guard (forallb nonzero (column (t_rows x) v)) AssertionError) as [u3|er]; [|reflexivity]. cbn [rbind].
  destruct (unique_labels (column (t_rows x) g)) as [gl|er]; [|reflexivity]. cbn [rbind reg_weights names_of option_map].
  assert (WF : forall l, Forall (fun row => length row = length labels) (filter (in_group g l) (t_rows x))).
  { intros l. apply Forall_forall. intros row Hr. apply filter_In in Hr as [Hr _]. rewrite Forall_forall in WL. auto. }
  assert (FR : forall k b l, map (feature_row b (where_ k labels)) (filter (in_group g l) (flip_columns cs (t_rows x)))
    = flip_columns (role_signs k b labels cs) (map (feature_row b (where_ k labels)) (filter (in_group g l) (t_rows x)))).
  { intros k b l. rewrite (proj1 (group_keep _ _ _ WL Kg)). unfold flip_columns. rewrite !map_map. apply map_ext_in. intros row Hr.
    apply row_flip. pose proof (WF l) as F. rewrite Forall_forall in F. auto. }
  constructor; cbn [pr_labels pr_intercept pr_group_labels pr_fixed pr_random pr_answers pr_obs_vars pr_random_0d pr_fe_weights pr_re_weights];
    try reflexivity.
  - rewrite map_map. apply map_ext. intros l. apply FR.
  - rewrite map_map. apply map_ext. intros l. apply FR.
  - destruct y as [y|]; [|reflexivity]. cbn [option_map]. f_equal. rewrite map_map. apply map_ext. intros l. rewrite (proj2 (group_keep _ _ _ WL Kg)). apply select_scale.
  - apply map_ext. intros l. rewrite (proj1 (group_keep _ _ _ WL Kg)). apply column_keep; auto.
  - rewrite where_length. reflexivity.
  - rewrite where_length. reflexivity.
  - rewrite where_length. reflexivity.
  - rewrite where_length. reflexivity.
  - apply Forall_forall. intros a Ha. apply in_map_iff in Ha as [l [<- _]]. apply Forall_forall. intros row Hr.
    apply in_map_iff in Hr as [r [<- _]]. rewrite feature_row_length, where_length. reflexivity.
  - apply Forall_forall. intros a Ha. apply in_map_iff in Ha as [l [<- _]]. apply Forall_forall. intros row Hr.
    apply in_map_iff in Hr as [r [<- _]]. rewrite feature_row_length, where_length. reflexivity.
Qed.

(** consequences for a fit *)
Section Sim.
Variables pr pr' : lme_problem.
Hypothesis T : flip_sim pr pr'.
Lemma fs_p : num_fixed pr = p /\ num_fixed pr' = p.
Proof.
  unfold num_fixed. rewrite (fs_labels _ _ T), (fs_labels' _ _ T), (fs_intercept _ _ T), (fs_intercept' _ _ T), intercept_fixed. auto.
Qed.
Lemma fs_q : num_random pr = q /\ num_random pr' = q.
Proof.
  unfold num_random. rewrite (fs_labels _ _ T), (fs_labels' _ _ T), (fs_intercept _ _ T), (fs_intercept' _ _ T), intercept_random. auto.
Qed.
Lemma fs_weights fe re : (forall v, fe = Some v -> length v = p) -> (forall v, re = Some v -> length v = q) ->
  exists wf wr, (fit_weights pr fe re = Ok (wf, wr) /\ length wf = p /\ length wr = q) /\ fit_weights pr' fe re = Ok (wf, wr).
Proof.
  intros Hf Hr. unfold fit_weights, default_weights. rewrite (fs_wf _ _ T), (fs_wf' _ _ T), (fs_wr _ _ T), (fs_wr' _ _ T).
  exists (match fe with Some w => w | None => ones p end), (match re with Some w => w | None => ones q end). split; [split; [|split]|].
  - destruct fe, re; reflexivity.
  - destruct fe; [auto|apply ones_length].
  - destruct re; [auto|apply ones_length].
  - destruct fe, re; reflexivity.
Qed.
Lemma fs_view : oracle_view_of pr' = oracle_view_of pr.
Proof.
  unfold oracle_view_of, beta_to_gamma_map, all_labels, num_fixed, num_random.
  rewrite (fs_labels _ _ T), (fs_labels' _ _ T), (fs_intercept _ _ T), (fs_intercept' _ _ T). reflexivity.
Qed.
End Sim.
End Columns.
