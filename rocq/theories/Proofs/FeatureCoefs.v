(** Coefficients per group, and problems made of tables with reordered columns. *)
From Coq Require Import Lra Permutation.
From Verif.Base Require Import Py Vec Mat.
From Verif.Model Require Import LmeProblem Regularizers LmeInner LmeFit.
From Verif.Spec Require Import LmeSpec ColumnSpec InnerSpec FeatureTableSpec.
From Verif.Proofs Require Import VecFacts SolverProofs LinearProofs LmeProblemProofs InnerProofs LmeInnerMain ColumnCases FeatureTable.
Open Scope R_scope.

(** ** group_coefficients in closed form *)
Definition coef_at (labels : list string) (beta u : vec) (fc rc i : nat) : R :=
  (if is_fixed (nth i labels EmptyString) then nth (fc + rank is_fixed labels i) beta 0 else 0) +
  (if is_random (nth i labels EmptyString) then nth (rc + rank is_random labels i) u 0 else 0).
Lemma coef_at_S l labels beta u fc rc i :
  coef_at (l :: labels) beta u fc rc (S i) = coef_at labels beta u (b2n (is_fixed l) + fc) (b2n (is_random l) + rc) i.
Proof.
  unfold coef_at, rank. cbn [nth firstn]. rewrite !countb_cons.
  replace (fc + (b2n (is_fixed l) + countb is_fixed (firstn i labels)))%nat with (b2n (is_fixed l) + fc + countb is_fixed (firstn i labels))%nat by lia.
  replace (rc + (b2n (is_random l) + countb is_random (firstn i labels)))%nat with (b2n (is_random l) + rc + countb is_random (firstn i labels))%nat by lia.
  reflexivity.
Qed.
Lemma coefs_closed : forall labels beta u fc rc,
  (fc + countb is_fixed labels <= length beta)%nat -> (rc + countb is_random labels <= length u)%nat ->
  group_coefficients (map Some labels) beta u fc rc = Ok (map (coef_at labels beta u fc rc) (seq 0 (length labels))).
Proof.
  induction labels as [|l labels IH]; intros beta u fc rc Hb Hu; [reflexivity|].
  rewrite countb_cons in Hb, Hu.
  assert (T : map (coef_at (l :: labels) beta u fc rc) (seq 1 (length labels))
            = map (coef_at labels beta u (b2n (is_fixed l) + fc) (b2n (is_random l) + rc)) (seq 0 (length labels))).
  { rewrite <- seq_shift, map_map. apply map_ext. intros i. apply coef_at_S. }
  cbn [map group_coefficients length seq]. rewrite T. clear T.
  assert (H0 : coef_at (l :: labels) beta u fc rc 0 = (if is_fixed l then nth fc beta 0 else 0) + (if is_random l then nth rc u 0 else 0)).
  { unfold coef_at, rank. cbn [nth firstn]. change (countb is_fixed []) with 0%nat. change (countb is_random []) with 0%nat.
    rewrite !Nat.add_0_r. reflexivity. }
  rewrite H0. clear H0. specialize (IH beta u (b2n (is_fixed l) + fc)%nat (b2n (is_random l) + rc)%nat ltac:(lia) ltac:(lia)).
  destruct (label_cases l) as [[-> [F Rn]]|[[-> [F Rn]]|[[-> [F Rn]]|[E1 [E2 [E3 [F Rn]]]]]]]; rewrite F, Rn in *; cbn [b2n Nat.add] in *.
  - labels_cbv. rewrite (nth_error_nth' beta 0) by lia. cbn [rbind]. rewrite IH. cbn [rbind]. rewrite Rplus_0_r. reflexivity.
  - labels_cbv. rewrite (nth_error_nth' u 0) by lia. cbn [rbind]. rewrite IH. cbn [rbind]. rewrite Rplus_0_l. reflexivity.
  - labels_cbv. rewrite (nth_error_nth' u 0), (nth_error_nth' beta 0) by lia. cbn [rbind]. rewrite IH. reflexivity.
  - rewrite E1, E2, E3, IH. cbn [rbind]. rewrite Rplus_0_l. reflexivity.
Qed.
Lemma coefs_intercept ff fr labels beta u : length beta = (countb is_fixed labels + b2n ff)%nat -> length u = (countb is_random labels + b2n fr)%nat ->
  group_coefficients (intercept_label_of ff fr :: map Some labels) beta u 0 0
  = Ok ((if ff then nth 0 beta 0 else 0) + (if fr then nth 0 u 0 else 0)
        :: map (coef_at labels beta u (b2n ff) (b2n fr)) (seq 0 (length labels))).
Proof.
  intros Hb Hu. destruct ff, fr; cbn [b2n intercept_label_of andb negb group_coefficients] in *; labels_cbv;
    rewrite ?(nth_error_nth' u 0), ?(nth_error_nth' beta 0) by lia; cbn [rbind];
    rewrite coefs_closed by lia; cbn [rbind]; rewrite ?Rplus_0_l, ?Rplus_0_r; reflexivity.
Qed.
Lemma seq_ok {A B} (f : A -> B) l : sequence (map (fun a => Ok (f a)) l) = Ok (map f l).
Proof. induction l as [|a l IH]; [reflexivity|]. simpl. rewrite IH. reflexivity. Qed.
Lemma seq_ok_in {A B} (f : A -> res B) (h : A -> B) l : (forall a, In a l -> f a = Ok (h a)) -> sequence (map f l) = Ok (map h l).
Proof. intros H. rewrite <- seq_ok. f_equal. apply map_ext_in. exact H. Qed.

Section Columns.
Variables (order : list nat) (labels : list string) (ff fr : bool).
Hypothesis Ho : is_order (length labels) order.
Notation labels' := (reorder_labels order labels).
Notation p := (countb is_fixed labels + b2n ff)%nat.
Notation q := (countb is_random labels + b2n fr)%nat.
Notation of := (role_order is_fixed ff labels order).
Notation og := (role_order is_random fr labels order).
Notation lab i := (nth i labels EmptyString).

Lemma role_first k b v : b = true -> nth 0 (permute (role_order k b labels order) v) 0 = nth 0 v 0.
Proof. intros ->. reflexivity. Qed.
Lemma rank_lt k l i : (i < length l)%nat -> k (nth i l EmptyString) = true -> (rank k l i < countb k l)%nat.
Proof.
  intros Hi Hk. unfold rank, countb. rewrite <- (firstn_skipn i l) at 2. rewrite filter_app, app_length.
  assert (K : In (nth i l EmptyString) (filter k (skipn i l))).
  { apply filter_In. split; [|exact Hk]. rewrite <- (Nat.add_0_r i) at 1. rewrite <- L0LMEProofs.nth_skipn'. apply nth_In. rewrite skipn_length. lia. }
  destruct (filter k (skipn i l)); [contradiction|]. simpl. lia.
Qed.
Lemma role_entry k b v j : (j < length labels)%nat -> k (nth j labels' EmptyString) = true ->
  nth (b2n b + rank k labels' j) (permute (role_order k b labels order) v) 0
  = nth (b2n b + rank k labels (nth j order 0%nat)) v 0.
Proof.
  intros Hj Hk. rewrite <- (role_nth order labels Ho k b j Hj Hk). unfold permute.
  apply (nth_map_lt (fun i => nth i v 0)). rewrite (order_len _ _ (role_is_order order labels Ho k b)).
  rewrite <- (countb_perm k _ _ (labels_perm order labels Ho)).
  pose proof (rank_lt k labels' j ltac:(rewrite (labels_len order labels Ho); auto) Hk). lia.
Qed.
Lemma coef_at_reorder beta u j : (j < length labels)%nat ->
  coef_at labels' (permute of beta) (permute og u) (b2n ff) (b2n fr) j
  = coef_at labels beta u (b2n ff) (b2n fr) (nth j order 0%nat).
Proof.
  intros Hj. unfold coef_at. pose proof (nth_label order labels Ho j Hj) as E.
  f_equal.
  - destruct (is_fixed (nth j labels' EmptyString)) eqn:F; rewrite <- E, F; [|reflexivity]. apply role_entry; auto.
  - destruct (is_random (nth j labels' EmptyString)) eqn:F; rewrite <- E, F; [|reflexivity]. apply role_entry; auto.
Qed.
Lemma per_group_reorder beta us : length beta = p -> Forall (fun u => length u = q) us ->
  per_group_coefficients (permute of beta) (map (permute og) us) (intercept_label_of ff fr :: map Some labels')
  = rmap (map (permute (0%nat :: map S order))) (per_group_coefficients beta us (intercept_label_of ff fr :: map Some labels)).
Proof.
  intros Hb F. rewrite Forall_forall in F. unfold per_group_coefficients.
  assert (E : sequence (map (fun u : vec => group_coefficients (intercept_label_of ff fr :: map Some labels) beta u 0 0) us)
    = Ok (map (fun u : vec => (if ff then nth 0 beta 0 else 0) + (if fr then nth 0 u 0 else 0)
        :: map (coef_at labels beta u (b2n ff) (b2n fr)) (seq 0 (length labels))) us)).
  { apply seq_ok_in. intros u Hu. apply coefs_intercept; auto. }
  rewrite E. clear E. cbn [rmap]. rewrite map_map. rewrite map_map.
  assert (Cf : countb is_fixed labels' = countb is_fixed labels) by apply (countb_perm _ _ _ (labels_perm order labels Ho)).
  assert (Cr : countb is_random labels' = countb is_random labels) by apply (countb_perm _ _ _ (labels_perm order labels Ho)).
  apply seq_ok_in. intros u Hu. rewrite coefs_intercept.
  2:{ rewrite Cf. apply (permute_len _ _ (role_is_order order labels Ho is_fixed ff)). }
  2:{ rewrite Cr. apply (permute_len _ _ (role_is_order order labels Ho is_random fr)). }
  f_equal.
  assert (P : forall a l, permute (0%nat :: map S order) (a :: l) = a :: permute order l).
  { intros a l. unfold permute. cbn [map nth]. rewrite map_map. reflexivity. }
  rewrite P. f_equal; [f_equal; [destruct ff|destruct fr]; reflexivity|].
  rewrite (labels_len order labels Ho).
  assert (Q : forall l, permute order l = map (fun j => nth (nth j order 0%nat) l 0) (seq 0 (length labels))).
  { intros l. unfold permute. rewrite <- (map_nth_self order 0%nat) at 1. rewrite (order_len _ _ Ho), map_map. reflexivity. }
  rewrite (Q (map _ _)). apply map_ext_in. intros j Hj. apply in_seq in Hj.
  rewrite (nth_map_lt (coef_at labels beta u (b2n ff) (b2n fr)) (seq 0 (length labels)) _ 0 0%nat).
  - rewrite seq_nth, Nat.add_0_l by (apply (order_lt order labels Ho); lia). apply coef_at_reorder. lia.
  - rewrite seq_length. apply (order_lt order labels Ho). lia.
Qed.

(** ** from_x_y *)
Lemma perm_forallb {A} (f : A -> bool) l l' : Permutation l l' -> forallb f l = forallb f l'.
Proof. induction 1 as [|a l l' _ IH|a b l|l1 l2 l3 _ IH1 _ IH2]; simpl; [auto|rewrite IH; auto| |congruence]. destruct (f a), (f b); reflexivity. Qed.
Lemma known_reorder : forallb known_label labels' = forallb known_label labels.
Proof. apply perm_forallb. apply (labels_perm order labels Ho). Qed.
Lemma single_reorder k : match where_ k labels, where_ k labels' with
  | [g], [g'] => (g' < length labels)%nat /\ nth g' order 0%nat = g
  | [_], _ | _, [_] => False
  | _, _ => True
  end.
Proof.
  assert (L : length (where_ k labels') = length (where_ k labels)).
  { rewrite !where_length. apply countb_perm. apply (labels_perm order labels Ho). }
  destruct (where_ k labels) as [|g [|a l]] eqn:E, (where_ k labels') as [|g' [|a' l']] eqn:E'; try discriminate; auto.
  pose proof (where_order order labels k) as W. rewrite E' in W. cbn [map] in W.
  destruct (where_single k labels' g' EmptyString E') as [H1 [H2 _]]. rewrite (labels_len order labels Ho) in H1.
  split; [exact H1|]. rewrite (nth_label order labels Ho) in H2 by auto.
  destruct (where_single k labels g EmptyString E) as [_ [_ U]]. apply U; auto. apply (order_lt order labels Ho). auto.
Qed.
Lemma nth_reorder row j : (j < length labels)%nat -> nth j (permute order row) 0 = nth (nth j order 0%nat) row 0.
Proof. intros Hj. unfold permute. apply (nth_map_lt (fun i => nth i row 0)). rewrite (order_len _ _ Ho). exact Hj. Qed.
Lemma column_reorder rows j : (j < length labels)%nat -> column (permute_columns order rows) j = column rows (nth j order 0%nat).
Proof. intros Hj. unfold column, permute_columns. rewrite map_map. apply map_ext. intros row. apply nth_reorder. auto. Qed.
Lemma filter_reorder rows j l : (j < length labels)%nat ->
  filter (in_group j l) (permute_columns order rows) = permute_columns order (filter (in_group (nth j order 0%nat) l) rows).
Proof.
  intros Hj. unfold permute_columns. induction rows as [|row rows IH]; [reflexivity|]. cbn [map filter]. rewrite IH.
  assert (E : in_group j l (permute order row) = in_group (nth j order 0%nat) l row) by (unfold in_group; rewrite nth_reorder by auto; reflexivity).
  rewrite E. destruct (in_group (nth j order 0%nat) l row); reflexivity.
Qed.

Record table_sim (pr pr' : lme_problem) : Prop := {
  ts_labels : pr_labels pr = labels;
  ts_labels' : pr_labels pr' = labels';
  ts_intercept : pr_intercept pr = intercept_label_of ff fr;
  ts_intercept' : pr_intercept pr' = intercept_label_of ff fr;
  ts_groups : pr_group_labels pr' = pr_group_labels pr;
  ts_fixed : pr_fixed pr' = map (permute_columns of) (pr_fixed pr);
  ts_random : pr_random pr' = map (permute_columns og) (pr_random pr);
  ts_answers : pr_answers pr' = pr_answers pr;
  ts_vars : pr_obs_vars pr' = pr_obs_vars pr;
  ts_0d : pr_random_0d pr = false;
  ts_0d' : pr_random_0d pr' = false;
  ts_wf : pr_fe_weights pr = Some (ones p);
  ts_wf' : pr_fe_weights pr' = Some (ones p);
  ts_wr : pr_re_weights pr = Some (ones q);
  ts_wr' : pr_re_weights pr' = Some (ones q);
  ts_flen : Forall (wf_mat p) (pr_fixed pr);
  ts_rlen : Forall (wf_mat q) (pr_random pr) }.

Lemma from_x_y_reorder x y : wf_table x -> t_cols x = length labels ->
  match from_x_y x y None (Some labels) ff fr None None,
        from_x_y (reorder_table order x) y None (Some labels') ff fr None None with
  | Ok pr, Ok pr' => table_sim pr pr'
  | Err e, Err e' => e' = e
  | _, _ => False
  end.
Proof.
  intros W Hx. unfold from_x_y. cbn [default_labels reorder_table]. rewrite known_reorder, (labels_len order labels Ho).
  assert (C : match y with Some y' => check_X_y (reorder_table order x) y' | None => Ok tt end
    = match y with Some y' => check_X_y x y' | None => Ok tt end).
  { destruct y as [y|]; [|reflexivity]. unfold check_X_y. cbn [reorder_table t_rows t_cols]. unfold permute_columns.
    rewrite map_length. reflexivity. }
  cbn [reorder_table] in C. rewrite C. destruct (match y with Some y' => check_X_y x y' | None => Ok tt end) as [u|e]; [|reflexivity]. cbn [rbind].
  destruct (guard (forallb known_label labels) AssertionError) as [u1|e]; [|reflexivity]. cbn [rbind].
  change (t_cols (reorder_table order x)) with (t_cols x).
  change (t_rows (reorder_table order x)) with (permute_columns order (t_rows x)).
  destruct (guard (length labels =? t_cols x)%nat AssertionError) as [u2|e]; [|reflexivity]. cbn [rbind].
  pose proof (single_reorder (String.eqb GROUP)) as SG. pose proof (single_reorder (String.eqb VARIANCE)) as SV.
  destruct (where_ (String.eqb GROUP) labels) as [|g [|? ?]], (where_ (String.eqb GROUP) labels') as [|g' [|? ?]]; try contradiction; try reflexivity.
  destruct SG as [Lg Eg].
  destruct (where_ (String.eqb VARIANCE) labels) as [|v [|? ?]], (where_ (String.eqb VARIANCE) labels') as [|v' [|? ?]]; try contradiction; try reflexivity.
  destruct SV as [Lv Ev]. rewrite !column_reorder, Ev, Eg by auto.
  destruct (guard (forallb nonzero (column (t_rows x) v)) AssertionError) as [u3|e]; [|reflexivity]. cbn [rbind].
  destruct (unique_labels (column (t_rows x) g)) as [gl|e]; [|reflexivity]. cbn [rbind reg_weights names_of option_map].
  rewrite !where_length. rewrite !(countb_perm _ _ _ (labels_perm order labels Ho)).
  assert (WF : forall l row, In row (filter (in_group g l) (t_rows x)) -> length row = length labels).
  { intros l row Hr. apply filter_In in Hr as [Hr _]. unfold wf_table in W. rewrite Forall_forall in W. rewrite <- Hx. auto. }
  assert (FR : forall k b l, map (feature_row b (where_ k labels')) (filter (in_group g' l) (permute_columns order (t_rows x)))
    = permute_columns (role_order k b labels order) (map (feature_row b (where_ k labels)) (filter (in_group g l) (t_rows x)))).
  { intros k b l. rewrite filter_reorder, Eg by auto. unfold permute_columns. rewrite !map_map. apply map_ext_in. intros row Hr.
    apply (feature_row_reorder order labels Ho). eauto. }
  constructor; cbn [pr_labels pr_intercept pr_group_labels pr_fixed pr_random pr_answers pr_obs_vars pr_random_0d pr_fe_weights pr_re_weights];
    try reflexivity.
  - rewrite map_map. apply map_ext. intros l. apply FR.
  - rewrite map_map. apply map_ext. intros l. apply FR.
  - destruct y as [y|]; [|reflexivity]. cbn [option_map]. f_equal. apply map_ext. intros l. f_equal. unfold permute_columns. rewrite map_map. apply map_ext. intros row.
    unfold in_group. rewrite nth_reorder, Eg by auto. reflexivity.
  - apply map_ext. intros l. rewrite filter_reorder, column_reorder, Eg, Ev by auto. reflexivity.
  - apply Forall_forall. intros a Ha. apply in_map_iff in Ha as [l [<- _]]. apply Forall_forall. intros row Hr.
    apply in_map_iff in Hr as [r [<- _]]. rewrite feature_row_length, where_length. reflexivity.
  - apply Forall_forall. intros a Ha. apply in_map_iff in Ha as [l [<- _]]. apply Forall_forall. intros row Hr.
    apply in_map_iff in Hr as [r [<- _]]. rewrite feature_row_length, where_length. reflexivity.
Qed.

(** consequences for a fit *)
Section Sim.
Variables pr pr' : lme_problem.
Hypothesis T : table_sim pr pr'.
Lemma intercept_fixed : fixed_intercept (intercept_label_of ff fr) = ff.
Proof. destruct ff, fr; reflexivity. Qed.
Lemma intercept_random : random_intercept (intercept_label_of ff fr) = fr.
Proof. destruct ff, fr; reflexivity. Qed.
Lemma ts_p : num_fixed pr = p /\ num_fixed pr' = p.
Proof.
  unfold num_fixed. rewrite (ts_labels _ _ T), (ts_labels' _ _ T), (ts_intercept _ _ T), (ts_intercept' _ _ T), intercept_fixed.
  rewrite (countb_perm _ _ _ (labels_perm order labels Ho)). auto.
Qed.
Lemma ts_q : num_random pr = q /\ num_random pr' = q.
Proof.
  unfold num_random. rewrite (ts_labels _ _ T), (ts_labels' _ _ T), (ts_intercept _ _ T), (ts_intercept' _ _ T), intercept_random.
  rewrite (countb_perm _ _ _ (labels_perm order labels Ho)). auto.
Qed.
Lemma view_total r : exists ov, oracle_view_of r = Ok ov /\ ov_p ov = num_fixed r /\ ov_q ov = num_random r.
Proof.
  destruct (index_map_pairs_lemma r) as [mp [E _]]. unfold oracle_view_of. rewrite E. cbn [rbind]. eexists. split; [reflexivity|]. auto.
Qed.
Lemma weights_sim fe re : (forall v, fe = Some v -> length v = p) -> (forall v, re = Some v -> length v = q) ->
  exists wf wr, (fit_weights pr fe re = Ok (wf, wr) /\ length wf = p /\ length wr = q) /\
    fit_weights pr' (option_map (permute of) fe) (option_map (permute og) re) = Ok (permute of wf, permute og wr).
Proof.
  intros Hf Hr. unfold fit_weights, default_weights. rewrite (ts_wf _ _ T), (ts_wf' _ _ T), (ts_wr _ _ T), (ts_wr' _ _ T).
  exists (match fe with Some w => w | None => ones p end), (match re with Some w => w | None => ones q end). split; [split; [|split]|].
  - destruct fe, re; reflexivity.
  - destruct fe; [auto|apply ones_length].
  - destruct re; [auto|apply ones_length].
  - pose proof (permute_repeat p of (role_is_order order labels Ho is_fixed ff) 1) as Ef.
    pose proof (permute_repeat q og (role_is_order order labels Ho is_random fr) 1) as Er.
    destruct fe, re; cbn [option_map rbind]; unfold ones; rewrite ?Ef, ?Er; reflexivity.
Qed.
End Sim.
End Columns.
