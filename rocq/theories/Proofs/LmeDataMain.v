(*HEAD
(** Properties C35-C37: dataframes, per-group coefficients and generated problems
    (src/pysr3/lme/problems.py). *)
From Coq Require Import Sorted Permutation.
From Verif.Base Require Import Py Vec Mat.
From Verif.Model Require Import LmeProblem.
From Verif.Spec Require Import LmeSpec.
HEAD*)
From Coq Require Import Sorted Permutation Lra.
From Verif.Base Require Import Py Vec Mat.
From Verif.Model Require Import LmeProblem LmePredict.
From Verif.Spec Require Import LmeSpec.
From Verif.Proofs Require Import VecFacts SolverProofs MatFacts LinearProofs LmeProblemProofs LmeProblemMain.
(*OPEN
Open Scope string_scope.
Open Scope list_scope.
Open Scope R_scope.
OPEN*)
Open Scope string_scope.
Open Scope list_scope.
Open Scope R_scope.

(** C35 *)
(*@ C35.  A name that is not a column of the dataframe is a ValueError, whatever it was given for. *)
Lemma from_dataframe_missing_column_lemma :
  forall d fixed random groups variance target not_fe not_re e,
  In e (fixed ++ random ++ [groups; variance; target] ++ not_fe ++ not_re) -> ~ In e (map fst (df_cols d)) ->
  from_dataframe d fixed random groups variance target not_fe not_re = Err ValueError.
Proof.
  intros d fixed random groups variance target nf nr e H1 H2. unfold from_dataframe.
  assert (E : forallb (fun e => has_key e (map fst (df_cols d)))
     (fixed ++ random ++ [groups; variance; target] ++ nf ++ nr) = false).
  { apply not_true_iff_false. intros C. rewrite forallb_forall in C. apply H2. apply has_key_In. apply C. auto. }
  rewrite E. reflexivity.
Qed.

Lemma rv_effects (p q : string -> bool) d fixed random (h : string -> R) variance rowv :
  p VARIANCE = false ->
  (forall e, kept_effect fixed random e = true -> p (effect_label fixed random e) = q e) ->
  (forall e, q e = true -> kept_effect fixed random e = true) ->
  let effects := filter (kept_effect fixed random) (map fst (df_cols d)) in
  role_values p (map (effect_label fixed random) effects ++ [VARIANCE]) (map h (effects ++ [variance])) ++ rowv =
  map h (filter q (map fst (df_cols d))) ++ rowv.
Proof.
  intros Hv H1 H2. simpl. f_equal. generalize (map fst (df_cols d)). intros names.
  induction names as [|c names IH]; simpl; [rewrite Hv; auto|].
  destruct (kept_effect fixed random c) eqn:E; simpl.
  - rewrite (H1 c E). destruct (q c); simpl; rewrite IH; auto.
  - destruct (q c) eqn:Eq; [apply H2 in Eq; congruence|]. apply IH.
Qed.
Lemma has_key_dec' c l : has_key c l = (if in_dec string_dec c l then true else false).
Proof.
  destruct (in_dec string_dec c l) as [i|n].
  - apply has_key_In. auto.
  - apply not_true_iff_false. intros C. apply n. apply has_key_In. auto.
Qed.
Lemma eqb_dec' a b : String.eqb a b = (if string_dec a b then true else false).
Proof. destruct (string_dec a b); [apply String.eqb_eq|apply String.eqb_neq]; auto. Qed.
Lemma named_is d effects : named_effects d effects =
  filter (fun c => has_key c effects && negb (String.eqb c INTERCEPT)) (map fst (df_cols d)).
Proof.
  unfold named_effects. apply filter_ext. intros c. rewrite has_key_dec', eqb_dec'. unfold INTERCEPT.
  destruct (in_dec string_dec c effects), (string_dec c "intercept"); reflexivity.
Qed.
Lemma fixed_effect_label fixed random e : kept_effect fixed random e = true ->
  is_fixed (effect_label fixed random e) = has_key e fixed && negb (String.eqb e INTERCEPT).
Proof.
  unfold kept_effect, effect_label. intros H. apply andb_prop in H as [H1 H2]. rewrite H2.
  destruct (has_key e fixed), (has_key e random); try discriminate; reflexivity.
Qed.
Lemma random_effect_label fixed random e : kept_effect fixed random e = true ->
  is_random (effect_label fixed random e) = has_key e random && negb (String.eqb e INTERCEPT).
Proof.
  unfold kept_effect, effect_label. intros H. apply andb_prop in H as [H1 H2]. rewrite H2.
  destruct (has_key e fixed), (has_key e random); try discriminate; reflexivity.
Qed.
Lemma role_names_effects (p q : string -> bool) fixed random names variance :
  p VARIANCE = false ->
  (forall e, kept_effect fixed random e = true -> p (effect_label fixed random e) = q e) ->
  (forall e, q e = true -> kept_effect fixed random e = true) ->
  let effects := filter (kept_effect fixed random) names in
  role_names p (map (effect_label fixed random) effects ++ [VARIANCE]) (effects ++ [variance]) = filter q names.
Proof.
  intros Hv H1 H2. simpl. induction names as [|c names IH]; simpl; [rewrite Hv; auto|].
  destruct (kept_effect fixed random c) eqn:E; simpl.
  - rewrite (H1 c E). destruct (q c); simpl; rewrite IH; auto.
  - destruct (q c) eqn:Eq; [apply H2 in Eq; congruence|]. apply IH.
Qed.
Lemma labelled_variance fixed random effects h variance :
  labelled "variance" (map (effect_label fixed random) effects ++ [VARIANCE]) (map h (effects ++ [variance])) = h variance.
Proof.
  induction effects as [|e es IH]; [reflexivity|]. cbn [map app labelled]. 
  destruct (string_dec "variance" (effect_label fixed random e)) as [E|]; [|auto].
  unfold effect_label in E. destruct (has_key e fixed), (has_key e random); discriminate E.
Qed.

(*@ C35.  Otherwise the problem has exactly the named effects, in the order of the dataframe, with their
    values, the group and variance columns that were named, and an intercept exactly when it was
    named. *)
Lemma from_dataframe_selects_lemma :
  forall d fixed random groups variance target not_fe not_re pr,
  from_dataframe d fixed random groups variance target not_fe not_re = Ok pr ->
  let fe := named_effects d fixed in
  let re := named_effects d random in
  let one (effects : list string) := if in_dec string_dec "intercept" effects then [1] else [] in
  let row (effects : list string) i := map (fun c => df_value d c i) effects in
  pr_fe_columns pr = Some fe /\ pr_re_columns pr = Some re /\
  num_fixed pr = length (one fixed ++ row fe 0%nat) /\ num_random pr = length (one random ++ row re 0%nat) /\
  exists idx, partition_of (df_value d groups) (df_n d) (pr_group_labels pr) idx /\
    pr_order pr = concat idx /\
    pr_fixed pr = map (map (fun i => one fixed ++ row fe i)) idx /\
    pr_random pr = map (map (fun i => one random ++ row re i)) idx /\
    pr_obs_vars pr = map (map (df_value d variance)) idx /\
    pr_answers pr = Some (map (map (df_value d target)) idx).
Proof.
  intros d fixed random groups variance target nf nr pr H fe re one row.
  unfold from_dataframe in H. apply rbind_inv in H as [u1 [_ H]]. apply rbind_inv in H as [u2 [_ H]].
  apply rbind_inv in H as [u3 [_ H]].
  set (names := map fst (df_cols d)) in *. set (effects := filter (kept_effect fixed random) names) in *.
  set (columns := groups :: effects ++ [variance]) in *.
  set (labels := GROUP :: map (effect_label fixed random) effects ++ [VARIANCE]) in *.
  apply rbind_inv in H as [cols [Hc H]]. apply rbind_inv in H as [y [Hy H]].
  set (x := {| t_cols := length columns; t_rows := tr (df_n d) cols |}) in *.
  assert (Lc : length cols = length columns).
  { clear - Hc. revert cols Hc. induction columns as [|c cs IH]; simpl; intros cols H; [inversion H; auto|].
    destruct (df_col d c); [|discriminate]. destruct (sequence (map (df_col d) cs)); [|discriminate]. inversion H.
    simpl. f_equal. auto. }
  assert (Hrow : forall i, (i < df_n d)%nat -> nth i (t_rows x) [] = map (fun c => df_value d c i) columns).
  { intros i Hi. unfold x. cbn [t_rows]. unfold tr. rewrite (nth_map_lt _ _ _ _ 0%nat) by (rewrite seq_length; auto).
    rewrite seq_nth by auto. cbn [Nat.add]. clear - Hc. revert cols Hc.
    induction columns as [|c cs IH]; simpl; intros cols H; [inversion H; auto|].
    destruct (df_col d c) as [v|] eqn:E; [|discriminate]. destruct (sequence (map (df_col d) cs)) as [vs|]; [|discriminate].
    inversion H. simpl. f_equal; auto. unfold df_value. unfold df_col in E. destruct (lookup c (df_cols d)); inversion E; auto. }
  assert (Ln : length (t_rows x) = df_n d) by (unfold x; cbn; apply tr_length).
  assert (Hwf : wf_table x).
  { unfold wf_table, x. cbn [t_rows t_cols]. rewrite <- Lc. apply tr_wf. }
  assert (Hty : forall i, nth i y 0 = df_value d target i).
  { intros i. unfold df_value. unfold df_col in Hy. destruct (lookup target (df_cols d)); inversion Hy; auto. }
  assert (Hcne : columns <> []) by discriminate.
  destruct (column_names_line_up_partial_lemma _ _ _ _ _ _ _ _ _ Hwf Hcne H) as [N1 [N2 _]].
  destruct (weights_line_up_partial_lemma _ _ _ _ _ _ _ _ _ Hwf Hcne H) as [_ [_ [M1 M2]]].
  destruct (grouping_is_partition_lemma _ _ _ _ _ _ _ _ _ Hwf H) as [idx [P [Po [Pf [Pr [Pv [Pa _]]]]]]].
  rewrite Ln in *.
  assert (QF : forall e, has_key e fixed && negb (String.eqb e INTERCEPT) = true -> kept_effect fixed random e = true).
  { intros e He. apply andb_prop in He as [A B]. unfold kept_effect. rewrite A, B. reflexivity. }
  assert (QR : forall e, has_key e random && negb (String.eqb e INTERCEPT) = true -> kept_effect fixed random e = true).
  { intros e He. apply andb_prop in He as [A B]. unfold kept_effect. rewrite A, B, orb_true_r. reflexivity. }
  assert (NF : role_names is_fixed labels columns = fe).
  { unfold labels, columns, fe. cbn [role_names]. change (is_fixed GROUP) with false. cbv iota. rewrite named_is.
    apply role_names_effects; auto. apply fixed_effect_label. }
  assert (NR : role_names is_random labels columns = re).
  { unfold labels, columns, re. cbn [role_names]. change (is_random GROUP) with false. cbv iota. rewrite named_is.
    apply role_names_effects; auto. apply random_effect_label. }
  unfold coefficient_names in *. cbn [app] in N1, N2. rewrite NF in *. rewrite NR in *.
  assert (ONE : forall effects, (if has_key INTERCEPT effects then [1] else []) = one effects).
  { intros es. rewrite has_key_dec'. unfold one, INTERCEPT. destruct (in_dec string_dec "intercept" es); auto. }
  split; [auto|]. split; [auto|]. 
  split.
  { rewrite <- M1, !app_length. unfold row. rewrite map_length. rewrite has_key_dec'. unfold one, INTERCEPT.
    destruct (in_dec string_dec "intercept" fixed); reflexivity. }
  split.
  { rewrite <- M2, !app_length. unfold row. rewrite map_length. rewrite has_key_dec'. unfold one, INTERCEPT.
    destruct (in_dec string_dec "intercept" random); reflexivity. }
  assert (IDX : forall is i, In is idx -> In i is -> (i < df_n d)%nat).
  { intros is i H1 H2. destruct P as [_ [_ [P3 _]]]. clear - P3 H1 H2. induction P3 as [|l js gl ids [S1 S2] HF IH]; [destruct H1|].
    destruct H1 as [<-|H1]; auto. apply S2 in H2. tauto. }
  assert (GR : forall i, (i < df_n d)%nat -> group_of labels (nth i (t_rows x) []) = df_value d groups i).
  { intros i Hi. rewrite Hrow by auto. reflexivity. }
  exists idx. split; [|split; [auto|split; [|split; [|split]]]].
  - destruct P as [P1 [P2 [P3 P4]]]. split; [auto|]. split; [|split; [|auto]].
    + intros l. rewrite P2. split; intros [i [Hi E]]; exists i; (split; [auto|]); rewrite <- E; [symmetry|]; apply GR; auto.
    + clear - P3 GR. induction P3 as [|l js gl ids [S1 S2] HF IH]; constructor; auto. split; auto.
      intros i. rewrite S2. split; intros [Hi E]; split; auto; rewrite <- E; [symmetry|]; apply GR; auto.
  - rewrite Pf. apply map_ext_in. intros is His. apply map_ext_in. intros i Hi. rewrite Hrow by eauto.
    unfold features_of. rewrite ONE. f_equal. unfold labels, columns. cbn [map role_values]. change (is_fixed GROUP) with false. cbv iota.
    rewrite <- (app_nil_r (role_values _ _ _)). unfold effects, names.
    rewrite (rv_effects is_fixed _ d fixed random (fun c => df_value d c i) variance [] eq_refl (fixed_effect_label fixed random) QF).
    rewrite app_nil_r. unfold row, fe. rewrite named_is. reflexivity.
  - rewrite Pr. apply map_ext_in. intros is His. apply map_ext_in. intros i Hi. rewrite Hrow by eauto.
    unfold features_of. rewrite ONE. f_equal. unfold labels, columns. cbn [map role_values]. change (is_random GROUP) with false. cbv iota.
    rewrite <- (app_nil_r (role_values _ _ _)). unfold effects, names.
    rewrite (rv_effects is_random _ d fixed random (fun c => df_value d c i) variance [] eq_refl (random_effect_label fixed random) QR).
    rewrite app_nil_r. unfold row, re. rewrite named_is. reflexivity.
  - rewrite Pv. apply map_ext_in. intros is His. apply map_ext_in. intros i Hi. rewrite Hrow by eauto.
    unfold variance_of, labels, columns. cbn [map labelled].
    destruct (string_dec "variance" GROUP) as [E|]; [discriminate E|]. apply labelled_variance.
  - rewrite Pa. cbn [option_map]. f_equal. apply map_ext. intros is. apply map_ext. auto.
Qed.

(*@ A dataframe with an intercept column that is accepted. *)
Lemma ex_from_dataframe_lemma :
  let d := {| df_n := 2; df_cols := [("g", [1; 0]); ("a", [5; 6]); ("intercept", [1; 1]); ("v", [1; 1]); ("y", [10; 20])] |} in
  exists pr, from_dataframe d ["intercept"; "a"] ["a"] "g" "v" "y" ["intercept"] [] = Ok pr.
Proof.
  intros d. unfold from_dataframe. cbn [d df_cols df_n].
  change (forallb _ (["intercept"; "a"] ++ _)) with true. cbn [guard rbind].
  change (forallb _ ["intercept"]) with true. cbn [guard rbind]. change (forallb _ []) with true. cbn [guard rbind].
  change (filter _ _) with ["a"]. cbn [app map]. change (effect_label ["intercept"; "a"] ["a"] "a") with "fixed+random".
  change (df_col _ "g") with (@Ok vec [1; 0]). change (df_col _ "a") with (@Ok vec [5; 6]).
  change (df_col _ "v") with (@Ok vec [1; 1]). change (df_col _ "y") with (@Ok vec [10; 20]). cbn [sequence rbind].
  match goal with |- exists pr, from_x_y ?x ?y (Some ?cs) (Some ?ls) ?ff ?fr ?mf ?mr = Ok pr =>
    assert (W : wf_table x) by (repeat constructor);
    destruct (proj2 (from_x_y_accepts_iff_lemma x y ls ff fr W)) as [pr0 H0] end.
  - split; [split; [discriminate|reflexivity]|]. split; [|split; [reflexivity|split]].
    + split; [apply known_label_spec; reflexivity|split; reflexivity].
    + repeat constructor; unfold variance_of; simpl; lra.
    + constructor; [exists 1%Z; reflexivity|constructor; [exists 0%Z; reflexivity|constructor]].
  - eapply from_x_y_accepts_names_lemma; [exact H0|reflexivity|right; right; discriminate].
Qed.

(** C37 *)
Lemma gc_spec labels : forall beta u fc rc row c, length row = length labels ->
  group_coefficients (map Some labels) beta u fc rc = Ok c ->
  vdot c row = vdot (role_values is_fixed labels row) (skipn fc beta)
               + vdot (role_values is_random labels row) (skipn rc u).
Proof.
  induction labels as [|l labels IH]; intros beta u fc rc [|a row] c HL H; try discriminate.
  - inversion H. unfold vdot. simpl. lra.
  - simpl in HL. cbn [map group_coefficients] in H. cbn [role_values].
    assert (SK : forall (v : vec) i b, nth_error v i = Some b -> skipn i v = b :: skipn (S i) v).
    { clear. intros v. induction v as [|x v IHv]; intros [|i] b Hb; simpl in *; try discriminate; [congruence|auto]. }
    unfold is_fixed at 1, is_random at 1.
    destruct (String.eqb_spec l FIXED) as [->|N1].
    { change (String.eqb FIXED RANDOM) with false. change (String.eqb FIXED FIXED_RANDOM) with false. cbn [orb].
      destruct (nth_error beta fc) as [b|] eqn:Eb; [|discriminate]. cbn [rbind] in H.
      apply rbind_inv in H as [rest [Hr H]]. inversion H; subst c.
      rewrite (SK _ _ _ Eb), !vdot_cons. rewrite (IH _ _ _ _ row rest) with (2 := Hr) by congruence. lra. }
    destruct (String.eqb_spec l RANDOM) as [->|N2].
    { change (String.eqb RANDOM FIXED_RANDOM) with false. cbn [orb].
      destruct (nth_error u rc) as [b|] eqn:Eb; [|discriminate]. cbn [rbind] in H.
      apply rbind_inv in H as [rest [Hr H]]. inversion H; subst c.
      rewrite (SK _ _ _ Eb), !vdot_cons. rewrite (IH _ _ _ _ row rest) with (2 := Hr) by congruence. lra. }
    destruct (String.eqb_spec l FIXED_RANDOM) as [->|N3]; cbn [orb].
    { destruct (nth_error beta fc) as [b|] eqn:Eb; [|discriminate]. cbn [rbind] in H.
      destruct (nth_error u rc) as [b'|] eqn:Eb'; [|discriminate]. cbn [rbind] in H.
      apply rbind_inv in H as [rest [Hr H]]. inversion H; subst c.
      rewrite (SK _ _ _ Eb), (SK _ _ _ Eb'), !vdot_cons. rewrite (IH _ _ _ _ row rest) with (2 := Hr) by congruence. lra. }
    apply rbind_inv in H as [rest [Hr H]]. inversion H; subst c.
    rewrite !vdot_cons. rewrite (IH _ _ _ _ row rest) with (2 := Hr) by congruence. lra.
Qed.
Lemma gc_total labels : forall beta u fc rc, (countb is_fixed labels + fc <= length beta)%nat ->
  (countb is_random labels + rc <= length u)%nat ->
  exists c, group_coefficients (map Some labels) beta u fc rc = Ok c /\ length c = length labels.
Proof.
  induction labels as [|l labels IH]; intros beta u fc rc H1 H2; [exists []; auto|].
  rewrite countb_cons in H1, H2. cbn [map group_coefficients].
  unfold is_fixed at 1 in H1. unfold is_random at 1 in H2.
  assert (NE : forall (v : vec) i, (i < length v)%nat -> exists b, nth_error v i = Some b).
  { intros v i Hi. destruct (nth_error v i) eqn:E; eauto. apply nth_error_None in E. lia. }
  destruct (String.eqb_spec l FIXED) as [->|N1].
  { change (String.eqb FIXED RANDOM) with false in H2. change (String.eqb FIXED FIXED_RANDOM) with false in H2.
    simpl in H1, H2. destruct (NE beta fc) as [b Eb]; [lia|]. rewrite Eb.
    destruct (IH beta u (S fc) rc) as [c [Hc Lc]]; [lia|lia|]. cbn [rbind]. rewrite Hc. exists (b :: c). simpl; auto. }
  destruct (String.eqb_spec l RANDOM) as [->|N2].
  { change (String.eqb RANDOM FIXED_RANDOM) with false in H1.
    simpl in H1, H2. destruct (NE u rc) as [b Eb]; [lia|]. rewrite Eb.
    destruct (IH beta u fc (S rc)) as [c [Hc Lc]]; [lia|lia|]. cbn [rbind]. rewrite Hc. exists (b :: c). simpl; auto. }
  destruct (String.eqb_spec l FIXED_RANDOM) as [->|N3]; simpl in H1, H2.
  { destruct (NE beta fc) as [b Eb]; [lia|]. destruct (NE u rc) as [b' Eb']; [lia|]. rewrite Eb. cbn [rbind]. rewrite Eb'.
    destruct (IH beta u (S fc) (S rc)) as [c [Hc Lc]]; [lia|lia|]. cbn [rbind]. rewrite Hc. exists (b + b' :: c). simpl; auto. }
  destruct (IH beta u fc rc) as [c [Hc Lc]]; [lia|lia|]. rewrite Hc. exists (0 :: c). simpl; auto.
Qed.

(*@ C37.  For every layout of labels the coefficients of a group, applied to a data row extended by the
    intercept, give the fixed-effect part plus the random-effect part; and they exist whenever
    there are enough coefficients. *)
Lemma per_group_coefficients_predict_lemma :
  forall ff fr labels beta u row,
  length beta = (countb is_fixed labels + b2n ff)%nat -> length u = (countb is_random labels + b2n fr)%nat ->
  length row = length labels ->
  exists c, group_coefficients (intercept_label_of ff fr :: map Some labels) beta u 0 0 = Ok c /\
    length c = S (length labels) /\
    vdot c (1 :: row) = vdot (features_of is_fixed ff labels row) beta + vdot (features_of is_random fr labels row) u.
Proof.
  intros ff fr labels beta u row H1 H2 HL. unfold features_of.
  destruct ff, fr; cbn [b2n] in H1, H2; cbn [app].
  - destruct beta as [|b beta]; [simpl in H1; lia|]. destruct u as [|a u]; [simpl in H2; lia|]. simpl in H1, H2.
    destruct (gc_total labels (b :: beta) (a :: u) 1 1) as [c [Hc Lc]]; [simpl; lia|simpl; lia|].
    pose proof (gc_spec labels _ _ _ _ row c HL Hc) as S. cbn [skipn] in S.
    exists (b + a :: c). split; [cbn; rewrite Hc; reflexivity|]. split; [simpl; auto|]. rewrite !vdot_cons. lra.
  - destruct beta as [|b beta]; [simpl in H1; lia|]. simpl in H1, H2.
    destruct (gc_total labels (b :: beta) u 1 0) as [c [Hc Lc]]; [simpl; lia|simpl; lia|].
    pose proof (gc_spec labels _ _ _ _ row c HL Hc) as S. cbn [skipn] in S.
    exists (b :: c). split; [cbn; rewrite Hc; reflexivity|]. split; [simpl; auto|]. rewrite !vdot_cons. lra.
  - destruct u as [|a u]; [simpl in H2; lia|]. simpl in H1, H2.
    destruct (gc_total labels beta (a :: u) 0 1) as [c [Hc Lc]]; [simpl; lia|simpl; lia|].
    pose proof (gc_spec labels _ _ _ _ row c HL Hc) as S. cbn [skipn] in S.
    exists (a :: c). split; [cbn; rewrite Hc; reflexivity|]. split; [simpl; auto|]. rewrite !vdot_cons. lra.
  - destruct (gc_total labels beta u 0 0) as [c [Hc Lc]]; [simpl; lia|simpl; lia|].
    pose proof (gc_spec labels _ _ _ _ row c HL Hc) as S. cbn [skipn] in S.
    exists (0 :: c). split; [cbn; rewrite Hc; reflexivity|]. split; [simpl; auto|]. rewrite !vdot_cons. lra.
Qed.

(*@ Coefficients of a group for the layout intercept, group, fixed, both, random. *)
Lemma ex_per_group_coefficients_lemma :
  exists c, group_coefficients (intercept_label_of true true :: map Some ["group"; "fixed"; "fixed+random"; "random"])
              [100; 1; 2] [10; 20; 30] 0 0 = Ok c /\ c = [110; 0; 1; 22; 30].
Proof. eexists. split; [reflexivity|]. repeat (apply f_equal2; [lra|]). reflexivity. Qed.

(** C36 *)
Definition d_mask (d : mat * vec * vec) : mat := fst (fst d).
Definition d_drawn (d : mat * vec * vec) : vec := snd (fst d).
Definition d_errors (d : mat * vec * vec) : vec := snd d.
Definition no_draw : mat * vec * vec := ([], [], []).
Definition no_group : gen_group :=
  {| gg_fixed := []; gg_random := []; gg_effects := []; gg_answers := []; gg_vars := []; gg_errors := [] |}.

Lemma gen_loop_spec labels ff fr ov beta all given features : forall sizes draws i start gs,
  length draws = length sizes ->
  gen_loop labels ff fr ov beta all given i start sizes features draws = Ok gs ->
  length gs = length sizes /\
  forall k, (k < length sizes)%nat ->
    gen_one labels ff fr ov beta all given (i + k) (start + list_sum (firstn k sizes)) (nth k sizes 0%nat)
      features (d_mask (nth k draws no_draw)) (d_drawn (nth k draws no_draw)) (d_errors (nth k draws no_draw))
    = Ok (nth k gs no_group).
Proof.
  induction sizes as [|size sizes IH]; intros [|[[mask drawn] errors] draws] i start gs HL H; try discriminate.
  - inversion H. split; auto. intros k Hk. simpl in Hk. lia.
  - cbn [gen_loop] in H. apply rbind_inv in H as [g [Hg H]]. apply rbind_inv in H as [gs' [Hs H]]. apply Ok_inj in H.
    subst gs. simpl in HL. destruct (IH draws (S i) (start + size)%nat gs') as [L N]; [congruence|auto|].
    split; [simpl; congruence|]. intros [|k] Hk.
    + cbn [firstn list_sum nth]. rewrite !Nat.add_0_r. exact Hg.
    + cbn [nth firstn]. simpl in Hk. specialize (N k). rewrite <- N by lia.
      replace (i + S k)%nat with (S i + k)%nat by lia.
      replace (start + list_sum (size :: firstn k sizes))%nat with (start + size + list_sum (firstn k sizes))%nat by (simpl; lia).
      reflexivity.
Qed.

Lemma generate_inv xname sizes labels ff fr ov beta gamma given features draws pr coefs :
  generate xname sizes labels ff fr ov beta gamma given features draws = Ok (pr, coefs) ->
  let data := if (length labels =? 0)%nat then repeat [1] (list_sum sizes) else features in
  let q := (length (where_ is_random labels) + b2n fr)%nat in
  exists gs, gen_loop labels ff fr ov beta sizes given 0 0 sizes data draws = Ok gs /\
    sequence (map (fun g => group_coefficients (map Some (GROUP :: labels ++ [VARIANCE])) beta (gg_effects g) 0 0) gs) = Ok coefs /\
    pr_fixed pr = map gg_fixed gs /\ pr_random pr = map gg_random gs /\ pr_random_0d pr = (q =? 0)%nat /\
    pr_answers pr = Some (map gg_answers gs) /\ pr_obs_vars pr = map gg_vars gs /\
    pr_group_labels pr = map INR (seq 0 (length sizes)) /\ pr_intercept pr = intercept_label_of ff fr /\
    pr_labels pr = GROUP :: labels ++ [VARIANCE] /\ pr_order pr = seq 0 (list_sum sizes) /\
    pr_fe_columns pr = Some ((if ff then [INTERCEPT] else []) ++ map xname (where_ is_fixed labels)) /\
    pr_re_columns pr = Some ((if fr then [INTERCEPT] else []) ++ map xname (where_ is_random labels)) /\
    length beta = (length (where_ is_fixed labels) + b2n ff)%nat.
Proof.
  intros H data q. unfold generate in H. apply rbind_inv in H as [u1 [_ H]]. apply rbind_inv in H as [u2 [_ H]].
  apply rbind_inv in H as [u3 [Hb H]]. apply guard_inv in Hb. apply Nat.eqb_eq in Hb.
  apply rbind_inv in H as [u4 [_ H]]. apply rbind_inv in H as [gs [Hg H]]. apply rbind_inv in H as [cs [Hc H]].
  apply Ok_inj in H. injection H as <- <-. exists gs. split; [exact Hg|]. split; [exact Hc|].
  repeat (split; [reflexivity|]). exact Hb.
Qed.

Lemma gen_one_vars labels ff fr ov beta all given i start size features mask drawn errors g :
  gen_one labels ff fr ov beta all given i start size features mask drawn errors = Ok g ->
  group_variance ov all i start size = Ok (gg_vars g).
Proof.
  intros H. unfold gen_one in H. apply rbind_inv in H as [v [Hv H]]. apply rbind_inv in H as [u [_ H]].
  apply Ok_inj in H. rewrite <- H. exact Hv.
Qed.

Lemma list_eq_nth {A} (d : A) l l' : length l = length l' ->
  (forall k, (k < length l)%nat -> nth k l d = nth k l' d) -> l = l'.
Proof. intros. eapply nth_ext; eauto. Qed.

(*@ C33 (partial).  The names of a generated problem line up with the coefficients, intercept included. *)
Lemma generate_names_line_up_partial_lemma :
  forall xname sizes labels ff fr ov beta gamma given features draws pr coefs,
  generate xname sizes labels ff fr ov beta gamma given features draws = Ok (pr, coefs) ->
  let names p intercept := (if intercept : bool then ["intercept"] else [])
                           ++ map xname (filter (fun i => p (nth i labels "")) (seq 0 (length labels))) in
  pr_fe_columns pr = Some (names is_fixed ff) /\ length (names is_fixed ff) = num_fixed pr /\
  pr_re_columns pr = Some (names is_random fr) /\ length (names is_random fr) = num_random pr.
Proof.
  intros xname sizes labels ff fr ov beta gamma given features draws pr coefs H names.
  apply generate_inv in H. cbv zeta in H.
  destruct H as [gs [_ [_ [_ [_ [_ [_ [_ [_ [Ei [El [_ [Fe [Re _]]]]]]]]]]]]]].
  assert (WF : forall p, where_ p labels = filter (fun i => p (nth i labels "")) (seq 0 (length labels))).
  { intros p. unfold where_.
    assert (G : forall l (pre : list string), where_from (length pre) p l = filter (fun i => p (nth i (pre ++ l) "")) (seq (length pre) (length l))).
    { induction l as [|a l IH]; intros pre; [reflexivity|]. cbn [where_from length seq filter].
      rewrite app_nth2, Nat.sub_diag by lia. cbn [nth].
      specialize (IH (pre ++ [a])). rewrite app_length, <- app_assoc in IH. simpl in IH. rewrite Nat.add_1_r in IH. rewrite IH. reflexivity. }
    exact (G labels []). }
  unfold names. rewrite <- !WF. split; [exact Fe|]. split; [|split; [exact Re|]].
  - unfold num_fixed. rewrite Ei, El, label_fixed, app_length, map_length, where_length, countb_cons, countb_app, countb_cons.
    change (is_fixed GROUP) with false. change (is_fixed VARIANCE) with false. change (countb is_fixed []) with 0%nat. destruct ff; simpl; lia.
  - unfold num_random. rewrite Ei, El, label_random, app_length, map_length, where_length, countb_cons, countb_app, countb_cons.
    change (is_random GROUP) with false. change (is_random VARIANCE) with false. change (countb is_random []) with 0%nat. destruct fr; simpl; lia.
Qed.

(*@ C36 (partial).  One variance for all objects, one per group, and one per object of a single group
    are used as requested. *)
Lemma generate_variances_partial_lemma :
  forall xname sizes labels ff fr ov beta gamma given features draws pr coefs,
  generate xname sizes labels ff fr ov beta gamma given features draws = Ok (pr, coefs) ->
  length draws = length sizes ->
  match ov with
  | VScalar v => pr_obs_vars pr = map (repeat v) sizes
  | VArray v =>
      (length v = length sizes -> list_sum sizes <> length sizes -> pr_obs_vars pr = map2 (@repeat R) v sizes) /\
      (forall n, sizes = [n] -> length v = n -> pr_obs_vars pr = [v])
  | VOther => False
  end \/ sizes = [].
Proof.
  intros xname sizes labels ff fr ov beta gamma given features draws pr coefs H HL.
  destruct sizes as [|s0 ss]; [right; auto|left]. set (sizes := s0 :: ss) in *.
  apply generate_inv in H. cbv zeta in H. destruct H as [gs [Hg [_ [_ [_ [_ [_ [Ev _]]]]]]]].
  apply gen_loop_spec in Hg as [Lg N]; auto.
  assert (V : forall k, (k < length sizes)%nat -> group_variance ov sizes k (list_sum (firstn k sizes)) (nth k sizes 0%nat)
     = Ok (gg_vars (nth k gs no_group))).
  { intros k Hk. specialize (N k Hk). apply gen_one_vars in N. exact N. }
  clear N. rewrite Ev. clear Ev.
  assert (G : forall f : nat -> vec, (forall k, (k < length sizes)%nat -> gg_vars (nth k gs no_group) = f k) ->
     map gg_vars gs = map f (seq 0 (length sizes))).
  { intros f Hf. apply list_eq_nth with (d := []); [rewrite !map_length, seq_length; auto|].
    intros k Hk. rewrite map_length in Hk. rewrite (nth_map_lt _ _ _ _ no_group) by auto.
    rewrite (nth_map_lt _ _ _ _ 0%nat) by (rewrite seq_length; lia). rewrite seq_nth by lia. apply Hf. lia. }
  destruct ov as [v|v|].
  - rewrite (G (fun k => repeat v (nth k sizes 0%nat))).
    + apply list_eq_nth with (d := []); [rewrite !map_length, seq_length; auto|]. intros k Hk.
      rewrite map_length, seq_length in Hk. rewrite (nth_map_lt _ _ _ _ 0%nat) by (rewrite seq_length; auto).
      rewrite (nth_map_lt _ _ _ _ 0%nat) by auto. rewrite seq_nth by auto. reflexivity.
    + intros k Hk. specialize (V k Hk). cbn [group_variance] in V. apply Ok_inj in V. auto.
  - split.
    + intros Lv Ns. rewrite (G (fun k => repeat (nth k v 0) (nth k sizes 0%nat))).
      * apply list_eq_nth with (d := []); [rewrite map_length, seq_length, map2_length_eq; auto|]. intros k Hk.
        rewrite map_length, seq_length in Hk. rewrite (nth_map_lt _ _ _ _ 0%nat) by (rewrite seq_length; auto).
        rewrite seq_nth by auto. rewrite (map2_nth _ _ _ _ 0 0%nat) by lia. reflexivity.
      * intros k Hk. specialize (V k Hk). cbn [group_variance] in V.
        destruct (length v =? list_sum sizes)%nat eqn:E; [apply Nat.eqb_eq in E; lia|].
        rewrite Lv, Nat.eqb_refl in V. apply Ok_inj in V. auto.
    + intros n En Ln. specialize (V 0%nat). rewrite En in *. specialize (V ltac:(simpl; lia)).
      cbn [nth firstn list_sum fold_right group_variance] in V. simpl list_sum in V.
      rewrite Nat.add_0_r in V. unfold vec in *. rewrite Ln, Nat.eqb_refl in V. simpl skipn in V. rewrite Nat.sub_0_r in V.
      unfold broadcast in V. rewrite firstn_all2 in V by lia. rewrite Ln, Nat.eqb_refl in V. apply Ok_inj in V.
      destruct gs as [|g [|]]; try (simpl in Lg; discriminate). simpl. simpl in V. congruence.
  - specialize (V 0%nat). unfold sizes in V. specialize (V ltac:(simpl; lia)). discriminate.
Qed.

(*@ C36 (refuted).  With one variance per object the slice starts at the group but ends at its size:
    whenever the second group is not larger than the first the generator fails, and otherwise it
    uses variances of other objects. *)
Lemma generate_variances_refuted_lemma :
  (forall xname a b rest labels ff fr v beta gamma given features draws r,
   (0 < b <= a)%nat -> length v = list_sum (a :: b :: rest) -> length draws = length (a :: b :: rest) ->
   generate xname (a :: b :: rest) labels ff fr (VArray v) beta gamma given features draws <> Ok r) /\
  (forall xname beta gamma features mask0 mask1 drawn0 drawn1 errors0 errors1 r,
   generate xname [1; 2]%nat ["fixed"] false false (VArray [1; 2; 3]) beta gamma [] features
     [(mask0, drawn0, errors0); (mask1, drawn1, errors1)] = Ok r ->
   pr_obs_vars (fst r) = [[1]; [2; 2]]).
Proof.
  split.
  - intros xname a b rest labels ff fr v beta gamma given features draws [pr coefs] Hab Lv Ld H.
    apply generate_inv in H. cbv zeta in H. destruct H as [gs [Hg _]]. apply gen_loop_spec in Hg as [_ N]; auto.
    specialize (N 1%nat ltac:(simpl; lia)). apply gen_one_vars in N. cbn [firstn list_sum nth group_variance] in N.
    rewrite Lv, Nat.eqb_refl in N. simpl list_sum in N. rewrite Nat.add_0_r in N. cbn [Nat.add] in N.
    replace (b - a)%nat with 0%nat in N by lia. cbn [firstn] in N. unfold broadcast in N. cbn [length] in N.
    destruct (0 =? b)%nat eqn:E; [apply Nat.eqb_eq in E; lia|discriminate].
  - intros xname beta gamma features mask0 mask1 drawn0 drawn1 errors0 errors1 [pr coefs] H.
    apply generate_inv in H. cbv zeta in H. destruct H as [gs [Hg [_ [_ [_ [_ [_ [Ev _]]]]]]]].
    apply gen_loop_spec in Hg as [Lg N]; auto. cbn [fst]. rewrite Ev.
    destruct gs as [|g0 [|g1 [|]]]; try discriminate Lg.
    pose proof (gen_one_vars _ _ _ _ _ _ _ _ _ _ _ _ _ _ _ (N 0%nat ltac:(simpl; lia))) as V0.
    pose proof (gen_one_vars _ _ _ _ _ _ _ _ _ _ _ _ _ _ _ (N 1%nat ltac:(simpl; lia))) as V1.
    cbn in V0, V1. apply Ok_inj in V0, V1. cbn [map]. rewrite <- V0, <- V1. reflexivity.
Qed.

Lemma seq_map_length {A B} (f : A -> res B) l r : sequence (map f l) = Ok r -> length r = length l.
Proof.
  revert r. induction l as [|a l IH]; cbn [map sequence]; intros r H; [inversion H; auto|].
  destruct (f a); [|discriminate]. destruct (sequence (map f l)); [|discriminate]. inversion H. simpl. f_equal. auto.
Qed.
Lemma seq_map_nth {A B} (f : A -> res B) l r da db k : sequence (map f l) = Ok r -> (k < length l)%nat ->
  f (nth k l da) = Ok (nth k r db).
Proof.
  revert r k. induction l as [|a l IH]; cbn [map sequence]; intros r k H Hk; [simpl in Hk; lia|].
  destruct (f a) as [b|] eqn:E; [|discriminate]. destruct (sequence (map f l)) as [bs|]; [|discriminate].
  inversion H. destruct k as [|k]; cbn [nth]; [auto|]. apply IH; auto. simpl in Hk. lia.
Qed.
(** rows of a group *)
Lemma In_firstn {A} n (l : list A) a : In a (firstn n l) -> In a l.
Proof. intros H. rewrite <- (firstn_skipn n l). apply in_app_iff. auto. Qed.
Lemma In_skipn {A} n (l : list A) a : In a (skipn n l) -> In a l.
Proof. intros H. rewrite <- (firstn_skipn n l). apply in_app_iff. auto. Qed.
Lemma gen_rows_wf m sizes features draws : wf_draws m sizes features draws ->
  forall k, (k < length sizes)%nat ->
  length (gen_rows sizes features (map d_mask draws) k) = nth k sizes 0%nat /\
  wf_mat m (gen_rows sizes features (map d_mask draws) k) /\ length (d_errors (nth k draws no_draw)) = nth k sizes 0%nat.
Proof.
  intros [L1 [L2 [L3 H]]] k Hk. specialize (H k Hk). unfold gen_rows.
  rewrite (nth_map_lt _ _ _ _ no_draw) by lia. unfold no_draw, d_mask, d_errors in *.
  destruct (nth k draws ([], [], [])) as [[mask drawn] errors] eqn:E. cbn [fst snd]. destruct H as [H1 [H2 H3]].
  assert (LF : length (firstn (nth k sizes 0%nat) (skipn (list_sum (firstn k sizes)) features)) = nth k sizes 0%nat).
  { rewrite firstn_length, skipn_length, L2. apply Nat.min_l.
    clear - Hk. revert k Hk. induction sizes as [|s ss IH]; simpl; intros k Hk; [lia|]. destruct k as [|k]; simpl; [lia|].
    specialize (IH k ltac:(lia)). simpl in IH. lia. }
  split; [|split].
  - rewrite map2_length_eq; [exact H1|]. transitivity (nth k sizes 0%nat); [exact LF|symmetry; exact H1].
  - assert (WF : wf_mat m (firstn (nth k sizes 0%nat) (skipn (list_sum (firstn k sizes)) features))).
    { unfold wf_mat in *. apply Forall_forall. intros r Hr. rewrite Forall_forall in L3. apply L3.
      apply In_firstn in Hr. apply In_skipn in Hr. exact Hr. }
    clear - WF H2. revert WF H2. generalize (firstn (nth k sizes 0%nat) (skipn (list_sum (firstn k sizes)) features)).
    intros l. revert mask. induction l as [|r l IH]; intros [|r' mask] W1 W2; cbn [map2]; try constructor;
      inversion W1; inversion W2; subst; auto.
    + rewrite vmul_length; congruence.
    + apply IH; auto.
  - auto.
Qed.
Lemma gen_one_group labels ff fr ov beta sizes given k features draws g :
  (k < length sizes)%nat -> length draws = length sizes ->
  gen_one labels ff fr ov beta sizes given k (list_sum (firstn k sizes)) (nth k sizes 0%nat) features
    (d_mask (nth k draws no_draw)) (d_drawn (nth k draws no_draw)) (d_errors (nth k draws no_draw)) = Ok g ->
  let rows := gen_rows sizes features (map d_mask draws) k in
  let q := (length (where_ is_random labels) + b2n fr)%nat in
  gg_fixed g = map (feature_row ff (where_ is_fixed labels)) rows /\
  gg_random g = (if (q =? 0)%nat then [] else map (feature_row fr (where_ is_random labels)) rows) /\
  length (gg_effects g) = q /\
  group_variance ov sizes k (list_sum (firstn k sizes)) (nth k sizes 0%nat) = Ok (gg_vars g) /\
  gg_answers g = vadd (if (q =? 0)%nat then mv (gg_fixed g) beta
                       else vadd (mv (gg_fixed g) beta) (mv (gg_random g) (gg_effects g))) (d_errors (nth k draws no_draw)).
Proof.
  intros Hk HL H rows q. unfold gen_one in H. apply rbind_inv in H as [v [Hv H]]. apply rbind_inv in H as [u [Hu H]].
  apply guard_inv in Hu. apply Nat.eqb_eq in Hu. apply Ok_inj in H. subst g. 
  cbn [gg_fixed gg_random gg_effects gg_vars gg_answers]. unfold rows, gen_rows. rewrite (nth_map_lt _ _ _ _ no_draw) by lia.
  split; [reflexivity|]. split; [reflexivity|]. split; [exact Hu|]. split; [exact Hv|]. reflexivity.
Qed.
Lemma vadd_map {A} (f g : A -> R) l : vadd (map f l) (map g l) = map (fun a => f a + g a) l.
Proof. unfold vadd. induction l; simpl; congruence. Qed.
Lemma group_variance_length ov sizes k start size v : group_variance ov sizes k start size = Ok v -> length v = size.
Proof.
  unfold group_variance, broadcast. destruct ov as [r|w|]; intros H; [apply Ok_inj in H; subst; apply repeat_length| |discriminate].
  destruct (length w =? list_sum sizes)%nat.
  - destruct (length (firstn (size - start) (skipn start w)) =? size)%nat eqn:E.
    + apply Ok_inj in H. subst. apply Nat.eqb_eq; auto.
    + destruct (firstn (size - start) (skipn start w)) as [|a [|]]; try discriminate. apply Ok_inj in H. subst. apply repeat_length.
  - destruct (length w =? length sizes)%nat; [|discriminate]. apply Ok_inj in H. subst. apply repeat_length.
Qed.

(*@ C36 (partial).  Without intercepts the returned per-group coefficients reproduce the answers up to the
    drawn errors, whatever stands in the group and variance columns. *)
Lemma generate_coefficients_partial_lemma :
  forall xname sizes labels ov beta gamma given features draws pr coefs,
  generate xname sizes labels false false ov beta gamma given features draws = Ok (pr, coefs) ->
  wf_draws (length labels) sizes features draws -> labels <> [] ->
  exists answers, pr_answers pr = Some answers /\ length answers = length sizes /\ length coefs = length sizes /\
    forall k a b, (k < length sizes)%nat ->
      nth k answers [] = vadd (map (fun row => vdot (nth k coefs []) (a :: row ++ [b]))
                                 (gen_rows sizes features (map (fun d => fst (fst d)) draws) k))
                           (snd (nth k draws ([], [], []))).
Proof.
  intros xname sizes labels ov beta gamma given features draws pr coefs H W Hne.
  apply generate_inv in H. cbv zeta in H. destruct H as [gs [Hg [Hc [_ [_ [_ [Ea [_ [_ [_ [_ [_ [_ [_ Lb]]]]]]]]]]]]]].
  assert (E0 : (length labels =? 0)%nat = false) by (destruct labels; [congruence|reflexivity]). rewrite E0 in Hg.
  pose proof W as [LD _]. apply gen_loop_spec in Hg as [Lg N]; auto.
  exists (map gg_answers gs). split; [auto|]. split; [rewrite map_length; auto|].
  assert (Lc : length coefs = length gs /\ forall k, (k < length gs)%nat ->
     group_coefficients (map Some (GROUP :: labels ++ [VARIANCE])) beta (gg_effects (nth k gs no_group)) 0 0 = Ok (nth k coefs [])).
  { split; [eapply seq_map_length; eassumption|]. intros k Hk. exact (seq_map_nth _ _ _ _ _ k Hc Hk). }
  destruct Lc as [Lc Gc]. split; [congruence|]. intros k a b Hk.
  pose proof (N k Hk) as G1. apply gen_one_group in G1; auto. cbv zeta in G1. destruct G1 as [Gf [Gr [Gu [_ Ga]]]].
  rewrite (nth_map_lt _ _ _ _ no_group) by lia. rewrite Ga. unfold no_draw, d_errors.
  apply f_equal2; [|reflexivity]. change (fun d : mat * vec * vec => fst (fst d)) with d_mask.
  destruct (gen_rows_wf _ _ _ _ W k Hk) as [_ [Wr _]]. specialize (Gc k ltac:(lia)).
  set (rows := gen_rows sizes features (map d_mask draws) k) in *.
  assert (M : forall row, In row rows -> vdot (nth k coefs []) (a :: row ++ [b]) =
     vdot (feature_row false (where_ is_fixed labels) row) beta + vdot (feature_row false (where_ is_random labels) row) (gg_effects (nth k gs no_group))).
  { intros row Hrow. unfold wf_mat in Wr. rewrite Forall_forall in Wr. specialize (Wr row Hrow).
    rewrite (gc_spec (GROUP :: labels ++ [VARIANCE]) beta (gg_effects (nth k gs no_group)) 0 0 (a :: row ++ [b]) (nth k coefs []));
      [|simpl; rewrite !app_length; simpl; lia|exact Gc].
    cbn [skipn role_values]. change (is_fixed GROUP) with false. change (is_random GROUP) with false. cbv iota.
    rewrite !feature_row_is by auto. unfold features_of. cbn [app].
    assert (RV : forall p, p VARIANCE = false -> forall ls r, length r = length ls -> role_values p (ls ++ [VARIANCE]) (r ++ [b]) = role_values p ls r).
    { clear. intros p Hp. induction ls as [|l ls IH]; intros [|x r] HL; simpl in *; try discriminate; [rewrite Hp; auto|].
      rewrite IH by congruence. auto. }
    rewrite !RV by auto. reflexivity. }
  rewrite (map_ext_in _ _ _ M). rewrite Gr, Gf. unfold mv. rewrite !map_map.
  destruct (length (where_ is_random labels) + b2n false =? 0)%nat eqn:Eq.
  - apply Nat.eqb_eq in Eq. apply map_ext. intros row. destruct (where_ is_random labels) eqn:Ew; [|simpl in Eq; lia].
    change (feature_row false [] row) with (@nil R). change (vdot [] (gg_effects (nth k gs no_group))) with 0. lra.
  - rewrite map_map, vadd_map. reflexivity.
Qed.

(*@ C36 (refuted).  With an intercept the coefficients are shifted: the labels they are computed from do not
    contain the intercept. *)
Lemma generate_coefficients_refuted_lemma :
  exists pr coefs,
    generate (fun _ => "x") [1]%nat ["fixed"] true false (VScalar 1) [10; 1] [] [] [[3]] [([[1]], [], [0])] = Ok (pr, coefs) /\
    pr_answers pr = Some [[13]] /\ coefs = [[0; 10; 0]] /\
    (forall a b, vdot [0; 10; 0] [a; 3; b] = 30).
Proof.
  eexists. eexists. split; [cbn; reflexivity|]. split; [|split].
  - cbn. apply f_equal. apply f_equal2; auto. apply f_equal2; auto. unfold vdot, vmul, vsum; simpl. lra.
  - reflexivity.
  - intros a b. unfold vdot, vmul, vsum. simpl. lra.
Qed.

Lemma role_values_last (p : string -> bool) b : p VARIANCE = false ->
  forall ls r, length r = length ls -> role_values p (ls ++ [VARIANCE]) (r ++ [b]) = role_values p ls r.
Proof.
  intros Hp. induction ls as [|l ls IH]; intros [|x r] HL; simpl in *; try discriminate; [rewrite Hp; auto|].
  rewrite IH by congruence. auto.
Qed.
Lemma map_gs {A} (f : gen_group -> A) gs : map f gs = map (fun k => f (nth k gs no_group)) (seq 0 (length gs)).
Proof.
  apply nth_ext with (d := f no_group) (d' := f no_group); [rewrite !map_length, seq_length; auto|].
  intros k Hk. rewrite map_length in Hk. rewrite !(nth_map_lt _ _ _ _ no_group) by auto.
  rewrite (nth_map_lt _ _ _ _ 0%nat) by (rewrite seq_length; auto). rewrite seq_nth by auto. reflexivity.
Qed.
Lemma concat_map_map {A B C} (f : B -> C) (g : A -> list B) l : map f (concat (map g l)) = concat (map (fun a => map f (g a)) l).
Proof. induction l as [|a l IH]; simpl; auto. rewrite map_app, IH. auto. Qed.
Lemma where_none (p : string -> bool) l i : (forall a, In a l -> p a = false) -> where_from i p l = [].
Proof.
  revert i. induction l as [|a l IH]; intros i H; simpl; auto. rewrite (H a) by (left; auto). apply IH. intros; apply H; right; auto.
Qed.
Lemma column_prefix_label labels : Forall (fun l => In l ["fixed"; "random"; "fixed+random"]) labels ->
  where_ (String.eqb GROUP) (GROUP :: labels ++ [VARIANCE]) = [0%nat] /\
  where_ (String.eqb VARIANCE) (GROUP :: labels ++ [VARIANCE]) = [S (length labels)] /\
  forallb known_label (GROUP :: labels ++ [VARIANCE]) = true.
Proof.
  intros H. rewrite Forall_forall in H. split; [|split].
  - unfold where_. cbn [where_from]. change (String.eqb GROUP GROUP) with true. cbv iota. f_equal.
    apply where_none. intros a Ha. apply in_app_iff in Ha as [Ha|[<-|[]]]; [|reflexivity].
    apply H in Ha. destruct Ha as [<-|[<-|[<-|[]]]]; reflexivity.
  - unfold where_. cbn [where_from]. change (String.eqb VARIANCE GROUP) with false. cbv iota.
    rewrite where_from_app. rewrite where_none; [reflexivity|]. intros a Ha.
    apply H in Ha. destruct Ha as [<-|[<-|[<-|[]]]]; reflexivity.
  - apply forallb_forall. intros a [<-|Ha]; [reflexivity|]. apply in_app_iff in Ha as [Ha|[<-|[]]]; [|reflexivity].
    apply H in Ha. destruct Ha as [<-|[<-|[<-|[]]]]; reflexivity.
Qed.
Lemma map2_map_in {A B C D} (f : A -> B -> C) (h : C -> D) (g : A -> D) xs ys : length xs = length ys ->
  (forall a b, In a xs -> h (f a b) = g a) -> map h (map2 f xs ys) = map g xs.
Proof.
  revert ys. induction xs as [|x xs IH]; intros [|y ys] HL H; simpl in *; try discriminate; auto.
  rewrite H by auto. rewrite IH; auto.
Qed.
Lemma map2_map_in_r {A B C D} (f : A -> B -> C) (h : C -> D) (g : B -> D) xs ys : length xs = length ys ->
  (forall a b, In a xs -> h (f a b) = g b) -> map h (map2 f xs ys) = map g ys.
Proof.
  revert ys. induction xs as [|x xs IH]; intros [|y ys] HL H; simpl in *; try discriminate; auto.
  rewrite H by auto. rewrite IH; auto.
Qed.

(*@ C36 (partial).  A generated problem with at least one random effect converts to the table of its data:
    group number, features and variance of every object, in order, with its answers. *)
Lemma generate_to_x_y_partial_lemma :
  forall xname sizes labels ff fr ov beta gamma given features draws pr coefs,
  generate xname sizes labels ff fr ov beta gamma given features draws = Ok (pr, coefs) ->
  wf_draws (length labels) sizes features draws -> labels <> [] -> sizes <> [] ->
  Forall (fun l => In l ["fixed"; "random"; "fixed+random"]) labels -> (0 < num_random pr)%nat ->
  exists answers, pr_answers pr = Some answers /\ length answers = length sizes /\ length (pr_obs_vars pr) = length sizes /\
    to_x_y pr = Ok (gen_table sizes features (map (fun d => fst (fst d)) draws) (pr_obs_vars pr), concat answers,
                    "group" :: labels ++ ["variance"]).
Proof.
  intros xname sizes labels ff fr ov beta gamma given features draws pr coefs H W Hne Hs Hl Hq.
  apply generate_inv in H. cbv zeta in H.
  destruct H as [gs [Hg [_ [Ef [Er [E0 [Ea [Ev [Eg [Ei [El [Eo [_ [_ Lb]]]]]]]]]]]]]].
  assert (Ez : (length labels =? 0)%nat = false) by (destruct labels; [congruence|reflexivity]). rewrite Ez in Hg.
  pose proof W as [LD _]. apply gen_loop_spec in Hg as [Lg N]; auto.
  set (K := length sizes) in *. set (masks := map d_mask draws).
  change (map (fun d : mat * vec * vec => fst (fst d)) draws) with masks.
  set (rows := gen_rows sizes features masks).
  set (vars k := gg_vars (nth k gs no_group)). set (L := GROUP :: labels ++ [VARIANCE]) in *.
  assert (Rf : (num_random pr = length (where_ is_random labels) + b2n fr)%nat).
  { unfold num_random. rewrite El, Ei, label_random. rewrite where_length. unfold L. rewrite countb_cons, countb_app, countb_cons.
    change (is_random GROUP) with false. change (is_random VARIANCE) with false. change (countb is_random []) with 0%nat. cbn [b2n]. lia. }
  assert (Q : (length (where_ is_random labels) + b2n fr =? 0)%nat = false) by (apply Nat.eqb_neq; lia).
  assert (G : forall k, (k < K)%nat -> gg_fixed (nth k gs no_group) = map (feature_row ff (where_ is_fixed labels)) (rows k) /\
     gg_random (nth k gs no_group) = map (feature_row fr (where_ is_random labels)) (rows k) /\
     length (vars k) = nth k sizes 0%nat /\ length (gg_answers (nth k gs no_group)) = nth k sizes 0%nat /\
     length (rows k) = nth k sizes 0%nat /\ wf_mat (length labels) (rows k)).
  { intros k Hk. pose proof (N k Hk) as G1. apply gen_one_group in G1; auto. cbv zeta in G1.
    destruct G1 as [Gf [Gr [_ [Gv Ga]]]]. rewrite Q in Gr, Ga. apply group_variance_length in Gv.
    destruct (gen_rows_wf _ _ _ _ W k Hk) as [R1 [R2 R3]].
    split; [exact Gf|]. split; [exact Gr|]. split; [exact Gv|]. split; [|split; [exact R1|exact R2]].
    rewrite Ga, vadd_min, vadd_min. rewrite !mv_length, Gf, Gr, !map_length.
    transitivity (Nat.min (Nat.min (nth k sizes 0%nat) (nth k sizes 0%nat)) (nth k sizes 0%nat)); [|rewrite !Nat.min_id; reflexivity].
    apply f_equal2; [apply f_equal2; exact R1|exact R3]. }
  set (tab k := map2 (fun row w => INR k :: row ++ [w]) (rows k) (vars k)).
  set (T := concat (map tab (seq 0 K))).
  assert (InK : forall k, In k (seq 0 K) -> (k < K)%nat) by (intros k Hk; apply in_seq in Hk; lia).
  assert (TG : gen_table sizes features masks (pr_obs_vars pr) = T).
  { unfold gen_table, T. fold K. f_equal. apply map_ext_in. intros k Hk. apply InK in Hk. unfold tab, rows, vars.
    rewrite Ev. rewrite (nth_map_lt _ _ _ _ no_group) by lia. reflexivity. }
  assert (FX : concat (pr_fixed pr) = map (feature_row ff (where_ is_fixed L)) T).
  { unfold T. rewrite concat_map_map. rewrite Ef, map_gs, Lg. f_equal. apply map_ext_in. intros k Hk. apply InK in Hk.
    destruct (G k Hk) as [G1 [_ [G3 [_ [G5 G6]]]]]. rewrite G1. symmetry. unfold tab. apply map2_map_in; [congruence|].
    intros r w Hr. unfold wf_mat in G6. rewrite Forall_forall in G6. specialize (G6 r Hr).
    rewrite !feature_row_is; [|auto|unfold L; simpl; rewrite !app_length; simpl; lia].
    unfold features_of, L. cbn [role_values]. change (is_fixed GROUP) with false. cbv iota. rewrite role_values_last; auto. }
  assert (RX : concat (pr_random pr) = map (feature_row fr (where_ is_random L)) T).
  { unfold T. rewrite concat_map_map. rewrite Er, map_gs, Lg. f_equal. apply map_ext_in. intros k Hk. apply InK in Hk.
    destruct (G k Hk) as [_ [G1 [G3 [_ [G5 G6]]]]]. rewrite G1. symmetry. unfold tab. apply map2_map_in; [congruence|].
    intros r w Hr. unfold wf_mat in G6. rewrite Forall_forall in G6. specialize (G6 r Hr).
    rewrite !feature_row_is; [|auto|unfold L; simpl; rewrite !app_length; simpl; lia].
    unfold features_of, L. cbn [role_values]. change (is_random GROUP) with false. cbv iota. rewrite role_values_last; auto. }
  assert (VX : concat (pr_obs_vars pr) = column T (S (length labels))).
  { unfold T, column. rewrite concat_map_map. rewrite Ev, map_gs, Lg. f_equal. apply map_ext_in. intros k Hk. apply InK in Hk.
    destruct (G k Hk) as [_ [_ [G3 [_ [G5 G6]]]]]. unfold tab.
    rewrite (map2_map_in_r _ _ (fun w : R => w)); [rewrite map_id; reflexivity|congruence|].
    intros r w Hr. unfold wf_mat in G6. rewrite Forall_forall in G6. specialize (G6 r Hr). cbn [nth].
    rewrite app_nth2 by lia. rewrite G6, Nat.sub_diag. reflexivity. }
  assert (GX : concat (map2 (@repeat R) (pr_group_labels pr) (groups_sizes pr)) = column T 0).
  { unfold T, column. rewrite concat_map_map. f_equal. rewrite Eg. unfold groups_sizes. rewrite Ef, map_map, map_gs, Lg. fold K.
    rewrite map2_map_l, map2_map_r, map2_same. apply map_ext_in. intros k Hk. apply InK in Hk.
    destruct (G k Hk) as [G1 [_ [G3 [_ [G5 G6]]]]]. rewrite G1, map_length. unfold tab.
    rewrite (map2_map_in _ _ (fun _ => INR k)); [|congruence|auto]. clear. induction (rows k); simpl; congruence. }
  assert (LT : length T = list_sum sizes).
  { unfold T. rewrite <- list_sum_concat, map_map. f_equal. apply list_eq_nth with (d := 0%nat); [rewrite map_length, seq_length; auto|].
    intros k Hk. rewrite map_length, seq_length in Hk. rewrite (nth_map_lt _ _ _ _ 0%nat) by (rewrite seq_length; auto).
    rewrite seq_nth by auto. cbn [Nat.add]. unfold tab. destruct (G k Hk) as [_ [_ [G3 [_ [G5 G6]]]]]. rewrite map2_length_eq; congruence. }
  assert (WT : wf_mat (length L) T).
  { unfold wf_mat, T. apply Forall_forall. intros r Hr. apply in_concat in Hr as [t [Ht Hr]]. apply in_map_iff in Ht as [k [<- Hk]].
    apply InK in Hk. destruct (G k Hk) as [_ [_ [G3 [_ [G5 G6]]]]]. unfold tab in Hr. clear - Hr G6.
    revert Hr G6. generalize (vars k). induction (rows k) as [|x xs IH]; intros [|w ws] Hr G6; cbn [map2] in Hr; try contradiction.
    inversion G6; subst. destruct Hr as [<-|Hr]; [|eapply IH; eauto]. unfold L. simpl. rewrite !app_length. simpl. lia. }
  assert (LA : length (concat (map gg_answers gs)) = list_sum sizes).
  { rewrite <- list_sum_concat, map_map. f_equal. rewrite map_gs, Lg. apply list_eq_nth with (d := 0%nat); [rewrite map_length, seq_length; auto|].
    intros k Hk. rewrite map_length, seq_length in Hk. rewrite (nth_map_lt _ _ _ _ 0%nat) by (rewrite seq_length; auto).
    rewrite seq_nth by auto. apply (G k Hk). }
  exists (map gg_answers gs). split; [auto|]. split; [rewrite map_length; auto|]. split; [rewrite Ev, map_length; auto|].
  rewrite TG. unfold to_x_y. unfold groups_sizes at 1.
  rewrite Ef, Er, E0, Ev, Q, !map_length, Lg. rewrite <- Ef, <- Er, <- Ev.
  assert (K0 : (K =? 0)%nat = false) by (unfold K; destruct sizes; [congruence|reflexivity]). rewrite K0. cbn [negb andb guard rbind].
  rewrite Eg at 1. rewrite map_length, seq_length. fold K. rewrite Nat.eqb_refl. cbn [guard rbind].
  rewrite GX, FX, RX, VX, El, Ei, label_fixed, label_random.
  destruct (column_prefix_label labels Hl) as [C1 [C2 C3]].
  pose proof (fill_columns_ok L {| t_cols := length L; t_rows := T |} ff fr 0 (S (length labels)) eq_refl C1 C2 C3 T WT [] L eq_refl) as F.
  cbn [length] in F. change (countb is_fixed []) with 0%nat in F. change (countb is_random []) with 0%nat in F.
  rewrite !Nat.add_0_r in F. rewrite F. cbn [rbind]. rewrite map_length.
  assert (Gd : forallb (fun c : vec => (length c =? length T)%nat) (map (column T) (seq 0 (length L))) = true).
  { apply forallb_forall. intros c Hc. apply in_map_iff in Hc as [j [<- _]]. unfold column. rewrite map_length. apply Nat.eqb_refl. }
  unfold mat in *. change (list R) with vec in *. rewrite Gd. cbn [guard rbind].
  pose proof (tr_tr T (length L) WT) as TT.
  match goal with |- context [tr ?a ?b] => replace (tr a b) with T by (symmetry; exact TT) end. rewrite Eo.
  assert (M : forall {A} (l : list A) d n, length l = n -> map (fun i => nth i l d) (seq 0 n) = l).
  { clear. intros A l d n <-. induction l as [|a l IH]; simpl; auto. f_equal. rewrite <- seq_shift, map_map. auto. }
  assert (TK : forall A (l : list A) (d : A), length l = list_sum sizes -> take_rows l (argsort_nat (seq 0 (list_sum sizes))) = Ok l).
  { intros A l d HL. rewrite <- (M A l d _ HL) at 1. rewrite (take_rows_argsort (fun i => nth i l d) _ _ (Permutation_refl _)).
    rewrite (M A l d _ HL). reflexivity. }
  rewrite (TK vec T [] LT). cbn [rbind]. rewrite Ea. rewrite (TK R _ 0 LA). cbn [rbind]. reflexivity.
Qed.

(*@ A generated problem with two groups, one fixed and one random effect. *)
Lemma ex_generate_lemma :
  let draws := [([[1; 1]], [3], [0]); ([[1; 1]; [1; 1]], [4], [0; 0])] in
  exists pr coefs,
  generate (fun _ => "x") [1; 2]%nat ["fixed"; "random"] false false (VArray [1; 2]) [5] [1] [] [[1; 1]; [2; 2]; [3; 3]] draws = Ok (pr, coefs) /\
  wf_draws 2 [1; 2]%nat [[1; 1]; [2; 2]; [3; 3]] draws /\ (0 < num_random pr)%nat.
Proof.
  intros draws. eexists. eexists. split; [cbn; reflexivity|]. split; [|cbn; lia].
  split; [reflexivity|]. split; [reflexivity|]. split; [repeat constructor|].
  intros [|[|k]] Hk; cbn in Hk |- *; [| |lia]; (split; [reflexivity|]; split; [repeat constructor|reflexivity]).
Qed.

(*@ C36 (refuted).  Without random effects the problem cannot be converted. *)
Lemma generate_to_x_y_refuted_lemma :
  forall xname sizes labels ff fr ov beta gamma given features draws pr coefs r,
  generate xname sizes labels ff fr ov beta gamma given features draws = Ok (pr, coefs) ->
  countb is_random labels = 0%nat -> fr = false -> to_x_y pr <> Ok r.
Proof.
  intros xname sizes labels ff fr ov beta gamma given features draws pr coefs r H H1 H2.
  apply generate_inv in H. cbv zeta in H. destruct H as [gs [_ [_ [_ [_ [E0 _]]]]]].
  rewrite where_length, H1, H2 in E0. unfold to_x_y. rewrite E0. cbn [Nat.eqb Nat.add b2n negb andb].
  rewrite andb_false_r. discriminate.
Qed.
