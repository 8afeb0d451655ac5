(*HEAD
(** Properties C29-C34: mixed-effects problems and iteration over them
    (src/pysr3/lme/problems.py). *)
From Coq Require Import Sorted Permutation.
From Verif.Base Require Import Py Vec Mat.
From Verif.Model Require Import LmeProblem LmePredict.
From Verif.Spec Require Import LmeSpec.
HEAD*)
From Coq Require Import Sorted Permutation Lra.
From Verif.Base Require Import Py Vec Mat.
From Verif.Model Require Import LmeProblem LmePredict.
From Verif.Spec Require Import LmeSpec.
From Verif.Proofs Require Import VecFacts SolverProofs MatFacts LinearProofs LmeProblemProofs.
(*OPEN
Open Scope string_scope.
Open Scope list_scope.
Open Scope R_scope.
OPEN*)
Open Scope string_scope.
Open Scope list_scope.
Open Scope R_scope.

Lemma default_labels_wf x labels : wf_table x -> wf_table (snd (default_labels x labels)).
Proof.
  destruct labels as [l|]; simpl; auto. unfold wf_table. simpl. intros H. rewrite Forall_map.
  eapply Forall_impl; [|exact H]. simpl. intros r Hr. rewrite app_length. simpl. lia.
Qed.
Lemma check_X_y_inv x y : check_X_y x y = Ok tt -> t_rows x <> [] /\ length y = length (t_rows x).
Proof.
  unfold check_X_y. intros H. apply guard_inv in H. apply andb_prop in H as [H H3]. apply andb_prop in H as [H1 _].
  apply Nat.eqb_eq in H3. split; auto. intros E. rewrite E in H1. discriminate.
Qed.

(*@ C29.  to_x_y gives back the table, the targets and the labels that from_x_y was called with (with
    the group and variance columns that from_x_y adds when no labels are given). *)
Lemma from_x_y_round_trip_lemma :
  forall x y columns labels ff fr must_fe must_re pr, wf_table x ->
  from_x_y x (Some y) columns labels ff fr must_fe must_re = Ok pr ->
  to_x_y pr = Ok (match labels with Some l => (t_rows x, y, l) 
                  | None => (map (fun row => 0 :: row ++ [1]) (t_rows x), y,
                             "group" :: repeat "fixed" (t_cols x) ++ ["variance"]) end).
Proof.
  intros x y columns labels ff fr mf mr pr Hwf H. apply from_x_y_inv in H.
  destruct H as [g [v [gl [fec [rec [wf [wr [A1 [A2 [A3 [A4 [A5 [A6 [A7 [_ [_ [_ [_ [_ E]]]]]]]]]]]]]]]]]]].
  apply check_X_y_inv in A1 as [B1 B2]. rewrite E.
  rewrite (built_to_x_y _ _ (Some y) ff fr g v gl fec rec wf wr (default_labels_wf _ labels Hwf) A3 A4 A5 A2 A7 B2 y eq_refl B1).
  destruct labels; reflexivity.
Qed.

(*@ C29.  Without targets there is nothing to give back: to_x_y fails with a TypeError. *)
Lemma to_x_y_without_answers_lemma :
  forall x columns labels ff fr must_fe must_re pr r, wf_table x ->
  from_x_y x None columns labels ff fr must_fe must_re = Ok pr -> to_x_y pr <> Ok r.
Proof.
  intros x columns labels ff fr mf mr pr r Hwf H. apply from_x_y_inv in H.
  destruct H as [g [v [gl [fec [rec [wf [wr [A1 [A2 [A3 [A4 [A5 [A6 [A7 [_ [_ [_ [_ [_ E]]]]]]]]]]]]]]]]]]].
  intros C. unfold to_x_y in C. apply rbind_inv in C as [u1 [_ C]]. apply rbind_inv in C as [u2 [_ C]].
  apply rbind_inv in C as [u3 [_ C]]. apply rbind_inv in C as [u4 [_ C]]. apply rbind_inv in C as [u5 [_ C]].
  rewrite E in C. simpl in C. discriminate.
Qed.

(*@ C30.  Every row is in exactly one group, the one of its label; groups are in increasing label order
    without repetition, rows keep their order inside a group; all per-group arrays describe the
    same rows. *)
Lemma grouping_is_partition_lemma :
  forall x y columns labels ff fr must_fe must_re pr, wf_table x ->
  from_x_y x y columns (Some labels) ff fr must_fe must_re = Ok pr ->
  let n := length (t_rows x) in
  let row i := nth i (t_rows x) [] in
  exists idx, partition_of (fun i => group_of labels (row i)) n (pr_group_labels pr) idx /\
    pr_order pr = concat idx /\
    pr_fixed pr = map (map (fun i => features_of is_fixed ff labels (row i))) idx /\
    pr_random pr = map (map (fun i => features_of is_random fr labels (row i))) idx /\
    pr_obs_vars pr = map (map (fun i => variance_of labels (row i))) idx /\
    pr_answers pr = option_map (fun y' => map (map (fun i => nth i y' 0)) idx) y /\
    groups_sizes pr = map (@length nat) idx /\ num_obs pr = n /\ num_groups pr = length (pr_group_labels pr).
Proof.
  intros x y columns labels ff fr mf mr pr Hwf H n row. apply from_x_y_inv in H. cbn [default_labels fst snd] in H.
  destruct H as [g [v [gl [fec [rec [wf [wr [A1 [A2 [A3 [A4 [A5 [A6 [A7 [_ [_ [_ [_ [_ E]]]]]]]]]]]]]]]]]]].
  assert (Hy : match y with Some y' => length y' = length (t_rows x) | None => True end).
  { destruct y; auto. apply check_X_y_inv in A1. tauto. }
  exists (idx_of (t_rows x) g gl). subst pr.
  assert (P : partition_of (fun i => group_of labels (row i)) n gl (idx_of (t_rows x) g gl)).
  { pose proof (built_partition x g gl A7) as [P1 [P2 [P3 P4]]].
    assert (G : forall i, (i < n)%nat -> grp (t_rows x) g i = group_of labels (row i)).
    { intros i Hi. apply (grp_is_group_of labels x g Hwf A3 A4 i Hi). }
    split; [auto|]. split; [|split; [|auto]].
    - intros l. rewrite P2. split; intros [i [Hi Ei]]; exists i; (split; [auto|]);
        rewrite <- Ei; [symmetry|]; apply G; auto.
    - clear - P3 G. induction P3 as [|l is gl' ids [S1 S2] HF IH]; constructor; auto. split; auto.
      intros i. rewrite S2. fold n. split; intros [Hi Ei]; split; auto; rewrite <- Ei; [symmetry|]; apply G; auto. }
  split; [auto|]. split; [apply built_order|]. split; [apply built_fixed; auto|]. split; [apply built_random; auto|].
  split; [apply built_vars; auto|]. split.
  - destruct y as [y'|]; [|reflexivity]. cbn [option_map]. apply built_answers; auto.
  - split; [apply built_sizes; auto|]. split; [apply built_num_obs; auto|].
    unfold num_groups, groups_sizes, built. cbn. rewrite !map_length. reflexivity.
Qed.

(** C31 *)
Lemma count_occ_where name labels : length (where_ (String.eqb name) labels) = count_occ string_dec labels name.
Proof.
  rewrite where_length. induction labels as [|l labels IH]; [reflexivity|].
  rewrite countb_cons. simpl. destruct (string_dec l name) as [E|E].
  - subst. rewrite String.eqb_refl. simpl. rewrite IH. reflexivity.
  - destruct (String.eqb_spec name l); [congruence|]. simpl. auto.
Qed.
Lemma length_one {A} (l : list A) : length l = 1%nat -> exists a, l = [a].
Proof. destruct l as [|a [|]]; simpl; try discriminate. eauto. Qed.
Lemma is_int_true r : is_int r = true <-> exists z, r = IZR z.
Proof.
  unfold is_int. rewrite reqb_true. split.
  - intros <-. eauto.
  - intros [z ->]. f_equal. unfold Int_part. rewrite <- (tech_up (IZR z) (z + 1)); rewrite ?plus_IZR; lra || lia.
Qed.
Lemma known_label_spec labels : forallb known_label labels = true <->
  Forall (fun l => In l ["group"; "variance"; "fixed"; "random"; "fixed+random"]) labels.
Proof.
  rewrite forallb_forall, Forall_forall. split; intros H l Hl; specialize (H l Hl).
  - apply has_key_In. exact H.
  - unfold known_label. apply has_key_In. exact H.
Qed.
Lemma forallb_column_iff (p : R -> bool) (P : R -> Prop) (rows : mat) k f : (forall a, p a = true <-> P a) ->
  (forall row, In row rows -> nth k row 0 = f row) ->
  (forallb p (column rows k) = true <-> Forall (fun row => P (f row)) rows).
Proof.
  intros Hp Hf. unfold column. rewrite forallb_forall, Forall_forall. split.
  - intros H row Hr. apply Hp. rewrite <- Hf by auto. apply H. apply in_map_iff. eauto.
  - intros H a Ha. apply in_map_iff in Ha as [row [<- Hr]]. apply Hp. rewrite Hf by auto. auto.
Qed.

(*@ C31.  Without optional name lists, from_x_y accepts exactly the documented inputs. *)
Lemma from_x_y_accepts_iff_lemma :
  forall x y labels ff fr, wf_table x ->
  (exists pr, from_x_y x y None (Some labels) ff fr None None = Ok pr) <->
  match y with Some y' => t_rows x <> [] /\ length y' = length (t_rows x) | None => True end /\
  valid_labels labels /\ length labels = t_cols x /\
  Forall (fun row => variance_of labels row <> 0) (t_rows x) /\
  Forall (fun row => exists z, group_of labels row = IZR z) (t_rows x).
Proof.
  intros x y labels ff fr Hwf. split.
  - intros [pr H]. apply from_x_y_inv in H. cbn [default_labels fst snd] in H.
    destruct H as [g [v [gl [fec [rec [wf [wr [A1 [A2 [A3 [A4 [A5 [A6 [A7 [_ [_ [_ [_ [_ E]]]]]]]]]]]]]]]]]]].
    split.
    { destruct y; auto. apply check_X_y_inv in A1. auto. }
    split.
    { split; [apply known_label_spec; auto|]. rewrite <- !count_occ_where. unfold GROUP, VARIANCE in *. rewrite A4, A5. auto. }
    split; [auto|]. unfold wf_table in Hwf. rewrite Forall_forall in Hwf. split.
    + eapply (forallb_column_iff nonzero (fun a => a <> 0)); [intros; apply nonzero_true| |exact A6].
      intros row Hr. symmetry. apply labelled_nth; auto. rewrite A3. auto.
    + apply unique_labels_spec in A7 as [_ [_ A7]].
      eapply (forallb_column_iff is_int (fun a => exists z, a = IZR z)); [intros; apply is_int_true| |exact A7].
      intros row Hr. symmetry. apply labelled_nth; auto. rewrite A3. auto.
  - intros [Hy [[V1 [V2 V3]] [HL [Hv Hg]]]].
    rewrite <- count_occ_where in V2, V3. apply length_one in V2 as [g Eg]. apply length_one in V3 as [v Ev].
    unfold from_x_y. cbn [default_labels].
    assert (Ec : match y with Some y' => check_X_y x y' | None => Ok tt end = Ok tt).
    { destruct y as [y'|]; auto. destruct Hy as [Y1 Y2]. unfold check_X_y.
      rewrite Y2, Nat.eqb_refl. destruct (t_rows x) as [|r rs]; [congruence|]. simpl.
      assert (E0 : (t_cols x =? 0)%nat = false).
      { apply Nat.eqb_neq. intros E0. rewrite E0 in HL. destruct labels; [discriminate|discriminate]. }
      rewrite E0. reflexivity. }
    rewrite Ec. cbn [rbind]. assert (Ek : forallb known_label labels = true) by (apply known_label_spec; auto).
    rewrite Ek. cbn [guard rbind]. rewrite HL, Nat.eqb_refl. cbn [guard rbind]. unfold GROUP, VARIANCE.
    rewrite Eg, Ev. unfold wf_table in Hwf. rewrite Forall_forall in Hwf.
    assert (Ez : forallb nonzero (column (t_rows x) v) = true).
    { eapply (forallb_column_iff nonzero (fun a => a <> 0)); [intros; apply nonzero_true| |exact Hv].
      intros row Hr. symmetry. apply labelled_nth; auto. rewrite HL. auto. }
    rewrite Ez. cbn [guard rbind].
    assert (Ei : forallb is_int (column (t_rows x) g) = true).
    { eapply (forallb_column_iff is_int (fun a => exists z, a = IZR z)); [intros; apply is_int_true| |exact Hg].
      intros row Hr. symmetry. apply labelled_nth; auto. rewrite HL. auto. }
    unfold unique_labels. rewrite Ei. cbn [guard rbind reg_weights names_of]. eauto.
Qed.

Lemma reg_weights_total asked must cs idx num : Forall (fun i => (i < length cs)%nat) idx ->
  (must = None \/ must = Some [] \/ asked <> None) -> exists w, reg_weights asked must (Some cs) idx num = Ok w.
Proof.
  intros H C. unfold reg_weights. destruct must as [[|m ms]|]; eauto.
  destruct asked as [l|]; [|exfalso; destruct C as [C|[C|C]]; congruence]. cbn [rbind].
  assert (E : exists ws, sequence (map (fun i => let! c := column_name (Some cs) i in
       Ok (if has_key c (m :: ms) then 0 else 1)) idx) = Ok ws).
  { clear C. induction H as [|i idx Hi H [ws IH]]; [eexists; reflexivity|]. cbn [map sequence column_name].
    rewrite (nth_error_nth' cs "" Hi). cbn [rbind]. cbn [column_name] in IH. rewrite IH. cbn. eauto. }
  destruct E as [ws ->]. cbn. eauto.
Qed.
Lemma names_of_total cs idx : Forall (fun i => (i < length cs)%nat) idx -> exists r, names_of (Some cs) idx = Ok r.
Proof.
  intros H. unfold names_of. destruct cs as [|c cs]; [eauto|].
  assert (E : exists ws, sequence (map (column_name (Some (c :: cs))) idx) = Ok ws).
  { induction H as [|i idx Hi H [ws IH]]; [eexists; reflexivity|]. cbn [map sequence]. unfold column_name at 1.
    rewrite (nth_error_nth' (c :: cs) "" Hi). rewrite IH. cbn. eauto. }
  destruct E as [ws ->]. cbn. eauto.
Qed.

(*@ C31.  Naming the columns, with as many names as columns, and asking for unpenalised effects (for random
    ones only together with a list for the fixed ones) is accepted for the same tables. *)
Lemma from_x_y_accepts_names_lemma :
  forall x y labels columns ff fr must_fe must_re pr0,
  from_x_y x y None (Some labels) ff fr None None = Ok pr0 -> length columns = t_cols x ->
  (must_re = None \/ must_re = Some [] \/ must_fe <> None) ->
  exists pr, from_x_y x y (Some columns) (Some labels) ff fr must_fe must_re = Ok pr.
Proof.
  intros x y labels columns ff fr mf mr pr0 H HL C. apply from_x_y_inv in H. cbn [default_labels fst snd] in H.
  destruct H as [g [v [gl [fec [rec [wf [wr [A1 [A2 [A3 [A4 [A5 [A6 [A7 _]]]]]]]]]]]]]].
  unfold from_x_y. cbn [default_labels]. rewrite A1. cbn [rbind]. rewrite A2. cbn [guard rbind].
  rewrite A3, Nat.eqb_refl. cbn [guard rbind]. rewrite A4, A5, A6. cbn [guard rbind]. rewrite A7. cbn [rbind].
  assert (E1 : match columns with [] => Ok tt | _ => guard (length columns =? t_cols x)%nat AssertionError end = Ok tt).
  { rewrite HL, Nat.eqb_refl. destruct columns; reflexivity. }
  rewrite E1. cbn [rbind].
  assert (IDX : forall p, Forall (fun i => (i < length columns)%nat) (where_ p labels)).
  { intros p. apply Forall_forall. intros i Hi. apply (where_In p labels i "") in Hi. lia. }
  destruct (reg_weights_total mf mf columns (where_ is_fixed labels) (length (where_ is_fixed labels) + b2n ff) (IDX _)) as [w1 E2].
  { destruct mf; [right; right; discriminate|left; auto]. }
  destruct (reg_weights_total mf mr columns (where_ is_random labels) (length (where_ is_random labels) + b2n fr) (IDX _) C) as [w2 E3].
  destruct (names_of_total columns (where_ is_fixed labels) (IDX _)) as [n1 E4].
  destruct (names_of_total columns (where_ is_random labels) (IDX _)) as [n2 E5].
  rewrite E2, E3, E4, E5. cbn [rbind]. destruct mf, mr; cbn [rbind]; eauto.
Qed.

Lemma sample_accepted columns (y : option vec) ff fr must_fe must_re :
  match y with Some y' => length y' = 2%nat | None => True end ->
  match columns with None => must_fe = None /\ must_re = None | Some cs => length cs = 4%nat end ->
  (must_re = None \/ must_re = Some [] \/ must_fe <> None) ->
  exists pr, from_x_y sample_table y columns (Some sample_labels) ff fr must_fe must_re = Ok pr.
Proof.
  intros Hy Hc Hm.
  assert (Hi : forall z : Z, is_int (IZR z) = true) by (intros z; apply is_int_true; eauto).
  assert (Hn : nonzero 1 = true) by (apply nonzero_true; lra).
  unfold from_x_y. cbn [default_labels].
  assert (Ec : match y with Some y' => check_X_y sample_table y' | None => Ok tt end = Ok tt).
  { destruct y as [y'|]; auto. unfold check_X_y. rewrite Hy. reflexivity. }
  rewrite Ec. cbn [rbind]. change (forallb known_label sample_labels) with true.
  change (length sample_labels =? t_cols sample_table)%nat with true. cbn [guard rbind].
  change (where_ (String.eqb GROUP) sample_labels) with [0%nat].
  change (where_ (String.eqb VARIANCE) sample_labels) with [3%nat]. cbv iota.
  change (column (t_rows sample_table) 3) with [1; 1]. change (column (t_rows sample_table) 0) with [1; 0].
  cbn [forallb]. rewrite Hn. cbn [andb guard rbind]. unfold unique_labels. cbn [forallb].
  rewrite !Hi. cbn [andb guard rbind].
  destruct columns as [cs|].
  - destruct cs as [|c0 [|c1 [|c2 [|c3 [|]]]]]; try discriminate Hc. cbn [length Nat.eqb guard rbind t_cols sample_table].
    destruct must_fe as [[|f1 fl]|], must_re as [[|r1 rl]|]; try (exfalso; destruct Hm as [Hm|[Hm|Hm]]; congruence);
    cbn; eauto.
  - destruct Hc as [-> ->]. cbn. eauto.
Qed.
(*@ A table with two groups in decreasing order, names and must-include lists, there and back. *)
Lemma ex_from_x_y_lemma :
  exists pr, from_x_y sample_table (Some [10; 20]) (Some sample_columns) (Some sample_labels)
               true true (Some ["a"]) (Some ["b"]) = Ok pr /\
    to_x_y pr = Ok ([[1; 5; 2; 1]; [0; 6; 3; 1]], [10; 20], sample_labels).
Proof.
  destruct (sample_accepted (Some sample_columns) (Some [10; 20]) true true (Some ["a"]) (Some ["b"])) as [pr H];
    [reflexivity|reflexivity|right; right; discriminate|].
  exists pr. split; auto. assert (W : wf_table sample_table) by (repeat constructor).
  rewrite (from_x_y_round_trip_lemma _ _ _ _ _ _ _ _ _ W H). reflexivity.
Qed.

(*@ C31.  How malformed input is rejected. *)
Lemma from_x_y_rejects_lemma :
  forall x columns labels ff fr must_fe must_re, wf_table x ->
  (~ valid_labels labels \/ length labels <> t_cols x \/
   (length labels = t_cols x /\ Exists (fun row => variance_of labels row = 0) (t_rows x)) ->
   from_x_y x None columns (Some labels) ff fr must_fe must_re = Err AssertionError) /\
  (valid_labels labels -> length labels = t_cols x ->
   Forall (fun row => variance_of labels row <> 0) (t_rows x) ->
   Exists (fun row => ~ exists z, group_of labels row = IZR z) (t_rows x) ->
   from_x_y x None columns (Some labels) ff fr must_fe must_re = Err ValueError).
Proof.
  intros x columns labels ff fr mf mr Hwf. unfold wf_table in Hwf. rewrite Forall_forall in Hwf.
  assert (C1 : forall e, forallb known_label labels = false \/ (length labels =? t_cols x)%nat = false ->
    e = AssertionError -> from_x_y x None columns (Some labels) ff fr mf mr = Err e).
  { intros e Hc ->. unfold from_x_y. cbn [default_labels rbind].
    destruct (forallb known_label labels); cbn [guard rbind]; [|reflexivity].
    destruct Hc as [Hc|Hc]; [discriminate|]. rewrite Hc. reflexivity. }
  split.
  - intros Hbad. destruct (forallb known_label labels) eqn:Ek; [|apply C1; auto].
    destruct (length labels =? t_cols x)%nat eqn:El; [|apply C1; auto].
    unfold from_x_y. cbn [default_labels rbind]. rewrite Ek, El. cbn [guard rbind].
    apply Nat.eqb_eq in El. unfold GROUP, VARIANCE in *.
    destruct (where_ (String.eqb "group") labels) as [|g [|]] eqn:Eg; auto.
    destruct (where_ (String.eqb "variance") labels) as [|v [|]] eqn:Ev; auto.
    destruct (forallb nonzero (column (t_rows x) v)) eqn:Ez; [|reflexivity]. exfalso.
    destruct Hbad as [N|[N|[_ N]]]; [| congruence |].
    + apply N. split; [apply known_label_spec; auto|]. rewrite <- !count_occ_where. rewrite Eg, Ev. auto.
    + apply Exists_exists in N as [row [Hr N]].
      assert (F : Forall (fun row => variance_of labels row <> 0) (t_rows x)).
      { eapply (forallb_column_iff nonzero (fun a => a <> 0)); [intros; apply nonzero_true| |exact Ez].
        intros row' Hr'. symmetry. apply labelled_nth; auto. rewrite El. auto. }
      rewrite Forall_forall in F. apply (F row); auto.
  - intros [V1 [V2 V3]] HL Hv Hg. apply known_label_spec in V1.
    rewrite <- count_occ_where in V2, V3. apply length_one in V2 as [g Eg]. apply length_one in V3 as [v Ev].
    unfold from_x_y. cbn [default_labels rbind]. rewrite V1, HL, Nat.eqb_refl. cbn [guard rbind].
    unfold GROUP, VARIANCE. rewrite Eg, Ev.
    assert (Ez : forallb nonzero (column (t_rows x) v) = true).
    { eapply (forallb_column_iff nonzero (fun a => a <> 0)); [intros; apply nonzero_true| |exact Hv].
      intros row Hr. symmetry. apply labelled_nth; auto. rewrite HL. auto. }
    rewrite Ez. cbn [guard rbind]. unfold unique_labels.
    destruct (forallb is_int (column (t_rows x) g)) eqn:Ei; [|reflexivity]. exfalso.
    apply Exists_exists in Hg as [row [Hr N]].
    assert (F : Forall (fun row => exists z, group_of labels row = IZR z) (t_rows x)).
    { eapply (forallb_column_iff is_int (fun a => exists z, a = IZR z)); [intros; apply is_int_true| |exact Ei].
      intros row' Hr'. symmetry. apply labelled_nth; auto. rewrite HL. auto. }
    rewrite Forall_forall in F. apply N; auto.
Qed.

(** C32 *)
Lemma label_fixed ff fr : fixed_intercept (intercept_label_of ff fr) = ff.
Proof. destruct ff, fr; reflexivity. Qed.
Lemma label_random ff fr : random_intercept (intercept_label_of ff fr) = fr.
Proof. destruct ff, fr; reflexivity. Qed.
Lemma has_key_dec c l (a b : R) : (if has_key c l then a else b) = (if in_dec string_dec c l then a else b).
Proof.
  destruct (has_key c l) eqn:E.
  - apply has_key_In in E. destruct (in_dec string_dec c l); [auto|contradiction].
  - destruct (in_dec string_dec c l) as [i|]; auto. apply has_key_In in i. congruence.
Qed.
Lemma names_where p labels columns (pre_l pre_c : list string) : length pre_c = length pre_l -> length columns = length labels ->
  map (fun i => nth i (pre_c ++ columns) "") (where_from (length pre_l) p labels) = role_names p labels columns.
Proof.
  revert columns pre_l pre_c. induction labels as [|l labels IH]; intros [|a cs] pl pc H1 H2; simpl; try discriminate; auto.
  assert (E : map (fun i => nth i (pc ++ a :: cs) "") (where_from (S (@length string pl)) p labels) = role_names p labels cs).
  { specialize (IH cs (pl ++ [l]) (pc ++ [a])). rewrite !app_length in IH. simpl in IH.
    rewrite !Nat.add_1_r in IH. rewrite <- app_assoc in IH. apply IH; [congruence|]. simpl in H2; congruence. }
  destruct (p l); simpl; rewrite E; auto. f_equal. rewrite app_nth2 by lia. rewrite <- H1, Nat.sub_diag. auto.
Qed.
Lemma column_names_ok p labels columns : length columns = length labels ->
  Forall2 (fun i c => column_name (Some columns) i = Ok c) (where_ p labels) (role_names p labels columns).
Proof.
  intros H. rewrite <- (names_where p labels columns [] []) by auto. cbn [app].
  assert (G : forall i, In i (where_ p labels) -> (i < length columns)%nat).
  { intros i Hi. apply (where_In p labels i "") in Hi. lia. }
  unfold where_ in *. simpl length in *. revert G. generalize (where_from 0 p labels). intros is G.
  induction is as [|i is IH]; simpl; constructor; auto.
  - rewrite (nth_error_nth' columns "") by (apply G; left; auto). reflexivity.
  - apply IH. intros; apply G; right; auto.
Qed.
Lemma role_names_length p labels columns : length columns = length labels ->
  length (role_names p labels columns) = countb p labels.
Proof. intros H. rewrite <- (names_where p labels columns [] []) by auto. rewrite map_length. apply where_length. Qed.
Lemma documented_none names : documented_weights [] names = ones (length names).
Proof. unfold documented_weights, ones. induction names; cbn [map length repeat]; auto. apply f_equal2; auto. Qed.

Lemma reg_weights_value asked must columns p labels num w : length columns = length labels ->
  reg_weights asked must (Some columns) (where_ p labels) num = Ok w ->
  match must with
  | None | Some [] => w = ones num
  | Some ms => exists l, asked = Some l /\
      w = (if in_dec string_dec "intercept" l then 0 else 1) :: documented_weights ms (role_names p labels columns)
  end.
Proof.
  intros HL H. unfold reg_weights in H. destruct must as [[|m ms]|]; try (inversion H; auto; fail).
  apply rbind_inv in H as [w0 [H0 H]]. apply rbind_inv in H as [ws [H1 H]]. inversion H; subst w. clear H.
  destruct asked as [l|]; [|discriminate]. inversion H0; subst w0. exists l. split; auto.
  rewrite has_key_dec. f_equal. pose proof (column_names_ok p labels columns HL) as F.
  assert (E : sequence (map (fun i => let! c := column_name (Some columns) i in
     Ok (if has_key c (m :: ms) then 0 else 1)) (where_ p labels)) =
     Ok (documented_weights (m :: ms) (role_names p labels columns))).
  { apply sequence_ok. unfold documented_weights. clear - F. induction F; cbn [map]; constructor; auto.
    rewrite H. cbn [rbind]. rewrite has_key_dec. reflexivity. }
  rewrite E in H1. inversion H1. auto.
Qed.

(*@ C32 (partial).  For the fixed effects the weights line up with the coefficients when no must-include
    names are given or an intercept is fitted; for the random effects the membership of "intercept"
    must in addition be the same in both lists. *)
Lemma weights_line_up_partial_lemma :
  forall x y columns labels ff fr must_fe must_re pr, wf_table x -> columns <> [] ->
  from_x_y x y (Some columns) (Some labels) ff fr must_fe must_re = Ok pr ->
  (must_list must_fe = [] \/ ff = true ->
   pr_fe_weights pr = Some (documented_weights (must_list must_fe) (coefficient_names is_fixed ff labels columns))) /\
  (must_list must_re = [] \/ 
   (fr = true /\ (In "intercept" (must_list must_fe) <-> In "intercept" (must_list must_re))) ->
   pr_re_weights pr = Some (documented_weights (must_list must_re) (coefficient_names is_random fr labels columns))) /\
  length (coefficient_names is_fixed ff labels columns) = num_fixed pr /\
  length (coefficient_names is_random fr labels columns) = num_random pr.
Proof.
  intros x y columns labels ff fr mf mr pr Hwf Hne H. apply from_x_y_inv in H. cbn [default_labels fst snd] in H.
  destruct H as [g [v [gl [fec [rec [wf [wr [A1 [A2 [A3 [A4 [A5 [A6 [A7 [W1 [W2 [_ [_ [A8 E]]]]]]]]]]]]]]]]]]].
  assert (HL : length columns = length labels) by (rewrite A3; destruct columns; [congruence|auto]).
  assert (N1 : length (coefficient_names is_fixed ff labels columns) = (countb is_fixed labels + b2n ff)%nat).
  { unfold coefficient_names. rewrite app_length, role_names_length by auto. destruct ff; simpl; lia. }
  assert (N2 : length (coefficient_names is_random fr labels columns) = (countb is_random labels + b2n fr)%nat).
  { unfold coefficient_names. rewrite app_length, role_names_length by auto. destruct fr; simpl; lia. }
  apply reg_weights_value in W1; auto. apply reg_weights_value in W2; auto. rewrite where_length in W1, W2.
  subst pr. unfold num_fixed, num_random, built.
  cbn [pr_fe_weights pr_re_weights pr_labels pr_intercept]. rewrite label_fixed, label_random.
  split; [|split; [|auto]].
  - intros C. f_equal. destruct mf as [[|m ms]|].
    + rewrite W1. cbn [must_list]. rewrite documented_none, N1. reflexivity.
    + destruct W1 as [l [El ->]]. inversion El; subst l. destruct C as [C|C]; [discriminate|]. rewrite C. reflexivity.
    + rewrite W1. cbn [must_list]. rewrite documented_none, N1. reflexivity.
  - intros C. f_equal. destruct mr as [[|m ms]|].
    + rewrite W2. cbn [must_list]. rewrite documented_none, N2. reflexivity.
    + destruct W2 as [l [El ->]]. subst mf. destruct C as [C|[C1 C2]]; [discriminate|]. rewrite C1.
      cbn [must_list coefficient_names app] in *. unfold documented_weights at 2. cbn [map]. f_equal.
      destruct (in_dec string_dec "intercept" l), (in_dec string_dec "intercept" (m :: ms)); tauto.
    + rewrite W2. cbn [must_list]. rewrite documented_none, N2. reflexivity.
Qed.

(*@ C32 (refuted).  With must-include names but without an intercept there is one weight too many; the
    weight of the random intercept is read from the list of fixed effects; and random must-include
    names alone are a TypeError. *)
Lemma weights_line_up_refuted_lemma :
  (forall x y columns labels fr m ms must_re pr, wf_table x -> columns <> [] ->
   from_x_y x y (Some columns) (Some labels) false fr (Some (m :: ms)) must_re = Ok pr ->
   exists w, pr_fe_weights pr = Some w /\ length w = S (num_fixed pr)) /\
  (exists pr, from_x_y sample_table None (Some sample_columns) (Some sample_labels) true true
                (Some ["a"]) (Some ["intercept"]) = Ok pr /\
     pr_re_weights pr = Some [1; 1] /\
     documented_weights ["intercept"] (coefficient_names is_random true sample_labels sample_columns) = [0; 1]) /\
  (forall x y columns labels ff fr r rs pr,
   from_x_y x y columns labels ff fr None (Some (r :: rs)) <> Ok pr).
Proof.
  split; [|split].
  - intros x y columns labels fr m ms mr pr Hwf Hne H. apply from_x_y_inv in H. cbn [default_labels fst snd] in H.
    destruct H as [g [v [gl [fec [rec [wf [wr [A1 [A2 [A3 [A4 [A5 [A6 [A7 [W1 [W2 [_ [_ [A8 E]]]]]]]]]]]]]]]]]]].
    assert (HL : length columns = length labels) by (rewrite A3; destruct columns; [congruence|auto]).
    apply reg_weights_value in W1; auto. destruct W1 as [l [_ ->]]. eexists. split; [subst pr; reflexivity|].
    subst pr. unfold num_fixed, built. cbn [pr_labels pr_intercept]. rewrite label_fixed. cbn [length b2n].
    unfold documented_weights. rewrite map_length, role_names_length by auto. lia.
  - destruct (sample_accepted (Some sample_columns) None true true (Some ["a"]) (Some ["intercept"])) as [pr H];
      [exact I|reflexivity|right; right; discriminate|].
    exists pr. split; [auto|]. split; [|reflexivity]. apply from_x_y_inv in H. cbn [default_labels fst snd] in H.
    destruct H as [g [v [gl [fec [rec [wf [wr [A1 [A2 [A3 [A4 [A5 [A6 [A7 [W1 [W2 [_ [_ [A8 E]]]]]]]]]]]]]]]]]]].
    subst pr. cbn in W2. apply Ok_inj in W2. cbn [built pr_re_weights]. f_equal. symmetry. exact W2.
  - intros x y columns labels ff fr r rs pr H. apply from_x_y_inv in H.
    destruct H as [g [v [gl [fec [rec [wf [wr [A1 [A2 [A3 [A4 [A5 [A6 [A7 [W1 [W2 [_ [_ [A8 E]]]]]]]]]]]]]]]]]]].
    discriminate W2.
Qed.

(** C33 *)
Lemma names_of_value columns labels p r : length columns = length labels -> columns <> [] ->
  names_of (Some columns) (where_ p labels) = Ok r -> r = Some (role_names p labels columns).
Proof.
  intros HL Hne H. unfold names_of in H. destruct columns as [|c cs]; [congruence|].
  rewrite (sequence_ok _ _ _ (column_names_ok p labels (c :: cs) HL)) in H. inversion H. auto.
Qed.

(*@ C33 (partial).  Without intercepts the column names are those of the coefficients, in order.  In
    general they are the names of the columns only. *)
Lemma column_names_line_up_partial_lemma :
  forall x y columns labels ff fr must_fe must_re pr, wf_table x -> columns <> [] ->
  from_x_y x y (Some columns) (Some labels) ff fr must_fe must_re = Ok pr ->
  pr_fe_columns pr = Some (coefficient_names is_fixed false labels columns) /\
  pr_re_columns pr = Some (coefficient_names is_random false labels columns) /\
  (ff = false -> length (coefficient_names is_fixed false labels columns) = num_fixed pr) /\
  (fr = false -> length (coefficient_names is_random false labels columns) = num_random pr).
Proof.
  intros x y columns labels ff fr mf mr pr Hwf Hne H. apply from_x_y_inv in H. cbn [default_labels fst snd] in H.
  destruct H as [g [v [gl [fec [rec [wf [wr [A1 [A2 [A3 [A4 [A5 [A6 [A7 [W1 [W2 [N1 [N2 [A8 E]]]]]]]]]]]]]]]]]]].
  assert (HL : length columns = length labels) by (rewrite A3; destruct columns; [congruence|auto]).
  apply names_of_value in N1; auto. apply names_of_value in N2; auto. subst pr. unfold built, num_fixed, num_random.
  cbn [pr_fe_columns pr_re_columns pr_labels pr_intercept]. rewrite label_fixed, label_random.
  unfold coefficient_names. cbn [app]. split; [auto|]. split; [auto|].
  split; intros ->; rewrite role_names_length by auto; simpl; lia.
Qed.

(*@ C33 (refuted).  With an intercept there is one name less than coefficients, and every name stands one
    place before its coefficient. *)
Lemma column_names_line_up_refuted_lemma :
  forall x y columns labels fr must_fe must_re pr, wf_table x -> columns <> [] ->
  from_x_y x y (Some columns) (Some labels) true fr must_fe must_re = Ok pr ->
  exists names, pr_fe_columns pr = Some names /\ num_fixed pr = S (length names) /\
    coefficient_names is_fixed true labels columns = "intercept" :: names.
Proof.
  intros x y columns labels fr mf mr pr Hwf Hne H. apply from_x_y_inv in H. cbn [default_labels fst snd] in H.
  destruct H as [g [v [gl [fec [rec [wf [wr [A1 [A2 [A3 [A4 [A5 [A6 [A7 [W1 [W2 [N1 [N2 [A8 E]]]]]]]]]]]]]]]]]]].
  assert (HL : length columns = length labels) by (rewrite A3; destruct columns; [congruence|auto]).
  apply names_of_value in N1; auto. eexists. split; [subst pr; exact N1|]. split; [|reflexivity].
  subst pr. unfold num_fixed, built. cbn [pr_labels pr_intercept]. rewrite label_fixed.
  rewrite role_names_length by auto. simpl. lia.
Qed.

(** C34 *)
Lemma for_steps_from pr body fuel j :
  (forall grp pos, body grp pos = pos) -> (j <= length (pr_fixed pr))%nat -> (length (pr_fixed pr) - j < fuel)%nat ->
  for_steps fuel pr body (Some j) =
  Ok (map (group_at pr) (seq j (length (pr_fixed pr) - j)), Some (length (pr_fixed pr))).
Proof.
  intros Hb. revert j. induction fuel as [|fuel IH]; intros j Hj Hf; [lia|].
  cbn [for_steps iter_next]. destruct (j <? length (pr_fixed pr))%nat eqn:E; cbn [rbind].
  - apply Nat.ltb_lt in E. rewrite Hb. rewrite IH by lia. cbn [rbind].
    replace (length (pr_fixed pr) - j)%nat with (S (length (pr_fixed pr) - S j)) by lia. reflexivity.
  - apply Nat.ltb_ge in E. replace (length (pr_fixed pr) - j)%nat with 0%nat by lia.
    replace j with (length (pr_fixed pr)) by lia. reflexivity.
Qed.

Lemma for_loop_all :
  forall pr pos body, (forall g p, body g p = p) ->
  for_loop pr body pos = Ok (map (group_at pr) (seq 0 (length (pr_fixed pr))), Some (length (pr_fixed pr))).
Proof.
  intros pr pos body Hb. unfold for_loop, iter_start. rewrite for_steps_from; auto; try lia.
  rewrite Nat.sub_0_r. reflexivity.
Qed.
Lemma nth_seq_all {A} (d : A) : forall l n, length l = n -> map (fun j => nth j l d) (seq 0 n) = l.
Proof.
  intros l n <-. induction l; [reflexivity|]. cbn [length seq map nth]. f_equal.
  rewrite <- seq_shift, map_map. exact IHl.
Qed.

(*@ C34 (partial).  Whatever happened to the iterator before, a loop whose body does not iterate over the
    same problem sees every group once, in order: the fixed features, the targets, the random features
    and the variances it yields are those of the groups. *)
Lemma loop_sees_every_group_partial_lemma :
  forall pr pos body, (forall g p, body g p = p) ->
  length (pr_random pr) = length (pr_fixed pr) -> length (pr_obs_vars pr) = length (pr_fixed pr) ->
  exists gs pos', for_loop pr body pos = Ok (gs, pos') /\
    map (fun '(x, _, _, _) => x) gs = pr_fixed pr /\
    map (fun '(_, _, z, _) => z) gs = pr_random pr /\
    map (fun '(_, _, _, v) => v) gs = pr_obs_vars pr /\
    (forall ys, pr_answers pr = Some ys -> length ys = length (pr_fixed pr) ->
       map (fun '(_, y, _, _) => y) gs = map Some ys) /\
    (pr_answers pr = None -> Forall (fun '(_, y, _, _) => y = None) gs).
Proof.
  intros pr pos body Hb Hr Hv. rewrite for_loop_all by auto. do 2 eexists. split; [reflexivity|].
  rewrite !map_map. unfold group_at. repeat split.
  - apply nth_seq_all; auto.
  - apply nth_seq_all; auto.
  - apply nth_seq_all; auto.
  - intros ys E L. rewrite E. cbn [option_map]. transitivity (map Some (map (fun j => nth j ys []) (seq 0 (length (pr_fixed pr)))));
      [rewrite map_map; reflexivity | f_equal; apply nth_seq_all; auto].
  - intros E. rewrite E. apply Forall_forall. intros g Hg. apply in_map_iff in Hg as [j [<- _]]. reflexivity.
Qed.

(*@ C34 (refuted).  The position is shared: a loop nested in a loop over the same problem ends the outer
    one after its first group, and a second iterator continues where the first one stands. *)
Lemma nested_loops_refuted_lemma :
  (forall pr pos, (2 <= length (pr_fixed pr))%nat ->
   let inner := fun _ p => match for_loop pr (fun _ p => p) p with Ok (_, p') => p' | Err _ => p end in
   exists p', for_loop pr inner pos = Ok ([group_at pr 0], p')) /\
  (forall pr, (2 <= length (pr_fixed pr))%nat ->
   let first := iter_start None in
   let second := iter_start first in
   exists p1 p2, iter_next pr second = Ok (Some (group_at pr 0), p1) /\
     iter_next pr p1 = Ok (Some (group_at pr 1), p2)).
Proof.
  split.
  - intros pr pos Hn inner. unfold for_loop at 1, iter_start.
    remember (length (pr_fixed pr)) as n eqn:En. destruct n as [|[|n]]; [lia|lia|].
    assert (E0 : iter_next pr (Some 0%nat) = Ok (Some (group_at pr 0), Some 1%nat)) by (simpl; rewrite <- En; reflexivity).
    assert (E1 : iter_next pr (Some (S (S n))) = Ok (None, Some (S (S n)))).
    { unfold iter_next. rewrite <- En. assert (X : (S (S n) <? S (S n))%nat = false) by (apply Nat.ltb_ge; lia). rewrite X. auto. }
    cbn [for_steps]. rewrite E0. cbn [rbind]. unfold inner at 1.
    rewrite for_loop_all by auto. rewrite <- En. cbn [for_steps]. rewrite E1. cbn [rbind]. eauto.
  - intros pr Hn first second. unfold second, iter_start, iter_next.
    assert (X : (0 <? length (pr_fixed pr))%nat = true) by (apply Nat.ltb_lt; lia). rewrite X.
    eexists. eexists. split; [reflexivity|].
    assert (Y : (1 <? length (pr_fixed pr))%nat = true) by (apply Nat.ltb_lt; lia). cbv beta iota. rewrite Y. reflexivity.
Qed.

(*@ A problem with two groups to loop over. *)
Lemma ex_iteration_lemma :
  exists pr, from_x_y sample_table (Some [10; 20]) None (Some sample_labels) true false None None = Ok pr /\
    length (pr_fixed pr) = 2%nat.
Proof.
  destruct (sample_accepted None (Some [10; 20]) true false None None) as [pr H];
    [reflexivity|split; reflexivity|left; reflexivity|]. exists pr. split; auto.
  assert (W : wf_table sample_table) by (repeat constructor).
  destruct (grouping_is_partition_lemma _ _ _ _ _ _ _ _ _ W H) as [idx [P [_ [Pf _]]]]. cbv zeta in P, Pf.
  rewrite Pf, map_length. destruct P as [P1 [P2 [P3 _]]]. cbn [length t_rows sample_table] in *.
  assert (L : length idx = length (pr_group_labels pr)) by (clear - P3; induction P3; simpl; auto).
  rewrite L. clear L P3 Pf H W. 
  assert (I0 : In 0 (pr_group_labels pr)) by (apply P2; exists 1%nat; split; [lia|reflexivity]).
  assert (I1 : In 1 (pr_group_labels pr)) by (apply P2; exists 0%nat; split; [lia|reflexivity]).
  assert (I2 : forall l, In l (pr_group_labels pr) -> l = 0 \/ l = 1).
  { intros l Hl. apply P2 in Hl as [i [Hi <-]]. destruct i as [|[|i]]; [right|left|lia]; reflexivity. }
  clear P2. apply sorted_Rlt_NoDup in P1.
  assert (LE : (length (pr_group_labels pr) <= 2)%nat).
  { apply (NoDup_incl_length P1 (l' := [0; 1])). intros l Hl. apply I2 in Hl. simpl. intuition. }
  assert (GE : (2 <= length (pr_group_labels pr))%nat).
  { apply (NoDup_incl_length (l := [0; 1])).
    - constructor; [simpl; intros [C|[]]; lra|]. constructor; [simpl; tauto|constructor].
    - intros l [<-|[<-|[]]]; auto. }
  lia.
Qed.
