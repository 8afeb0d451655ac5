(*HEAD
(** Property C103: writing a mixed-model problem to a data frame (src/pysr3/lme/problems.py). *)
From Verif.Base Require Import Py Vec Mat.
From Verif.Model Require Import LmeProblem LmeFrame.
From Verif.Spec Require Import LmeSpec FrameSpec.
HEAD*)
From Coq Require Import Sorted Permutation Lra Lia.
From Verif.Base Require Import Py Vec Mat.
From Verif.Model Require Import LmeProblem LmePredict LmeFrame.
From Verif.Spec Require Import LmeSpec FrameSpec.
From Verif.Proofs Require Import VecFacts SolverProofs MatFacts LinearProofs LmeProblemProofs LmeProblemMain
  LmeDataMain L0LMEProofs.
From Verif.Proofs Require OrderTable.
(*OPEN
Open Scope string_scope.
Open Scope list_scope.
Open Scope R_scope.
OPEN*)
Open Scope string_scope.
Open Scope list_scope.
Open Scope R_scope.

(** ** a partition is determined by its labels *)
Lemma sorted_lt_eq (l l' : list nat) : StronglySorted lt l -> StronglySorted lt l' ->
  (forall i, In i l <-> In i l') -> l = l'.
Proof.
  intros S S' H. assert (LE : forall l, StronglySorted lt l -> StronglySorted le l).
  { induction 1 as [|a k _ IH F]; constructor; auto. eapply Forall_impl; [|exact F]. simpl. intros; lia. }
  apply sorted_perm_eq; auto. apply NoDup_Permutation; auto using sorted_lt_NoDup.
Qed.
Lemma partition_unique (f h : nat -> R) n gl idx gl' idx' : (forall i, (i < n)%nat -> f i = h i) ->
  partition_of f n gl idx -> partition_of h n gl' idx' -> gl = gl' /\ idx = idx'.
Proof.
  intros E [A1 [A2 [A3 _]]] [B1 [B2 [B3 _]]].
  assert (G : gl = gl').
  { apply OrderTable.sorted_unique; auto. intros a. rewrite A2, B2. split; intros [i [Hi <-]]; exists i;
      (split; [auto|]); rewrite E; auto. }
  split; auto. subst gl'. clear - E A3 B3. revert idx' B3.
  induction A3 as [|l is gl ids [S1 S2] HF IH]; intros idx' B3; inversion B3 as [|? is' ? ids' [S1' S2'] HF']; subst; auto.
  f_equal; auto. apply sorted_lt_eq; auto. intros i. rewrite S2, S2'. split; intros [Hi <-]; split; auto.
  symmetry. auto.
Qed.

(** ** the columns of the frame *)
Lemma lookup_combine (f : nat -> vec) c tl labels : In c labels -> forall s,
  exists k, (k < length labels)%nat /\
    lookup c (combine labels (map f (seq s (length labels))) ++ tl) = Some (f (s + k)%nat) /\
    forall row, length row = length labels -> labelled c labels row = nth k row 0.
Proof.
  induction labels as [|l labels IH]; intros Hc s; [destruct Hc|]. cbn [length seq map combine app lookup].
  destruct (String.eqb_spec c l) as [E|E].
  - exists 0%nat. subst l. rewrite String.eqb_refl || idtac. split; [lia|]. split; [rewrite Nat.add_0_r; reflexivity|].
    intros [|a row] Hr; [discriminate|]. cbn [labelled nth]. destruct (string_dec c c); congruence.
  - destruct Hc as [Hc|Hc]; [congruence|]. destruct (IH Hc (S s)) as [k [K1 [K2 K3]]]. exists (S k). split; [lia|].
    split; [rewrite K2; f_equal; f_equal; lia|].
    intros [|a row] Hr; [discriminate|]. cbn [labelled nth]. destruct (string_dec c l); [congruence|].
    apply K3. simpl in Hr. lia.
Qed.
Lemma lookup_combine_none {A} c (tl : list (string * A)) labels : ~ In c labels -> forall cols,
  lookup c (combine labels cols ++ tl) = lookup c tl.
Proof.
  induction labels as [|l labels IH]; intros H [|a cols]; auto. cbn [combine app lookup].
  destruct (String.eqb_spec c l) as [E|E]; [exfalso; apply H; left; auto|]. apply IH. intros C. apply H. right. auto.
Qed.
Lemma combine_fst {A B} (l : list A) : forall (l' : list B), length l' = length l -> map fst (combine l l') = l.
Proof. induction l as [|a l IH]; intros [|b l'] H; try discriminate; auto. simpl. f_equal. auto. Qed.
Lemma role_values_labelled p labels : NoDup labels -> forall row, length row = length labels ->
  role_values p labels row = map (fun c => labelled c labels row) (filter p labels).
Proof.
  induction 1 as [|l labels H _ IH]; intros [|a row] Hr; try discriminate; auto. simpl in Hr.
  assert (T : map (fun c => labelled c (l :: labels) (a :: row)) (filter p labels)
            = map (fun c => labelled c labels row) (filter p labels)).
  { apply map_ext_in. intros c Hc. apply filter_In in Hc as [Hc _]. cbn [labelled].
    destruct (string_dec c l); auto. congruence. }
  cbn [role_values filter]. destruct (p l); cbn [map]; rewrite T, IH by lia; auto.
  f_equal. cbn [labelled]. destruct (string_dec l l); congruence.
Qed.
Lemma labelled_map (f : string -> R) c cs : In c cs -> labelled c cs (map f cs) = f c.
Proof.
  induction cs as [|a cs IH]; intros H; [destruct H|]. cbn [map labelled]. destruct (string_dec c a); [congruence|].
  destruct H; [congruence|auto].
Qed.

Definition frame_of (x : table) (y : vec) (labels : list string) : dataframe :=
  {| df_n := length (t_rows x); df_cols := combine labels (tr (length labels) (t_rows x)) ++ [("target", y)] |}.
Lemma to_dataframe_frame x y columns labels ff fr mf mr pr : wf_table x ->
  from_x_y x (Some y) columns (Some labels) ff fr mf mr = Ok pr -> to_dataframe pr = Ok (frame_of x y labels).
Proof.
  intros W H. unfold to_dataframe. rewrite (from_x_y_round_trip_lemma _ _ _ _ _ _ _ _ _ W H). reflexivity.
Qed.
Lemma frame_names x y labels : map fst (df_cols (frame_of x y labels)) = labels ++ ["target"].
Proof.
  cbn [frame_of df_cols]. rewrite map_app, combine_fst; auto. unfold tr. rewrite map_length, seq_length. auto.
Qed.
Lemma frame_value x y labels c i : wf_table x -> length labels = t_cols x -> In c labels ->
  (i < length (t_rows x))%nat -> df_value (frame_of x y labels) c i = labelled c labels (nth i (t_rows x) []).
Proof.
  intros W HL Hc Hi. unfold df_value. cbn [frame_of df_cols].
  destruct (lookup_combine (fun j => map (fun row => nth j row 0) (t_rows x)) c [("target", y)] labels Hc 0)
    as [k [K1 [K2 K3]]].
  assert (K2' : lookup c (combine labels (tr (length labels) (t_rows x)) ++ [("target", y)])
                = Some (map (fun row => nth k row 0) (t_rows x))) by exact K2.
  unfold vec in *. rewrite K2'. rewrite (nth_map_lt _ _ _ _ []) by auto. rewrite K3; [reflexivity|].
  unfold wf_table in W. rewrite Forall_forall in W. rewrite W by (apply nth_In; auto). auto.
Qed.
Lemma frame_target x y labels i : ~ In "target" labels -> df_value (frame_of x y labels) "target" i = nth i y 0.
Proof. intros H. unfold df_value. cbn [frame_of df_cols]. rewrite lookup_combine_none by auto. reflexivity. Qed.

Lemma known_not_target labels : forallb known_label labels = true ->
  ~ In "target" labels /\ ~ In "intercept" labels.
Proof.
  intros H. rewrite forallb_forall in H. split; intros C; apply H in C; discriminate.
Qed.
Lemma filter_frame (labels : list string) (p q : string -> bool) :
  (forall c, In c labels -> p c = q c) -> p "target" = false -> filter p (labels ++ ["target"]) = filter q labels.
Proof.
  intros H T. rewrite filter_app. cbn [filter]. rewrite T, app_nil_r. apply filter_ext_in. auto.
Qed.
Lemma has_key_filter p labels c : In c labels -> has_key c (filter p labels) = p c.
Proof.
  intros H. destruct (has_key c (filter p labels)) eqn:E.
  - apply has_key_In in E. apply filter_In in E. symmetry. tauto.
  - destruct (p c) eqn:P; auto. assert (C : has_key c (filter p labels) = true) by (apply has_key_In, filter_In; auto).
    congruence.
Qed.
Lemma has_key_absent c l : ~ In c l -> has_key c l = false.
Proof. intros H. destruct (has_key c l) eqn:E; auto. apply has_key_In in E. tauto. Qed.

(*@ C103 (partial).  The frame has the labels as names and the targets in the column "target"; a label that
    occurs once names its column. *)
Lemma to_dataframe_columns_partial_lemma :
  forall x y columns labels ff fr must_fe must_re pr, wf_table x ->
  from_x_y x (Some y) columns (Some labels) ff fr must_fe must_re = Ok pr ->
  exists d, to_dataframe pr = Ok d /\ df_n d = length (t_rows x) /\ map fst (df_cols d) = labels ++ ["target"] /\
  forall i, (i < df_n d)%nat -> df_value d "target" i = nth i y 0 /\
    forall c, count_occ string_dec labels c = 1%nat -> df_value d c i = labelled c labels (nth i (t_rows x) []).
Proof.
  intros x y columns labels ff fr mf mr pr W H. exists (frame_of x y labels).
  split; [eapply to_dataframe_frame; eassumption|]. split; [reflexivity|]. split; [apply frame_names|].
  apply from_x_y_inv in H. cbn [default_labels fst snd] in H.
  destruct H as [g [v [gl [fec [rec [wf [wr [A1 [A2 [A3 [A4 [A5 [A6 [A7 [_ [_ [_ [_ [_ E]]]]]]]]]]]]]]]]]]].
  destruct (known_not_target _ A2) as [T _].
  intros i Hi. split; [apply frame_target; auto|]. intros c Hc. apply frame_value; auto.
  apply (count_occ_In string_dec). lia.
Qed.

(*@ C103 (partial).  When no label is repeated and no intercept is fitted, from_dataframe rebuilds the problem
    from the frame. *)
Lemma to_dataframe_round_trip_partial_lemma :
  forall x y columns labels must_fe must_re pr, wf_table x -> NoDup labels ->
  from_x_y x (Some y) columns (Some labels) false false must_fe must_re = Ok pr ->
  exists d pr', to_dataframe pr = Ok d /\
    from_dataframe d (filter is_fixed labels) (filter is_random labels) "group" "variance" "target" [] [] = Ok pr' /\
    same_data pr pr'.
Proof.
  intros x y columns labels mf mr pr W ND H. set (d := frame_of x y labels).
  assert (Hd : to_dataframe pr = Ok d) by (eapply to_dataframe_frame; eassumption).
  pose proof (grouping_is_partition_lemma _ _ _ _ _ _ _ _ _ W H) as [idx [P [P1 [P2 [P3 [P4 [P5 _]]]]]]].
  pose proof H as H0. apply from_x_y_inv in H. cbn [default_labels fst snd] in H.
  destruct H as [g [v [gl [fec [rec [wf [wr [A1 [A2 [A3 [A4 [A5 [A6 [A7 [_ [_ [_ [_ [_ E]]]]]]]]]]]]]]]]]]].
  destruct (known_not_target _ A2) as [T I]. destruct (check_X_y_inv _ _ A1) as [B1 B2].
  assert (V : valid_labels labels).
  { split; [apply known_label_spec; auto|]. rewrite <- !count_occ_where. unfold GROUP, VARIANCE in *. rewrite A4, A5. auto. }
  assert (IG : In "group" labels) by (apply (count_occ_In string_dec); destruct V as [_ [-> _]]; lia).
  assert (IV : In "variance" labels) by (apply (count_occ_In string_dec); destruct V as [_ [_ ->]]; lia).
  set (fixed := filter is_fixed labels). set (random := filter is_random labels).
  set (eff c := is_fixed c || is_random c).
  assert (FE : filter (kept_effect fixed random) (labels ++ ["target"]) = filter eff labels).
  { apply filter_frame.
    - intros c Hc. unfold kept_effect, fixed, random. rewrite !has_key_filter by auto.
      destruct (String.eqb_spec c INTERCEPT) as [->|_]; [contradiction|]. rewrite andb_true_r. reflexivity.
    - unfold kept_effect. rewrite !has_key_absent; auto; intros C; apply filter_In in C; tauto. }
  assert (LE : map (effect_label fixed random) (filter eff labels) = filter eff labels).
  { rewrite <- (map_id (filter eff labels)) at 2. apply map_ext_in. intros c Hc. apply filter_In in Hc as [Hc Ec].
    unfold effect_label, fixed, random. rewrite !has_key_filter by auto.
    destruct V as [V _]. rewrite Forall_forall in V. specialize (V c Hc). simpl in V.
    repeat destruct V as [<-|V]; try discriminate; try reflexivity. destruct V. }
  set (cs := "group" :: filter eff labels ++ ["variance"]).
  assert (SUB : forall c, In c cs -> In c labels).
  { intros c [<-|Hc]; auto. apply in_app_iff in Hc as [Hc|[<-|[]]]; auto. apply filter_In in Hc. tauto. }
  set (colv c := match lookup c (df_cols d) with Some v => v | None => [] end).
  assert (NM : map fst (df_cols d) = labels ++ ["target"]) by apply frame_names.
  assert (CV : forall c, In c (labels ++ ["target"]) -> df_col d c = Ok (colv c)).
  { intros c Hc. unfold df_col, colv. destruct (lookup c (df_cols d)) eqn:L; auto. exfalso.
    rewrite <- NM in Hc. revert L Hc. clear. induction (df_cols d) as [|[k w] l IH]; simpl; [tauto|].
    destruct (String.eqb_spec c k); [discriminate|]. intros L [C|C]; [congruence|auto]. }
  assert (DV : forall c i, nth i (colv c) 0 = df_value d c i).
  { intros c i. unfold colv, df_value. destruct (lookup c (df_cols d)); auto. destruct i; auto. }
  assert (NZ : Forall (fun row => variance_of labels row <> 0) (t_rows x)).
  { unfold wf_table in W. rewrite Forall_forall in W.
    eapply (forallb_column_iff nonzero (fun a => a <> 0)); [intros; apply nonzero_true| |exact A6].
    intros row Hr. symmetry. apply labelled_nth; auto. rewrite A3. auto. }
  assert (NI : Forall (fun row => exists z, group_of labels row = IZR z) (t_rows x)).
  { unfold wf_table in W. rewrite Forall_forall in W. pose proof A7 as A8. apply unique_labels_spec in A8 as [_ [_ A8]].
    eapply (forallb_column_iff is_int (fun a => exists z, a = IZR z)); [intros; apply is_int_true| |exact A8].
    intros row Hr. symmetry. apply labelled_nth; auto. rewrite A3. auto. }
  assert (Hok : exists pr', from_dataframe d fixed random "group" "variance" "target" [] [] = Ok pr' /\
    pr_intercept pr' = None).
  { unfold from_dataframe. rewrite NM.
    assert (G1 : forallb (fun e => has_key e (labels ++ ["target"]))
                   (fixed ++ random ++ ["group"; "variance"; "target"] ++ [] ++ []) = true).
    { apply forallb_forall. intros c Hc. apply has_key_In. rewrite in_app_iff.
      rewrite !in_app_iff in Hc. destruct Hc as [Hc|[Hc|[Hc|[[]|[]]]]].
      - left. apply filter_In in Hc. tauto.
      - left. apply filter_In in Hc. tauto.
      - destruct Hc as [<-|[<-|[<-|[]]]]; auto. right. left. auto. }
    rewrite G1. cbn [forallb guard rbind]. rewrite FE, LE. fold cs. unfold GROUP, VARIANCE. fold cs.
    assert (EC : sequence (map (df_col d) cs) = Ok (map colv cs)).
    { apply sequence_map_ok. intros c Hc. apply CV, in_app_iff. left. auto. }
    rewrite EC. cbn [rbind]. rewrite (CV "target") by (apply in_app_iff; right; left; auto). cbn [rbind].
    assert (HI : forall p, (forall c, p c = true -> c <> "intercept") -> has_key INTERCEPT (filter p labels) = false).
    { intros p Hp. apply has_key_absent. intros C. apply filter_In in C. tauto. }
    unfold fixed, random. rewrite !HI by (intros c Hc ->; discriminate).
    set (x' := {| t_cols := length cs; t_rows := tr (df_n d) (map colv cs) |}).
    assert (RX : t_rows x' = map (fun i => map (fun c => df_value d c i) cs) (seq 0 (length (t_rows x)))).
    { unfold x', tr. cbn [t_rows d frame_of df_n]. apply map_ext. intros i. rewrite map_map. apply map_ext. intros c. apply DV. }
    assert (W' : wf_table x').
    { unfold wf_table. rewrite RX. apply Forall_forall. intros r Hr. apply in_map_iff in Hr as [i [<- _]].
      rewrite map_length. reflexivity. }
    assert (TY : colv "target" = y).
    { unfold colv. cbn [d frame_of df_cols]. rewrite lookup_combine_none by auto. reflexivity. }
    assert (ACC : exists pr0, from_x_y x' (Some (colv "target")) None (Some cs) false false None None = Ok pr0).
    { apply from_x_y_accepts_iff_lemma; auto. split; [|split; [|split; [|split]]].
      - rewrite RX, map_length, seq_length, TY. split; auto. intros C. apply map_eq_nil in C.
        destruct (t_rows x); [congruence|discriminate].
      - destruct V as [V1 [V2 V3]]. assert (NG : forall c, eff c = false -> ~ In c (filter eff labels)).
        { intros c Hc C. apply filter_In in C. destruct C. congruence. }
        split; [|split].
        + apply Forall_forall. intros c Hc. rewrite Forall_forall in V1. apply V1. auto.
        + unfold cs. simpl. rewrite count_occ_app. rewrite (proj1 (count_occ_not_In string_dec _ _) (NG "group" eq_refl)). reflexivity.
        + unfold cs. simpl. rewrite count_occ_app. rewrite (proj1 (count_occ_not_In string_dec _ _) (NG "variance" eq_refl)). reflexivity.
      - reflexivity.
      - rewrite RX. apply Forall_forall. intros r Hr. apply in_map_iff in Hr as [i [<- Hi]]. apply in_seq in Hi.
        unfold variance_of. rewrite labelled_map by (right; apply in_app_iff; right; left; auto).
        unfold d. rewrite frame_value by (auto; lia). rewrite Forall_forall in NZ. apply NZ, nth_In. lia.
      - rewrite RX. apply Forall_forall. intros r Hr. apply in_map_iff in Hr as [i [<- Hi]]. apply in_seq in Hi.
        unfold group_of. rewrite labelled_map by (left; auto).
        unfold d. rewrite frame_value by (auto; lia). rewrite Forall_forall in NI. apply NI, nth_In. lia. }
    destruct ACC as [pr0 ACC].
    destruct (from_x_y_accepts_names_lemma _ _ _ cs _ _ (Some []) (Some []) _ ACC eq_refl) as [pr' Hp]; [right; left; auto|].
    exists pr'. split; auto. apply from_x_y_inv in Hp. cbn [default_labels fst snd] in Hp.
    destruct Hp as [g' [v' [gl' [fec' [rec' [wf' [wr' [_ [_ [_ [_ [_ [_ [_ [_ [_ [_ [_ [_ E']]]]]]]]]]]]]]]]]]].
    rewrite E'. reflexivity. }
  destruct Hok as [pr' [Hpr HI]]. exists d, pr'. split; auto. split; auto.
  pose proof (from_dataframe_selects_lemma _ _ _ _ _ _ _ _ _ Hpr) as S. cbv zeta in S.
  destruct S as [_ [_ [_ [_ [idx' [Q [Q1 [Q2 [Q3 [Q4 Q5]]]]]]]]]].
  change (df_n d) with (length (t_rows x)) in Q.
  assert (GV : forall i, (i < length (t_rows x))%nat -> group_of labels (nth i (t_rows x) []) = df_value d "group" i).
  { intros i Hi. symmetry. apply frame_value; auto. }
  destruct (partition_unique _ _ _ _ _ _ _ GV P Q) as [G1 G2]. subst idx'.
  assert (IN : forall is i, In is idx -> In i is -> (i < length (t_rows x))%nat).
  { intros is i H1 H2. destruct P as [_ [_ [_ P]]].
    assert (C : In i (concat idx)) by (apply in_concat; eauto). apply (Permutation_in _ P), in_seq in C. lia. }
  assert (LEN : forall i, (i < length (t_rows x))%nat -> length (nth i (t_rows x) []) = length labels).
  { intros i Hi. unfold wf_table in W. rewrite Forall_forall in W. rewrite A3. apply W, nth_In. auto. }
  assert (ROWS : forall p, (forall c, p c = true -> c <> "intercept") -> forall is i, In is idx -> In i is ->
    features_of p false labels (nth i (t_rows x) [])
    = (if in_dec string_dec "intercept" (filter p labels) then [1] else []) ++
      map (fun c => df_value d c i) (named_effects d (filter p labels))).
  { intros p Hp is i H1 H2. pose proof (IN _ _ H1 H2) as Hi.
    destruct (in_dec string_dec "intercept" (filter p labels)) as [C|_]; [apply filter_In in C; tauto|].
    unfold features_of. cbn [app]. rewrite role_values_labelled by auto.
    unfold named_effects. rewrite NM. rewrite (filter_frame labels _ p).
    - apply map_ext_in. intros c Hc. apply filter_In in Hc as [Hc _]. symmetry. apply frame_value; auto.
    - intros c Hc. destruct (in_dec string_dec c (filter p labels)) as [C|C].
      + apply filter_In in C as [_ C]. destruct (string_dec c "intercept"); [subst; contradiction|auto].
      + destruct (p c) eqn:Pc; auto. exfalso. apply C, filter_In. auto.
    - destruct (in_dec string_dec "target" (filter p labels)) as [C|C]; auto. apply filter_In in C. tauto. }
  unfold same_data. rewrite P1, P2, P3, P4, P5, Q1, Q2, Q3, Q4, Q5, HI. cbn [option_map].
  split; [|split; [|split; [|split; [|split; [auto|split; [auto|rewrite E; reflexivity]]]]]].
  - apply map_ext_in. intros is H1. apply map_ext_in. intros i H2. apply (ROWS is_fixed) with (is := is); auto. intros c Hc ->. discriminate.
  - apply map_ext_in. intros is H1. apply map_ext_in. intros i H2. apply (ROWS is_random) with (is := is); auto. intros c Hc ->. discriminate.
  - f_equal. apply map_ext_in. intros is H1. apply map_ext_in. intros i H2. symmetry. apply frame_target. auto.
  - apply map_ext_in. intros is H1. apply map_ext_in. intros i H2. symmetry. apply frame_value; auto. eapply IN; eauto.
Qed.

(*@ C103 is refuted.  The frame of a problem with an intercept cannot be read back: no arguments of
    from_dataframe rebuild a problem with that intercept. *)
Lemma to_dataframe_intercept_refuted_lemma :
  forall x y columns labels ff fr must_fe must_re pr d fixed random groups variance target nf nr pr', wf_table x ->
  from_x_y x (Some y) columns (Some labels) ff fr must_fe must_re = Ok pr -> ff || fr = true ->
  to_dataframe pr = Ok d ->
  from_dataframe d fixed random groups variance target nf nr = Ok pr' -> ~ same_data pr pr'.
Proof.
  intros x y columns labels ff fr mf mr pr d fixed random groups variance target nf nr pr' W H F Hd H' S.
  rewrite (to_dataframe_frame _ _ _ _ _ _ _ _ _ W H) in Hd. inversion Hd; subst d. clear Hd.
  assert (KN : forallb known_label labels = true).
  { apply from_x_y_inv in H. cbn [default_labels fst snd] in H.
    destruct H as [g [v [gl [fec [rec [wf [wr [A1 [A2 _]]]]]]]]]. auto. }
  destruct (known_not_target _ KN) as [T I].
  assert (NI : forall e, In e (fixed ++ random) -> e <> "intercept").
  { intros e He ->. rewrite (from_dataframe_missing_column_lemma _ _ _ _ _ _ _ _ "intercept") in H'; [discriminate| |].
    - rewrite !in_app_iff in *. tauto.
    - rewrite frame_names, in_app_iff. intros [C|[C|[]]]; [auto|discriminate]. }
  assert (E' : pr_intercept pr' = None).
  { unfold from_dataframe in H'. apply rbind_inv in H' as [? [_ H']]. apply rbind_inv in H' as [? [_ H']].
    apply rbind_inv in H' as [? [_ H']]. apply rbind_inv in H' as [? [_ H']]. apply rbind_inv in H' as [? [_ H']].
    rewrite !has_key_absent in H' by (intros C; eapply NI; [apply in_app_iff; eauto|reflexivity]).
    apply from_x_y_inv in H'. destruct H' as [g' [v' [gl' [fec' [rec' [wf' [wr' [_ [_ [_ [_ [_ [_ [_ [_ [_ [_ [_ [_ E']]]]]]]]]]]]]]]]]]].
    rewrite E'. reflexivity. }
  destruct S as [_ [_ [_ [_ [_ [_ S]]]]]]. rewrite E' in S.
  apply from_x_y_inv in H. destruct H as [g [v [gl [fec [rec [wf [wr [_ [_ [_ [_ [_ [_ [_ [_ [_ [_ [_ [_ E]]]]]]]]]]]]]]]]]]].
  rewrite E in S. cbn [pr_intercept built] in S. destruct ff, fr; discriminate.
Qed.

(*@ C103 is refuted.  Two fixed effects become two different columns of the same name, and the names given to
    from_x_y are lost. *)
Lemma to_dataframe_names_refuted_lemma :
  exists x y columns labels pr d, wf_table x /\
    from_x_y x (Some y) (Some columns) (Some labels) false false None None = Ok pr /\ to_dataframe pr = Ok d /\
    NoDup columns /\ ~ NoDup (map fst (df_cols d)) /\ ~ In "a" (map fst (df_cols d)) /\ In "a" columns /\
    In ("fixed", [5; 6]) (df_cols d) /\ In ("fixed", [2; 3]) (df_cols d).
Proof.
  destruct (from_x_y_accepts_iff_lemma sample_table (Some [10; 20]) ["group"; "fixed"; "fixed"; "variance"] false false)
    as [_ HA]; [repeat constructor|].
  destruct HA as [pr0 H0].
  { split; [split; [discriminate|reflexivity]|]. split; [|split; [reflexivity|]].
    - split; [|split; reflexivity]. repeat (apply Forall_cons; [simpl; tauto|]). constructor.
    - split; (apply Forall_cons; [|apply Forall_cons; [|constructor]]); cbn; try lra; [exists 1%Z|exists 0%Z]; reflexivity. }
  destruct (from_x_y_accepts_names_lemma _ _ _ sample_columns _ _ None None _ H0 eq_refl (or_introl eq_refl)) as [pr H].
  assert (W : wf_table sample_table) by repeat constructor.
  exists sample_table, [10; 20], sample_columns, ["group"; "fixed"; "fixed"; "variance"], pr,
    (frame_of sample_table [10; 20] ["group"; "fixed"; "fixed"; "variance"]).
  split; auto. split; auto. split; [eapply to_dataframe_frame; eassumption|].
  split; [repeat constructor; simpl; intuition discriminate|]. rewrite frame_names.
  split; [|split; [|split; [|split]]].
  - intros C. inversion C as [|? ? _ C']; subst. inversion C' as [|? ? C'' _]; subst. apply C''. left. reflexivity.
  - simpl. intuition discriminate.
  - simpl. auto.
  - simpl. auto.
  - simpl. auto.
Qed.

(*@ two groups, one fixed effect and one effect that is both, there and back *)
Lemma ex_to_dataframe_round_trip_partial_lemma :
  wf_table sample_table /\ NoDup sample_labels /\
  exists pr, from_x_y sample_table (Some [10; 20]) (Some sample_columns) (Some sample_labels) false false None None = Ok pr.
Proof.
  split; [repeat constructor|]. split; [repeat constructor; simpl; intuition discriminate|].
  apply sample_accepted; auto.
Qed.
(*@ the same with an intercept: a frame is written, and read without the intercept *)
Lemma ex_to_dataframe_intercept_refuted_lemma :
  exists pr d pr', from_x_y sample_table (Some [10; 20]) (Some sample_columns) (Some sample_labels) true true None None = Ok pr /\
    to_dataframe pr = Ok d /\
    from_dataframe d ["fixed"; "fixed+random"] ["fixed+random"] "group" "variance" "target" [] [] = Ok pr'.
Proof.
  destruct (sample_accepted (Some sample_columns) (Some [10; 20]) true true None None) as [pr H]; auto.
  destruct (sample_accepted (Some sample_columns) (Some [10; 20]) false false None None) as [pr0 H0]; auto.
  assert (W : wf_table sample_table) by repeat constructor.
  destruct (to_dataframe_round_trip_partial_lemma _ _ _ _ _ _ _ W (proj1 (proj2 ex_to_dataframe_round_trip_partial_lemma)) H0)
    as [d [pr' [D1 [D2 _]]]].
  exists pr, d, pr'. split; auto. split; auto.
  rewrite (to_dataframe_frame _ _ _ _ _ _ _ _ _ W H0) in D1. rewrite (to_dataframe_frame _ _ _ _ _ _ _ _ _ W H). auto.
Qed.
