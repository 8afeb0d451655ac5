(** Stratified splits: every stratum has training rows when at least half of the rows are for training. *)
From Coq Require Import Lia Lra.
From Verif.Base Require Import Py Vec Mat.
From Verif.Model Require Import LmeProblem LmeSplit.
From Verif.Spec Require Import LmeSpec SplitSpec.
From Verif.Proofs Require Import VecFacts LmeProblemProofs LmeProblemMain.
Open Scope R_scope.

Lemma members_cons strata c i idx :
  members strata c (i :: idx) = ((if vec_dec (nth i strata []) c then 1 else 0) + members strata c idx)%nat.
Proof. unfold members, countb. cbn [filter]. destruct (vec_dec _ _); reflexivity. Qed.

Lemma members_pos strata c idx : (0 < members strata c idx)%nat <-> exists j, In j idx /\ nth j strata [] = c.
Proof.
  induction idx as [|i idx IH].
  - split; [unfold members, countb; cbn; lia|intros (j & [] & _)].
  - rewrite members_cons. destruct (vec_dec (nth i strata []) c) as [E|E].
    + split; [intros _; exists i; split; [left|]; auto|lia].
    + rewrite Nat.add_0_l, IH. split; intros (j & H & Ej).
      * exists j. split; [right|]; auto.
      * destruct H as [->|H]; [contradiction|]. eauto.
Qed.

Lemma sum_cons {A} (f : A -> nat) a l : list_sum (map f (a :: l)) = (f a + list_sum (map f l))%nat.
Proof. reflexivity. Qed.
Lemma sum_add {A} (f g : A -> nat) l : list_sum (map (fun a => f a + g a)%nat l) = (list_sum (map f l) + list_sum (map g l))%nat.
Proof. induction l; [cbn; lia|]. rewrite ?sum_cons. lia. Qed.
Lemma sum_le {A} (f g : A -> nat) l : (forall a, In a l -> f a <= g a)%nat -> (list_sum (map f l) <= list_sum (map g l))%nat.
Proof.
  induction l as [|a l IH]; intros H; [cbn; lia|]. rewrite !sum_cons.
  pose proof (H a (or_introl eq_refl)). specialize (IH (fun b Hb => H b (or_intror Hb))). lia.
Qed.
Lemma sum_scale {A} k (f : A -> nat) l : list_sum (map (fun a => k * f a)%nat l) = (k * list_sum (map f l))%nat.
Proof. induction l; [cbn; lia|]. rewrite ?sum_cons. lia. Qed.
Lemma sum_ext_in {A} (f g : A -> nat) l : (forall a, In a l -> f a = g a) -> list_sum (map f l) = list_sum (map g l).
Proof. intros H. f_equal. apply map_ext_in. exact H. Qed.
Lemma sum_le_at {A} (f g : A -> nat) l c k : (forall a, In a l -> f a <= g a)%nat -> In c l -> (f c + k <= g c)%nat ->
  (list_sum (map f l) + k <= list_sum (map g l))%nat.
Proof.
  induction l as [|a l IH]; intros H Hc Hk; [destruct Hc|]. rewrite !sum_cons.
  pose proof (sum_le f g l (fun b Hb => H b (or_intror Hb))) as S.
  pose proof (H a (or_introl eq_refl)) as Ha. destruct Hc as [->|Hc]; [lia|].
  specialize (IH (fun b Hb => H b (or_intror Hb)) Hc Hk). lia.
Qed.

Lemma sum_indicator (x : vec) L : NoDup L -> In x L ->
  list_sum (map (fun c => if vec_dec x c then 1 else 0)%nat L) = 1%nat.
Proof.
  induction 1 as [|a L Ha HN IH]; intros Hx; [destruct Hx|]. rewrite sum_cons. destruct (vec_dec x a) as [->|E].
  - assert (Z : forall l, ~ In a l -> list_sum (map (fun c => if vec_dec a c then 1 else 0)%nat l) = 0%nat).
    { induction l as [|b l IHl]; intros Hb; [reflexivity|]. rewrite sum_cons. destruct (vec_dec a b) as [->|_]; [exfalso; apply Hb; left; auto|].
      apply IHl. intros X. apply Hb. right. auto. }
    rewrite Z by auto. reflexivity.
  - destruct Hx as [->|Hx]; [contradiction|]. rewrite Nat.add_0_l. apply IH. auto.
Qed.

Lemma sum_members strata L idx : NoDup L -> (forall i, In i idx -> In (nth i strata []) L) ->
  list_sum (map (fun c => members strata c idx) L) = length idx.
Proof.
  intros HN. induction idx as [|i idx IH]; intros H.
  - unfold members, countb. cbn [filter length]. clear. induction L as [|a L IH]; [reflexivity|]. rewrite sum_cons, IH. reflexivity.
  - rewrite (sum_ext_in _ (fun c => (if vec_dec (nth i strata []) c then 1 else 0) + members strata c idx)%nat)
      by (intros; apply members_cons).
    rewrite sum_add, sum_indicator; [|auto|apply H; left; auto]. cbn [length]. rewrite IH; [reflexivity|]. intros; apply H; right; auto.
Qed.

Lemma trained_everywhere ts n strata train test : length strata = n -> ts <= 1 / 2 ->
  fair_split ts n strata (train, test) ->
  forall i, (i < n)%nat -> exists j, In j train /\ nth j strata [] = nth i strata [].
Proof.
  intros Ls Ht (HN & HF & Hl & [Ht1 Ht2] & H) i Hi. cbn [fst snd] in *.
  set (nt := length train) in *.
  assert (Hh : (n <= 2 * nt + 1)%nat).
  { assert (X : INR (length test) < INR n / 2 + 1) by (pose proof (pos_INR n); nra).
    rewrite <- Hl, plus_INR in X. apply Nat.lt_succ_r. apply INR_lt. rewrite S_INR, <- Hl.
    rewrite !plus_INR, mult_INR. cbn [INR]. lra. }
  apply members_pos. destruct (Nat.eq_dec (members strata (nth i strata []) train) 0) as [E|E]; [exfalso|apply Nat.neq_0_lt_0; exact E].
  set (L := nodup vec_dec strata).
  set (size c := members strata c (seq 0 n)).
  set (got c := members strata c train).
  assert (HL : forall c, In c L <-> exists j, (j < n)%nat /\ nth j strata [] = c).
  { intros c. unfold L. rewrite nodup_In. split.
    - intros Hc. apply (In_nth _ _ []) in Hc as (j & Hj & Ej). exists j. split; [rewrite <- Ls; exact Hj|auto].
    - intros (j & Hj & <-). apply nth_In. rewrite <- Ls in Hj. exact Hj. }
  assert (NL : NoDup L) by apply NoDup_nodup.
  assert (Hc : forall c, In c L -> (2 <= size c)%nat /\
     (got c = size c * nt / n \/ got c = S (size c * nt / n))%nat /\
     (got c = S (size c * nt / n) -> (n - 1 <= (size c * nt) mod n)%nat)).
  { intros c Hc. apply HL in Hc as (j & Hj & <-). destruct (H j Hj) as (A1 & A2 & _).
    split; [exact A1|]. split; [exact A2|]. intros A3.
    destruct (H i Hi) as (B1 & B2 & B3). fold (got (nth i strata [])) in E.
    assert (E' : got (nth i strata []) = (size (nth i strata []) * nt / n)%nat).
    { destruct B2 as [B2|B2]; [exact B2|]. fold (got (nth i strata [])) in B2. rewrite B2 in E. discriminate. }
    specialize (B3 j Hj E' A3). fold (size (nth i strata [])) in B3, B1. fold (size (nth j strata [])) in B3.
    rewrite E' in E. apply Nat.div_small_iff in E; [|lia]. rewrite (Nat.mod_small _ _ E) in B3. nia. }
  assert (Hci : In (nth i strata []) L) by (apply HL; eauto).
  assert (Ei : (size (nth i strata []) * nt < n)%nat).
  { destruct (Hc _ Hci) as (_ & B2 & _). fold (got (nth i strata [])) in E. rewrite E in B2.
    destruct B2 as [B2|B2]; [|discriminate]. symmetry in B2. apply Nat.div_small_iff in B2; lia. }
  pose proof (proj1 (Hc _ Hci)) as Hi2.
  assert (S1 : list_sum (map size L) = n).
  { unfold size. rewrite sum_members; [apply seq_length|auto|]. intros j Hj. apply in_seq in Hj. apply HL. exists j. split; [lia|auto]. }
  assert (S2 : list_sum (map got L) = nt).
  { unfold got. rewrite sum_members; auto. intros j Hj. apply HL. exists j. split; auto.
    rewrite Forall_forall in HF. apply HF. apply in_or_app. left. auto. }
  set (extra c := (got c - size c * nt / n)%nat).
  (* n * sum extra = sum of remainders *)
  assert (S3 : (n * list_sum (map extra L) = list_sum (map (fun c => (size c * nt) mod n)%nat L))%nat).
  { assert (A : (list_sum (map (fun c => size c * nt / n)%nat L) + list_sum (map extra L) = nt)%nat).
    { rewrite <- sum_add. transitivity (list_sum (map got L)); [|exact S2]. apply sum_ext_in. intros c HcL. destruct (Hc c HcL) as (_ & [G|G] & _); unfold extra; rewrite G; generalize (size c * nt / n)%nat; intros; lia. }
    assert (B : (n * list_sum (map (fun c => size c * nt / n)%nat L) + list_sum (map (fun c => (size c * nt) mod n)%nat L) = n * nt)%nat).
    { rewrite <- sum_scale, <- sum_add.
      rewrite (sum_ext_in _ (fun c => nt * size c)%nat). { rewrite sum_scale, S1. lia. }
      intros c _. rewrite (Nat.mul_comm nt). symmetry. apply Nat.div_mod. lia. }
    nia. }
  assert (S4 : ((n - 1) * list_sum (map extra L) + (n - 1) <= list_sum (map (fun c => (size c * nt) mod n)%nat L))%nat).
  { rewrite <- sum_scale. apply (sum_le_at _ _ L (nth i strata [])); auto.
    - intros c HcL. destruct (Hc c HcL) as (_ & [G|G] & G3); unfold extra; rewrite G.
      + rewrite Nat.sub_diag. lia.
      + replace (S (size c * nt / n) - size c * nt / n)%nat with 1%nat by (generalize (size c * nt / n)%nat; intros; lia). rewrite Nat.mul_1_r. auto.
    - unfold extra. fold (got (nth i strata [])) in E. rewrite E, Nat.sub_0_l, (Nat.mod_small _ _ Ei). nia. }
  assert (S5 : (list_sum (map extra L) + 1 <= length L)%nat).
  { rewrite <- (map_length (fun _ => 1%nat) L) at 1. replace (length (map (fun _ : vec => 1%nat) L)) with (list_sum (map (fun _ : vec => 1%nat) L)) by (clear; induction L; [reflexivity|]; rewrite sum_cons; cbn [length map]; lia).
    apply (sum_le_at _ _ L (nth i strata [])); auto.
    - intros c HcL. destruct (Hc c HcL) as (_ & [G|G] & _); unfold extra; rewrite G; generalize (size c * nt / n)%nat; intros; lia.
    - unfold extra. fold (got (nth i strata [])) in E. rewrite E. lia. }
  assert (S6 : (2 * length L <= n)%nat).
  { rewrite <- S1. replace (2 * length L)%nat with (list_sum (map (fun _ : vec => 2%nat) L)) by (clear; induction L; [reflexivity|]; rewrite sum_cons; cbn [length]; lia).
    apply sum_le. intros c HcL. apply (Hc c HcL). }
  nia.
Qed.

(** the column of groups *)
Lemma where_group_sym labels : where_ (fun l => String.eqb l GROUP) labels = where_ (String.eqb GROUP) labels.
Proof. unfold where_. generalize 0%nat. induction labels as [|l ls IH]; intros k; cbn [where_from]; [reflexivity|]. rewrite String.eqb_sym, IH. reflexivity. Qed.

Lemma group_column labels : valid_labels labels -> exists g, where_ (String.eqb GROUP) labels = [g].
Proof. intros [_ [V _]]. rewrite <- count_occ_where in V. apply length_one in V. exact V. Qed.

Lemma group_strata labels x : wf_table x -> valid_labels labels -> length labels = t_cols x ->
  map (pick (where_ (fun l => String.eqb l GROUP) labels)) (t_rows x) = map (fun row => [group_of labels row]) (t_rows x) /\
  forallb (fun i => i <? t_cols x)%nat (where_ (fun l => String.eqb l GROUP) labels) = true.
Proof.
  intros W V L. destruct (group_column labels V) as [g Eg]. rewrite where_group_sym, Eg. split.
  - apply map_ext_in. intros row Hr. cbn [pick map]. f_equal. symmetry. apply labelled_nth; [|exact Eg].
    unfold wf_table in W. rewrite Forall_forall in W. rewrite L. auto.
  - apply (where_single _ _ _ EmptyString) in Eg as [Hg _]. cbn [forallb]. rewrite andb_true_r. apply Nat.ltb_lt. lia.
Qed.

Section Splits.
Variable stratified : Z -> R -> Z -> nat -> list vec -> res (list (list nat * list nat)).

Lemma splitE s x y : wf_table x -> valid_labels (sp_labels s) -> length (sp_labels s) = t_cols x ->
  split stratified s x y =
  if (negb (length (t_rows x) =? 0)%nat && (length y =? length (t_rows x))%nat)
  then stratified (sp_n s) (sp_test s) (sp_seed s) (length (t_rows x)) (map (fun row => [group_of (sp_labels s) row]) (t_rows x))
  else Err ValueError.
Proof.
  intros W V L. unfold split, check_X_y. destruct (group_strata _ _ W V L) as [-> ->].
  assert (E : (t_cols x =? 0)%nat = false).
  { apply Nat.eqb_neq. rewrite <- L. destruct (sp_labels s); [destruct V as (_ & V & _); discriminate|discriminate]. }
  rewrite E. cbn [negb]. rewrite andb_true_r. destruct (negb _ && _); reflexivity.
Qed.

Lemma split_same s x x' y y' : wf_table x -> wf_table x' -> valid_labels (sp_labels s) ->
  length (sp_labels s) = t_cols x -> length (sp_labels s) = t_cols x' ->
  map (group_of (sp_labels s)) (t_rows x) = map (group_of (sp_labels s)) (t_rows x') -> length y = length y' ->
  split stratified s x y = split stratified s x' y'.
Proof.
  intros W W' V L L' E Ly. rewrite !splitE by auto.
  assert (Ll : length (t_rows x) = length (t_rows x')) by (rewrite <- (map_length (group_of (sp_labels s))), E, map_length; auto).
  rewrite Ly, Ll.
  assert (Es : map (fun row => [group_of (sp_labels s) row]) (t_rows x) = map (fun row => [group_of (sp_labels s) row]) (t_rows x')).
  { rewrite <- (map_map (group_of (sp_labels s)) (fun a => [a])), E, map_map. reflexivity. }
  rewrite Es. reflexivity.
Qed.

Hypothesis F : fair stratified.

Lemma split_fair s x y splits : wf_table x -> valid_labels (sp_labels s) -> length (sp_labels s) = t_cols x ->
  split stratified s x y = Ok splits ->
  Z.of_nat (length splits) = sp_n s /\ t_rows x <> [] /\
  Forall (fair_split (sp_test s) (length (t_rows x)) (map (fun row => [group_of (sp_labels s) row]) (t_rows x))) splits.
Proof.
  intros W V L H. rewrite splitE in H by auto. destruct (_ && _) eqn:E; [|discriminate].
  destruct (F _ _ _ _ _ _ H (map_length _ _)) as [H1 H2]. split; [auto|]. split; [|auto].
  destruct (t_rows x); [discriminate E|discriminate].
Qed.

Lemma split_covers s x y splits train test : wf_table x -> valid_labels (sp_labels s) -> length (sp_labels s) = t_cols x ->
  sp_test s <= 1 / 2 -> split stratified s x y = Ok splits -> In (train, test) splits ->
  forall row, In row (t_rows x) -> exists row', In row' (t_rows (rows_at x train)) /\ group_of (sp_labels s) row' = group_of (sp_labels s) row.
Proof.
  intros W V L Ht H Hin row Hr. destruct (split_fair _ _ _ _ W V L H) as (_ & _ & Hf).
  rewrite Forall_forall in Hf. specialize (Hf _ Hin). apply (In_nth _ _ []) in Hr as (i & Hi & Er).
  set (strata := map (fun row => [group_of (sp_labels s) row]) (t_rows x)) in *.
  assert (S : forall j, (j < length (t_rows x))%nat -> nth j strata [] = [group_of (sp_labels s) (nth j (t_rows x) [])]).
  { intros j Hj. unfold strata. rewrite (nth_indep _ [] [group_of (sp_labels s) []]) by (rewrite map_length; auto).
    rewrite (map_nth (fun row => [group_of (sp_labels s) row])). reflexivity. }
  destruct (trained_everywhere _ _ strata _ _ (map_length _ _) Ht Hf i Hi) as (j & Hj & Ej).
  destruct Hf as (_ & HF & _). cbn [fst snd] in HF. rewrite Forall_forall in HF.
  assert (Hj' : (j < length (t_rows x))%nat) by (apply HF; apply in_or_app; left; auto).
  exists (nth j (t_rows x) []). split; [cbn [rows_at t_rows]; apply in_map_iff; eauto|].
  pose proof (eq_trans (eq_sym (S j Hj')) (eq_trans Ej (S i Hi))) as Ej'. injection Ej' as ->. rewrite Er. reflexivity.
Qed.
End Splits.

Lemma rows_at_wf x idx : wf_table x -> Forall (fun i => (i < length (t_rows x))%nat) idx -> wf_table (rows_at x idx).
Proof.
  unfold wf_table. rewrite !Forall_forall. intros W H row Hr. cbn [rows_at t_rows t_cols] in *.
  apply in_map_iff in Hr as (i & <- & Hi). apply W. apply nth_In. auto.
Qed.
Lemma rows_at_In x idx row : Forall (fun i => (i < length (t_rows x))%nat) idx -> In row (t_rows (rows_at x idx)) -> In row (t_rows x).
Proof.
  rewrite Forall_forall. intros H Hr. cbn [rows_at t_rows] in Hr. apply in_map_iff in Hr as (i & <- & Hi). apply nth_In. auto.
Qed.

(** the small group *)
Lemma small_group_missed ts train test : ts = 7 / 9 ->
  fair_split ts 9 (map (fun row => [group_of small_group_labels row]) (t_rows small_group_table)) (train, test) ->
  (forall j, In j train -> (2 <= j)%nat) /\ In 0%nat test.
Proof.
  intros -> (HN & HF & Hl & [H1 H2] & H). cbn [fst snd] in *.
  assert (L7 : length test = 7%nat).
  { assert (A : INR (length test) < INR 8) by (replace (INR 8) with 8 by (cbn; lra); replace (INR 9) with 9 in H1 by (cbn; lra); lra).
    assert (B : INR 7 <= INR (length test)) by (replace (INR 7) with 7 by (cbn; lra); replace (INR 9) with 9 in H2 by (cbn; lra); lra).
    apply INR_lt in A. apply INR_le in B. lia. }
  assert (L2 : length train = 2%nat) by lia.
  set (strata := map _ _) in *.
  assert (S0 : forall j, (j < 2)%nat -> @nth vec j strata [] = [0]) by (intros [|[|j]] Hj; [reflexivity|reflexivity|lia]).
  assert (S1 : forall j, (2 <= j < 9)%nat -> @nth vec j strata [] = [1]).
  { intros j Hj. destruct j as [|[|[|[|[|[|[|[|[|j]]]]]]]]]; try lia; reflexivity. }
  assert (D : [0] <> [1]) by (intros E; injection E; lra).
  assert (N0 : members strata [0] (seq 0 9) = 2%nat).
  { cbn [seq]. rewrite !members_cons. rewrite (S0 0%nat), (S0 1%nat), !S1 by lia.
    destruct (vec_dec [0] [0]); [|congruence]. destruct (vec_dec [1] [0]) as [E|_]; [congruence|]. reflexivity. }
  assert (N1 : members strata [1] (seq 0 9) = 7%nat).
  { cbn [seq]. rewrite !members_cons. rewrite (S0 0%nat), (S0 1%nat), !S1 by lia.
    destruct (vec_dec [1] [1]); [|congruence]. destruct (vec_dec [0] [1]) as [E|_]; [congruence|]. reflexivity. }
  assert (Hm : (members strata [0%R] train + members strata [1%R] train = 2)%nat).
  { rewrite <- L2. pose proof (sum_members strata [[0]; [1]] train) as SM. cbn [map list_sum fold_right] in SM.
    rewrite Nat.add_0_r in SM. apply SM.
    - constructor; [intros [E|[]]; congruence|]. constructor; [intros []|constructor].
    - intros i Hi. rewrite Forall_forall in HF. assert (i < 9)%nat by (apply HF; apply in_or_app; auto).
      destruct (Nat.lt_ge_cases i 2); [rewrite S0 by auto; left; auto|rewrite S1 by lia; right; left; auto]. }
  destruct (H 0%nat ltac:(lia)) as (_ & G0 & _).
  destruct (H 0%nat ltac:(lia)) as (_ & _ & Gm0). specialize (Gm0 2%nat ltac:(lia)).
  destruct (H 2%nat ltac:(lia)) as (_ & G1 & Gm).
  specialize (Gm 0%nat ltac:(lia)). rewrite (S0 0%nat) in G0, Gm, Gm0 by lia. rewrite (S1 2%nat) in G1, Gm, Gm0 by lia.
  rewrite N0, N1, L2 in *. change (2 * 2 / 9)%nat with 0%nat in *. change (7 * 2 / 9)%nat with 1%nat in *.
  change ((2 * 2) mod 9)%nat with 4%nat in *. change ((7 * 2) mod 9)%nat with 5%nat in *.
  assert (M0 : members strata [0] train = 0%nat).
  { destruct G0 as [G0|G0]; [exact G0|]. destruct G1 as [G1|G1]; [|lia]. specialize (Gm G1 G0). lia. }
  assert (T : forall j, In j train -> (2 <= j)%nat).
  { intros j Hj. destruct (Nat.lt_ge_cases j 2) as [C|C]; [|auto]. exfalso.
    assert (X : (0 < members strata [0%R] train)%nat) by (apply members_pos; exists j; auto). lia. }
  split; [exact T|].
  assert (P : incl (seq 0 9) (train ++ test)).
  { apply NoDup_length_incl; [exact HN|rewrite app_length, seq_length; lia|].
    intros i Hi. rewrite Forall_forall in HF. apply in_seq. specialize (HF i Hi). lia. }
  assert (X : In 0%nat (train ++ test)) by (apply P; apply in_seq; lia).
  apply in_app_or in X as [X|X]; [apply T in X; lia|exact X].
Qed.

Lemma one_split_fair ts strata tt : fair_split ts (length strata) strata tt -> fair (one_split ts strata tt).
Proof.
  intros H k ts' seed n strata' splits. unfold one_split. destruct (Z.eq_dec k 1) as [->|]; [|discriminate].
  destruct (Req_EM_T ts ts') as [<-|]; [|discriminate]. destruct (list_eq_dec vec_dec strata strata') as [<-|]; [|discriminate].
  intros E <-. injection E as <-. split; [reflexivity|]. constructor; [exact H|constructor].
Qed.
Lemma one_split_ok ts strata tt seed n : one_split ts strata tt 1 ts seed n strata = Ok [tt].
Proof.
  unfold one_split. destruct (Z.eq_dec 1 1); [|congruence]. destruct (Req_EM_T ts ts); [|congruence].
  destruct (list_eq_dec vec_dec strata strata); [reflexivity|congruence].
Qed.

Lemma small_group_split : fair_split (7 / 9) 9 (map (fun row => [group_of small_group_labels row]) (t_rows small_group_table))
  ([2; 3]%nat, [0; 1; 4; 5; 6; 7; 8]%nat).
Proof.
  unfold fair_split. cbn [fst snd app]. split; [repeat constructor; cbn; lia|]. split; [repeat constructor; lia|].
  split; [reflexivity|]. split; [cbn; lra|].
  set (strata := map _ _).
  assert (S0 : forall j, (j < 2)%nat -> @nth vec j strata [] = [0]) by (intros [|[|j]] Hj; [reflexivity|reflexivity|lia]).
  assert (S1 : forall j, (2 <= j < 9)%nat -> @nth vec j strata [] = [1]).
  { intros j Hj. destruct j as [|[|[|[|[|[|[|[|[|j]]]]]]]]]; try lia; reflexivity. }
  assert (D : [0] <> [1]) by (intros E; injection E; lra).
  assert (N0 : members strata [0] (seq 0 9) = 2%nat).
  { cbn [seq]. rewrite !members_cons. rewrite (S0 0%nat), (S0 1%nat), !S1 by lia.
    destruct (vec_dec [0] [0]); [|congruence]. destruct (vec_dec [1] [0]) as [E|_]; [congruence|]. reflexivity. }
  assert (N1 : members strata [1] (seq 0 9) = 7%nat).
  { cbn [seq]. rewrite !members_cons. rewrite (S0 0%nat), (S0 1%nat), !S1 by lia.
    destruct (vec_dec [1] [1]); [|congruence]. destruct (vec_dec [0] [1]) as [E|_]; [congruence|]. reflexivity. }
  assert (M0 : members strata [0] [2; 3]%nat = 0%nat).
  { rewrite !members_cons, !S1 by lia. destruct (vec_dec [1] [0]) as [E|_]; [congruence|]. reflexivity. }
  assert (M1 : members strata [1] [2; 3]%nat = 2%nat).
  { rewrite !members_cons, !S1 by lia. destruct (vec_dec [1] [1]); [|congruence]. reflexivity. }
  intros i Hi. cbn [length].
  assert (C : forall i, (i < 9)%nat -> @nth vec i strata [] = [0] \/ @nth vec i strata [] = [1]).
  { intros k Hk. destruct (Nat.lt_ge_cases k 2); [left; apply S0; auto|right; apply S1; lia]. }
  destruct (C i Hi) as [E|E]; rewrite E, ?N0, ?N1, ?M0, ?M1; (split; [lia|]); (split; [cbn; auto|]);
    intros j Hj; destruct (C j Hj) as [E'|E']; rewrite E', ?N0, ?N1, ?M0, ?M1; cbn; lia.
Qed.

Lemma twin_split : fair_split (1 / 2) 2 (map (fun row => [group_of ["group"; "fixed"; "random"; "variance"]%string row]) (t_rows twin_table))
  ([0]%nat, [1]%nat).
Proof.
  unfold fair_split. cbn [fst snd app]. split; [repeat constructor; cbn; lia|]. split; [repeat constructor; lia|].
  split; [reflexivity|]. split; [cbn; lra|].
  set (strata := map _ _).
  assert (S0 : forall j, (j < 2)%nat -> @nth vec j strata [] = [0]) by (intros [|[|j]] Hj; [reflexivity|reflexivity|lia]).
  assert (N0 : members strata [0] (seq 0 2) = 2%nat).
  { cbn [seq]. rewrite !members_cons. rewrite (S0 0%nat), (S0 1%nat) by lia.
    destruct (vec_dec [0] [0]); [|congruence]. reflexivity. }
  assert (M0 : members strata [0] [0]%nat = 1%nat).
  { rewrite !members_cons, !S0 by lia. destruct (vec_dec [0] [0]) as [_|E]; [|congruence]. reflexivity. }
  intros i Hi. cbn [length]. rewrite (S0 i Hi), N0, M0. split; [lia|]. split; [cbn; auto|]. intros j Hj. rewrite (S0 j Hj), N0, M0. cbn. lia.
Qed.
