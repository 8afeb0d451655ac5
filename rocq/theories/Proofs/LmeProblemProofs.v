(** Lemmas about index lists, grouping and the round trip of LME problems. *)
From Coq Require Import Sorted Permutation Lra.
From Verif.Base Require Import Py Vec Mat.
From Verif.Model Require Import LmeProblem LmePredict.
From Verif.Spec Require Import LmeSpec.
From Verif.Proofs Require Import VecFacts SolverProofs MatFacts LinearProofs.
Open Scope string_scope.
Open Scope list_scope.
Open Scope R_scope.

Lemma reqb_refl a : reqb a a = true.
Proof. apply reqb_true. reflexivity. Qed.

Lemma nth_map_lt {A B} (f : A -> B) l i d d' : (i < length l)%nat -> nth i (map f l) d = f (nth i l d').
Proof. intros H. rewrite (nth_indep _ d (f d')) by (rewrite map_length; auto). apply map_nth. Qed.

(** ** where_ *)
Section Where.
Context {A : Type}.
Implicit Types (p : A -> bool) (l : list A).

Lemma where_from_app i p l l' :
  where_from i p (l ++ l') = where_from i p l ++ where_from (i + length l) p l'.
Proof.
  revert i. induction l as [|a l IH]; intros i; simpl; [rewrite Nat.add_0_r; auto|].
  rewrite IH. rewrite Nat.add_succ_r. simpl. destruct (p a); auto.
Qed.
Lemma where_from_length i p l : length (where_from i p l) = countb p l.
Proof. unfold countb. revert i. induction l as [|a l IH]; intros i; simpl; auto. destruct (p a); simpl; rewrite IH; auto. Qed.
Lemma where_length p l : length (where_ p l) = countb p l.
Proof. apply where_from_length. Qed.
Lemma where_from_In i p l k d : In k (where_from i p l) <->
  (i <= k < i + length l)%nat /\ p (nth (k - i) l d) = true.
Proof.
  revert i. induction l as [|a l IH]; intros i; simpl; [split; [tauto|lia]|].
  assert (E : In k (where_from (S i) p l) <-> (S i <= k < S i + length l)%nat /\ p (nth (k - S i) l d) = true) by apply IH.
  destruct (p a) eqn:Ea; simpl; rewrite E.
  - split.
    + intros [->|[H1 H2]].
      * split; [lia|]. rewrite Nat.sub_diag. auto.
      * split; [lia|]. replace (k - i)%nat with (S (k - S i)) by lia. auto.
    + intros [H1 H2]. destruct (Nat.eq_dec i k); [auto|]. right. split; [lia|].
      replace (k - i)%nat with (S (k - S i)) in H2 by lia. auto.
  - split.
    + intros [H1 H2]. split; [lia|]. replace (k - i)%nat with (S (k - S i)) by lia. auto.
    + intros [H1 H2]. destruct (Nat.eq_dec i k).
      * subst. rewrite Nat.sub_diag in H2. congruence.
      * split; [lia|]. replace (k - i)%nat with (S (k - S i)) in H2 by lia. auto.
Qed.
Lemma where_In p l k d : In k (where_ p l) <-> (k < length l)%nat /\ p (nth k l d) = true.
Proof. unfold where_. rewrite (where_from_In 0 p l k d). rewrite Nat.sub_0_r. intuition lia. Qed.
Lemma where_from_sorted i p l : StronglySorted lt (where_from i p l).
Proof.
  revert i. induction l as [|a l IH]; intros i; simpl; [constructor|].
  destruct (p a); auto. constructor; auto. apply Forall_forall. intros k Hk.
  destruct l as [|b l]; [inversion Hk|]. apply (where_from_In (S i) p (b :: l) k b) in Hk. lia.
Qed.
Lemma where_sorted p l : StronglySorted lt (where_ p l).
Proof. apply where_from_sorted. Qed.
Lemma sorted_lt_NoDup is : StronglySorted lt is -> NoDup is.
Proof.
  induction 1; constructor; auto. rewrite Forall_forall in H0. intros Hin. apply H0 in Hin. lia.
Qed.
Lemma filter_where_from p d l pre : map (fun i => nth i (pre ++ l) d) (where_from (length pre) p l) = filter p l.
Proof.
  revert pre. induction l as [|a l IH]; intros pre; simpl; auto.
  assert (E : map (fun i => nth i (pre ++ a :: l) d) (where_from (S (length pre)) p l) = filter p l).
  { specialize (IH (pre ++ [a])). rewrite app_length in IH. simpl in IH.
    rewrite Nat.add_1_r in IH. rewrite <- app_assoc in IH. exact IH. }
  destruct (p a); simpl; rewrite E; auto. f_equal.
  rewrite app_nth2 by lia. rewrite Nat.sub_diag. reflexivity.
Qed.
Lemma filter_where p d l : filter p l = map (fun i => nth i l d) (where_ p l).
Proof. symmetry. apply (filter_where_from p d l []). Qed.
Lemma mask_select_where_from {B} p (d : B) l (y pre : list B) : length y = length l ->
  map (fun i => nth i (pre ++ y) d) (where_from (length pre) p l) = mask_select (map p l) y.
Proof.
  revert y pre. induction l as [|a l IH]; intros [|b y] pre H; simpl; try discriminate; auto.
  assert (E : map (fun i => nth i (pre ++ b :: y) d) (where_from (S (length pre)) p l) = mask_select (map p l) y).
  { specialize (IH y (pre ++ [b])). rewrite app_length in IH. simpl in IH.
    rewrite Nat.add_1_r in IH. rewrite <- app_assoc in IH. apply IH. simpl in H; lia. }
  destruct (p a); simpl; rewrite E; auto. f_equal.
  rewrite app_nth2 by lia. rewrite Nat.sub_diag. reflexivity.
Qed.
Lemma mask_select_where {B} p (d : B) l (y : list B) : length y = length l ->
  mask_select (map p l) y = map (fun i => nth i y d) (where_ p l).
Proof. intros H. symmetry. apply (mask_select_where_from p d l y []). auto. Qed.
Lemma nth_where pre a post p d : p a = true ->
  nth (countb p pre) (where_ p (pre ++ a :: post)) d = length pre.
Proof.
  intros H. unfold where_. rewrite where_from_app. rewrite app_nth2; rewrite where_from_length; [|lia].
  rewrite Nat.sub_diag. simpl. rewrite H. reflexivity.
Qed.
Lemma countb_app p l l' : countb p (l ++ l') = (countb p l + countb p l')%nat.
Proof. unfold countb. rewrite filter_app, app_length. reflexivity. Qed.
Lemma countb_cons p a l : countb p (a :: l) = (b2n (p a) + countb p l)%nat.
Proof. unfold countb, b2n. simpl. destruct (p a); reflexivity. Qed.
End Where.

Lemma where_single {A} (p : A -> bool) l k d : where_ p l = [k] ->
  (k < length l)%nat /\ p (nth k l d) = true /\ forall j, (j < length l)%nat -> p (nth j l d) = true -> j = k.
Proof.
  intros H. assert (Hk : In k (where_ p l)) by (rewrite H; left; auto).
  apply (where_In p l k d) in Hk as [H1 H2]. split; [auto|]. split; [auto|].
  intros j Hj Hp. assert (Hin : In j (where_ p l)) by (apply (where_In p l j d); auto).
  rewrite H in Hin. destruct Hin as [->|[]]; auto.
Qed.

(** ** unique_labels *)
Lemma insert_label_In a l b : In b (insert_label a l) <-> b = a \/ In b l.
Proof.
  induction l as [|c l IH]; simpl; [intuition|].
  destruct (rltb a c) eqn:E1; [simpl; intuition|].
  destruct (reqb a c) eqn:E2.
  - apply reqb_true in E2. subst. simpl. intuition.
  - simpl. rewrite IH. intuition.
Qed.
Lemma insert_label_sorted a l : StronglySorted Rlt l -> StronglySorted Rlt (insert_label a l).
Proof.
  induction 1 as [|c l Hs IH Hf]; simpl; [repeat constructor|].
  destruct (rltb a c) eqn:E1.
  - apply rltb_true in E1. constructor; [constructor; auto|]. constructor; auto.
    eapply Forall_impl; [|exact Hf]. simpl. intros; lra.
  - apply rltb_false in E1. destruct (reqb a c) eqn:E2.
    + constructor; auto.
    + constructor; auto. apply Forall_forall. intros b Hb. apply insert_label_In in Hb as [->|Hb].
      * assert (a <> c) by (intros ->; rewrite reqb_refl in E2; discriminate). lra.
      * rewrite Forall_forall in Hf. auto.
Qed.
Lemma unique_labels_spec l r : unique_labels l = Ok r ->
  StronglySorted Rlt r /\ (forall a, In a r <-> In a l) /\ forallb is_int l = true.
Proof.
  unfold unique_labels. intros H. apply rbind_inv in H as [u [G H]]. apply guard_inv in G.
  inversion H; subst r. clear H. split; [|split; auto].
  - clear. induction l; simpl; [constructor|]. apply insert_label_sorted; auto.
  - clear. induction l as [|b l IH]; simpl; [tauto|]. intros a. rewrite insert_label_In, IH. intuition.
Qed.
Lemma sorted_Rlt_NoDup l : StronglySorted Rlt l -> NoDup l.
Proof. induction 1; constructor; auto. rewrite Forall_forall in H0. intros Hin. apply H0 in Hin. lra. Qed.

(** ** argsort of a permutation *)
Definition le1 (a b : nat * nat) : Prop := (fst a <= fst b)%nat.
Lemma insert_pair_perm a l : Permutation (insert_pair a l) (a :: l).
Proof.
  induction l as [|b l IH]; simpl; [auto|]. destruct (fst a <=? fst b)%nat; auto.
  transitivity (b :: a :: l); [constructor; auto|constructor].
Qed.
Lemma insert_pair_sorted a l : StronglySorted le1 l -> StronglySorted le1 (insert_pair a l).
Proof.
  induction 1 as [|b l Hs IH Hf]; simpl; [repeat constructor|].
  destruct (fst a <=? fst b)%nat eqn:E.
  - apply Nat.leb_le in E. constructor; [constructor; auto|]. constructor; auto.
    eapply Forall_impl; [|exact Hf]. unfold le1. intros; lia.
  - apply Nat.leb_gt in E. constructor; auto. apply Forall_forall. intros c Hc.
    assert (Hc' : In c (a :: l)) by (eapply Permutation_in; [apply insert_pair_perm|auto]).
    rewrite Forall_forall in Hf. destruct Hc' as [->|Hc']; [unfold le1; lia|auto].
Qed.
Lemma isort_perm l : Permutation (fold_right insert_pair [] l) l.
Proof. induction l as [|a l IH]; simpl; auto. rewrite insert_pair_perm. auto. Qed.
Lemma isort_sorted l : StronglySorted le1 (fold_right insert_pair [] l).
Proof. induction l; simpl; [constructor|]. apply insert_pair_sorted; auto. Qed.
Lemma sorted_map_fst l : StronglySorted le1 l -> StronglySorted le (map fst l).
Proof. induction 1; simpl; constructor; auto. rewrite Forall_map. auto. Qed.
Lemma sorted_perm_eq (l l' : list nat) : StronglySorted le l -> StronglySorted le l' -> Permutation l l' -> l = l'.
Proof.
  revert l'. induction l as [|a l IH]; intros l' H1 H2 HP.
  - apply Permutation_nil in HP. auto.
  - destruct l' as [|b l']; [symmetry in HP; apply Permutation_nil in HP; discriminate|].
    inversion H1; subst. inversion H2; subst.
    assert (E : a = b).
    { assert (Ha : In a (b :: l')) by (eapply Permutation_in; [exact HP|left; auto]).
      assert (Hb : In b (a :: l)) by (eapply Permutation_in; [symmetry; exact HP|left; auto]).
      destruct Ha as [->|Ha]; auto. destruct Hb as [->|Hb]; auto.
      rewrite Forall_forall in H4, H6. specialize (H4 _ Hb). specialize (H6 _ Ha). lia. }
    subst b. f_equal. apply IH; auto. eapply Permutation_cons_inv; eauto.
Qed.
Lemma seq_sorted i n : StronglySorted le (seq i n).
Proof.
  revert i. induction n; intros i; simpl; [constructor|]. constructor; auto.
  apply Forall_forall. intros x Hx. apply in_seq in Hx. lia.
Qed.
Lemma combine_seq_In (l : list nat) i a k : In (a, k) (combine l (seq i (length l))) ->
  (i <= k)%nat /\ nth_error l (k - i) = Some a.
Proof.
  revert i. induction l as [|b l IH]; intros i H; simpl in H; [tauto|].
  destruct H as [H|H].
  - inversion H; subst. split; [lia|]. rewrite Nat.sub_diag. reflexivity.
  - apply IH in H as [H1 H2]. split; [lia|]. replace (k - i)%nat with (S (k - S i)) by lia. auto.
Qed.
Lemma argsort_nat_spec order n : Permutation order (seq 0 n) ->
  Forall2 (fun k i => nth_error order i = Some k) (seq 0 n) (argsort_nat order).
Proof.
  intros HP. unfold argsort_nat.
  set (s := fold_right insert_pair [] (combine order (seq 0 (length order)))).
  assert (P : Permutation s (combine order (seq 0 (length order)))) by apply isort_perm.
  assert (E : map fst s = seq 0 n).
  { apply sorted_perm_eq; [apply sorted_map_fst, isort_sorted|apply seq_sorted|].
    transitivity order; [|auto]. transitivity (map fst (combine order (seq 0 (length order)))).
    - apply Permutation_map; auto.
    - assert (Em : map fst (combine order (seq 0 (length order))) = order).
      { generalize 0%nat. clear. induction order as [|a l IH]; intros i; simpl; auto. rewrite IH; auto. }
      rewrite Em. auto. }
  rewrite <- E. assert (F : Forall (fun ak => nth_error order (snd ak) = Some (fst ak)) s).
  { apply Forall_forall. intros [a k] Hin. eapply Permutation_in in Hin; [|exact P].
    apply combine_seq_In in Hin as [_ H]. rewrite Nat.sub_0_r in H. auto. }
  clear - F. induction s as [|[a k] s IH]; simpl; constructor; inversion F; auto.
Qed.
Lemma take_rows_argsort {A} (f : nat -> A) order n : Permutation order (seq 0 n) ->
  take_rows (map f order) (argsort_nat order) = Ok (map f (seq 0 n)).
Proof.
  intros HP. unfold take_rows. apply sequence_ok.
  pose proof (argsort_nat_spec order n HP) as H. clear HP. revert H.
  generalize (argsort_nat order) (seq 0 n). intros is ks H. induction H; simpl; constructor; auto.
  rewrite (map_nth_error f _ _ H). reflexivity.
Qed.

(** ** grouping *)
Lemma flat_map_NoDup {A B} (f : A -> list B) l : NoDup l -> (forall a, In a l -> NoDup (f a)) ->
  (forall a b x, In a l -> In b l -> In x (f a) -> In x (f b) -> a = b) -> NoDup (flat_map f l).
Proof.
  induction 1 as [|a l Hn Hd IH]; intros H1 H2; simpl; [constructor|].
  assert (D : forall x, In x (f a) -> ~ In x (flat_map f l)).
  { intros x Hx Hc. apply in_flat_map in Hc as [b [Hb Hxb]].
    assert (E : a = b) by (apply (H2 a b x); auto; [left; auto|right; auto]). subst. auto. }
  assert (N : NoDup (f a)) by (apply H1; left; auto).
  assert (M : NoDup (flat_map f l)).
  { apply IH; [intros; apply H1; right; auto|]. intros; eapply H2; eauto; right; auto. }
  revert N M D. generalize (flat_map f l). intros m N M D. induction (f a) as [|x xs IHx]; simpl; auto.
  inversion N; subst. constructor.
  - intros Hin. apply in_app_iff in Hin as [Hin|Hin]; auto. apply (D x); auto. left; auto.
  - apply IHx; auto. intros y Hy. apply D. right; auto.
Qed.

Section Grouping.
Variables (rows : mat) (g : nat) (glabels : list R).
Hypothesis Hsorted : StronglySorted Rlt glabels.
Hypothesis Hin : forall a, In a glabels <-> In a (column rows g).

Definition grp (i : nat) : R := nth g (nth i rows []) 0.
Definition idx_of : list (list nat) := map (fun l => where_ (in_group g l) rows) glabels.

Lemma in_idx l i : In i (where_ (in_group g l) rows) <-> (i < length rows)%nat /\ grp i = l.
Proof.
  rewrite (where_In _ rows i []). unfold in_group, grp. split; intros [H1 H2]; split; auto.
  - apply reqb_true in H2. auto.
  - subst. apply reqb_refl.
Qed.
Lemma order_is_concat : flat_map (fun l => where_ (in_group g l) rows) glabels = concat idx_of.
Proof. apply flat_map_concat_map. Qed.
Lemma glabels_rows l : In l glabels <-> exists i, (i < length rows)%nat /\ grp i = l.
Proof.
  rewrite Hin. unfold column, grp. rewrite in_map_iff. split.
  - intros [row [E Hr]]. apply In_nth with (d := []) in Hr as [i [Hi E']]. exists i. subst. auto.
  - intros [i [Hi E]]. exists (nth i rows []). split; auto. apply nth_In; auto.
Qed.
Lemma order_perm : Permutation (concat idx_of) (seq 0 (length rows)).
Proof.
  rewrite <- order_is_concat. apply NoDup_Permutation.
  - apply flat_map_NoDup.
    + apply sorted_Rlt_NoDup; auto.
    + intros a _. apply sorted_lt_NoDup, where_sorted.
    + intros a b x _ _ Ha Hb. apply in_idx in Ha as [_ <-]. apply in_idx in Hb as [_ <-]. auto.
  - apply seq_NoDup.
  - intros i. rewrite in_flat_map, in_seq. split.
    + intros [l [_ H]]. apply in_idx in H. lia.
    + intros H. exists (grp i). split; [|apply in_idx; split; [lia|auto]].
      apply glabels_rows. exists i. split; [lia|auto].
Qed.
Lemma partition_holds : partition_of grp (length rows) glabels idx_of.
Proof.
  split; [auto|]. split; [apply glabels_rows|]. split; [|apply order_perm].
  unfold idx_of. clear. induction glabels; simpl; constructor; auto. split; [apply where_sorted|].
  intros i. apply in_idx.
Qed.
End Grouping.

(** ** feature rows *)
Lemma pick_role p labels row (pre_l : list string) pre_r : length pre_r = length pre_l -> length row = length labels ->
  map (fun i => nth i (pre_r ++ row) 0) (where_from (length pre_l) p labels) = role_values p labels row.
Proof.
  revert row pre_l pre_r. induction labels as [|l labels IH]; intros [|a row] pl prr H1 H2; simpl; try discriminate; auto.
  assert (E : map (fun i => nth i (prr ++ a :: row) 0) (where_from (S (length pl)) p labels) = role_values p labels row).
  { specialize (IH row (pl ++ [l]) (prr ++ [a])). rewrite !app_length in IH. simpl in IH.
    rewrite !Nat.add_1_r in IH. rewrite <- app_assoc in IH. apply IH; [congruence|]. simpl in H2; congruence. }
  destruct (p l); simpl; rewrite E; auto. f_equal. rewrite app_nth2 by lia. rewrite <- H1, Nat.sub_diag. auto.
Qed.
Lemma pick_where p labels row : length row = length labels -> pick (where_ p labels) row = role_values p labels row.
Proof. intros H. apply (pick_role p labels row [] []); auto. Qed.
Lemma feature_row_is p b labels row : length row = length labels ->
  feature_row b (where_ p labels) row = features_of p b labels row.
Proof. intros H. unfold feature_row, features_of. rewrite pick_where by auto. destruct b; reflexivity. Qed.
Lemma role_values_length p labels row : length row = length labels -> length (role_values p labels row) = countb p labels.
Proof.
  intros H. rewrite <- pick_where by auto. unfold pick. rewrite map_length. apply where_length.
Qed.
Lemma feature_row_length b idx row : length (feature_row b idx row) = (length idx + b2n b)%nat.
Proof. unfold feature_row, pick. destruct b; simpl; rewrite map_length; lia. Qed.
Lemma labelled_nth name labels row k : length row = length labels -> where_ (String.eqb name) labels = [k] ->
  labelled name labels row = nth k row 0.
Proof.
  intros HL H. destruct (where_single _ _ _ "" H) as [H1 [H2 H3]]. apply String.eqb_eq in H2.
  assert (G : forall labels row i, length row = length labels -> (i < length labels)%nat -> name = nth i labels "" ->
     (forall j, (j < i)%nat -> name <> nth j labels "") -> labelled name labels row = nth i row 0).
  { clear. induction labels as [|l labels IH]; intros [|a row] i HL Hi Hn Hf; simpl in *; try discriminate; try lia.
    destruct i as [|i].
    - destruct (string_dec name l); [auto|congruence].
    - destruct (string_dec name l) as [E|E]; [exfalso; apply (Hf 0%nat); auto; lia|].
      apply IH; auto; try lia. intros j Hj. apply (Hf (S j)). lia. }
  apply G; auto. intros j Hj E. assert (j = k); [|lia]. apply H3; [lia|]. apply String.eqb_eq; auto.
Qed.

(** ** from_x_y *)
Definition built (labels : list string) (x : table) (y : option vec) (ff fr : bool) (g v : nat)
    (glabels : list R) (fec rec : option (list string)) (wf wr : vec) : lme_problem :=
  let fidx := where_ is_fixed labels in
  let ridx := where_ is_random labels in
  let rows label := filter (in_group g label) (t_rows x) in
  {| pr_fixed := map (fun label => map (feature_row ff fidx) (rows label)) glabels;
     pr_random := map (fun label => map (feature_row fr ridx) (rows label)) glabels;
     pr_random_0d := false;
     pr_answers := option_map (fun y' => map (fun label =>
         mask_select (map (in_group g label) (t_rows x)) y') glabels) y;
     pr_obs_vars := map (fun label => column (rows label) v) glabels;
     pr_group_labels := glabels;
     pr_intercept := intercept_label_of ff fr;
     pr_labels := labels;
     pr_order := flat_map (fun label => where_ (in_group g label) (t_rows x)) glabels;
     pr_fe_columns := fec;
     pr_re_columns := rec;
     pr_fe_weights := Some wf;
     pr_re_weights := Some wr |}.

Lemma from_x_y_inv x0 y columns labels0 ff fr mf mr pr :
  from_x_y x0 y columns labels0 ff fr mf mr = Ok pr ->
  let labels := fst (default_labels x0 labels0) in
  let x := snd (default_labels x0 labels0) in
  exists g v glabels fec rec wf wr,
    (match y with Some y' => check_X_y x y' | None => Ok tt end) = Ok tt /\
    forallb known_label labels = true /\
    length labels = t_cols x /\
    where_ (String.eqb GROUP) labels = [g] /\
    where_ (String.eqb VARIANCE) labels = [v] /\
    forallb nonzero (column (t_rows x) v) = true /\
    unique_labels (column (t_rows x) g) = Ok glabels /\
    reg_weights mf mf columns (where_ is_fixed labels) (length (where_ is_fixed labels) + b2n ff) = Ok wf /\
    reg_weights mf mr columns (where_ is_random labels) (length (where_ is_random labels) + b2n fr) = Ok wr /\
    names_of columns (where_ is_fixed labels) = Ok fec /\
    names_of columns (where_ is_random labels) = Ok rec /\
    match columns with None | Some [] => True | Some cs => length cs = t_cols x end /\
    pr = built labels x y ff fr g v glabels fec rec wf wr.
Proof.
  unfold from_x_y. destruct (default_labels x0 labels0) as [labels x]. intros H. cbn [fst snd].
  apply rbind_inv in H as [u0 [A0 H]]. destruct u0. apply rbind_inv in H as [u1 [A1 H]]. apply guard_inv in A1.
  apply rbind_inv in H as [u2 [A2 H]]. apply guard_inv in A2. apply Nat.eqb_eq in A2.
  destruct (where_ (String.eqb GROUP) labels) as [|g [|]] eqn:Eg; try discriminate.
  destruct (where_ (String.eqb VARIANCE) labels) as [|v [|]] eqn:Ev; try discriminate.
  apply rbind_inv in H as [u3 [A3 H]]. apply guard_inv in A3.
  apply rbind_inv in H as [gl [A4 H]]. apply rbind_inv in H as [u5 [A5 H]].
  apply rbind_inv in H as [u6 [A6 H]]. apply rbind_inv in H as [wf [A7 H]].
  apply rbind_inv in H as [wr [A8 H]]. apply rbind_inv in H as [fec [A9 H]].
  apply rbind_inv in H as [rec [A10 H]]. apply Ok_inj in H.
  exists g, v, gl, fec, rec, wf, wr.
  split; [auto|]. split; [auto|]. split; [auto|]. split; [auto|]. split; [auto|]. split; [auto|].
  split; [auto|]. split; [auto|]. split; [auto|]. split; [auto|]. split; [auto|]. split; [|auto].
  destruct columns as [[|c cs]|]; auto. apply guard_inv in A5. apply Nat.eqb_eq in A5. auto.
Qed.

Lemma map_concat_map {A B} (f : A -> B) (ls : list (list A)) : concat (map (map f) ls) = map f (concat ls).
Proof. induction ls as [|l ls IH]; simpl; auto. rewrite map_app, IH. auto. Qed.

Section Built.
Variables (labels : list string) (x : table) (y : option vec) (ff fr : bool) (g v : nat)
  (glabels : list R) (fec rec : option (list string)) (wf wr : vec).
Hypothesis Hwf : wf_table x.
Hypothesis Hlen : length labels = t_cols x.
Hypothesis Hg : where_ (String.eqb GROUP) labels = [g].
Hypothesis Hv : where_ (String.eqb VARIANCE) labels = [v].
Hypothesis Hknown : forallb known_label labels = true.
Hypothesis Hu : unique_labels (column (t_rows x) g) = Ok glabels.
Hypothesis Hy : match y with Some y' => length y' = length (t_rows x) | None => True end.

Let rows := t_rows x.
Let pr := built labels x y ff fr g v glabels fec rec wf wr.
Let idx := idx_of rows g glabels.
Let row i : vec := nth i rows [].

Lemma row_len i : (i < length rows)%nat -> length (row i) = length labels.
Proof.
  intros H. rewrite Hlen. unfold wf_table in Hwf. rewrite Forall_forall in Hwf. apply Hwf. apply nth_In. auto.
Qed.
Lemma glabels_sorted : StronglySorted Rlt glabels.
Proof. apply unique_labels_spec in Hu. tauto. Qed.
Lemma glabels_in a : In a glabels <-> In a (column rows g).
Proof. apply unique_labels_spec in Hu. apply Hu. Qed.
Lemma idx_lt is i : In is idx -> In i is -> (i < length rows)%nat.
Proof.
  unfold idx, idx_of. rewrite in_map_iff. intros [l [<- _]] H. apply in_idx in H. tauto.
Qed.
Lemma grp_is_group_of i : (i < length rows)%nat -> grp rows g i = group_of labels (row i).
Proof.
  intros H. unfold grp, group_of. symmetry. apply labelled_nth; auto. apply row_len; auto.
Qed.
Lemma var_is_variance_of i : (i < length rows)%nat -> nth v (row i) 0 = variance_of labels (row i).
Proof. intros H. unfold variance_of. symmetry. apply labelled_nth; auto. apply row_len; auto. Qed.

Lemma built_order : pr_order pr = concat idx.
Proof. apply order_is_concat. Qed.
Lemma built_perm : Permutation (concat idx) (seq 0 (length rows)).
Proof. apply order_perm; [apply glabels_sorted|apply glabels_in]. Qed.
Lemma concat_idx_lt i : In i (concat idx) -> (i < length rows)%nat.
Proof. intros H. apply (Permutation_in _ built_perm) in H. apply in_seq in H. lia. Qed.
Lemma built_partition : partition_of (grp rows g) (length rows) glabels idx.
Proof. apply partition_holds; [apply glabels_sorted|apply glabels_in]. Qed.

Lemma filter_idx (f : vec -> vec) l : map f (filter (in_group g l) rows) = map (fun i => f (row i)) (where_ (in_group g l) rows).
Proof. rewrite (filter_where _ [] rows). rewrite map_map. reflexivity. Qed.
Lemma built_fixed : pr_fixed pr = map (map (fun i => features_of is_fixed ff labels (row i))) idx.
Proof.
  unfold pr, built, idx, idx_of. cbn [pr_fixed]. rewrite map_map. apply map_ext_in. intros l _.
  fold rows. rewrite filter_idx. apply map_ext_in. intros i Hi. apply in_idx in Hi as [Hi _].
  apply feature_row_is. apply row_len; auto.
Qed.
Lemma built_random : pr_random pr = map (map (fun i => features_of is_random fr labels (row i))) idx.
Proof.
  unfold pr, built, idx, idx_of. cbn [pr_random]. rewrite map_map. apply map_ext_in. intros l _.
  fold rows. rewrite filter_idx. apply map_ext_in. intros i Hi. apply in_idx in Hi as [Hi _].
  apply feature_row_is. apply row_len; auto.
Qed.
Lemma built_vars : pr_obs_vars pr = map (map (fun i => variance_of labels (row i))) idx.
Proof.
  unfold pr, built, idx, idx_of. cbn [pr_obs_vars]. rewrite map_map. apply map_ext_in. intros l _.
  fold rows. unfold column. rewrite (filter_where _ [] rows), map_map. apply map_ext_in. intros i Hi.
  apply in_idx in Hi as [Hi _]. apply var_is_variance_of; auto.
Qed.
Lemma built_answers y' : y = Some y' -> pr_answers pr = Some (map (map (fun i => nth i y' 0)) idx).
Proof.
  intros E. unfold pr, built, idx, idx_of. cbn [pr_answers]. rewrite E. cbn [option_map]. f_equal.
  rewrite map_map. apply map_ext_in. intros l _. rewrite E in Hy. apply mask_select_where. auto.
Qed.
Lemma built_sizes : groups_sizes pr = map (@length nat) idx.
Proof.
  unfold groups_sizes. rewrite built_fixed, map_map. apply map_ext. intros. apply map_length.
Qed.
Lemma list_sum_concat {A} (ls : list (list A)) : list_sum (map (@length A) ls) = length (concat ls).
Proof. induction ls as [|l ls IH]; simpl; auto. rewrite app_length, IH. auto. Qed.
Lemma built_num_obs : num_obs pr = length rows.
Proof.
  unfold num_obs. rewrite built_sizes, list_sum_concat. rewrite (Permutation_length built_perm). apply seq_length.
Qed.

(** round trip *)
Let ord := map row (concat idx).

Lemma ord_wf : wf_mat (length labels) ord.
Proof.
  unfold wf_mat, ord. rewrite Forall_map, Forall_forall. intros i Hi. apply row_len. apply concat_idx_lt; auto.
Qed.
Lemma groups_concat : concat (map2 (@repeat R) glabels (map (@length nat) idx)) = column ord g.
Proof.
  unfold column, ord. rewrite map_map.
  assert (H : Forall2 (fun l is => forall i, In i is -> nth g (row i) 0 = l) glabels idx).
  { unfold idx, idx_of. clear. induction glabels; simpl; constructor; auto. intros i Hi. apply in_idx in Hi. apply Hi. }
  clear - H. induction H as [|l is gl ids H HF IH]; simpl; auto. rewrite map_app. f_equal; [|auto].
  clear - H. induction is as [|i is IH]; simpl; auto. rewrite (H i) by (left; auto). f_equal. apply IH.
  intros j Hj. apply H. right; auto.
Qed.

Lemma take_column_is (a : mat) j (f : vec -> R) (h : vec -> vec) rs : a = map h rs ->
  (forall r, In r rs -> nth_error (h r) j = Some (f r)) -> take_column a j = Ok (map f rs).
Proof.
  intros -> H. unfold take_column. apply sequence_ok. clear - H. induction rs; simpl; constructor; auto.
  - rewrite H by (left; auto). auto.
  - apply IHrs. intros r Hr. apply H. right; auto.
Qed.
Lemma nth_error_feature_row b (p : string -> bool) pre l post r : p l = true -> length r = length (pre ++ l :: post) ->
  nth_error (feature_row b (where_ p (pre ++ l :: post)) r) (b2n b + countb p pre) = Some (nth (length pre) r 0).
Proof.
  intros Hp Hr.
  assert (E : nth_error (pick (where_ p (pre ++ l :: post)) r) (countb p pre) = Some (nth (length pre) r 0)).
  { unfold pick. rewrite (map_nth_error _ (countb p pre) (where_ p (pre ++ l :: post)) (d := length pre)); auto.
    rewrite (nth_error_nth' _ 0%nat).
    - f_equal. apply nth_where; auto.
    - rewrite where_length, countb_app, countb_cons, Hp. simpl. lia. }
  unfold feature_row. destruct b; simpl; auto.
Qed.

Lemma fill_columns_ok (rs : mat) : wf_mat (length labels) rs ->
  forall pre post, labels = pre ++ post ->
  fill_columns post (column rs g) (column rs v) (map (feature_row ff (where_ is_fixed labels)) rs)
     (map (feature_row fr (where_ is_random labels)) rs)
     (b2n ff + countb is_fixed pre) (b2n fr + countb is_random pre) =
  Ok (map (column rs) (seq (length pre) (length post))).
Proof.
  intros Hrs pre post. revert pre. induction post as [|l post IH]; intros pre E; [reflexivity|].
  assert (E' : labels = (pre ++ [l]) ++ post) by (rewrite <- app_assoc; auto).
  specialize (IH (pre ++ [l]) E'). rewrite !countb_app, !countb_cons in IH.
  assert (Lp : length (pre ++ [l]) = S (length pre)) by (rewrite app_length; simpl; lia).
  rewrite Lp in IH. clear Lp. change (countb is_fixed []) with 0%nat in IH. change (countb is_random []) with 0%nat in IH.
  assert (Hk : known_label l = true).
  { rewrite forallb_forall in Hknown. apply Hknown. rewrite E. apply in_app_iff. right; left; auto. }
  assert (Hcol : forall b p, p l = true ->
     take_column (map (feature_row b (where_ p labels)) rs) (b2n b + countb p pre) = Ok (column rs (length pre))).
  { intros b p Hp. unfold column. eapply take_column_is; [reflexivity|]. intros r Hr. rewrite E.
    apply nth_error_feature_row; auto. rewrite <- E. unfold wf_mat in Hrs. rewrite Forall_forall in Hrs. auto. }
  assert (Lg : l = GROUP -> g = length pre).
  { intros ->. destruct (where_single _ _ _ "" Hg) as [_ [_ U]]. symmetry. apply U.
    - rewrite E, app_length. simpl. lia.
    - rewrite E, app_nth2, Nat.sub_diag by lia. reflexivity. }
  assert (Lv : l = VARIANCE -> v = length pre).
  { intros ->. destruct (where_single _ _ _ "" Hv) as [_ [_ U]]. symmetry. apply U.
    - rewrite E, app_length. simpl. lia.
    - rewrite E, app_nth2, Nat.sub_diag by lia. reflexivity. }
  unfold known_label in Hk. apply has_key_In in Hk. simpl in Hk.
  cbn [length seq map].
  destruct Hk as [<-|[<-|[<-|[<-|[<-|[]]]]]]; cbn [fill_columns].
  - change (String.eqb GROUP GROUP) with true. cbv iota.
    change (b2n (is_fixed GROUP)) with 0%nat in IH. change (b2n (is_random GROUP)) with 0%nat in IH.
    rewrite !Nat.add_0_r in IH. rewrite IH. cbn [rbind]. rewrite Lg by auto. reflexivity.
  - change (String.eqb VARIANCE GROUP) with false. change (String.eqb VARIANCE FIXED) with false.
    change (String.eqb VARIANCE RANDOM) with false. change (String.eqb VARIANCE FIXED_RANDOM) with false.
    change (String.eqb VARIANCE VARIANCE) with true. cbv iota.
    change (b2n (is_fixed VARIANCE)) with 0%nat in IH. change (b2n (is_random VARIANCE)) with 0%nat in IH.
    rewrite !Nat.add_0_r in IH. rewrite IH. cbn [rbind]. rewrite Lv by auto. reflexivity.
  - change (String.eqb FIXED GROUP) with false. change (String.eqb FIXED FIXED) with true. cbv iota.
    change (b2n (is_fixed FIXED)) with 1%nat in IH. change (b2n (is_random FIXED)) with 0%nat in IH.
    rewrite !Nat.add_0_r in IH. rewrite Hcol by auto. cbn [rbind].
    replace (S (b2n ff + countb is_fixed pre)) with (b2n ff + (countb is_fixed pre + 1))%nat by lia.
    rewrite IH. reflexivity.
  - change (String.eqb RANDOM GROUP) with false. change (String.eqb RANDOM FIXED) with false.
    change (String.eqb RANDOM RANDOM) with true. cbv iota.
    change (b2n (is_fixed RANDOM)) with 0%nat in IH. change (b2n (is_random RANDOM)) with 1%nat in IH.
    rewrite !Nat.add_0_r in IH. rewrite Hcol by auto. cbn [rbind].
    replace (S (b2n fr + countb is_random pre)) with (b2n fr + (countb is_random pre + 1))%nat by lia.
    rewrite IH. reflexivity.
  - change (String.eqb FIXED_RANDOM GROUP) with false. change (String.eqb FIXED_RANDOM FIXED) with false.
    change (String.eqb FIXED_RANDOM RANDOM) with false. change (String.eqb FIXED_RANDOM FIXED_RANDOM) with true. cbv iota.
    change (b2n (is_fixed FIXED_RANDOM)) with 1%nat in IH. change (b2n (is_random FIXED_RANDOM)) with 1%nat in IH.
    rewrite !Nat.add_0_r in IH. rewrite Hcol by auto. cbn [rbind].
    replace (S (b2n ff + countb is_fixed pre)) with (b2n ff + (countb is_fixed pre + 1))%nat by lia.
    replace (S (b2n fr + countb is_random pre)) with (b2n fr + (countb is_random pre + 1))%nat by lia.
    rewrite IH. reflexivity.
Qed.
Lemma tr_tr (rs : mat) k : wf_mat k rs -> tr (length rs) (map (column rs) (seq 0 k)) = rs.
Proof.
  intros H. unfold tr. apply nth_ext with (d := []) (d' := []).
  { rewrite map_length, seq_length. auto. }
  intros i Hi. rewrite map_length, seq_length in Hi.
  rewrite (nth_map_lt _ _ _ _ 0%nat) by (rewrite seq_length; auto).
  rewrite seq_nth by auto. rewrite map_map. simpl.
  assert (L : length (nth i rs []) = k).
  { unfold wf_mat in H. rewrite Forall_forall in H. apply H. apply nth_In. auto. }
  rewrite (row_as_map (nth i rs []) k L) at 1. apply map_ext. intros j. unfold column.
  rewrite (nth_map_lt _ _ _ _ []) by auto. reflexivity.
Qed.
Lemma intercept_fixed : fixed_intercept (intercept_label_of ff fr) = ff.
Proof. destruct ff, fr; reflexivity. Qed.
Lemma intercept_random : random_intercept (intercept_label_of ff fr) = fr.
Proof. destruct ff, fr; reflexivity. Qed.

Lemma built_num_fixed : num_fixed pr = (countb is_fixed labels + b2n ff)%nat.
Proof. unfold num_fixed, pr, built. cbn [pr_labels pr_intercept]. rewrite intercept_fixed. auto. Qed.
Lemma built_num_random : num_random pr = (countb is_random labels + b2n fr)%nat.
Proof. unfold num_random, pr, built. cbn [pr_labels pr_intercept]. rewrite intercept_random. auto. Qed.

Lemma glabels_nonempty : rows <> [] -> glabels <> [].
Proof.
  intros H E. destruct rows as [|r rs] eqn:Er; [congruence|].
  assert (Hi : In (nth g r 0) glabels).
  { apply glabels_in. rewrite Er. left. reflexivity. }
  rewrite E in Hi. destruct Hi.
Qed.

Lemma feature_rows_ord b p : map (feature_row b (where_ p labels)) ord =
  concat (map (map (fun i => features_of p b labels (row i))) idx).
Proof.
  rewrite map_concat_map. unfold ord. rewrite map_map. apply map_ext_in. intros i Hi.
  apply feature_row_is. apply row_len. apply concat_idx_lt. auto.
Qed.

Lemma built_to_x_y y' : y = Some y' -> rows <> [] -> to_x_y pr = Ok (rows, y', labels).
Proof.
  intros Ey Hne. pose proof (glabels_nonempty Hne) as Hgl.
  assert (Lg : (length glabels =? 0)%nat = false) by (destruct glabels; [congruence|reflexivity]).
  unfold to_x_y. rewrite built_sizes. unfold groups_sizes.
  assert (L1 : length (pr_fixed pr) = length glabels) by (unfold pr, built; cbn; apply map_length).
  assert (L2 : length (pr_random pr) = length glabels) by (unfold pr, built; cbn; apply map_length).
  assert (L3 : length (pr_obs_vars pr) = length glabels) by (unfold pr, built; cbn; apply map_length).
  rewrite L1, L2, L3, Lg. change (pr_random_0d pr) with false. cbn [negb andb guard rbind].
  change (pr_group_labels pr) with glabels.
  assert (L4 : length (map (@length nat) idx) = length glabels) by (unfold idx, idx_of; rewrite !map_length; auto).
  rewrite L4, Nat.eqb_refl. cbn [guard rbind]. rewrite groups_concat.
  rewrite built_fixed, built_random. rewrite <- !feature_rows_ord.
  assert (EV : concat (pr_obs_vars pr) = column ord v).
  { rewrite built_vars, map_concat_map. unfold column, ord. rewrite map_map. apply map_ext_in. intros i Hi.
    symmetry. apply var_is_variance_of. apply concat_idx_lt. auto. }
  rewrite EV. change (pr_labels pr) with labels. change (pr_intercept pr) with (intercept_label_of ff fr).
  rewrite intercept_fixed, intercept_random.
  pose proof (fill_columns_ok ord ord_wf [] labels eq_refl) as F. cbn [length] in F.
  change (countb is_fixed []) with 0%nat in F. change (countb is_random []) with 0%nat in F.
  rewrite !Nat.add_0_r in F. rewrite F. cbn [rbind]. rewrite map_length.
  assert (G : forallb (fun c : vec => (length c =? length ord)%nat) (map (column ord) (seq 0 (length labels))) = true).
  { apply forallb_forall. intros c Hc. apply in_map_iff in Hc as [j [<- _]]. unfold column. rewrite map_length.
    apply Nat.eqb_refl. }
  change (list R) with vec. rewrite G. cbn [guard rbind]. rewrite tr_tr by apply ord_wf. rewrite built_order.
  unfold ord at 1. rewrite (take_rows_argsort row (concat idx) (length rows)) by apply built_perm. cbn [rbind].
  rewrite (built_answers y') by auto. rewrite map_concat_map.
  rewrite (take_rows_argsort (fun i => nth i y' 0) (concat idx) (length rows)) by apply built_perm. cbn [rbind].
  assert (M : forall {A} (l : list A) d n, length l = n -> map (fun i => nth i l d) (seq 0 n) = l).
  { clear. intros A l d n <-. induction l as [|a l IH]; simpl; auto. f_equal. rewrite <- seq_shift, map_map. auto. }
  rewrite Ey in Hy. apply f_equal. apply f_equal2; [apply f_equal2|reflexivity].
  - exact (M vec rows [] (length rows) eq_refl).
  - exact (M R y' 0 (length rows) Hy).
Qed.
End Built.
