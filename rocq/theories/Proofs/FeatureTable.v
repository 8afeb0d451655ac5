(** Tables with reordered columns. *)
From Coq Require Import Lra Permutation.
From Verif.Base Require Import Py Vec Mat.
From Verif.Model Require Import LmeProblem Regularizers LmeFit.
From Verif.Spec Require Import ColumnSpec InnerSpec FeatureTableSpec.
From Verif.Proofs Require Import VecFacts SolverProofs LmeProblemProofs ColumnCases L0LMEProofs.
Open Scope R_scope.

(** ** positions *)
Lemma nth_filter_rank {A} (f : A -> bool) d : forall l j, (j < length l)%nat -> f (nth j l d) = true ->
  nth (countb f (firstn j l)) (filter f l) d = nth j l d.
Proof.
  induction l as [|a l IH]; intros j Hj Hf; [simpl in Hj; lia|]. destruct j as [|j].
  - simpl in *. rewrite Hf. reflexivity.
  - cbn [nth firstn] in *. unfold countb in *. cbn [filter]. simpl in Hj. destruct (f a); cbn [length nth]; apply IH; auto; lia.
Qed.
Lemma countb_map {A B} (f : A -> B) (k : B -> bool) l : countb k (map f l) = countb (fun a => k (f a)) l.
Proof. unfold countb. induction l as [|a l IH]; [reflexivity|]. simpl. destruct (k (f a)); simpl; auto. Qed.
Lemma where_map {A B} (f : A -> B) (k : B -> bool) : forall l i, where_from i k (map f l) = where_from i (fun a => k (f a)) l.
Proof. induction l as [|a l IH]; intros i; [reflexivity|]. simpl. rewrite !IH. reflexivity. Qed.
Lemma where_seq {A} (k : A -> bool) d : forall l i, where_from i k l = filter (fun j => k (nth (j - i) l d)) (seq i (length l)).
Proof.
  induction l as [|a l IH]; intros i; [reflexivity|]. cbn [where_from length seq filter].
  assert (E : filter (fun j => k (nth (j - i) (a :: l) d)) (seq (S i) (length l)) = where_from (S i) k l).
  { rewrite (IH (S i)). apply filter_ext_in. intros j Hj. apply in_seq in Hj.
    replace (j - i)%nat with (S (j - S i)) by lia. reflexivity. }
  rewrite E, Nat.sub_diag. reflexivity.
Qed.
Lemma map_nth_self {A} (l : list A) d : map (fun i => nth i l d) (seq 0 (length l)) = l.
Proof.
  induction l as [|a l IH]; [reflexivity|]. cbn [length seq map nth]. f_equal. rewrite <- seq_shift, map_map. exact IH.
Qed.
Lemma nth_where_rank {A} (k : A -> bool) d l i : (i < length l)%nat -> k (nth i l d) = true ->
  nth (countb k (firstn i l)) (where_ k l) 0%nat = i.
Proof.
  intros Hi Hk. unfold where_. rewrite (where_seq k d).
  assert (E : countb k (firstn i l) = countb (fun j => k (nth (j - 0) l d)) (firstn i (seq 0 (length l)))).
  { rewrite <- (map_nth_self l d) at 1. rewrite firstn_map, countb_map. unfold countb. f_equal. apply filter_ext. intros j.
    rewrite Nat.sub_0_r. reflexivity. }
  rewrite E, (nth_filter_rank (fun j => k (nth (j - 0) l d)) 0%nat).
  - rewrite seq_nth; auto.
  - rewrite seq_length; auto.
  - rewrite seq_nth by auto. rewrite Nat.add_0_l, Nat.sub_0_r. exact Hk.
Qed.
Lemma rank_where {A} (k : A -> bool) : forall l pre,
  map (fun i => countb k (firstn i (pre ++ l))) (where_from (length pre) k l) = seq (countb k pre) (countb k l).
Proof.
  induction l as [|a l IH]; intros pre; [reflexivity|]. cbn [where_from].
  assert (E : where_from (S (length pre)) k l = where_from (length (pre ++ [a])) k l).
  { rewrite app_length, Nat.add_1_r. reflexivity. }
  specialize (IH (pre ++ [a])). rewrite <- app_assoc in IH. cbn [app] in IH.
  assert (C : countb k (pre ++ [a]) = (countb k pre + b2n (k a))%nat).
  { unfold countb. rewrite filter_app, app_length. simpl. destruct (k a); reflexivity. }
  rewrite E. rewrite C in IH. rewrite countb_cons. destruct (k a).
  - cbn [map b2n Nat.add length seq]. rewrite firstn_app, Nat.sub_diag, firstn_all. cbn [firstn]. rewrite app_nil_r. f_equal.
    cbn [b2n] in IH. rewrite Nat.add_1_r in IH. exact IH.
  - cbn [b2n] in IH. rewrite Nat.add_0_r in IH. exact IH.
Qed.
Lemma perm_filter {A} (f : A -> bool) l l' : Permutation l l' -> Permutation (filter f l) (filter f l').
Proof.
  induction 1; simpl; auto.
  - destruct (f x); auto.
  - destruct (f x), (f y); auto. apply perm_swap.
  - eapply Permutation_trans; eauto.
Qed.

Section Columns.
Variables (order : list nat) (labels : list string).
Hypothesis Ho : is_order (length labels) order.
Notation labels' := (reorder_labels order labels).
Notation lab i := (nth i labels EmptyString).

Lemma labels_len : length labels' = length labels.
Proof. unfold reorder_labels. rewrite map_length. apply (order_len _ _ Ho). Qed.
Lemma labels_perm : Permutation labels' labels.
Proof.
  unfold reorder_labels. apply (Permutation_trans (l' := map (fun i => lab i) (seq 0 (length labels)))).
  - apply Permutation_map. exact Ho.
  - apply Permutation_refl'. apply map_nth_self.
Qed.
Lemma nth_label j : (j < length labels)%nat -> nth j labels' EmptyString = lab (nth j order 0%nat).
Proof.
  intros Hj. unfold reorder_labels. apply (nth_map_lt (fun i => lab i)). rewrite (order_len _ _ Ho). exact Hj.
Qed.
Lemma order_lt j : (j < length labels)%nat -> (nth j order 0%nat < length labels)%nat.
Proof. intros Hj. apply (order_in _ _ Ho). apply nth_In. rewrite (order_len _ _ Ho). exact Hj. Qed.

Section Role.
Variable k : string -> bool.
Notation kept := (filter (fun i => k (lab i)) order).
Lemma places_perm : Permutation (map (rank k labels) kept) (seq 0 (countb k labels)).
Proof.
  eapply Permutation_trans; [apply Permutation_map, perm_filter; exact Ho|].
  pose proof (rank_where k labels []) as E. cbn [app length] in E. change (countb k []) with 0%nat in E. rewrite <- E.
  rewrite (where_seq k EmptyString). unfold rank. apply Permutation_refl'. f_equal. apply filter_ext. intros i.
  rewrite Nat.sub_0_r. reflexivity.
Qed.
Lemma role_is_order b : is_order (countb k labels + b2n b) (role_order k b labels order).
Proof.
  unfold role_order, is_order. destruct b; cbn [b2n]; rewrite ?Nat.add_0_r; [|exact places_perm].
  rewrite Nat.add_1_r. cbn [seq]. apply perm_skip. rewrite <- seq_shift. apply Permutation_map. exact places_perm.
Qed.
Lemma where_order : map (fun j => nth j order 0%nat) (where_ k labels') = kept.
Proof.
  unfold where_, reorder_labels. rewrite where_map. symmetry. apply (filter_where (fun i => k (lab i)) 0%nat order).
Qed.
Lemma pick_reorder row : length row = length labels ->
  pick (where_ k labels') (permute order row) = permute (map (rank k labels) kept) (pick (where_ k labels) row).
Proof.
  intros Hr. unfold permute at 2. rewrite map_map. unfold pick.
  assert (E : map (fun i => nth i (permute order row) 0) (where_ k labels')
            = map (fun i => nth i row 0) (map (fun j => nth j order 0%nat) (where_ k labels'))).
  { rewrite map_map. apply map_ext_in. intros j Hj. apply (where_In k labels' j EmptyString) in Hj as [Hj _].
    rewrite labels_len in Hj. unfold permute. apply (nth_map_lt (fun i => nth i row 0)). rewrite (order_len _ _ Ho). exact Hj. }
  rewrite E, where_order. apply map_ext_in. intros i Hi. apply filter_In in Hi as [Hi Hk].
  apply (order_in _ _ Ho) in Hi.
  rewrite (nth_map_lt (fun i => nth i row 0) (where_ k labels) _ 0 0%nat).
  - unfold rank. rewrite (nth_where_rank k EmptyString); auto.
  - rewrite where_length. unfold rank.
    assert (K : In i kept).
    { apply filter_In. split; [|exact Hk]. apply (Permutation_in _ (Permutation_sym Ho)), in_seq. lia. }
    pose proof (Permutation_in _ places_perm (in_map (rank k labels) _ i K)) as P. apply in_seq in P. unfold rank in P. lia.
Qed.
Lemma feature_row_reorder b row : length row = length labels ->
  feature_row b (where_ k labels') (permute order row) = permute (role_order k b labels order) (feature_row b (where_ k labels) row).
Proof.
  intros Hr. unfold feature_row, role_order. rewrite pick_reorder by auto. destruct b; [|reflexivity].
  unfold permute. cbn [map nth]. f_equal. rewrite !map_map. reflexivity.
Qed.
Lemma role_nth b j : (j < length labels)%nat -> k (nth j labels' EmptyString) = true ->
  nth (b2n b + rank k labels' j) (role_order k b labels order) 0%nat = (b2n b + rank k labels (nth j order 0%nat))%nat.
Proof.
  intros Hj Hk. rewrite nth_label in Hk by auto.
  assert (E : nth (rank k labels' j) (map (rank k labels) kept) 0%nat = rank k labels (nth j order 0%nat)).
  { unfold rank at 1, reorder_labels. rewrite firstn_map, countb_map.
    assert (L : (countb (fun i => k (lab i)) (firstn j order) < length kept)%nat).
    { assert (K : In (nth j order 0%nat) kept).
      { apply filter_In. split; auto. apply nth_In. rewrite (order_len _ _ Ho). auto. }
      rewrite <- (firstn_skipn j order) at 2. rewrite filter_app, app_length. unfold countb.
      assert (In (nth j order 0%nat) (filter (fun i => k (lab i)) (skipn j order))).
      { apply filter_In. split; auto. rewrite <- (Nat.add_0_r j) at 1. rewrite <- nth_skipn'. apply nth_In. rewrite skipn_length, (order_len _ _ Ho). lia. }
      destruct (filter (fun i => k (lab i)) (skipn j order)); [contradiction|]. simpl. lia. }
    rewrite (nth_map_lt (rank k labels) kept _ 0%nat 0%nat) by exact L.
    rewrite (nth_filter_rank (fun i => k (lab i)) 0%nat); auto. rewrite (order_len _ _ Ho). exact Hj. }
  unfold role_order. destruct b; cbn [b2n Nat.add]; [|exact E]. cbn [nth].
  destruct (Nat.lt_ge_cases (rank k labels' j) (length (map (rank k labels) kept))) as [L|L].
  - rewrite (nth_map_lt S _ _ 0%nat 0%nat) by exact L. rewrite E. reflexivity.
  - exfalso. rewrite (Permutation_length places_perm), seq_length in L. unfold rank in L.
    assert (P : (countb k (firstn j labels') < countb k labels')%nat).
    { unfold countb. rewrite <- (firstn_skipn j labels') at 2. rewrite filter_app, app_length.
      assert (In (nth j labels' EmptyString) (filter k (skipn j labels'))).
      { apply filter_In. split; [|rewrite nth_label by auto; exact Hk]. rewrite <- (Nat.add_0_r j) at 1. rewrite <- nth_skipn'. apply nth_In. rewrite skipn_length, labels_len. lia. }
      destruct (filter k (skipn j labels')); [contradiction|]. simpl. lia. }
    rewrite (countb_perm k _ _ labels_perm) in P. lia.
Qed.
End Role.
End Columns.
