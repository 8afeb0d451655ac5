(** Lemmas about the index map and the iterative routines of the mixed-model oracle. *)
From Coq Require Import Lra Psatz String.
From Verif.Base Require Import Py Vec Mat.
From Verif.Model Require Import LmeProblem Regularizers Solvers LmeInner.
From Verif.Spec Require Import SolverSpec InnerSpec.
From Verif.Proofs Require Import VecFacts MatFacts SolverProofs.
Open Scope list_scope.
Open Scope R_scope.

(** ** the index map *)
Lemma label_cases l :
  (l = FIXED /\ is_fixed l = true /\ is_random l = false) \/
  (l = RANDOM /\ is_fixed l = false /\ is_random l = true) \/
  (l = FIXED_RANDOM /\ is_fixed l = true /\ is_random l = true) \/
  (String.eqb l FIXED = false /\ String.eqb l RANDOM = false /\ String.eqb l FIXED_RANDOM = false /\
   is_fixed l = false /\ is_random l = false).
Proof.
  unfold is_fixed, is_random.
  destruct (String.eqb_spec l FIXED); [left; subst; auto|].
  destruct (String.eqb_spec l RANDOM); [right; left; subst; auto|].
  destruct (String.eqb_spec l FIXED_RANDOM); [right; right; left; subst; auto|].
  right; right; right; auto.
Qed.

Fixpoint pairing (labels : list string) (gc : nat) : list Z :=
  match labels with
  | [] => []
  | l :: labels' =>
      let rest := pairing labels' (gc + (if is_random l then 1 else 0)) in
      if is_fixed l then (if is_random l then Z.of_nat gc else (-1)%Z) :: rest else rest
  end.

Lemma mapi_set {A} (m : list A) (b : nat) (v : A) : (b < length m)%nat ->
  mapi (fun i a => if (i =? b)%nat then v else a) m = firstn b m ++ v :: skipn (S b) m.
Proof.
  unfold mapi. intros H.
  assert (G : forall m i b, (b < length m)%nat ->
    mapi_from i (fun j a => if (j =? i + b)%nat then v else a) m = firstn b m ++ v :: skipn (S b) m).
  { clear. induction m as [|a m IH]; intros i b H; simpl in H; [lia|].
    destruct b as [|b]; simpl.
    - rewrite Nat.add_0_r, Nat.eqb_refl. f_equal.
      assert (E : forall m k, (i < k)%nat -> mapi_from k (fun j a => if (j =? i)%nat then v else a) m = m).
      { clear. induction m as [|a m IH]; intros k Hk; simpl; [reflexivity|].
        destruct (Nat.eqb_spec k i); [lia|]. rewrite IH by lia. reflexivity. }
      apply E. lia.
    - destruct (Nat.eqb_spec i (i + S b)); [lia|]. f_equal.
      specialize (IH (S i) b ltac:(lia)).
      replace (i + S b)%nat with (S i + b)%nat by lia. exact IH. }
  exact (G m 0%nat b H).
Qed.

Lemma skipn_add {A} (l : list A) : forall a b, skipn a (skipn b l) = skipn (a + b) l.
Proof.
  induction l as [|x l IH]; intros a b; [rewrite !skipn_nil; reflexivity|].
  destruct b; [rewrite Nat.add_0_r; reflexivity|]. rewrite Nat.add_succ_r. cbn [skipn]. apply IH.
Qed.
Ltac labels_cbv := change (String.eqb FIXED FIXED) with true;
  change (String.eqb RANDOM FIXED) with false;
  change (String.eqb RANDOM RANDOM) with true;
  change (String.eqb FIXED_RANDOM FIXED) with false;
  change (String.eqb FIXED_RANDOM RANDOM) with false;
  change (String.eqb FIXED_RANDOM FIXED_RANDOM) with true;
  cbv iota.
Lemma fill_mapE labels : forall m b g, (b + countb is_fixed labels <= length m)%nat ->
  fill_map labels m b g = Ok (firstn b m ++ pairing labels g ++ skipn (b + countb is_fixed labels) m).
Proof.
  unfold countb. induction labels as [|l labels IH]; intros m b g H; cbn [fill_map pairing filter].
  - simpl. rewrite Nat.add_0_r, firstn_skipn. reflexivity.
  - destruct (label_cases l) as [[-> [F Rn]]|[[-> [F Rn]]|[[-> [F Rn]]|[E1 [E2 [E3 [F Rn]]]]]]];
      cbn [filter] in H; rewrite F in H |- *; rewrite Rn; cbn [length] in H |- *.
    + labels_cbv. assert (L : (b <? length m)%nat = true) by (apply Nat.ltb_lt; lia). rewrite L. cbn [rbind guard].
      rewrite mapi_set by lia. rewrite IH.
      2:{ rewrite app_length, firstn_length; cbn [length]. rewrite skipn_length. lia. }
      f_equal. replace (g + 0)%nat with g by lia.
      rewrite firstn_app, firstn_length, firstn_firstn, Nat.min_r by lia.
      replace (S b - Nat.min b (length m))%nat with 1%nat by lia. cbn [firstn].
      rewrite <- app_assoc. cbn [app]. f_equal. f_equal. f_equal.
      rewrite skipn_app, skipn_firstn_comm, firstn_length, Nat.min_l by lia.
      replace (b - (S b + length (filter is_fixed labels)))%nat with 0%nat by lia. cbn [firstn app].
      replace (S b + length (filter is_fixed labels) - b)%nat with (S (length (filter is_fixed labels))) by lia.
      rewrite skipn_cons, skipn_add. f_equal. lia.
    + labels_cbv. rewrite IH by lia. f_equal. replace (g + 1)%nat with (S g) by lia. reflexivity.
    + labels_cbv. assert (L : (b <? length m)%nat = true) by (apply Nat.ltb_lt; lia). rewrite L. cbn [rbind guard].
      rewrite mapi_set by lia. rewrite IH.
      2:{ rewrite app_length, firstn_length; cbn [length]. rewrite skipn_length. lia. }
      f_equal. replace (g + 1)%nat with (S g) by lia.
      rewrite firstn_app, firstn_length, firstn_firstn, Nat.min_r by lia.
      replace (S b - Nat.min b (length m))%nat with 1%nat by lia. cbn [firstn].
      rewrite <- app_assoc. cbn [app]. f_equal. f_equal. f_equal.
      rewrite skipn_app, skipn_firstn_comm, firstn_length, Nat.min_l by lia.
      replace (b - (S b + length (filter is_fixed labels)))%nat with 0%nat by lia. cbn [firstn app].
      replace (S b + length (filter is_fixed labels) - b)%nat with (S (length (filter is_fixed labels))) by lia.
      rewrite skipn_cons, skipn_add. f_equal. lia.
    + rewrite E1, E2, E3. rewrite IH by lia. replace (g + 0)%nat with g by lia. reflexivity.
Qed.

Lemma pairing_length labels : forall g, length (pairing labels g) = countb is_fixed labels.
Proof.
  unfold countb. induction labels as [|l labels IH]; intros g; simpl; [reflexivity|].
  destruct (is_fixed l); simpl; rewrite IH; reflexivity.
Qed.
Lemma pairing_nth labels : forall g c l, nth_error labels c = Some l -> is_fixed l = true ->
  nth_error (pairing labels g) (rank is_fixed labels c) =
  Some (if is_random l then Z.of_nat (g + rank is_random labels c) else (-1)%Z).
Proof.
  unfold rank, countb. induction labels as [|a labels IH]; intros g c l H F; [destruct c; discriminate|].
  destruct c as [|c]; cbn [nth_error firstn filter length pairing] in *.
  - inversion H; subst a. rewrite F. cbn [nth_error]. rewrite Nat.add_0_r. reflexivity.
  - specialize (IH (g + (if is_random a then 1 else 0))%nat c l H F).
    destruct (is_fixed a); cbn [length nth_error]; rewrite IH; destruct (is_random l); try reflexivity;
      f_equal; f_equal; destruct (is_random a); cbn [length]; lia.
Qed.

Lemma columns_fixed pr : countb is_fixed (columns_of pr) = num_fixed pr.
Proof.
  unfold columns_of, num_fixed, fixed_intercept, countb. destruct (pr_intercept pr) as [s|]; simpl; [|lia].
  destruct (is_fixed s); simpl; lia.
Qed.
Lemma columns_random pr : countb is_random (columns_of pr) = num_random pr.
Proof.
  unfold columns_of, num_random, random_intercept, countb. destruct (pr_intercept pr) as [s|]; simpl; [|lia].
  destruct (is_random s); simpl; lia.
Qed.
Lemma all_labelsE pr : all_labels pr = columns_of pr.
Proof. unfold all_labels, columns_of. destruct (pr_intercept pr); reflexivity. Qed.

Lemma beta_to_gamma_mapE pr : beta_to_gamma_map pr = Ok (pairing (columns_of pr) 0).
Proof.
  unfold beta_to_gamma_map. rewrite all_labelsE, fill_mapE by (rewrite repeat_length, columns_fixed; lia).
  rewrite columns_fixed. cbn [firstn app]. rewrite skipn_all2 by (rewrite repeat_length; lia).
  rewrite app_nil_r. reflexivity.
Qed.
(** every fixed effect comes from a column *)
Lemma rank_onto k labels i : (i < countb k labels)%nat ->
  exists c l, nth_error labels c = Some l /\ k l = true /\ rank k labels c = i.
Proof.
  unfold rank, countb. revert i. induction labels as [|a labels IH]; intros i H; simpl in H; [lia|].
  destruct (k a) eqn:E; simpl in H.
  - destruct i as [|i]; [exists 0%nat, a; auto|].
    destruct (IH i ltac:(lia)) as [c [l [H1 [H2 H3]]]].
    exists (S c), l. simpl. rewrite E. simpl. auto.
  - destruct (IH i H) as [c [l [H1 [H2 H3]]]]. exists (S c), l. simpl. rewrite E. auto.
Qed.
Lemma rank_lt k labels c l : nth_error labels c = Some l -> k l = true -> (rank k labels c < countb k labels)%nat.
Proof.
  unfold rank, countb. revert c. induction labels as [|a labels IH]; intros c H K; [destruct c; discriminate|].
  destruct c as [|c]; simpl in *.
  - inversion H; subst. rewrite K. simpl. lia.
  - specialize (IH c H K). destruct (k a); simpl; lia.
Qed.

(** ** packing *)
Lemma unpack_pack {A} (b g : list A) : x_to_beta_gamma (length b) (length g) (beta_gamma_to_x b g) = (b, g).
Proof.
  unfold x_to_beta_gamma, beta_gamma_to_x.
  rewrite firstn_app, Nat.sub_diag, firstn_all, skipn_app, Nat.sub_diag, skipn_all. simpl.
  rewrite firstn_all, app_nil_r. reflexivity.
Qed.
Lemma pack_unpack {A} p q (x : list A) : length x = (p + q)%nat ->
  let '(b, g) := x_to_beta_gamma p q x in
  beta_gamma_to_x b g = x /\ length b = p /\ length g = q.
Proof.
  intros H. unfold x_to_beta_gamma, beta_gamma_to_x.
  rewrite (firstn_all2 (n := q)) by (rewrite skipn_length; lia).
  rewrite firstn_skipn, firstn_length, skipn_length. repeat split; lia.
Qed.

(** ** vectors *)
Lemma vadd_app a b c d : length a = length c -> vadd (a ++ b) (c ++ d) = vadd a c ++ vadd b d.
Proof.
  revert c; induction a as [|x a IH]; destruct c; simpl; intros H; try discriminate; [reflexivity|].
  unfold vadd in *. simpl. f_equal. apply IH. lia.
Qed.
Lemma vscale_app c a b : vscale c (a ++ b) = vscale c a ++ vscale c b.
Proof. unfold vscale. apply map_app. Qed.
Lemma vneg_app a b : vneg (a ++ b) = vneg a ++ vneg b.
Proof. unfold vneg. apply map_app. Qed.
Lemma step_to_length x d a : length d = length x -> length (step_to x d a) = length x.
Proof. intros H. unfold step_to. rewrite vadd_length; rewrite vscale_length; lia. Qed.

(** ** the largest step *)
Lemma max_step_cons b m a x d0 d :
  max_step (b :: m) (a :: x) (d0 :: d) =
  if b && rltb d0 0 then Rmin (- a / d0) (max_step m x d) else max_step m x d.
Proof. unfold max_step. cbn [neg_ratios]. destruct (b && rltb d0 0); reflexivity. Qed.
Lemma ratio_nonneg a d : 0 <= a -> d < 0 -> 0 <= - a / d.
Proof.
  intros Ha Hd. replace (- a / d) with (a * / (- d)) by (field; lra).
  apply Rmult_le_pos; [lra|]. apply Rlt_le, Rinv_0_lt_compat. lra.
Qed.
Lemma ratio_pos a d : 0 < a -> d < 0 -> 0 < - a / d.
Proof.
  intros Ha Hd. replace (- a / d) with (a * / (- d)) by (field; lra).
  apply Rmult_lt_0_compat; [lra|]. apply Rinv_0_lt_compat. lra.
Qed.
Lemma ratio_le a d s : d < 0 -> (s <= - a / d <-> 0 <= a + s * d).
Proof.
  intros Hd. assert (E : - a / d * d = - a) by (field; lra). split; intros H.
  - assert (- a / d * d <= s * d) by (apply Rmult_le_compat_neg_l with (r := d) in H; lra). lra.
  - apply Rnot_lt_le. intros L. assert (s * d < - a / d * d); [|lra].
    rewrite (Rmult_comm s), (Rmult_comm (- a / d)). apply Rmult_lt_gt_compat_neg_l; assumption.
Qed.
Lemma ratio_lt a d s : d < 0 -> (s < - a / d <-> 0 < a + s * d).
Proof.
  intros Hd. assert (E : - a / d * d = - a) by (field; lra). split; intros H.
  - assert (- a / d * d < s * d); [|lra].
    rewrite (Rmult_comm s), (Rmult_comm (- a / d)). apply Rmult_lt_gt_compat_neg_l; assumption.
  - apply Rnot_le_lt. intros L.
    assert (s * d <= - a / d * d) by (apply Rmult_le_compat_neg_l with (r := d) in L; lra). lra.
Qed.
Lemma max_step_le1 m x d : max_step m x d <= 1.
Proof.
  unfold max_step. induction (neg_ratios m x d) as [|r l IH]; simpl; [lra|].
  eapply Rle_trans; [apply Rmin_r|exact IH].
Qed.

Ltac step_ind :=
  let m := fresh "m" in
  intros m; induction m as [|b m IH]; intros x d;
  [|destruct x as [|a x]; [|destruct d as [|d0 d]]].

Lemma max_step_nonneg : forall m x d, feasible m x -> 0 <= max_step m x d.
Proof.
  step_ind; intros H; try (unfold max_step; simpl; lra).
  rewrite max_step_cons. unfold feasible in *. simpl in H.
  destruct b; simpl in *.
  - inversion H; subst. destruct (rltb d0 0) eqn:E; [|apply IH; auto].
    apply rltb_true in E. apply Rmin_glb; [apply ratio_nonneg; auto | apply IH; auto].
  - apply IH; auto.
Qed.
Lemma max_step_pos : forall m x d, interior m x -> 0 < max_step m x d.
Proof.
  step_ind; intros H; try (unfold max_step; simpl; lra).
  rewrite max_step_cons. unfold interior in *. simpl in H.
  destruct b; simpl in *.
  - inversion H; subst. destruct (rltb d0 0) eqn:E; [|apply IH; auto].
    apply rltb_true in E. apply Rmin_glb_lt; [apply ratio_pos; auto | apply IH; auto].
  - apply IH; auto.
Qed.
(** the step is the largest one in [0, 1] that keeps the masked entries non-negative *)
Lemma max_step_feasible : forall m x d s, length d = length x -> feasible m x -> 0 <= s <= 1 ->
  (s <= max_step m x d <-> feasible m (step_to x d s)).
Proof.
  unfold feasible, nonneg, step_to, vadd, vscale.
  step_ind; intros s L H Hs; try discriminate; try (unfold max_step; simpl; split; [constructor|lra]).
  - rewrite max_step_cons. simpl in *. destruct b; cbn [andb].
    + inversion H as [|? ? Ha Hx]; subst. specialize (IH x d s ltac:(lia) Hx Hs).
      destruct (rltb d0 0) eqn:E.
      * apply rltb_true in E. pose proof (ratio_le a d0 s E) as Q. split; intros G.
        -- constructor; [apply Q | apply IH]; (eapply Rle_trans; [exact G|]); [apply Rmin_l | apply Rmin_r].
        -- inversion G; subst. apply Rmin_glb; [apply Q | apply IH]; auto.
      * apply rltb_false in E. split; intros G.
        -- constructor; [nra | apply IH; auto].
        -- inversion G; subst. apply IH; auto.
    + apply IH; auto.
Qed.
Lemma max_step_interior : forall m x d s, length d = length x -> interior m x -> 0 <= s < max_step m x d ->
  interior m (step_to x d s).
Proof.
  unfold interior, positive, step_to, vadd, vscale.
  step_ind; intros s L H Hs; try discriminate; [constructor | constructor |].
  - rewrite max_step_cons in Hs. simpl in *. destruct b; cbn [andb] in Hs.
    + inversion H as [|? ? Ha Hx]; subst. specialize (IH x d s ltac:(lia) Hx).
      destruct (rltb d0 0) eqn:E.
      * apply rltb_true in E. destruct Hs as [S0 S1]. pose proof (Rmin_l (- a / d0) (max_step m x d)).
        pose proof (Rmin_r (- a / d0) (max_step m x d)).
        constructor; [apply ratio_lt; lra | apply IH; lra].
      * apply rltb_false in E. constructor; [nra | apply IH; auto].
    + apply IH; auto; lia.
Qed.
(** where a step of 1 is not feasible, the largest one makes some entry zero *)
Lemma max_step_tight : forall m x d, length d = length x -> max_step m x d = 1 \/
  exists i, nth i m false = true /\ (i < length x)%nat /\ nth i d 0 < 0 /\
    nth i x 0 + max_step m x d * nth i d 0 = 0.
Proof.
  step_ind; intros L; try discriminate; try (left; unfold max_step; simpl; reflexivity).
  rewrite max_step_cons. simpl in L.
  assert (C : max_step m x d = 1 \/ exists i, nth i m false = true /\ (i < length x)%nat /\ nth i d 0 < 0 /\
              nth i x 0 + max_step m x d * nth i d 0 = 0) by (apply IH; lia).
  assert (D : max_step m x d = 1 \/ exists i, nth i (b :: m) false = true /\ (i < length (a :: x))%nat /\
              nth i (d0 :: d) 0 < 0 /\ nth i (a :: x) 0 + max_step m x d * nth i (d0 :: d) 0 = 0).
  { destruct C as [C|[i C]]; [left; auto | right; exists (S i); simpl; intuition lia]. }
  destruct b; cbn [andb]; auto. destruct (rltb d0 0) eqn:E; auto. apply rltb_true in E.
  destruct (Rle_dec (- a / d0) (max_step m x d)) as [Hle|Hle].
  - rewrite Rmin_left by exact Hle. right. exists 0%nat. simpl. repeat split; auto; try lia. field. lra.
  - rewrite Rmin_right by lra. exact D.
Qed.

(** ** the projected direction *)
Lemma project_descentE x g : project_direction (vneg g) x = projected_descent x g.
Proof.
  revert x; induction g as [|c g IH]; destruct x as [|a x]; try reflexivity.
  unfold project_direction, projected_descent, vneg in *. cbn [map map2]. f_equal; [|apply IH].
  unfold rltb. destruct (Rlt_dec (- c) 0), (Rlt_dec 0 c); try lra; cbn [andb]; destruct (reqb a 0); lra.
Qed.
Lemma project_length d x : length d = length x -> length (project_direction d x) = length x.
Proof. intros H. unfold project_direction. rewrite map2_length_eq; auto. Qed.
Lemma kill_zeros_nonneg x : nonneg (kill_zeros x).
Proof.
  unfold nonneg, kill_zeros. apply Forall_map, Forall_forall. intros a _. unfold rleb.
  destruct (Rle_dec a tiny); [lra|]. unfold tiny in *. assert (0 < / 10 ^ 18) by (apply Rinv_0_lt_compat, pow_lt; lra). lra.
Qed.
Lemma kill_zeros_length x : length (kill_zeros x) = length x.
Proof. apply map_length. Qed.
Lemma mask_all {A} (x : list A) : forall n, n = length x -> mask_select (repeat true n) x = x.
Proof. induction x; intros n ->; simpl; [reflexivity|]. rewrite IHx; auto. Qed.
Lemma feasible_all x n : n = length x -> feasible (repeat true n) x <-> nonneg x.
Proof. intros H. unfold feasible. rewrite mask_all; auto. reflexivity. Qed.
Lemma nonneg_app x y : nonneg (x ++ y) <-> nonneg x /\ nonneg y.
Proof. apply Forall_app. Qed.
Lemma positive_app x y : positive (x ++ y) <-> positive x /\ positive y.
Proof. apply Forall_app. Qed.
Lemma positive_nonneg x : positive x -> nonneg x.
Proof. apply Forall_impl. intros; lra. Qed.
Lemma ones_positive n : positive (ones n).
Proof. apply Forall_forall. intros a H. apply repeat_spec in H. subst; lra. Qed.
