(*HEAD
(** Properties C54-C56: predict and score of mixed-effects models (src/pysr3/lme/models.py). *)
From Coq Require Import Sorted Permutation.
From Verif.Base Require Import Py Vec Mat.
From Verif.Model Require Import LmeProblem LmePredict.
From Verif.Spec Require Import LmeSpec.
HEAD*)
From Coq Require Import Sorted Permutation Lra.
From Verif.Base Require Import Py Vec Mat.
From Verif.Model Require Import LmeProblem LmePredict.
From Verif.Spec Require Import LmeSpec.
From Verif.Proofs Require Import VecFacts SolverProofs MatFacts LinearProofs LmeProblemProofs LmeProblemMain LmeDataMain.
(*OPEN
Open Scope string_scope.
Open Scope list_scope.
Open Scope R_scope.
OPEN*)
Open Scope string_scope.
Open Scope list_scope.
Open Scope R_scope.

(** C54 *)
Lemma where_from_shift {A} (p : A -> bool) l i : where_from (S i) p l = map S (where_from i p l).
Proof. revert i. induction l as [|a l IH]; intros i; simpl; auto. destruct (p a); simpl; rewrite IH; auto. Qed.
Lemma take_rows_cons {A} (u : A) us idx : take_rows (u :: us) (map S idx) = take_rows us idx.
Proof. unfold take_rows. rewrite map_map. reflexivity. Qed.
Lemma where_nil {A} (p : A -> bool) l : (forall a, In a l -> p a = false) -> where_ p l = [].
Proof.
  unfold where_. generalize 0%nat. induction l as [|a l IH]; intros i H; simpl; auto.
  rewrite (H a) by (left; auto). apply IH. intros; apply H; right; auto.
Qed.

(** the rows of random effects selected for one label *)
Lemma selected_effects gl : forall us g, NoDup gl -> length us = length gl ->
  match find (fun lu : R * vec => if Req_EM_T (fst lu) g then true else false) (combine gl us) with
  | Some (_, u) => take_rows us (where_ (fun l => reqb l g) gl) = Ok [u] /\ In g gl
  | None => where_ (fun l => reqb l g) gl = [] /\ ~ In g gl
  end.
Proof.
  induction gl as [|l gl IH]; intros [|u us] g Hn HL; try discriminate; [split; auto|].
  inversion Hn as [|? ? Hl Hn']; subst. cbn [combine find fst]. unfold where_. cbn [where_from].
  destruct (Req_EM_T l g) as [E|E].
  - subst l. rewrite reqb_refl, where_from_shift. fold (where_ (fun l => reqb l g) gl).
    rewrite (where_nil _ gl); [|intros a Ha; apply reqb_false; congruence].
    split; [reflexivity|left; auto].
  - assert (E1 : reqb l g = false) by (apply reqb_false; auto). rewrite E1.
    rewrite where_from_shift. fold (where_ (fun l => reqb l g) gl). specialize (IH us g Hn' ltac:(simpl in HL; lia)).
    destruct (find _ (combine gl us)) as [[l' u']|]; destruct IH as [I1 I2].
    + rewrite take_rows_cons. split; [auto|right; auto].
    + rewrite I1. split; [reflexivity|]. intros [C|C]; auto.
Qed.

(** predictions of one group *)
Lemma predict_group_spec c q label x z y : wf_coef c -> (forall r, In r z -> length r = q) -> length x = length z ->
  predict_group c q label x z = Ok y ->
  y = map2 (fun a b => vdot a (cf_beta c) + vdot b (group_effects c q label)) x z.
Proof.
  intros [Hn HL] Hz Hxz H. unfold predict_group in H. unfold group_effects.
  pose proof (selected_effects (cf_group_labels c) (cf_us c) label Hn HL) as S.
  destruct (0 <? q)%nat eqn:Eq.
  - apply rbind_inv in H as [u [Hu H]]. apply rbind_inv in H as [t [Ht H]]. apply Ok_inj in H. subst y.
    apply guard_inv in Ht. apply Nat.eqb_eq in Ht. apply Nat.ltb_lt in Eq.
    destruct (find _ (combine (cf_group_labels c) (cf_us c))) as [[l' u']|]; destruct S as [S1 S2].
    + change (fun lu : R => reqb lu label) with (fun l : R => reqb l label) in S1.
      rewrite S1 in Hu. apply Ok_inj in Hu. subst u. cbn [concat]. rewrite app_nil_r.
      unfold mv, vadd. rewrite map2_map_l, map2_map_r. reflexivity.
    + rewrite S1 in Hu. cbn in Hu. apply Ok_inj in Hu. subst u. cbn in Ht. lia.
  - apply Ok_inj in H. subst y. apply Nat.ltb_ge in Eq. unfold mv.
    assert (Z : forall r, In r z -> r = []) by (intros r Hr; apply Hz in Hr; destruct r; auto; simpl in Hr; lia).
    clear - Z Hxz. revert z Z Hxz. induction x as [|a x IH]; intros [|b z] Z HL; try discriminate; auto.
    cbn [map map2]. rewrite (Z b) by (left; auto). rewrite <- IH; [|intros; apply Z; right; auto|simpl in HL; lia].
    f_equal. change (vdot [] _) with 0. lra.
Qed.

Lemma sequence_map2_concat {A B C} (f : A -> B -> res (list C)) (g : A -> B -> list C) xs ys r :
  (forall a b c, In b ys -> f a b = Ok c -> c = g a b) -> sequence (map2 f xs ys) = Ok r -> r = map2 g xs ys.
Proof.
  revert ys r. induction xs as [|x xs IH]; intros [|y ys] r Hf H; cbn [map2 sequence] in *; try (inversion H; auto; fail).
  destruct (f x y) as [c|] eqn:E; [|discriminate]. destruct (sequence (map2 f xs ys)) as [cs|] eqn:Es; [|discriminate].
  inversion H. f_equal; [eapply Hf; eauto; left; auto|]. apply IH; auto. intros; eapply Hf; eauto. right; auto.
Qed.

Lemma predict_order x labels ff fr c y : wf_table x -> wf_coef c ->
  predict (Some c) x (Some labels) ff fr = Ok y ->
  exists gl idx, partition_of (fun i => group_of labels (nth i (t_rows x) [])) (length (t_rows x)) gl idx /\
    y = map (fun i => row_prediction c labels ff fr (nth i (t_rows x) [])) (concat idx).
Proof.
  intros Hwf Hc H. unfold predict in H. apply rbind_inv in H as [u0 [_ H]]. apply rbind_inv in H as [pr [Hp H]].
  assert (LL : length labels = t_cols x).
  { apply from_x_y_inv in Hp. cbn [default_labels fst snd] in Hp.
    destruct Hp as [g [v [gl [fec [rec [wf [wr [A1 [A2 [A3 _]]]]]]]]]]. exact A3. }
  destruct (grouping_is_partition_lemma _ _ _ _ _ _ _ _ _ Hwf Hp) as [idx [P [Po [Pf [Pr _]]]]]. cbv zeta in P, Pf, Pr.
  exists (pr_group_labels pr), idx. split; [exact P|].
  unfold predict_problem in H. apply rbind_inv in H as [u1 [_ H]]. apply rbind_inv in H as [u2 [_ H]].
  apply rbind_inv in H as [ans [Ha H]].
  assert (Hy : y = concat ans) by (destruct ans; [discriminate|apply Ok_inj in H; auto]). subst y. clear H.
  assert (NR : num_random pr = (countb is_random labels + b2n fr)%nat).
  { apply from_x_y_inv in Hp. cbn [default_labels fst snd] in Hp.
    destruct Hp as [g [v [gl [fec [rec [wf [wr [A1 [A2 [A3 [A4 [A5 [A6 [A7 [W1 [W2 [N1 [N2 [A8 E]]]]]]]]]]]]]]]]]]].
    subst pr. unfold num_random, built. cbn [pr_labels pr_intercept]. rewrite label_random. reflexivity. }
  rewrite NR in Ha. set (q := (countb is_random labels + b2n fr)%nat) in *.
  set (row i := nth i (t_rows x) []) in *.
  assert (RL : forall is i, In is idx -> In i is -> length (row i) = length labels).
  { intros is i H1 H2. destruct P as [_ [_ [_ P4]]].
    assert (Hi : (i < length (t_rows x))%nat).
    { assert (X : In i (concat idx)) by (apply in_concat; eauto). apply (Permutation_in _ P4) in X. apply in_seq in X. lia. }
    unfold wf_table in Hwf. rewrite Forall_forall in Hwf. rewrite LL. apply Hwf. apply nth_In. auto. }
  assert (CB : combine (pr_fixed pr) (pr_random pr) =
               map (fun is => (map (fun i => features_of is_fixed ff labels (row i)) is,
                               map (fun i => features_of is_random fr labels (row i)) is)) idx).
  { rewrite Pf, Pr. clear. induction idx; cbn [map combine]; [auto|]. apply f_equal2; auto. }
  rewrite CB in Ha. rewrite map2_map_r in Ha. cbn [fst snd] in Ha.
  assert (ZL : forall i is, In is idx -> In i is -> length (features_of is_random fr labels (row i)) = q).
  { intros i is H1 H2. unfold features_of, q. rewrite app_length, role_values_length by (eapply RL; eauto). destruct fr; simpl; lia. }
  apply (sequence_map2_concat _ (fun label is => map (fun i => vdot (features_of is_fixed ff labels (row i)) (cf_beta c)
            + vdot (features_of is_random fr labels (row i)) (group_effects c q label)) is)) in Ha.
  - subst ans. destruct P as [_ [_ [P3 _]]]. clear - P3 ZL.
    induction P3 as [|l is gl ids [_ S] HF IH]; [reflexivity|]. cbn [map2 concat]. rewrite map_app.
    rewrite IH by (intros i is' H1 H2; apply (ZL i is'); [right|]; auto). apply f_equal2; [|reflexivity].
    apply map_ext_in. intros i Hi. unfold row_prediction. fold (row i).
    rewrite (ZL i is) by (auto; left; auto). apply S in Hi as [_ Hi]. fold (row i) in Hi. rewrite Hi. reflexivity.
  - intros label is y His Hy. apply predict_group_spec in Hy; auto.
    + rewrite Hy, map2_map_l, map2_map_r, map2_same. reflexivity.
    + intros r Hr. apply in_map_iff in Hr as [i [<- Hi]]. eapply ZL; eauto.
    + rewrite !map_length. reflexivity.
Qed.

(** rows already in group order *)
Lemma sorted_order (group : nat -> R) n gl idx : partition_of group n gl idx ->
  (forall i j, (i <= j)%nat -> (j < n)%nat -> group i <= group j) -> concat idx = seq 0 n.
Proof.
  intros [P1 [_ [P3 P4]]] Hs. apply sorted_perm_eq; auto; [|apply seq_sorted].
  clear P4. induction P3 as [|l is gl ids [S1 S2] HF IH]; [constructor|]. inversion P1 as [|? ? P1' P1l]; subst.
  specialize (IH P1'). cbn [concat].
  assert (LT : forall j, In j (concat ids) -> (j < n)%nat /\ l < group j).
  { intros j Hj. clear - HF P1l Hj. induction HF as [|l' is' gl' ids' [S1 S2] HF IH]; [destruct Hj|].
    inversion P1l; subst. cbn [concat] in Hj. apply in_app_iff in Hj as [Hj|Hj]; [|auto].
    apply S2 in Hj as [Hj <-]. auto. }
  assert (IN : forall i, In i is -> (i < n)%nat /\ group i = l) by (intros i; apply S2).
  clear S2. induction S1 as [|i is S1 IHs Hi]; [exact IH|]. cbn [app]. constructor.
  - apply IHs. intros; apply IN; right; auto.
  - apply Forall_app. split.
    + eapply Forall_impl; [|exact Hi]. simpl. intros; lia.
    + apply Forall_forall. intros j Hj. destruct (LT j Hj) as [J1 J2]. destruct (IN i (or_introl eq_refl)) as [I1 I2].
      destruct (le_lt_dec i j); auto. specialize (Hs j i ltac:(lia) I1). lra.
Qed.
Lemma sorted_nth l : StronglySorted Rle l -> forall i j, (i <= j)%nat -> (j < length l)%nat -> nth i l 0 <= nth j l 0.
Proof.
  induction 1 as [|a l H IH Hf]; intros i j Hij Hj; [simpl in Hj; lia|]. rewrite Forall_forall in Hf. simpl in Hj.
  destruct i as [|i], j as [|j]; simpl; try lia; [lra| |apply IH; lia].
  apply Hf. apply nth_In. lia.
Qed.
Lemma map_nth_seq {A} (l : list A) d : map (fun i => nth i l d) (seq 0 (length l)) = l.
Proof. induction l as [|a l IH]; simpl; auto. f_equal. rewrite <- seq_shift, map_map. auto. Qed.

Lemma partition_group_sorted (group : nat -> R) n gl idx : partition_of group n gl idx ->
  StronglySorted (fun i j => group i <= group j) (concat idx).
Proof.
  intros [P1 [_ [P3 _]]]. induction P3 as [|l is gl ids [S1 S2] HF IH]; [constructor|]. inversion P1 as [|? ? P1' P1l]; subst.
  cbn [concat]. specialize (IH P1').
  assert (LT : forall j, In j (concat ids) -> l < group j).
  { intros j Hj. clear - HF P1l Hj. induction HF as [|l' is' gl' ids' [S1 S2] HF IH]; [destruct Hj|].
    inversion P1l; subst. cbn [concat] in Hj. apply in_app_iff in Hj as [Hj|Hj]; [|auto]. apply S2 in Hj as [Hj <-]. auto. }
  assert (IN : forall i, In i is -> group i = l) by (intros i Hi; apply S2 in Hi; tauto). clear S1 S2.
  induction is as [|i is IHs]; [exact IH|]. cbn [app]. constructor; [apply IHs; intros; apply IN; right; auto|].
  apply Forall_forall. intros j Hj. rewrite (IN i) by (left; auto). apply in_app_iff in Hj as [Hj|Hj].
  - rewrite (IN j) by (right; auto). lra.
  - apply LT in Hj. lra.
Qed.

(*@ C54 (partial).  predict returns the right prediction for every row, but in the order of the groups;
    when the rows are already sorted by group the predictions are those of the rows. *)
Lemma predict_rows_partial_lemma :
  forall x labels ff fr c y, wf_table x -> wf_coef c -> predict (Some c) x (Some labels) ff fr = Ok y ->
  (exists order, Permutation order (seq 0 (length (t_rows x))) /\
     StronglySorted (fun i j => group_of labels (nth i (t_rows x) []) <= group_of labels (nth j (t_rows x) [])) order /\
     y = map (fun i => row_prediction c labels ff fr (nth i (t_rows x) [])) order) /\
  (sorted_by_group labels (t_rows x) -> y = map (row_prediction c labels ff fr) (t_rows x)).
Proof.
  intros x labels ff fr c y Hwf Hc H. destruct (predict_order x labels ff fr c y Hwf Hc H) as [gl [idx [P E]]].
  split.
  - exists (concat idx). split; [apply P|]. split; [apply (partition_group_sorted _ _ _ _ P)|exact E].
  - intros Hs. rewrite (sorted_order _ _ _ _ P) in E.
    + rewrite E, <- (map_map (fun i => nth i (t_rows x) []) (row_prediction c labels ff fr)).
      rewrite (map_nth_seq (t_rows x) []). reflexivity.
    + intros i j Hij Hj. pose proof (sorted_nth _ Hs i j Hij) as S. rewrite map_length in S. specialize (S Hj).
      unfold vec in S. rewrite !(nth_map_lt _ (t_rows x) _ 0 []) in S by lia. exact S.
Qed.

(** success *)
Lemma predict_total x labels ff fr c : wf_table x -> t_rows x <> [] -> valid_labels labels -> length labels = t_cols x ->
  Forall (fun row => variance_of labels row <> 0) (t_rows x) ->
  Forall (fun row => exists z, group_of labels row = IZR z) (t_rows x) ->
  wf_coef c -> length (cf_beta c) = (countb is_fixed labels + b2n ff)%nat ->
  Forall (fun u => length u = (countb is_random labels + b2n fr)%nat) (cf_us c) ->
  ((countb is_random labels + b2n fr)%nat = 0%nat \/ Forall (fun row => In (group_of labels row) (cf_group_labels c)) (t_rows x)) ->
  exists y, predict (Some c) x (Some labels) ff fr = Ok y.
Proof.
  intros Hwf Hne Hv HL Hz Hi Hc Hb Hu Hg.
  destruct (proj2 (from_x_y_accepts_iff_lemma x None labels ff fr Hwf)) as [pr Hp]; [auto|].
  unfold predict.
  assert (G1 : negb (length (t_rows x) =? 0)%nat && negb (t_cols x =? 0)%nat = true).
  { destruct (t_rows x); [congruence|]. rewrite <- HL. destruct labels; [destruct Hv as [_ [Hv _]]; discriminate|reflexivity]. }
  rewrite G1. cbn [guard rbind]. rewrite Hp. cbn [rbind]. unfold predict_problem.
  destruct (grouping_is_partition_lemma _ _ _ _ _ _ _ _ _ Hwf Hp) as [idx [P [Po [Pf [Pr _]]]]]. cbv zeta in P, Pf, Pr.
  assert (NN : num_fixed pr = (countb is_fixed labels + b2n ff)%nat /\ num_random pr = (countb is_random labels + b2n fr)%nat).
  { apply from_x_y_inv in Hp. cbn [default_labels fst snd] in Hp.
    destruct Hp as [g [v [gl [fec [rec [wf [wr [A1 [A2 [A3 [A4 [A5 [A6 [A7 [W1 [W2 [N1 [N2 [A8 E]]]]]]]]]]]]]]]]]]].
    subst pr. unfold num_fixed, num_random, built. cbn [pr_labels pr_intercept]. rewrite label_fixed, label_random. auto. }
  destruct NN as [NF NR]. rewrite NF, NR, Hb, Nat.eqb_refl. cbn [guard rbind].
  set (q := (countb is_random labels + b2n fr)%nat) in *.
  assert (GU : match cf_us c with [] => Ok tt | u :: _ => guard (q =? length u)%nat AssertionError end = Ok tt).
  { destruct (cf_us c) as [|u us]; auto. inversion Hu; subst. rewrite H1, Nat.eqb_refl. reflexivity. }
  rewrite GU. cbn [rbind].
  assert (ES : forall gl xz, (forall l, In l gl -> q = 0%nat \/ In l (cf_group_labels c)) -> exists r,
     sequence (map2 (fun label (xz : mat * mat) => predict_group c q label (fst xz) (snd xz)) gl xz) = Ok r /\
     length r = Nat.min (length gl) (length xz)).
  { induction gl as [|l gl IH]; intros [|a xz] Hl; try (eexists; split; [reflexivity|reflexivity]).
    destruct (IH xz) as [r [Er Lr]]; [intros; apply Hl; right; auto|]. cbn [map2 sequence]. rewrite Er.
    assert (E : exists y, predict_group c q l (fst a) (snd a) = Ok y).
    { unfold predict_group. destruct (0 <? q)%nat eqn:Eq; [|eauto]. apply Nat.ltb_lt in Eq.
      destruct (Hl l (or_introl eq_refl)) as [C|Hin]; [lia|]. destruct Hc as [C1 C2].
      pose proof (selected_effects (cf_group_labels c) (cf_us c) l C1 C2) as S.
      destruct (find _ (combine (cf_group_labels c) (cf_us c))) as [[l' u']|] eqn:Ef; destruct S as [S1 S2]; [|contradiction].
      rewrite S1. cbn [rbind concat]. rewrite app_nil_r. apply find_some in Ef as [Ef _]. apply in_combine_r in Ef.
      rewrite Forall_forall in Hu. rewrite (Hu u' Ef), Nat.eqb_refl. cbn [guard rbind]. eauto. }
    destruct E as [y ->]. cbn. eexists. split; [reflexivity|]. simpl. rewrite Lr. reflexivity. }
  destruct (ES (pr_group_labels pr) (combine (pr_fixed pr) (pr_random pr))) as [r [Er Lr]].
  { intros l Hl. destruct Hg as [Hg|Hg]; [left; auto|right]. apply P in Hl as [i [Hi' <-]]. rewrite Forall_forall in Hg.
    apply Hg. apply nth_In. auto. }
  rewrite Er. cbn [rbind]. destruct r as [|r0 rs]; [exfalso|eauto].
  rewrite Pf, Pr in Lr. rewrite combine_length, !map_length, Nat.min_id in Lr.
  assert (LI : length idx = length (pr_group_labels pr)).
  { destruct P as [_ [_ [P3 _]]]. clear - P3. induction P3; simpl; auto. }
  rewrite LI, Nat.min_id in Lr. destruct (pr_group_labels pr) eqn:EG; [|discriminate].
  destruct (t_rows x) as [|r0 rs] eqn:ER; [congruence|]. 
  assert (X : In (group_of labels r0) []).
  { apply P. exists 0%nat. split; [simpl; lia|reflexivity]. }
  destruct X.
Qed.

(*@ C54, C55 (partial).  predict succeeds on every valid table of the right width whose groups were all
    seen in training, and on every one for a model without random effects. *)
Lemma predict_succeeds_partial_lemma :
  forall x labels ff fr c, wf_table x -> t_rows x <> [] -> valid_labels labels -> length labels = t_cols x ->
  Forall (fun row => variance_of labels row <> 0) (t_rows x) ->
  Forall (fun row => exists z, group_of labels row = IZR z) (t_rows x) ->
  wf_coef c -> length (cf_beta c) = (countb is_fixed labels + b2n ff)%nat ->
  Forall (fun u => length u = (countb is_random labels + b2n fr)%nat) (cf_us c) ->
  ((countb is_random labels + b2n fr)%nat = 0%nat \/ Forall (fun row => In (group_of labels row) (cf_group_labels c)) (t_rows x)) ->
  exists y, predict (Some c) x (Some labels) ff fr = Ok y.
Proof. intros. apply predict_total; auto. Qed.

Definition swapped_labels : list string := ["group"; "fixed"; "variance"].
Definition swapped_table : table := {| t_cols := 3; t_rows := [[1; 10; 1]; [0; 20; 1]] |}.
Definition swapped_coef : lme_coef := {| cf_beta := [1]; cf_us := [[]; []]; cf_group_labels := [0; 1] |}.
Lemma swapped_predict : predict (Some swapped_coef) swapped_table (Some swapped_labels) false false = Ok [20; 10].
Proof.
  assert (Hwf : wf_table swapped_table) by (repeat constructor).
  assert (Hc : wf_coef swapped_coef).
  { split; [|reflexivity]. constructor; [simpl; intros [C|[]]; lra|]. constructor; [simpl; tauto|constructor]. }
  assert (E : exists y, predict (Some swapped_coef) swapped_table (Some swapped_labels) false false = Ok y).
  { apply predict_total; auto; try discriminate.
    - split; [|split; reflexivity]. apply known_label_spec. reflexivity.
    - repeat constructor; unfold variance_of; simpl; lra.
    - constructor; [exists 1%Z; reflexivity|constructor; [exists 0%Z; reflexivity|constructor]].
    - repeat constructor. }
  destruct E as [y Hy]. destruct (predict_order _ _ _ _ _ _ Hwf Hc Hy) as [gl [idx [P E]]]. rewrite Hy. f_equal. rewrite E.
  assert (C : concat idx = [1; 0]%nat).
  { destruct P as [P1 [P2 [P3 P4]]]. cbn [length t_rows swapped_table] in *.
    assert (Perm : concat idx = [0; 1]%nat \/ concat idx = [1; 0]%nat).
    { apply Permutation_sym in P4. apply Permutation_length_2_inv in P4. exact P4. }
    destruct Perm as [Perm|Perm]; [exfalso|auto].
    set (group := fun i => group_of swapped_labels (nth i [[1; 10; 1]; [0; 20; 1]] [])) in *.
    assert (S : StronglySorted (fun i j => group i <= group j) (concat idx)).
    { apply (partition_group_sorted group 2 gl idx). split; [auto|]. split; [auto|]. split; auto. }
    rewrite Perm in S. inversion S as [|? ? _ F]; subst. inversion F as [|? ? F0]; subst. unfold group in F0. cbn in F0. lra. }
  rewrite C. cbn [map nth t_rows swapped_table]. unfold row_prediction, features_of. cbn.
  apply f_equal2; [|apply f_equal2; [|reflexivity]]; unfold vdot, vmul, vsum; simpl; lra.
Qed.

(*@ Predictions for two rows sorted by group. *)
Lemma ex_predict_lemma :
  let x := {| t_cols := 4; t_rows := [[0; 10; 3; 1]; [1; 20; 5; 1]] |} in
  let labels := ["group"; "fixed"; "random"; "variance"] in
  let c := {| cf_beta := [100; 1]; cf_us := [[2]; [7]]; cf_group_labels := [0; 1] |} in
  sorted_by_group labels (t_rows x) /\ predict (Some c) x (Some labels) true false = Ok [116; 155].
Proof.
  intros x labels c.
  assert (Hwf : wf_table x) by (repeat constructor).
  assert (Hc : wf_coef c).
  { split; [|reflexivity]. constructor; [simpl; intros [C|[]]; lra|]. constructor; [simpl; tauto|constructor]. }
  assert (S : sorted_by_group labels (t_rows x)).
  { unfold sorted_by_group. cbn. constructor; [constructor; [constructor|constructor]|]. constructor; [lra|constructor]. }
  split; auto.
  assert (E : exists y, predict (Some c) x (Some labels) true false = Ok y).
  { apply predict_total; auto; try discriminate.
    - split; [|split; reflexivity]. apply known_label_spec. reflexivity.
    - repeat constructor; unfold variance_of; simpl; lra.
    - constructor; [exists 0%Z; reflexivity|constructor; [exists 1%Z; reflexivity|constructor]].
    - constructor; [reflexivity|constructor; [reflexivity|constructor]].
    - right. constructor; [left; reflexivity|constructor; [right; left; reflexivity|constructor]]. }
  destruct E as [y Hy]. rewrite Hy. f_equal.
  destruct (predict_rows_partial_lemma _ _ _ _ _ _ Hwf Hc Hy) as [_ P]. rewrite (P S).
  cbn [map t_rows x]. unfold row_prediction, group_effects, features_of, group_of. cbn.
  destruct (Req_EM_T 0 0) as [_|C]; [|lra]. destruct (Req_EM_T 0 1) as [C|_]; [lra|].
  destruct (Req_EM_T 1 1) as [_|C]; [|lra].
  apply f_equal2; [|apply f_equal2; [|reflexivity]]; unfold vdot, vmul, vsum; simpl; lra.
Qed.

(*@ C54 (refuted).  Two rows whose groups are not in increasing order get each other's prediction. *)
Lemma predict_rows_refuted_lemma :
  exists x labels c y, wf_table x /\ wf_coef c /\ predict (Some c) x (Some labels) false false = Ok y /\
    y = [20; 10] /\ map (row_prediction c labels false false) (t_rows x) = [10; 20].
Proof.
  exists swapped_table, swapped_labels, swapped_coef, [20; 10]. split; [repeat constructor|]. split.
  { split; [|reflexivity]. constructor; [simpl; intros [C|[]]; lra|]. constructor; [simpl; tauto|constructor]. }
  split; [exact swapped_predict|]. split; [reflexivity|]. cbn [map t_rows swapped_table].
  unfold row_prediction, features_of. cbn.
  apply f_equal2; [|apply f_equal2; [|reflexivity]]; unfold vdot, vmul, vsum; simpl; lra.
Qed.

(** C55 *)
(*@ C55 (refuted).  A model with random effects never predicts for a table that contains a new group. *)
Lemma predict_new_group_refuted_lemma :
  forall x labels ff fr c row y, wf_table x -> wf_coef c -> In row (t_rows x) ->
  ~ In (group_of labels row) (cf_group_labels c) -> (0 < countb is_random labels + b2n fr)%nat ->
  predict (Some c) x (Some labels) ff fr <> Ok y.
Proof.
  intros x labels ff fr c row y Hwf Hc Hrow Hnew Hq H. unfold predict in H.
  apply rbind_inv in H as [u0 [_ H]]. apply rbind_inv in H as [pr [Hp H]].
  destruct (grouping_is_partition_lemma _ _ _ _ _ _ _ _ _ Hwf Hp) as [idx [P [Po [Pf [Pr _]]]]]. cbv zeta in P, Pf, Pr.
  assert (NR : num_random pr = (countb is_random labels + b2n fr)%nat).
  { apply from_x_y_inv in Hp. cbn [default_labels fst snd] in Hp.
    destruct Hp as [g [v [gl [fec [rec [wf [wr [A1 [A2 [A3 [A4 [A5 [A6 [A7 [W1 [W2 [N1 [N2 [A8 E]]]]]]]]]]]]]]]]]]].
    subst pr. unfold num_random, built. cbn [pr_labels pr_intercept]. rewrite label_random. reflexivity. }
  unfold predict_problem in H. apply rbind_inv in H as [u1 [_ H]]. apply rbind_inv in H as [u2 [_ H]].
  apply rbind_inv in H as [ans [Ha _]]. rewrite NR in Ha.
  assert (Hin : In (group_of labels row) (pr_group_labels pr)).
  { apply P. apply In_nth with (d := []) in Hrow as [i [Hi Ei]]. exists i. split; auto. rewrite Ei. auto. }
  assert (LI : length (combine (pr_fixed pr) (pr_random pr)) = length (pr_group_labels pr)).
  { rewrite Pf, Pr, combine_length, !map_length, Nat.min_id. destruct P as [_ [_ [P3 _]]]. clear - P3. induction P3; simpl; auto. }
  revert Ha LI Hin. generalize (pr_group_labels pr) (combine (pr_fixed pr) (pr_random pr)).
  clear P Po Pf Pr Hp. intros gl. revert ans. induction gl as [|l gl IH]; intros ans [|a xz] Ha LI Hin; try discriminate; [destruct Hin|].
  cbn [map2 sequence] in Ha. destruct (predict_group c _ l (fst a) (snd a)) as [y0|] eqn:E; [|discriminate].
  destruct (sequence _) as [ys|] eqn:Es; [|discriminate]. destruct Hin as [->|Hin].
  - unfold predict_group in E. apply Nat.ltb_lt in Hq as Hq'. rewrite Hq' in E. destruct Hc as [C1 C2].
    rewrite where_nil in E.
    + cbn in E. destruct (countb is_random labels + b2n fr)%nat; [lia|discriminate].
    + intros b Hb. apply reqb_false. intros ->. contradiction.
  - eapply IH; eauto.
Qed.

(** C56 *)
Lemma vsum_squares x : vsum (map (fun d => d ^ 2) x) = sqnorm x.
Proof. induction x as [|a x IH]; [reflexivity|]. rewrite sqnorm_cons, <- IH. cbn [map vsum fold_right]. unfold vsum. simpl. lra. Qed.

(*@ C56 (partial).  score is R^2 of what predict returns; for rows sorted by group it is R^2 of the
    predictions of the rows, so at most 1, and 1 exactly for perfect predictions. *)
Lemma score_is_r_squared_partial_lemma :
  forall x y labels ff fr c s, wf_table x -> wf_coef c -> score (Some c) x y (Some labels) ff fr = Ok s ->
  (exists pred, predict (Some c) x (Some labels) ff fr = Ok pred /\ s = r_squared y pred) /\
  s <= 1 /\
  (sorted_by_group labels (t_rows x) ->
   s = r_squared y (map (row_prediction c labels ff fr) (t_rows x)) /\
   (s = 1 <-> y = map (row_prediction c labels ff fr) (t_rows x))).
Proof.
  intros x y labels ff fr c s Hwf Hc H. unfold score in H. apply rbind_inv in H as [pred [Hp H]].
  apply rbind_inv in H as [u [Hu H]]. apply guard_inv in Hu. apply Nat.eqb_eq in Hu.
  rewrite vsum_squares in H.
  assert (EV : vsum (map (fun a => (a - mean y) ^ 2) y) = sqnorm (map (fun a => a - mean y) y)).
  { rewrite <- vsum_squares, map_map. reflexivity. }
  rewrite EV in H. destruct (reqb (sqnorm (map (fun a => a - mean y) y)) 0) eqn:E0; [discriminate|].
  apply reqb_false in E0. apply Ok_inj in H.
  pose proof (sqnorm_nonneg (map (fun a => a - mean y) y)) as VP. pose proof (sqnorm_nonneg (vsub y pred)) as UP.
  assert (POS : 0 < sqnorm (map (fun a => a - mean y) y)) by lra.
  assert (Q : 0 <= sqnorm (vsub y pred) / sqnorm (map (fun a => a - mean y) y)).
  { apply Rmult_le_pos; auto. left. apply Rinv_0_lt_compat. auto. }
  split; [exists pred; split; [auto|]; unfold r_squared; auto|]. split; [lra|].
  intros Hs. destruct (predict_rows_partial_lemma _ _ _ _ _ _ Hwf Hc Hp) as [_ S]. specialize (S Hs). rewrite <- S.
  split; [unfold r_squared; auto|]. split; intros E.
  - apply vsub_zero_eq; auto. apply Rmult_eq_reg_r with (/ sqnorm (map (fun a => a - mean y) y)).
    + rewrite Rmult_0_l. unfold Rdiv in H, Q. lra.
    + apply Rinv_neq_0_compat. lra.
  - rewrite E in H at 1. rewrite vsub_self, sqnorm_zeros in H. rewrite <- H. unfold Rdiv. lra.
Qed.

(*@ A perfect score for these predictions. *)
Lemma ex_score_lemma :
  exists s, score (Some {| cf_beta := [100; 1]; cf_us := [[2]; [7]]; cf_group_labels := [0; 1] |})
              {| t_cols := 4; t_rows := [[0; 10; 3; 1]; [1; 20; 5; 1]] |} [116; 155]
              (Some ["group"; "fixed"; "random"; "variance"]) true false = Ok s /\ s = 1.
Proof.
  eexists. unfold score. rewrite (proj2 ex_predict_lemma). cbn [rbind length Nat.eqb guard].
  assert (M : mean [116; 155] = 135.5) by (unfold mean, vsum; simpl; lra). rewrite M.
  assert (E : reqb (vsum (map (fun a => (a - 135.5) ^ 2) [116; 155])) 0 = false).
  { apply reqb_false. unfold vsum. simpl. lra. }
  rewrite E. split; [reflexivity|]. unfold vsum. simpl. lra.
Qed.

(*@ C56 (refuted).  A model that predicts every row perfectly scores -3 because its predictions come back in
    group order. *)
Lemma score_misaligned_refuted_lemma :
  exists x labels c y, wf_table x /\ wf_coef c /\ y = map (row_prediction c labels false false) (t_rows x) /\
    score (Some c) x y (Some labels) false false = Ok (-3).
Proof.
  exists swapped_table, swapped_labels, swapped_coef, [10; 20]. split; [repeat constructor|]. split.
  { split; [|reflexivity]. constructor; [simpl; intros [C|[]]; lra|]. constructor; [simpl; tauto|constructor]. }
  split.
  { cbn [map t_rows swapped_table]. unfold row_prediction, features_of. cbn.
    apply f_equal2; [|apply f_equal2; [|reflexivity]]; unfold vdot, vmul, vsum; simpl; lra. }
  unfold score. rewrite swapped_predict. cbn [rbind length Nat.eqb guard].
  assert (M : mean [10; 20] = 15) by (unfold mean, vsum; simpl; lra). rewrite M.
  assert (E : reqb (vsum (map (fun a => (a - 15) ^ 2) [10; 20])) 0 = false).
  { apply reqb_false. unfold vsum. simpl. lra. }
  rewrite E. f_equal. unfold vsum. simpl. lra.
Qed.
