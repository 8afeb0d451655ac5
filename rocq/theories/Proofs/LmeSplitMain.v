(*HEAD
(** Properties C106, C107: splits for cross-validation and helpers for random effects (src/pysr3/lme/problems.py). *)
From Verif.Base Require Import Py Vec Mat.
From Verif.Model Require Import LmeProblem LmePredict Regularizers Solvers LmeInner LmeFit LmeUse LmeBridge LmeSplit.
From Verif.Spec Require Import FitSpec LmeSpec SplitSpec.
HEAD*)
From Verif.Base Require Import Py Vec Mat.
From Verif.Model Require Import LmeProblem LmePredict Regularizers Solvers LmeInner LmeFit LmeUse LmeBridge LmeSplit.
From Verif.Proofs Require Import LmeUseMain SplitFit.
From Verif.Spec Require Import FitSpec LmeSpec SplitSpec.
From Verif.Proofs Require Import VecFacts SolverProofs LmeProblemProofs LmeProblemMain LmePredictMain SplitProofs.
From Coq Require Import Lra Lia Permutation.
(*OPEN
Open Scope list_scope.
Open Scope R_scope.
OPEN*)
Open Scope list_scope.
Open Scope R_scope.

(** what a fit on a table stores *)
Lemma fit_stores argsort cdf m coef x y labels beta0 gamma0 warm ff fr fe re co lg : wf_table x ->
  lme_fit argsort cdf m coef x y (Some labels) beta0 gamma0 warm ff fr fe re = Ok (co, lg) ->
  wf_coef (predictor co) /\ length (co_beta co) = (countb is_fixed labels + b2n ff)%nat /\
  Forall (fun u => length u = (countb is_random labels + b2n fr)%nat) (co_effects co) /\
  Forall (fun row => exists z, group_of labels row = IZR z) (t_rows x) /\
  (forall l, In l (co_labels co) <-> exists row, In row (t_rows x) /\ group_of labels row = l).
Proof.
  intros W H. apply fit_inv in H as (pr & Hp & Hf). destruct (fit_shape Hf) as (Lb & El & Le & Fe).
  destruct (grouping_is_partition_lemma _ _ _ _ _ _ _ _ _ W Hp) as (idx & P & _ & Pf & _). cbv zeta in P, Pf.
  assert (NN : num_fixed pr = (countb is_fixed labels + b2n ff)%nat /\ num_random pr = (countb is_random labels + b2n fr)%nat).
  { apply from_x_y_inv in Hp. cbn [default_labels fst snd] in Hp.
    destruct Hp as [g2 [v [gl [fec [rec [wf2 [wr2 [A1 [A2 [A3 [A4 [A5 [A6 [A7 [W1 [W2 [N1 [N2 [A8 E]]]]]]]]]]]]]]]]]]].
    subst pr. unfold num_fixed, num_random, built. cbn [pr_labels pr_intercept]. rewrite label_fixed, label_random. auto. }
  destruct NN as [NF NR]. rewrite NF in Lb. rewrite NR in Fe.
  assert (HI : Forall (fun row => exists z, group_of labels row = IZR z) (t_rows x)).
  { apply (from_x_y_accepts_iff_lemma x (Some y) labels ff fr W). eauto. }
  assert (LI : length idx = length (pr_group_labels pr)).
  { destruct P as [_ [_ [P3 _]]]. clear - P3. induction P3; simpl; auto. }
  repeat split; auto.
  - cbn [predictor cf_group_labels]. rewrite El. apply sorted_Rlt_NoDup. apply P.
  - cbn [predictor cf_us cf_group_labels]. rewrite Le, El, Pf, map_length. exact LI.
  - intros Hl. rewrite El in Hl. apply P in Hl as (i & Hi & <-). exists (nth i (t_rows x) []). split; [apply nth_In; auto|auto].
  - intros (row & Hr & <-). rewrite El. apply (In_nth _ _ []) in Hr as (i & Hi & <-). apply P. exists i. auto.
Qed.

(*@ C106.  The splits do not depend on the targets or the features: whatever sklearn's splitter does, two tables with
    the same column of groups and as many targets get the same splits. *)
Lemma splits_depend_on_groups_lemma :
  forall stratified s x x' y y', wf_table x -> wf_table x' -> valid_labels (sp_labels s) ->
  length (sp_labels s) = t_cols x -> length (sp_labels s) = t_cols x' ->
  map (group_of (sp_labels s)) (t_rows x) = map (group_of (sp_labels s)) (t_rows x') -> length y = length y' ->
  split stratified s x y = split stratified s x' y'.
Proof. exact split_same. Qed.

(*@ C106 (partial).  With a splitter that keeps sklearn's promises, and at most half of the rows for the test, every
    group of the table has training rows in every split.  So whatever model is fitted to the training rows, its predict
    accepts the test rows: one prediction for each. *)
Lemma splits_train_every_group_partial_lemma :
  forall stratified s x y splits, fair stratified -> wf_table x -> valid_labels (sp_labels s) ->
  length (sp_labels s) = t_cols x -> 0 < sp_test s <= 1 / 2 ->
  Forall (fun row => variance_of (sp_labels s) row <> 0) (t_rows x) ->
  split stratified s x y = Ok splits ->
  Z.of_nat (length splits) = get_n_splits s /\
  forall train test, In (train, test) splits ->
  (forall row, In row (t_rows x) -> exists row', In row' (t_rows (rows_at x train)) /\ group_of (sp_labels s) row' = group_of (sp_labels s) row) /\
  forall argsort cdf m coef beta0 gamma0 warm ff fr fe re co lg,
  lme_fit argsort cdf m coef (rows_at x train) (targets_at y train) (Some (sp_labels s)) beta0 gamma0 warm ff fr fe re = Ok (co, lg) ->
  exists yhat, predict (Some (predictor co)) (rows_at x test) (Some (sp_labels s)) ff fr = Ok yhat /\ length yhat = length test.
Proof.
  intros stratified s x y splits F W V L [Ht0 Ht] Hv H.
  destruct (split_fair stratified F _ _ _ _ W V L H) as (Hn & Hne & Hf). split; [exact Hn|].
  intros train test Hin. rewrite Forall_forall in Hf. pose proof (Hf _ Hin) as (_ & HF & Hl & [Ht1 Ht2] & _). cbn [fst snd] in HF, Hl, Ht2.
  apply Forall_app in HF as [HF1 HF2].
  pose proof (split_covers stratified F _ _ _ _ train test W V L Ht H Hin) as HC. split; [exact HC|].
  intros argsort cdf m coef beta0 gamma0 warm ff fr fe re co lg Hfit.
  destruct (fit_stores _ _ _ _ _ _ _ _ _ _ _ _ _ _ _ _ (rows_at_wf _ _ W HF1) Hfit) as (Wc & Lb & Fe & HI & HL).
  assert (Wt : wf_table (rows_at x test)) by (apply rows_at_wf; auto).
  assert (Hg : forall row, In row (t_rows (rows_at x test)) -> exists row', In row' (t_rows (rows_at x train)) /\ group_of (sp_labels s) row' = group_of (sp_labels s) row).
  { intros row Hr. apply HC. eapply rows_at_In; eauto. }
  assert (Hnt : t_rows (rows_at x test) <> []).
  { cbn [rows_at t_rows]. destruct test as [|i test]; [|discriminate]. exfalso. cbn in Ht2.
    assert (0 < INR (length (t_rows x))). { apply lt_0_INR. destruct (t_rows x); [congruence|cbn; lia]. }
    nra. }
  destruct (predict_succeeds_partial_lemma (rows_at x test) (sp_labels s) ff fr (predictor co) Wt Hnt V L) as [yhat Hy].
  - rewrite Forall_forall in *. intros row Hr. apply Hv. eapply rows_at_In; [|exact Hr]. rewrite Forall_forall. exact HF2.
  - rewrite Forall_forall in *. intros row Hr. destruct (Hg row Hr) as (row' & Hr' & <-). auto.
  - exact Wc.
  - exact Lb.
  - exact Fe.
  - right. rewrite Forall_forall. intros row Hr. apply HL. apply Hg. exact Hr.
  - exists yhat. split; [exact Hy|]. destruct (predict_rows_partial_lemma _ _ _ _ _ _ Wt Wc Hy) as [(order & Ho & _ & ->) _].
    rewrite map_length, (Permutation_length Ho), seq_length. cbn [rows_at t_rows]. apply map_length.
Qed.

(*@ A fair splitter, a table of two equal rows split in halves, and a fit to the training half. *)
Lemma ex_splits_train_every_group_lemma :
  exists stratified s splits train test co lg, fair stratified /\ wf_table twin_table /\ valid_labels (sp_labels s) /\
    length (sp_labels s) = t_cols twin_table /\ 0 < sp_test s <= 1 / 2 /\
    split stratified s twin_table [0; 0] = Ok splits /\ In (train, test) splits /\
    lme_fit (fun _ => []) (fun x => x) (flat_model PenNone None 0 0) None (rows_at twin_table train) (targets_at [0; 0] train)
      (Some (sp_labels s)) None None false false false None None = Ok (co, lg).
Proof.
  destruct ex_fit_then_predict_lemma as (W & co & lg & gs & Hfit & _).
  set (strata := map (fun row => [group_of flat_labels row]) (t_rows twin_table)).
  set (s := {| sp_labels := flat_labels; sp_seed := 42; sp_test := 1 / 2; sp_n := 1 |}).
  assert (V : valid_labels flat_labels) by (split; [repeat constructor; cbn; auto 6|split; reflexivity]).
  assert (Wt : wf_table twin_table) by (repeat constructor).
  exists (one_split (1 / 2) strata ([0]%nat, [1]%nat)), s, [([0]%nat, [1]%nat)], [0]%nat, [1]%nat, co, lg.
  split; [apply one_split_fair; exact twin_split|]. split; [exact Wt|]. split; [exact V|]. split; [reflexivity|].
  split; [cbn; lra|]. split.
  { rewrite splitE by auto. cbn [negb andb length t_rows twin_table Nat.eqb]. apply one_split_ok. }
  split; [left; reflexivity|]. exact Hfit.
Qed.

(*@ C106 (refuted).  With more rows for the test, a group can be in the test only: in every split that sklearn's promises
    allow of two rows in one group and seven in another, 7/9 of them for the test, the first group has no training row,
    and no model with random effects fitted to the training rows predicts the test rows. *)
Lemma splits_train_every_group_refuted_lemma :
  (exists stratified s y splits, fair stratified /\ sp_test s = 7 / 9 /\ sp_labels s = small_group_labels /\
     split stratified s small_group_table y = Ok splits /\ splits <> []) /\
  forall stratified s y splits, fair stratified -> sp_test s = 7 / 9 -> sp_labels s = small_group_labels ->
  split stratified s small_group_table y = Ok splits ->
  forall train test, In (train, test) splits ->
  (exists row, In row (t_rows (rows_at small_group_table test)) /\ group_of small_group_labels row = 0) /\
  (forall row, In row (t_rows (rows_at small_group_table train)) -> group_of small_group_labels row = 1) /\
  forall argsort cdf m coef beta0 gamma0 warm ff fr fe re co lg yhat,
  lme_fit argsort cdf m coef (rows_at small_group_table train) (targets_at y train) (Some small_group_labels) beta0 gamma0 warm ff fr fe re = Ok (co, lg) ->
  predict (Some (predictor co)) (rows_at small_group_table test) (Some small_group_labels) ff fr <> Ok yhat.
Proof.
  assert (V : valid_labels small_group_labels) by (split; [repeat constructor; cbn; auto 6|split; reflexivity]).
  assert (W : wf_table small_group_table) by (repeat constructor).
  split.
  - set (strata := map (fun row => [group_of small_group_labels row]) (t_rows small_group_table)).
    exists (one_split (7 / 9) strata ([2; 3]%nat, [0; 1; 4; 5; 6; 7; 8]%nat)),
      {| sp_labels := small_group_labels; sp_seed := 42; sp_test := 7 / 9; sp_n := 1 |},
      [0; 0; 0; 0; 0; 0; 0; 0; 0], [([2; 3]%nat, [0; 1; 4; 5; 6; 7; 8]%nat)].
    split; [apply one_split_fair; exact small_group_split|]. split; [reflexivity|]. split; [reflexivity|]. split; [|discriminate].
    rewrite splitE by auto. cbn [negb andb length t_rows small_group_table Nat.eqb]. apply one_split_ok.
  - intros stratified s y splits F Et El HS train test Hin.
    rewrite <- El in V. pose proof (f_equal (@length string) El) as Ll.
    destruct (split_fair _ F _ _ _ _ W V Ll HS) as (_ & _ & Hf). rewrite Forall_forall in Hf. specialize (Hf _ Hin).
    pose proof Hf as (_ & HF & _). cbn [fst snd] in HF. apply Forall_app in HF as [HF1 HF2].
    rewrite El in Hf. destruct (small_group_missed _ _ _ Et Hf) as [Htr Hte].
    assert (E0 : In [0; 1; 1] (t_rows (rows_at small_group_table test))).
    { cbn [rows_at t_rows]. apply in_map_iff. exists 0%nat. auto. }
    assert (E1 : forall row, In row (t_rows (rows_at small_group_table train)) -> group_of small_group_labels row = 1).
    { intros row Hr. cbn [rows_at t_rows] in Hr. apply in_map_iff in Hr as (j & <- & Hj).
      rewrite Forall_forall in HF1. specialize (HF1 j Hj). specialize (Htr j Hj). cbn [length t_rows small_group_table] in HF1.
      destruct j as [|[|[|[|[|[|[|[|[|j]]]]]]]]]; try lia; reflexivity. }
    split; [exists [0; 1; 1]; auto|]. split; [exact E1|].
    intros argsort cdf m coef beta0 gamma0 warm ff fr fe re co lg yhat Hfit.
    destruct (fit_stores _ _ _ _ _ _ _ _ _ _ _ _ _ _ _ _ (rows_at_wf _ _ W HF1) Hfit) as (Wc & _ & _ & _ & HL).
    apply (predict_new_group_refuted_lemma _ _ _ _ _ [0; 1; 1]); auto.
    + apply rows_at_wf; auto.
    + cbn [predictor cf_group_labels]. intros Hc. apply HL in Hc as (row & Hr & Er). rewrite (E1 row Hr) in Er. cbn in Er. lra.
    + cbn. lia.
Qed.

(** ** C107 *)
Lemma sequence_pairs {L} (us : list (L * vec)) (f : vec -> res vec) cs :
  sequence (map f (map snd us)) = Ok cs ->
  sequence (map (fun lu => let! c := f (snd lu) in Ok (fst lu, c)) us) = Ok (combine (map fst us) cs).
Proof.
  revert cs. induction us as [|[l u] us IH]; intros cs; cbn [map sequence fst snd].
  - intros E. injection E as <-. reflexivity.
  - destruct (f u) as [c|]; [|discriminate]. cbn [rbind]. destruct (sequence (map f (map snd us))) as [cs'|]; [|discriminate].
    intros E. injection E as <-. rewrite (IH cs' eq_refl). reflexivity.
Qed.
Lemma sequence_pairs_err {L} (us : list (L * vec)) (f : vec -> res vec) e :
  sequence (map f (map snd us)) = Err e ->
  sequence (map (fun lu => let! c := f (snd lu) in Ok (fst lu, c)) us) = Err e.
Proof.
  induction us as [|[l u] us IH]; cbn [map sequence fst snd]; [discriminate|].
  destruct (f u) as [c|]; cbn [rbind]; [|intros E; injection E as <-; reflexivity]. destruct (sequence (map f (map snd us))) as [cs'|] eqn:E; [discriminate|].
  intros E'. injection E' as <-. rewrite IH; reflexivity.
Qed.
Lemma group_coefficients_length labels beta u : forall fc rc c, group_coefficients labels beta u fc rc = Ok c -> length c = length labels.
Proof.
  induction labels as [|l labels IH]; intros fc rc c; cbn [group_coefficients]; [intros E; injection E as <-; reflexivity|].
  destruct (match l with Some s => String.eqb s FIXED | None => false end);
    [|destruct (match l with Some s => String.eqb s RANDOM | None => false end);
      [|destruct (match l with Some s => String.eqb s FIXED_RANDOM | None => false end)]]; intros H.
  - apply rbind_inv in H as (b & _ & H). apply rbind_inv in H as (rest & Hr & H). injection H as <-. cbn [length]. f_equal. eauto.
  - apply rbind_inv in H as (b & _ & H). apply rbind_inv in H as (rest & Hr & H). injection H as <-. cbn [length]. f_equal. eauto.
  - apply rbind_inv in H as (b & _ & H). apply rbind_inv in H as (a & _ & H).
    apply rbind_inv in H as (rest & Hr & H). injection H as <-. cbn [length]. f_equal. eauto.
  - apply rbind_inv in H as (rest & Hr & H). injection H as <-. cbn [length]. f_equal. eauto.
Qed.
Lemma per_group_length beta us labels cs : per_group_coefficients beta us labels = Ok cs ->
  length cs = length us /\ Forall (fun c => length c = length labels) cs.
Proof.
  unfold per_group_coefficients. revert cs. induction us as [|u us IH]; intros cs; cbn [map sequence].
  - intros E. injection E as <-. split; [reflexivity|constructor].
  - destruct (group_coefficients labels beta u 0 0) as [c|] eqn:Ec; [|discriminate].
    destruct (sequence _) as [cs'|] eqn:Es; [|discriminate]. intros E. injection E as <-.
    destruct (IH cs' eq_refl) as [L F]. split; [cbn; lia|]. constructor; [|exact F]. eapply group_coefficients_length; eauto.
Qed.
Lemma stack_rows n us : us <> [] -> Forall (fun u => length u = n) us -> stack us = Ok (A2 us).
Proof.
  intros Hn F. destruct us as [|u us]; [congruence|]. unfold stack.
  rewrite (proj2 (forallb_forall _ _)); [reflexivity|].
  rewrite Forall_forall in F. intros v Hv. apply Nat.eqb_eq. rewrite (F v Hv), (F u (or_introl eq_refl)). reflexivity.
Qed.

(*@ C107.  get_per_group_coefficients gives the same coefficients for arrays and for tuples, in the order of the
    groups: for tuples each with its label, for arrays stacked into a matrix; and it fails for both or for neither. *)
Lemma per_group_coefficients_formats_lemma :
  forall (L : Type) beta (us : list (L * vec)) labels, us <> [] ->
  match per_group_coefficients beta (map snd us) labels with
  | Ok cs => length cs = length us /\ Forall (fun c => length c = length labels) cs /\
             get_per_group_coefficients beta (ETuples us) labels = Ok (CTuples (combine (map fst us) cs)) /\
             @get_per_group_coefficients L beta (EArrays (map snd us)) labels = Ok (CArray (A2 cs))
  | Err e => get_per_group_coefficients beta (ETuples us) labels = Err e /\
             @get_per_group_coefficients L beta (EArrays (map snd us)) labels = Err e
  end.
Proof.
  intros L beta us labels Hn. destruct (per_group_coefficients beta (map snd us) labels) as [cs|e] eqn:E.
  - destruct (per_group_length _ _ _ _ E) as [Lc F]. rewrite map_length in Lc. split; [auto|]. split; [auto|]. split.
    + destruct us as [|a us]; [congruence|]. unfold get_per_group_coefficients.
      rewrite (sequence_pairs (a :: us) (fun u => group_coefficients labels beta u 0 0) cs E). reflexivity.
    + unfold get_per_group_coefficients. rewrite E. cbn [rbind]. rewrite (stack_rows (length labels)); [reflexivity| |auto].
      destruct cs; [|discriminate]. destruct us; [congruence|discriminate].
  - split.
    + destruct us as [|a us]; [congruence|]. unfold get_per_group_coefficients.
      rewrite (sequence_pairs_err (a :: us) (fun u => group_coefficients labels beta u 0 0) e E). reflexivity.
    + unfold get_per_group_coefficients. rewrite E. reflexivity.
Qed.

(*@ Two groups, one fixed and one random effect. *)
Lemma ex_per_group_coefficients_formats_lemma :
  get_per_group_coefficients [1] (ETuples [(7, [2]); (9, [3])]) [Some "fixed"; Some "random"]%string = Ok (CTuples [(7, [1; 2]); (9, [1; 3])]) /\
  @get_per_group_coefficients R [1] (EArrays [[2]; [3]]) [Some "fixed"; Some "random"]%string = Ok (CArray (A2 [[1; 2]; [1; 3]])).
Proof. split; reflexivity. Qed.

(*@ C107 (partial).  random_effects_to_matrix stacks the random effects of tuples (group, effects), as generate returns
    them: one row for each group, in order; for effects of different lengths it fails. *)
Lemma effects_matrix_partial_lemma :
  forall (L : Type) (us : list (L * vec)), us <> [] ->
  (forall q, Forall (fun lu => length (snd lu) = q) us -> random_effects_to_matrix (ETuples us) = Ok (A2 (map snd us))) /\
  ((exists a b, In a us /\ In b us /\ length (snd a) <> length (snd b)) -> random_effects_to_matrix (ETuples us) = Err ValueError).
Proof.
  intros L us Hn. split.
  - intros q F. apply (stack_rows q); [destruct us; [congruence|discriminate]|]. rewrite Forall_forall in *.
    intros u Hu. apply in_map_iff in Hu as (lu & <- & Hu). auto.
  - intros (a & b & Ha & Hb & D). cbn [random_effects_to_matrix]. unfold stack. destruct us as [|c us]; [congruence|]. cbn [map].
    destruct (forallb _ _) eqn:E; [|reflexivity]. exfalso. rewrite forallb_forall in E.
    assert (X : forall d, In d (c :: us) -> length (snd d) = length (snd c)).
    { intros d Hd. apply Nat.eqb_eq. apply E. apply (in_map snd) in Hd. exact Hd. }
    apply D. rewrite (X a Ha), (X b Hb). reflexivity.
Qed.

(*@ Two groups with two effects. *)
Lemma ex_effects_matrix_lemma :
  random_effects_to_matrix (ETuples [("a", [1; 2]); ("b", [3; 4])]%string) = Ok (A2 [[1; 2]; [3; 4]]).
Proof. reflexivity. Qed.

(*@ C107 (refuted).  It never stacks random effects in the format in which fit stores them: for two effects per group it
    returns the vector of the second ones, without an error, and otherwise it fails. *)
Lemma effects_matrix_refuted_lemma :
  (forall (L : Type) (us : list vec), @random_effects_to_matrix L (EArrays us) <> Ok (A2 us)) /\
  (forall (L : Type) (us : list vec), Forall (fun u => length u = 2%nat) us ->
     @random_effects_to_matrix L (EArrays us) = Ok (A1 (map (fun u => nth 1 u 0) us))) /\
  (forall (L : Type) (us : list vec) u, In u us -> length u <> 2%nat -> @random_effects_to_matrix L (EArrays us) = Err ValueError).
Proof.
  split; [|split].
  - intros L us H. cbn [random_effects_to_matrix] in H. apply rbind_inv in H as (v & _ & H). discriminate.
  - intros L us F. cbn [random_effects_to_matrix].
    assert (E : sequence (map unpack2 us) = Ok (map (fun u => nth 1 u 0) us)).
    { induction F as [|u us Hu F IH]; [reflexivity|]. destruct u as [|a [|b [|c u]]]; try discriminate. cbn [map unpack2 sequence]. rewrite IH. reflexivity. }
    rewrite E. reflexivity.
  - intros L us u Hu Hn. cbn [random_effects_to_matrix].
    assert (E : sequence (map unpack2 us) = Err ValueError).
    { induction us as [|v us IH]; [destruct Hu|]. cbn [map sequence]. destruct Hu as [->|Hu].
      - destruct u as [|a [|b [|c u]]]; try reflexivity. cbn in Hn. congruence.
      - rewrite (IH Hu). destruct v as [|a [|b [|c v]]]; reflexivity. }
    rewrite E. reflexivity.
Qed.
