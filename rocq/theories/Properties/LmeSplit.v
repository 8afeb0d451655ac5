(** Properties C106, C107: splits for cross-validation and helpers for random effects (src/pysr3/lme/problems.py). *)
From Verif.Base Require Import Py Vec Mat.
From Verif.Model Require Import LmeProblem LmePredict Regularizers Solvers LmeInner LmeFit LmeUse LmeBridge LmeSplit.
From Verif.Spec Require Import FitSpec LmeSpec SplitSpec.
From Verif.Proofs Require Import LmeSplitMain.

Open Scope list_scope.
Open Scope R_scope.

(** C106.  The splits do not depend on the targets or the features: whatever sklearn's splitter does, two tables with
    the same column of groups and as many targets get the same splits. *)
Theorem splits_depend_on_groups :
  forall stratified s x x' y y', wf_table x -> wf_table x' -> valid_labels (sp_labels s) ->
  length (sp_labels s) = t_cols x -> length (sp_labels s) = t_cols x' ->
  map (group_of (sp_labels s)) (t_rows x) = map (group_of (sp_labels s)) (t_rows x') -> length y = length y' ->
  split stratified s x y = split stratified s x' y'.
Proof. exact splits_depend_on_groups_lemma. Qed.
Print Assumptions splits_depend_on_groups.

(** C106 (partial).  With a splitter that keeps sklearn's promises, and at most half of the rows for the test, every
    group of the table has training rows in every split.  So whatever model is fitted to the training rows, its predict
    accepts the test rows: one prediction for each. *)
Theorem splits_train_every_group_partial :
  forall stratified s x y splits, fair stratified -> wf_table x -> valid_labels (sp_labels s) ->
  length (sp_labels s) = t_cols x -> 0 < sp_test s <= 1 / 2 ->
  Forall (fun row => variance_of (sp_labels s) row <> 0) (t_rows x) ->
  split stratified s x y = Ok splits ->
  Z.of_nat (length splits) = get_n_splits s /\
  forall train test, In (train, test) splits ->
  (forall row, In row (t_rows x) -> exists row', In row' (t_rows (rows_at x train)) /\ group_of (sp_labels s) row' = group_of (sp_labels s) row) /\
  forall argsort cdf m coef beta0 gamma0 warm ff fr fe re co lg,
  lme_fit argsort cdf m coef (rows_at x train) (targets_at y train) (Some (sp_labels s)) beta0 gamma0 warm ff fr fe re = Ok (co, lg) ->
  exists yhat, predict (Some (predictor co)) (rows_at x test) (Some (sp_labels s)) ff fr = Ok yhat /\ length yhat = length test.
Proof. exact splits_train_every_group_partial_lemma. Qed.
Print Assumptions splits_train_every_group_partial.

(** A fair splitter, a table of two equal rows split in halves, and a fit to the training half. *)
Example ex_splits_train_every_group :
  exists stratified s splits train test co lg, fair stratified /\ wf_table twin_table /\ valid_labels (sp_labels s) /\
    length (sp_labels s) = t_cols twin_table /\ 0 < sp_test s <= 1 / 2 /\
    split stratified s twin_table [0; 0] = Ok splits /\ In (train, test) splits /\
    lme_fit (fun _ => []) (fun x => x) (flat_model PenNone None 0 0) None (rows_at twin_table train) (targets_at [0; 0] train)
      (Some (sp_labels s)) None None false false false None None = Ok (co, lg).
Proof. exact ex_splits_train_every_group_lemma. Qed.

(** C106 (refuted).  With more rows for the test, a group can be in the test only: in every split that sklearn's promises
    allow of two rows in one group and seven in another, 7/9 of them for the test, the first group has no training row,
    and no model with random effects fitted to the training rows predicts the test rows. *)
Theorem splits_train_every_group_refuted :
  (exists stratified s y splits, fair stratified /\ sp_test s = 7 / 9 /\ sp_labels s = small_group_labels /\
     split stratified s small_group_table y = Ok splits /\ splits <> []) /\
  forall stratified s y splits, fair stratified -> sp_test s = 7 / 9 -> sp_labels s = small_group_labels ->
  split stratified s small_group_table y = Ok splits ->
  forall train test, In (train, test) splits ->
  (exists row, In row (t_rows (rows_at small_group_table test)) /\ group_of small_group_labels row = 0) /\
  (forall row, In row (t_rows (rows_at small_group_table train)) -> group_of small_group_labels row = 1) /\
  forall argsort cdf m coef beta0 gamma0 warm ff fr fe re co lg yhat,
  lme_fit argsort cdf m coef (rows_at small_group_table train) (targets_at y train) (Some small_group_labels) beta0 gamma0 warm ff fr fe re = Ok (co, lg) ->
  predict (Some (predictor co)) (rows_at small_group_table test) (Some small_group_labels) ff fr <> Ok yhat.
Proof. exact splits_train_every_group_refuted_lemma. Qed.
Print Assumptions splits_train_every_group_refuted.

(** C107.  get_per_group_coefficients gives the same coefficients for arrays and for tuples, in the order of the
    groups: for tuples each with its label, for arrays stacked into a matrix; and it fails for both or for neither. *)
Theorem per_group_coefficients_formats :
  forall (L : Type) beta (us : list (L * vec)) labels, us <> [] ->
  match per_group_coefficients beta (map snd us) labels with
  | Ok cs => length cs = length us /\ Forall (fun c => length c = length labels) cs /\
             get_per_group_coefficients beta (ETuples us) labels = Ok (CTuples (combine (map fst us) cs)) /\
             @get_per_group_coefficients L beta (EArrays (map snd us)) labels = Ok (CArray (A2 cs))
  | Err e => get_per_group_coefficients beta (ETuples us) labels = Err e /\
             @get_per_group_coefficients L beta (EArrays (map snd us)) labels = Err e
  end.
Proof. exact per_group_coefficients_formats_lemma. Qed.
Print Assumptions per_group_coefficients_formats.

(** Two groups, one fixed and one random effect. *)
Example ex_per_group_coefficients_formats :
  get_per_group_coefficients [1] (ETuples [(7, [2]); (9, [3])]) [Some "fixed"; Some "random"]%string = Ok (CTuples [(7, [1; 2]); (9, [1; 3])]) /\
  @get_per_group_coefficients R [1] (EArrays [[2]; [3]]) [Some "fixed"; Some "random"]%string = Ok (CArray (A2 [[1; 2]; [1; 3]])).
Proof. exact ex_per_group_coefficients_formats_lemma. Qed.

(** C107 (partial).  random_effects_to_matrix stacks the random effects of tuples (group, effects), as generate returns
    them: one row for each group, in order; for effects of different lengths it fails. *)
Theorem effects_matrix_partial :
  forall (L : Type) (us : list (L * vec)), us <> [] ->
  (forall q, Forall (fun lu => length (snd lu) = q) us -> random_effects_to_matrix (ETuples us) = Ok (A2 (map snd us))) /\
  ((exists a b, In a us /\ In b us /\ length (snd a) <> length (snd b)) -> random_effects_to_matrix (ETuples us) = Err ValueError).
Proof. exact effects_matrix_partial_lemma. Qed.
Print Assumptions effects_matrix_partial.

(** Two groups with two effects. *)
Example ex_effects_matrix :
  random_effects_to_matrix (ETuples [("a", [1; 2]); ("b", [3; 4])]%string) = Ok (A2 [[1; 2]; [3; 4]]).
Proof. exact ex_effects_matrix_lemma. Qed.

(** C107 (refuted).  It never stacks random effects in the format in which fit stores them: for two effects per group it
    returns the vector of the second ones, without an error, and otherwise it fails. *)
Theorem effects_matrix_refuted :
  (forall (L : Type) (us : list vec), @random_effects_to_matrix L (EArrays us) <> Ok (A2 us)) /\
  (forall (L : Type) (us : list vec), Forall (fun u => length u = 2%nat) us ->
     @random_effects_to_matrix L (EArrays us) = Ok (A1 (map (fun u => nth 1 u 0) us))) /\
  (forall (L : Type) (us : list vec) u, In u us -> length u <> 2%nat -> @random_effects_to_matrix L (EArrays us) = Err ValueError).
Proof. exact effects_matrix_refuted_lemma. Qed.
Print Assumptions effects_matrix_refuted.
