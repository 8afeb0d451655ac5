(** Properties C54-C56: predict and score of mixed-effects models (src/pysr3/lme/models.py). *)
From Coq Require Import Sorted Permutation.
From Verif.Base Require Import Py Vec Mat.
From Verif.Model Require Import LmeProblem LmePredict.
From Verif.Spec Require Import LmeSpec.
From Verif.Proofs Require Import LmePredictMain.

Open Scope string_scope.
Open Scope list_scope.
Open Scope R_scope.

(** C54 (partial).  predict returns the right prediction for every row, but in the order of the groups;
    when the rows are already sorted by group the predictions are those of the rows. *)
Theorem predict_rows_partial :
  forall x labels ff fr c y, wf_table x -> wf_coef c -> predict (Some c) x (Some labels) ff fr = Ok y ->
  (exists order, Permutation order (seq 0 (length (t_rows x))) /\
     StronglySorted (fun i j => group_of labels (nth i (t_rows x) []) <= group_of labels (nth j (t_rows x) [])) order /\
     y = map (fun i => row_prediction c labels ff fr (nth i (t_rows x) [])) order) /\
  (sorted_by_group labels (t_rows x) -> y = map (row_prediction c labels ff fr) (t_rows x)).
Proof. exact predict_rows_partial_lemma. Qed.
Print Assumptions predict_rows_partial.

(** C54, C55 (partial).  predict succeeds on every valid table of the right width whose groups were all
    seen in training, and on every one for a model without random effects. *)
Theorem predict_succeeds_partial :
  forall x labels ff fr c, wf_table x -> t_rows x <> [] -> valid_labels labels -> length labels = t_cols x ->
  Forall (fun row => variance_of labels row <> 0) (t_rows x) ->
  Forall (fun row => exists z, group_of labels row = IZR z) (t_rows x) ->
  wf_coef c -> length (cf_beta c) = (countb is_fixed labels + b2n ff)%nat ->
  Forall (fun u => length u = (countb is_random labels + b2n fr)%nat) (cf_us c) ->
  ((countb is_random labels + b2n fr)%nat = 0%nat \/ Forall (fun row => In (group_of labels row) (cf_group_labels c)) (t_rows x)) ->
  exists y, predict (Some c) x (Some labels) ff fr = Ok y.
Proof. exact predict_succeeds_partial_lemma. Qed.
Print Assumptions predict_succeeds_partial.

(** Predictions for two rows sorted by group. *)
Example ex_predict :
  let x := {| t_cols := 4; t_rows := [[0; 10; 3; 1]; [1; 20; 5; 1]] |} in
  let labels := ["group"; "fixed"; "random"; "variance"] in
  let c := {| cf_beta := [100; 1]; cf_us := [[2]; [7]]; cf_group_labels := [0; 1] |} in
  sorted_by_group labels (t_rows x) /\ predict (Some c) x (Some labels) true false = Ok [116; 155].
Proof. exact ex_predict_lemma. Qed.

(** C54 (refuted).  Two rows whose groups are not in increasing order get each other's prediction. *)
Theorem predict_rows_refuted :
  exists x labels c y, wf_table x /\ wf_coef c /\ predict (Some c) x (Some labels) false false = Ok y /\
    y = [20; 10] /\ map (row_prediction c labels false false) (t_rows x) = [10; 20].
Proof. exact predict_rows_refuted_lemma. Qed.
Print Assumptions predict_rows_refuted.

(** C55 (refuted).  A model with random effects never predicts for a table that contains a new group. *)
Theorem predict_new_group_refuted :
  forall x labels ff fr c row y, wf_table x -> wf_coef c -> In row (t_rows x) ->
  ~ In (group_of labels row) (cf_group_labels c) -> (0 < countb is_random labels + b2n fr)%nat ->
  predict (Some c) x (Some labels) ff fr <> Ok y.
Proof. exact predict_new_group_refuted_lemma. Qed.
Print Assumptions predict_new_group_refuted.

(** C56 (partial).  score is R^2 of what predict returns; for rows sorted by group it is R^2 of the
    predictions of the rows, so at most 1, and 1 exactly for perfect predictions. *)
Theorem score_is_r_squared_partial :
  forall x y labels ff fr c s, wf_table x -> wf_coef c -> score (Some c) x y (Some labels) ff fr = Ok s ->
  (exists pred, predict (Some c) x (Some labels) ff fr = Ok pred /\ s = r_squared y pred) /\
  s <= 1 /\
  (sorted_by_group labels (t_rows x) ->
   s = r_squared y (map (row_prediction c labels ff fr) (t_rows x)) /\
   (s = 1 <-> y = map (row_prediction c labels ff fr) (t_rows x))).
Proof. exact score_is_r_squared_partial_lemma. Qed.
Print Assumptions score_is_r_squared_partial.

(** A perfect score for these predictions. *)
Example ex_score :
  exists s, score (Some {| cf_beta := [100; 1]; cf_us := [[2]; [7]]; cf_group_labels := [0; 1] |})
              {| t_cols := 4; t_rows := [[0; 10; 3; 1]; [1; 20; 5; 1]] |} [116; 155]
              (Some ["group"; "fixed"; "random"; "variance"]) true false = Ok s /\ s = 1.
Proof. exact ex_score_lemma. Qed.

(** C56 (refuted).  A model that predicts every row perfectly scores -3 because its predictions come back in
    group order. *)
Theorem score_misaligned_refuted :
  exists x labels c y, wf_table x /\ wf_coef c /\ y = map (row_prediction c labels false false) (t_rows x) /\
    score (Some c) x y (Some labels) false false = Ok (-3).
Proof. exact score_misaligned_refuted_lemma. Qed.
Print Assumptions score_misaligned_refuted.
