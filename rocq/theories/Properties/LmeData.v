(** Properties C35-C37: dataframes, per-group coefficients and generated problems
    (src/pysr3/lme/problems.py). *)
From Coq Require Import Sorted Permutation.
From Verif.Base Require Import Py Vec Mat.
From Verif.Model Require Import LmeProblem.
From Verif.Spec Require Import LmeSpec.
From Verif.Proofs Require Import LmeDataMain.

Open Scope string_scope.
Open Scope list_scope.
Open Scope R_scope.

(** C35.  A name that is not a column of the dataframe is a ValueError, whatever it was given for. *)
Theorem from_dataframe_missing_column :
  forall d fixed random groups variance target not_fe not_re e,
  In e (fixed ++ random ++ [groups; variance; target] ++ not_fe ++ not_re) -> ~ In e (map fst (df_cols d)) ->
  from_dataframe d fixed random groups variance target not_fe not_re = Err ValueError.
Proof. exact from_dataframe_missing_column_lemma. Qed.
Print Assumptions from_dataframe_missing_column.

(** C35.  Otherwise the problem has exactly the named effects, in the order of the dataframe, with their
    values, the group and variance columns that were named, and an intercept exactly when it was
    named. *)
Theorem from_dataframe_selects :
  forall d fixed random groups variance target not_fe not_re pr,
  from_dataframe d fixed random groups variance target not_fe not_re = Ok pr ->
  let fe := named_effects d fixed in
  let re := named_effects d random in
  let one (effects : list string) := if in_dec string_dec "intercept" effects then [1] else [] in
  let row (effects : list string) i := map (fun c => df_value d c i) effects in
  pr_fe_columns pr = Some fe /\ pr_re_columns pr = Some re /\
  num_fixed pr = length (one fixed ++ row fe 0%nat) /\ num_random pr = length (one random ++ row re 0%nat) /\
  exists idx, partition_of (df_value d groups) (df_n d) (pr_group_labels pr) idx /\
    pr_order pr = concat idx /\
    pr_fixed pr = map (map (fun i => one fixed ++ row fe i)) idx /\
    pr_random pr = map (map (fun i => one random ++ row re i)) idx /\
    pr_obs_vars pr = map (map (df_value d variance)) idx /\
    pr_answers pr = Some (map (map (df_value d target)) idx).
Proof. exact from_dataframe_selects_lemma. Qed.
Print Assumptions from_dataframe_selects.

(** A dataframe with an intercept column that is accepted. *)
Example ex_from_dataframe :
  let d := {| df_n := 2; df_cols := [("g", [1; 0]); ("a", [5; 6]); ("intercept", [1; 1]); ("v", [1; 1]); ("y", [10; 20])] |} in
  exists pr, from_dataframe d ["intercept"; "a"] ["a"] "g" "v" "y" ["intercept"] [] = Ok pr.
Proof. exact ex_from_dataframe_lemma. Qed.

(** C37.  For every layout of labels the coefficients of a group, applied to a data row extended by the
    intercept, give the fixed-effect part plus the random-effect part; and they exist whenever
    there are enough coefficients. *)
Theorem per_group_coefficients_predict :
  forall ff fr labels beta u row,
  length beta = (countb is_fixed labels + b2n ff)%nat -> length u = (countb is_random labels + b2n fr)%nat ->
  length row = length labels ->
  exists c, group_coefficients (intercept_label_of ff fr :: map Some labels) beta u 0 0 = Ok c /\
    length c = S (length labels) /\
    vdot c (1 :: row) = vdot (features_of is_fixed ff labels row) beta + vdot (features_of is_random fr labels row) u.
Proof. exact per_group_coefficients_predict_lemma. Qed.
Print Assumptions per_group_coefficients_predict.

(** Coefficients of a group for the layout intercept, group, fixed, both, random. *)
Example ex_per_group_coefficients :
  exists c, group_coefficients (intercept_label_of true true :: map Some ["group"; "fixed"; "fixed+random"; "random"])
              [100; 1; 2] [10; 20; 30] 0 0 = Ok c /\ c = [110; 0; 1; 22; 30].
Proof. exact ex_per_group_coefficients_lemma. Qed.

(** C33 (partial).  The names of a generated problem line up with the coefficients, intercept included. *)
Theorem generate_names_line_up_partial :
  forall xname sizes labels ff fr ov beta gamma given features draws pr coefs,
  generate xname sizes labels ff fr ov beta gamma given features draws = Ok (pr, coefs) ->
  let names p intercept := (if intercept : bool then ["intercept"] else [])
                           ++ map xname (filter (fun i => p (nth i labels "")) (seq 0 (length labels))) in
  pr_fe_columns pr = Some (names is_fixed ff) /\ length (names is_fixed ff) = num_fixed pr /\
  pr_re_columns pr = Some (names is_random fr) /\ length (names is_random fr) = num_random pr.
Proof. exact generate_names_line_up_partial_lemma. Qed.
Print Assumptions generate_names_line_up_partial.

(** C36 (partial).  One variance for all objects, one per group, and one per object of a single group
    are used as requested. *)
Theorem generate_variances_partial :
  forall xname sizes labels ff fr ov beta gamma given features draws pr coefs,
  generate xname sizes labels ff fr ov beta gamma given features draws = Ok (pr, coefs) ->
  length draws = length sizes ->
  match ov with
  | VScalar v => pr_obs_vars pr = map (repeat v) sizes
  | VArray v =>
      (length v = length sizes -> list_sum sizes <> length sizes -> pr_obs_vars pr = map2 (@repeat R) v sizes) /\
      (forall n, sizes = [n] -> length v = n -> pr_obs_vars pr = [v])
  | VOther => False
  end \/ sizes = [].
Proof. exact generate_variances_partial_lemma. Qed.
Print Assumptions generate_variances_partial.

(** C36 (refuted).  With one variance per object the slice starts at the group but ends at its size:
    whenever the second group is not larger than the first the generator fails, and otherwise it
    uses variances of other objects. *)
Theorem generate_variances_refuted :
  (forall xname a b rest labels ff fr v beta gamma given features draws r,
   (0 < b <= a)%nat -> length v = list_sum (a :: b :: rest) -> length draws = length (a :: b :: rest) ->
   generate xname (a :: b :: rest) labels ff fr (VArray v) beta gamma given features draws <> Ok r) /\
  (forall xname beta gamma features mask0 mask1 drawn0 drawn1 errors0 errors1 r,
   generate xname [1; 2]%nat ["fixed"] false false (VArray [1; 2; 3]) beta gamma [] features
     [(mask0, drawn0, errors0); (mask1, drawn1, errors1)] = Ok r ->
   pr_obs_vars (fst r) = [[1]; [2; 2]]).
Proof. exact generate_variances_refuted_lemma. Qed.
Print Assumptions generate_variances_refuted.

(** C36 (partial).  Without intercepts the returned per-group coefficients reproduce the answers up to the
    drawn errors, whatever stands in the group and variance columns. *)
Theorem generate_coefficients_partial :
  forall xname sizes labels ov beta gamma given features draws pr coefs,
  generate xname sizes labels false false ov beta gamma given features draws = Ok (pr, coefs) ->
  wf_draws (length labels) sizes features draws -> labels <> [] ->
  exists answers, pr_answers pr = Some answers /\ length answers = length sizes /\ length coefs = length sizes /\
    forall k a b, (k < length sizes)%nat ->
      nth k answers [] = vadd (map (fun row => vdot (nth k coefs []) (a :: row ++ [b]))
                                 (gen_rows sizes features (map (fun d => fst (fst d)) draws) k))
                           (snd (nth k draws ([], [], []))).
Proof. exact generate_coefficients_partial_lemma. Qed.
Print Assumptions generate_coefficients_partial.

(** C36 (refuted).  With an intercept the coefficients are shifted: the labels they are computed from do not
    contain the intercept. *)
Theorem generate_coefficients_refuted :
  exists pr coefs,
    generate (fun _ => "x") [1]%nat ["fixed"] true false (VScalar 1) [10; 1] [] [] [[3]] [([[1]], [], [0])] = Ok (pr, coefs) /\
    pr_answers pr = Some [[13]] /\ coefs = [[0; 10; 0]] /\
    (forall a b, vdot [0; 10; 0] [a; 3; b] = 30).
Proof. exact generate_coefficients_refuted_lemma. Qed.
Print Assumptions generate_coefficients_refuted.

(** C36 (partial).  A generated problem with at least one random effect converts to the table of its data:
    group number, features and variance of every object, in order, with its answers. *)
Theorem generate_to_x_y_partial :
  forall xname sizes labels ff fr ov beta gamma given features draws pr coefs,
  generate xname sizes labels ff fr ov beta gamma given features draws = Ok (pr, coefs) ->
  wf_draws (length labels) sizes features draws -> labels <> [] -> sizes <> [] ->
  Forall (fun l => In l ["fixed"; "random"; "fixed+random"]) labels -> (0 < num_random pr)%nat ->
  exists answers, pr_answers pr = Some answers /\ length answers = length sizes /\ length (pr_obs_vars pr) = length sizes /\
    to_x_y pr = Ok (gen_table sizes features (map (fun d => fst (fst d)) draws) (pr_obs_vars pr), concat answers,
                    "group" :: labels ++ ["variance"]).
Proof. exact generate_to_x_y_partial_lemma. Qed.
Print Assumptions generate_to_x_y_partial.

(** A generated problem with two groups, one fixed and one random effect. *)
Example ex_generate :
  let draws := [([[1; 1]], [3], [0]); ([[1; 1]; [1; 1]], [4], [0; 0])] in
  exists pr coefs,
  generate (fun _ => "x") [1; 2]%nat ["fixed"; "random"] false false (VArray [1; 2]) [5] [1] [] [[1; 1]; [2; 2]; [3; 3]] draws = Ok (pr, coefs) /\
  wf_draws 2 [1; 2]%nat [[1; 1]; [2; 2]; [3; 3]] draws /\ (0 < num_random pr)%nat.
Proof. exact ex_generate_lemma. Qed.

(** C36 (refuted).  Without random effects the problem cannot be converted. *)
Theorem generate_to_x_y_refuted :
  forall xname sizes labels ff fr ov beta gamma given features draws pr coefs r,
  generate xname sizes labels ff fr ov beta gamma given features draws = Ok (pr, coefs) ->
  countb is_random labels = 0%nat -> fr = false -> to_x_y pr <> Ok r.
Proof. exact generate_to_x_y_refuted_lemma. Qed.
Print Assumptions generate_to_x_y_refuted.
