(** Properties C29-C34: mixed-effects problems and iteration over them
    (src/pysr3/lme/problems.py). *)
From Coq Require Import Sorted Permutation.
From Verif.Base Require Import Py Vec Mat.
From Verif.Model Require Import LmeProblem LmePredict.
From Verif.Spec Require Import LmeSpec.
From Verif.Proofs Require Import LmeProblemMain.

Open Scope string_scope.
Open Scope list_scope.
Open Scope R_scope.

(** C29.  to_x_y gives back the table, the targets and the labels that from_x_y was called with (with
    the group and variance columns that from_x_y adds when no labels are given). *)
Theorem from_x_y_round_trip :
  forall x y columns labels ff fr must_fe must_re pr, wf_table x ->
  from_x_y x (Some y) columns labels ff fr must_fe must_re = Ok pr ->
  to_x_y pr = Ok (match labels with Some l => (t_rows x, y, l) 
                  | None => (map (fun row => 0 :: row ++ [1]) (t_rows x), y,
                             "group" :: repeat "fixed" (t_cols x) ++ ["variance"]) end).
Proof. exact from_x_y_round_trip_lemma. Qed.
Print Assumptions from_x_y_round_trip.

(** C29.  Without targets there is nothing to give back: to_x_y fails with a TypeError. *)
Theorem to_x_y_without_answers :
  forall x columns labels ff fr must_fe must_re pr r, wf_table x ->
  from_x_y x None columns labels ff fr must_fe must_re = Ok pr -> to_x_y pr <> Ok r.
Proof. exact to_x_y_without_answers_lemma. Qed.
Print Assumptions to_x_y_without_answers.

(** C30.  Every row is in exactly one group, the one of its label; groups are in increasing label order
    without repetition, rows keep their order inside a group; all per-group arrays describe the
    same rows. *)
Theorem grouping_is_partition :
  forall x y columns labels ff fr must_fe must_re pr, wf_table x ->
  from_x_y x y columns (Some labels) ff fr must_fe must_re = Ok pr ->
  let n := length (t_rows x) in
  let row i := nth i (t_rows x) [] in
  exists idx, partition_of (fun i => group_of labels (row i)) n (pr_group_labels pr) idx /\
    pr_order pr = concat idx /\
    pr_fixed pr = map (map (fun i => features_of is_fixed ff labels (row i))) idx /\
    pr_random pr = map (map (fun i => features_of is_random fr labels (row i))) idx /\
    pr_obs_vars pr = map (map (fun i => variance_of labels (row i))) idx /\
    pr_answers pr = option_map (fun y' => map (map (fun i => nth i y' 0)) idx) y /\
    groups_sizes pr = map (@length nat) idx /\ num_obs pr = n /\ num_groups pr = length (pr_group_labels pr).
Proof. exact grouping_is_partition_lemma. Qed.
Print Assumptions grouping_is_partition.

(** C31.  Without optional name lists, from_x_y accepts exactly the documented inputs. *)
Theorem from_x_y_accepts_iff :
  forall x y labels ff fr, wf_table x ->
  (exists pr, from_x_y x y None (Some labels) ff fr None None = Ok pr) <->
  match y with Some y' => t_rows x <> [] /\ length y' = length (t_rows x) | None => True end /\
  valid_labels labels /\ length labels = t_cols x /\
  Forall (fun row => variance_of labels row <> 0) (t_rows x) /\
  Forall (fun row => exists z, group_of labels row = IZR z) (t_rows x).
Proof. exact from_x_y_accepts_iff_lemma. Qed.
Print Assumptions from_x_y_accepts_iff.

(** C31.  Naming the columns, with as many names as columns, and asking for unpenalised effects (for random
    ones only together with a list for the fixed ones) is accepted for the same tables. *)
Theorem from_x_y_accepts_names :
  forall x y labels columns ff fr must_fe must_re pr0,
  from_x_y x y None (Some labels) ff fr None None = Ok pr0 -> length columns = t_cols x ->
  (must_re = None \/ must_re = Some [] \/ must_fe <> None) ->
  exists pr, from_x_y x y (Some columns) (Some labels) ff fr must_fe must_re = Ok pr.
Proof. exact from_x_y_accepts_names_lemma. Qed.
Print Assumptions from_x_y_accepts_names.

(** A table with two groups in decreasing order, names and must-include lists, there and back. *)
Example ex_from_x_y :
  exists pr, from_x_y sample_table (Some [10; 20]) (Some sample_columns) (Some sample_labels)
               true true (Some ["a"]) (Some ["b"]) = Ok pr /\
    to_x_y pr = Ok ([[1; 5; 2; 1]; [0; 6; 3; 1]], [10; 20], sample_labels).
Proof. exact ex_from_x_y_lemma. Qed.

(** C31.  How malformed input is rejected. *)
Theorem from_x_y_rejects :
  forall x columns labels ff fr must_fe must_re, wf_table x ->
  (~ valid_labels labels \/ length labels <> t_cols x \/
   (length labels = t_cols x /\ Exists (fun row => variance_of labels row = 0) (t_rows x)) ->
   from_x_y x None columns (Some labels) ff fr must_fe must_re = Err AssertionError) /\
  (valid_labels labels -> length labels = t_cols x ->
   Forall (fun row => variance_of labels row <> 0) (t_rows x) ->
   Exists (fun row => ~ exists z, group_of labels row = IZR z) (t_rows x) ->
   from_x_y x None columns (Some labels) ff fr must_fe must_re = Err ValueError).
Proof. exact from_x_y_rejects_lemma. Qed.
Print Assumptions from_x_y_rejects.

(** C32 (partial).  For the fixed effects the weights line up with the coefficients when no must-include
    names are given or an intercept is fitted; for the random effects the membership of "intercept"
    must in addition be the same in both lists. *)
Theorem weights_line_up_partial :
  forall x y columns labels ff fr must_fe must_re pr, wf_table x -> columns <> [] ->
  from_x_y x y (Some columns) (Some labels) ff fr must_fe must_re = Ok pr ->
  (must_list must_fe = [] \/ ff = true ->
   pr_fe_weights pr = Some (documented_weights (must_list must_fe) (coefficient_names is_fixed ff labels columns))) /\
  (must_list must_re = [] \/ 
   (fr = true /\ (In "intercept" (must_list must_fe) <-> In "intercept" (must_list must_re))) ->
   pr_re_weights pr = Some (documented_weights (must_list must_re) (coefficient_names is_random fr labels columns))) /\
  length (coefficient_names is_fixed ff labels columns) = num_fixed pr /\
  length (coefficient_names is_random fr labels columns) = num_random pr.
Proof. exact weights_line_up_partial_lemma. Qed.
Print Assumptions weights_line_up_partial.

(** C32 (refuted).  With must-include names but without an intercept there is one weight too many; the
    weight of the random intercept is read from the list of fixed effects; and random must-include
    names alone are a TypeError. *)
Theorem weights_line_up_refuted :
  (forall x y columns labels fr m ms must_re pr, wf_table x -> columns <> [] ->
   from_x_y x y (Some columns) (Some labels) false fr (Some (m :: ms)) must_re = Ok pr ->
   exists w, pr_fe_weights pr = Some w /\ length w = S (num_fixed pr)) /\
  (exists pr, from_x_y sample_table None (Some sample_columns) (Some sample_labels) true true
                (Some ["a"]) (Some ["intercept"]) = Ok pr /\
     pr_re_weights pr = Some [1; 1] /\
     documented_weights ["intercept"] (coefficient_names is_random true sample_labels sample_columns) = [0; 1]) /\
  (forall x y columns labels ff fr r rs pr,
   from_x_y x y columns labels ff fr None (Some (r :: rs)) <> Ok pr).
Proof. exact weights_line_up_refuted_lemma. Qed.
Print Assumptions weights_line_up_refuted.

(** C33 (partial).  Without intercepts the column names are those of the coefficients, in order.  In
    general they are the names of the columns only. *)
Theorem column_names_line_up_partial :
  forall x y columns labels ff fr must_fe must_re pr, wf_table x -> columns <> [] ->
  from_x_y x y (Some columns) (Some labels) ff fr must_fe must_re = Ok pr ->
  pr_fe_columns pr = Some (coefficient_names is_fixed false labels columns) /\
  pr_re_columns pr = Some (coefficient_names is_random false labels columns) /\
  (ff = false -> length (coefficient_names is_fixed false labels columns) = num_fixed pr) /\
  (fr = false -> length (coefficient_names is_random false labels columns) = num_random pr).
Proof. exact column_names_line_up_partial_lemma. Qed.
Print Assumptions column_names_line_up_partial.

(** C33 (refuted).  With an intercept there is one name less than coefficients, and every name stands one
    place before its coefficient. *)
Theorem column_names_line_up_refuted :
  forall x y columns labels fr must_fe must_re pr, wf_table x -> columns <> [] ->
  from_x_y x y (Some columns) (Some labels) true fr must_fe must_re = Ok pr ->
  exists names, pr_fe_columns pr = Some names /\ num_fixed pr = S (length names) /\
    coefficient_names is_fixed true labels columns = "intercept" :: names.
Proof. exact column_names_line_up_refuted_lemma. Qed.
Print Assumptions column_names_line_up_refuted.

(** C34 (partial).  Whatever happened to the iterator before, a loop whose body does not iterate over the
    same problem sees every group once, in order: the fixed features, the targets, the random features
    and the variances it yields are those of the groups. *)
Theorem loop_sees_every_group_partial :
  forall pr pos body, (forall g p, body g p = p) ->
  length (pr_random pr) = length (pr_fixed pr) -> length (pr_obs_vars pr) = length (pr_fixed pr) ->
  exists gs pos', for_loop pr body pos = Ok (gs, pos') /\
    map (fun '(x, _, _, _) => x) gs = pr_fixed pr /\
    map (fun '(_, _, z, _) => z) gs = pr_random pr /\
    map (fun '(_, _, _, v) => v) gs = pr_obs_vars pr /\
    (forall ys, pr_answers pr = Some ys -> length ys = length (pr_fixed pr) ->
       map (fun '(_, y, _, _) => y) gs = map Some ys) /\
    (pr_answers pr = None -> Forall (fun '(_, y, _, _) => y = None) gs).
Proof. exact loop_sees_every_group_partial_lemma. Qed.
Print Assumptions loop_sees_every_group_partial.

(** C34 (refuted).  The position is shared: a loop nested in a loop over the same problem ends the outer
    one after its first group, and a second iterator continues where the first one stands. *)
Theorem nested_loops_refuted :
  (forall pr pos, (2 <= length (pr_fixed pr))%nat ->
   let inner := fun _ p => match for_loop pr (fun _ p => p) p with Ok (_, p') => p' | Err _ => p end in
   exists p', for_loop pr inner pos = Ok ([group_at pr 0], p')) /\
  (forall pr, (2 <= length (pr_fixed pr))%nat ->
   let first := iter_start None in
   let second := iter_start first in
   exists p1 p2, iter_next pr second = Ok (Some (group_at pr 0), p1) /\
     iter_next pr p1 = Ok (Some (group_at pr 1), p2)).
Proof. exact nested_loops_refuted_lemma. Qed.
Print Assumptions nested_loops_refuted.

(** A problem with two groups to loop over. *)
Example ex_iteration :
  exists pr, from_x_y sample_table (Some [10; 20]) None (Some sample_labels) true false None None = Ok pr /\
    length (pr_fixed pr) = 2%nat.
Proof. exact ex_iteration_lemma. Qed.
