(** Independent vocabulary for statements about LME problems and predictions. *)
From Coq Require Import Sorted Permutation.
From Verif.Base Require Import Py Vec Mat.
From Verif.Model Require Import LmeProblem LmePredict.
Open Scope string_scope.
Open Scope list_scope.
Open Scope R_scope.

Definition wf_table (x : table) : Prop := Forall (fun row => length row = t_cols x) (t_rows x).

(** the entries of a row that play a role, in column order *)
Fixpoint role_values (p : string -> bool) (labels : list string) (row : vec) : vec :=
  match labels, row with
  | l :: labels', a :: row' =>
      if p l then a :: role_values p labels' row' else role_values p labels' row'
  | _, _ => []
  end.
(** the features of a row as the model uses them: a leading 1 for an intercept *)
Definition features_of (p : string -> bool) (intercept : bool) (labels : list string) (row : vec) : vec :=
  (if intercept then [1] else []) ++ role_values p labels row.

(** the value in the (first) column with a given label *)
Fixpoint labelled (name : string) (labels : list string) (row : vec) : R :=
  match labels, row with
  | l :: labels', a :: row' => if string_dec name l then a else labelled name labels' row'
  | _, _ => 0
  end.
Definition group_of (labels : list string) (row : vec) : R := labelled "group" labels row.
Definition variance_of (labels : list string) (row : vec) : R := labelled "variance" labels row.

(** [idx] lists, for every label of [glabels], the rows of this group *)
Definition partition_of (group : nat -> R) (n : nat) (glabels : list R) (idx : list (list nat)) : Prop :=
  StronglySorted Rlt glabels /\
  (forall l, In l glabels <-> exists i, (i < n)%nat /\ group i = l) /\
  Forall2 (fun l is => StronglySorted lt is /\ forall i, In i is <-> (i < n)%nat /\ group i = l) glabels idx /\
  Permutation (concat idx) (seq 0 n).

(** what from_x_y documents as valid input *)
Definition valid_labels (labels : list string) : Prop :=
  Forall (fun l => In l ["group"; "variance"; "fixed"; "random"; "fixed+random"]) labels /\
  count_occ string_dec labels "group" = 1%nat /\
  count_occ string_dec labels "variance" = 1%nat.

(** names of the columns with a role *)
Fixpoint role_names (p : string -> bool) (labels columns : list string) : list string :=
  match labels, columns with
  | l :: labels', c :: columns' =>
      if p l then c :: role_names p labels' columns' else role_names p labels' columns'
  | _, _ => []
  end.
(** names of the fitted coefficients *)
Definition coefficient_names (p : string -> bool) (intercept : bool) (labels columns : list string) : list string :=
  (if intercept then ["intercept"] else []) ++ role_names p labels columns.
(** no list is the empty list *)
Definition must_list (o : option (list string)) : list string := match o with Some l => l | None => [] end.
(** weights 0 for the named ones, 1 for the others *)
Definition documented_weights (must names : list string) : vec :=
  map (fun c => if in_dec string_dec c must then 0 else 1) names.

(** the model's prediction for one row: fixed part plus the random part of the row's group *)
Definition group_effects (c : lme_coef) (q : nat) (g : R) : vec :=
  match find (fun lu => if Req_EM_T (fst lu) g then true else false) (combine (cf_group_labels c) (cf_us c)) with
  | Some (_, u) => u
  | None => zeros q
  end.
Definition row_prediction (c : lme_coef) (labels : list string) (fixed random : bool) (row : vec) : R :=
  let z := features_of is_random random labels row in
  vdot (features_of is_fixed fixed labels row) (cf_beta c)
  + vdot z (group_effects c (length z) (group_of labels row)).
(** coefficient of determination *)
Definition r_squared (y pred : vec) : R :=
  1 - sqnorm (vsub y pred) / sqnorm (map (fun a => a - mean y) y).

(** a small interleaved table for the examples *)
Definition sample_labels : list string := ["group"; "fixed"; "fixed+random"; "variance"].
Definition sample_columns : list string := ["g"; "a"; "b"; "v"].
Definition sample_table : table := {| t_cols := 4; t_rows := [[1; 5; 2; 1]; [0; 6; 3; 1]] |}.

(** the value of a column of a dataframe in one row *)
Definition df_value (d : dataframe) (c : string) (i : nat) : R :=
  match lookup c (df_cols d) with Some v => nth i v 0 | None => 0 end.
(** the effects that are columns, in the order of the dataframe *)
Definition named_effects (d : dataframe) (effects : list string) : list string :=
  filter (fun c => if in_dec string_dec c effects then if string_dec c "intercept" then false else true else false)
    (map fst (df_cols d)).

(** the features of group k of a generated problem: its slice of the data, with missing values and
    outliers applied *)
Definition gen_rows (sizes : list nat) (features : mat) (masks : list mat) (k : nat) : mat :=
  map2 vmul (firstn (nth k sizes 0%nat) (skipn (list_sum (firstn k sizes)) features)) (nth k masks []).
(** draws of the right shapes *)
Definition wf_draws (m : nat) (sizes : list nat) (features : mat) (draws : list (mat * vec * vec)) : Prop :=
  length draws = length sizes /\ length features = list_sum sizes /\ wf_mat m features /\
  forall k, (k < length sizes)%nat ->
    let '(mask, drawn, errors) := nth k draws ([], [], []) in
    length mask = nth k sizes 0%nat /\ wf_mat m mask /\ length errors = nth k sizes 0%nat.
(** the whole table of a generated problem, groups one after the other *)
Definition gen_table (sizes : list nat) (features : mat) (masks : list mat) (variances : list vec) : mat :=
  concat (map (fun k => map2 (fun row w => INR k :: row ++ [w]) (gen_rows sizes features masks k) (nth k variances []))
            (seq 0 (length sizes))).

(** a model with one row of random effects per training group *)
Definition wf_coef (c : lme_coef) : Prop :=
  NoDup (cf_group_labels c) /\ length (cf_us c) = length (cf_group_labels c).
Definition sorted_by_group (labels : list string) (rows : mat) : Prop :=
  StronglySorted Rle (map (group_of labels) rows).
