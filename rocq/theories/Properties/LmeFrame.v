(** Property C103: writing a mixed-model problem to a data frame (src/pysr3/lme/problems.py). *)
From Verif.Base Require Import Py Vec Mat.
From Verif.Model Require Import LmeProblem LmeFrame.
From Verif.Spec Require Import LmeSpec FrameSpec.
From Verif.Proofs Require Import LmeFrameMain.

Open Scope string_scope.
Open Scope list_scope.
Open Scope R_scope.

(** C103 (partial).  The frame has the labels as names and the targets in the column "target"; a label that
    occurs once names its column. *)
Theorem to_dataframe_columns_partial :
  forall x y columns labels ff fr must_fe must_re pr, wf_table x ->
  from_x_y x (Some y) columns (Some labels) ff fr must_fe must_re = Ok pr ->
  exists d, to_dataframe pr = Ok d /\ df_n d = length (t_rows x) /\ map fst (df_cols d) = labels ++ ["target"] /\
  forall i, (i < df_n d)%nat -> df_value d "target" i = nth i y 0 /\
    forall c, count_occ string_dec labels c = 1%nat -> df_value d c i = labelled c labels (nth i (t_rows x) []).
Proof. exact to_dataframe_columns_partial_lemma. Qed.
Print Assumptions to_dataframe_columns_partial.

(** C103 (partial).  When no label is repeated and no intercept is fitted, from_dataframe rebuilds the problem
    from the frame. *)
Theorem to_dataframe_round_trip_partial :
  forall x y columns labels must_fe must_re pr, wf_table x -> NoDup labels ->
  from_x_y x (Some y) columns (Some labels) false false must_fe must_re = Ok pr ->
  exists d pr', to_dataframe pr = Ok d /\
    from_dataframe d (filter is_fixed labels) (filter is_random labels) "group" "variance" "target" [] [] = Ok pr' /\
    same_data pr pr'.
Proof. exact to_dataframe_round_trip_partial_lemma. Qed.
Print Assumptions to_dataframe_round_trip_partial.

(** C103 is refuted.  The frame of a problem with an intercept cannot be read back: no arguments of
    from_dataframe rebuild a problem with that intercept. *)
Theorem to_dataframe_intercept_refuted :
  forall x y columns labels ff fr must_fe must_re pr d fixed random groups variance target nf nr pr', wf_table x ->
  from_x_y x (Some y) columns (Some labels) ff fr must_fe must_re = Ok pr -> ff || fr = true ->
  to_dataframe pr = Ok d ->
  from_dataframe d fixed random groups variance target nf nr = Ok pr' -> ~ same_data pr pr'.
Proof. exact to_dataframe_intercept_refuted_lemma. Qed.
Print Assumptions to_dataframe_intercept_refuted.

(** C103 is refuted.  Two fixed effects become two different columns of the same name, and the names given to
    from_x_y are lost. *)
Theorem to_dataframe_names_refuted :
  exists x y columns labels pr d, wf_table x /\
    from_x_y x (Some y) (Some columns) (Some labels) false false None None = Ok pr /\ to_dataframe pr = Ok d /\
    NoDup columns /\ ~ NoDup (map fst (df_cols d)) /\ ~ In "a" (map fst (df_cols d)) /\ In "a" columns /\
    In ("fixed", [5; 6]) (df_cols d) /\ In ("fixed", [2; 3]) (df_cols d).
Proof. exact to_dataframe_names_refuted_lemma. Qed.
Print Assumptions to_dataframe_names_refuted.

(** two groups, one fixed effect and one effect that is both, there and back *)
Example ex_to_dataframe_round_trip_partial :
  wf_table sample_table /\ NoDup sample_labels /\
  exists pr, from_x_y sample_table (Some [10; 20]) (Some sample_columns) (Some sample_labels) false false None None = Ok pr.
Proof. exact ex_to_dataframe_round_trip_partial_lemma. Qed.

(** the same with an intercept: a frame is written, and read without the intercept *)
Example ex_to_dataframe_intercept_refuted :
  exists pr d pr', from_x_y sample_table (Some [10; 20]) (Some sample_columns) (Some sample_labels) true true None None = Ok pr /\
    to_dataframe pr = Ok d /\
    from_dataframe d ["fixed"; "fixed+random"] ["fixed+random"] "group" "variance" "target" [] [] = Ok pr'.
Proof. exact ex_to_dataframe_intercept_refuted_lemma. Qed.
