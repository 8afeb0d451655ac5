(** Model of LMEProblem.to_dataframe (src/pysr3/lme/problems.py:826-830).
    Simplification: no label of the problem is the string "target" (the labels that from_x_y
    accepts are not), so that the targets become a new last column.
    Names may repeat in the result; from_dataframe and df_col, which look a name up, are
    models for frames with distinct names. *)
From Verif.Base Require Import Py Vec Mat.
From Verif.Model Require Import LmeProblem.
Open Scope string_scope.
Open Scope list_scope.

Definition to_dataframe (pr : lme_problem) : res dataframe :=
  let! r := to_x_y pr in
  let '(x, y, labels) := r in
  Ok {| df_n := length x; df_cols := combine labels (tr (length labels) x) ++ [("target", y)] |}.
