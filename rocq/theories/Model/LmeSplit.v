(** Model of the splitter and of the helpers for random effects at the end of src/pysr3/lme/problems.py.
    Simplifications: sklearn's StratifiedShuffleSplit is a parameter, called with the number of splits, the test
    size, the seed, the number of rows and the strata of the rows; index lists stand for index arrays, and the
    iterator of splits is the list of its elements. *)
From Verif.Base Require Import Py Vec Mat.
From Verif.Model Require Import LmeProblem.
Open Scope R_scope.

(** ** LMEStratifiedShuffleSplit: problems.py:835-890 *)
Record splitter := {
  sp_labels : list string;
  sp_seed : Z;
  sp_test : R;
  sp_n : Z
}.

Section Split.
(** StratifiedShuffleSplit(n_splits, test_size, random_state).split(x, y=strata) *)
Variable stratified : Z -> R -> Z -> nat -> list vec -> res (list (list nat * list nat)).

(** problems.py:867-887; x[:, group_column] is a matrix, with one column if there is one label "group" *)
Definition split (s : splitter) (x : table) (y : vec) : res (list (list nat * list nat)) :=
  let! _ := check_X_y x y in
  let group_column := where_ (fun label => String.eqb label GROUP) (sp_labels s) in
  let! _ := guard (forallb (fun i => i <? t_cols x)%nat group_column) IndexError in
  stratified (sp_n s) (sp_test s) (sp_seed s) (length (t_rows x)) (map (pick group_column) (t_rows x)).

(** problems.py:889-890 *)
Definition get_n_splits (s : splitter) : Z := sp_n s.
End Split.

(** x[idx] and y[idx], as sklearn cuts the data of one split *)
Definition rows_at (x : table) (idx : list nat) : table :=
  {| t_cols := t_cols x; t_rows := map (fun i => nth i (t_rows x) []) idx |}.
Definition targets_at (y : vec) (idx : list nat) : vec := map (fun i => nth i y 0) idx.

(** ** random_effects_to_matrix: problems.py:954-967 *)
(** the random effects of the groups: arrays (or the rows of a matrix), as fit_problem stores them, or tuples
    (group, array), as generate returns them *)
Inductive effects (L : Type) :=
| EArrays (us : list vec)
| ETuples (us : list (L * vec)).
Arguments EArrays {L} _.
Arguments ETuples {L} _.

(** a one- or two-dimensional array *)
Inductive array := A1 (v : vec) | A2 (m : list vec).

(** np.array of a list of arrays of floats *)
Definition stack (us : list vec) : res array :=
  match us with
  | [] => Ok (A1 [])
  | u :: _ => let! _ := guard (forallb (fun v => length v =? length u)%nat us) ValueError in Ok (A2 us)
  end.
(** k, u = row, for an array row *)
Definition unpack2 (row : vec) : res R :=
  match row with [_; u] => Ok u | _ => Err ValueError end.

Definition random_effects_to_matrix {L} (e : effects L) : res array :=
  match e with
  | ETuples us => stack (map snd us)
  | EArrays us => let! v := sequence (map unpack2 us) in Ok (A1 v)
  end.

(** ** get_per_group_coefficients: problems.py:893-951.  A list without entries counts as a list of arrays. *)
Inductive coefficients (L : Type) := CArray (a : array) | CTuples (l : list (L * vec)).
Arguments CArray {L} _.
Arguments CTuples {L} _.
Definition get_per_group_coefficients {L} (beta : vec) (e : effects L) (labels : list (option string))
  : res (coefficients L) :=
  match e with
  | ETuples ((_ :: _) as us) =>
      let! cs := sequence (map (fun lu => let! c := group_coefficients labels beta (snd lu) 0 0 in Ok (fst lu, c)) us) in
      Ok (CTuples cs)
  | EArrays us =>
      let! cs := per_group_coefficients beta us labels in
      let! a := stack cs in
      Ok (CArray a)
  | ETuples [] => let! a := stack [] in Ok (CArray a)
  end.
