(** What sklearn promises about stratified splits, and what a user of the helpers expects. *)
From Verif.Base Require Import Py Vec Mat.
From Verif.Model Require Import LmeProblem LmeSplit LmeFit.
From Verif.Spec Require Import LmeSpec.
Open Scope R_scope.

(** how many of the rows [idx] are in the stratum [c] *)
Definition vec_dec : forall a b : vec, {a = b} + {a <> b} := list_eq_dec Req_EM_T.
Definition members (strata : list vec) (c : vec) (idx : list nat) : nat :=
  countb (fun i => if vec_dec (nth i strata []) c then true else false) idx.

(** One split of [n] rows by StratifiedShuffleSplit with a fraction [ts] for the test: no row twice, none in both
    parts; the test part has ceil(ts n) rows and the training part the others; no stratum is a single row; and the
    training rows are shared out to the strata in proportion to their sizes: rounded down, and the rows left over
    go to the strata with the largest remainders. *)
Definition fair_split (ts : R) (n : nat) (strata : list vec) (tt : list nat * list nat) : Prop :=
  let train := fst tt in
  let test := snd tt in
  let size i := members strata (nth i strata []) (seq 0 n) in
  let got i := members strata (nth i strata []) train in
  let share i := (size i * length train / n)%nat in
  let rest i := ((size i * length train) mod n)%nat in
  NoDup (train ++ test) /\ Forall (fun i => (i < n)%nat) (train ++ test) /\
  (length train + length test = n)%nat /\
  INR (length test) - 1 < ts * INR n <= INR (length test) /\
  forall i, (i < n)%nat ->
    (2 <= size i)%nat /\
    (got i = share i \/ got i = S (share i)) /\
    (forall j, (j < n)%nat -> got i = share i -> got j = S (share j) -> (rest i <= rest j)%nat).
Definition fair (stratified : Z -> R -> Z -> nat -> list vec -> res (list (list nat * list nat))) : Prop :=
  forall k ts seed n strata splits, stratified k ts seed n strata = Ok splits -> length strata = n ->
  Z.of_nat (length splits) = k /\ Forall (fair_split ts n strata) splits.

(** two rows in one group and seven in another, one random effect *)
Definition small_group_table : table :=
  {| t_cols := 3;
     t_rows := [[0; 1; 1]; [0; 1; 1]; [1; 1; 1]; [1; 1; 1]; [1; 1; 1]; [1; 1; 1]; [1; 1; 1]; [1; 1; 1]; [1; 1; 1]] |}.
Definition small_group_labels : list string := ["group"; "random"; "variance"].

(** the same row twice *)
Definition twin_table : table := {| t_cols := 4; t_rows := [[0; 0; 0; 1]; [0; 0; 0; 1]] |}.

(** a splitter that knows one problem only *)
Definition one_split (ts : R) (strata : list vec) (tt : list nat * list nat)
    (k : Z) (ts' : R) (seed : Z) (n : nat) (strata' : list vec) : res (list (list nat * list nat)) :=
  if Z.eq_dec k 1 then
    if Req_EM_T ts ts' then
      if list_eq_dec vec_dec strata strata' then Ok [tt] else Err ValueError
    else Err ValueError
  else Err ValueError.
