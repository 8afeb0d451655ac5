(** Properties C16 and C17: the values logged by proximal gradient descent (src/pysr3/solvers.py) and
    the values stored by Logger.append (src/pysr3/logger.py). *)
From Verif.Base Require Import Py Vec.
From Verif.Model Require Import Logger Solvers.
From Verif.Spec Require Import ProxSpec SolverSpec PgdTraceSpec.
From Verif.Proofs Require Import PgdTraceMain.

Open Scope string_scope.
Open Scope list_scope.
Open Scope R_scope.

(** C16.  A tuple of distinct keys: the names x0, x, x_prev, step_len, direction and y are recorded with their values
    before the first step, where they have one, and in every step, in order.  (x_prev is infinite before the first step;
    z, the trial point of the line search, is not covered.) *)
Theorem pgd_values_trace : forall S (orc : oracle S) rg slv g x0 s keys lg x lg' s',
  grad_is orc g -> NoDup keys -> mk_logger (Some (KTuple, keys)) = Ok lg ->
  pgd_optimize orc rg slv x0 s lg = Ok (x, lg', s') ->
  exists path, is_path (pgd_rule orc rg slv) x0 path /\ x = endpoint x0 path /\
    get lg' "iteration" = Ok (LAtom (LNum (INR (length path)))) /\
    forall k f, In (k, f) (pgd_recorded g x0) -> In k keys ->
      get lg' k = Ok (LList (pgd_initially x0 k ++ along_path f x0 path)).
Proof. exact pgd_values_trace_lemma. Qed.
Print Assumptions pgd_values_trace.

(** C17.  append adds numbers to numbers, vectors of the same length to vectors entry by entry, and lists to the end of
    lists, under the given key only. *)
Theorem logger_append_values : forall lg k a b c,
  get lg k = Ok a -> adds_up a b c ->
  exists lg', append lg k b = Ok lg' /\ get lg' k = Ok c /\ lg_keys lg' = lg_keys lg /\
    forall k', k' <> k -> get lg' k' = get lg k'.
Proof. exact logger_append_values_lemma. Qed.
Print Assumptions logger_append_values.
