(** Property C124: missing arguments of the solvers (src/pysr3/solvers.py). *)
From Verif.Base Require Import Py Vec.
From Verif.Model Require Import Solvers SolverCalls.
From Verif.Spec Require Import SolverSpec.
From Verif.Proofs Require Import SolverCallsMain.

Open Scope R_scope.

(** C124 (partial).  Without an oracle both solvers raise ValueError, whatever the other arguments are; FakePGDSolver does
    so without a regularizer, too. *)
Theorem missing_oracle_partial : forall S (o : option (oracle S)) rg slv find0 find x0 (s : S) lg,
  pgd_call None rg slv x0 s lg = Err ValueError /\
  fake_pgd_call None rg find0 find x0 s lg = Err ValueError /\
  fake_pgd_call o None find0 find x0 s lg = Err ValueError.
Proof. exact missing_oracle_partial_lemma. Qed.
Print Assumptions missing_oracle_partial.

(** C124 (partial).  When nothing is missing the calls are the solvers of C12 to C18. *)
Theorem complete_call_partial : forall S (o : oracle S) r slv find0 find x0 (s : S) lg,
  pgd_call (Some o) (Some r) slv x0 s (Some lg) = pgd_optimize o r slv x0 s lg /\
  fake_pgd_call (Some o) (Some r) find0 find x0 s (Some lg) = fake_pgd_optimize o r find x0 s lg.
Proof. exact complete_call_partial_lemma. Qed.
Print Assumptions complete_call_partial.

(** C124 (partial).  Without a logger no call returns: PGDSolver fails at once, FakePGDSolver when it has the result. *)
Theorem missing_logger_partial : forall S (o : oracle S) rg r slv find0 find x0 (s : S),
  pgd_call (Some o) rg slv x0 s None = Err AttributeError /\
  fake_pgd_call (Some o) (Some r) find0 find x0 s None
  = match find0 s x0 with Ok _ => Err AttributeError | Err e => Err e end.
Proof. exact missing_logger_partial_lemma. Qed.
Print Assumptions missing_logger_partial.

(** C124 (partial).  Without a regularizer PGDSolver returns only if it has no step to make and no loss to log: then it
    returns x0 and has not used the oracle. *)
Theorem missing_regularizer_partial : forall S (o : oracle S) slv x0 (s : S) lg x lg' s',
  pgd_call (Some o) None slv x0 s (Some lg) = Ok (x, lg', s') ->
  x = x0 /\ s' = s /\ has_key "loss" (lg_keys lg) = false /\ ((s_max_iter slv <= 0)%Z \/ x0 = []) /\
  get lg' "iteration" = Ok (LAtom (LNum 0)).
Proof. exact missing_regularizer_partial_lemma. Qed.
Print Assumptions missing_regularizer_partial.

(** a call without a step *)
Example ex_missing_regularizer :
  let o := {| o_value := fun s x => Ok (0, s); o_grad := fun s x => Ok ([0], s) |} : oracle unit in
  let slv := {| s_tol := 0; s_max_iter := 0; s_stepping := "fixed"; s_step_len := 1 |} in
  exists lg', pgd_call (Some o) None slv [1] tt (Some {| lg_kind := KTuple; lg_keys := []; lg_dict := [] |}) = Ok ([1], lg', tt).
Proof. exact ex_missing_regularizer_lemma. Qed.

(** C124 (refuted).  A missing regularizer is not the penalty 0 and a missing logger is not one without keys: one step for
    the function 0 from 1 works with the penalty 0 and an empty logger, and fails when either is left out. *)
Theorem missing_arguments_refuted :
  let o := {| o_value := fun s x => Ok (0, s); o_grad := fun s x => Ok ([0], s) |} : oracle unit in
  let r := {| r_value := fun _ => Ok (Fin 0); r_prox := fun x _ => Ok x |} in
  let slv := {| s_tol := 0; s_max_iter := 1; s_stepping := "fixed"; s_step_len := 1 |} in
  let lg := {| lg_kind := KTuple; lg_keys := []; lg_dict := [] |} in
  (exists lg', pgd_call (Some o) (Some r) slv [1] tt (Some lg) = Ok ([1], lg', tt)) /\
  pgd_call (Some o) None slv [1] tt (Some lg) = Err AttributeError /\
  pgd_call (Some o) (Some r) slv [1] tt None = Err AttributeError.
Proof. exact missing_arguments_refuted_lemma. Qed.
Print Assumptions missing_arguments_refuted.
