(** Final lemmas about missing arguments of the solvers, restated as theorems in Properties/SolverCalls.v. *)
(*HEAD
(** Property C124: missing arguments of the solvers (src/pysr3/solvers.py). *)
From Verif.Base Require Import Py Vec.
From Verif.Model Require Import Solvers SolverCalls.
From Verif.Spec Require Import SolverSpec.
HEAD*)
From Coq Require Import Lia Lra.
From Verif.Base Require Import Py Vec.
From Verif.Model Require Import Solvers SolverCalls.
From Verif.Spec Require Import SolverSpec.
From Verif.Proofs Require Import SolverProofs.
(*OPEN
Open Scope R_scope.
OPEN*)
Open Scope R_scope.

(*@ C124 (partial).  Without an oracle both solvers raise ValueError, whatever the other arguments are; FakePGDSolver does
    so without a regularizer, too. *)
Lemma missing_oracle_partial_lemma : forall S (o : option (oracle S)) rg slv find0 find x0 (s : S) lg,
  pgd_call None rg slv x0 s lg = Err ValueError /\
  fake_pgd_call None rg find0 find x0 s lg = Err ValueError /\
  fake_pgd_call o None find0 find x0 s lg = Err ValueError.
Proof.
  intros. split; [reflexivity|]. split; [reflexivity|]. destruct o; reflexivity.
Qed.

(*@ C124 (partial).  When nothing is missing the calls are the solvers of C12 to C18. *)
Lemma complete_call_partial_lemma : forall S (o : oracle S) r slv find0 find x0 (s : S) lg,
  pgd_call (Some o) (Some r) slv x0 s (Some lg) = pgd_optimize o r slv x0 s lg /\
  fake_pgd_call (Some o) (Some r) find0 find x0 s (Some lg) = fake_pgd_optimize o r find x0 s lg.
Proof.
  intros. split; reflexivity.
Qed.

(*@ C124 (partial).  Without a logger no call returns: PGDSolver fails at once, FakePGDSolver when it has the result. *)
Lemma missing_logger_partial_lemma : forall S (o : oracle S) rg r slv find0 find x0 (s : S),
  pgd_call (Some o) rg slv x0 s None = Err AttributeError /\
  fake_pgd_call (Some o) (Some r) find0 find x0 s None
  = match find0 s x0 with Ok _ => Err AttributeError | Err e => Err e end.
Proof.
  intros. split; [reflexivity|]. unfold fake_pgd_call. destruct (find0 s x0); reflexivity.
Qed.

(*@ C124 (partial).  Without a regularizer PGDSolver returns only if it has no step to make and no loss to log: then it
    returns x0 and has not used the oracle. *)
Lemma missing_regularizer_partial_lemma : forall S (o : oracle S) slv x0 (s : S) lg x lg' s',
  pgd_call (Some o) None slv x0 s (Some lg) = Ok (x, lg', s') ->
  x = x0 /\ s' = s /\ has_key "loss" (lg_keys lg) = false /\ ((s_max_iter slv <= 0)%Z \/ x0 = []) /\
  get lg' "iteration" = Ok (LAtom (LNum 0)).
Proof.
  intros S o slv x0 s lg x lg' s' H. cbn [pgd_call] in H. unfold pgd_optimize in H.
  apply rbind_inv in H as [st0 [H0 H]]. apply rbind_inv in H as [st [H1 H]].
  apply rbind_inv in H as [lg1 [Ha H]]. apply rbind_inv in H as [lg2 [Hb H]]. injection H as <- <- <-.
  unfold log_state in H0. cbn [pgd_init st_logger st_oracle st_x st_x_prev st_iteration st_loss st_direction st_step_len st_y st_z] in H0.
  destruct (has_key "loss" (lg_keys lg)) eqn:K.
  { apply rbind_inv in H0 as [[l s1] [H0 _]]. apply rbind_inv in H0 as [[f s2] [_ H0]]. discriminate. }
  cbn [rbind] in H0. apply rbind_inv in H0 as [lg0 [_ H0]]. injection H0 as <-.
  assert (E : pgd_loop o no_regularizer slv (Z.to_nat (s_max_iter slv)) x0
     {| st_x := x0; st_x_prev := None; st_iteration := 0; st_loss := None; st_direction := None;
        st_step_len := None; st_y := None; st_z := None; st_oracle := s; st_logger := lg0 |} = Ok st) by exact H1.
  clear H1.
  assert (P : forall a st', pgd_step o no_regularizer slv x0 a = Ok st' -> False).
  { intros a st' Q. unfold pgd_step in Q. apply rbind_inv in Q as [[g s1] [_ Q]]. apply rbind_inv in Q as [[[sl z] s2] [_ Q]].
    apply rbind_inv in Q as [y [_ Q]]. discriminate. }
  destruct (Z.to_nat (s_max_iter slv)) as [|n] eqn:N; cbn [pgd_loop st_x st_x_prev st_iteration] in E;
    apply rbind_inv in E as [m [Hm E]]; destruct (m && (Z.of_nat 0 <? s_max_iter slv)%Z)%bool eqn:C.
  - discriminate.
  - injection E as <-. repeat split; auto; [left; lia|].
    unfold get. destruct (add_lookup _ _ _ _ Hb) as [L _]. rewrite L. reflexivity.
  - apply rbind_inv in E as [st' [Q _]]. destruct (P _ _ Q).
  - injection E as <-. repeat split; auto.
    + right. cbn [moved] in Hm. destruct x0 as [|a x0]; [reflexivity|]. injection Hm as <-. cbn [andb] in C. apply Z.ltb_ge in C. lia.
    + unfold get. destruct (add_lookup _ _ _ _ Hb) as [L _]. rewrite L. reflexivity.
Qed.

(*@ a call without a step *)
Lemma ex_missing_regularizer_lemma :
  let o := {| o_value := fun s x => Ok (0, s); o_grad := fun s x => Ok ([0], s) |} : oracle unit in
  let slv := {| s_tol := 0; s_max_iter := 0; s_stepping := "fixed"; s_step_len := 1 |} in
  exists lg', pgd_call (Some o) None slv [1] tt (Some {| lg_kind := KTuple; lg_keys := []; lg_dict := [] |}) = Ok ([1], lg', tt).
Proof.
  eexists. reflexivity.
Qed.

(*@ C124 (refuted).  A missing regularizer is not the penalty 0 and a missing logger is not one without keys: one step for
    the function 0 from 1 works with the penalty 0 and an empty logger, and fails when either is left out. *)
Lemma missing_arguments_refuted_lemma :
  let o := {| o_value := fun s x => Ok (0, s); o_grad := fun s x => Ok ([0], s) |} : oracle unit in
  let r := {| r_value := fun _ => Ok (Fin 0); r_prox := fun x _ => Ok x |} in
  let slv := {| s_tol := 0; s_max_iter := 1; s_stepping := "fixed"; s_step_len := 1 |} in
  let lg := {| lg_kind := KTuple; lg_keys := []; lg_dict := [] |} in
  (exists lg', pgd_call (Some o) (Some r) slv [1] tt (Some lg) = Ok ([1], lg', tt)) /\
  pgd_call (Some o) None slv [1] tt (Some lg) = Err AttributeError /\
  pgd_call (Some o) (Some r) slv [1] tt None = Err AttributeError.
Proof.
  intros o r slv lg. split; [|split; reflexivity]. eexists. cbn [pgd_call]. unfold pgd_optimize.
  cbn -[pgd_loop]. change (Pos.to_nat 1) with 1%nat. cbn. rewrite andb_false_r. cbn.
  replace (1 + 1 * - 0) with 1 by ring. reflexivity.
Qed.
