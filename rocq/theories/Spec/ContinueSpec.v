(** Fits that are interrupted and continued, independently of the code. *)
From Verif.Base Require Import Py Vec Mat.
From Verif.Model Require Import Regularizers Linear LmeInner LmeFit.
Open Scope string_scope.
Open Scope list_scope.
Open Scope R_scope.

(** the same solver or model with another limit of iterations *)
Definition solver_until (slv : pgd_solver) (n : Z) : pgd_solver :=
  {| s_tol := s_tol slv; s_max_iter := n; s_stepping := s_stepping slv; s_step_len := s_step_len slv |}.
Definition linear_until (m : linear_model) (n : Z) : linear_model :=
  {| lm_el := lm_el m; lm_practical := lm_practical m; lm_reg := lm_reg m; lm_tol := lm_tol m; lm_max_iter := n;
     lm_stepping := lm_stepping m; lm_step_len := lm_step_len m; lm_prior := lm_prior m; lm_keys := lm_keys m |}.
Definition lme_until (m : lme_model) (n : Z) : lme_model :=
  {| mo_penalty := mo_penalty m; mo_sr3 := mo_sr3 m; mo_tol := mo_tol m; mo_max_iter := n; mo_stepping := mo_stepping m;
     mo_step_len := mo_step_len m; mo_eps := mo_eps m; mo_initializer := mo_initializer m; mo_keys := mo_keys m;
     mo_prior := mo_prior m |}.
(** a model that takes its starting point as it is given *)
Definition no_initializer (m : lme_model) : lme_model :=
  {| mo_penalty := mo_penalty m; mo_sr3 := mo_sr3 m; mo_tol := mo_tol m; mo_max_iter := mo_max_iter m; mo_stepping := mo_stepping m;
     mo_step_len := mo_step_len m; mo_eps := mo_eps m; mo_initializer := "None"; mo_keys := mo_keys m;
     mo_prior := mo_prior m |}.

(** the oracle does not change while it is evaluated *)
Definition steady {S : Type} (orc : oracle S) (s : S) : Prop :=
  (forall x v s', o_value orc s x = Ok (v, s') -> s' = s) /\ (forall x g s', o_grad orc s x = Ok (g, s') -> s' = s).

(** what a log says about the end of a run *)
Definition ran (lg : logger) (iterations : nat) (converged : bool) : Prop :=
  get lg "iteration" = Ok (LAtom (LNum (INR iterations))) /\ get lg "converged" = Ok (LAtom (LBool converged)).

(** a relaxed model whose inner method starts afresh in every evaluation *)
Definition memoryless (m : lme_model) : Prop := forall ss, mo_sr3 m = Some ss -> ss_practical ss = false /\ ss_warm ss = false.

(** one observation 4 of one feature 1, tolerance 1 and steps of 1/2 *)
Definition coarse_model (n : Z) : linear_model :=
  {| lm_el := None; lm_practical := false; lm_reg := RDummy; lm_tol := 1; lm_max_iter := n;
     lm_stepping := "fixed"; lm_step_len := Some (/ 2); lm_prior := PNone; lm_keys := (KTuple, []) |}.
