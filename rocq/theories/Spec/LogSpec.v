(** What the statements about the log of a fit mean, independently of the code. *)
From Verif.Base Require Import Py Vec.
From Verif.Model Require Import Solvers LmeFit.
From Verif.Spec Require Import FitSpec.
Open Scope list_scope.

(** the keys the caller asked for *)
Definition asked (m : lme_model) (k : string) : Prop := In k (snd (mo_keys m)).
Definition logs_number (lg : logger) (k : string) (v : R) : Prop := get lg k = Ok (LAtom (LNum v)).
(** the number tol the solver of the model has: the option tol_solver, except that the practical SR3 models build
    their solver without it and get its default *)
Definition practical (m : lme_model) : Prop := exists ss, mo_sr3 m = Some ss /\ ss_practical ss = true.
Definition tolerance_used (m : lme_model) (s : R) : Prop :=
  (practical m -> s = 1 / 10000) /\ (~ practical m -> s = mo_tol m).

(** a plain model without penalty that stops at the starting point and logs one criterion *)
Definition logging_model (tol : R) (k : string) : lme_model :=
  {| mo_penalty := PenNone; mo_sr3 := None; mo_tol := tol; mo_max_iter := 0; mo_stepping := "fixed";
     mo_step_len := None; mo_eps := 0; mo_initializer := "None"; mo_keys := (KTuple, [k]); mo_prior := None |}.
