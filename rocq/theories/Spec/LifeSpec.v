(** What an object should be like after forget. *)
From Verif.Base Require Import Py Vec Mat.
From Verif.Model Require Import Regularizers Linear LmeInner Lifecycle.
From Verif.Spec Require Import InnerSpec.
Open Scope R_scope.

(** as the constructors leave it *)
Fixpoint just_built (r : reg) : Prop :=
  match r with
  | RL0 _ w part => w = None /\ part = None
  | RL0LME s => lz_beta_weights s = None /\ lz_gamma_weights s = None /\ lz_beta_part s = None /\ lz_gamma_part s = None
  | RL1 _ w | RCAD _ _ w | RSCAD _ _ _ w => w = None
  | RDummy => True
  | RPos c other => c = None /\ match other with Some r' => just_built r' | None => True end
  | RElastic _ other => match other with Some r' => just_built r' | None => True end
  end.

(** the numbers of non-zeros were given to the constructor *)
Fixpoint budgets_given (r : reg) : Prop :=
  match r with
  | RL0LME s => lz_nnz_tbeta s <> None /\ lz_nnz_tgamma s <> None
  | RPos _ (Some r') | RElastic _ (Some r') => budgets_given r'
  | _ => True
  end.

Definition not_wrapper (r : reg) : Prop := match r with RPos _ _ | RElastic _ _ => False | _ => True end.

(** the problems the oracle went through, without the calls of the regularizer *)
Definition moves (es : list life) : list life :=
  filter (fun e => match e with OracleMoves _ => true | _ => false end) es.

Definition view (p q : nat) : oracle_view := {| ov_p := p; ov_q := q; ov_map := repeat (-1)%Z p |}.

(** an interior-point method that is content with everything *)
Definition lax : ip_options := {|
  io_n_iter := 200; io_tol := 10; io_neighbourhood := 1/2; io_mu_decay := 1/2; io_line_search := false;
  io_prox := None; io_prox_step := 1; io_update_every := 1; io_increase := false |}.
Definition no_solver (a : mat) (b : vec) : res vec := Err LinAlgError.
