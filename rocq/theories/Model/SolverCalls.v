(** Model of the calls of PGDSolver.optimize and FakePGDSolver.optimize (src/pysr3/solvers.py:54-122, 153-194) whose
    oracle, regularizer or logger may be missing: the signatures have the default None for all three.
    Simplification: `if not oracle` and `if not regularizer` are tests for None; no class of the library defines
    __bool__ or __len__. *)
From Verif.Base Require Import Py Vec.
From Verif.Model Require Import Solvers.
Open Scope R_scope.

(** regularizer=None: None.value and None.prox *)
Definition no_regularizer : regularizer :=
  {| r_value := fun _ => Err AttributeError; r_prox := fun _ _ => Err AttributeError |}.

(** solvers.py:76-122; `logger.keys` (line 82) fails for None *)
Definition pgd_call {S : Type} (orc : option (oracle S)) (rg : option regularizer) (slv : pgd_solver)
    (x0 : vec) (s : S) (lg : option logger) : res (vec * logger * S) :=
  match orc, lg with
  | None, _ => Err ValueError
  | Some _, None => Err AttributeError
  | Some o, Some l => pgd_optimize o (match rg with Some r => r | None => no_regularizer end) slv x0 s l
  end.

(** solvers.py:176-194; [find0] is oracle.find_optimal_parameters without a logger, its result is lost at
    `logger.keys` (line 189) *)
Definition fake_pgd_call {S : Type} (orc : option (oracle S)) (rg : option regularizer)
    (find0 : S -> vec -> res (vec * S)) (find : S -> vec -> logger -> res (vec * logger * S))
    (x0 : vec) (s : S) (lg : option logger) : res (vec * logger * S) :=
  match orc with
  | None => Err ValueError
  | Some o =>
      match rg with
      | None => Err ValueError
      | Some r =>
          match lg with
          | None => let! _ := find0 s x0 in Err AttributeError
          | Some l => fake_pgd_optimize o r find x0 s l
          end
      end
  end.
