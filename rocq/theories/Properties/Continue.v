(** Property C112: an interrupted fit can be continued (src/pysr3/solvers.py, src/pysr3/linear, src/pysr3/lme). *)
From Verif.Base Require Import Py Vec Mat.
From Verif.Model Require Import LmeProblem Regularizers Solvers Linear LmeInner LmeFit LmeBridge.
From Verif.Spec Require Import SolverSpec LinearSpec FitSpec ContinueSpec.
From Verif.Proofs Require Import ContinueMain.

Open Scope string_scope.
Open Scope list_scope.
Open Scope R_scope.

(** C112.  The solver, whatever the oracle and the regularizer: let a run with the limit n1 + n2 make k > n1
    iterations.  Then a run with the limit n1 from the same point ends without convergence after n1 iterations, and a run
    with the limit n2 from where that one ended returns the very point of the long run, after k - n1 iterations, and
    reports convergence exactly if the long run does. *)
Theorem run_continues : forall S (orc : oracle S) rg slv s0 n1 n2 k c x0 lg x lg' s',
  steady orc s0 -> logger_wf lg ->
  pgd_optimize orc rg (solver_until slv (Z.of_nat (n1 + n2))) x0 s0 lg = Ok (x, lg', s') -> ran lg' k c -> (n1 < k)%nat ->
  exists x1 lg1 lg2,
    pgd_optimize orc rg (solver_until slv (Z.of_nat n1)) x0 s0 lg = Ok (x1, lg1, s0) /\ ran lg1 n1 false /\
    pgd_optimize orc rg (solver_until slv (Z.of_nat n2)) x1 s0 lg = Ok (x, lg2, s0) /\ ran lg2 (k - n1) c.
Proof. exact run_continues_lemma. Qed.
Print Assumptions run_continues.

(** C112.  A run that stops by itself after k iterations returns the same point under every limit of at least k; it
    reports convergence if the limit is larger than k, and reports none if the limit is k. *)
Theorem run_stops_early : forall S (orc : oracle S) rg slv s0 n1 n2 k c x0 lg x lg' s',
  pgd_optimize orc rg (solver_until slv (Z.of_nat (n1 + n2))) x0 s0 lg = Ok (x, lg', s') -> ran lg' k c -> (k <= n1)%nat ->
  exists lg1, pgd_optimize orc rg (solver_until slv (Z.of_nat n1)) x0 s0 lg = Ok (x, lg1, s') /\ ran lg1 k (k <? n1)%nat.
Proof. exact run_stops_early_lemma. Qed.
Print Assumptions run_stops_early.

(** C112 (partial).  Linear models, plain and relaxed, solved by PGDSolver: let the fit with max_iter = n1 + n2 make
    k > n1 iterations and let the fit with max_iter = n1 return x1.  It reports that it has not converged, and the fit
    with max_iter = n2 that is warm started at x1 returns the coefficients of the long fit. *)
Theorem linear_fit_continues_partial : forall argsort inv m pr x0 (warm : bool) weights n1 n2 k c x lg x1 lg1,
  lm_el m = None \/ lm_practical m = false ->
  linear_fit_problem argsort inv (linear_until m (Z.of_nat (n1 + n2))) pr x0 warm weights = Ok (x, lg) ->
  ran lg k c -> (n1 < k)%nat ->
  linear_fit_problem argsort inv (linear_until m (Z.of_nat n1)) pr x0 warm weights = Ok (x1, lg1) ->
  ran lg1 n1 false /\
  exists lg2, linear_fit_problem argsort inv (linear_until m (Z.of_nat n2)) pr (Some x1) true weights = Ok (x, lg2) /\
    ran lg2 (k - n1) c.
Proof. exact linear_fit_continues_partial_lemma. Qed.
Print Assumptions linear_fit_continues_partial.

(** C112.  The practical method of the relaxed linear models: let it make k > n1 iterations under the limit n1 + n2.
    Then it makes n1 iterations under the limit n1, and from where it ended it returns under the limit n2 the point of
    the long run, after k - n1 iterations.  If it makes k <= n1 iterations, it returns the same under the limit n1. *)
Theorem practical_continues : forall o rg tol n1 n2 x0 x k,
  sr3_find_count o rg tol (Z.of_nat (n1 + n2)) x0 = Ok (x, k) ->
  ((n1 < k)%nat -> exists x1, sr3_find_count o rg tol (Z.of_nat n1) x0 = Ok (x1, n1) /\
     sr3_find_count o rg tol (Z.of_nat n2) x1 = Ok (x, (k - n1)%nat)) /\
  ((k <= n1)%nat -> sr3_find_count o rg tol (Z.of_nat n1) x0 = Ok (x, k)).
Proof. exact practical_continues_lemma. Qed.
Print Assumptions practical_continues.

(** C112.  Relaxed linear models solved by the practical method: let the fits with the limits n1 + n2 and n1 return x and
    x1.  Either x1 = x, or the fit with the limit n2 that is warm started at x1 returns exactly what the long fit returns,
    its log included.  Both report convergence, so the log does not tell which. *)
Theorem practical_fit_continues : forall argsort inv m el pr x0 (warm : bool) weights n1 n2 x lg x1 lg1,
  lm_el m = Some el -> lm_practical m = true ->
  linear_fit_problem argsort inv (linear_until m (Z.of_nat (n1 + n2))) pr x0 warm weights = Ok (x, lg) ->
  linear_fit_problem argsort inv (linear_until m (Z.of_nat n1)) pr x0 warm weights = Ok (x1, lg1) ->
  (x1 = x \/ linear_fit_problem argsort inv (linear_until m (Z.of_nat n2)) pr (Some x1) true weights = Ok (x, lg)) /\
  get lg "converged" = Ok (LAtom (LBool true)) /\ get lg1 "converged" = Ok (LAtom (LBool true)).
Proof. exact practical_fit_continues_lemma. Qed.
Print Assumptions practical_fit_continues.

(** The practical method interrupted after one of its two iterations: 1, 5/2, 13/4. *)
Example ex_practical_continues : forall argsort,
  let o := {| so_lam := 1; so_practical := false; so_problem := Some (sample_problem 4);
              so_data := Some {| sd_h_inv := [[/ 2]]; sd_ab := [4]; sd_fg := None |} |} in
  let rg := as_regularizer argsort RDummy in
  sr3_find_count o rg 1 (Z.of_nat (1 + 4)) [1] = Ok ([13 / 4], 2%nat) /\
  sr3_find_count o rg 1 (Z.of_nat 1) [1] = Ok ([5 / 2], 1%nat).
Proof. exact ex_practical_continues_lemma. Qed.

(** The same at the level of a fit, where the second alternative is the one that holds. *)
Example ex_practical_fit_continues : forall argsort,
  let inv := fun (_ : nat) (_ : mat) => Ok [[/ 2]] in
  let m := {| lm_el := Some 1; lm_practical := true; lm_reg := RDummy; lm_tol := 1; lm_max_iter := 0;
              lm_stepping := "fixed"; lm_step_len := None; lm_prior := PNone; lm_keys := (KTuple, []) |} in
  mm 1 (h_matrix 1 (sample_problem 4)) [[/ 2]] = eye 1 /\ exists lg lg1,
  linear_fit_problem argsort inv (linear_until m (Z.of_nat (1 + 4))) (sample_problem 4) None false None = Ok ([13 / 4], lg) /\
  linear_fit_problem argsort inv (linear_until m (Z.of_nat 1)) (sample_problem 4) None false None = Ok ([5 / 2], lg1) /\
  [5 / 2] <> [13 / 4].
Proof. exact ex_practical_fit_continues_lemma. Qed.

(** C112 (partial).  Mixed models, plain and relaxed ones whose inner method keeps nothing: let the fit with
    max_iter_solver = n1 + n2 make k > n1 iterations and let the fit with n1 return co1.  It reports that it has not
    converged, and the fit with n2 iterations, without the EM initializer, from the coefficients and variances of co1
    returns everything the long fit returns, the random effects included. *)
Theorem lme_fit_continues_partial :
  forall argsort solve calls_of m coef pr beta0 gamma0 (warm warm' : bool) coef' fe re n1 n2 k c co lg co1 lg1,
  memoryless m ->
  fit_problem argsort solve calls_of (lme_until m (Z.of_nat (n1 + n2))) coef pr beta0 gamma0 warm fe re = Ok (co, lg) ->
  ran lg k c -> (n1 < k)%nat ->
  fit_problem argsort solve calls_of (lme_until m (Z.of_nat n1)) coef pr beta0 gamma0 warm fe re = Ok (co1, lg1) ->
  ran lg1 n1 false /\
  exists lg2, fit_problem argsort solve calls_of (no_initializer (lme_until m (Z.of_nat n2))) coef' pr
      (Some (co_beta co1)) (Some (co_gamma co1)) warm' fe re = Ok (co, lg2) /\ ran lg2 (k - n1) c.
Proof. exact lme_fit_continues_partial_lemma. Qed.
Print Assumptions lme_fit_continues_partial.

(** C112 (refuted).  "Not converged" does not mean interrupted.  A fit with the limit 2 meets the tolerance in its second
    iteration and reports that it has not converged; with the limit 5 = 2 + 3 the fit stops at the same point and
    reports convergence; the fit continued with 3 more iterations moves on, to 29/8 instead of 13/4. *)
Theorem linear_fit_continues_refuted : forall argsort inv, exists lg lg1 lg2,
  linear_fit_problem argsort inv (coarse_model 2) (sample_problem 4) None false None = Ok ([13 / 4], lg1) /\ ran lg1 2 false /\
  linear_fit_problem argsort inv (coarse_model 5) (sample_problem 4) None false None = Ok ([13 / 4], lg) /\ ran lg 2 true /\
  linear_fit_problem argsort inv (coarse_model 3) (sample_problem 4) (Some [13 / 4]) true None = Ok ([29 / 8], lg2) /\ ran lg2 1 true.
Proof. exact linear_fit_continues_refuted_lemma. Qed.
Print Assumptions linear_fit_continues_refuted.

(** The same model interrupted after one of its two iterations. *)
Example ex_linear_fit_continues_partial : forall argsort inv, exists lg lg1,
  linear_fit_problem argsort inv (linear_until (coarse_model 0) (Z.of_nat (1 + 4))) (sample_problem 4) None false None = Ok ([13 / 4], lg) /\
  ran lg 2 true /\ (1 < 2)%nat /\
  linear_fit_problem argsort inv (linear_until (coarse_model 0) (Z.of_nat 1)) (sample_problem 4) None false None = Ok ([5 / 2], lg1).
Proof. exact ex_linear_fit_continues_partial_lemma. Qed.

(** A mixed model interrupted after the first of two iterations. *)
Example ex_lme_fit_continues_partial : forall argsort cdf,
  let m := flat_model (PenL1 1) None 0 0 in
  memoryless m /\ exists co lg co1 lg1,
  lme_fit_problem argsort cdf (lme_until m (Z.of_nat (1 + 1))) None (flat_problem 1 1) (Some [2]) (Some [2]) false None None = Ok (co, lg) /\
  ran lg 2 false /\ (1 < 2)%nat /\ co_beta co = [1] /\
  lme_fit_problem argsort cdf (lme_until m (Z.of_nat 1)) None (flat_problem 1 1) (Some [2]) (Some [2]) false None None = Ok (co1, lg1) /\
  co_beta co1 = [3 / 2].
Proof. exact ex_lme_fit_continues_partial_lemma. Qed.
