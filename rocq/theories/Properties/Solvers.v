(** Properties C12-C17: proximal gradient descent (src/pysr3/solvers.py) and the
    logger (src/pysr3/logger.py). *)
From Verif.Base Require Import Py Vec.
From Verif.Model Require Import Logger Solvers.
From Verif.Spec Require Import ProxSpec SolverSpec.
From Verif.Proofs Require Import SolversMain.

Open Scope string_scope.
Open Scope R_scope.

(** C12.  The solver's two nested loops always end (the model never runs out of fuel). *)
Theorem pgd_terminates :
  forall S (orc : oracle S) rg slv x0 s lg, calls_return orc rg ->
  pgd_optimize orc rg slv x0 s lg <> Err OutOfFuel.
Proof. exact pgd_terminates_lemma. Qed.
Print Assumptions pgd_terminates.

(** C12.  One line search: it ends, after halving the step finitely often. *)
Theorem line_search_terminates :
  forall S (orc : oracle S) rg s x direction step z, calls_return orc rg ->
  line_search orc rg (ls_fuel step) s x direction step z <> Err OutOfFuel /\
  forall step' z' s', line_search orc rg (ls_fuel step) s x direction step z = Ok (step', z', s') ->
    exists k, step' = halved step k.
Proof. exact line_search_terminates_lemma. Qed.
Print Assumptions line_search_terminates.

(** C12.  The result is reached by at most max_iter proximal gradient steps from x0, and
    'iteration' reports how many. *)
Theorem pgd_iterations_bounded_and_reported :
  forall S (orc : oracle S) rg slv x0 s lg x lg' s',
  pgd_optimize orc rg slv x0 s lg = Ok (x, lg', s') ->
  exists path, is_path (pgd_rule orc rg slv) x0 path /\ x = endpoint x0 path /\
    (length path <= Z.to_nat (s_max_iter slv))%nat /\
    get lg' "iteration" = Ok (LAtom (LNum (INR (length path)))).
Proof. exact pgd_iterations_bounded_and_reported_lemma. Qed.
Print Assumptions pgd_iterations_bounded_and_reported.

(** C13.  'converged' is True exactly when fewer than max_iter iterations were made; then the
    last update moved the point by at most tol (or the start was an empty vector);
    and no iteration is made after an update within the tolerance. *)
Theorem pgd_converged_flag :
  forall S (orc : oracle S) rg slv x0 s lg x lg' s',
  pgd_optimize orc rg slv x0 s lg = Ok (x, lg', s') ->
  exists path b, is_path (pgd_rule orc rg slv) x0 path /\ x = endpoint x0 path /\
    get lg' "converged" = Ok (LAtom (LBool b)) /\
    all_still slv None x0 path /\
    (b = true <-> (Z.of_nat (length path) < s_max_iter slv)%Z) /\
    (b = true -> match last_prev None x0 path with
                 | Some p => norm (vsub x p) <= s_tol slv
                 | None => x0 = []
                 end).
Proof. exact pgd_converged_flag_lemma. Qed.
Print Assumptions pgd_converged_flag.

(** A run on x^2/2 from 1 with the fixed step 1 and tolerance 2: one iteration, converged. *)
Example ex_pgd_converged_flag :
  exists lg' s', pgd_optimize quad_oracle free_reg (sample_solver "fixed" 2) [1] tt
    {| lg_kind := KTuple; lg_keys := []; lg_dict := [] |} = Ok ([1 + 1 * -1], lg', s') /\
  get lg' "converged" = Ok (LAtom (LBool true)) /\ get lg' "iteration" = Ok (LAtom (LNum 1)).
Proof. exact ex_pgd_converged_flag_lemma. Qed.

(** C13.  Conversely, stopping by the tolerance before max_iter iterations reports True. *)
Theorem pgd_stopped_early_is_converged :
  forall S (orc : oracle S) rg slv x0 s lg x lg' s' n,
  pgd_optimize orc rg slv x0 s lg = Ok (x, lg', s') ->
  get lg' "iteration" = Ok (LAtom (LNum (INR n))) -> (Z.of_nat n < s_max_iter slv)%Z ->
  get lg' "converged" = Ok (LAtom (LBool true)).
Proof. exact pgd_stopped_early_is_converged_lemma. Qed.
Print Assumptions pgd_stopped_early_is_converged.

(** C14.  With an exact proximal operator, an accepted line-search step does not increase
    f + penalty. *)
Theorem line_search_step_descends :
  forall S (orc : oracle S) rg slv f g x s x' v,
  value_is orc f -> grad_is orc g ->
  (forall y t z, 0 < t -> r_prox rg y t = Ok z -> is_prox_of_value (r_value rg) t y z) ->
  s_stepping slv = "line-search" ->
  pgd_rule orc rg slv x s x' -> ls_threshold < s ->
  objective f rg x v -> exists v', objective f rg x' v' /\ ele v' v.
Proof. exact line_search_step_descends_lemma. Qed.
Print Assumptions line_search_step_descends.

(** C14.  So, unless some line search fell to the threshold 1e-14 without being accepted, the
    returned point is at least as good as the starting point. *)
Theorem pgd_line_search_monotone :
  forall S (orc : oracle S) rg slv f g x0 s lg x lg' s' v,
  value_is orc f -> grad_is orc g ->
  (forall y t z, 0 < t -> r_prox rg y t = Ok z -> is_prox_of_value (r_value rg) t y z) ->
  s_stepping slv = "line-search" -> objective f rg x0 v ->
  pgd_optimize orc rg slv x0 s lg = Ok (x, lg', s') ->
  exists path, is_path (pgd_rule orc rg slv) x0 path /\ x = endpoint x0 path /\
    (Forall (fun p => ls_threshold < fst p) path -> exists v', objective f rg x v' /\ ele v' v).
Proof. exact pgd_line_search_monotone_lemma. Qed.
Print Assumptions pgd_line_search_monotone.

(** An oracle, a regularizer and a line-search step that meet the hypotheses. *)
Example ex_pgd_line_search_monotone :
  value_is quad_oracle (fun x => / 2 * sqnorm x) /\ grad_is quad_oracle (fun x => x) /\
  (forall y t z, 0 < t -> r_prox free_reg y t = Ok z -> is_prox_of_value (r_value free_reg) t y z) /\
  pgd_rule quad_oracle free_reg (sample_solver "line-search" 2) [1] 1 [0] /\ ls_threshold < 1.
Proof. exact ex_pgd_line_search_monotone_lemma. Qed.

(** C15.  Whenever an iteration is made, the result is an output of the regularizer's proximal
    operator, called with a positive step not exceeding fixed_step_len. *)
Theorem pgd_result_is_prox_output :
  forall S (orc : oracle S) rg slv x0 s lg x lg' s' n,
  pgd_optimize orc rg slv x0 s lg = Ok (x, lg', s') ->
  0 < s_step_len slv -> get lg' "iteration" = Ok (LAtom (LNum (INR n))) -> (0 < n)%nat ->
  exists y step, r_prox rg y step = Ok x /\ 0 < step <= s_step_len slv.
Proof. exact pgd_result_is_prox_output_lemma. Qed.
Print Assumptions pgd_result_is_prox_output.

(** C16.  A tuple of distinct keys: the recorded iterates are x0 and the result of every step,
    the recorded losses are f + penalty at exactly these points, and nothing else is recorded
    but the declared keys, 'converged' and 'iteration'. *)
Theorem pgd_loss_trace :
  forall S (orc : oracle S) rg slv f x0 s keys lg x lg' s',
  value_is orc f -> NoDup keys ->
  mk_logger (Some (KTuple, keys)) = Ok lg ->
  pgd_optimize orc rg slv x0 s lg = Ok (x, lg', s') ->
  exists path, is_path (pgd_rule orc rg slv) x0 path /\ x = endpoint x0 path /\
    get lg' "iteration" = Ok (LAtom (LNum (INR (length path)))) /\
    (In "x" keys -> get lg' "x" = Ok (LList (map LVec (x0 :: map snd path)))) /\
    (In "loss" keys -> exists losses, get lg' "loss" = Ok (LList (map lnum_e losses)) /\
        Forall2 (objective f rg) (x0 :: map snd path) losses) /\
    (forall k v, get lg' k = Ok v -> In k keys \/ k = "converged" \/ k = "iteration").
Proof. exact pgd_loss_trace_lemma. Qed.
Print Assumptions pgd_loss_trace.

(** A run that records its losses and iterates. *)
Example ex_pgd_loss_trace :
  exists lg lg' s', mk_logger (Some (KTuple, ["loss"; "x"])) = Ok lg /\
  pgd_optimize quad_oracle free_reg (sample_solver "fixed" 2) [1] tt lg = Ok ([1 + 1 * -1], lg', s') /\
  get lg' "x" = Ok (LList [LVec [1]; LVec [1 + 1 * -1]]).
Proof. exact ex_pgd_loss_trace_lemma. Qed.

(** C16.  What is logged does not influence the result nor the number of iterations. *)
Theorem pgd_logging_does_not_change_result :
  forall S (orc : oracle S) rg slv f g x0 s1 s2 lg1 lg2 x1 lg1' s1' x2 lg2' s2',
  value_is orc f -> grad_is orc g ->
  pgd_optimize orc rg slv x0 s1 lg1 = Ok (x1, lg1', s1') ->
  pgd_optimize orc rg slv x0 s2 lg2 = Ok (x2, lg2', s2') ->
  x1 = x2 /\ get lg1' "iteration" = get lg2' "iteration" /\ get lg1' "converged" = get lg2' "converged".
Proof. exact pgd_logging_does_not_change_result_lemma. Qed.
Print Assumptions pgd_logging_does_not_change_result.

(** C16, C17.  A set (or list) of keys, although documented, makes the solver raise TypeError
    after all its work, unless both 'converged' and 'iteration' are among the keys. *)
Theorem pgd_set_of_keys_refuted :
  exists lg, mk_logger (Some (KSet, ["loss"])) = Ok lg /\
  forall S (orc : oracle S) rg slv x0 s r, pgd_optimize orc rg slv x0 s lg <> Ok r.
Proof. exact pgd_set_of_keys_refuted_lemma. Qed.
Print Assumptions pgd_set_of_keys_refuted.

(** C17.  The constructor accepts a set or a tuple of keys and starts every key with []. *)
Theorem logger_init :
  forall kd keys, exists lg, mk_logger (Some (kd, keys)) = Ok lg /\ logger_wf lg /\
    (forall k, In k keys -> get lg k = Ok (LList [])) /\
    (forall k, ~ In k keys -> get lg k = Err KeyError).
Proof. exact logger_init_lemma. Qed.
Print Assumptions logger_init.

(** C17.  log appends to the declared keys that hold a list and are given, and changes nothing else. *)
Theorem logger_log_only_declared :
  forall lg params, logger_wf lg -> NoDup (lg_keys lg) ->
  exists lg', log lg params = Ok lg' /\ logger_wf lg' /\ lg_keys lg' = lg_keys lg /\
    (forall k l v, get lg k = Ok (LList l) -> lookup k params = Some v -> get lg' k = Ok (LList (l ++ [v]))) /\
    (forall k, lookup k params = None -> get lg' k = get lg k) /\
    (forall k a, get lg k = Ok (LAtom a) -> get lg' k = get lg k) /\
    (forall k, ~ In k (lg_keys lg) -> get lg' k = Err KeyError).
Proof. exact logger_log_only_declared_lemma. Qed.
Print Assumptions logger_log_only_declared.

(** A logger with two declared keys. *)
Example ex_logger_log_only_declared :
  exists lg lg', mk_logger (Some (KSet, ["loss"; "x"])) = Ok lg /\ logger_wf lg /\ NoDup (lg_keys lg) /\
  log lg [("loss", LNum 1); ("y", LNum 2)] = Ok lg' /\
  get lg' "loss" = Ok (LList [LNum 1]) /\ get lg' "x" = Ok (LList []) /\ get lg' "y" = Err KeyError.
Proof. exact ex_logger_log_only_declared_lemma. Qed.

(** C17.  add on a tuple-keyed logger sets the value and declares the key; get returns it, and
    every other key is unchanged. *)
Theorem logger_add_get :
  forall lg k v, lg_kind lg = KTuple -> logger_wf lg ->
  exists lg', add lg k v = Ok lg' /\ logger_wf lg' /\ lg_kind lg' = KTuple /\ In k (lg_keys lg') /\
    get lg' k = Ok v /\ (forall k', k' <> k -> get lg' k' = get lg k').
Proof. exact logger_add_get_lemma. Qed.
Print Assumptions logger_add_get.

(** C17.  add of an undeclared key to a logger built from a set or a list is a TypeError. *)
Theorem logger_add_to_set_refuted :
  exists lg, mk_logger (Some (KSet, ["loss"])) = Ok lg /\
    add lg "converged" (LAtom (LBool true)) = Err TypeError.
Proof. exact logger_add_to_set_refuted_lemma. Qed.
Print Assumptions logger_add_to_set_refuted.

(** C17.  append adds to a stored number ... *)
Theorem logger_append_partial :
  forall lg k x y, get lg k = Ok (LAtom (LNum x)) ->
  exists lg', append lg k (LAtom (LNum y)) = Ok lg' /\ get lg' k = Ok (LAtom (LNum (x + y))) /\
    (forall k', k' <> k -> get lg' k' = get lg k').
Proof. exact logger_append_partial_lemma. Qed.
Print Assumptions logger_append_partial.

(** C17.  ... but an unknown key does not start from 0: it is a KeyError; and a declared key starts
    from the empty list, to which a number cannot be added. *)
Theorem logger_append_unknown_key_refuted :
  (forall lg k v, get lg k = Err KeyError -> append lg k v = Err KeyError) /\
  (forall lg k r, get lg k = Ok (LList []) -> append lg k (LAtom (LNum r)) = Err TypeError).
Proof. exact logger_append_unknown_key_refuted_lemma. Qed.
Print Assumptions logger_append_unknown_key_refuted.

(** C18.  FakePGDSolver reports converged = True whatever the inner routine did. *)
Theorem fake_pgd_always_converged :
  forall S (orc : oracle S) rg find x0 s lg x lg' s',
  fake_pgd_optimize orc rg find x0 s lg = Ok (x, lg', s') ->
  get lg' "converged" = Ok (LAtom (LBool true)).
Proof. exact fake_pgd_always_converged_lemma. Qed.
Print Assumptions fake_pgd_always_converged.
