(** Property C104: a run with enough iterations reports convergence (src/pysr3/solvers.py, with the
    linear models of src/pysr3/linear). *)
From Verif.Base Require Import Py Vec Mat.
From Verif.Model Require Import Regularizers Linear.
From Verif.Spec Require Import ProxSpec RegSpec SolverSpec LinearSpec RateSpec ConvergeSpec.
From Verif.Proofs Require Import L0Proofs.
From Verif.Proofs Require Import ConvergeMain.

Open Scope string_scope.
Open Scope list_scope.
Open Scope R_scope.

(** C104.  Convex penalties, fixed steps or line search: f need not be convex, only of curvature at most L
    with steps that respect it, and f + penalty at least low.  With u = x0 in the domain the surrogate is the
    initial objective. *)
Theorem pgd_converges_convex_partial :
  forall S (orc : oracle S) rg slv f g dom pen p L sm low x0 u s lg x lg' s',
  value_is orc f -> grad_is orc g -> curved_below p L f g -> 0 <= L ->
  exact_for rg dom pen -> convex_on dom pen -> safe_steps slv L sm -> 0 <= s_tol slv ->
  length x0 = p -> length u = p -> dom u -> bounded_below p dom (fun z => f z + pen z) low ->
  enough_iterations (s_max_iter slv) (1 / (2 * s_step_len slv)) (s_tol slv) (surrogate f g pen sm x0 u) low ->
  pgd_optimize orc rg slv x0 s lg = Ok (x, lg', s') -> get lg' "converged" = Ok (LAtom (LBool true)).
Proof. exact pgd_converges_convex_partial_lemma. Qed.
Print Assumptions pgd_converges_convex_partial.

(** C104.  Penalties that need not be convex, with a fixed step below 1/L. *)
Theorem pgd_converges_fixed_partial :
  forall S (orc : oracle S) rg slv f g dom pen p L low x0 u s lg x lg' s',
  value_is orc f -> grad_is orc g -> curved_below p L f g -> 0 <= L ->
  exact_for rg dom pen -> s_stepping slv <> "line-search" -> 0 < s_step_len slv -> L * s_step_len slv <= 1 ->
  0 <= s_tol slv -> length x0 = p -> length u = p -> dom u -> bounded_below p dom (fun z => f z + pen z) low ->
  enough_iterations (s_max_iter slv) (1 / (2 * s_step_len slv) - L / 2) (s_tol slv)
    (surrogate f g pen (s_step_len slv) x0 u) low ->
  pgd_optimize orc rg slv x0 s lg = Ok (x, lg', s') -> get lg' "converged" = Ok (LAtom (LBool true)).
Proof. exact pgd_converges_fixed_partial_lemma. Qed.
Print Assumptions pgd_converges_fixed_partial.

(** C104.  The linear L1 model: with steps that respect the data, it reports convergence as soon as
    max_iter - 2 exceeds 2 step / tol^2 times the initial objective. *)
Theorem linear_l1_converges_partial :
  forall argsort inv m pr x0 (warm : bool) weights x lg lam sm,
  wf_linear pr -> lm_el m = None -> lm_reg m = mk_l1 lam -> 0 <= lam -> 0 <= lm_tol m ->
  let w := match weights with Some w => w | None => ones (lp_p pr) end in
  Forall (fun wi => 0 <= wi) w ->
  let start := if warm then match x0 with Some x => x | None => ones (lp_p pr) end else ones (lp_p pr) in
  length start = lp_p pr ->
  safe_steps {| s_tol := lm_tol m; s_max_iter := lm_max_iter m; s_stepping := lm_stepping m; s_step_len := effective_step m |}
    (frob (lp_a pr)) sm ->
  enough_iterations (lm_max_iter m) (1 / (2 * effective_step m)) (lm_tol m)
    (least_squares pr start + lam * weighted_l1 w start) 0 ->
  linear_fit_problem argsort inv m pr x0 warm weights = Ok (x, lg) ->
  get lg "converged" = Ok (LAtom (LBool true)).
Proof. exact linear_l1_converges_partial_lemma. Qed.
Print Assumptions linear_l1_converges_partial.

(** C104.  The SR3 linear L1 model, el bounding the curvature; z is any guess for the fitted coefficients. *)
Theorem sr3_l1_converges_partial :
  forall argsort inv m pr x0 (warm : bool) weights x lg lam el sm z,
  inv_ok inv -> wf_linear pr -> symmetric (lp_p pr) (lp_c pr) ->
  lm_el m = Some el -> 0 <= el -> lm_practical m = false -> lm_reg m = mk_l1 lam -> 0 <= lam -> 0 <= lm_tol m ->
  let w := match weights with Some w => w | None => ones (lp_p pr) end in
  Forall (fun wi => 0 <= wi) w ->
  let start := if warm then match x0 with Some x => x | None => ones (lp_p pr) end else ones (lp_p pr) in
  length start = lp_p pr -> length z = lp_p pr ->
  safe_steps {| s_tol := lm_tol m; s_max_iter := lm_max_iter m; s_stepping := lm_stepping m; s_step_len := effective_step m |}
    el sm ->
  enough_iterations (lm_max_iter m) (1 / (2 * effective_step m)) (lm_tol m)
    (relaxed_loss el pr z start + lam * weighted_l1 w start) 0 ->
  linear_fit_problem argsort inv m pr x0 warm weights = Ok (x, lg) ->
  get lg "converged" = Ok (LAtom (LBool true)).
Proof. exact sr3_l1_converges_partial_lemma. Qed.
Print Assumptions sr3_l1_converges_partial.

(** C104.  The SR3 linear L0 model with the identity as c and the default step 1/el: its penalty is not
    convex, but the relaxed problem is strictly flatter than el; z is any guess for the coefficients and u any
    point within the budget. *)
Theorem sr3_l0_converges_partial :
  forall argsort inv m pr x0 (warm : bool) weights x lg nnz el z u,
  argsort_ok argsort -> inv_ok inv -> wf_linear pr -> lp_c pr = eye (lp_p pr) ->
  lm_el m = Some el -> 0 < el -> lm_practical m = false -> lm_reg m = mk_l0 nnz -> 0 <= lm_tol m ->
  lm_stepping m <> "line-search" -> effective_step m = 1 / el ->
  let w := match weights with Some w => w | None => ones (lp_p pr) end in
  let start := if warm then match x0 with Some x => x | None => ones (lp_p pr) end else ones (lp_p pr) in
  length start = lp_p pr -> length z = lp_p pr -> length u = lp_p pr ->
  within_budget (match nnz with Some n => n | None => Z.of_nat (lp_p pr) end) w u ->
  enough_iterations (lm_max_iter m) (el ^ 2 / (2 * (frob (lp_a pr) + el))) (lm_tol m)
    (2 * relaxed_loss el pr z start + el * sqnorm (vsub start u)) 0 ->
  linear_fit_problem argsort inv m pr x0 warm weights = Ok (x, lg) ->
  get lg "converged" = Ok (LAtom (LBool true)).
Proof. exact sr3_l0_converges_partial_lemma. Qed.
Print Assumptions sr3_l0_converges_partial.

(** C104 fails for a fixed step longer than the curvature permits: with the default fixed step 0.05 a single
    observation a = 10 makes the iterates 1, -4, 16, ... and whatever max_iter the fit reports 'converged'
    False. *)
Theorem fixed_step_never_converges_refuted :
  forall argsort inv max_iter, (0 < max_iter)%Z ->
  wf_linear steep_problem /\
  exists x lg, linear_fit_problem argsort inv (steep_model max_iter) steep_problem None false None = Ok (x, lg) /\
    get lg "converged" = Ok (LAtom (LBool false)).
Proof. exact fixed_step_never_converges_refuted_lemma. Qed.
Print Assumptions fixed_step_never_converges_refuted.

(** Started at its solution 3, the model with a = 1, b = 4 and the penalty |x| is within the hypotheses from
    2000 iterations on. *)
Example ex_linear_l1_converges_partial :
  forall max_iter, (2000 <= max_iter)%Z -> let m := patient_l1 None max_iter in
  safe_steps {| s_tol := lm_tol m; s_max_iter := lm_max_iter m; s_stepping := lm_stepping m; s_step_len := effective_step m |}
    (frob (lp_a (sample_problem 4))) 1 /\
  enough_iterations (lm_max_iter m) (1 / (2 * effective_step m)) (lm_tol m)
    (least_squares (sample_problem 4) [3] + 1 * weighted_l1 [1] [3]) 0 /\
  exists lg, linear_fit_problem (fun _ => []) inv_one m (sample_problem 4) (Some [3]) true None = Ok ([3], lg).
Proof. exact ex_linear_l1_converges_partial_lemma. Qed.

(** The same with the relaxation el = 1, whose solution is 2. *)
Example ex_sr3_l1_converges_partial :
  inv_ok inv_one /\ wf_linear (sample_problem 4) /\ symmetric 1 (lp_c (sample_problem 4)) /\
  forall max_iter, (2000 <= max_iter)%Z -> let m := patient_l1 (Some 1) max_iter in
  safe_steps {| s_tol := lm_tol m; s_max_iter := lm_max_iter m; s_stepping := lm_stepping m; s_step_len := effective_step m |}
    1 1 /\
  enough_iterations (lm_max_iter m) (1 / (2 * effective_step m)) (lm_tol m)
    (relaxed_loss 1 (sample_problem 4) [3] [2] + 1 * weighted_l1 [1] [2]) 0 /\
  exists lg, linear_fit_problem (fun _ => []) inv_one m (sample_problem 4) (Some [2]) true None = Ok ([2], lg).
Proof. exact ex_sr3_l1_converges_partial_lemma. Qed.

(** ... and with room for one non-zero instead of the penalty, whose solution is 4. *)
Example ex_sr3_l0_converges_partial :
  argsort_ok argsort_ins /\
  forall max_iter, (2000 <= max_iter)%Z -> let m := patient_l0 1 max_iter in
  effective_step m = 1 / 1 /\ lm_stepping m <> "line-search" /\ within_budget 1 [1] [4] /\
  enough_iterations (lm_max_iter m) (1 ^ 2 / (2 * (frob (lp_a (sample_problem 4)) + 1))) (lm_tol m)
    (2 * relaxed_loss 1 (sample_problem 4) [4] [4] + 1 * sqnorm (vsub [4] [4])) 0 /\
  exists lg, linear_fit_problem argsort_ins inv_one m (sample_problem 4) (Some [4]) true None = Ok ([4], lg).
Proof. exact ex_sr3_l0_converges_partial_lemma. Qed.
