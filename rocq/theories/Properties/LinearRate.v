(** Properties C78-C79: how close the solver's answer is to the best one, for the solver
    (src/pysr3/solvers.py) on any convex problem and for the linear L1 models
    (src/pysr3/linear). *)
From Verif.Base Require Import Py Vec Mat.
From Verif.Model Require Import Regularizers Linear.
From Verif.Spec Require Import ProxSpec SolverSpec LinearSpec RateSpec.
From Verif.Proofs Require Import LinearRateMain.

Open Scope string_scope.
Open Scope list_scope.
Open Scope R_scope.

(** C78.  After n iterations the objective exceeds its value at any competitor u by at most
    |x0 - u|^2 / (2 sm n), where no step is shorter than sm. *)
Theorem pgd_convex_rate :
  forall S (orc : oracle S) rg slv f g dom pen p L sm x0 s lg x lg' s',
  value_is orc f -> grad_is orc g -> convex_smooth p L f g -> 0 <= L ->
  exact_for rg dom pen -> convex_on dom pen -> safe_steps slv L sm -> length x0 = p ->
  pgd_optimize orc rg slv x0 s lg = Ok (x, lg', s') ->
  exists n, get lg' "iteration" = Ok (LAtom (LNum (INR n))) /\
    ((0 < n)%nat -> near_best p dom (fun z => f z + pen z) x (fun u => sqnorm (vsub x0 u) / (2 * sm * INR n))).
Proof. exact pgd_convex_rate_lemma. Qed.
Print Assumptions pgd_convex_rate.

(** C79.  If 'converged' is True, the objective exceeds its value at any competitor u by at most
    (tol / sm) (|x - u| + tol / 2). *)
Theorem pgd_converged_near_optimal :
  forall S (orc : oracle S) rg slv f g dom pen p L sm x0 s lg x lg' s',
  value_is orc f -> grad_is orc g -> convex_smooth p L f g -> 0 <= L ->
  exact_for rg dom pen -> convex_on dom pen -> safe_steps slv L sm -> length x0 = p ->
  pgd_optimize orc rg slv x0 s lg = Ok (x, lg', s') ->
  get lg' "converged" = Ok (LAtom (LBool true)) ->
  near_best p dom (fun z => f z + pen z) x (fun u => s_tol slv / sm * (norm (vsub x u) + s_tol slv / 2)).
Proof. exact pgd_converged_near_optimal_lemma. Qed.
Print Assumptions pgd_converged_near_optimal.

(** The hypotheses hold for x.x/2 without a penalty, with the fixed step 1 and with the line
    search from 1; and a run on it converges. *)
Example ex_pgd_convex_rate :
  value_is quad_oracle (fun x => / 2 * sqnorm x) /\ grad_is quad_oracle (fun x => x) /\
  convex_smooth 1 1 (fun x => / 2 * sqnorm x) (fun x => x) /\
  exact_for free_reg all_vecs (fun _ => 0) /\ convex_on all_vecs (fun _ => 0) /\
  safe_steps (sample_solver "fixed" 2) 1 1 /\ safe_steps (sample_solver "line-search" 2) 1 (/ 2) /\
  exists lg' s', pgd_optimize quad_oracle free_reg (sample_solver "fixed" 2) [1] tt
    {| lg_kind := KTuple; lg_keys := []; lg_dict := [] |} = Ok ([1 + 1 * -1], lg', s') /\
  get lg' "converged" = Ok (LAtom (LBool true)) /\ get lg' "iteration" = Ok (LAtom (LNum 1)).
Proof. exact ex_pgd_convex_rate_lemma. Qed.

(** C78, C79.  The linear L1 model: 1/2 |a z - b|^2 + lam sum w|z| at the fitted coefficients is within
    |start - u|^2 / (2 sm n) of its value at any u, and, when 'converged' is True, within
    (tol / sm) (|x - u| + tol / 2); the squared Frobenius norm of the data bounds the curvature. *)
Theorem linear_l1_fit_near_best :
  forall argsort inv m pr x0 (warm : bool) weights x lg lam sm,
  wf_linear pr -> lm_el m = None -> lm_reg m = mk_l1 lam -> 0 <= lam ->
  let w := match weights with Some w => w | None => ones (lp_p pr) end in
  Forall (fun wi => 0 <= wi) w ->
  let start := if warm then match x0 with Some x => x | None => ones (lp_p pr) end else ones (lp_p pr) in
  length start = lp_p pr ->
  safe_steps {| s_tol := lm_tol m; s_max_iter := lm_max_iter m; s_stepping := lm_stepping m; s_step_len := effective_step m |}
    (frob (lp_a pr)) sm ->
  linear_fit_problem argsort inv m pr x0 warm weights = Ok (x, lg) ->
  let F := fun z => least_squares pr z + lam * weighted_l1 w z in
  exists n b, get lg "iteration" = Ok (LAtom (LNum (INR n))) /\ get lg "converged" = Ok (LAtom (LBool b)) /\
    ((0 < n)%nat -> near_best (lp_p pr) all_vecs F x (fun u => sqnorm (vsub start u) / (2 * sm * INR n))) /\
    (b = true -> near_best (lp_p pr) all_vecs F x (fun u => lm_tol m / sm * (norm (vsub x u) + lm_tol m / 2))).
Proof. exact linear_l1_fit_near_best_lemma. Qed.
Print Assumptions linear_l1_fit_near_best.

(** C78, C79.  The SR3 linear L1 model: together with its best x the fitted w is within the same errors of
    every pair (z, u) for 1/2 |a z - b|^2 + el/2 |c z - u|^2 + lam sum w|u|; el bounds the curvature. *)
Theorem sr3_l1_fit_near_best :
  forall argsort inv m pr x0 (warm : bool) weights x lg lam el sm,
  inv_ok inv -> wf_linear pr -> symmetric (lp_p pr) (lp_c pr) ->
  lm_el m = Some el -> 0 <= el -> lm_practical m = false -> lm_reg m = mk_l1 lam -> 0 <= lam ->
  let w := match weights with Some w => w | None => ones (lp_p pr) end in
  Forall (fun wi => 0 <= wi) w ->
  let start := if warm then match x0 with Some x => x | None => ones (lp_p pr) end else ones (lp_p pr) in
  length start = lp_p pr ->
  safe_steps {| s_tol := lm_tol m; s_max_iter := lm_max_iter m; s_stepping := lm_stepping m; s_step_len := effective_step m |}
    el sm ->
  linear_fit_problem argsort inv m pr x0 warm weights = Ok (x, lg) ->
  let F := fun z u => relaxed_loss el pr z u + lam * weighted_l1 w u in
  exists best n b, length best = lp_p pr /\
    get lg "iteration" = Ok (LAtom (LNum (INR n))) /\ get lg "converged" = Ok (LAtom (LBool b)) /\
    ((0 < n)%nat -> forall z, length z = lp_p pr ->
       forall u, length u = lp_p pr -> F best x <= F z u + sqnorm (vsub start u) / (2 * sm * INR n)) /\
    (b = true -> forall z, length z = lp_p pr ->
       forall u, length u = lp_p pr -> F best x <= F z u + lm_tol m / sm * (norm (vsub x u) + lm_tol m / 2)).
Proof. exact sr3_l1_fit_near_best_lemma. Qed.
Print Assumptions sr3_l1_fit_near_best.

(** C78.  The practical SR3 L1 model, which does not report its iterations: with a positive el and
    max_iter its answer is either that of max_iter iterations, or of a last step within tol. *)
Theorem practical_l1_fit_near_best :
  forall argsort inv m pr x0 (warm : bool) weights x lg lam el,
  inv_ok inv -> wf_linear pr -> lp_c pr = eye (lp_p pr) ->
  lm_el m = Some el -> 0 < el -> lm_practical m = true -> (0 < lm_max_iter m)%Z ->
  lm_reg m = mk_l1 lam -> 0 <= lam ->
  let w := match weights with Some w => w | None => ones (lp_p pr) end in
  Forall (fun wi => 0 <= wi) w ->
  let start := if warm then match x0 with Some x => x | None => ones (lp_p pr) end else ones (lp_p pr) in
  length start = lp_p pr ->
  linear_fit_problem argsort inv m pr x0 warm weights = Ok (x, lg) ->
  let F := fun z u => relaxed_loss el pr z u + lam * weighted_l1 w u in
  exists best, length best = lp_p pr /\
    ((forall z, length z = lp_p pr -> forall u, length u = lp_p pr ->
        F best x <= F z u + el * sqnorm (vsub start u) / (2 * IZR (lm_max_iter m))) \/
     (forall z, length z = lp_p pr -> forall u, length u = lp_p pr ->
        F best x <= F z u + lm_tol m * el * (norm (vsub x u) + lm_tol m / 2))).
Proof. exact practical_l1_fit_near_best_lemma. Qed.
Print Assumptions practical_l1_fit_near_best.

(** A fit within the hypotheses: 4 is shrunk to 3 in one iteration. *)
Example ex_linear_l1_fit :
  safe_steps {| s_tol := / 10; s_max_iter := 1; s_stepping := "fixed"; s_step_len := effective_step (short_l1 None false) |}
    (frob (lp_a (sample_problem 4))) 1 /\
  exists x lg, linear_fit_problem (fun _ => []) inv_one (short_l1 None false) (sample_problem 4) None false None = Ok ([x], lg) /\
    x = 3 /\ get lg "iteration" = Ok (LAtom (LNum 1)) /\ get lg "converged" = Ok (LAtom (LBool false)).
Proof. exact ex_linear_l1_fit_lemma. Qed.

(** The same with the relaxation el = 1, fitted by PGDSolver and by the practical routine: the
    relaxed solution 5/2 is shrunk to 3/2. *)
Example ex_sr3_l1_fit :
  inv_ok inv_one /\ wf_linear (sample_problem 4) /\ lp_c (sample_problem 4) = eye 1 /\
  safe_steps {| s_tol := / 10; s_max_iter := 1; s_stepping := "fixed"; s_step_len := effective_step (short_l1 (Some 1) false) |}
    1 1 /\
  exists x lg lg', x = 3 / 2 /\
    linear_fit_problem (fun _ => []) inv_one (short_l1 (Some 1) false) (sample_problem 4) None false None = Ok ([x], lg) /\
    linear_fit_problem (fun _ => []) inv_one (short_l1 (Some 1) true) (sample_problem 4) None false None = Ok ([x], lg') /\
    get lg "iteration" = Ok (LAtom (LNum 1)).
Proof. exact ex_sr3_l1_fit_lemma. Qed.

(** The bound on the fixed step is needed: with the default step 5/100 and a = 10 one iteration
    on 1/2 |10 x|^2 multiplies the loss by 16. *)
Example ex_long_fixed_step :
  let pr := {| lp_a := [[10]]; lp_b := [0]; lp_n := 1; lp_p := 1; lp_c := [[1]]; lp_weights := Some [0]; lp_obs_std := None |} in
  frob (lp_a pr) * effective_step (sample_linear None false RDummy) = 5 /\
  exists x lg, linear_fit_problem (fun _ => []) inv_one (sample_linear None false RDummy) pr None false None = Ok ([x], lg) /\
    least_squares pr [x] = 16 * least_squares pr [1].
Proof. exact ex_long_fixed_step_lemma. Qed.
