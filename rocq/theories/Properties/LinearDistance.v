(** Property C115: how far the coefficients of a linear L1 model (src/pysr3/linear, src/pysr3/solvers.py) are
    from the best ones when the columns are independent. *)
From Verif.Base Require Import Py Vec Mat.
From Verif.Model Require Import Regularizers Linear.
From Verif.Spec Require Import ProxSpec SolverSpec LinearSpec RateSpec DistanceSpec.
From Verif.Proofs Require Import LinearDistanceMain.

Open Scope string_scope.
Open Scope list_scope.
Open Scope R_scope.

(** C115.  A run on a strongly convex objective: n iterations divide the squared distance to the minimiser u by
    (1 + sm mu)^n, and when 'converged' is True the distance is at most tol (2 / (sm mu) + 1/2). *)
Theorem pgd_distance :
  forall S (orc : oracle S) rg slv f g dom pen p L sm mu u x0 s lg x lg' s',
  value_is orc f -> grad_is orc g -> convex_smooth p L f g -> 0 <= L -> 0 < mu -> curved_above p mu f g ->
  exact_for rg dom pen -> convex_on dom pen -> safe_steps slv L sm ->
  best_in p dom (fun z => f z + pen z) u -> length x0 = p -> (0 < p)%nat ->
  pgd_optimize orc rg slv x0 s lg = Ok (x, lg', s') ->
  exists n b, get lg' "iteration" = Ok (LAtom (LNum (INR n))) /\ get lg' "converged" = Ok (LAtom (LBool b)) /\
    geometric sm mu n x0 u x /\ (b = true -> settled sm mu (s_tol slv) u x).
Proof. exact pgd_distance_lemma. Qed.
Print Assumptions pgd_distance.

(** C115.  The plain L1 model: the objective has exactly one minimiser u, n iterations divide the squared distance to
    it by (1 + sm mu)^n, and when 'converged' is True the distance is at most tol (2 / (sm mu) + 1/2). *)
Theorem linear_l1_fit_distance :
  forall argsort inv m pr x0 (warm : bool) weights x lg lam sm mu,
  wf_linear pr -> (0 < lp_p pr)%nat -> lm_el m = None -> lm_reg m = mk_l1 lam -> 0 <= lam ->
  let w := match weights with Some w => w | None => ones (lp_p pr) end in
  Forall (fun wi => 0 <= wi) w -> length w = lp_p pr ->
  let start := if warm then match x0 with Some x => x | None => ones (lp_p pr) end else ones (lp_p pr) in
  length start = lp_p pr ->
  safe_steps {| s_tol := lm_tol m; s_max_iter := lm_max_iter m; s_stepping := lm_stepping m; s_step_len := effective_step m |}
    (frob (lp_a pr)) sm ->
  independent (lp_p pr) mu (lp_a pr) ->
  linear_fit_problem argsort inv m pr x0 warm weights = Ok (x, lg) ->
  let F := fun z => least_squares pr z + lam * weighted_l1 w z in
  exists u, best_in (lp_p pr) all_vecs F u /\ (forall u', best_in (lp_p pr) all_vecs F u' -> u' = u) /\
  exists n b, get lg "iteration" = Ok (LAtom (LNum (INR n))) /\ get lg "converged" = Ok (LAtom (LBool b)) /\
    geometric sm mu n start u x /\ (b = true -> settled sm mu (lm_tol m) u x).
Proof. exact linear_l1_fit_distance_lemma. Qed.
Print Assumptions linear_l1_fit_distance.

(** C115.  The SR3 L1 model with c = I: the relaxed objective has exactly one minimising pair (z, u), and the fitted
    coefficients approach u as above, with the curvature mu el / (mu + el). *)
Theorem sr3_l1_fit_distance :
  forall argsort inv m pr x0 (warm : bool) weights x lg lam el sm mu,
  inv_ok inv -> wf_linear pr -> (0 < lp_p pr)%nat -> lp_c pr = eye (lp_p pr) ->
  lm_el m = Some el -> 0 < el -> lm_practical m = false -> lm_reg m = mk_l1 lam -> 0 <= lam ->
  let w := match weights with Some w => w | None => ones (lp_p pr) end in
  Forall (fun wi => 0 <= wi) w -> length w = lp_p pr ->
  let start := if warm then match x0 with Some x => x | None => ones (lp_p pr) end else ones (lp_p pr) in
  length start = lp_p pr ->
  safe_steps {| s_tol := lm_tol m; s_max_iter := lm_max_iter m; s_stepping := lm_stepping m; s_step_len := effective_step m |}
    el sm ->
  independent (lp_p pr) mu (lp_a pr) ->
  linear_fit_problem argsort inv m pr x0 warm weights = Ok (x, lg) ->
  let F := fun z u => relaxed_loss el pr z u + lam * weighted_l1 w u in
  exists z u, best_pair (lp_p pr) F z u /\ (forall z' u', best_pair (lp_p pr) F z' u' -> z' = z /\ u' = u) /\
  exists n b, get lg "iteration" = Ok (LAtom (LNum (INR n))) /\ get lg "converged" = Ok (LAtom (LBool b)) /\
    geometric sm (relaxed_curvature el mu) n start u x /\
    (b = true -> settled sm (relaxed_curvature el mu) (lm_tol m) u x).
Proof. exact sr3_l1_fit_distance_lemma. Qed.
Print Assumptions sr3_l1_fit_distance.

(** C115.  The practical SR3 L1 model does not report its iterations: its answer is either that of max_iter
    iterations, or of a last step within tol (the step is 1/el). *)
Theorem practical_l1_fit_distance :
  forall argsort inv m pr x0 (warm : bool) weights x lg lam el mu,
  inv_ok inv -> wf_linear pr -> (0 < lp_p pr)%nat -> lp_c pr = eye (lp_p pr) ->
  lm_el m = Some el -> 0 < el -> lm_practical m = true -> (0 < lm_max_iter m)%Z ->
  lm_reg m = mk_l1 lam -> 0 <= lam ->
  let w := match weights with Some w => w | None => ones (lp_p pr) end in
  Forall (fun wi => 0 <= wi) w -> length w = lp_p pr ->
  let start := if warm then match x0 with Some x => x | None => ones (lp_p pr) end else ones (lp_p pr) in
  length start = lp_p pr ->
  independent (lp_p pr) mu (lp_a pr) ->
  linear_fit_problem argsort inv m pr x0 warm weights = Ok (x, lg) ->
  let F := fun z u => relaxed_loss el pr z u + lam * weighted_l1 w u in
  exists z u, best_pair (lp_p pr) F z u /\ (forall z' u', best_pair (lp_p pr) F z' u' -> z' = z /\ u' = u) /\
    (geometric (1 / el) (relaxed_curvature el mu) (Z.to_nat (lm_max_iter m)) start u x \/
     settled (1 / el) (relaxed_curvature el mu) (lm_tol m) u x).
Proof. exact practical_l1_fit_distance_lemma. Qed.
Print Assumptions practical_l1_fit_distance.

(** The hypotheses hold for the fits of C78: one observation a = 1 has the curvature 1 (1/2 after the relaxation
    with el = 1), the minimisers are 3 and (3, 2), and the fits from 1 return 3 and 3/2 (C78). *)
Example ex_linear_l1_distance :
  independent 1 1 (lp_a (sample_problem 4)) /\ relaxed_curvature 1 1 = / 2 /\
  best_in 1 all_vecs (fun z => least_squares (sample_problem 4) z + 1 * weighted_l1 [1] z) [3] /\
  best_pair 1 (fun z u => relaxed_loss 1 (sample_problem 4) z u + 1 * weighted_l1 [1] u) [3] [2] /\
  geometric 1 (/ 2) 1 [1] [2] [3 / 2].
Proof. exact ex_linear_l1_distance_lemma. Qed.

(** Without independent columns the best coefficients are not unique: with two equal columns, 2 = x1 + x2 and lam = 1,
    both (1, 0) and (0, 1) are best. *)
Example ex_twin_columns :
  let F := fun z => least_squares twin_problem z + 1 * weighted_l1 [1; 1] z in
  best_in 2 all_vecs F [1; 0] /\ best_in 2 all_vecs F [0; 1] /\ forall mu, ~ independent 2 mu (lp_a twin_problem).
Proof. exact ex_twin_columns_lemma. Qed.
