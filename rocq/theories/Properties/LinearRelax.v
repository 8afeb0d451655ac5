(** Property C120: how far the SR3 relaxation of a linear model is from the problem that it relaxes
    (src/pysr3/linear/oracles.py, src/pysr3/linear/models.py). *)
From Verif.Base Require Import Py Vec Mat.
From Verif.Model Require Import Regularizers Linear.
From Verif.Spec Require Import ProxSpec LinearSpec RateSpec RelaxSpec.
From Verif.Proofs Require Import LinearRelaxMain.

Open Scope string_scope.
Open Scope list_scope.
Open Scope R_scope.

(** C120.  With the identity as c, value_function is below the loss of the problem without the relaxation, exactly by
    |g|^2/(2 el) + |a g|^2/(2 el^2) for the gradient g that gradient_value_function returns, and by at most
    |a'(a x - b)|^2/(2 el). *)
Theorem relaxed_value_below_loss :
  forall inv o0 pr o x, inv_ok inv -> wf_linear pr -> lp_c pr = eye (lp_p pr) -> 0 < so_lam o0 ->
  so_practical o0 = false -> sr3_instantiate inv o0 pr = Ok o -> length x = lp_p pr ->
  exists v g, sr3_value o x = Ok v /\ sr3_gradient o x = Ok g /\
    least_squares pr x = v + / (2 * so_lam o0) * sqnorm g + / (2 * so_lam o0 ^ 2) * sqnorm (mv (lp_a pr) g) /\
    least_squares pr x - / (2 * so_lam o0) * sqnorm (tmv (lp_p pr) (lp_a pr) (vsub (mv (lp_a pr) x) (lp_b pr))) <= v.
Proof. exact relaxed_value_below_loss_lemma. Qed.
Print Assumptions relaxed_value_below_loss.

(** An oracle within the hypotheses. *)
Example ex_relaxed_value_below_loss :
  inv_ok inv_one /\ wf_linear (sample_problem 4) /\ lp_c (sample_problem 4) = eye (lp_p (sample_problem 4)) /\
  exists o, sr3_instantiate inv_one {| so_lam := 1; so_practical := false; so_problem := None; so_data := None |}
    (sample_problem 4) = Ok o.
Proof. exact ex_relaxed_value_below_loss_lemma. Qed.

(** C120.  A larger el gives a larger value, so a closer one. *)
Theorem relaxed_value_grows :
  forall inv o1' o2' pr o1 o2 x, inv_ok inv -> wf_linear pr -> lp_c pr = eye (lp_p pr) ->
  0 < so_lam o1' <= so_lam o2' -> so_practical o1' = false -> so_practical o2' = false ->
  sr3_instantiate inv o1' pr = Ok o1 -> sr3_instantiate inv o2' pr = Ok o2 -> length x = lp_p pr ->
  exists v1 v2, sr3_value o1 x = Ok v1 /\ sr3_value o2 x = Ok v2 /\ v1 <= v2 <= least_squares pr x.
Proof. exact relaxed_value_grows_lemma. Qed.
Print Assumptions relaxed_value_grows.

(** C120.  If x with its best z is within e0 + a|x - u| of every pair for the relaxed problem with the penalty
    lam sum w|x|, then it is within that plus a term of the order 1/el of every u for the problem itself; for an exact
    minimiser e0 and a are 0. *)
Theorem relaxed_minimiser_near_best :
  forall inv o0 pr o lam w best x a e0, inv_ok inv -> wf_linear pr -> lp_c pr = eye (lp_p pr) -> 0 < so_lam o0 ->
  so_practical o0 = false -> sr3_instantiate inv o0 pr = Ok o ->
  0 <= lam -> Forall (fun wi => 0 <= wi) w -> length w = lp_p pr -> 0 <= a -> 0 <= e0 ->
  length best = lp_p pr -> length x = lp_p pr ->
  (forall z u, length z = lp_p pr -> length u = lp_p pr ->
     relaxed_objective (so_lam o0) lam w pr best x <= relaxed_objective (so_lam o0) lam w pr z u + (e0 + a * norm (vsub x u))) ->
  forall u, length u = lp_p pr ->
    plain_objective lam w pr x <= plain_objective lam w pr u + (e0 + a * norm (vsub x u))
      + relaxation_gap (so_lam o0) (lam * norm w + 2 * a + sqrt (2 * so_lam o0 * e0)) pr.
Proof. exact relaxed_minimiser_near_best_lemma. Qed.
Print Assumptions relaxed_minimiser_near_best.

(** C120.  The SR3 linear L1 model: if 'converged' is True, the fitted coefficients are nearly the best ones for the
    L1 problem without the relaxation, with an error that consists of the solver's and of the relaxation's. *)
Theorem sr3_l1_fit_near_plain_best :
  forall argsort inv m pr x0 (warm : bool) weights x lg lam el sm,
  inv_ok inv -> wf_linear pr -> lp_c pr = eye (lp_p pr) ->
  lm_el m = Some el -> 0 < el -> lm_practical m = false -> lm_reg m = mk_l1 lam -> 0 <= lam -> 0 <= lm_tol m ->
  let w := match weights with Some w => w | None => ones (lp_p pr) end in
  Forall (fun wi => 0 <= wi) w -> length w = lp_p pr ->
  let start := if warm then match x0 with Some x => x | None => ones (lp_p pr) end else ones (lp_p pr) in
  length start = lp_p pr ->
  safe_steps {| s_tol := lm_tol m; s_max_iter := lm_max_iter m; s_stepping := lm_stepping m; s_step_len := effective_step m |}
    el sm ->
  linear_fit_problem argsort inv m pr x0 warm weights = Ok (x, lg) ->
  get lg "converged" = Ok (LAtom (LBool true)) ->
  let a := lm_tol m / sm in
  let e0 := lm_tol m ^ 2 / (2 * sm) in
  forall u, length u = lp_p pr ->
    plain_objective lam w pr x <= plain_objective lam w pr u + (e0 + a * norm (vsub x u))
      + relaxation_gap el (lam * norm w + 2 * a + sqrt (2 * el * e0)) pr.
Proof. exact sr3_l1_fit_near_plain_best_lemma. Qed.
Print Assumptions sr3_l1_fit_near_plain_best.

(** A fit within the hypotheses that converges. *)
Example ex_sr3_l1_fit_near_plain_best :
  inv_ok inv_one /\ wf_linear (sample_problem 4) /\ lp_c (sample_problem 4) = eye (lp_p (sample_problem 4)) /\
  length (ones (lp_p (sample_problem 4))) = lp_p (sample_problem 4) /\
  safe_steps {| s_tol := 10; s_max_iter := 2; s_stepping := "fixed"; s_step_len := effective_step two_steps |} 1 1 /\
  exists x lg, linear_fit_problem (fun _ => []) inv_one two_steps (sample_problem 4) None false None = Ok ([x], lg) /\
    x = 3 / 2 /\ get lg "converged" = Ok (LAtom (LBool true)).
Proof. exact ex_sr3_l1_fit_near_plain_best_lemma. Qed.
