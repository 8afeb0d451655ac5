(** Property C116: which features a linear L1 model (src/pysr3/linear, src/pysr3/solvers.py) selects. *)
From Verif.Base Require Import Py Vec Mat.
From Verif.Model Require Import Regularizers Linear.
From Verif.Spec Require Import ProxSpec SolverSpec LinearSpec RateSpec DistanceSpec SelectionSpec.
From Verif.Proofs Require Import LinearSelectionMain.

Open Scope string_scope.
Open Scope list_scope.
Open Scope R_scope.

(** C116.  The plain L1 model with independent columns: when the best coefficients u are told apart from zero by the
    margins dz (of the penalty) and dn (of u), enough iterations, or converged=True with tol small enough for the
    margins, give exactly the features of u with its signs. *)
Theorem linear_l1_fit_selects :
  forall argsort inv m pr x0 (warm : bool) weights x lg lam sm mu u dz dn,
  wf_linear pr -> (0 < lp_p pr)%nat -> lm_el m = None -> lm_reg m = mk_l1 lam -> 0 <= lam ->
  let w := match weights with Some w => w | None => ones (lp_p pr) end in
  Forall (fun wi => 0 <= wi) w -> length w = lp_p pr ->
  let start := if warm then match x0 with Some x => x | None => ones (lp_p pr) end else ones (lp_p pr) in
  length start = lp_p pr ->
  safe_steps {| s_tol := lm_tol m; s_max_iter := lm_max_iter m; s_stepping := lm_stepping m; s_step_len := effective_step m |}
    (frob (lp_a pr)) sm ->
  independent (lp_p pr) mu (lp_a pr) ->
  linear_fit_problem argsort inv m pr x0 warm weights = Ok (x, lg) ->
  best_in (lp_p pr) all_vecs (fun z => least_squares pr z + lam * weighted_l1 w z) u ->
  0 < dz -> 0 < dn -> clear_cut lam w (residual_correlations pr u) u dz dn ->
  exists n b, get lg "iteration" = Ok (LAtom (LNum (INR n))) /\ get lg "converged" = Ok (LAtom (LBool b)) /\
    (enough_steps sm mu (frob (lp_a pr)) dz dn n (sqnorm (vsub start u)) -> same_selection u x) /\
    (b = true -> fine_enough sm mu (frob (lp_a pr)) dz dn (lm_tol m) -> same_selection u x).
Proof. exact linear_l1_fit_selects_lemma. Qed.
Print Assumptions linear_l1_fit_selects.

(** C116.  The SR3 L1 model with c = I: the same for the best pair (z, u); the gradient at u is el (u - z). *)
Theorem sr3_l1_fit_selects :
  forall argsort inv m pr x0 (warm : bool) weights x lg lam el sm mu z u dz dn,
  inv_ok inv -> wf_linear pr -> (0 < lp_p pr)%nat -> lp_c pr = eye (lp_p pr) ->
  lm_el m = Some el -> 0 < el -> lm_practical m = false -> lm_reg m = mk_l1 lam -> 0 <= lam ->
  let w := match weights with Some w => w | None => ones (lp_p pr) end in
  Forall (fun wi => 0 <= wi) w -> length w = lp_p pr ->
  let start := if warm then match x0 with Some x => x | None => ones (lp_p pr) end else ones (lp_p pr) in
  length start = lp_p pr ->
  safe_steps {| s_tol := lm_tol m; s_max_iter := lm_max_iter m; s_stepping := lm_stepping m; s_step_len := effective_step m |}
    el sm ->
  independent (lp_p pr) mu (lp_a pr) ->
  linear_fit_problem argsort inv m pr x0 warm weights = Ok (x, lg) ->
  best_pair (lp_p pr) (fun z u => relaxed_loss el pr z u + lam * weighted_l1 w u) z u ->
  0 < dz -> 0 < dn -> clear_cut lam w (vscale el (vsub u z)) u dz dn ->
  exists n b, get lg "iteration" = Ok (LAtom (LNum (INR n))) /\ get lg "converged" = Ok (LAtom (LBool b)) /\
    (enough_steps sm (relaxed_curvature el mu) el dz dn n (sqnorm (vsub start u)) -> same_selection u x) /\
    (b = true -> fine_enough sm (relaxed_curvature el mu) el dz dn (lm_tol m) -> same_selection u x).
Proof. exact sr3_l1_fit_selects_lemma. Qed.
Print Assumptions sr3_l1_fit_selects.

(** C116.  The practical SR3 L1 model does not report its iterations: both conditions are asked for. *)
Theorem practical_l1_fit_selects :
  forall argsort inv m pr x0 (warm : bool) weights x lg lam el mu z u dz dn,
  inv_ok inv -> wf_linear pr -> (0 < lp_p pr)%nat -> lp_c pr = eye (lp_p pr) ->
  lm_el m = Some el -> 0 < el -> lm_practical m = true -> (0 < lm_max_iter m)%Z ->
  lm_reg m = mk_l1 lam -> 0 <= lam ->
  let w := match weights with Some w => w | None => ones (lp_p pr) end in
  Forall (fun wi => 0 <= wi) w -> length w = lp_p pr ->
  let start := if warm then match x0 with Some x => x | None => ones (lp_p pr) end else ones (lp_p pr) in
  length start = lp_p pr ->
  independent (lp_p pr) mu (lp_a pr) ->
  linear_fit_problem argsort inv m pr x0 warm weights = Ok (x, lg) ->
  best_pair (lp_p pr) (fun z u => relaxed_loss el pr z u + lam * weighted_l1 w u) z u ->
  0 < dz -> 0 < dn -> clear_cut lam w (vscale el (vsub u z)) u dz dn ->
  enough_steps (1 / el) (relaxed_curvature el mu) el dz dn (Z.to_nat (lm_max_iter m)) (sqnorm (vsub start u)) ->
  fine_enough (1 / el) (relaxed_curvature el mu) el dz dn (lm_tol m) -> same_selection u x.
Proof. exact practical_l1_fit_selects_lemma. Qed.
Print Assumptions practical_l1_fit_selects.

(** The conditions hold for two independent features with the responses 4 and 1/2 and lam = 1: the best coefficients
    are (3, 0), with the margins 1/2 and 3.  From (1, 1) twenty steps of length 1/2 or tol = 1/50 suffice. *)
Example ex_l1_selects :
  independent 2 1 (lp_a two_features) /\ frob (lp_a two_features) = 2 /\
  best_in 2 all_vecs (fun z => least_squares two_features z + 1 * weighted_l1 [1; 1] z) [3; 0] /\
  clear_cut 1 [1; 1] (residual_correlations two_features [3; 0]) [3; 0] (1 / 2) 3 /\
  enough_steps (1 / 2) 1 2 (1 / 2) 3 20 (sqnorm (vsub [1; 1] [3; 0])) /\
  fine_enough (1 / 2) 1 2 (1 / 2) 3 (1 / 50) /\
  same_selection [3; 0] [5 / 2; 0] /\ ~ same_selection [3; 0] [3; 1 / 1000].
Proof. exact ex_l1_selects_lemma. Qed.
