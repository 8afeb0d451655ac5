(** Property C111: a strong L1 penalty removes every feature of a linear model (src/pysr3/linear). *)
From Verif.Base Require Import Py Vec Mat.
From Verif.Model Require Import Regularizers Linear.
From Verif.Spec Require Import ProxSpec SolverSpec LinearSpec RateSpec ShrinkSpec.
From Verif.Proofs Require Import LinearShrinkMain.

Open Scope string_scope.
Open Scope list_scope.
Open Scope R_scope.

(** C111.  The zero vector minimises 1/2 |a z - b|^2 + lam sum w|z| exactly when no feature has a correlation with the
    target above lam times its weight. *)
Theorem zero_is_best_iff : forall pr lam w, wf_linear pr -> length w = lp_p pr ->
  (forall z, length z = lp_p pr ->
     least_squares pr (zeros (lp_p pr)) + lam * weighted_l1 w (zeros (lp_p pr)) <= least_squares pr z + lam * weighted_l1 w z) <->
  below_penalty lam w 0 (correlations pr).
Proof. exact zero_is_best_iff_lemma. Qed.
Print Assumptions zero_is_best_iff.

(** C111.  If the correlations are below the penalty by mu, the fit of an L1 model is exactly zero: with steps that
    respect the data, a tolerance below sm mu / 4, and more than |start|^2 / (sm mu)^2 iterations. *)
Theorem linear_l1_removes_all_partial :
  forall argsort inv m pr x0 (warm : bool) weights x lg lam sm mu,
  wf_linear pr -> lm_el m = None -> lm_reg m = mk_l1 lam -> 0 <= lam -> 0 < mu ->
  let w := match weights with Some w => w | None => ones (lp_p pr) end in
  below_penalty lam w mu (correlations pr) ->
  let start := if warm then match x0 with Some x => x | None => ones (lp_p pr) end else ones (lp_p pr) in
  length start = lp_p pr ->
  safe_steps {| s_tol := lm_tol m; s_max_iter := lm_max_iter m; s_stepping := lm_stepping m; s_step_len := effective_step m |}
    (frob (lp_a pr)) sm ->
  0 <= lm_tol m <= sm * mu / 4 -> (0 < lm_max_iter m)%Z -> sqnorm start <= (sm * mu) ^ 2 * (IZR (lm_max_iter m) - 1) ->
  linear_fit_problem argsort inv m pr x0 warm weights = Ok (x, lg) ->
  x = zeros (lp_p pr).
Proof. exact linear_l1_removes_all_partial_lemma. Qed.
Print Assumptions linear_l1_removes_all_partial.

(** C111.  The same for SR3 models; here el c r takes the place of the correlations, where r minimises
    1/2 |a z - b|^2 + el/2 |c z|^2. *)
Theorem sr3_l1_removes_all_partial :
  forall argsort inv m pr x0 (warm : bool) weights x lg lam el r sm mu,
  inv_ok inv -> wf_linear pr -> symmetric (lp_p pr) (lp_c pr) ->
  lm_el m = Some el -> 0 < el -> lm_practical m = false -> lm_reg m = mk_l1 lam -> 0 <= lam -> 0 < mu ->
  let w := match weights with Some w => w | None => ones (lp_p pr) end in
  length r = lp_p pr ->
  (forall z, length z = lp_p pr -> relaxed_loss el pr r (zeros (lp_p pr)) <= relaxed_loss el pr z (zeros (lp_p pr))) ->
  below_penalty lam w mu (vscale el (mv (lp_c pr) r)) ->
  let start := if warm then match x0 with Some x => x | None => ones (lp_p pr) end else ones (lp_p pr) in
  length start = lp_p pr ->
  safe_steps {| s_tol := lm_tol m; s_max_iter := lm_max_iter m; s_stepping := lm_stepping m; s_step_len := effective_step m |}
    el sm ->
  0 <= lm_tol m <= sm * mu / 4 -> (0 < lm_max_iter m)%Z -> sqnorm start <= (sm * mu) ^ 2 * (IZR (lm_max_iter m) - 1) ->
  linear_fit_problem argsort inv m pr x0 warm weights = Ok (x, lg) ->
  x = zeros (lp_p pr).
Proof. exact sr3_l1_removes_all_partial_lemma. Qed.
Print Assumptions sr3_l1_removes_all_partial.

(** C111.  ... and for the practical routine, whose steps have length 1/el. *)
Theorem practical_l1_removes_all_partial :
  forall argsort inv m pr x0 (warm : bool) weights x lg lam el r mu,
  inv_ok inv -> wf_linear pr -> lp_c pr = eye (lp_p pr) ->
  lm_el m = Some el -> 0 < el -> lm_practical m = true -> lm_reg m = mk_l1 lam -> 0 <= lam -> 0 < mu ->
  let w := match weights with Some w => w | None => ones (lp_p pr) end in
  length r = lp_p pr ->
  (forall z, length z = lp_p pr -> relaxed_loss el pr r (zeros (lp_p pr)) <= relaxed_loss el pr z (zeros (lp_p pr))) ->
  below_penalty lam w mu (vscale el (mv (lp_c pr) r)) ->
  let start := if warm then match x0 with Some x => x | None => ones (lp_p pr) end else ones (lp_p pr) in
  length start = lp_p pr ->
  0 <= lm_tol m <= mu / el / 4 -> (0 < lm_max_iter m)%Z -> sqnorm start <= (mu / el) ^ 2 * (IZR (lm_max_iter m) - 1) ->
  linear_fit_problem argsort inv m pr x0 warm weights = Ok (x, lg) ->
  x = zeros (lp_p pr).
Proof. exact practical_l1_removes_all_partial_lemma. Qed.
Print Assumptions practical_l1_removes_all_partial.

(** C111.  A fit that starts at zero stays there if the correlations are not above the penalty, whatever the steps, the
    tolerance and the number of iterations. *)
Theorem linear_l1_stays_at_zero :
  forall argsort inv m pr weights x lg lam,
  wf_linear pr -> lm_el m = None -> lm_reg m = mk_l1 lam -> 0 <= lam -> 0 < effective_step m ->
  let w := match weights with Some w => w | None => ones (lp_p pr) end in
  Forall (fun wi => 0 <= wi) w -> below_penalty lam w 0 (correlations pr) ->
  linear_fit_problem argsort inv m pr (Some (zeros (lp_p pr))) true weights = Ok (x, lg) ->
  x = zeros (lp_p pr).
Proof. exact linear_l1_stays_at_zero_lemma. Qed.
Print Assumptions linear_l1_stays_at_zero.

(** C111 (refuted).  With the default step 0.05, tolerance 1e-5 and 1000 iterations the fit of the target 0 to one
    feature 1/100 under the penalty 1e-5 |x| reports convergence after one iteration, at 0.9999945, although zero is the
    only best point. *)
Theorem linear_l1_removes_all_refuted : forall argsort inv,
  wf_linear faint_problem /\ below_penalty (/ 100000) (ones 1) (/ 100000) (correlations faint_problem) /\
  exists x lg, linear_fit_problem argsort inv (default_l1 (/ 100000)) faint_problem None false None = Ok ([x], lg) /\
    get lg "converged" = Ok (LAtom (LBool true)) /\ x = 9999945 / 10000000.
Proof. exact linear_l1_removes_all_refuted_lemma. Qed.
Print Assumptions linear_l1_removes_all_refuted.

(** A fit within the hypotheses: the target 4 under the penalty 5 |x|, with the step 1 and three iterations. *)
Example ex_linear_l1_removes_all_partial :
  let m := {| lm_el := None; lm_practical := false; lm_reg := mk_l1 5; lm_tol := / 10; lm_max_iter := 3;
     lm_stepping := "fixed"; lm_step_len := Some 1; lm_prior := PNone; lm_keys := (KTuple, []) |} in
  wf_linear (sample_problem 4) /\ below_penalty 5 (ones 1) 1 (correlations (sample_problem 4)) /\
  safe_steps {| s_tol := lm_tol m; s_max_iter := lm_max_iter m; s_stepping := lm_stepping m; s_step_len := effective_step m |}
    (frob (lp_a (sample_problem 4))) 1 /\
  0 <= lm_tol m <= 1 * 1 / 4 /\ sqnorm (ones 1) <= (1 * 1) ^ 2 * (IZR (lm_max_iter m) - 1) /\
  exists lg, linear_fit_problem (fun _ => []) inv_one m (sample_problem 4) None false None = Ok (zeros 1, lg).
Proof. exact ex_linear_l1_removes_all_partial_lemma. Qed.

(** The same with the relaxation el = 1 and the penalty 3 |x|: the relaxed solution is 2. *)
Example ex_sr3_l1_removes_all_partial :
  let m := {| lm_el := Some 1; lm_practical := false; lm_reg := mk_l1 3; lm_tol := / 10; lm_max_iter := 3;
     lm_stepping := "fixed"; lm_step_len := None; lm_prior := PNone; lm_keys := (KTuple, []) |} in
  inv_ok inv_one /\ wf_linear (sample_problem 4) /\ symmetric 1 (lp_c (sample_problem 4)) /\
  (forall z, length z = 1%nat -> relaxed_loss 1 (sample_problem 4) [2] (zeros 1) <= relaxed_loss 1 (sample_problem 4) z (zeros 1)) /\
  below_penalty 3 (ones 1) 1 (vscale 1 (mv (lp_c (sample_problem 4)) [2])) /\
  safe_steps {| s_tol := lm_tol m; s_max_iter := lm_max_iter m; s_stepping := lm_stepping m; s_step_len := effective_step m |} 1 1 /\
  0 <= lm_tol m <= 1 * 1 / 4 /\ sqnorm (zeros 1) <= (1 * 1) ^ 2 * (IZR (lm_max_iter m) - 1) /\
  exists lg, linear_fit_problem (fun _ => []) inv_one m (sample_problem 4) (Some [0]) true None = Ok (zeros 1, lg).
Proof. exact ex_sr3_l1_removes_all_partial_lemma. Qed.
