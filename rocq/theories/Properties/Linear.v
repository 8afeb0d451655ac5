(** Properties C18-C28: linear models (src/pysr3/linear) and priors (src/pysr3/priors.py,
    src/pysr3/lme/priors.py). *)
From Verif.Base Require Import Py Vec Mat.
From Verif.Model Require Import Regularizers Linear.
From Verif.Spec Require Import ProxSpec SolverSpec LinearSpec.
From Verif.Proofs Require Import LinearMain.

Open Scope string_scope.
Open Scope list_scope.
Open Scope R_scope.

(** C18 (refuted).  FakePGDSolver reports converged = True for every run, whatever the inner
    routine did; *)
Theorem practical_converged_flag_refuted :
  (forall S (orc : oracle S) rg find x0 s lg x lg' s',
     fake_pgd_optimize orc rg find x0 s lg = Ok (x, lg', s') ->
     get lg' "converged" = Ok (LAtom (LBool true))) /\
  (exists m pr o x1 lg, lm_practical m = true /\ lm_tol m = / 10 /\ lm_max_iter m = 1%Z /\
     sr3_instantiate inv_one {| so_lam := 1; so_practical := false; so_problem := None; so_data := None |} pr = Ok o /\
     sr3_find_count o (as_regularizer (fun _ => []) RDummy) (lm_tol m) (lm_max_iter m) [1] = Ok ([x1], 1%nat) /\
     / 10 < norm (vsub [x1] [1]) /\
     linear_fit_problem (fun _ => []) inv_one m pr None false None = Ok ([x1], lg) /\
     get lg "converged" = Ok (LAtom (LBool true))).
Proof. exact practical_converged_flag_refuted_lemma. Qed.
Print Assumptions practical_converged_flag_refuted.

(** C18 (partial).  What is true: the inner iteration makes at most max_iter steps, and when it
    makes fewer the last step moved the point by at most tol. *)
Theorem practical_stops_truthfully_partial :
  forall o rg tol max_iter x0 x n,
  sr3_find_count o rg tol max_iter x0 = Ok (x, n) ->
  (n <= Z.to_nat max_iter)%nat /\
  ((Z.of_nat n < max_iter)%Z -> (n = 0%nat /\ x = x0 /\ x0 = []) \/
     exists x_prev, norm (vsub x x_prev) <= tol).
Proof. exact practical_stops_truthfully_partial_lemma. Qed.
Print Assumptions practical_stops_truthfully_partial.

(** C19.  gradient and hessian are the exact first and second derivatives of loss, with or
    without an (instantiated) Gaussian prior. *)
Theorem linear_gradient_hessian_exact :
  forall pr pri x d, wf_linear pr -> length x = lp_p pr -> length d = lp_p pr ->
  (pri = PNone \/ exists g0 g cols, gauss_instantiate g0 cols = Ok g /\ length cols = lp_p pr /\ pri = PGauss g) ->
  let o := {| lo_problem := Some pr; lo_prior := pri |} in
  exists f f' g h, lin_loss o x = Ok f /\ lin_loss o (vadd x d) = Ok f' /\
    lin_gradient o x = Ok g /\ lin_hessian o = Ok h /\
    length g = lp_p pr /\ is_shape (lp_p pr) (lp_p pr) h /\
    f' = f + vdot g d + / 2 * vdot d (mv h d).
Proof. exact linear_gradient_hessian_exact_lemma. Qed.
Print Assumptions linear_gradient_hessian_exact.

(** One observation a = 1, b = 4 with the prior N(1, 2), at 3: 1/2 for the residual and 1 for the prior. *)
Example ex_linear_gradient :
  wf_linear (sample_problem 4) /\
  exists g, gauss_instantiate (mk_gauss [("a", (1, 2))]) ["a"] = Ok g /\
  exists v, lin_loss {| lo_problem := Some (sample_problem 4); lo_prior := PGauss g |} [3] = Ok v /\ v = / 2 + 1.
Proof. exact ex_linear_gradient_lemma. Qed.

(** C19.  The least-squares loss itself: half the squared residual norm. *)
Theorem linear_loss_is_least_squares :
  forall pr x, wf_linear pr -> length x = lp_p pr ->
  lin_loss {| lo_problem := Some pr; lo_prior := PNone |} x = Ok (least_squares pr x).
Proof. exact linear_loss_is_least_squares_lemma. Qed.
Print Assumptions linear_loss_is_least_squares.

(** C20.  For data with squared Frobenius norm up to 5e13, every line search of a least-squares
    fit ends with an accepted step, and the penalised loss never increases along the run (from
    the first point in the penalty's domain on). *)
Theorem linear_line_search_always_accepted :
  forall pr rg dom pen slv x0 s lg x lg' s',
  wf_linear pr -> frob (lp_a pr) <= 50000000000000 -> exact_for rg dom pen ->
  s_stepping slv = "line-search" -> ls_threshold < s_step_len slv ->
  let orc := lin_as_oracle {| lo_problem := Some pr; lo_prior := PNone |} in
  pgd_optimize orc rg slv x0 s lg = Ok (x, lg', s') ->
  exists path, is_path (pgd_rule orc rg slv) x0 path /\ x = endpoint x0 path /\
    Forall (fun p => ls_threshold < fst p) path /\
    non_increasing dom (fun x => least_squares pr x + pen x) x0 path /\
    (dom x0 -> least_squares pr x + pen x <= least_squares pr x0 + pen x0).
Proof. exact linear_line_search_always_accepted_lemma. Qed.
Print Assumptions linear_line_search_always_accepted.

(** C20.  Fitting the L1 model: least squares + lam * sum w|x| of the coefficients is at most that of the
    starting point (all ones unless warm started). *)
Theorem linear_l1_fit_no_worse_than_start :
  forall argsort inv m pr x0 (warm : bool) weights x lg lam,
  wf_linear pr -> frob (lp_a pr) <= 50000000000000 ->
  lm_el m = None -> lm_reg m = mk_l1 lam -> 0 <= lam ->
  lm_stepping m = "line-search" -> ls_threshold < effective_step m ->
  let w := match weights with Some w => w | None => ones (lp_p pr) end in
  Forall (fun wi => 0 <= wi) w ->
  let start := if warm then match x0 with Some x => x | None => ones (lp_p pr) end else ones (lp_p pr) in
  linear_fit_problem argsort inv m pr x0 warm weights = Ok (x, lg) ->
  least_squares pr x + lam * weighted_l1 w x <= least_squares pr start + lam * weighted_l1 w start.
Proof. exact linear_l1_fit_no_worse_than_start_lemma. Qed.
Print Assumptions linear_l1_fit_no_worse_than_start.

(** A problem and a model within the bounds of the theorem. *)
Example ex_linear_fit_bounds :
  frob (lp_a (sample_problem 1)) <= 50000000000000 /\
  ls_threshold < effective_step (sample_linear None false (mk_l1 1)).
Proof. exact ex_linear_fit_bounds_lemma. Qed.

(** C21.  value_function(w) is the minimum over x of the relaxed loss, attained at
    x = H^-1(A'b + lam C'w); gradient_value_function(w) is lam (w - C x) and is the derivative of
    the value function, whose curvature is at most lam. *)
Theorem sr3_value_is_partial_minimum :
  forall inv o0 pr o w, inv_ok inv -> wf_linear pr -> symmetric (lp_p pr) (lp_c pr) ->
  0 <= so_lam o0 -> so_practical o0 = false -> sr3_instantiate inv o0 pr = Ok o -> length w = lp_p pr ->
  exists d x v g, so_data o = Some d /\
    x = mv (sd_h_inv d) (vadd (tmv (lp_p pr) (lp_a pr) (lp_b pr)) (vscale (so_lam o0) (tmv (lp_p pr) (lp_c pr) w))) /\
    length x = lp_p pr /\
    sr3_value o w = Ok v /\ sr3_loss o x w = Ok v /\ v = relaxed_loss (so_lam o0) pr x w /\
    (forall x', length x' = lp_p pr -> v <= relaxed_loss (so_lam o0) pr x' w) /\
    sr3_gradient o w = Ok g /\ g = vscale (so_lam o0) (vsub w (mv (lp_c pr) x)) /\
    (forall e, length e = lp_p pr -> exists v' q, sr3_value o (vadd w e) = Ok v' /\
       v' = v + vdot g e + / 2 * q /\ 0 <= q <= so_lam o0 * sqnorm e).
Proof. exact sr3_value_is_partial_minimum_lemma. Qed.
Print Assumptions sr3_value_is_partial_minimum.

(** An inverse that keeps the contract and an SR3 oracle that is instantiated with it. *)
Example ex_sr3_instance :
  inv_ok inv_one /\ wf_linear (sample_problem 4) /\ symmetric 1 (lp_c (sample_problem 4)) /\
  exists o, sr3_instantiate inv_one {| so_lam := 1; so_practical := false; so_problem := None; so_data := None |}
    (sample_problem 4) = Ok o.
Proof. exact ex_sr3_instance_lemma. Qed.

(** C22.  find_optimal_parameters returns the same point after the same number of iterations, or
    raises the same exception, as PGDSolver with the fixed step 1/lam on the value function. *)
Theorem practical_equals_fixed_step_pgd :
  forall inv o1' o2' o1 o2 pr rg tol max_iter x0,
  inv_ok inv -> wf_linear pr -> lp_c pr = eye (lp_p pr) -> 0 < so_lam o2' ->
  so_lam o1' = so_lam o2' -> so_practical o2' = false ->
  sr3_instantiate inv o1' pr = Ok o1 -> sr3_instantiate inv o2' pr = Ok o2 ->
  let slv := {| s_tol := tol; s_max_iter := max_iter; s_stepping := "fixed"; s_step_len := 1 / so_lam o2' |} in
  let quiet_logger := {| lg_kind := KTuple; lg_keys := []; lg_dict := [] |} in
  let run := pgd_optimize (sr3_as_oracle o2) rg slv x0 tt quiet_logger in
  match sr3_find_count o1 rg tol max_iter x0 with
  | Ok (x, n) => exists lg', run = Ok (x, lg', tt) /\
       get lg' "iteration" = Ok (LAtom (LNum (INR n)))
  | Err e => run = Err e
  end.
Proof. exact practical_equals_fixed_step_pgd_lemma. Qed.
Print Assumptions practical_equals_fixed_step_pgd.

(** C23.  With the fixed step 1/lam every iteration on the SR3 value function with an exact prox
    does not increase value_function + penalty (from the first point in the penalty's domain on). *)
Theorem sr3_fixed_step_descends :
  forall inv o0 pr o rg dom pen slv x0 s lg x lg' s' F,
  inv_ok inv -> wf_linear pr -> symmetric (lp_p pr) (lp_c pr) -> 0 < so_lam o0 -> so_practical o0 = false ->
  sr3_instantiate inv o0 pr = Ok o -> exact_for rg dom pen ->
  s_stepping slv = "fixed" -> s_step_len slv = 1 / so_lam o0 ->
  (forall x v, sr3_value o x = Ok v -> F x = v) ->
  pgd_optimize (sr3_as_oracle o) rg slv x0 s lg = Ok (x, lg', s') ->
  exists path, is_path (pgd_rule (sr3_as_oracle o) rg slv) x0 path /\ x = endpoint x0 path /\
    non_increasing dom (fun x => F x + pen x) x0 path /\
    (dom x0 -> F x + pen x <= F x0 + pen x0).
Proof. exact sr3_fixed_step_descends_lemma. Qed.
Print Assumptions sr3_fixed_step_descends.

(** C23.  The default step of the SR3 linear models is 1/el. *)
Theorem sr3_default_step :
  forall m el, lm_el m = Some el -> el <> 0 -> lm_step_len m = None -> effective_step m = 1 / el.
Proof. exact sr3_default_step_lemma. Qed.
Print Assumptions sr3_default_step.

(** C24 (partial).  Without c the identity is used; a non-zero (1,1) array is used as given. *)
Theorem custom_c_partial :
  (forall a p b s w, exists pr, mk_linear_problem a p b None s w = Ok pr /\ lp_c pr = eye p) /\
  (forall a b s w v, v <> 0 -> exists pr, mk_linear_problem a 1 b (Some [[v]]) s w = Ok pr /\ lp_c pr = [[v]]) /\
  (forall a b s w, exists pr, mk_linear_problem a 1 b (Some [[0]]) s w = Ok pr /\ lp_c pr = eye 1).
Proof. exact custom_c_partial_lemma. Qed.
Print Assumptions custom_c_partial.

(** C24 (refuted).  Every (p,p) array with p >= 2 is rejected with ValueError. *)
Theorem custom_c_refuted :
  forall a p b s w c, (2 <= p)%nat -> is_shape p p c ->
  mk_linear_problem a p b (Some c) s w = Err ValueError.
Proof. exact custom_c_refuted_lemma. Qed.
Print Assumptions custom_c_refuted.

(** The shape a caller would pass for two features. *)
Example ex_custom_c : is_shape 2 2 [[1; 0]; [0; 1]].
Proof. exact ex_custom_c_lemma. Qed.

(** C25 (partial).  from_dataframe gives weight 0 to the features named in must_include_features and 1
    to the others, and lays out the data as one row per record and one column per feature. *)
Theorem must_include_weights_partial :
  forall d features target must std c pr, linear_from_dataframe d features target must std c = Ok pr ->
  exists w, lp_weights pr = Some w /\ length w = length features /\ lp_p pr = length features /\
  (forall i, (i < length features)%nat ->
    (In (nth i features ""%string) (match must with Some ms => ms | None => [] end) -> nth i w 1 = 0) /\
    (~ In (nth i features ""%string) (match must with Some ms => ms | None => [] end) -> nth i w 1 = 1)) /\
  df_col d target = Ok (lp_b pr) /\
  (forall i k, (i < length features)%nat -> (k < df_n d)%nat ->
     exists col, df_col d (nth i features ""%string) = Ok col /\ nth i (nth k (lp_a pr) []) 0 = nth k col 0).
Proof. exact must_include_weights_partial_lemma. Qed.
Print Assumptions must_include_weights_partial.

(** Two features, the second of which must be included. *)
Example ex_must_include :
  exists pr, linear_from_dataframe {| df_n := 1; df_cols := [("a", [1]); ("b", [2]); ("y", [3])] |}
    ["a"; "b"] "y" (Some ["b"]) None None = Ok pr /\ lp_weights pr = Some [1; 0].
Proof. exact ex_must_include_lemma. Qed.

(** C25 (refuted).  fit_problem never looks at these weights, so a must-include feature is
    shrunk like any other: here from 1 to 1/2, although its weight is 0. *)
Theorem must_include_fit_refuted :
  (forall argsort inv m pr w s x0 warm weights,
     let pr' := {| lp_a := lp_a pr; lp_b := lp_b pr; lp_n := lp_n pr; lp_p := lp_p pr; lp_c := lp_c pr; lp_weights := w; lp_obs_std := s |} in
     linear_fit_problem argsort inv m pr' x0 warm weights =
     linear_fit_problem argsort inv m pr x0 warm weights) /\
  (exists d m pr x lg xw lgw,
     linear_from_dataframe d ["a"] "y" (Some ["a"]) None None = Ok pr /\ lp_weights pr = Some [0] /\
     linear_fit_problem (fun _ => []) inv_one m pr None false None = Ok ([x], lg) /\ x = / 2 /\
     linear_fit_problem (fun _ => []) inv_one m pr None false (lp_weights pr) = Ok ([xw], lgw) /\ xw = 1).
Proof. exact must_include_fit_refuted_lemma. Qed.
Print Assumptions must_include_fit_refuted.

(** C26.  The criteria are the least-squares loss plus 2 or log(n) per non-zero coefficient, and the
    SR3 oracle reports the same numbers as the plain oracle on the same data. *)
Theorem linear_information_criteria :
  (forall pr x, wf_linear pr -> length x = lp_p pr ->
     let o := {| lo_problem := Some pr; lo_prior := PNone |} in
     lin_aic o x = Ok (least_squares pr x + 2 * INR (nonzeros x)) /\
     lin_bic o x = Ok (least_squares pr x + ln (INR (lp_n pr)) * INR (nonzeros x))) /\
  (forall inv o0 pr o x, sr3_instantiate inv o0 pr = Ok o ->
     sr3_aic o x = lin_aic {| lo_problem := Some pr; lo_prior := PNone |} x /\
     sr3_bic o x = lin_bic {| lo_problem := Some pr; lo_prior := PNone |} x).
Proof. exact linear_information_criteria_lemma. Qed.
Print Assumptions linear_information_criteria.

(** A problem that meets the hypotheses, and a count of non-zero coefficients. *)
Example ex_information_criteria :
  wf_linear (sample_problem 4) /\ nonzeros [3; 0; 1] = 2%nat.
Proof. exact ex_information_criteria_lemma. Qed.

(** C27 (partial).  A parameter dictionary is accepted exactly when all its names are columns and all its
    standard deviations are non-negative; the accepted prior then contributes
    sum (x - mean)^2 / (2 std) over the parameters with std > 0 and nothing for the others. *)
Theorem gauss_prior_partial :
  forall params columns,
  (Forall (fun kv => In (fst kv) columns) params /\
   Forall (fun c => match lookup c params with Some (_, s) => 0 <= s | None => True end) columns ->
   exists g, gauss_instantiate (mk_gauss params) columns = Ok g /\
     forall x, length x = length columns -> gauss_loss g x = Ok (gauss_energy_coded params columns x)) /\
  (~ (Forall (fun kv => In (fst kv) columns) params /\
      Forall (fun c => match lookup c params with Some (_, s) => 0 <= s | None => True end) columns) ->
   gauss_instantiate (mk_gauss params) columns = Err AssertionError).
Proof. exact gauss_prior_partial_lemma. Qed.
Print Assumptions gauss_prior_partial.

(** C27 (partial).  The gradient and hessian are the exact derivatives of this loss, for every
    accepted dictionary; in particular they agree with the documented density when all std are 1. *)
Theorem gauss_prior_derivatives_partial :
  forall g0 columns g x d, gauss_instantiate g0 columns = Ok g ->
  length x = length columns -> length d = length columns ->
  exists l l' gr h, gauss_loss g x = Ok l /\ gauss_loss g (vadd x d) = Ok l' /\
    gauss_gradient g x = Ok gr /\ gauss_hessian g = Ok h /\
    l' = l + vdot gr d + / 2 * vdot d (mv h d).
Proof. exact gauss_prior_derivatives_partial_lemma. Qed.
Print Assumptions gauss_prior_derivatives_partial.

(** A dictionary for one of two columns, and its contribution. *)
Example ex_gauss_prior :
  Forall (fun kv : string * (R * R) => In (fst kv) ["a"; "b"]) [("b", (1, 2))] /\
  Forall (fun c => match lookup c [("b", (1, 2))] with Some (_, s) => 0 <= s | None => True end) ["a"; "b"] /\
  gauss_energy_coded [("b", (1, 2))] ["a"; "b"] [7; 3] = 1.
Proof. exact ex_gauss_prior_lemma. Qed.

(** C27 (refuted).  The coded contribution divides by std, not by std^2: with std = 2 it is twice the
    Gaussian negative log-density; both agree for std = 1. *)
Theorem gauss_prior_density_refuted :
  (exists params columns x g v, gauss_instantiate (mk_gauss params) columns = Ok g /\
     gauss_loss g x = Ok v /\ v <> gauss_energy params columns x) /\
  (forall params columns x,
     Forall (fun c => match lookup c params with Some (_, s) => s <= 0 \/ s = 1 | None => True end) columns ->
     gauss_energy_coded params columns x = gauss_energy params columns x).
Proof. exact gauss_prior_density_refuted_lemma. Qed.
Print Assumptions gauss_prior_density_refuted.

(** C28 (partial).  GaussianPrior: whatever happened before, instantiate does what it does on a fresh
    object with the same parameters, and forget goes back to the fresh object. *)
Theorem gauss_prior_history_partial :
  forall params ops,
  let g := live gauss_op (mk_gauss params) ops in
  gauss_forget g = mk_gauss params /\
  forall columns, gauss_instantiate g columns = gauss_instantiate (mk_gauss params) columns.
Proof. exact gauss_prior_history_partial_lemma. Qed.
Print Assumptions gauss_prior_history_partial.

(** C28 (partial).  GaussianPriorLME: as long as forget has not been called, instantiate does what it does on a
    fresh object. *)
Theorem gauss_lme_history_partial :
  forall fe re ops fcols rcols, ~ In LForget ops ->
  gauss_lme_instantiate (live gauss_lme_do (mk_gauss_lme fe re) ops) fcols rcols =
  gauss_lme_instantiate (mk_gauss_lme fe re) fcols rcols.
Proof. exact gauss_lme_history_partial_lemma. Qed.
Print Assumptions gauss_lme_history_partial.

(** A GaussianPriorLME that can be instantiated. *)
Example ex_gauss_lme :
  exists g, gauss_lme_instantiate (mk_gauss_lme [("a", (0, 1))] []) (Some ["a"]) (Some ["a"]) = Ok g.
Proof. exact ex_gauss_lme_lemma. Qed.

(** C28 (refuted).  After forget, a GaussianPriorLME can never be instantiated again; and a Gaussian prior
    cannot be used with any linear model: instantiating the oracle is a TypeError, or an
    AssertionError for SR3. *)
Theorem priors_reinstantiate_refuted :
  (forall g c fcols d rcols,
     gauss_lme_instantiate (gauss_lme_forget g) (Some (c :: fcols)) (Some (d :: rcols)) = Err AttributeError) /\
  (forall g pr pr0, lin_instantiate {| lo_problem := pr0; lo_prior := PGauss g |} pr = Err TypeError) /\
  (forall argsort inv m pr x0 warm weights g r, lm_prior m = PGauss g ->
     linear_fit_problem argsort inv m pr x0 warm weights <> Ok r).
Proof. exact priors_reinstantiate_refuted_lemma. Qed.
Print Assumptions priors_reinstantiate_refuted.

(** C67.  predict is the data matrix times the fitted coefficients, row by row; it fails before fit, for
    an empty table and for another number of columns than in training, and never otherwise. *)
Theorem linear_predict_exact :
  forall x p, linear_predict None x p = Err NotFittedError /\
  forall coef,
    linear_predict (Some coef) x p =
      if (length x =? 0)%nat || (p =? 0)%nat then Err ValueError
      else if (p =? length coef)%nat then Ok (map (fun row => vdot row coef) x) else Err AssertionError.
Proof. exact linear_predict_exact_lemma. Qed.
Print Assumptions linear_predict_exact.

(** Two predictions. *)
Example ex_linear_predict : linear_predict (Some [2; 3]) [[1; 10]; [1; 20]] 2 = Ok [32; 62].
Proof. exact ex_linear_predict_lemma. Qed.

(** C68.  A generated linear problem is linear: targets minus scaled noise are the data times the true
    coefficients, the first column is the intercept, and to_x_y gives data and targets back. *)
Theorem linear_generate_is_linear :
  forall p a0 x s noise pr, wf_mat p a0 -> length noise = length a0 ->
  linear_generate p a0 x s noise = Ok pr ->
  let '(a, b) := linear_to_x_y pr in
  vsub b (vscale s noise) = mv a x /\ length b = length a0 /\ is_shape (length a0) p a /\
  Forall (fun row => exists rest, row = 1 :: rest) a /\
  lp_n pr = length a0 /\ lp_p pr = p /\ lp_weights pr = Some (ones p) /\ lp_c pr = eye p.
Proof. exact linear_generate_is_linear_lemma. Qed.
Print Assumptions linear_generate_is_linear.

(** A generated problem with two objects. *)
Example ex_linear_generate : exists pr, linear_generate 2 [[7; 1]; [8; 2]] [1; 1] (1/2) [1; 1] = Ok pr.
Proof. exact ex_linear_generate_lemma. Qed.
