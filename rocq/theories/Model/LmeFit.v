(** Model of src/pysr3/lme/models.py: construction of the ten models and fit_problem.
    The evaluations of the oracle are the record [lme_calls], np.linalg.solve an argument; LmeBridge.v
    fills them in with the matrices of LmeOracle.v.
    Simplifications: exact reals; np.sqrt of a negative tolerance is NotFinite; sklearn's check of x and y in fit is that of LmeProblem.v,
    warnings are dropped. *)
From Verif.Base Require Import Py Vec Mat.
From Verif.Model Require Import LmeProblem Regularizers Solvers LmeInner LmeTrace.
Open Scope R_scope.

(** the evaluations of an oracle attached to a problem *)
Record lme_calls := {
  lc_loss : vec -> vec -> res R;                      (* beta gamma *)
  lc_gradient_beta : vec -> vec -> res vec;
  lc_gradient_gamma : vec -> vec -> res vec;
  lc_optimal_beta : vec -> res vec;                   (* gamma *)
  lc_random_effects : vec -> vec -> res (list vec);
  lc_vaida : bool -> R -> vec -> vec -> res R;        (* marginalized tolerance beta gamma *)
  lc_jones : R -> vec -> vec -> res R;
  lc_muller : R -> vec -> vec -> res R;
  lc_flip : vec -> vec -> res vec;
  lc_sr3 : sr3_calls                                  (* those of LinearLMEOracleSR3 *)
}.

(** the class of the model: L0LmeModel(SR3), L1LmeModel(SR3), ... and their own parameters *)
Inductive lme_penalty :=
| PenNone
| PenL0 (nnz_tbeta nnz_tgamma : option Z)
| PenL1 (lam : R)
| PenCAD (lam rho : R)
| PenSCAD (lam rho sigma : R).
Record sr3_settings := {
  ss_ell : R;
  ss_practical : bool;
  ss_update_every : Z;               (* update_prox_every *)
  ss_max_iter : Z;                   (* max_iter_oracle *)
  ss_tol : R;                        (* tol_oracle *)
  ss_warm : bool;                    (* warm_start_oracle *)
  ss_positive : bool;                (* take_only_positive_part *)
  ss_expected : bool;                (* take_expected_value *)
  ss_neighbourhood : R               (* central_path_neighbourhood_target *)
}.
Record lme_model := {
  mo_penalty : lme_penalty;
  mo_sr3 : option sr3_settings;      (* None: the plain model *)
  mo_tol : R;                        (* tol_solver *)
  mo_max_iter : Z;                   (* max_iter_solver *)
  mo_stepping : string;
  mo_step_len : option R;            (* fixed_step_len *)
  mo_eps : R;                        (* elastic_eps *)
  mo_initializer : string;
  mo_keys : kind * list string;      (* logger_keys *)
  mo_prior : option gauss_lme
}.

(** `if not fixed_step_len` *)
Definition given_step (m : lme_model) : option R :=
  match mo_step_len m with Some s => if reqb s 0 then None else Some s | None => None end.
(** models.py:498, 995, 1174, 1361 and 662-666 *)
Definition step_length (m : lme_model) : res R :=
  match given_step m with
  | Some s => Ok s
  | None =>
      match mo_sr3 m with
      | Some ss => Ok (if reqb (ss_ell ss) 0 then 1 else 1 / ss_ell ss)
      | None =>
          match mo_penalty m with
          | PenNone | PenL0 _ _ => Ok (5 / 100)
          | PenL1 lam | PenCAD lam _ | PenSCAD lam _ _ =>
              let! _ := guard (nonzero (lam + 1)) ZeroDivisionError in Ok (1 / (lam + 1))
          end
      end
  end.
(** the innermost regularizer; the L0 one keeps the oracle *)
Definition penalty_reg (pen : lme_penalty) (ov : oracle_view) : res reg :=
  match pen with
  | PenNone => Ok RDummy
  | PenL0 nb ng => Ok (mk_l0lme nb ng false (Some ov))
  | PenL1 lam => Ok (mk_l1 lam)
  | PenCAD lam rho => Ok (mk_cad rho lam)
  | PenSCAD lam rho sigma => mk_scad rho sigma lam
  end.
(** instantiate() of every class: the regularizer; the oracle is already attached to the problem when the
    regularizer reads it *)
Definition model_reg (m : lme_model) (ov : oracle_view) : res reg :=
  let! r := penalty_reg (mo_penalty m) ov in
  Ok (mk_pos (Some (mk_elastic (mo_eps m) (Some r)))).

(** models.py:204-217 the weights of one part *)
Definition default_weights (given stored : option vec) (n : nat) (intercept : bool) : res vec :=
  match given, stored with
  | Some w, _ => Ok w
  | None, Some w => Ok w
  | None, None => if intercept then match ones n with [] => Err IndexError | _ :: w => Ok (0 :: w) end
                  else Ok (ones n)
  end.
Definition fit_weights (pr : lme_problem) (fe re : option vec) : res (vec * vec) :=
  let! wf := default_weights fe (pr_fe_weights pr) (num_fixed pr) (fixed_intercept (pr_intercept pr)) in
  let! wr := default_weights re (pr_re_weights pr) (num_random pr) (random_intercept (pr_intercept pr)) in
  Ok (wf, wr).

(** coef_ *)
Record lme_coef := {
  co_beta : vec;
  co_gamma : vec;
  co_effects : list vec;
  co_labels : list R;
  co_per_group : list vec
}.

(** sklearn.utils.validation.check_is_fitted(self, 'coef_') as a condition: it raises or returns None *)
Definition sk_check_is_fitted (coef : option lme_coef) : res bool :=
  match coef with None => Err NotFittedError | Some _ => Ok false end.
(** models.py:229-234 *)
Definition start_point (coef : option lme_coef) (warm_start : bool) (beta0 gamma0 : option vec) (p q : nat)
  : res (vec * vec) :=
  let given := (match beta0 with Some b => b | None => ones p end,
                match gamma0 with Some g => g | None => ones q end) in
  match coef with
  | Some c => if warm_start
              then let! t := sk_check_is_fitted coef in Ok (if t then (co_beta c, co_gamma c) else given)
              else Ok given
  | None => Ok given
  end.

(** np.sum(us ** 2, axis=0) / num_groups *)
Definition mean_squares (q : nat) (us : list vec) (n : nat) : res vec :=
  let! _ := guard (0 <? n)%nat NotFinite in
  Ok (map (fun s => s / INR n) (fold_right (fun u s => vadd (map (fun a => a ^ 2) u) s) (zeros q) us)).

(** oracles.py:692-724: the plain oracle as the solver sees it *)
Definition lme_as_oracle (p q : nat) (c : lme_calls) : oracle unit :=
  {| o_value := fun s x => let! v := joint_loss p q (lc_loss c) x in Ok (v, s);
     o_grad := fun s x => let! v := joint_gradient p q (lc_gradient_beta c) (lc_gradient_gamma c) x in Ok (v, s) |}.

Section Fit.
Variable argsort : vec -> list nat.
Variable solve : mat -> vec -> res vec.

(** the options of find_optimal_parameters_ip: without a regularizer in value_function and
    gradient_value_function, with it and the step of FakePGDSolver in find_optimal_parameters *)
Definition ip_options_of (ss : sr3_settings) (prox : option (vec -> R -> res vec)) : ip_options :=
  {| io_n_iter := ss_max_iter ss; io_tol := ss_tol ss; io_neighbourhood := ss_neighbourhood ss;
     io_mu_decay := 5 / 10; io_line_search := false; io_prox := prox; io_prox_step := 1;
     io_update_every := (match prox with Some _ => ss_update_every ss | None => 1%Z end); io_increase := false |}.
(** scipy's scalar minimiser, which is not called without line search *)
Definition no_minimizer (f : R -> res R) (hi : R) : res R := Err NotImplementedError.
(** the SR3 oracle as PGDSolver sees it; its state are the attributes it changes *)
Definition sr3_lme_oracle (p q : nat) (c : lme_calls) (ss : sr3_settings) : oracle sr3_memory :=
  let o := ip_options_of ss None in
  {| o_value := fun mem x => value_function (lc_sr3 c) o p q solve no_minimizer (ss_warm ss) mem x;
     o_grad := fun mem x => gradient_value_function (lc_sr3 c) o p q solve no_minimizer (ss_warm ss) mem x |}.
(** LinearLMEOracleSR3.__init__: lb = lg = ell, warm_start_ip = {} *)
Definition sr3_start (ss : sr3_settings) : sr3_memory :=
  {| sm_lam := {| lam_b := ss_ell ss; lam_g := ss_ell ss |}; sm_warm := None |}.

(** solver.optimize, models.py:245, for the solver of the model *)
Definition run_solver (m : lme_model) (p q : nat) (c : lme_calls) (rg : regularizer) (x : vec) (lg : logger)
  : res (vec * logger) :=
  let! step := step_length m in
  let slv := {| s_tol := mo_tol m; s_max_iter := mo_max_iter m; s_stepping := mo_stepping m; s_step_len := step |} in
  match mo_sr3 m with
  | None => let! (x', lg', _) := pgd_optimize (lme_as_oracle p q c) rg slv x tt lg in Ok (x', lg')
  | Some ss =>
      if ss_practical ss then
        let find mem x lg :=
          let o := ip_options_of ss (Some (r_prox rg)) in
          let! lg' := find_optimal_parameters_log (lc_sr3 c) o p q solve no_minimizer (ss_warm ss) mem x lg in
          let! (x', mem') := find_optimal_parameters (lc_sr3 c) o p q solve no_minimizer (ss_warm ss) mem x in
          Ok (x', lg', mem') in
        let! (x', lg', _) := fake_pgd_optimize (sr3_lme_oracle p q c ss) rg find x (sr3_start ss) lg in
        Ok (x', lg')
      else
        let! (x', lg', _) := pgd_optimize (sr3_lme_oracle p q c ss) rg slv x (sr3_start ss) lg in Ok (x', lg')
  end.
(** solver.tol: FakePGDSolver keeps its default *)
Definition solver_tol (m : lme_model) : R :=
  match mo_sr3 m with Some ss => if ss_practical ss then 1 / 10000 else mo_tol m | None => mo_tol m end.

(** `if key in logger.keys: logger.add(key, value)` *)
Definition add_if (lg : logger) (k : string) (v : res lval) : res logger :=
  if has_key k (lg_keys lg) then let! a := v in add lg k (LAtom a) else Ok lg.
Definition log_criteria (m : lme_model) (c : lme_calls) (beta gamma : vec) (lg : logger) : res logger :=
  let tol := let! _ := guard (rleb 0 (solver_tol m)) NotFinite in Ok (sqrt (solver_tol m)) in
  let num (f : R -> vec -> vec -> res R) := let! t := tol in let! v := f t beta gamma in Ok (LNum v) in
  let! lg := add_if lg "vaida_aic" (num (lc_vaida c false)) in
  let! lg := add_if lg "vaida_aic_marginalized" (num (lc_vaida c true)) in
  let! lg := add_if lg "jones_bic" (num (lc_jones c)) in
  let! lg := add_if lg "muller_ic" (num (lc_muller c)) in
  add_if lg "flip_probabilities_beta" (let! v := lc_flip c beta gamma in Ok (LVec v)).

(** models.py:235-239 the initializer *)
Definition initialize (m : lme_model) (q n : nat) (c : lme_calls) (bg : vec * vec) : res (vec * vec) :=
  if String.eqb (mo_initializer m) "EM" then
    let! beta := (match mo_sr3 m with
                  | None => lc_optimal_beta c (snd bg)
                  | Some ss => sc_optimal_beta (lc_sr3 c) (sm_lam (sr3_start ss)) (snd bg) (fst bg)
                  end) in
    let! us := lc_random_effects c beta (snd bg) in
    let! gamma := mean_squares q us n in
    Ok (beta, gamma)
  else Ok bg.

(** the oracle's evaluations for the problem and the prior instantiated on it *)
Variable calls_of : lme_problem -> option gauss_lme -> option sr3_settings -> lme_calls.

Definition prior_of (m : lme_model) (pr : lme_problem) : res (option gauss_lme) :=
  match mo_prior m with
  | None => Ok None
  | Some g => let! g' := gauss_lme_instantiate g (pr_fe_columns pr) (pr_re_columns pr) in Ok (Some g')
  end.

(** models.py:156-275 fit_problem: coef_ and logger_ of the fitted model; coef is the coef_ of the fit before *)
Definition fit_problem (m : lme_model) (coef : option lme_coef) (pr : lme_problem)
    (beta0 gamma0 : option vec) (warm_start : bool) (fe re : option vec) : res (lme_coef * logger) :=
  let p := num_fixed pr in
  let q := num_random pr in
  let! _ := step_length m in
  let! _ := (match mo_penalty m with PenSCAD lam rho sigma => rmap (fun _ => tt) (mk_scad rho sigma lam)
             | _ => Ok tt end) in
  let! ov := oracle_view_of pr in
  let! g := prior_of m pr in
  let c := calls_of pr g (mo_sr3 m) in
  let! (wf, wr) := fit_weights pr fe re in
  let! r0 := model_reg m ov in
  let! r := instantiate r0 (beta_gamma_to_x wf wr) (Some ov) in
  let! bg0 := start_point coef warm_start beta0 gamma0 p q in
  let! (beta1, gamma1) := initialize m q (num_groups pr) c bg0 in
  let! lg := mk_logger (Some (mo_keys m)) in
  let! (x, lg1) := run_solver m p q c (as_regularizer argsort r) (beta_gamma_to_x beta1 gamma1) lg in
  let '(beta, gamma) := x_to_beta_gamma p q x in
  let! us := lc_random_effects c beta gamma in
  let! per_group := per_group_coefficients beta us (pr_intercept pr :: map Some (pr_labels pr)) in
  let! lg2 := log_criteria m c beta gamma lg1 in
  Ok ({| co_beta := beta; co_gamma := gamma; co_effects := us; co_labels := pr_group_labels pr;
         co_per_group := per_group |}, lg2).

(** models.py:77-154 fit *)
Definition fit (m : lme_model) (coef : option lme_coef) (x : table) (y : vec) (labels : option (list string))
    (beta0 gamma0 : option vec) (warm_start fit_fixed fit_random : bool) (fe re : option vec)
  : res (lme_coef * logger) :=
  let! _ := check_X_y x y in
  let! pr := from_x_y x (Some y) None labels fit_fixed fit_random None None in
  fit_problem m coef pr beta0 gamma0 warm_start fe re.

(** a sequence of fits of one model object: coef_ is replaced when fit_problem returns *)
Record fit_request := {
  fq_problem : lme_problem;
  fq_beta0 : option vec;
  fq_gamma0 : option vec;
  fq_warm : bool;
  fq_fe : option vec;
  fq_re : option vec
}.
Definition fit_step (m : lme_model) (coef : option lme_coef) (rq : fit_request) : res (lme_coef * logger) :=
  fit_problem m coef (fq_problem rq) (fq_beta0 rq) (fq_gamma0 rq) (fq_warm rq) (fq_fe rq) (fq_re rq).
Fixpoint fit_history (m : lme_model) (coef : option lme_coef) (rqs : list fit_request) : option lme_coef :=
  match rqs with
  | [] => coef
  | rq :: rqs' =>
      fit_history m (match fit_step m coef rq with Ok (c, _) => Some c | Err _ => coef end) rqs'
  end.
End Fit.
