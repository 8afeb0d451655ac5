(** Properties C92-C95: the options given to a model are those with which it is fitted
    (src/pysr3/lme/models.py, src/pysr3/linear/models.py, src/pysr3/solvers.py). *)
From Coq Require Import Reals ZArith List String.
From Verif.Base Require Import Py Vec Mat.
From Verif.Model Require Import Logger Regularizers Solvers Priors Linear LmeProblem LmeInner LmeFit Options.
From Verif.Spec Require Import OptionsSpec.
From Verif.Proofs Require Import OptionsMain.

Open Scope string_scope.
Open Scope list_scope.
Open Scope R_scope.

(** C92: every class of models can be constructed with any options, and the attribute of each option is the value
    given, or the default of the class. *)
Theorem options_stored : forall c kw, concrete c ->
  exists a, construct c kw = Ok a /\ forall n, option_of c n -> lookup n a = given c kw n.
Proof. exact options_stored_lemma. Qed.
Print Assumptions options_stored.

(** SCADLmeModelSR3(lam=2): lam is 2, rho is the default 3.7 *)
Example ex_options_stored :
  exists a, construct (LmePenalised KSCAD true) [("lam", VInt 2)] = Ok a /\
  lookup "lam" a = Some (VInt 2) /\ lookup "rho" a = Some (VReal (37 / 10)).
Proof. exact ex_options_stored_lemma. Qed.

(** C92, partial: an option given to the constructor shows in every setting of the solver, the oracle and the
    regularizer it stands for, and the practical option chooses the solver.  Not covered: the options in
    [without_effect], which are a step length that counts as unset, update_prox_every and stepping for the solver that
    has no such setting, and the tolerance, number of iterations and step length of practical mixed models. *)
Theorem options_used_partial : forall c kw a p n v,
  concrete c -> construct c kw = Ok a -> instantiate_parts c a = Ok p -> option_of c n -> lookup n kw = Some v ->
  (n = "practical" -> practical_solver p = truthy v) /\
  (~ of_the_fit n -> ~ without_effect c p n v -> honoured p n v).
Proof. exact options_used_partial_lemma. Qed.
Print Assumptions options_used_partial.

(** LinearL1ModelSR3(lam=2, el=3, tol_solver=1, practical=True) *)
Example ex_options_used_partial :
  exists a p, let kw := [("lam", VInt 2); ("el", VInt 3); ("tol_solver", VInt 1); ("practical", VBool true)] in
  construct (LinearPenalised KL1 true) kw = Ok a /\ instantiate_parts (LinearPenalised KL1 true) a = Ok p /\
  honoured p "lam" (VInt 2) /\ honoured p "el" (VInt 3) /\ honoured p "tol_solver" (VInt 1) /\ practical_solver p = true.
Proof. exact ex_options_used_partial_lemma. Qed.

(** C92 refuted: a practical mixed model is fitted without its tolerance, number of iterations, stepping and step
    length: replacing all four does not change any fit. *)
Theorem options_used_refuted :
  (forall argsort solve calls_of m ss tol n st step coef pr beta0 gamma0 warm_start fe re,
     mo_sr3 m = Some ss -> ss_practical ss = true ->
     fit_problem argsort solve calls_of (with_solver_options m tol n st step) coef pr beta0 gamma0 warm_start fe re =
     fit_problem argsort solve calls_of m coef pr beta0 gamma0 warm_start fe re) /\
  (exists a p, let kw := [("practical", VBool true); ("tol_solver", VInt 1); ("max_iter_solver", VInt 7)] in
     construct (LmeSimple true) kw = Ok a /\ instantiate_parts (LmeSimple true) a = Ok p /\
     ~ honoured p "tol_solver" (VInt 1) /\ ~ honoured p "max_iter_solver" (VInt 7)) /\
  (exists a p, construct (LmeSimple false) [("fixed_step_len", VInt 0)] = Ok a /\
     instantiate_parts (LmeSimple false) a = Ok p /\ ~ honoured p "fixed_step_len" (VInt 0)).
Proof. exact options_used_refuted_lemma. Qed.
Print Assumptions options_used_refuted.

(** C92: the settings of the parts are those from which the fit of LmeFit.v and Linear.v, about which the other
    properties speak, reads everything: for options of the expected types the two descriptions of a model agree. *)
Theorem options_of_fit : forall c a p, instantiate_parts c a = Ok p ->
  (forall m, lme_model_of c a = Ok m -> lme_agrees p m) /\
  (forall m, linear_model_of c a = Ok m -> linear_agrees p m).
Proof. exact options_of_fit_lemma. Qed.
Print Assumptions options_of_fit.

(** L1LmeModel(lam=3): the solver starts from 1 / (lam + 1) *)
Example ex_options_of_fit :
  exists a p m, construct (LmePenalised KL1 false) [("lam", VInt 3)] = Ok a /\
  instantiate_parts (LmePenalised KL1 false) a = Ok p /\ lme_model_of (LmePenalised KL1 false) a = Ok m /\
  step_length m = Ok (1 / 4) /\ mo_penalty m = PenL1 3.
Proof. exact ex_options_of_fit_lemma. Qed.

(** C93 refuted: the constructors of all classes accept options that do not exist, a misspelt name for example, and
    the object is the one without the option. *)
Theorem unknown_option_refuted : forall c kw n v, concrete c -> ~ option_of c n ->
  construct c ((n, v) :: kw) = construct c kw /\ exists a, construct c kw = Ok a.
Proof. exact unknown_option_refuted_lemma. Qed.
Print Assumptions unknown_option_refuted.

(** LinearL1Model(lambda=2) *)
Example ex_unknown_option_refuted :
  concrete (LinearPenalised KL1 false) /\ ~ option_of (LinearPenalised KL1 false) "lambda" /\
  exists a, construct (LinearPenalised KL1 false) [("lambda", VInt 2)] = Ok a /\ lookup "lam" a = Some (VInt 0).
Proof. exact ex_unknown_option_refuted_lemma. Qed.

(** C93, partial: set_params rejects a name that is not an option. *)
Theorem unknown_option_partial : forall c a ps n, In n (map fst ps) -> ~ option_of c n ->
  snd (set_params c a ps) = Err ValueError.
Proof. exact unknown_option_partial_lemma. Qed.
Print Assumptions unknown_option_partial.

(** the options before the bad name are set nevertheless *)
Example ex_unknown_option_partial :
  exists a, construct (LinearPenalised KL1 false) [] = Ok a /\
  let r := set_params (LinearPenalised KL1 false) a [("lam", VInt 2); ("lambda", VInt 3)] in
  snd r = Err ValueError /\ lookup "lam" (fst r) = Some (VInt 2).
Proof. exact ex_unknown_option_partial_lemma. Qed.

(** C94: clone of sklearn gives a model with the same options: all attributes of the new object are those of the old
    one. *)
Theorem clone_keeps_options : forall c a, concrete c -> object_of c a -> clone c a = Ok a.
Proof. exact clone_keeps_options_lemma. Qed.
Print Assumptions clone_keeps_options.

(** C94: get_params returns every option with its value, and set_params with options of the class gives the model that
    the constructor gives for the new options in place of the old ones (when an option is set twice the last value
    counts). *)
Theorem set_params_as_constructed : forall c kw a ps,
  concrete c -> construct c kw = Ok a -> (forall n, In n (map fst ps) -> option_of c n) ->
  (exists gs, get_params c a = Ok gs /\ map fst gs = map fst (signature c) /\
              forall n, option_of c n -> lookup n gs = given c kw n) /\
  exists a', set_params c a ps = (a', Ok tt) /\ construct c (rev ps ++ kw) = Ok a'.
Proof. exact set_params_as_constructed_lemma. Qed.
Print Assumptions set_params_as_constructed.

(** CADLmeModel(lam=2), set_params(rho=1), clone *)
Example ex_clone_keeps_options :
  exists a, construct (LmePenalised KCAD false) [("lam", VInt 2)] = Ok a /\
  let b := fst (set_params (LmePenalised KCAD false) a [("rho", VInt 1)]) in
  object_of (LmePenalised KCAD false) b /\ clone (LmePenalised KCAD false) b = Ok b /\
  lookup "lam" b = Some (VInt 2) /\ lookup "rho" b = Some (VInt 1).
Proof. exact ex_clone_keeps_options_lemma. Qed.

(** C95, partial: without any options every model can be constructed and instantiated, and has the types with which
    LmeFit.v and Linear.v fit. *)
Theorem defaults_usable_partial : forall c, concrete c ->
  exists a p, construct c [] = Ok a /\ instantiate_parts c a = Ok p /\
  if is_lme c then exists m, lme_model_of c a = Ok m else exists m, linear_model_of c a = Ok m.
Proof. exact defaults_usable_partial_lemma. Qed.
Print Assumptions defaults_usable_partial.

(** C95 refuted: LinearL0Model and LinearL0ModelSR3 with their default number of features cannot log the loss: fit
    raises on every problem, since the value of their regularizer compares with None. *)
Theorem defaults_usable_refuted : forall sr3 practical,
  exists a m, construct (LinearPenalised KL0 sr3)
                [("logger_keys", VKeys KTuple ["loss"]); ("practical", VBool practical)] = Ok a /\
  linear_model_of (LinearPenalised KL0 sr3) a = Ok m /\
  forall argsort inv pr x0 warm_start weights r,
  linear_fit_problem argsort inv m pr x0 warm_start weights <> Ok r.
Proof. exact defaults_usable_refuted_lemma. Qed.
Print Assumptions defaults_usable_refuted.

(** with a number of features the loss is defined *)
Example ex_defaults_usable :
  exists r, instantiate (mk_l0 (Some 1%Z)) [1; 1] None = Ok r /\ value r [0; 2] = Ok (Fin 0).
Proof. exact ex_defaults_usable_lemma. Qed.
