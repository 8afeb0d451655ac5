(*HEAD
(** Properties C92-C95: the options given to a model are those with which it is fitted
    (src/pysr3/lme/models.py, src/pysr3/linear/models.py, src/pysr3/solvers.py). *)
From Coq Require Import Reals ZArith List String.
From Verif.Base Require Import Py Vec Mat.
From Verif.Model Require Import Logger Regularizers Solvers Priors Linear LmeProblem LmeInner LmeFit Options.
From Verif.Spec Require Import OptionsSpec.
HEAD*)
From Coq Require Import Reals ZArith List String Lra.
From Verif.Base Require Import Py Vec Mat.
From Verif.Model Require Import Logger Regularizers Solvers Priors Linear LmeProblem LmeInner LmeFit Options.
From Verif.Spec Require Import OptionsSpec.
From Verif.Proofs Require Import SolverProofs OptionsProofs.
(*OPEN
Open Scope string_scope.
Open Scope list_scope.
Open Scope R_scope.
OPEN*)
Open Scope string_scope.
Open Scope list_scope.
Open Scope R_scope.

Ltac build :=
  match goal with |- construct ?c ?kw = Ok _ =>
    let t := eval lazy -[Rdiv IZR] in (construct c kw) in change (construct c kw) with t; reflexivity
  end.

(*@ C92: every class of models can be constructed with any options, and the attribute of each option is the value
    given, or the default of the class. *)
Lemma options_stored_lemma : forall c kw, concrete c ->
  exists a, construct c kw = Ok a /\ forall n, option_of c n -> lookup n a = given c kw n.
Proof.
  intros c kw C. eexists. split; [apply construct_eq, C|].
  intros n O. eapply construct_lookup; eauto using construct_eq.
Qed.
(*@ SCADLmeModelSR3(lam=2): lam is 2, rho is the default 3.7 *)
Lemma ex_options_stored_lemma :
  exists a, construct (LmePenalised KSCAD true) [("lam", VInt 2)] = Ok a /\
  lookup "lam" a = Some (VInt 2) /\ lookup "rho" a = Some (VReal (37 / 10)).
Proof. eexists. split; [build|]. split; reflexivity. Qed.

(*@ C92, partial: an option given to the constructor shows in every setting of the solver, the oracle and the
    regularizer it stands for, and the practical option chooses the solver.  Not covered: the options in
    [without_effect], which are a step length that counts as unset, update_prox_every and stepping for the solver that
    has no such setting, and the tolerance, number of iterations and step length of practical mixed models. *)
Lemma options_used_partial_lemma : forall c kw a p n v,
  concrete c -> construct c kw = Ok a -> instantiate_parts c a = Ok p -> option_of c n -> lookup n kw = Some v ->
  (n = "practical" -> practical_solver p = truthy v) /\
  (~ of_the_fit n -> ~ without_effect c p n v -> honoured p n v).
Proof.
  intros c kw a p n v C E P O L.
  assert (R : read n a = Ok v).
  { apply read_ok. rewrite (construct_lookup c kw a n C E O). unfold given. rewrite L. reflexivity. }
  split.
  - intros ->. eapply parts_practical; eassumption.
  - intros F W. eapply parts_honour; eassumption.
Qed.
(*@ LinearL1ModelSR3(lam=2, el=3, tol_solver=1, practical=True) *)
Lemma ex_options_used_partial_lemma :
  exists a p, let kw := [("lam", VInt 2); ("el", VInt 3); ("tol_solver", VInt 1); ("practical", VBool true)] in
  construct (LinearPenalised KL1 true) kw = Ok a /\ instantiate_parts (LinearPenalised KL1 true) a = Ok p /\
  honoured p "lam" (VInt 2) /\ honoured p "el" (VInt 3) /\ honoured p "tol_solver" (VInt 1) /\ practical_solver p = true.
Proof.
  do 2 eexists. cbv zeta. split; [build|]. split.
  - cbn [instantiate_parts]. unfold linear_penalised, linear_simple_sr3, choose_step. cbn [read lookup String.eqb Ascii.eqb Bool.eqb rbind truthy].
    unfold relaxed_step, is_zero. cbn [as_num]. rewrite reqb_IZR. cbn [Z.eqb rbind guard negb penalty_part read lookup String.eqb Ascii.eqb Bool.eqb pt_oracle pt_solver].
    reflexivity.
  - repeat split; cbv; try discriminate; repeat constructor.
Qed.

(*@ C92 refuted: a practical mixed model is fitted without its tolerance, number of iterations, stepping and step
    length: replacing all four does not change any fit. *)
Lemma options_used_refuted_lemma :
  (forall argsort solve calls_of m ss tol n st step coef pr beta0 gamma0 warm_start fe re,
     mo_sr3 m = Some ss -> ss_practical ss = true ->
     fit_problem argsort solve calls_of (with_solver_options m tol n st step) coef pr beta0 gamma0 warm_start fe re =
     fit_problem argsort solve calls_of m coef pr beta0 gamma0 warm_start fe re) /\
  (exists a p, let kw := [("practical", VBool true); ("tol_solver", VInt 1); ("max_iter_solver", VInt 7)] in
     construct (LmeSimple true) kw = Ok a /\ instantiate_parts (LmeSimple true) a = Ok p /\
     ~ honoured p "tol_solver" (VInt 1) /\ ~ honoured p "max_iter_solver" (VInt 7)) /\
  (exists a p, construct (LmeSimple false) [("fixed_step_len", VInt 0)] = Ok a /\
     instantiate_parts (LmeSimple false) a = Ok p /\ ~ honoured p "fixed_step_len" (VInt 0)).
Proof.
  split; [|split].
  - intros argsort solve calls_of m ss tol n st step coef pr beta0 gamma0 warm_start fe re M P.
    assert (S : forall m', mo_sr3 m' = Some ss -> exists x, step_length m' = Ok x).
    { intros m' M'. unfold step_length. destruct (given_step m'); [eauto|]. rewrite M'. eauto. }
    destruct (S m M) as [x1 E1]. destruct (S (with_solver_options m tol n st step) M) as [x2 E2].
    unfold fit_problem. rewrite E1, E2. cbn [rbind with_solver_options mo_penalty mo_sr3 mo_eps mo_initializer mo_keys mo_prior].
    change (prior_of (with_solver_options m tol n st step) pr) with (prior_of m pr).
    change (model_reg (with_solver_options m tol n st step)) with (model_reg m).
    change (initialize (with_solver_options m tol n st step)) with (initialize m).
    assert (RS : forall p q c rg x lg, run_solver solve (with_solver_options m tol n st step) p q c rg x lg =
                                       run_solver solve m p q c rg x lg).
    { intros. unfold run_solver. rewrite E1, E2. cbn [rbind with_solver_options mo_sr3]. rewrite M, P. reflexivity. }
    assert (T : solver_tol (with_solver_options m tol n st step) = solver_tol m).
    { unfold solver_tol. cbn [with_solver_options mo_sr3]. rewrite M, P. reflexivity. }
    assert (LC : forall c b g lg, log_criteria (with_solver_options m tol n st step) c b g lg = log_criteria m c b g lg).
    { intros. unfold log_criteria. rewrite T. reflexivity. }
    repeat match goal with
    | |- rbind ?a _ = rbind ?a _ => destruct a; cbn [rbind]; [|reflexivity]
    | |- (let '(_, _) := ?x in _) = _ => destruct x
    | |- rbind (run_solver _ (with_solver_options _ _ _ _ _) _ _ _ _ _ _) _ = _ => rewrite RS
    | |- context[log_criteria (with_solver_options _ _ _ _ _)] => rewrite LC
    | |- ?x = ?x => reflexivity
    end.
  - do 2 eexists. cbv zeta. split; [build|]. split.
    + cbn [instantiate_parts]. unfold lme_simple_sr3, choose_step. cbn [read lookup String.eqb Ascii.eqb Bool.eqb rbind truthy].
      unfold relaxed_step, is_zero. cbn [as_num]. rewrite reqb_IZR. cbn [Z.eqb rbind].
      reflexivity.
    + split; intros [_ H]; cbn in H; apply Forall_inv in H; discriminate H.
  - do 2 eexists. split; [build|]. split; [reflexivity|].
    intros [_ H]. cbn in H. apply Forall_inv in H. discriminate H.
Qed.

(*@ C92: the settings of the parts are those from which the fit of LmeFit.v and Linear.v, about which the other
    properties speak, reads everything: for options of the expected types the two descriptions of a model agree. *)
Lemma options_of_fit_lemma : forall c a p, instantiate_parts c a = Ok p ->
  (forall m, lme_model_of c a = Ok m -> lme_agrees p m) /\
  (forall m, linear_model_of c a = Ok m -> linear_agrees p m).
Proof.
  intros c a p P. split; intros m M; [eapply parts_lme_agree|eapply parts_linear_agree]; eassumption.
Qed.
(*@ L1LmeModel(lam=3): the solver starts from 1 / (lam + 1) *)
Lemma ex_options_of_fit_lemma :
  exists a p m, construct (LmePenalised KL1 false) [("lam", VInt 3)] = Ok a /\
  instantiate_parts (LmePenalised KL1 false) a = Ok p /\ lme_model_of (LmePenalised KL1 false) a = Ok m /\
  step_length m = Ok (1 / 4) /\ mo_penalty m = PenL1 3.
Proof.
  do 3 eexists. split; [build|]. split; [|split; [reflexivity|split; [|reflexivity]]].
  - cbn [instantiate_parts]. unfold lme_penalised, lme_simple, choose_step, wrap, pgd_part, penalised_step, guard, nonzero.
    cbn [read lookup String.eqb Ascii.eqb Bool.eqb rbind truthy as_num penalty_part].
    rewrite (reqb_false (3 + 1) 0) by lra. cbn [negb rbind]. reflexivity.
  - unfold step_length, given_step, guard, nonzero. cbn [mo_step_len mo_sr3 mo_penalty]. rewrite (reqb_false (3 + 1) 0) by lra. cbn [negb rbind].
    do 2 f_equal. lra.
Qed.

(*@ C93 refuted: the constructors of all classes accept options that do not exist, a misspelt name for example, and
    the object is the one without the option. *)
Lemma unknown_option_refuted_lemma : forall c kw n v, concrete c -> ~ option_of c n ->
  construct c ((n, v) :: kw) = construct c kw /\ exists a, construct c kw = Ok a.
Proof. intros c kw n v C O. split; [apply unknown_option; assumption|]. eexists. apply construct_eq, C. Qed.
(*@ LinearL1Model(lambda=2) *)
Lemma ex_unknown_option_refuted_lemma :
  concrete (LinearPenalised KL1 false) /\ ~ option_of (LinearPenalised KL1 false) "lambda" /\
  exists a, construct (LinearPenalised KL1 false) [("lambda", VInt 2)] = Ok a /\ lookup "lam" a = Some (VInt 0).
Proof.
  split; [split; discriminate|]. split.
  - intros O. apply has_key_In in O. discriminate O.
  - eexists. split; reflexivity.
Qed.
(*@ C93, partial: set_params rejects a name that is not an option. *)
Lemma unknown_option_partial_lemma : forall c a ps n, In n (map fst ps) -> ~ option_of c n ->
  snd (set_params c a ps) = Err ValueError.
Proof. intros. eapply set_params_unknown; eassumption. Qed.
(*@ the options before the bad name are set nevertheless *)
Lemma ex_unknown_option_partial_lemma :
  exists a, construct (LinearPenalised KL1 false) [] = Ok a /\
  let r := set_params (LinearPenalised KL1 false) a [("lam", VInt 2); ("lambda", VInt 3)] in
  snd r = Err ValueError /\ lookup "lam" (fst r) = Some (VInt 2).
Proof. eexists. split; [build|]. split; reflexivity. Qed.

Lemma object_names c a : concrete c -> object_of c a -> names a = attributes c.
Proof.
  intros C O. induction O as [kw a E|a ps O IH]; [eapply construct_names; eassumption|].
  clear O. revert a IH. induction ps as [|[n v] ps IH']; intros a IH; cbn [set_params fst]; [exact IH|].
  destruct (has_key n (names (signature c))) eqn:K; [|exact IH]. apply IH'. rewrite names_set; [exact IH|].
  rewrite IH. apply attributes_signature, has_key_In, K.
Qed.
(*@ C94: clone of sklearn gives a model with the same options: all attributes of the new object are those of the old
    one. *)
Lemma clone_keeps_options_lemma : forall c a, concrete c -> object_of c a -> clone c a = Ok a.
Proof. intros c a C O. apply clone_same; [exact C|apply object_names; assumption]. Qed.
(*@ C94: get_params returns every option with its value, and set_params with options of the class gives the model that
    the constructor gives for the new options in place of the old ones (when an option is set twice the last value
    counts). *)
Lemma set_params_as_constructed_lemma : forall c kw a ps,
  concrete c -> construct c kw = Ok a -> (forall n, In n (map fst ps) -> option_of c n) ->
  (exists gs, get_params c a = Ok gs /\ map fst gs = map fst (signature c) /\
              forall n, option_of c n -> lookup n gs = given c kw n) /\
  exists a', set_params c a ps = (a', Ok tt) /\ construct c (rev ps ++ kw) = Ok a'.
Proof.
  intros c kw a ps C E K. pose proof (construct_names c kw a C E) as N. split.
  - eexists. split; [apply get_params_ok, names_given, N|]. split.
    + rewrite map_map. cbn [fst]. apply map_id.
    + intros n O. rewrite lookup_map_names, (proj2 (has_key_In n (names (signature c))) O).
      rewrite (construct_lookup c kw a n C E O). destruct (given_some c kw n O) as [v ->]. reflexivity.
  - destruct (set_params_ok c ps a N K) as (a' & S & N' & L). exists a'. split; [exact S|].
    destruct (construct c (rev ps ++ kw)) as [b|e] eqn:B; [|rewrite construct_eq in B by exact C; discriminate B].
    f_equal. apply (construct_ext c); [eapply construct_names; eassumption|exact N'|].
    intros n O. rewrite (construct_lookup _ _ _ _ C B O), L, (construct_lookup _ _ _ _ C E O). unfold given.
    assert (A : forall (d e : dict), lookup n (d ++ e) = match lookup n d with Some x => Some x | None => lookup n e end).
    { induction d as [|[q x] d IHd]; intros e; cbn [app lookup]; [reflexivity|]. destruct (String.eqb n q); [reflexivity|apply IHd]. }
    rewrite A. destruct (lookup n (rev ps)); reflexivity.
Qed.
(*@ CADLmeModel(lam=2), set_params(rho=1), clone *)
Lemma ex_clone_keeps_options_lemma :
  exists a, construct (LmePenalised KCAD false) [("lam", VInt 2)] = Ok a /\
  let b := fst (set_params (LmePenalised KCAD false) a [("rho", VInt 1)]) in
  object_of (LmePenalised KCAD false) b /\ clone (LmePenalised KCAD false) b = Ok b /\
  lookup "lam" b = Some (VInt 2) /\ lookup "rho" b = Some (VInt 1).
Proof.
  eexists. split; [build|]. cbv zeta.
  assert (O : object_of (LmePenalised KCAD false)
    (fst (set_params (LmePenalised KCAD false)
            (match construct (LmePenalised KCAD false) [("lam", VInt 2)] with Ok a => a | Err _ => [] end) [("rho", VInt 1)]))).
  { apply ObjectSet. eapply ObjectBuilt. reflexivity. }
  split; [exact O|]. split; [|split; reflexivity]. apply clone_keeps_options_lemma; [split; discriminate|exact O].
Qed.

(*@ C95, partial: without any options every model can be constructed and instantiated, and has the types with which
    LmeFit.v and Linear.v fit. *)
Lemma defaults_usable_partial_lemma : forall c, concrete c ->
  exists a p, construct c [] = Ok a /\ instantiate_parts c a = Ok p /\
  if is_lme c then exists m, lme_model_of c a = Ok m else exists m, linear_model_of c a = Ok m.
Proof.
  assert (D : forall z, (z <> 0)%Z -> reqb (IZR z) 0 = false) by (intros; apply reqb_false, not_0_IZR; assumption).
  assert (L : forall a b, a < b -> rltb a b = true).
  { intros a b H. unfold rltb. destruct (Rlt_dec a b); [reflexivity|contradiction]. }
  intros c [C1 C2]. classes c; try congruence; do 2 eexists; (split; [build|]); cbn [is_lme];
    (split; [cbn [instantiate_parts];
             unfold lme_penalised, lme_simple, lme_simple_sr3, linear_penalised, linear_simple, linear_simple_sr3,
               choose_step, relaxed_step, penalised_step, wrap, pgd_part, is_zero, guard, nonzero;
             cbn [read lookup String.eqb Ascii.eqb Bool.eqb rbind truthy as_num penalty_part pt_oracle pt_solver negb];
             rewrite ?(reqb_false (0 + 1) 0), ?(reqb_false (1 + 1) 0), ?(reqb_false 40 0), ?(reqb_false 1 0) by lra;
             unfold guard; rewrite ?(L 1 (37 / 10)), ?(L 1 2) by lra;
             cbn [negb rbind]; reflexivity|]);
    eexists; cbn [linear_model_of]; unfold linear_record, mk_scad, guard;
    cbn [get read lookup String.eqb Ascii.eqb Bool.eqb rbind as_num as_real as_int as_str as_keys as_bool as_option as_prior];
    rewrite ?(L 1 (37 / 10)), ?(L 1 2) by lra; reflexivity.
Qed.
Lemma l0_loss_raises argsort inv m pr x0 warm weights r :
  lm_reg m = mk_l0 None -> has_key "loss" (snd (lm_keys m)) = true ->
  linear_fit_problem argsort inv m pr x0 warm weights <> Ok r.
Proof.
  intros RG K. unfold linear_fit_problem. set (w := match weights with Some w => w | None => _ end).
  assert (V : forall o x, r_value (as_regularizer argsort (RL0 None o (Some (astype_bool w)))) x = Err TypeError) by reflexivity.
  assert (LS : forall (S : Type) (orc : oracle S) o x st, has_key "loss" (lg_keys (st_logger st)) = true ->
             exists e, log_state orc (as_regularizer argsort (RL0 None o (Some (astype_bool w)))) x st = Err e).
  { intros S orc o x st H. unfold log_state. rewrite H. destruct (o_value _ _ _) as [[f s']|e]; cbn [rbind]; rewrite ?V; cbn [rbind]; eauto. }
  assert (PG : forall (S : Type) (orc : oracle S) o slv x s lg, has_key "loss" (lg_keys lg) = true ->
             exists e, pgd_optimize orc (as_regularizer argsort (RL0 None o (Some (astype_bool w)))) slv x s lg = Err e).
  { intros S orc o slv x s lg H. unfold pgd_optimize.
    destruct (LS S orc o x (pgd_init x s lg) H) as [e ->]. cbn [rbind]. eauto. }
  destruct (lm_keys m) as [kd ks]. cbn [snd] in K.
  rewrite RG. cbn [instantiate mk_l0 rbind mk_logger].
  destruct (lm_el m) as [el|].
  - destruct (mk_sr3 _ _ _) as [o0|]; cbn [rbind]; [|discriminate].
    destruct (sr3_instantiate _ _ _) as [o|]; cbn [rbind]; [|discriminate].
    destruct (lm_practical m).
    + unfold fake_pgd_optimize. destruct (sr3_find _ _ _ _ _) as [x'|]; cbn [rbind lg_keys]; [|discriminate].
      rewrite K. destruct (o_value _ _ _) as [[f s']|]; cbn [rbind]; [|discriminate]. rewrite V. cbn [rbind]. discriminate.
    + match goal with |- context[pgd_optimize ?orc ?rg ?slv ?x ?s ?lg] => destruct (PG _ orc (Some w) slv x s lg K) as [e E] end.
      rewrite E. cbn [rbind]. discriminate.
  - destruct (lin_instantiate _ _) as [o|]; cbn [rbind]; [|discriminate].
    match goal with |- context[pgd_optimize ?orc ?rg ?slv ?x ?s ?lg] => destruct (PG _ orc (Some w) slv x s lg K) as [e E] end.
    rewrite E. cbn [rbind]. discriminate.
Qed.
(*@ C95 refuted: LinearL0Model and LinearL0ModelSR3 with their default number of features cannot log the loss: fit
    raises on every problem, since the value of their regularizer compares with None. *)
Lemma defaults_usable_refuted_lemma : forall sr3 practical,
  exists a m, construct (LinearPenalised KL0 sr3)
                [("logger_keys", VKeys KTuple ["loss"]); ("practical", VBool practical)] = Ok a /\
  linear_model_of (LinearPenalised KL0 sr3) a = Ok m /\
  forall argsort inv pr x0 warm_start weights r,
  linear_fit_problem argsort inv m pr x0 warm_start weights <> Ok r.
Proof.
  intros sr3 practical. destruct sr3; do 2 eexists; (split; [build|]); (split; [reflexivity|]);
    intros; apply l0_loss_raises; reflexivity.
Qed.
(*@ with a number of features the loss is defined *)
Lemma ex_defaults_usable_lemma :
  exists r, instantiate (mk_l0 (Some 1%Z)) [1; 1] None = Ok r /\ value r [0; 2] = Ok (Fin 0).
Proof.
  eexists. split; [reflexivity|]. cbn [value]. unfold nnz_count, countb, nonzero. cbn [filter length].
  rewrite (reqb_true 0 0) by reflexivity. rewrite (reqb_false 2 0) by lra. reflexivity.
Qed.
