(** Property C80: get_information_criterion of the linear models (src/pysr3/linear/models.py). *)
From Verif.Base Require Import Py Vec Mat.
From Verif.Model Require Import Regularizers Linear.
From Verif.Spec Require Import ProxSpec SolverSpec LinearSpec RateSpec.
From Verif.Proofs Require Import LinearCriterionMain.

Open Scope string_scope.
Open Scope list_scope.
Open Scope R_scope.

(** C80.  After fit(x, y) with 'aic' or 'bic' among the logger keys, get_information_criterion(x, y) of the
    plain model returns the logged number; that of the SR3 model too, whatever its el, provided
    a'a + I can be inverted. *)
Theorem linear_criterion_matches_log :
  forall argsort inv m x p y x0 warm weights c lg ic,
  linear_fit argsort inv m x p y x0 warm weights = Ok (c, lg) ->
  ic = "aic" \/ ic = "bic" -> In ic (snd (lm_keys m)) ->
  exists v, get lg ic = Ok (LAtom (LNum v)) /\
    (lm_el m = None -> linear_information_criterion inv m (Some c) x p y ic = Ok v) /\
    (forall w, linear_information_criterion inv m (Some c) x p y ic = Ok w -> w = v) /\
    (forall el pr h, lm_el m = Some el -> linear_from_x_y x p y None None = Ok pr ->
       inv p (h_matrix 1 pr) = Ok h -> linear_information_criterion inv m (Some c) x p y ic = Ok v).
Proof. exact linear_criterion_matches_log_lemma. Qed.
Print Assumptions linear_criterion_matches_log.

(** C80.  Before fit it raises NotFittedError; a name other than 'aic' and 'bic' is a ValueError; and its
    value is the least-squares loss plus 2 or log(n) per non-zero coefficient of the stored
    vector, also for data other than the training data. *)
Theorem linear_criterion :
  (forall inv m x p y ic, linear_information_criterion inv m None x p y ic = Err NotFittedError) /\
  (forall inv m c x p y ic, lm_el m = None -> ic <> "aic" -> ic <> "bic" ->
     linear_information_criterion inv m (Some c) x p y ic = Err ValueError) /\
  (forall inv m c x p y pr, linear_from_x_y x p y None None = Ok pr -> wf_linear pr -> length c = p ->
     lm_el m = None \/ (exists el h, lm_el m = Some el /\ inv p (h_matrix 1 pr) = Ok h) ->
     linear_information_criterion inv m (Some c) x p y "aic" = Ok (least_squares pr c + 2 * INR (nonzeros c)) /\
     linear_information_criterion inv m (Some c) x p y "bic" =
       Ok (least_squares pr c + ln (INR (length x)) * INR (nonzeros c))).
Proof. exact linear_criterion_lemma. Qed.
Print Assumptions linear_criterion.

(** A fit of an SR3 model with el = 3 that logs its AIC: one observation, no iteration. *)
Example ex_linear_criterion :
  let m := {| lm_el := Some 3; lm_practical := true; lm_reg := RDummy; lm_tol := / 10; lm_max_iter := 0;
              lm_stepping := "fixed"; lm_step_len := None; lm_prior := PNone; lm_keys := (KTuple, ["aic"]) |} in
  exists lg v h, linear_fit (fun _ => []) inv_one m [[1]] 1 [4] None false None = Ok ([1], lg) /\
    get lg "aic" = Ok (LAtom (LNum v)) /\ v = 9 / 2 + 2 /\ inv_one 1 (h_matrix 1 (sample_problem 4)) = Ok h.
Proof. exact ex_linear_criterion_lemma. Qed.
