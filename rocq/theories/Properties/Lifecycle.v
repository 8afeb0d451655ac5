(** Property C65: what regularizers and oracles keep after forget (src/pysr3/regularizers.py,
    src/pysr3/linear/oracles.py, src/pysr3/lme/oracles.py). *)
From Verif.Base Require Import Py Vec Mat.
From Verif.Model Require Import Regularizers Linear LmeInner Lifecycle.
From Verif.Spec Require Import InnerSpec LifeSpec.
From Verif.Proofs Require Import LifecycleMain.

Open Scope list_scope.
Open Scope R_scope.

(** C65 (partial).  Whatever happened to it, instantiate makes of a regularizer what it makes of a new one, if its
    numbers of non-zeros, when it has any, were given to the constructor. *)
Theorem regularizer_reinstantiated_partial : forall r es w o,
  just_built r -> budgets_given r ->
  instantiate (lifetime r es) w o = instantiate (lifetime r (moves es)) w o.
Proof. exact regularizer_reinstantiated_partial_lemma. Qed.
Print Assumptions regularizer_reinstantiated_partial.

(** C65 (partial).  After forget such a regularizer, unless it wraps another one, computes what a new one computes. *)
Theorem regularizer_forgets_partial : forall argsort r es x alpha,
  just_built r -> budgets_given r -> not_wrapper r ->
  prox argsort (forget (lifetime r es)) x alpha = prox argsort (lifetime r (moves es)) x alpha /\
  value (forget (lifetime r es)) x = value (lifetime r (moves es)) x.
Proof. exact regularizer_forgets_partial_lemma. Qed.
Print Assumptions regularizer_forgets_partial.

(**  *)
Example ex_regularizer_forgets :
  let r := mk_l0lme (Some 1%Z) (Some 1%Z) true (Some (view 1 1)) in
  just_built r /\ budgets_given r /\ not_wrapper r /\
  lifetime r [Instantiates [1; 1] None; Forgets; OracleMoves (view 2 1)] =
    mk_l0lme (Some 1%Z) (Some 1%Z) true (Some (view 2 1)).
Proof. exact ex_regularizer_forgets_lemma. Qed.

(** C65 (refuted).  A regularizer of variances keeps its coordinates after forget, and no wrapper passes forget on;
    numbers of non-zeros left open by the constructor stay those of the first problem. *)
Theorem regularizer_forgets_refuted :
  (forall argsort,
   prox argsort (forget (lifetime (mk_pos None) [Instantiates [1; 1] (Some (view 1 1))])) [-1; -1] 1 = Ok [-1; 0] /\
   prox argsort (mk_pos None) [-1; -1] 1 = Ok [0; 0] /\
   prox argsort (forget (lifetime (mk_pos None) [Instantiates [1; 1] (Some (view 1 1))])) [-1; -1; -1] 1 = Err IndexError) /\
  (forall argsort,
   prox argsort (forget (lifetime (mk_elastic 0 (Some (mk_l1 1))) [Instantiates [0] None])) [3] 1 = Ok [3] /\
   prox argsort (mk_elastic 0 (Some (mk_l1 1))) [3] 1 = Ok [2]) /\
  (let r := mk_l0lme None None true (Some (view 1 1)) in
   exists old new,
     instantiate (lifetime r [Instantiates [1; 1] None; Forgets; OracleMoves (view 2 1)]) [1; 1; 1] None = Ok old /\
     instantiate (lifetime r [OracleMoves (view 2 1)]) [1; 1; 1] None = Ok new /\
     value old [3; 4; 5] = Ok PInf /\ value new [3; 4; 5] = Ok (Fin 0)).
Proof. exact regularizer_forgets_refuted_lemma. Qed.
Print Assumptions regularizer_forgets_refuted.

(** C65.  The oracles of linear models forget: nothing can be evaluated, they are again as the constructor made
    them, and instantiate makes of any oracle what it makes of a new one. *)
Theorem linear_oracles_forget :
  (forall o x pr, lin_loss (lin_forget o) x = Err AttributeError /\ lin_gradient (lin_forget o) x = Err AttributeError /\
     lin_instantiate (lin_forget o) pr = lin_instantiate {| lo_problem := None; lo_prior := lo_prior o |} pr) /\
  (forall inv o x w pr rg tol n x0, sr3_loss (sr3_forget o) x w = Err AttributeError /\
     (forall v, sr3_value (sr3_forget o) x <> Ok v) /\ (forall v, sr3_find (sr3_forget o) rg tol n x0 <> Ok v) /\
     mk_sr3 (so_lam o) (so_practical o) false = Ok (sr3_forget o) /\
     forall o', mk_sr3 (so_lam o) (so_practical o) false = Ok o' ->
       sr3_instantiate inv o pr = sr3_instantiate inv o' pr).
Proof. exact linear_oracles_forget_lemma. Qed.
Print Assumptions linear_oracles_forget.

(** C65 (partial).  The relaxed mixed-model oracle forgets if it does not warm-start and does not increase its
    parameters. *)
Theorem relaxed_oracle_forgets_partial : forall opts solve ms warm lb lg es c p q o,
  relaxed_after opts solve ms warm (new_relaxed lb lg) (es ++ [RelaxedForget; RelaxedInstantiate c p q]) = Ok o ->
  ro_problem o = Some (c, p, q) /\
  (io_increase opts = false -> sm_lam (ro_memory o) = {| lam_b := lb; lam_g := lg |}) /\
  (warm = false -> sm_warm (ro_memory o) = None) /\
  (io_increase opts = false -> warm = false -> o = relaxed_instantiate (new_relaxed lb lg) c p q).
Proof. exact relaxed_oracle_forgets_partial_lemma. Qed.
Print Assumptions relaxed_oracle_forgets_partial.

(** C65 (refuted).  The relaxed mixed-model oracle does not forget where it stopped: after one call with zero
    variances on one problem, forget and instantiate on any other, it returns zero variances, where a new oracle
    returns positive ones. *)
Theorem relaxed_oracle_forgets_refuted :
  (forall opts solve ms lb lg c1 p1 q1 b0 n tb0 tg0 c2 p2 q2 o beta gamma tbeta tgamma b' g' tb' tg' o',
     solve_ok solve -> (io_line_search opts = true -> minimiser_inside ms) -> tg0 <> [] -> tgamma <> [] ->
     relaxed_after opts solve ms true (new_relaxed lb lg)
       [RelaxedInstantiate c1 p1 q1; RelaxedFind b0 (zeros n) tb0 tg0; RelaxedForget; RelaxedInstantiate c2 p2 q2] = Ok o ->
     length gamma = n -> positive gamma ->
     (relaxed_find opts solve ms true o beta gamma tbeta tgamma = Ok ((b', g', tb', tg'), o') -> g' = zeros n) /\
     (relaxed_find opts solve ms true (relaxed_instantiate (new_relaxed lb lg) c2 p2 q2) beta gamma tbeta tgamma =
        Ok ((b', g', tb', tg'), o') -> positive g')) /\
  (exists o o1 o2 r1 r2,
     relaxed_after lax no_solver no_minimiser true (new_relaxed 1 1)
       [RelaxedInstantiate bowl 1 1; RelaxedFind [0] [0] [0] [0]; RelaxedForget; RelaxedInstantiate bowl 1 1] = Ok o /\
     relaxed_find lax no_solver no_minimiser true o [0] [1] [0] [1] = Ok (r1, o1) /\
     relaxed_find lax no_solver no_minimiser true (relaxed_instantiate (new_relaxed 1 1) bowl 1 1) [0] [1] [0] [1] = Ok (r2, o2)).
Proof. exact relaxed_oracle_forgets_refuted_lemma. Qed.
Print Assumptions relaxed_oracle_forgets_refuted.
