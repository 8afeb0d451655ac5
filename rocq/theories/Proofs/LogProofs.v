(** The log of a fit, on the list side. *)
From Coq Require Import Lra String.
From Verif.Base Require Import Py Vec Mat.
From Verif.Model Require Import LmeProblem Regularizers Solvers LmeInner LmeFit.
From Verif.Spec Require Import FitSpec LogSpec.
From Verif.Proofs Require Import VecFacts RegularizerProofs SolverProofs FitProofs SelectProofs TraceProofs.
Open Scope string_scope.
Open Scope list_scope.
Open Scope R_scope.

Lemma run_solver_keeps solve m p q c rg x0 lg x lg' k :
  run_solver solve m p q c rg x0 lg = Ok (x, lg') -> In k (lg_keys lg) -> In k (lg_keys lg').
Proof.
  intros H Hk. unfold run_solver in H. apply rbind_inv in H. destruct H as [step [Hs H]].
  destruct (mo_sr3 m) as [ss|]; [destruct (ss_practical ss)|].
  - apply rbind_inv in H. destruct H as [[[x1 lg1] mem1] [H E]]. injection E as <- <-.
    unfold fake_pgd_optimize in H. apply rbind_inv in H. destruct H as [[[x2 lg2] s2] [H1 H]].
    apply rbind_inv in H. destruct H as [[lg3 s3] [H2 H]]. apply rbind_inv in H. destruct H as [lg4 [H3 H]]. injection H as _ <- _.
    assert (K2 : In k (lg_keys lg2)).
    { apply rbind_inv in H1. destruct H1 as [l [H1 E]]. apply rbind_inv in E. destruct E as [[x3 m3] [_ E]]. injection E as _ <- _.
      eapply find_log_keeps; [exact H1|exact Hk]. }
    eapply add_keeps; [exact H3|]. destruct (has_key "loss" (lg_keys lg2)).
    + apply rbind_inv in H2. destruct H2 as [[f s'] [_ H2]]. apply rbind_inv in H2. destruct H2 as [v [_ H2]].
      apply rbind_inv in H2. destruct H2 as [l [H2 E]]. injection E as <- _. eapply add_keeps; [exact H2|exact K2].
    + injection H2 as <- _. exact K2.
  - apply rbind_inv in H; destruct H as [[[x1 lg1] mem1] [H E]]; injection E as <- <-;
    exact (pgd_keys _ _ _ _ _ _ _ _ _ _ _ H Hk).
  - apply rbind_inv in H; destruct H as [[[x1 lg1] mem1] [H E]]; injection E as <- <-;
    exact (pgd_keys _ _ _ _ _ _ _ _ _ _ _ H Hk).
Qed.

Lemma tolerance_used_eq m s : tolerance_used m s -> s = solver_tol m.
Proof.
  intros [H1 H2]. unfold solver_tol. destruct (mo_sr3 m) as [ss|] eqn:E.
  - destruct (ss_practical ss) eqn:P.
    + apply H1. exists ss. auto.
    + apply H2. intros (ss' & E' & P'). congruence.
  - apply H2. intros (ss' & E' & P'). congruence.
Qed.

Section Log.
Variables (m : lme_model) (c : lme_calls) (beta gamma : vec).
Let tol := sqrt (solver_tol m).
Lemma log_criteria_inv lg lg' : log_criteria m c beta gamma lg = Ok lg' ->
  let num k (f : R -> vec -> vec -> res R) := In k (lg_keys lg) ->
    exists v, 0 <= solver_tol m /\ f tol beta gamma = Ok v /\ logs_number lg' k v in
  num "vaida_aic" (lc_vaida c false) /\ num "vaida_aic_marginalized" (lc_vaida c true) /\
  num "jones_bic" (lc_jones c) /\ num "muller_ic" (lc_muller c) /\
  (In "flip_probabilities_beta" (lg_keys lg) -> exists v, lc_flip c beta gamma = Ok v /\
     get lg' "flip_probabilities_beta" = Ok (LAtom (LVec v))).
Proof.
  intros H num. unfold log_criteria in H.
  apply rbind_inv in H. destruct H as [l1 [H1 H]]. apply rbind_inv in H. destruct H as [l2 [H2 H]].
  apply rbind_inv in H. destruct H as [l3 [H3 H]]. apply rbind_inv in H. destruct H as [l4 [H4 H]].
  destruct (add_if_inv _ _ _ _ H1) as (K1 & L1 & V1). destruct (add_if_inv _ _ _ _ H2) as (K2 & L2 & V2).
  destruct (add_if_inv _ _ _ _ H3) as (K3 & L3 & V3). destruct (add_if_inv _ _ _ _ H4) as (K4 & L4 & V4).
  destruct (add_if_inv _ _ _ _ H) as (K5 & L5 & V5).
  assert (X : forall f a, (let! t := (let! _ := guard (rleb 0 (solver_tol m)) NotFinite in Ok (sqrt (solver_tol m))) in
      let! v := f t beta gamma in Ok (LNum v)) = Ok a -> exists v, 0 <= solver_tol m /\ f tol beta gamma = Ok v /\ a = LNum v).
  { intros f a Ha. apply rbind_inv in Ha. destruct Ha as [t [Et Ha]]. apply rbind_inv in Ha. destruct Ha as [s [Es Ha]].
    apply rbind_inv in Et. destruct Et as [u [G Et]]. apply guard_inv in G. apply rleb_true in G.
    injection Et as <-. injection Ha as <-. exists s. auto. }
  subst num. cbv beta. unfold logs_number, get. split; [|split; [|split; [|split]]].
  - intros K. destruct (V1 K) as [a [Ha La]]. destruct (X _ _ Ha) as (v & T & E & ->). exists v.
    rewrite L5, L4, L3, L2, La by discriminate. auto.
  - intros K. destruct (V2 (K1 _ K)) as [a [Ha La]]. destruct (X _ _ Ha) as (v & T & E & ->). exists v.
    rewrite L5, L4, L3, La by discriminate. auto.
  - intros K. destruct (V3 (K2 _ (K1 _ K))) as [a [Ha La]]. destruct (X _ _ Ha) as (v & T & E & ->). exists v.
    rewrite L5, L4, La by discriminate. auto.
  - intros K. destruct (V4 (K3 _ (K2 _ (K1 _ K)))) as [a [Ha La]]. destruct (X _ _ Ha) as (v & T & E & ->). exists v.
    rewrite L5, La by discriminate. auto.
  - intros K. destruct (V5 (K4 _ (K3 _ (K2 _ (K1 _ K))))) as [a [Ha La]]. apply rbind_inv in Ha. destruct Ha as [v [Hv Ha]].
    injection Ha as <-. exists v. rewrite La. auto.
Qed.
End Log.

Lemma fit_logs argsort solve calls_of m coef pr beta0 gamma0 warm fe re co lg :
  fit_problem argsort solve calls_of m coef pr beta0 gamma0 warm fe re = Ok (co, lg) ->
  exists g, prior_of m pr = Ok g /\
  let c := calls_of pr g (mo_sr3 m) in
  let num k (f : R -> vec -> vec -> res R) := asked m k ->
    exists v, 0 <= solver_tol m /\ f (sqrt (solver_tol m)) (co_beta co) (co_gamma co) = Ok v /\ logs_number lg k v in
  num "vaida_aic" (lc_vaida c false) /\ num "vaida_aic_marginalized" (lc_vaida c true) /\
  num "jones_bic" (lc_jones c) /\ num "muller_ic" (lc_muller c) /\
  (asked m "flip_probabilities_beta" -> exists v, lc_flip c (co_beta co) (co_gamma co) = Ok v /\
     get lg "flip_probabilities_beta" = Ok (LAtom (LVec v))).
Proof.
  intros H.
  destruct (fit_problem_inv _ _ _ _ _ _ _ _ _ _ _ _ _ H) as
    (ov & g & wf & wr & r0 & r & bg0 & b1 & g1 & lg0 & x & lg1 & _ & Hg & _ & _ & _ & _ & _ & Hl & Hx & _ & _ & _ & _ & Hc).
  exists g. split; [exact Hg|]. cbv zeta.
  assert (K : forall k, asked m k -> In k (lg_keys lg1)).
  { intros k Hk. eapply run_solver_keeps; [exact Hx|]. unfold mk_logger in Hl.
    unfold asked in Hk. destruct (mo_keys m) as [kd ks]. injection Hl as <-. exact Hk. }
  destruct (log_criteria_inv _ _ _ _ _ _ Hc) as (A1 & A2 & A3 & A4 & A5).
  repeat split; intros Hk; auto.
Qed.
