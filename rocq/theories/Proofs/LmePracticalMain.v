(** Final lemmas comparing the practical and the standard method, restated as theorems in Properties/LmePractical.v. *)
(*HEAD
(** Property C114: practical and standard SR3 mixed models apply the same penalty (src/pysr3/solvers.py, src/pysr3/lme). *)
From Verif.Base Require Import Py Vec Mat.
From Verif.Model Require Import LmeProblem Regularizers Solvers LmeInner LmeFit LmeBridge.
From Verif.Spec Require Import InnerSpec PracticalSpec.
HEAD*)
(*OPEN
Open Scope list_scope.
Open Scope R_scope.
OPEN*)
From Coq Require Import Lia Lra String.
From Verif.Base Require Import Py Vec Mat.
From Verif.Model Require Import LmeProblem Regularizers Solvers LmeInner LmeFit LmeBridge.
From Verif.Spec Require Import InnerSpec PracticalSpec.
From Verif.Proofs Require Import VecFacts SolverProofs InnerProofs InnerIP PracticalProofs.
Open Scope list_scope.
Open Scope R_scope.

(*@ C114 (refuted).  L1LmeModelSR3 with lam = 40 and the default ell = 40 on two groups, one observing 42 for a fixed
    effect and the other 0 for a random one.  Started as usual, the standard method returns the fixed effect 1 for every
    limit of its iterations.  With practical=True and otherwise the same options the model returns 0, for every limit
    that lets it make an iteration. *)
Lemma practical_same_penalty_refuted_lemma : forall argsort cdf max_iter_oracle max_iter_solver, (0 < max_iter_oracle)%Z ->
  exists co lg co' lg',
  lme_fit_problem argsort cdf (apart_model false max_iter_oracle max_iter_solver) None apart_problem None None false None None = Ok (co, lg) /\
  lme_fit_problem argsort cdf (apart_model true max_iter_oracle max_iter_solver) None apart_problem None None false None None = Ok (co', lg') /\
  co_beta co = [1] /\ co_beta co' = [0].
Proof.
  intros argsort cdf N K HN. destruct (standard_fit argsort cdf N K) as (co & lg & H & Hb).
  destruct (practical_fit argsort cdf N K HN) as (co' & lg' & H' & Hb'). exists co, lg, co', lg'. auto.
Qed.

Lemma body_lam calls opts p q solve ms n s s' : io_increase opts = false -> ip_body calls opts p q solve ms n s = Ok s' -> is_lam s' = is_lam s.
Proof.
  unfold ip_body. intros Hi H. repeat (apply rbind_inv in H; destruct H as [? [_ H]]).
  destruct (rltb _ _); [injection H as <-; reflexivity|].
  apply rbind_inv in H; destruct H as [[? ?] [_ H]]. rewrite Hi in H. cbn [rbind] in H. injection H as <-. reflexivity.
Qed.
Lemma loop_lam calls opts p q solve ms n : io_increase opts = false -> forall fuel s s',
  ip_loop calls opts p q solve ms n fuel s = Ok s' -> is_lam s' = is_lam s.
Proof.
  intros Hi. induction fuel as [|fuel IH]; intros s s' H; cbn [ip_loop] in H; apply rbind_inv in H; destruct H as [t [_ H]];
    destruct t; try discriminate; try (injection H as ->; reflexivity).
  apply rbind_inv in H. destruct H as [s1 [H1 H]]. apply IH in H. rewrite H. eapply body_lam; eauto.
Qed.
Lemma find_lam calls opts p q solve ms warm mem b g tb tg b' g' tb' tg' mem' : io_increase opts = false ->
  find_ip calls opts p q solve ms warm mem b g tb tg = Ok (b', g', tb', tg', mem') -> sm_lam mem' = sm_lam mem.
Proof.
  unfold find_ip. intros Hi H. destruct tg as [|t tg].
  - apply rbind_inv in H. destruct H as [x [_ H]]. injection H as _ _ _ _ <-. reflexivity.
  - apply rbind_inv in H. destruct H as [u [_ H]]. apply rbind_inv in H. destruct H as [s [Hs H]]. injection H as _ _ _ _ <-.
    cbn [sm_lam]. rewrite (loop_lam _ _ _ _ _ _ _ Hi _ _ _ Hs). unfold ip_start.
    destruct (if warm then sm_warm mem else None) as [[? ?]|]; reflexivity.
Qed.
Lemma descend_all ell : ell <> 0 -> forall k w x, length w = k -> length x = k ->
  vadd w (vscale (1 / ell) (vneg (vmul (vneg (repeat ell k)) (vsub x w)))) = x.
Proof.
  intros He. induction k as [|k IH]; intros [|a w] [|b x] Hw Hx; try discriminate; [reflexivity|].
  cbn. f_equal; [field; exact He|]. apply IH; [now injection Hw|now injection Hx].
Qed.

(*@ C114 (partial).  What the standard method projects: with the default step 1/ell, ell not 0, a gradient step of
    PGDSolver from w ends at the parameters [b ++ g] which the interior-point method returns for w. *)
Lemma standard_step_partial_lemma : forall solve p q c ss mem w d mem', ss_ell ss <> 0 -> sm_lam mem = sm_lam (sr3_start ss) ->
  o_grad (sr3_lme_oracle solve p q c ss) mem w = Ok (d, mem') ->
  exists b g tb tg,
  find_ip (lc_sr3 c) (ip_options_of ss None) p q solve no_minimizer (ss_warm ss) mem
    (vscale 2 (fst (x_to_beta_gamma p q w))) (vscale 2 (snd (x_to_beta_gamma p q w)))
    (fst (x_to_beta_gamma p q w)) (snd (x_to_beta_gamma p q w)) = Ok (b, g, tb, tg, mem') /\
  move w (vneg d) (1 / ss_ell ss) = Ok (b ++ g) /\ sm_lam mem' = sm_lam (sr3_start ss).
Proof.
  intros solve p q c ss mem w d mem' He Hl H. cbn [sr3_lme_oracle o_grad] in H. unfold gradient_value_function in H.
  destruct (x_to_beta_gamma p q w) as [tb0 tg0] eqn:X. cbn [fst snd].
  apply rbind_inv in H. destruct H as [[[[[b g] tb] tg] m'] [Hf H]].
  apply rbind_inv in H. destruct H as [u [U H]]. injection H as <- <-.
  apply guard_inv, andb_prop in U. destruct U as [U1 U2]. apply Nat.eqb_eq in U1, U2.
  pose proof (find_lam _ (ip_options_of ss None) _ _ _ _ _ _ _ _ _ _ _ _ _ _ _ eq_refl Hf) as L.
  exists b, g, tb, tg. split; [exact Hf|]. split; [|congruence].
  rewrite L, Hl in *. cbn [sr3_start sm_lam lam_b lam_g] in *. rewrite <- repeat_app in *. rewrite repeat_length in U2.
  unfold move, beta_gamma_to_x in *.
  assert (E : vadd w (vscale (1 / ss_ell ss) (vneg (vmul (vneg (repeat (ss_ell ss) (p + q))) (vsub (b ++ g) w)))) = b ++ g)
    by (apply descend_all; congruence).
  rewrite E. replace (length _ =? length w)%nat with true; [reflexivity|]. symmetry. apply Nat.eqb_eq.
  unfold vneg, vmul, vsub. rewrite map_length, !map2_length, map_length, repeat_length. lia.
Qed.

(*@ the gradient of the sample problem at its start *)
Lemma ex_standard_step_lemma : forall cdf n, exists d mem',
  o_grad (sr3_lme_oracle list_solve 1 1 (problem_calls cdf apart_problem None (Some (apart_settings false n))) (apart_settings false n))
    (sr3_start (apart_settings false n)) [1; 1] = Ok (d, mem').
Proof.
  intros cdf n. destruct (standard_grad cdf n (sr3_start (apart_settings false n)) 1 ltac:(lra)) as (g & mem & _ & _ & E).
  { split; [reflexivity|left; reflexivity]. }
  eexists. eexists. exact E.
Qed.

(*@ C114 (partial).  What the practical method projects: an iteration of the interior-point method leaves tbeta and
    tgamma alone or replaces them by the projection of the new beta and gamma under the penalty ell times as strong
    as that of the standard method, taken like there with step 1/ell. *)
Lemma practical_step_partial_lemma : forall argsort calls solve ms ss r p q n s s', ss_ell ss <> 0 ->
  ip_body calls (ip_options_of ss (Some (prox argsort r))) p q solve ms n s = Ok s' ->
  is_tbeta s' = is_tbeta s /\ is_tgamma s' = is_tgamma s \/
  exists tx, prox argsort (strengthen (ss_ell ss) r) (is_beta s' ++ is_gamma s') (1 / ss_ell ss) = Ok tx /\
    (is_tbeta s', is_tgamma s') = x_to_beta_gamma p q tx.
Proof.
  intros argsort calls solve ms ss r p q n s s' He H. unfold ip_body in H.
  repeat (apply rbind_inv in H; destruct H as [? [_ H]]).
  destruct (rltb _ _); [injection H as <-; auto|].
  apply rbind_inv in H; destruct H as [[tb tg] [Ht H]].
  cbn [ip_options_of io_increase rbind] in H. injection H as <-. cbn.
  cbn [ip_options_of io_prox io_update_every io_prox_step] in Ht. destruct (_ && _); [|injection Ht as <- <-; auto].
  right. apply rbind_inv in Ht. destruct Ht as [tx [Hp Ht]]. exists tx. rewrite prox_strengthen.
  replace (ss_ell ss * (1 / ss_ell ss)) with 1 by (field; exact He). split; [exact Hp|]. injection Ht as <- <-. reflexivity.
Qed.

(*@ the first iteration on the sample problem: tbeta goes from 1 to 0 *)
Lemma ex_practical_step_lemma : forall argsort cdf n, exists s s',
  ip_body (lc_sr3 (problem_calls cdf apart_problem None (Some (apart_settings true n))))
    (ip_options_of (apart_settings true n)
       (Some (prox argsort (RPos (Some [false; true]) (Some (RElastic 0 (Some (RL1 40 (Some [1; 0])))))))))
    1 1 list_solve no_minimizer 1 s = Ok s' /\ is_tbeta s = [1] /\ is_tbeta s' = [0].
Proof.
  intros argsort cdf n. set (s := ip_start true (sr3_start (apart_settings true n)) [2] [2] [1] [1]).
  destruct (apart_body cdf true n (Some (prox argsort apart_reg))) with (s := s) (v := 1) (b := 2) (g := 2) (tb := 1) (tg := 1)
    as (s' & v' & g' & a & tb' & tg' & E & _ & _ & _ & P & Et & _); try lra.
  - intros prx [= <-] b g Hb Hg. exact (apart_removed argsort b g Hb Hg).
  - unfold at_point. cbn. auto 10.
  - exists s, s'. split; [exact E|]. split; [reflexivity|]. destruct P as (_ & _ & _ & -> & _). rewrite Et. reflexivity.
Qed.

(*@ C114 (partial).  In the terms of the constructors: a penalty times a is that of the model with lam and
    elastic_eps times a.  The L0 penalty has no such factor, so the two methods differ only in the elastic term. *)
Lemma stronger_model_partial_lemma : forall argsort a m ov r0 w r, model_reg m ov = Ok r0 -> instantiate r0 w (Some ov) = Ok r ->
  exists r0', model_reg (stronger a m) ov = Ok r0' /\ instantiate r0' w (Some ov) = Ok (strengthen a r) /\
  forall x t, prox argsort (strengthen a r) x t = prox argsort r x (a * t).
Proof.
  intros argsort a m ov r0 w r H0 H. unfold model_reg in *. cbn [stronger mo_penalty mo_eps].
  apply rbind_inv in H0. destruct H0 as [r1 [H1 H0]]. injection H0 as <-.
  assert (P : forall x t, prox argsort (strengthen a r) x t = prox argsort r x (a * t)) by (intros; apply prox_strengthen).
  destruct (mo_penalty m) as [|nb ng|lam|lam rho|lam rho sigma]; cbn [penalty_reg stronger_penalty] in *.
  all: try (injection H1 as <-; eexists; split; [reflexivity|]; split; [|exact P]; cbn in H |- *; injection H as <-; reflexivity).
  - unfold mk_scad in *. apply rbind_inv in H1. destruct H1 as [u [U H1]]. rewrite U. injection H1 as <-. cbn [rbind].
    eexists. split; [reflexivity|]. split; [|exact P]. cbn in H |- *. injection H as <-. reflexivity.
Qed.

(*@ The two projections coincide for ell = 1. *)
Lemma same_penalty_ell_one_lemma : forall argsort r x t, prox argsort (strengthen 1 r) x t = prox argsort r x t.
Proof. intros. rewrite prox_strengthen. f_equal. ring. Qed.
