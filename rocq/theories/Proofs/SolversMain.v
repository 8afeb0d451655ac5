(** Final lemmas about the logger and the solvers, restated as theorems in
    Properties/Solvers.v. *)
(*HEAD
(** Properties C12-C17: proximal gradient descent (src/pysr3/solvers.py) and the
    logger (src/pysr3/logger.py). *)
From Verif.Base Require Import Py Vec.
From Verif.Model Require Import Logger Solvers.
From Verif.Spec Require Import ProxSpec SolverSpec.
HEAD*)
(*OPEN
Open Scope string_scope.
Open Scope R_scope.
OPEN*)
From Coq Require Import Lra Psatz.
From Verif.Base Require Import Py Vec.
From Verif.Model Require Import Logger Solvers.
From Verif.Spec Require Import ProxSpec SolverSpec.
From Verif.Proofs Require Import VecFacts SolverProofs.
Open Scope string_scope.
Open Scope R_scope.

(*@ C12.  The solver's two nested loops always end (the model never runs out of fuel). *)
Lemma pgd_terminates_lemma :
  forall S (orc : oracle S) rg slv x0 s lg, calls_return orc rg ->
  pgd_optimize orc rg slv x0 s lg <> Err OutOfFuel.
Proof. intros. apply pgd_optimize_oof. auto. Qed.

(*@ C12.  One line search: it ends, after halving the step finitely often. *)
Lemma line_search_terminates_lemma :
  forall S (orc : oracle S) rg s x direction step z, calls_return orc rg ->
  line_search orc rg (ls_fuel step) s x direction step z <> Err OutOfFuel /\
  forall step' z' s', line_search orc rg (ls_fuel step) s x direction step z = Ok (step', z', s') ->
    exists k, step' = halved step k.
Proof.
  intros. split; [apply ls_oof; auto; apply ls_fuel_enough|].
  intros step' z' s' H'. exact (ls_halved orc rg _ _ _ _ _ _ _ _ _ H').
Qed.

(*@ C12.  The result is reached by at most max_iter proximal gradient steps from x0, and
    'iteration' reports how many. *)
Lemma pgd_iterations_bounded_and_reported_lemma :
  forall S (orc : oracle S) rg slv x0 s lg x lg' s',
  pgd_optimize orc rg slv x0 s lg = Ok (x, lg', s') ->
  exists path, is_path (pgd_rule orc rg slv) x0 path /\ x = endpoint x0 path /\
    (length path <= Z.to_nat (s_max_iter slv))%nat /\
    get lg' "iteration" = Ok (LAtom (LNum (INR (length path)))).
Proof.
  intros S orc rg slv x0 s lg x lg' s' H.
  destruct (pgd_optimize_inv _ _ _ _ _ _ _ _ _ H) as [path [P [E [_ [_ [M [_ I]]]]]]].
  exists path. repeat split; auto. destruct M as [->|M]; simpl; lia.
Qed.

(*@ C13.  'converged' is True exactly when fewer than max_iter iterations were made; then the
    last update moved the point by at most tol (or the start was an empty vector);
    and no iteration is made after an update within the tolerance. *)
Lemma pgd_converged_flag_lemma :
  forall S (orc : oracle S) rg slv x0 s lg x lg' s',
  pgd_optimize orc rg slv x0 s lg = Ok (x, lg', s') ->
  exists path b, is_path (pgd_rule orc rg slv) x0 path /\ x = endpoint x0 path /\
    get lg' "converged" = Ok (LAtom (LBool b)) /\
    all_still slv None x0 path /\
    (b = true <-> (Z.of_nat (length path) < s_max_iter slv)%Z) /\
    (b = true -> match last_prev None x0 path with
                 | Some p => norm (vsub x p) <= s_tol slv
                 | None => x0 = []
                 end).
Proof.
  intros S orc rg slv x0 s lg x lg' s' H.
  destruct (pgd_optimize_inv _ _ _ _ _ _ _ _ _ H) as [path [P [E [A [T [M [C I]]]]]]].
  exists path, (Z.of_nat (length path) <? s_max_iter slv)%Z.
  do 4 (split; [auto|]). split.
  - apply Z.ltb_lt.
  - intros Hb. apply Z.ltb_lt in Hb. destruct T as [T|T]; [|lia].
    unfold still in T. destruct (last_prev None x0 path) eqn:L.
    + apply Rnot_lt_le. auto.
    + destruct path as [|[s1 x1] path].
      * unfold endpoint in E. simpl in E. subst x. destruct x0; auto. exfalso. apply T. left. congruence.
      * exfalso. clear - L. simpl in L. revert x0 x1 L.
        induction path as [|[s2 x2] path IH]; simpl; intros; [discriminate|eauto].
Qed.
(*@ A run on x^2/2 from 1 with the fixed step 1 and tolerance 2: one iteration, converged. *)
Lemma ex_pgd_converged_flag_lemma :
  exists lg' s', pgd_optimize quad_oracle free_reg (sample_solver "fixed" 2) [1] tt
    {| lg_kind := KTuple; lg_keys := []; lg_dict := [] |} = Ok ([1 + 1 * -1], lg', s') /\
  get lg' "converged" = Ok (LAtom (LBool true)) /\ get lg' "iteration" = Ok (LAtom (LNum 1)).
Proof.
  assert (Hn : rltb 2 (norm [1 + 1 * -1 - 1]) = false).
  { apply rltb_false. unfold norm, sqnorm, vdot, vmul; simpl.
    replace ((1 + 1 * -1 - 1) * (1 + 1 * -1 - 1) + 0) with 1 by ring. rewrite sqrt_1. lra. }
  set (lg0 := {| lg_kind := KTuple; lg_keys := []; lg_dict := [] |}).
  set (st1 := {| st_x := [1 + 1 * -1]; st_x_prev := Some [1]; st_iteration := 1; st_loss := None;
    st_direction := Some [-1]; st_step_len := Some 1; st_y := Some [1 + 1 * -1]; st_z := None;
    st_oracle := tt; st_logger := lg0 |}).
  assert (H0 : log_state quad_oracle free_reg [1] (pgd_init [1] tt lg0) = Ok (pgd_init [1] tt lg0)) by reflexivity.
  assert (H1 : pgd_step quad_oracle free_reg (sample_solver "fixed" 2) [1] (pgd_init [1] tt lg0) = Ok st1)
    by reflexivity.
  assert (H2 : pgd_loop quad_oracle free_reg (sample_solver "fixed" 2) 3 [1] (pgd_init [1] tt lg0) = Ok st1).
  { apply (pgd_loop_S _ _ _ _ _ _ st1); try reflexivity; auto.
    apply pgd_loop_stop with (b := false); [|reflexivity].
    change (Ok (rltb 2 (norm [1 + 1 * -1 - 1])) = Ok false). rewrite Hn. reflexivity. }
  exists {| lg_kind := KTuple; lg_keys := ["converged"; "iteration"];
            lg_dict := [("converged", LAtom (LBool true)); ("iteration", LAtom (LNum 1))] |}, tt.
  split; [|split; reflexivity].
  unfold pgd_optimize. rewrite H0. cbn [rbind].
  change (Z.to_nat (s_max_iter (sample_solver "fixed" 2))) with 3%nat. rewrite H2. reflexivity.
Qed.

(*@ C13.  Conversely, stopping by the tolerance before max_iter iterations reports True. *)
Lemma pgd_stopped_early_is_converged_lemma :
  forall S (orc : oracle S) rg slv x0 s lg x lg' s' n,
  pgd_optimize orc rg slv x0 s lg = Ok (x, lg', s') ->
  get lg' "iteration" = Ok (LAtom (LNum (INR n))) -> (Z.of_nat n < s_max_iter slv)%Z ->
  get lg' "converged" = Ok (LAtom (LBool true)).
Proof.
  intros S orc rg slv x0 s lg x lg' s' n H Hi Hn.
  destruct (pgd_optimize_inv _ _ _ _ _ _ _ _ _ H) as [path [_ [_ [_ [_ [_ [C I]]]]]]].
  rewrite I in Hi. inversion Hi as [Hl]. apply INR_eq in Hl. subst n.
  apply Z.ltb_lt in Hn. rewrite Hn in C. auto.
Qed.

(*@ C14.  With an exact proximal operator, an accepted line-search step does not increase
    f + penalty. *)
Lemma line_search_step_descends_lemma :
  forall S (orc : oracle S) rg slv f g x s x' v,
  value_is orc f -> grad_is orc g ->
  (forall y t z, 0 < t -> r_prox rg y t = Ok z -> is_prox_of_value (r_value rg) t y z) ->
  s_stepping slv = "line-search" ->
  pgd_rule orc rg slv x s x' -> ls_threshold < s ->
  objective f rg x v -> exists v', objective f rg x' v' /\ ele v' v.
Proof.
  intros S orc rg slv f g x s x' v Hf Hg Hp Hls [[t1 [g1 [t2 [A [Hl P]]]]] [_ Hr]] Hs Ho.
  specialize (Hr f g Hf Hg). unfold step_rule in Hr. rewrite Hls in Hr. simpl in Hr.
  destruct Hr as [k [_ [_ [Hr|Hr]]]]; [lra|].
  rewrite (Hg _ _ _ _ A) in *. pose proof threshold_pos.
  eapply (sufficient_descends rg f g x s x'); eauto. lra.
Qed.

(*@ C14.  So, unless some line search fell to the threshold 1e-14 without being accepted, the
    returned point is at least as good as the starting point. *)
Lemma pgd_line_search_monotone_lemma :
  forall S (orc : oracle S) rg slv f g x0 s lg x lg' s' v,
  value_is orc f -> grad_is orc g ->
  (forall y t z, 0 < t -> r_prox rg y t = Ok z -> is_prox_of_value (r_value rg) t y z) ->
  s_stepping slv = "line-search" -> objective f rg x0 v ->
  pgd_optimize orc rg slv x0 s lg = Ok (x, lg', s') ->
  exists path, is_path (pgd_rule orc rg slv) x0 path /\ x = endpoint x0 path /\
    (Forall (fun p => ls_threshold < fst p) path -> exists v', objective f rg x v' /\ ele v' v).
Proof.
  intros S orc rg slv f g x0 s lg x lg' s' v Hf Hg Hp Hls Ho H.
  destruct (pgd_optimize_inv _ _ _ _ _ _ _ _ _ H) as [path [P [E _]]].
  exists path. repeat split; auto. subst x. clear H. revert x0 v P Ho.
  induction path as [|[t x1] path IH]; intros x0 v P Ho Ht.
  - exists v. split; auto. destruct v; simpl; auto. lra.
  - destruct P as [P1 P]. inversion Ht; subst. rewrite endpoint_cons.
    destruct (line_search_step_descends_lemma _ _ _ _ _ _ _ _ _ _ Hf Hg Hp Hls P1 H1 Ho) as [v1 [Ho1 L1]].
    destruct (IH _ _ P Ho1 H2) as [v2 [Ho2 L2]]. exists v2. split; auto.
    clear - L1 L2. destruct v, v1, v2; simpl in *; try tauto; lra.
Qed.
(*@ An oracle, a regularizer and a line-search step that meet the hypotheses. *)
Lemma ex_pgd_line_search_monotone_lemma :
  value_is quad_oracle (fun x => / 2 * sqnorm x) /\ grad_is quad_oracle (fun x => x) /\
  (forall y t z, 0 < t -> r_prox free_reg y t = Ok z -> is_prox_of_value (r_value free_reg) t y z) /\
  pgd_rule quad_oracle free_reg (sample_solver "line-search" 2) [1] 1 [0] /\ ls_threshold < 1.
Proof.
  repeat split.
  - intros s x r s' H. inversion H; auto.
  - intros s x r s' H. inversion H; auto.
  - inversion H0; auto.
  - exists 0. split; auto. intros z' v' Hl Hv. inversion H0; inversion Hv; subst.
    unfold prox_cost. rewrite vsub_self, sqnorm_zeros. pose proof (sqnorm_nonneg (vsub z' z)). lra.
  - exists tt, [1], tt. repeat split. simpl. unfold vsub. simpl. repeat f_equal. lra.
  - exists 0%nat. unfold halved; simpl. lra.
  - intros f g Hf Hg. unfold step_rule. simpl. exists 0%nat. split; [unfold halved; simpl; lra|].
    split; [intros; lia|]. right. unfold sufficient.
    rewrite <- (Hf tt [1] (/ 2 * sqnorm [1]) tt eq_refl), <- (Hf tt [0] (/ 2 * sqnorm [0]) tt eq_refl).
    rewrite <- (Hg tt [1] [1] tt eq_refl). unfold sqnorm, vdot, vsub, vmul; simpl. lra.
  - unfold ls_threshold. lra.
Qed.

(*@ C15.  Whenever an iteration is made, the result is an output of the regularizer's proximal
    operator, called with a positive step not exceeding fixed_step_len. *)
Lemma pgd_result_is_prox_output_lemma :
  forall S (orc : oracle S) rg slv x0 s lg x lg' s' n,
  pgd_optimize orc rg slv x0 s lg = Ok (x, lg', s') ->
  0 < s_step_len slv -> get lg' "iteration" = Ok (LAtom (LNum (INR n))) -> (0 < n)%nat ->
  exists y step, r_prox rg y step = Ok x /\ 0 < step <= s_step_len slv.
Proof.
  intros S orc rg slv x0 s lg x lg' s' n H Hs Hi Hn.
  destruct (pgd_optimize_inv _ _ _ _ _ _ _ _ _ H) as [path [P [E [_ [_ [_ [_ I]]]]]]].
  rewrite I in Hi. inversion Hi as [Hl]. apply INR_eq in Hl. subst n.
  destruct path as [|[t x1] path]; [simpl in Hn; lia|]. clear - P E Hs.
  revert x0 t x1 P E. induction path as [|[t2 x2] path IH]; intros.
  - unfold endpoint in E. simpl in E. subst x1. destruct P as [[[t1 [g1 [t2 [A [Hl P]]]]] [R _]] _].
    exists (vsub x0 (vscale t g1)), t. split; auto.
    destruct (String.eqb (s_stepping slv) "line-search"); [|lra].
    destruct R as [k ->]. apply halved_range; auto.
  - rewrite endpoint_cons in E. destruct P as [_ P]. apply (IH x1 t2 x2); auto.
Qed.

(*@ C16.  A tuple of distinct keys: the recorded iterates are x0 and the result of every step,
    the recorded losses are f + penalty at exactly these points, and nothing else is recorded
    but the declared keys, 'converged' and 'iteration'. *)
Lemma pgd_loss_trace_lemma :
  forall S (orc : oracle S) rg slv f x0 s keys lg x lg' s',
  value_is orc f -> NoDup keys ->
  mk_logger (Some (KTuple, keys)) = Ok lg ->
  pgd_optimize orc rg slv x0 s lg = Ok (x, lg', s') ->
  exists path, is_path (pgd_rule orc rg slv) x0 path /\ x = endpoint x0 path /\
    get lg' "iteration" = Ok (LAtom (LNum (INR (length path)))) /\
    (In "x" keys -> get lg' "x" = Ok (LList (map LVec (x0 :: map snd path)))) /\
    (In "loss" keys -> exists losses, get lg' "loss" = Ok (LList (map lnum_e losses)) /\
        Forall2 (objective f rg) (x0 :: map snd path) losses) /\
    (forall k v, get lg' k = Ok v -> In k keys \/ k = "converged" \/ k = "iteration").
Proof. intros. eapply pgd_optimize_trace; eauto. Qed.
(*@ A run that records its losses and iterates. *)
Lemma ex_pgd_loss_trace_lemma :
  exists lg lg' s', mk_logger (Some (KTuple, ["loss"; "x"])) = Ok lg /\
  pgd_optimize quad_oracle free_reg (sample_solver "fixed" 2) [1] tt lg = Ok ([1 + 1 * -1], lg', s') /\
  get lg' "x" = Ok (LList [LVec [1]; LVec [1 + 1 * -1]]).
Proof.
  assert (Hn : rltb 2 (norm [1 + 1 * -1 - 1]) = false).
  { apply rltb_false. unfold norm, sqnorm, vdot, vmul; simpl.
    replace ((1 + 1 * -1 - 1) * (1 + 1 * -1 - 1) + 0) with 1 by ring. rewrite sqrt_1. lra. }
  set (lg0 := {| lg_kind := KTuple; lg_keys := ["loss"; "x"]; lg_dict := [("loss", LList []); ("x", LList [])] |}).
  set (lg1 := {| lg_kind := KTuple; lg_keys := ["loss"; "x"];
    lg_dict := [("loss", LList [LNum (/ 2 * sqnorm [1] + 0)]); ("x", LList [LVec [1]])] |}).
  set (lg2 := {| lg_kind := KTuple; lg_keys := ["loss"; "x"];
    lg_dict := [("loss", LList [LNum (/ 2 * sqnorm [1] + 0); LNum (/ 2 * sqnorm [1 + 1 * -1] + 0)]);
                ("x", LList [LVec [1]; LVec [1 + 1 * -1]])] |}).
  set (st0 := {| st_x := [1]; st_x_prev := None; st_iteration := 0; st_loss := Some (Fin (/ 2 * sqnorm [1] + 0));
    st_direction := None; st_step_len := None; st_y := None; st_z := None;
    st_oracle := tt; st_logger := lg1 |}).
  set (st1 := {| st_x := [1 + 1 * -1]; st_x_prev := Some [1]; st_iteration := 1;
    st_loss := Some (Fin (/ 2 * sqnorm [1 + 1 * -1] + 0));
    st_direction := Some [-1]; st_step_len := Some 1; st_y := Some [1 + 1 * -1]; st_z := None;
    st_oracle := tt; st_logger := lg2 |}).
  assert (H0 : log_state quad_oracle free_reg [1] (pgd_init [1] tt lg0) = Ok st0) by reflexivity.
  assert (H1 : pgd_step quad_oracle free_reg (sample_solver "fixed" 2) [1] st0 = Ok st1) by reflexivity.
  assert (H2 : pgd_loop quad_oracle free_reg (sample_solver "fixed" 2) 3 [1] st0 = Ok st1).
  { apply (pgd_loop_S _ _ _ _ _ _ st1); try reflexivity; auto.
    apply pgd_loop_stop with (b := false); [|reflexivity].
    change (Ok (rltb 2 (norm [1 + 1 * -1 - 1])) = Ok false). rewrite Hn. reflexivity. }
  exists lg0, {| lg_kind := KTuple; lg_keys := ["loss"; "x"; "converged"; "iteration"];
            lg_dict := [("loss", LList [LNum (/ 2 * sqnorm [1] + 0); LNum (/ 2 * sqnorm [1 + 1 * -1] + 0)]);
                ("x", LList [LVec [1]; LVec [1 + 1 * -1]]); ("converged", LAtom (LBool true)); ("iteration", LAtom (LNum 1))] |}, tt.
  split; [reflexivity|]. split; [|reflexivity].
  unfold pgd_optimize. rewrite H0. cbn [rbind].
  change (Z.to_nat (s_max_iter (sample_solver "fixed" 2))) with 3%nat. rewrite H2. reflexivity.
Qed.

(*@ C16.  What is logged does not influence the result nor the number of iterations. *)
Lemma pgd_logging_does_not_change_result_lemma :
  forall S (orc : oracle S) rg slv f g x0 s1 s2 lg1 lg2 x1 lg1' s1' x2 lg2' s2',
  value_is orc f -> grad_is orc g ->
  pgd_optimize orc rg slv x0 s1 lg1 = Ok (x1, lg1', s1') ->
  pgd_optimize orc rg slv x0 s2 lg2 = Ok (x2, lg2', s2') ->
  x1 = x2 /\ get lg1' "iteration" = get lg2' "iteration" /\ get lg1' "converged" = get lg2' "converged".
Proof.
  intros S orc rg slv f g x0 s1 s2 lg1 lg2 x1 lg1' s1' x2 lg2' s2' Hf Hg H1 H2.
  destruct (pgd_optimize_inv _ _ _ _ _ _ _ _ _ H1) as [p1 [P1 [E1 [A1 [T1 [M1 [C1 I1]]]]]]].
  destruct (pgd_optimize_inv _ _ _ _ _ _ _ _ _ H2) as [p2 [P2 [E2 [A2 [T2 [M2 [C2 I2]]]]]]].
  subst x1 x2.
  assert (p1 = p2) by (eapply (path_det orc rg slv f g Hf Hg p1 p2 None x0 0); eauto).
  subst. rewrite I1, I2, C1, C2. auto.
Qed.

(*@ C16, C17.  A set (or list) of keys, although documented, makes the solver raise TypeError
    after all its work, unless both 'converged' and 'iteration' are among the keys. *)
Lemma pgd_set_of_keys_refuted_lemma :
  exists lg, mk_logger (Some (KSet, ["loss"])) = Ok lg /\
  forall S (orc : oracle S) rg slv x0 s r, pgd_optimize orc rg slv x0 s lg <> Ok r.
Proof.
  eexists. split; [reflexivity|]. intros S orc rg slv x0 s [[x lg'] s'] H.
  unfold pgd_optimize in H. apply rbind_inv in H as [st0 [H0 H]].
  apply rbind_inv in H as [st [H1 H]]. apply rbind_inv in H as [lg1 [Ha H]].
  apply log_state_inv in H0 as [_ [_ [_ [E4 E5]]]].
  apply pgd_loop_inv in H1 as [path [_ [_ [_ [_ [_ [_ [_ [Q8 Q9]]]]]]]]].
  rewrite E4 in Q8. rewrite E5 in Q9. simpl in Q8, Q9.
  unfold add in Ha. rewrite Q8, Q9 in Ha. simpl in Ha. discriminate.
Qed.

(*@ C17.  The constructor accepts a set or a tuple of keys and starts every key with []. *)
Lemma logger_init_lemma :
  forall kd keys, exists lg, mk_logger (Some (kd, keys)) = Ok lg /\ logger_wf lg /\
    (forall k, In k keys -> get lg k = Ok (LList [])) /\
    (forall k, ~ In k keys -> get lg k = Err KeyError).
Proof.
  intros kd keys. eexists. split; [reflexivity|].
  destruct (mk_logger_wf kd keys _ eq_refl) as [Hw [Hk [_ H0]]]. split; [auto|]. split.
  - intros k Hin. unfold get. rewrite (H0 k Hin). reflexivity.
  - intros k Hin. unfold get. destruct (lookup k _) eqn:E; auto.
    exfalso. apply Hin. apply (Hw k). eauto.
Qed.

(*@ C17.  log appends to the declared keys that hold a list and are given, and changes nothing else. *)
Lemma logger_log_only_declared_lemma :
  forall lg params, logger_wf lg -> NoDup (lg_keys lg) ->
  exists lg', log lg params = Ok lg' /\ logger_wf lg' /\ lg_keys lg' = lg_keys lg /\
    (forall k l v, get lg k = Ok (LList l) -> lookup k params = Some v -> get lg' k = Ok (LList (l ++ [v]))) /\
    (forall k, lookup k params = None -> get lg' k = get lg k) /\
    (forall k a, get lg k = Ok (LAtom a) -> get lg' k = get lg k) /\
    (forall k, ~ In k (lg_keys lg) -> get lg' k = Err KeyError).
Proof.
  intros lg params Hw Hn. destruct (log_wf lg params Hw) as [lg' [E Hw']].
  pose proof (log_lookup _ _ _ Hn E) as L. destruct (log_keep _ _ _ E) as [Ek _].
  exists lg'. repeat split; auto; try (apply Hw').
  - intros k l v Hg Hp. unfold get in *. destruct (lookup k (lg_dict lg)) eqn:El; [|discriminate].
    assert (Hin : In k (lg_keys lg)) by (apply Hw; eauto).
    apply has_key_In in Hin. rewrite L, Hin, El. inversion Hg; subst; simpl. rewrite Hp. reflexivity.
  - intros k Hp. unfold get. rewrite L.
    destruct (has_key k (lg_keys lg)), (lookup k (lg_dict lg)) as [[l|v]|]; simpl; auto. rewrite Hp; auto.
  - intros k a Hg. unfold get in *. destruct (lookup k (lg_dict lg)) eqn:El; [|discriminate].
    inversion Hg; subst. rewrite L, El. destruct (has_key k (lg_keys lg)); auto.
  - intros k Hin. unfold get. destruct (lookup k (lg_dict lg')) eqn:El; auto.
    exfalso. apply Hin. rewrite <- Ek. apply Hw'. eauto.
Qed.
(*@ A logger with two declared keys. *)
Lemma ex_logger_log_only_declared_lemma :
  exists lg lg', mk_logger (Some (KSet, ["loss"; "x"])) = Ok lg /\ logger_wf lg /\ NoDup (lg_keys lg) /\
  log lg [("loss", LNum 1); ("y", LNum 2)] = Ok lg' /\
  get lg' "loss" = Ok (LList [LNum 1]) /\ get lg' "x" = Ok (LList []) /\ get lg' "y" = Err KeyError.
Proof.
  eexists _, _. split; [reflexivity|]. split; [apply (mk_logger_wf KSet ["loss"; "x"] _ eq_refl)|].
  split; [|repeat split].
  simpl. repeat constructor; simpl; intuition congruence.
Qed.

(*@ C17.  add on a tuple-keyed logger sets the value and declares the key; get returns it, and
    every other key is unchanged. *)
Lemma logger_add_get_lemma :
  forall lg k v, lg_kind lg = KTuple -> logger_wf lg ->
  exists lg', add lg k v = Ok lg' /\ logger_wf lg' /\ lg_kind lg' = KTuple /\ In k (lg_keys lg') /\
    get lg' k = Ok v /\ (forall k', k' <> k -> get lg' k' = get lg k').
Proof.
  intros lg k v Hk Hw. destruct (add_tuple lg k v Hk) as [lg' E]. exists lg'.
  pose proof (add_wf _ _ _ _ Hw E) as Hw'.
  destruct (add_lookup _ _ _ _ E) as [L [Kd Ks]].
  split; [auto|]. split; [auto|]. split; [congruence|]. split; [|split].
  - apply Hw'. rewrite L, String.eqb_refl. eauto.
  - unfold get. rewrite L, String.eqb_refl. reflexivity.
  - intros k' Hne. unfold get. rewrite L. destruct (String.eqb_spec k' k); congruence.
Qed.

(*@ C17.  add of an undeclared key to a logger built from a set or a list is a TypeError. *)
Lemma logger_add_to_set_refuted_lemma :
  exists lg, mk_logger (Some (KSet, ["loss"])) = Ok lg /\
    add lg "converged" (LAtom (LBool true)) = Err TypeError.
Proof. eexists. split; reflexivity. Qed.

(*@ C17.  append adds to a stored number ... *)
Lemma logger_append_partial_lemma :
  forall lg k x y, get lg k = Ok (LAtom (LNum x)) ->
  exists lg', append lg k (LAtom (LNum y)) = Ok lg' /\ get lg' k = Ok (LAtom (LNum (x + y))) /\
    (forall k', k' <> k -> get lg' k' = get lg k').
Proof.
  intros lg k x y H. unfold get in H. destruct (lookup k (lg_dict lg)) eqn:E; [|discriminate].
  inversion H; subst. unfold append. rewrite E. simpl. eexists. split; [reflexivity|].
  unfold get; simpl. split; [rewrite lookup_set_same; auto|].
  intros k' Hne. rewrite lookup_set_other; auto.
Qed.

(*@ C17.  ... but an unknown key does not start from 0: it is a KeyError; and a declared key starts
    from the empty list, to which a number cannot be added. *)
Lemma logger_append_unknown_key_refuted_lemma :
  (forall lg k v, get lg k = Err KeyError -> append lg k v = Err KeyError) /\
  (forall lg k r, get lg k = Ok (LList []) -> append lg k (LAtom (LNum r)) = Err TypeError).
Proof.
  split.
  - intros lg k v H. unfold get in H. unfold append. destruct (lookup k (lg_dict lg)); auto. discriminate.
  - intros lg k v H. unfold get in H. unfold append. destruct (lookup k (lg_dict lg)); [|discriminate].
    inversion H; subst. reflexivity.
Qed.

(*@ C18.  FakePGDSolver reports converged = True whatever the inner routine did. *)
Lemma fake_pgd_always_converged_lemma :
  forall S (orc : oracle S) rg find x0 s lg x lg' s',
  fake_pgd_optimize orc rg find x0 s lg = Ok (x, lg', s') ->
  get lg' "converged" = Ok (LAtom (LBool true)).
Proof.
  intros S orc rg find x0 s lg x lg' s' H. unfold fake_pgd_optimize in H.
  apply rbind_inv in H as [[[x1 lg1] s1] [_ H]]. apply rbind_inv in H as [[lg2 s2] [_ H]].
  apply rbind_inv in H as [lg3 [Ha H]]. inversion H; subst. unfold get.
  destruct (add_lookup _ _ _ _ Ha) as [L _]. rewrite L. reflexivity.
Qed.
