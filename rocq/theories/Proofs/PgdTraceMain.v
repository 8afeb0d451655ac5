(** Final lemma about the values logged by proximal gradient descent, restated as a theorem in Properties/PgdTrace.v. *)
(*HEAD
(** Properties C16 and C17: the values logged by proximal gradient descent (src/pysr3/solvers.py) and
    the values stored by Logger.append (src/pysr3/logger.py). *)
From Verif.Base Require Import Py Vec.
From Verif.Model Require Import Logger Solvers.
From Verif.Spec Require Import ProxSpec SolverSpec PgdTraceSpec.
HEAD*)
(*OPEN
Open Scope string_scope.
Open Scope list_scope.
Open Scope R_scope.
OPEN*)
From Coq Require Import Lra Lia String.
From Verif.Base Require Import Py Vec.
From Verif.Model Require Import Logger Solvers.
From Verif.Spec Require Import ProxSpec SolverSpec PgdTraceSpec.
From Verif.Proofs Require Import VecFacts SolverProofs.
Open Scope string_scope.
Open Scope list_scope.
Open Scope R_scope.

Section Run.
Context {S : Type}.
Variable orc : oracle S.
Variable rg : regularizer.
Variable slv : pgd_solver.
Variable g : vec -> vec.
Hypothesis Hg : grad_is orc g.

(** one call of log *)
Definition entry_of (o : option lval) : list lval := match o with Some v => [v] | None => [] end.
Lemma log_state_record x0 st st' k l : log_state orc rg x0 st = Ok st' ->
  NoDup (lg_keys (st_logger st)) -> In k (lg_keys (st_logger st)) -> get (st_logger st) k = Ok (LList l) ->
  get (st_logger st') k = Ok (LList (l ++ entry_of (lookup k (pgd_locals x0 st')))) /\
  st_step_len st' = st_step_len st /\ st_direction st' = st_direction st /\ st_y st' = st_y st.
Proof.
  unfold log_state. intros H N K G. apply rbind_inv in H as [[v s] [_ H]]. apply rbind_inv in H as [lg [L H]].
  injection H as <-. cbn [st_logger st_step_len st_direction st_y]. split; [|auto].
  assert (P : (0 <? length (lg_keys (st_logger st)))%nat = true).
  { apply Nat.ltb_lt. destruct (lg_keys (st_logger st)); [destruct K|cbn; lia]. }
  rewrite P in L. pose proof (log_lookup _ _ _ N L k) as Q. apply has_key_In in K. unfold get in *. rewrite Q, K.
  destruct (lookup k (lg_dict (st_logger st))) as [o|]; [|discriminate]. injection G as ->. cbn [option_map logged].
  match goal with |- context [entry_of (lookup k ?p')] => set (ps := p') end.
  match goal with |- context [match lookup k ?p with _ => _ end] => change p with ps end.
  destruct (lookup k ps); cbn [entry_of]; rewrite ?app_nil_r; reflexivity.
Qed.

(** one iteration, with its step *)
Lemma pgd_step_record x0 st st' : pgd_step orc rg slv x0 st = Ok st' ->
  exists step, pgd_rule orc rg slv (st_x st) step (st_x st') /\
    forall k f l, In (k, f) (pgd_recorded g x0) ->
      NoDup (lg_keys (st_logger st)) -> In k (lg_keys (st_logger st)) -> get (st_logger st) k = Ok (LList l) ->
      get (st_logger st') k = Ok (LList (l ++ [f (st_x st) step (st_x st')])).
Proof.
  intros H. pose proof H as H0. unfold pgd_step in H. apply rbind_inv in H as [[gr s1] [Hgr H]].
  apply rbind_inv in H as [[[step z] s2] [Hs H]]. apply rbind_inv in H as [y [Hy H]]. apply rbind_inv in H as [x' [Hx H]].
  pose proof (Hg _ _ _ _ Hgr) as Eg. apply move_inv in Hy as [Hl Ey].
  pose proof (log_state_inv _ _ _ _ _ H) as [E1 [E2 [E3 [E4 E5]]]]. cbn [st_x st_x_prev st_iteration st_logger] in E1, E2, E3, E4, E5.
  exists step. split.
  - rewrite E1. split; [|split].
    + exists (st_oracle st), gr, s1. rewrite <- Ey. auto.
    + destruct (String.eqb (s_stepping slv) "line-search"); [|injection Hs as <- _ _; reflexivity].
      exact (ls_halved orc rg _ _ _ _ _ _ _ _ _ Hs).
    + intros f g' Hf Hg'. unfold step_rule. rewrite (Hg' _ _ _ _ Hgr) in *.
      destruct (String.eqb (s_stepping slv) "line-search"); [|injection Hs as <- _ _; reflexivity].
      destruct (ls_spec orc rg f g' _ Hf _ _ _ _ _ _ _ Hl Hs) as [k [Hk [Hr He]]].
      exists k. split; auto. split; auto. destruct He as [He|[z1 [Hz1 He]]]; auto.
      right. rewrite <- Ey, Hx in Hz1. injection Hz1 as <-. exact He.
  - intros k f l I N K G. cbn [st_logger] in *.
    destruct (log_state_record _ _ _ k l H N K G) as (R & F1 & F2 & F3). cbn [st_step_len st_direction st_y] in F1, F2, F3.
    rewrite R. do 3 f_equal. clear R G. unfold pgd_locals. rewrite E1, E2, F1, F2, F3, Ey, Eg.
    cbn [pgd_recorded In] in I.
    repeat (destruct I as [I|I]; [injection I as <- <-; destruct (st_loss st'); reflexivity|]). destruct I.
Qed.

Lemma pgd_loop_record x0 fuel : forall st st', pgd_loop orc rg slv fuel x0 st = Ok st' ->
  exists path, is_path (pgd_rule orc rg slv) (st_x st) path /\ st_x st' = endpoint (st_x st) path /\
    st_iteration st' = (st_iteration st + length path)%nat /\
    forall k f l, In (k, f) (pgd_recorded g x0) ->
      NoDup (lg_keys (st_logger st)) -> In k (lg_keys (st_logger st)) -> get (st_logger st) k = Ok (LList l) ->
      get (st_logger st') k = Ok (LList (l ++ along_path f (st_x st) path)).
Proof.
  induction fuel as [|fuel IH]; intros st st' H; cbn [pgd_loop] in H; apply rbind_inv in H as [m [_ H]];
    destruct (m && _); try discriminate;
    try (injection H as <-; exists []; split; [exact I|]; split; [reflexivity|]; split; [cbn; lia|];
         intros k f l _ _ _ G; cbn [along_path]; rewrite app_nil_r; exact G).
  apply rbind_inv in H as [st1 [Hs H]]. destruct (pgd_step_inv _ _ _ _ _ _ Hs) as (_ & Ei & Ek & _ & _).
  destruct (pgd_step_record _ _ _ Hs) as [step [Rl Rc]]. destruct (IH _ _ H) as (path & P1 & P2 & P3 & P4).
  exists ((step, st_x st1) :: path). split; [split; assumption|]. split; [rewrite endpoint_cons; exact P2|].
  split; [rewrite P3, Ei; cbn [length]; lia|]. intros k f l I N K G. cbn [along_path].
  specialize (Rc k f l I N K G). rewrite <- Ek in N, K. rewrite (P4 k f _ I N K Rc), <- app_assoc. reflexivity.
Qed.
End Run.

(*@ C16.  A tuple of distinct keys: the names x0, x, x_prev, step_len, direction and y are recorded with their values
    before the first step, where they have one, and in every step, in order.  (x_prev is infinite before the first step;
    z, the trial point of the line search, is not covered.) *)
Lemma pgd_values_trace_lemma : forall S (orc : oracle S) rg slv g x0 s keys lg x lg' s',
  grad_is orc g -> NoDup keys -> mk_logger (Some (KTuple, keys)) = Ok lg ->
  pgd_optimize orc rg slv x0 s lg = Ok (x, lg', s') ->
  exists path, is_path (pgd_rule orc rg slv) x0 path /\ x = endpoint x0 path /\
    get lg' "iteration" = Ok (LAtom (LNum (INR (length path)))) /\
    forall k f, In (k, f) (pgd_recorded g x0) -> In k keys ->
      get lg' k = Ok (LList (pgd_initially x0 k ++ along_path f x0 path)).
Proof.
  intros S orc rg slv g x0 s keys lg x lg' s' Hg N M H. destruct (mk_logger_wf _ _ _ M) as [Hw [Hk [Hkd H0]]].
  unfold pgd_optimize in H. apply rbind_inv in H as [st0 [Hi H]]. apply rbind_inv in H as [st [H1 H]].
  apply rbind_inv in H as [lg1 [Ha H]]. apply rbind_inv in H as [lg2 [Hb H]]. injection H as <- <- <-.
  pose proof (log_state_inv _ _ _ _ _ Hi) as [E1 [E2 [E3 [E4 E5]]]]. cbn [pgd_init st_x st_x_prev st_iteration st_logger] in E1, E2, E3, E4, E5.
  destruct (pgd_loop_record orc rg slv g Hg x0 _ _ _ H1) as (path & P1 & P2 & P3 & P4). rewrite E1 in *. rewrite E3 in P3. cbn [plus] in P3.
  destruct (add_lookup _ _ _ _ Ha) as [La _]. destruct (add_lookup _ _ _ _ Hb) as [Lb _].
  exists path. split; [exact P1|]. split; [exact P2|]. split; [unfold get; rewrite Lb; cbn; rewrite P3; reflexivity|].
  intros k f I K. assert (D : k <> "iteration" /\ k <> "converged").
  { cbn [pgd_recorded In] in I. repeat (destruct I as [I|I]; [injection I as <- _; split; discriminate|]). destruct I. }
  destruct D as [D1 D2]. apply String.eqb_neq in D1, D2.
  assert (G0 : get lg k = Ok (LList [])) by (unfold get; rewrite (H0 k K); reflexivity).
  assert (N0 : NoDup (lg_keys lg)) by (rewrite Hk; exact N). assert (K0 : In k (lg_keys lg)) by (rewrite Hk; exact K).
  destruct (log_state_record orc rg x0 _ _ k [] Hi N0 K0 G0) as (R & F1 & F2 & F3).
  cbn [pgd_init st_step_len st_direction st_y] in F1, F2, F3. cbn [app] in R.
  rewrite <- E4 in N0, K0. specialize (P4 k f _ I N0 K0 R).
  unfold get in *. rewrite Lb, D1, La, D2, P4. do 3 f_equal. unfold pgd_locals. rewrite E1, E2, F1, F2, F3.
  cbn [pgd_recorded In] in I.
  repeat (destruct I as [I|I]; [injection I as <- _; destruct (st_loss st0); destruct (st_z st0); reflexivity|]). destruct I.
Qed.
Lemma ex_pgd_values_trace_lemma :
  exists lg lg' s', grad_is quad_oracle (fun x => x) /\ mk_logger (Some (KTuple, ["x_prev"; "step_len"])) = Ok lg /\
  pgd_optimize quad_oracle free_reg (sample_solver "fixed" 2) [1] tt lg = Ok ([1 + 1 * -1], lg', s') /\
  get lg' "x_prev" = Ok (LList [LInf; LVec [1]]) /\ get lg' "step_len" = Ok (LList [LNum 1]).
Proof.
  assert (Hn : rltb 2 (norm [1 + 1 * -1 - 1]) = false).
  { apply rltb_false. unfold norm, sqnorm, vdot, vmul; simpl.
    replace ((1 + 1 * -1 - 1) * (1 + 1 * -1 - 1) + 0) with 1 by ring. rewrite sqrt_1. lra. }
  set (ks := ["x_prev"; "step_len"]).
  set (lg0 := {| lg_kind := KTuple; lg_keys := ks; lg_dict := [("x_prev", LList []); ("step_len", LList [])] |}).
  set (lg1 := {| lg_kind := KTuple; lg_keys := ks; lg_dict := [("x_prev", LList [LInf]); ("step_len", LList [])] |}).
  set (lg2 := {| lg_kind := KTuple; lg_keys := ks;
    lg_dict := [("x_prev", LList [LInf; LVec [1]]); ("step_len", LList [LNum 1])] |}).
  set (st0 := {| st_x := [1]; st_x_prev := None; st_iteration := 0; st_loss := None;
    st_direction := None; st_step_len := None; st_y := None; st_z := None;
    st_oracle := tt; st_logger := lg1 |}).
  set (st1 := {| st_x := [1 + 1 * -1]; st_x_prev := Some [1]; st_iteration := 1; st_loss := None;
    st_direction := Some [-1]; st_step_len := Some 1; st_y := Some [1 + 1 * -1]; st_z := None;
    st_oracle := tt; st_logger := lg2 |}).
  assert (H0 : log_state quad_oracle free_reg [1] (pgd_init [1] tt lg0) = Ok st0) by reflexivity.
  assert (H1 : pgd_step quad_oracle free_reg (sample_solver "fixed" 2) [1] st0 = Ok st1) by reflexivity.
  assert (H2 : pgd_loop quad_oracle free_reg (sample_solver "fixed" 2) 3 [1] st0 = Ok st1).
  { apply (pgd_loop_S _ _ _ _ _ _ st1); try reflexivity; auto.
    apply pgd_loop_stop with (b := false); [|reflexivity].
    change (Ok (rltb 2 (norm [1 + 1 * -1 - 1])) = Ok false). rewrite Hn. reflexivity. }
  exists lg0, {| lg_kind := KTuple; lg_keys := ks ++ ["converged"; "iteration"];
            lg_dict := lg_dict lg2 ++ [("converged", LAtom (LBool true)); ("iteration", LAtom (LNum 1))] |}, tt.
  split; [intros s y v s1 E; injection E as <- _; reflexivity|]. split; [reflexivity|]. split; [|split; reflexivity].
  unfold pgd_optimize. rewrite H0. cbn [rbind].
  change (Z.to_nat (s_max_iter (sample_solver "fixed" 2))) with 3%nat. rewrite H2. reflexivity.
Qed.

(*@ C17.  append adds numbers to numbers, vectors of the same length to vectors entry by entry, and lists to the end of
    lists, under the given key only. *)
Lemma logger_append_values_lemma : forall lg k a b c,
  get lg k = Ok a -> adds_up a b c ->
  exists lg', append lg k b = Ok lg' /\ get lg' k = Ok c /\ lg_keys lg' = lg_keys lg /\
    forall k', k' <> k -> get lg' k' = get lg k'.
Proof.
  intros lg k a b c G A. unfold get in *. destruct (lookup k (lg_dict lg)) as [o|] eqn:L; [|discriminate]. injection G as ->.
  assert (E : obj_iadd a b = Ok c).
  { destruct A as [x y|l m|u v w U W N]; try reflexivity. cbn [obj_iadd]. rewrite U, Nat.eqb_refl. cbn [guard rbind].
    do 3 f_equal. clear L. revert v w U W N. induction u as [|p u IH]; intros [|q v] [|r w] U W N; try discriminate; auto.
    unfold vadd; cbn [map2]. f_equal; [symmetry; exact (N 0%nat ltac:(cbn; lia))|].
    apply IH; [injection U; auto|injection W; auto|]. intros i Hi. exact (N (S i) ltac:(cbn; lia)). }
  unfold append. rewrite L, E. cbn [rbind]. eexists. split; [reflexivity|]. cbn [lg_dict lg_keys].
  split; [rewrite lookup_set_same; reflexivity|]. split; [reflexivity|]. intros k' D. rewrite lookup_set_other by exact D. reflexivity.
Qed.
Lemma ex_logger_append_values_lemma :
  exists lg lg', append lg "a" (LList [LNum 2]) = Ok lg' /\ get lg "a" = Ok (LList [LNum 1]) /\
    get lg' "a" = Ok (LList [LNum 1; LNum 2]).
Proof.
  exists {| lg_kind := KTuple; lg_keys := ["a"]; lg_dict := [("a", LList [LNum 1])] |}. eexists. repeat split.
Qed.
