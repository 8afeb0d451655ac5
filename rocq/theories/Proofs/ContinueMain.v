(** Final lemmas about interrupted fits, restated as theorems in Properties/Continue.v. *)
(*HEAD
(** Property C112: an interrupted fit can be continued (src/pysr3/solvers.py, src/pysr3/linear, src/pysr3/lme). *)
From Verif.Base Require Import Py Vec Mat.
From Verif.Model Require Import LmeProblem Regularizers Solvers Linear LmeInner LmeFit LmeBridge.
From Verif.Spec Require Import SolverSpec LinearSpec FitSpec ContinueSpec.
HEAD*)
(*OPEN
Open Scope string_scope.
Open Scope list_scope.
Open Scope R_scope.
OPEN*)
From Coq Require Import Lia Lra String.
From Verif.Base Require Import Py Vec Mat.
From Verif.Model Require Import LmeProblem Regularizers Solvers Linear LmeInner LmeFit LmeBridge.
From Verif.Spec Require Import ProxSpec SolverSpec LinearSpec FitSpec ContinueSpec.
From Verif.Proofs Require Import VecFacts SolverProofs LinearProofs InnerProofs FitProofs BridgeProofs LmeFitMain ColumnCases LifecycleMain ContinueProofs.
Open Scope string_scope.
Open Scope list_scope.
Open Scope R_scope.

Lemma lin_steady o : steady (lin_as_oracle o) tt.
Proof. split; intros x v []; reflexivity. Qed.
Lemma sr3_steady o : steady (sr3_as_oracle o) tt.
Proof. split; intros x v []; reflexivity. Qed.
Lemma lme_steady p q c : steady (lme_as_oracle p q c) tt.
Proof. split; intros x v []; reflexivity. Qed.
Lemma sr3_lme_steady solve p q c ss : ss_warm ss = false -> steady (sr3_lme_oracle solve p q c ss) (sr3_start ss).
Proof.
  intros Hw. split; intros x v s'; cbn [sr3_lme_oracle o_value o_grad]; unfold value_function, gradient_value_function; rewrite Hw;
    destruct (x_to_beta_gamma p q x) as [tb tg]; intros H; apply rbind_inv in H; destruct H as [[[[[b g] tb'] tg'] mem'] [F H]];
    apply find_ip_keeps in F as [F1 F2]; specialize (F1 eq_refl); specialize (F2 eq_refl);
    assert (E : mem' = sr3_start ss) by (destruct mem'; cbn in *; subst; reflexivity); subst mem'.
  - apply rbind_inv in H. destruct H as [f [_ H]]. injection H as _ <-. reflexivity.
  - apply rbind_inv in H. destruct H as [u [_ H]]. injection H as _ <-. reflexivity.
Qed.

(** ** logs *)
Lemma add_get lg k v lg' k' : add lg k v = Ok lg' -> k' <> k -> get lg' k' = get lg k'.
Proof.
  intros H N. unfold get. destruct (add_lookup _ _ _ _ H) as [L _]. rewrite L.
  destruct (String.eqb_spec k' k); [congruence|reflexivity].
Qed.
Definition alike (a b : logger) : Prop := lg_keys a = lg_keys b /\ lg_kind a = lg_kind b.
(** logging one criterion *)
Definition log_one (k : string) (v : res lval) (lg : logger) : res logger :=
  if has_key k (lg_keys lg) then let! a := v in add lg k (LAtom a) else Ok lg.
Lemma log_one_get k v lg lg' k' : log_one k v lg = Ok lg' -> k' <> k -> get lg' k' = get lg k'.
Proof.
  unfold log_one. destruct (has_key k (lg_keys lg)); intros H N; [|congruence].
  apply rbind_inv in H. destruct H as [a [_ H]]. eapply add_get; eauto.
Qed.
Lemma log_one_ran k v lg lg' n c : log_one k v lg = Ok lg' -> k <> "iteration" -> k <> "converged" -> ran lg n c <-> ran lg' n c.
Proof. intros H N1 N2. unfold ran. rewrite !(log_one_get _ _ _ _ _ H) by auto. tauto. Qed.
Lemma log_one_like k v a b a' : alike a b -> log_one k v a = Ok a' -> exists b', log_one k v b = Ok b' /\ alike a' b'.
Proof.
  intros [E1 E2]. unfold log_one. rewrite E1. destruct (has_key k (lg_keys b)) eqn:E.
  - intros H. apply rbind_inv in H. destruct H as [x [-> H]]. cbn [rbind].
    destruct (add_like _ _ k _ (LAtom x) _ E1 E2 H) as [b' [B1 B2]]. eauto.
  - intros H. injection H as <-. exists b. split; [reflexivity|split; assumption].
Qed.

(** ** linear models *)
Definition linear_solver (m : linear_model) : pgd_solver :=
  {| s_tol := lm_tol m; s_max_iter := lm_max_iter m; s_stepping := lm_stepping m; s_step_len := effective_step m |}.
Definition start_of (pr : linear_problem) (x0 : option vec) (warm : bool) : vec :=
  if warm then match x0 with Some x => x | None => ones (lp_p pr) end else ones (lp_p pr).

(** a fit of a linear model with the usual solver is one run of it and the criteria of its result *)
Lemma linear_fit_is_run argsort inv m pr weights : (lm_el m = None \/ lm_practical m = false) ->
  (exists orc rg aic bic lg0, steady orc tt /\ logger_wf lg0 /\ forall n x0 warm,
    linear_fit_problem argsort inv (linear_until m n) pr x0 warm weights =
    (let! (x, lg1, _) := pgd_optimize orc rg (solver_until (linear_solver m) n) (start_of pr x0 warm) tt lg0 in
     let! lg2 := log_one "aic" (let! v := aic x in Ok (LNum v)) lg1 in
     let! lg3 := log_one "bic" (let! v := bic x in Ok (LNum v)) lg2 in Ok (x, lg3))) \/
  (exists e, forall n x0 warm, linear_fit_problem argsort inv (linear_until m n) pr x0 warm weights = Err e).
Proof.
  intros Hm.
  assert (G : forall orc rg (aic bic : vec -> res R) lg0 slv start,
    (let! (x, lg1, _) := pgd_optimize orc rg slv start tt lg0 in
     let! lg2 := (if has_key "aic" (lg_keys lg1) then let! v := aic x in add lg1 "aic" (LAtom (LNum v)) else Ok lg1) in
     let! lg3 := (if has_key "bic" (lg_keys lg2) then let! v := bic x in add lg2 "bic" (LAtom (LNum v)) else Ok lg2) in
     Ok (x, lg3)) =
    (let! (x, lg1, _) := pgd_optimize orc rg slv start tt lg0 in
     let! lg2 := log_one "aic" (let! v := aic x in Ok (LNum v)) lg1 in
     let! lg3 := log_one "bic" (let! v := bic x in Ok (LNum v)) lg2 in Ok (x, lg3))).
  { intros. destruct (pgd_optimize orc rg slv start tt lg0) as [[[x lg1] u]|e]; [|reflexivity]. cbn [rbind]. unfold log_one.
    destruct (has_key "aic" (lg_keys lg1)).
    - destruct (aic x) as [v|]; [|reflexivity]. cbn [rbind]. destruct (add lg1 "aic" (LAtom (LNum v))) as [lg2|]; [|reflexivity]. cbn [rbind].
      destruct (has_key "bic" (lg_keys lg2)); [|reflexivity]. destruct (bic x); reflexivity.
    - cbn [rbind]. destruct (has_key "bic" (lg_keys lg1)); [|reflexivity]. destruct (bic x); reflexivity. }
  unfold linear_fit_problem. cbn [linear_until lm_el lm_practical lm_reg lm_tol lm_max_iter lm_stepping lm_prior lm_keys].
  destruct (mk_logger (Some (lm_keys m))) as [lg0|e] eqn:El; [|destruct (lm_keys m); discriminate].
  assert (W : logger_wf lg0) by (destruct (lm_keys m) as [kd ks]; exact (proj1 (mk_logger_wf _ _ _ El))).
  destruct (lm_el m) as [el|] eqn:Ee.
  - destruct Hm as [Hm|Hm]; [discriminate|]. rewrite Hm.
    destruct (mk_sr3 _ _ _) as [o0|e]; [|right; exists e; reflexivity]. cbn [rbind].
    destruct (sr3_instantiate inv o0 pr) as [o|e]; [|right; exists e; reflexivity]. cbn [rbind].
    destruct (instantiate _ _ _) as [r|e]; [|right; exists e; reflexivity]. cbn [rbind].
    left. exists (sr3_as_oracle o), (as_regularizer argsort r), (sr3_aic o), (sr3_bic o), lg0.
    split; [apply sr3_steady|]. split; [exact W|]. intros n x0 warm. exact (G _ _ _ _ _ _ _).
  - destruct (lin_instantiate _ pr) as [o|e]; [|right; exists e; reflexivity]. cbn [rbind].
    destruct (instantiate _ _ _) as [r|e]; [|right; exists e; reflexivity]. cbn [rbind].
    left. exists (lin_as_oracle o), (as_regularizer argsort r), (lin_aic o), (lin_bic o), lg0.
    split; [apply lin_steady|]. split; [exact W|]. intros n x0 warm. exact (G _ _ _ _ _ _ _).
Qed.

(*@ C112.  The solver, whatever the oracle and the regularizer: let a run with the limit n1 + n2 make k > n1
    iterations.  Then a run with the limit n1 from the same point ends without convergence after n1 iterations, and a run
    with the limit n2 from where that one ended returns the very point of the long run, after k - n1 iterations, and
    reports convergence exactly if the long run does. *)
Lemma run_continues_lemma : forall S (orc : oracle S) rg slv s0 n1 n2 k c x0 lg x lg' s',
  steady orc s0 -> logger_wf lg ->
  pgd_optimize orc rg (solver_until slv (Z.of_nat (n1 + n2))) x0 s0 lg = Ok (x, lg', s') -> ran lg' k c -> (n1 < k)%nat ->
  exists x1 lg1 lg2,
    pgd_optimize orc rg (solver_until slv (Z.of_nat n1)) x0 s0 lg = Ok (x1, lg1, s0) /\ ran lg1 n1 false /\
    pgd_optimize orc rg (solver_until slv (Z.of_nat n2)) x1 s0 lg = Ok (x, lg2, s0) /\ ran lg2 (k - n1) c.
Proof.
  intros S orc rg slv s0 n1 n2 k c x0 lg x lg' s' Hs W H R Hk.
  destruct (continue_run orc rg slv s0 Hs n1 n2 k c x0 lg x lg' s' W H R Hk) as (x1 & lg1 & lg2 & A & B & C & D & _). eauto 8.
Qed.

(*@ C112.  A run that stops by itself after k iterations returns the same point under every limit of at least k; it
    reports convergence if the limit is larger than k, and reports none if the limit is k. *)
Lemma run_stops_early_lemma : forall S (orc : oracle S) rg slv s0 n1 n2 k c x0 lg x lg' s',
  pgd_optimize orc rg (solver_until slv (Z.of_nat (n1 + n2))) x0 s0 lg = Ok (x, lg', s') -> ran lg' k c -> (k <= n1)%nat ->
  exists lg1, pgd_optimize orc rg (solver_until slv (Z.of_nat n1)) x0 s0 lg = Ok (x, lg1, s') /\ ran lg1 k (k <? n1)%nat.
Proof.
  intros S orc rg slv s0 n1 n2 k c x0 lg x lg' s' H R Hk.
  destruct (early_run orc rg slv s0 n1 n2 k c x0 lg x lg' s' H R Hk) as (lg1 & A & B & _). eauto.
Qed.

(*@ C112 (partial).  Linear models, plain and relaxed, solved by PGDSolver: let the fit with max_iter = n1 + n2 make
    k > n1 iterations and let the fit with max_iter = n1 return x1.  It reports that it has not converged, and the fit
    with max_iter = n2 that is warm started at x1 returns the coefficients of the long fit. *)
Lemma linear_fit_continues_partial_lemma : forall argsort inv m pr x0 (warm : bool) weights n1 n2 k c x lg x1 lg1,
  lm_el m = None \/ lm_practical m = false ->
  linear_fit_problem argsort inv (linear_until m (Z.of_nat (n1 + n2))) pr x0 warm weights = Ok (x, lg) ->
  ran lg k c -> (n1 < k)%nat ->
  linear_fit_problem argsort inv (linear_until m (Z.of_nat n1)) pr x0 warm weights = Ok (x1, lg1) ->
  ran lg1 n1 false /\
  exists lg2, linear_fit_problem argsort inv (linear_until m (Z.of_nat n2)) pr (Some x1) true weights = Ok (x, lg2) /\
    ran lg2 (k - n1) c.
Proof.
  intros argsort inv m pr x0 warm weights n1 n2 k c x lg x1 lg1 Hm H R Hk H1.
  destruct (linear_fit_is_run argsort inv m pr weights Hm) as [(orc & rg & aic & bic & lg0 & Hs & W & E)|[e E]];
    [|rewrite E in H; discriminate].
  rewrite E in H, H1. rewrite E.
  apply rbind_inv in H. destruct H as [[[xa la] u] [Ha H]]. apply rbind_inv in H. destruct H as [lb [Hb H]].
  apply rbind_inv in H. destruct H as [lc [Hc H]]. injection H as -> ->.
  apply (log_one_ran _ _ _ _ _ _ Hc ltac:(discriminate) ltac:(discriminate)) in R.
  apply (log_one_ran _ _ _ _ _ _ Hb ltac:(discriminate) ltac:(discriminate)) in R.
  destruct (continue_run orc rg (linear_solver m) tt Hs n1 n2 k c _ lg0 _ _ _ W Ha R Hk) as (y1 & la1 & la2 & A & B & C & D & Q).
  rewrite A in H1. cbn [rbind] in H1.
  apply rbind_inv in H1. destruct H1 as [lb1 [Hb1 H1]]. apply rbind_inv in H1. destruct H1 as [lc1 [Hc1 H1]]. injection H1 as -> ->.
  split.
  - apply (log_one_ran _ _ _ _ _ _ Hc1 ltac:(discriminate) ltac:(discriminate)).
    apply (log_one_ran _ _ _ _ _ _ Hb1 ltac:(discriminate) ltac:(discriminate)). exact B.
  - cbn [start_of]. rewrite C. cbn [rbind].
    destruct (log_one_like _ _ _ _ _ Q Hb) as [lb2 [Hb2 Q2]]. destruct (log_one_like _ _ _ _ _ Q2 Hc) as [lc2 [Hc2 Q3]].
    exists lc2. rewrite Hb2. cbn [rbind]. rewrite Hc2. split; [reflexivity|].
    apply (log_one_ran _ _ _ _ _ _ Hc2 ltac:(discriminate) ltac:(discriminate)).
    apply (log_one_ran _ _ _ _ _ _ Hb2 ltac:(discriminate) ltac:(discriminate)). exact D.
Qed.

(** ** the practical method *)
Section Practical.
Variables (o : sr3_oracle) (pr : linear_problem) (d : sr3_data) (rg : regularizer) (tol : R).
Let loop := fun fuel mi => practical_loop fuel o pr d rg tol mi.

Lemma practical_at_least : forall fuel mi x xp it y k, loop fuel mi x xp it = Ok (y, k) -> (it <= k)%nat.
Proof.
  unfold loop. induction fuel as [|fuel IH]; intros mi x xp it y k H; cbn [practical_loop] in H;
    apply rbind_inv in H; destruct H as [b [_ H]]; destruct (b && _); try discriminate; try (injection H as <- <-; lia).
  apply rbind_inv in H. destruct H as [u [_ H]]. apply rbind_inv in H. destruct H as [x' [_ H]]. apply IH in H. lia.
Qed.

(** the same loop with another fuel, counted from another iteration *)
Lemma practical_shift a : forall fuel fuel' n x xp it y k, (n <= it + fuel')%nat ->
  loop fuel (Z.of_nat (a + n)) x xp (a + it) = Ok (y, k) -> loop fuel' (Z.of_nat n) x xp it = Ok (y, (k - a)%nat).
Proof.
  unfold loop. induction fuel as [|fuel IH]; intros fuel' n x xp it y k Hf H; cbn [practical_loop] in H;
    apply rbind_inv in H; destruct H as [b [Hb H]];
    replace (Z.of_nat (a + it) <? Z.of_nat (a + n))%Z with (Z.of_nat it <? Z.of_nat n)%Z in H
      by (destruct (Z.ltb_spec (Z.of_nat it) (Z.of_nat n)); symmetry; [apply Z.ltb_lt|apply Z.ltb_ge]; lia);
    destruct (b && (Z.of_nat it <? Z.of_nat n)%Z) eqn:E; try discriminate.
  - injection H as <- <-. destruct fuel'; cbn [practical_loop]; rewrite Hb; cbn [rbind]; rewrite E; repeat f_equal; lia.
  - apply andb_prop in E as E2. destruct E2 as [_ E2]. apply Z.ltb_lt in E2. destruct fuel' as [|fuel']; [lia|].
    apply rbind_inv in H. destruct H as [u [Hu H]]. apply rbind_inv in H. destruct H as [x' [Hx H]].
    cbn [practical_loop]. rewrite Hb. cbn [rbind]. rewrite E, Hu. cbn [rbind]. rewrite Hx. cbn [rbind].
    apply (IH fuel' n x' (Some x) (S it)); [lia|]. replace (a + S it)%nat with (S (a + it)) by lia. exact H.
  - injection H as <- <-. destruct fuel'; cbn [practical_loop]; rewrite Hb; cbn [rbind]; rewrite E; repeat f_equal; lia.
Qed.

(** a loop that passes iteration it + n1 *)
Lemma practical_cut n2 y k : forall n1 fuel x xp it,
  loop fuel (Z.of_nat (it + n1 + n2)) x xp it = Ok (y, k) -> (it + n1 < k)%nat ->
  exists x1 xp1 fuel1, loop n1 (Z.of_nat (it + n1)) x xp it = Ok (x1, (it + n1)%nat) /\
    moved tol x1 xp1 = Ok true /\ loop fuel1 (Z.of_nat (it + n1 + n2)) x1 xp1 (it + n1) = Ok (y, k).
Proof.
  unfold loop. induction n1 as [|n1 IH]; intros fuel x xp it H Hk.
  - rewrite Nat.add_0_r in *. exists x, xp, fuel. pose proof H as H0.
    destruct fuel as [|fuel]; cbn [practical_loop] in H; apply rbind_inv in H; destruct H as [b [Hb H]];
      (destruct b; [|cbn [andb] in H; injection H as _ <-; lia]);
      (split; [cbn [practical_loop]; rewrite Hb; cbn [rbind]; rewrite Z.ltb_irrefl; reflexivity|auto]).
  - destruct fuel as [|fuel]; cbn [practical_loop] in H; apply rbind_inv in H; destruct H as [b [Hb H]];
      destruct (b && _) eqn:E; try discriminate; try (injection H as _ <-; lia).
    apply andb_prop in E. destruct E as [-> _].
    apply rbind_inv in H. destruct H as [u [Hu H]]. apply rbind_inv in H. destruct H as [x' [Hx H]].
    replace (it + S n1 + n2)%nat with (S it + n1 + n2)%nat in * by lia. replace (it + S n1)%nat with (S it + n1)%nat in * by lia.
    destruct (IH fuel x' (Some x) (S it) H Hk) as (x1 & xp1 & f1 & A & B & C). exists x1, xp1, f1. split; [|auto].
    cbn [practical_loop]. rewrite Hb. cbn [rbind].
    replace (Z.of_nat it <? Z.of_nat (S it + n1))%Z with true by (symmetry; apply Z.ltb_lt; lia). cbn [andb].
    rewrite Hu. cbn [rbind]. rewrite Hx. exact A.
Qed.

(** a loop that ends by iteration n *)
Lemma practical_early y k : forall n fuel fuel' m x xp it, (n <= m)%nat -> (n <= it + fuel')%nat -> (k <= n)%nat ->
  loop fuel (Z.of_nat m) x xp it = Ok (y, k) -> loop fuel' (Z.of_nat n) x xp it = Ok (y, k).
Proof.
  unfold loop. intros n. induction fuel as [|fuel IH]; intros fuel' m x xp it Hm Hf Hk H; pose proof (practical_at_least _ _ _ _ _ _ _ H) as Hi;
    cbn [practical_loop] in H; apply rbind_inv in H; destruct H as [b [Hb H]]; destruct (b && _) eqn:E; try discriminate.
  - injection H as <- <-. destruct fuel'; cbn [practical_loop]; rewrite Hb; cbn [rbind];
      replace (b && (Z.of_nat it <? Z.of_nat n)%Z) with false; try reflexivity; symmetry; apply andb_false_iff in E; apply andb_false_iff;
      (destruct E as [E|E]; [left; exact E|right; apply Z.ltb_ge in E; apply Z.ltb_ge; lia]).
  - apply andb_prop in E. destruct E as [-> E]. apply rbind_inv in H. destruct H as [u [Hu H]]. apply rbind_inv in H. destruct H as [x' [Hx H]].
    pose proof (practical_at_least _ _ _ _ _ _ _ H) as Hj. destruct fuel' as [|fuel']; [lia|].
    cbn [practical_loop]. rewrite Hb. cbn [rbind].
    replace (Z.of_nat it <? Z.of_nat n)%Z with true by (symmetry; apply Z.ltb_lt; lia). cbn [andb]. rewrite Hu. cbn [rbind]. rewrite Hx. cbn [rbind].
    apply (IH fuel' m); [exact Hm|lia|exact Hk|exact H].
  - injection H as <- <-. destruct fuel'; cbn [practical_loop]; rewrite Hb; cbn [rbind];
      replace (b && (Z.of_nat it <? Z.of_nat n)%Z) with false; try reflexivity; symmetry; apply andb_false_iff in E; apply andb_false_iff;
      (destruct E as [E|E]; [left; exact E|right; apply Z.ltb_ge in E; apply Z.ltb_ge; lia]).
Qed.

(** starting afresh where the loop goes on *)
Lemma practical_fresh fuel mi x xp it : moved tol x xp = Ok true -> loop fuel mi x xp it = loop fuel mi x None it.
Proof.
  intros H. unfold loop. assert (M : moved tol x None = Ok true).
  { destruct x as [|a x]; [|reflexivity]. destruct xp as [xp|]; [|exact H]. cbn [moved] in H.
    destruct xp; cbn [length Nat.eqb guard rbind] in H; [|discriminate]. rewrite <- H. cbn [moved]. do 2 f_equal.
    unfold norm, sqnorm, vdot, vmul. cbn. symmetry. apply sqrt_0. }
  destruct fuel; cbn [practical_loop]; rewrite H, M; reflexivity.
Qed.
End Practical.

(** what FakePGDSolver and the fit log after the method has returned y *)
Lemma practical_end (orc : oracle unit) rg (aic bic : vec -> res R) lg0 s0 y x lg :
  (let! (x, lg1, _) :=
     (let! (lg2, s2) :=
        (if has_key "loss" (lg_keys lg0) then
           let! (f, s') := o_value orc s0 y in
           let! r := r_value rg y in
           let! lg' := add lg0 "loss" (LAtom (lnum_e (eadd (Fin f) r))) in
           Ok (lg', s')
         else Ok (lg0, s0)) in
      let! lg3 := add lg2 "converged" (LAtom (LBool true)) in
      Ok (y, lg3, s2)) in
   let! lg2 := (if has_key "aic" (lg_keys lg1) then let! v := aic x in add lg1 "aic" (LAtom (LNum v)) else Ok lg1) in
   let! lg3 := (if has_key "bic" (lg_keys lg2) then let! v := bic x in add lg2 "bic" (LAtom (LNum v)) else Ok lg2) in
   Ok (x, lg3)) = Ok (x, lg) -> y = x /\ get lg "converged" = Ok (LAtom (LBool true)).
Proof.
  intros H. apply rbind_inv in H. destruct H as [[[xa la] u] [Ha H]]. apply rbind_inv in Ha. destruct Ha as [[l2 s2] [_ Ha]].
  apply rbind_inv in Ha. destruct Ha as [l3 [Hc Ha]]. injection Ha as <- <- <-.
  apply rbind_inv in H. destruct H as [lb [Hb H]]. apply rbind_inv in H. destruct H as [lc [Hd H]]. injection H as <- <-.
  split; [reflexivity|].
  assert (G : forall k (f : vec -> res R) l l', k <> "converged" ->
    (if has_key k (lg_keys l) then let! v := f y in add l k (LAtom (LNum v)) else Ok l) = Ok l' -> get l' "converged" = get l "converged").
  { intros k f l l' N F. destruct (has_key k (lg_keys l)); [|congruence].
    apply rbind_inv in F. destruct F as [v [_ F]]. apply (add_get _ _ _ _ _ F). congruence. }
  rewrite (G "bic" bic _ _ ltac:(discriminate) Hd), (G "aic" aic _ _ ltac:(discriminate) Hb).
  unfold get. destruct (add_lookup _ _ _ _ Hc) as [L _]. rewrite L. reflexivity.
Qed.

(*@ C112.  The practical method of the relaxed linear models: let it make k > n1 iterations under the limit n1 + n2.
    Then it makes n1 iterations under the limit n1, and from where it ended it returns under the limit n2 the point of
    the long run, after k - n1 iterations.  If it makes k <= n1 iterations, it returns the same under the limit n1. *)
Lemma practical_continues_lemma : forall o rg tol n1 n2 x0 x k,
  sr3_find_count o rg tol (Z.of_nat (n1 + n2)) x0 = Ok (x, k) ->
  ((n1 < k)%nat -> exists x1, sr3_find_count o rg tol (Z.of_nat n1) x0 = Ok (x1, n1) /\
     sr3_find_count o rg tol (Z.of_nat n2) x1 = Ok (x, (k - n1)%nat)) /\
  ((k <= n1)%nat -> sr3_find_count o rg tol (Z.of_nat n1) x0 = Ok (x, k)).
Proof.
  intros o rg tol n1 n2 x0 x k H. unfold sr3_find_count in *. apply rbind_inv in H. destruct H as [u [Hu H]]. rewrite Hu. cbn [rbind].
  destruct (so_problem o) as [pr|]; [|discriminate]. destruct (so_data o) as [d|]; [|discriminate]. rewrite !Nat2Z.id in *. split; intros Hk.
  - destruct (practical_cut o pr d rg tol n2 x k n1 _ x0 None 0 H Hk) as (x1 & xp1 & f1 & A & B & C).
    exists x1. split; [exact A|]. cbn [plus] in C.
    apply (practical_shift o pr d rg tol n1 f1 n2 n2 x1 None 0); [lia|]. rewrite Nat.add_0_r.
    rewrite <- (practical_fresh o pr d rg tol f1 _ x1 xp1 n1 B). exact C.
  - apply (practical_early o pr d rg tol x k n1 (n1 + n2) n1 (n1 + n2) x0 None 0); [lia|lia|exact Hk|exact H].
Qed.

(*@ C112.  Relaxed linear models solved by the practical method: let the fits with the limits n1 + n2 and n1 return x and
    x1.  Either x1 = x, or the fit with the limit n2 that is warm started at x1 returns exactly what the long fit returns,
    its log included.  Both report convergence, so the log does not tell which. *)
Lemma practical_fit_continues_lemma : forall argsort inv m el pr x0 (warm : bool) weights n1 n2 x lg x1 lg1,
  lm_el m = Some el -> lm_practical m = true ->
  linear_fit_problem argsort inv (linear_until m (Z.of_nat (n1 + n2))) pr x0 warm weights = Ok (x, lg) ->
  linear_fit_problem argsort inv (linear_until m (Z.of_nat n1)) pr x0 warm weights = Ok (x1, lg1) ->
  (x1 = x \/ linear_fit_problem argsort inv (linear_until m (Z.of_nat n2)) pr (Some x1) true weights = Ok (x, lg)) /\
  get lg "converged" = Ok (LAtom (LBool true)) /\ get lg1 "converged" = Ok (LAtom (LBool true)).
Proof.
  intros argsort inv m el pr x0 warm weights n1 n2 x lg x1 lg1 He Hp H H1.
  unfold linear_fit_problem in *. cbn [linear_until lm_el lm_practical lm_reg lm_tol lm_max_iter lm_stepping lm_prior lm_keys] in *.
  rewrite He, Hp in *.
  destruct (mk_sr3 _ _ _) as [o0|e]; [|discriminate]. cbn [rbind] in *.
  destruct (sr3_instantiate inv o0 pr) as [o|e]; [|discriminate]. cbn [rbind] in *.
  destruct (instantiate _ _ _) as [r|e]; [|discriminate]. cbn [rbind] in *.
  destruct (mk_logger _) as [lg0|e]; [|discriminate]. cbn [rbind] in *.
  set (rg := as_regularizer argsort r) in *. set (st := if warm then _ else _) in *.
  unfold fake_pgd_optimize in *. unfold sr3_find in *.
  destruct (sr3_find_count o rg (lm_tol m) (Z.of_nat (n1 + n2)) st) as [[y k]|e] eqn:E; [|discriminate].
  destruct (sr3_find_count o rg (lm_tol m) (Z.of_nat n1) st) as [[y1 k1]|e] eqn:E1; [|discriminate]. cbn [rbind] in H, H1.
  destruct (practical_continues_lemma o rg (lm_tol m) n1 n2 st y k E) as [P Q].
  destruct (practical_end _ _ _ _ _ _ _ _ _ H) as [<- C]. destruct (practical_end _ _ _ _ _ _ _ _ _ H1) as [<- C1].
  split; [|auto]. destruct (le_lt_dec k n1) as [Hk|Hk].
  - left. rewrite E1 in Q. specialize (Q Hk). congruence.
  - right. destruct (P Hk) as (z & A & B). rewrite E1 in A. injection A as <- _. rewrite B. cbn [rbind]. exact H.
Qed.

(** one observation 4 of one feature 1, with el = 1: x becomes (4 + x) / 2 *)
Lemma half_runs argsort o d : so_lam o = 1 -> so_problem o = Some (sample_problem 4) -> so_data o = Some d ->
  sd_h_inv d = [[/ 2]] -> sd_ab d = [4] ->
  let rg := as_regularizer argsort RDummy in
  sr3_find_count o rg 1 (Z.of_nat (1 + 4)) [1] = Ok ([13 / 4], 2%nat) /\
  sr3_find_count o rg 1 (Z.of_nat 1) [1] = Ok ([5 / 2], 1%nat).
Proof.
  intros L Hp Hd D1 D2 rg.
  assert (N : nonzero 1 = true) by (unfold nonzero; rewrite (proj2 (reqb_false 1 0)) by lra; reflexivity).
  assert (M : forall a b, moved 1 [a] (Some [b]) = Ok (rltb 1 (Rabs (a - b)))).
  { intros a b. cbn [moved length Nat.eqb guard rbind vsub map2]. do 2 f_equal.
    unfold norm, sqnorm, vdot, vmul. cbn. rewrite Rplus_0_r. apply sqrt_Rsqr_abs. }
  assert (T1 : rltb 1 (Rabs (5 / 2 - 1)) = true) by (apply rltb_true; rewrite Rabs_pos_eq; lra).
  assert (T2 : rltb 1 (Rabs (13 / 4 - 5 / 2)) = false) by (apply rltb_false; rewrite Rabs_pos_eq; lra).
  assert (Y : forall v w, w = (4 + v) / 2 ->
    mv [[/ 2]] (vadd [4] (vscale 1 (tmv 1 [[1]] [v]))) = [w]).
  { intros v w ->. cbn. f_equal. unfold vdot, vmul. cbn. field. }
  assert (Again : forall fuel mi v w xp it, moved 1 [v] xp = Ok true ->
    (Z.of_nat it < mi)%Z -> w = (4 + v) / 2 ->
    practical_loop (S fuel) o (sample_problem 4) d rg 1 mi [v] xp it = practical_loop fuel o (sample_problem 4) d rg 1 mi [w] (Some [v]) (S it)).
  { intros fuel mi v w xp it Hm Hi Hw. cbn [practical_loop]. rewrite Hm. cbn [rbind]. rewrite (proj2 (Z.ltb_lt _ _) Hi). cbn [andb].
    cbn [length sample_problem lp_p lp_c Nat.eqb guard rbind]. rewrite D1, D2. rewrite L, (Y v w Hw). reflexivity. }
  assert (Stop : forall fuel mi v xp it b, moved 1 [v] xp = Ok b -> b && (Z.of_nat it <? mi)%Z = false ->
    practical_loop fuel o (sample_problem 4) d rg 1 mi [v] xp it = Ok ([v], it)).
  { intros fuel mi v xp it b Hm Hb. destruct fuel; cbn [practical_loop]; rewrite Hm; cbn [rbind]; rewrite Hb; reflexivity. }
  unfold sr3_find_count. rewrite L, N. cbn [guard rbind]. rewrite Hp, Hd. split.
  - change (Z.to_nat (Z.of_nat (1 + 4))) with 5%nat. 
    rewrite (Again 4%nat _ 1 (5 / 2)); [|reflexivity|reflexivity|lra].
    rewrite (Again 3%nat _ (5 / 2) (13 / 4)); [|rewrite M, T1; reflexivity|reflexivity|lra].
    apply (Stop _ _ _ _ _ false); [rewrite M, T2; reflexivity|reflexivity].
  - change (Z.to_nat (Z.of_nat 1)) with 1%nat. 
    rewrite (Again 0%nat _ 1 (5 / 2)); [|reflexivity|reflexivity|lra].
    apply (Stop _ _ _ _ _ true); [rewrite M, T1; reflexivity|reflexivity].
Qed.

(*@ The practical method interrupted after one of its two iterations: 1, 5/2, 13/4. *)
Lemma ex_practical_continues_lemma : forall argsort,
  let o := {| so_lam := 1; so_practical := false; so_problem := Some (sample_problem 4);
              so_data := Some {| sd_h_inv := [[/ 2]]; sd_ab := [4]; sd_fg := None |} |} in
  let rg := as_regularizer argsort RDummy in
  sr3_find_count o rg 1 (Z.of_nat (1 + 4)) [1] = Ok ([13 / 4], 2%nat) /\
  sr3_find_count o rg 1 (Z.of_nat 1) [1] = Ok ([5 / 2], 1%nat).
Proof.
  intros argsort o rg. eapply half_runs; reflexivity.
Qed.

(*@ The same at the level of a fit, where the second alternative is the one that holds. *)
Lemma ex_practical_fit_continues_lemma : forall argsort,
  let inv := fun (_ : nat) (_ : mat) => Ok [[/ 2]] in
  let m := {| lm_el := Some 1; lm_practical := true; lm_reg := RDummy; lm_tol := 1; lm_max_iter := 0;
              lm_stepping := "fixed"; lm_step_len := None; lm_prior := PNone; lm_keys := (KTuple, []) |} in
  mm 1 (h_matrix 1 (sample_problem 4)) [[/ 2]] = eye 1 /\ exists lg lg1,
  linear_fit_problem argsort inv (linear_until m (Z.of_nat (1 + 4))) (sample_problem 4) None false None = Ok ([13 / 4], lg) /\
  linear_fit_problem argsort inv (linear_until m (Z.of_nat 1)) (sample_problem 4) None false None = Ok ([5 / 2], lg1) /\
  [5 / 2] <> [13 / 4].
Proof.
  intros argsort inv m. split.
  { cbn. unfold tmv, vdot, vmul. cbn. repeat f_equal; field. }
  set (o := {| so_lam := 1; so_practical := false; so_problem := Some (sample_problem 4);
               so_data := Some {| sd_h_inv := [[/ 2]]; sd_ab := tmv 1 [[1]] [4];
                 sd_fg := Some (f_matrix 1 (sample_problem 4) [[/ 2]], mv (g_matrix 1 (sample_problem 4) [[/ 2]]) [4]) |} |}).
  assert (Hab : tmv 1 [[1]] [4] = [4]) by (cbn; unfold vdot, vmul; cbn; f_equal; ring).
  destruct (half_runs argsort o _ eq_refl eq_refl eq_refl eq_refl Hab) as [A B].
  assert (F : forall n y k, sr3_find_count o (as_regularizer argsort RDummy) 1 n [1] = Ok (y, k) ->
    exists lg, linear_fit_problem argsort inv (linear_until m n) (sample_problem 4) None false None = Ok (y, lg)).
  { intros n y k E. unfold linear_fit_problem. cbn [m linear_until lm_el lm_practical lm_reg lm_tol lm_max_iter lm_prior lm_keys].
    unfold mk_sr3. cbn [negb guard rbind]. unfold sr3_instantiate.
    cbn [inv rbind so_lam so_practical sample_problem lp_p lp_a lp_b lp_n length Nat.eqb guard instantiate ones repeat].
    fold (sample_problem 4). fold o. cbn [mk_logger rbind fold_left]. unfold fake_pgd_optimize, sr3_find. rewrite E. cbn [rbind].
    eexists. reflexivity. }
  destruct (F _ _ _ A) as [lg HA]. destruct (F _ _ _ B) as [lg1 HB]. exists lg, lg1. split; [exact HA|]. split; [exact HB|].
  intros X. injection X as X. lra.
Qed.

(** ** mixed models *)
Lemma log_criteria_ones m c b g lg : exists v1 v2 v3 v4 v5, log_criteria m c b g lg =
  (let! lg := log_one "vaida_aic" v1 lg in let! lg := log_one "vaida_aic_marginalized" v2 lg in
   let! lg := log_one "jones_bic" v3 lg in let! lg := log_one "muller_ic" v4 lg in log_one "flip_probabilities_beta" v5 lg) /\
  forall lg', log_criteria m c b g lg' =
  (let! lg := log_one "vaida_aic" v1 lg' in let! lg := log_one "vaida_aic_marginalized" v2 lg in
   let! lg := log_one "jones_bic" v3 lg in let! lg := log_one "muller_ic" v4 lg in log_one "flip_probabilities_beta" v5 lg).
Proof. unfold log_criteria, add_if. do 5 eexists. split; [|intros lg']; reflexivity. Qed.

Lemma criteria_ran m c b g lg lg' n d : log_criteria m c b g lg = Ok lg' -> ran lg n d <-> ran lg' n d.
Proof.
  destruct (log_criteria_ones m c b g lg) as (v1 & v2 & v3 & v4 & v5 & -> & _). intros H.
  apply rbind_inv in H. destruct H as [l1 [H1 H]]. apply rbind_inv in H. destruct H as [l2 [H2 H]].
  apply rbind_inv in H. destruct H as [l3 [H3 H]]. apply rbind_inv in H. destruct H as [l4 [H4 H]].
  rewrite (log_one_ran _ _ _ _ n d H1 ltac:(discriminate) ltac:(discriminate)).
  rewrite (log_one_ran _ _ _ _ n d H2 ltac:(discriminate) ltac:(discriminate)).
  rewrite (log_one_ran _ _ _ _ n d H3 ltac:(discriminate) ltac:(discriminate)).
  rewrite (log_one_ran _ _ _ _ n d H4 ltac:(discriminate) ltac:(discriminate)).
  apply (log_one_ran _ _ _ _ n d H ltac:(discriminate) ltac:(discriminate)).
Qed.
Lemma criteria_like m c b g lg lg' lg2 : alike lg lg2 -> log_criteria m c b g lg = Ok lg' ->
  exists lg2', log_criteria m c b g lg2 = Ok lg2'.
Proof.
  destruct (log_criteria_ones m c b g lg) as (v1 & v2 & v3 & v4 & v5 & -> & E). rewrite E. intros Q H.
  apply rbind_inv in H. destruct H as [l1 [H1 H]]. apply rbind_inv in H. destruct H as [l2 [H2 H]].
  apply rbind_inv in H. destruct H as [l3 [H3 H]]. apply rbind_inv in H. destruct H as [l4 [H4 H]].
  destruct (log_one_like _ _ _ _ _ Q H1) as [k1 [-> Q1]]. cbn [rbind].
  destruct (log_one_like _ _ _ _ _ Q1 H2) as [k2 [-> Q2]]. cbn [rbind].
  destruct (log_one_like _ _ _ _ _ Q2 H3) as [k3 [-> Q3]]. cbn [rbind].
  destruct (log_one_like _ _ _ _ _ Q3 H4) as [k4 [-> Q4]]. cbn [rbind].
  destruct (log_one_like _ _ _ _ _ Q4 H) as [k5 [-> _]]. eauto.
Qed.

(** a run of PGDSolver inside a fit *)
Lemma run_solver_is_run solve m p q c : memoryless m ->
  (exists S (orc : oracle S) s0 slv, steady orc s0 /\ step_length m = Ok (s_step_len slv) /\ forall n rg x lg,
     run_solver solve (lme_until m n) p q c rg x lg =
     (let! (x', lg', _) := pgd_optimize orc rg (solver_until slv n) x s0 lg in Ok (x', lg'))) \/
  (exists e, step_length m = Err e).
Proof.
  intros Hm. unfold run_solver. change (fun n : Z => step_length (lme_until m n)) with (fun n : Z => step_length m).
  destruct (step_length m) as [step|e] eqn:Es; [left|right; eauto].
  destruct (mo_sr3 m) as [ss|] eqn:E.
  - destruct (Hm ss E) as [H1 H2].
    exists sr3_memory, (sr3_lme_oracle solve p q c ss), (sr3_start ss),
      {| s_tol := mo_tol m; s_max_iter := 0; s_stepping := mo_stepping m; s_step_len := step |}.
    split; [apply sr3_lme_steady; exact H2|]. split; [reflexivity|]. intros n rg x lg. change (step_length (lme_until m n)) with (step_length m).
    rewrite Es. cbn [rbind lme_until mo_sr3 mo_tol mo_max_iter mo_stepping]. rewrite E, H1. reflexivity.
  - exists unit, (lme_as_oracle p q c), tt,
      {| s_tol := mo_tol m; s_max_iter := 0; s_stepping := mo_stepping m; s_step_len := step |}.
    split; [apply lme_steady|]. split; [reflexivity|]. intros n rg x lg. change (step_length (lme_until m n)) with (step_length m).
    rewrite Es. cbn [rbind lme_until mo_sr3 mo_tol mo_max_iter mo_stepping]. rewrite E. reflexivity.
Qed.

(*@ C112 (partial).  Mixed models, plain and relaxed ones whose inner method keeps nothing: let the fit with
    max_iter_solver = n1 + n2 make k > n1 iterations and let the fit with n1 return co1.  It reports that it has not
    converged, and the fit with n2 iterations, without the EM initializer, from the coefficients and variances of co1
    returns everything the long fit returns, the random effects included. *)
Lemma lme_fit_continues_partial_lemma :
  forall argsort solve calls_of m coef pr beta0 gamma0 (warm warm' : bool) coef' fe re n1 n2 k c co lg co1 lg1,
  memoryless m ->
  fit_problem argsort solve calls_of (lme_until m (Z.of_nat (n1 + n2))) coef pr beta0 gamma0 warm fe re = Ok (co, lg) ->
  ran lg k c -> (n1 < k)%nat ->
  fit_problem argsort solve calls_of (lme_until m (Z.of_nat n1)) coef pr beta0 gamma0 warm fe re = Ok (co1, lg1) ->
  ran lg1 n1 false /\
  exists lg2, fit_problem argsort solve calls_of (no_initializer (lme_until m (Z.of_nat n2))) coef' pr
      (Some (co_beta co1)) (Some (co_gamma co1)) warm' fe re = Ok (co, lg2) /\ ran lg2 (k - n1) c.
Proof.
  intros argsort solve calls_of m coef pr beta0 gamma0 warm warm' coef' fe re n1 n2 k c co lg co1 lg1 Hm H R Hk H1.
  destruct (fit_problem_inv _ _ _ _ _ _ _ _ _ _ _ _ _ H) as
    (ov & g & wf & wr & r0 & r & bg0 & beta1 & gamma1 & lg0 & x & lga & Hov & Hg & Hw & Hr0 & Hr & Hs & Hi & Hl & Hx & Hc & Hu & Hp & Hlab & Hlog).
  destruct (fit_problem_inv _ _ _ _ _ _ _ _ _ _ _ _ _ H1) as
    (ov1 & g1 & wf1 & wr1 & r01 & r1 & bg1 & beta2 & gamma2 & lg01 & x1 & lgb & Hov1 & Hg1 & Hw1 & Hr01 & Hr1 & Hs1 & Hi1 & Hl1 & Hx1 & Hc1 & _ & _ & _ & Hlog1).
  rewrite Hov in Hov1. injection Hov1 as <-. change (prior_of (lme_until m (Z.of_nat n1)) pr) with (prior_of m pr) in Hg1.
  change (prior_of (lme_until m (Z.of_nat (n1 + n2))) pr) with (prior_of m pr) in Hg. rewrite Hg in Hg1. injection Hg1 as <-.
  rewrite Hw in Hw1. injection Hw1 as <- <-. change (model_reg (lme_until m (Z.of_nat n1)) ov) with (model_reg m ov) in Hr01.
  change (model_reg (lme_until m (Z.of_nat (n1 + n2))) ov) with (model_reg m ov) in Hr0. rewrite Hr0 in Hr01. injection Hr01 as <-.
  rewrite Hr in Hr1. injection Hr1 as <-. rewrite Hs in Hs1. injection Hs1 as <-.
  change (initialize (lme_until m (Z.of_nat (n1 + n2)))) with (initialize m) in Hi.
  change (initialize (lme_until m (Z.of_nat n1))) with (initialize m) in Hi1.
  cbn [lme_until mo_sr3 mo_keys] in *. rewrite Hi in Hi1. injection Hi1 as <- <-. rewrite Hl in Hl1. injection Hl1 as <-.
  set (cl := calls_of pr g (mo_sr3 m)) in *. set (p := num_fixed pr) in *. set (q := num_random pr) in *.
  apply (criteria_ran _ _ _ _ _ _ _ _ Hlog) in R.
  destruct (run_solver_is_run solve m p q cl Hm) as [(S & orc & s0 & slv & St & Hstep & E)|[e Ee]].
  2:{ exfalso. unfold fit_problem in H. change (step_length (lme_until m (Z.of_nat (n1 + n2)))) with (step_length m) in H.
      rewrite Ee in H. discriminate. }
  rewrite E in Hx, Hx1. apply rbind_inv in Hx. destruct Hx as [[[xa la] sa] [Hx Hx']]. injection Hx' as -> ->.
  apply rbind_inv in Hx1. destruct Hx1 as [[[xb lb] sb] [Hx1 Hx1']]. injection Hx1' as -> ->.
  assert (W : logger_wf lg0) by (destruct (mo_keys m) as [kd ks]; exact (proj1 (mk_logger_wf _ _ _ Hl))).
  destruct (continue_run orc _ slv s0 St n1 n2 k c _ lg0 _ _ _ W Hx R Hk) as (y1 & la1 & la2 & A & B & C & D & Q).
  rewrite A in Hx1. injection Hx1 as -> -> _.
  split; [apply (criteria_ran _ _ _ _ _ _ _ _ Hlog1); exact B|].
  assert (Lx : length x1 = (p + q)%nat).
  { destruct (pgd_optimize_inv _ _ _ _ _ _ _ _ _ C) as (path & P & _ & _ & _ & _ & _ & I).
    destruct D as [D _]. rewrite I in D. injection D as D. apply INR_eq in D.
    destruct path as [|[s xs] path]; [cbn in D; lia|]. destruct P as [[(sg & gr & sg' & G1 & G2 & G3) _] _].
    cbn [as_regularizer r_prox] in G3. destruct (model_prox_len _ _ _ _ _ _ _ _ _ Hr0 Hr G3) as [G4 _].
    destruct (oracle_viewE _ _ Hov) as [E1 E2]. rewrite E1, E2 in G4. fold p q in G4. rewrite <- G4.
    symmetry. apply vsub_len; [reflexivity|]. rewrite vscale_len with (n := length x1); auto. }
  assert (X1 : co_beta co1 ++ co_gamma co1 = x1).
  { unfold x_to_beta_gamma in Hc1. injection Hc1 as -> ->. rewrite (firstn_all2 (skipn p x1)); [apply firstn_skipn|].
    rewrite skipn_length. lia. }
  destruct (criteria_like _ _ _ _ _ _ _ Q Hlog) as [lg2 Hlog2].
  exists lg2. split.
  - assert (Xe : x_to_beta_gamma p q x = (co_beta co, co_gamma co)) by (symmetry; exact Hc).
    erewrite (fit_problem_run argsort solve calls_of (no_initializer (lme_until m (Z.of_nat n2))) coef' pr _ _ warm' fe re
      (s_step_len slv) ov g wf wr r0 r (co_beta co1) (co_gamma co1) lg0 x la2 (co_effects co) (co_per_group co) lg2);
      try eassumption; try reflexivity; fold p q.
    + rewrite Xe. cbn [fst snd]. rewrite <- Hlab. destruct co; reflexivity.
    + change (run_solver solve (no_initializer (lme_until m (Z.of_nat n2)))) with (run_solver solve (lme_until m (Z.of_nat n2))).
      cbn [no_initializer lme_until mo_sr3]. fold cl. rewrite E, X1, C. reflexivity.
    + rewrite Xe. exact Hu.
    + rewrite Xe. exact Hp.
    + rewrite Xe. exact Hlog2.
  - apply (criteria_ran _ _ _ _ _ _ _ _ Hlog2). exact D.
Qed.

(** ** runs by hand *)
Definition no_log : logger := {| lg_kind := KTuple; lg_keys := []; lg_dict := [] |}.
Definition coarse_rg (argsort : vec -> list nat) := as_regularizer argsort RDummy.
Definition coarse_oracle := lin_as_oracle {| lo_problem := Some (sample_problem 4); lo_prior := PNone |}.

Lemma coarse_step argsort slv x0 (st : @pgd_state unit) v : st_x st = [v] -> st_logger st = no_log ->
  s_stepping slv = "fixed" -> s_step_len slv = / 2 ->
  exists st', pgd_step coarse_oracle (coarse_rg argsort) slv x0 st = Ok st' /\ st_x st' = [(v + 4) / 2] /\
    st_x_prev st' = Some [v] /\ st_iteration st' = Datatypes.S (st_iteration st) /\ st_logger st' = no_log.
Proof.
  intros Hx Hl H1 H2.
  destruct (quiet_step coarse_oracle (coarse_rg argsort) slv x0 st [v - 4] (st_oracle st) [(v + 4) / 2]) as (st' & A & B & C & D & E & _).
  - rewrite Hl. reflexivity.
  - exact H1.
  - rewrite Hx. unfold coarse_oracle. cbn [lin_as_oracle o_grad lin_gradient lo_problem lo_prior]. unfold residual, vdot, vmul. cbn.
    unfold vdot, vmul. cbn. match goal with |- Ok ([?u], _) = _ => replace u with (v - 4) by lra end. reflexivity.
  - rewrite Hx. reflexivity.
  - rewrite Hx, H2. cbn. match goal with |- Ok [?u] = _ => replace u with ((v + 4) / 2) by lra end. reflexivity.
  - exists st'. rewrite C, Hx, E, Hl. auto.
Qed.

Lemma coarse_moved n a b : moved (lm_tol (coarse_model n)) [a] (Some [b]) = Ok (rltb 1 (Rabs (a - b))).
Proof.
  cbn [moved length Nat.eqb guard rbind coarse_model lm_tol vsub map2]. do 2 f_equal.
  unfold norm, sqnorm, vdot, vmul. cbn. rewrite Rplus_0_r. apply sqrt_Rsqr_abs.
Qed.

Lemma coarse_fit argsort inv n v (warm : bool) x0 st : start_of (sample_problem 4) x0 warm = [v] ->
  let slv := {| s_tol := 1; s_max_iter := n; s_stepping := "fixed"; s_step_len := / 2 |} in
  pgd_loop coarse_oracle (coarse_rg argsort) slv (Z.to_nat n) [v] (pgd_init [v] tt no_log) = Ok st -> st_logger st = no_log ->
  exists lg, linear_fit_problem argsort inv (coarse_model n) (sample_problem 4) x0 warm None = Ok (st_x st, lg) /\
    ran lg (st_iteration st) (Z.of_nat (st_iteration st) <? n)%Z.
Proof.
  intros Hv slv H L. eexists. split.
  - unfold linear_fit_problem. cbn [coarse_model lm_el lm_prior lm_reg lm_keys lm_tol lm_max_iter lm_stepping].
    fold (start_of (sample_problem 4) x0 warm). rewrite Hv. cbn [lin_instantiate lo_prior rbind instantiate mk_logger fold_left].
    change (effective_step (coarse_model n)) with (if reqb (/ 2) 0 then 1 / 20 else / 2) || idtac.
    assert (Es : effective_step (coarse_model n) = / 2).
    { unfold effective_step. cbn [coarse_model lm_step_len]. assert (reqb (/ 2) 0 = false) as -> by (apply reqb_false; lra). reflexivity. }
    rewrite Es. fold slv. fold coarse_oracle. change (as_regularizer argsort RDummy) with (coarse_rg argsort). fold no_log.
    unfold pgd_optimize. rewrite log_state_quiet by reflexivity. cbn [rbind]. change (s_max_iter slv) with n. rewrite H. cbn [rbind].
    rewrite L. unfold add, no_log. cbn [lg_keys lg_dict lg_kind has_key existsb dict_set rbind app String.eqb Ascii.eqb Bool.eqb].
    reflexivity.
  - split; reflexivity.
Qed.

Lemma coarse_start : start_of (sample_problem 4) None false = [1].
Proof. reflexivity. Qed.

(** the fits from the default start *)
Lemma coarse_fits argsort inv :
  (exists lg, linear_fit_problem argsort inv (coarse_model 1) (sample_problem 4) None false None = Ok ([5 / 2], lg) /\ ran lg 1 false) /\
  (exists lg, linear_fit_problem argsort inv (coarse_model 2) (sample_problem 4) None false None = Ok ([13 / 4], lg) /\ ran lg 2 false) /\
  (exists lg, linear_fit_problem argsort inv (coarse_model 5) (sample_problem 4) None false None = Ok ([13 / 4], lg) /\ ran lg 2 true) /\
  (exists lg, linear_fit_problem argsort inv (coarse_model 3) (sample_problem 4) (Some [13 / 4]) true None = Ok ([29 / 8], lg) /\ ran lg 1 true).
Proof.
  set (slv n := {| s_tol := 1; s_max_iter := n; s_stepping := "fixed"; s_step_len := / 2 |}).
  assert (T1 : rltb 1 (Rabs (5 / 2 - 1)) = true) by (apply rltb_true; rewrite Rabs_pos_eq; lra).
  assert (T2 : rltb 1 (Rabs (13 / 4 - 5 / 2)) = false) by (apply rltb_false; rewrite Rabs_pos_eq; lra).
  assert (T3 : rltb 1 (Rabs (29 / 8 - 13 / 4)) = false) by (apply rltb_false; rewrite Rabs_pos_eq; lra).
  assert (M0 : forall n v, moved (s_tol (slv n)) (st_x (pgd_init [v] tt no_log)) (st_x_prev (pgd_init [v] tt no_log)) = Ok true) by reflexivity.
  assert (G : forall n, exists st1 st2, pgd_step coarse_oracle (coarse_rg argsort) (slv n) [1] (pgd_init [1] tt no_log) = Ok st1 /\
    pgd_step coarse_oracle (coarse_rg argsort) (slv n) [1] st1 = Ok st2 /\ st_x st1 = [5 / 2] /\ st_x st2 = [13 / 4] /\
    st_iteration st1 = 1%nat /\ st_iteration st2 = 2%nat /\ st_logger st1 = no_log /\ st_logger st2 = no_log /\
    moved (s_tol (slv n)) (st_x st1) (st_x_prev st1) = Ok true /\ moved (s_tol (slv n)) (st_x st2) (st_x_prev st2) = Ok false).
  { intros n. destruct (coarse_step argsort (slv n) [1] (pgd_init [1] tt no_log) 1 eq_refl eq_refl eq_refl eq_refl) as (st1 & A1 & A2 & A3 & A4 & A5).
    replace ((1 + 4) / 2) with (5 / 2) in A2 by lra.
    destruct (coarse_step argsort (slv n) [1] st1 (5 / 2) A2 A5 eq_refl eq_refl) as (st2 & B1 & B2 & B3 & B4 & B5).
    replace ((5 / 2 + 4) / 2) with (13 / 4) in B2 by lra. cbn [pgd_init st_iteration] in A4.
    exists st1, st2. rewrite A2, A3, B2, B3, B4, A4.
    pose proof (coarse_moved n (5 / 2) 1) as C1. pose proof (coarse_moved n (13 / 4) (5 / 2)) as C2. rewrite T1 in C1. rewrite T2 in C2.
    auto 12. }
  split; [|split; [|split]].
  - destruct (G 1%Z) as (st1 & st2 & S1 & S2 & X1 & X2 & I1 & I2 & L1 & L2 & M1 & M2).
    destruct (coarse_fit argsort inv 1 1 false None st1 coarse_start) as [lg [F Rn]]; [|exact L1|].
    + fold (slv 1%Z). change (Z.to_nat 1) with 1%nat. rewrite (loop_again _ _ _ _ _ _ st1 (M0 1%Z 1) eq_refl S1).
      apply (loop_full _ _ _ _ _ _ true M1). rewrite I1. reflexivity.
    + exists lg. rewrite X1 in F. rewrite I1 in Rn. auto.
  - destruct (G 2%Z) as (st1 & st2 & S1 & S2 & X1 & X2 & I1 & I2 & L1 & L2 & M1 & M2).
    destruct (coarse_fit argsort inv 2 1 false None st2 coarse_start) as [lg [F Rn]]; [|exact L2|].
    + fold (slv 2%Z). change (Z.to_nat 2) with 2%nat. rewrite (loop_again _ _ _ _ _ _ st1 (M0 2%Z 1) eq_refl S1).
      rewrite (loop_again _ _ _ _ _ _ st2 M1); [|rewrite I1; reflexivity|exact S2]. apply loop_ends. exact M2.
    + exists lg. rewrite X2 in F. rewrite I2 in Rn. auto.
  - destruct (G 5%Z) as (st1 & st2 & S1 & S2 & X1 & X2 & I1 & I2 & L1 & L2 & M1 & M2).
    destruct (coarse_fit argsort inv 5 1 false None st2 coarse_start) as [lg [F Rn]]; [|exact L2|].
    + fold (slv 5%Z). change (Z.to_nat 5) with 5%nat. rewrite (loop_again _ _ _ _ _ _ st1 (M0 5%Z 1) eq_refl S1).
      rewrite (loop_again _ _ _ _ _ _ st2 M1); [|rewrite I1; reflexivity|exact S2]. apply loop_ends. exact M2.
    + exists lg. rewrite X2 in F. rewrite I2 in Rn. auto.
  - destruct (coarse_step argsort (slv 3%Z) [13 / 4] (pgd_init [13 / 4] tt no_log) (13 / 4) eq_refl eq_refl eq_refl eq_refl) as (st1 & A1 & A2 & A3 & A4 & A5).
    replace ((13 / 4 + 4) / 2) with (29 / 8) in A2 by lra. cbn [pgd_init st_iteration] in A4.
    destruct (coarse_fit argsort inv 3 (13 / 4) true (Some [13 / 4]) st1 eq_refl) as [lg [F Rn]]; [|exact A5|].
    + fold (slv 3%Z). change (Z.to_nat 3) with 3%nat. rewrite (loop_again _ _ _ _ _ _ st1 (M0 3%Z (13 / 4)) eq_refl A1).
      apply loop_ends. rewrite A2, A3. pose proof (coarse_moved 3 (29 / 8) (13 / 4)) as C3. rewrite T3 in C3. exact C3.
    + exists lg. rewrite A2 in F. rewrite A4 in Rn. auto.
Qed.

(*@ C112 (refuted).  "Not converged" does not mean interrupted.  A fit with the limit 2 meets the tolerance in its second
    iteration and reports that it has not converged; with the limit 5 = 2 + 3 the fit stops at the same point and
    reports convergence; the fit continued with 3 more iterations moves on, to 29/8 instead of 13/4. *)
Lemma linear_fit_continues_refuted_lemma : forall argsort inv, exists lg lg1 lg2,
  linear_fit_problem argsort inv (coarse_model 2) (sample_problem 4) None false None = Ok ([13 / 4], lg1) /\ ran lg1 2 false /\
  linear_fit_problem argsort inv (coarse_model 5) (sample_problem 4) None false None = Ok ([13 / 4], lg) /\ ran lg 2 true /\
  linear_fit_problem argsort inv (coarse_model 3) (sample_problem 4) (Some [13 / 4]) true None = Ok ([29 / 8], lg2) /\ ran lg2 1 true.
Proof.
  intros argsort inv. destruct (coarse_fits argsort inv) as (_ & [lg1 [A1 A2]] & [lg [B1 B2]] & [lg2 [C1 C2]]).
  exists lg, lg1, lg2. auto 8.
Qed.

(*@ The same model interrupted after one of its two iterations. *)
Lemma ex_linear_fit_continues_partial_lemma : forall argsort inv, exists lg lg1,
  linear_fit_problem argsort inv (linear_until (coarse_model 0) (Z.of_nat (1 + 4))) (sample_problem 4) None false None = Ok ([13 / 4], lg) /\
  ran lg 2 true /\ (1 < 2)%nat /\
  linear_fit_problem argsort inv (linear_until (coarse_model 0) (Z.of_nat 1)) (sample_problem 4) None false None = Ok ([5 / 2], lg1).
Proof.
  intros argsort inv. destruct (coarse_fits argsort inv) as ([lg1 [A1 _]] & _ & [lg [B1 B2]] & _).
  exists lg, lg1. auto 8.
Qed.

(** ** a mixed model *)
Lemma flat_soft argsort bm a : 1 / 2 <= a ->
  prox argsort (RPos (Some (gamma_mask {| ov_p := 1; ov_q := 1; ov_map := bm |})) (Some (RElastic 0 (Some (RL1 1 (Some [1; 1])))))) [a; a] (1 / 2)
  = Ok [a - 1 / 2; a - 1 / 2].
Proof.
  intros Ha. cbn [prox gamma_mask ov_p ov_q repeat app length Nat.eqb guard rbind mask_map map2].
  unfold clip0, nonzero. rewrite (Rmax_left a 0) by lra.
  assert (N : reqb (1 + 1 / 2 * 0) 0 = false) by (apply reqb_false; lra).
  rewrite N. cbn [negb guard rbind map]. unfold l1_prox. cbn [length Nat.eqb guard rbind map2].
  assert (X : soft (1 / 2 / (1 + 1 / 2 * 0) * 1 * 1) (a / (1 + 1 / 2 * 0)) = a - 1 / 2).
  { replace (1 / 2 / (1 + 1 / 2 * 0) * 1 * 1) with (/ 2) by field. replace (a / (1 + 1 / 2 * 0)) with a by field.
    unfold soft, clip0. rewrite Rmax_left, Rmax_right by lra. lra. }
  rewrite X. reflexivity.
Qed.

Lemma flat_fits argsort cdf n a : (n = 1 \/ n = 2)%nat -> 2 <= a ->
  let m := flat_model (PenL1 1) None (Z.of_nat n) 0 in
  exists co lg, lme_fit_problem argsort cdf m None (flat_problem 1 1) (Some [a]) (Some [a]) false None None = Ok (co, lg) /\
    ran lg n false /\ co_beta co = [a - INR n / 2] /\ co_gamma co = [a - INR n / 2].
Proof.
  intros Hn Ha m.
  assert (St : step_length m = Ok (1 / 2)).
  { unfold step_length. change (given_step m) with (@None R). change (mo_sr3 m) with (@None sr3_settings).
    change (mo_penalty m) with (PenL1 1). unfold nonzero. assert (N : reqb (1 + 1) 0 = false) by (apply reqb_false; lra).
    rewrite N. cbn [negb guard rbind]. do 2 f_equal. }
  destruct flat_view as [bm Hov].
  set (c := problem_calls cdf (flat_problem 1 1) None None).
  set (r := RPos (Some (gamma_mask {| ov_p := 1; ov_q := 1; ov_map := bm |})) (Some (RElastic 0 (Some (RL1 1 (Some [1; 1])))))).
  set (slv := {| s_tol := 0; s_max_iter := Z.of_nat n; s_stepping := "fixed"; s_step_len := 1 / 2 |}).
  set (rg := as_regularizer argsort r). set (orc := lme_as_oracle 1 1 c).
  assert (Gr : forall b, o_grad orc tt [b; b] = Ok (zeros 2, tt)).
  { intros b. cbn [orc lme_as_oracle o_grad]. unfold joint_gradient. cbn [x_to_beta_gamma firstn skipn].
    assert (Gb : lc_gradient_beta c [b] [b] = Ok (zeros 1)) by (apply (@flat_calls_gradient_beta 1 1 cdf None [b] [b]); reflexivity).
    assert (Gg : lc_gradient_gamma c [b] [b] = Ok (zeros 1)) by (apply (@flat_calls_gradient_gamma 1 1 cdf None [b] [b]); reflexivity).
    rewrite Gb. cbn [rbind]. rewrite Gg. reflexivity. }
  assert (Stp : forall x0 (st : @pgd_state unit) b, st_x st = [b; b] -> st_logger st = no_log -> 1 / 2 <= b ->
    exists st', pgd_step orc rg slv x0 st = Ok st' /\ st_x st' = [b - 1 / 2; b - 1 / 2] /\ st_x_prev st' = Some [b; b] /\
      st_iteration st' = Datatypes.S (st_iteration st) /\ st_logger st' = no_log).
  { intros x0 st b Hx Hl Hb. destruct (quiet_step orc rg slv x0 st (zeros 2) tt [b - 1 / 2; b - 1 / 2]) as (st' & A & B & C & D & E & _).
    - rewrite Hl. reflexivity.
    - reflexivity.
    - rewrite Hx. destruct (st_oracle st). apply Gr.
    - rewrite Hx. reflexivity.
    - rewrite Hx. cbn [rg as_regularizer r_prox slv s_step_len]. replace (vadd _ _) with [b; b]; [apply flat_soft; exact Hb|].
      cbv [zeros repeat vneg map vscale vadd map2]. f_equal; [ring|f_equal; ring].
    - exists st'. rewrite C, Hx, E, Hl. auto. }
  assert (Mv : forall b, moved (s_tol slv) [b - 1 / 2; b - 1 / 2] (Some [b; b]) = Ok true).
  { intros b. cbn [moved length Nat.eqb guard rbind slv s_tol vsub map2]. f_equal. apply rltb_true.
    unfold norm, sqnorm, vdot, vmul. cbn. apply sqrt_lt_R0. nra. }
  set (st0 := pgd_init ([a] ++ [a]) tt no_log).
  destruct (Stp ([a] ++ [a]) st0 a eq_refl eq_refl ltac:(lra)) as (st1 & A1 & A2 & A3 & A4 & A5).
  destruct (Stp ([a] ++ [a]) st1 (a - 1 / 2) A2 A5 ltac:(lra)) as (st2 & B1 & B2 & B3 & B4 & B5).
  assert (L : exists st, pgd_loop orc rg slv n ([a] ++ [a]) st0 = Ok st /\ st_x st = [a - INR n / 2; a - INR n / 2] /\
    st_iteration st = n /\ st_logger st = no_log).
  { destruct Hn as [-> | ->].
    - exists st1. rewrite (loop_again orc rg slv _ _ st0 st1 eq_refl eq_refl A1). split; [|split; [|split]].
      + apply (loop_full _ _ _ _ _ _ true); [rewrite A2, A3; apply Mv|rewrite A4; reflexivity].
      + rewrite A2. cbn [INR]. reflexivity.
      + exact A4.
      + exact A5.
    - exists st2. rewrite (loop_again orc rg slv _ _ st0 st1 eq_refl eq_refl A1).
      rewrite (loop_again _ _ _ _ _ _ st2); [|rewrite A2, A3; apply Mv|rewrite A4; reflexivity|exact B1]. split; [|split; [|split]].
      + apply (loop_full _ _ _ _ _ _ true); [rewrite B2, B3; apply Mv|rewrite B4, A4; reflexivity].
      + rewrite B2. cbn [INR]. f_equal; [lra|f_equal; lra].
      + rewrite B4, A4. reflexivity.
      + exact B5. }
  destruct L as [st [L1 [L2 [L3 L4]]]].
  assert (E : lc_random_effects c [a - INR n / 2] [a - INR n / 2] = Ok [zeros 1])
    by (apply (@flat_calls_effects 1 1 cdf None [a - INR n / 2] [a - INR n / 2]); reflexivity).
  eexists. eexists. split; [unfold lme_fit_problem; eapply fit_problem_run with (g := None) (beta1 := [a]) (gamma1 := [a]) (us := [zeros 1])
     (x := [a - INR n / 2; a - INR n / 2]);
     [exact St|exact Hov|reflexivity|reflexivity|reflexivity|reflexivity|reflexivity|reflexivity| | | |]|].
  - unfold run_solver. rewrite St. cbn [m flat_model mo_sr3 mo_penalty rbind mo_tol mo_max_iter mo_stepping].
    change (num_fixed (flat_problem 1 1)) with 1%nat. change (num_random (flat_problem 1 1)) with 1%nat.
    fold c. fold r. fold slv. fold rg. fold orc. unfold pgd_optimize. rewrite log_state_quiet by reflexivity. cbn [rbind].
    change (s_max_iter slv) with (Z.of_nat n). rewrite Nat2Z.id.
    match goal with |- context [pgd_loop ?o ?g ?v ?f ?y ?s] => replace (pgd_loop o g v f y s) with (Ok st) by (symmetry; exact L1) end.
    cbn [rbind]. rewrite L4, L3, L2, Z.ltb_irrefl.
    unfold add, no_log. cbn [lg_keys lg_dict lg_kind has_key existsb dict_set rbind app String.eqb Ascii.eqb Bool.eqb]. reflexivity.
  - exact E.
  - reflexivity.
  - reflexivity.
  - split; [split; reflexivity|]. split; reflexivity.
Qed.

(*@ A mixed model interrupted after the first of two iterations. *)
Lemma ex_lme_fit_continues_partial_lemma : forall argsort cdf,
  let m := flat_model (PenL1 1) None 0 0 in
  memoryless m /\ exists co lg co1 lg1,
  lme_fit_problem argsort cdf (lme_until m (Z.of_nat (1 + 1))) None (flat_problem 1 1) (Some [2]) (Some [2]) false None None = Ok (co, lg) /\
  ran lg 2 false /\ (1 < 2)%nat /\ co_beta co = [1] /\
  lme_fit_problem argsort cdf (lme_until m (Z.of_nat 1)) None (flat_problem 1 1) (Some [2]) (Some [2]) false None None = Ok (co1, lg1) /\
  co_beta co1 = [3 / 2].
Proof.
  intros argsort cdf m. split; [intros ss E; discriminate|].
  destruct (flat_fits argsort cdf 2 2 (or_intror eq_refl) ltac:(lra)) as (co & lg & A & B & C & _).
  destruct (flat_fits argsort cdf 1 2 (or_introl eq_refl) ltac:(lra)) as (co1 & lg1 & A1 & B1 & C1 & _).
  exists co, lg, co1, lg1. split; [exact A|]. split; [exact B|]. split; [lia|]. split; [rewrite C; cbn [INR]; f_equal; lra|].
  split; [exact A1|]. rewrite C1. cbn [INR]. f_equal. lra.
Qed.
