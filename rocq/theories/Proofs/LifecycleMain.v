(** Final lemmas about lifetimes, restated as theorems in Properties/Lifecycle.v. *)
(*HEAD
(** Property C65: what regularizers and oracles keep after forget (src/pysr3/regularizers.py,
    src/pysr3/linear/oracles.py, src/pysr3/lme/oracles.py). *)
From Verif.Base Require Import Py Vec Mat.
From Verif.Model Require Import Regularizers Linear LmeInner Lifecycle.
From Verif.Spec Require Import InnerSpec LifeSpec.
HEAD*)
(*OPEN
Open Scope list_scope.
Open Scope R_scope.
OPEN*)
From Coq Require Import Lra Psatz.
From Verif.Base Require Import Py Vec Mat.
From Verif.Model Require Import Regularizers Linear LmeInner Lifecycle.
From Verif.Spec Require Import InnerSpec LifeSpec.
From Verif.Proofs Require Import VecFacts SolverProofs InnerProofs InnerLoops InnerIP LmeInnerMain.
Open Scope list_scope.
Open Scope R_scope.

(** the same constructor arguments, and the same oracle *)
Fixpoint alike (r r' : reg) : Prop :=
  match r, r' with
  | RL0 n _ _, RL0 n' _ _ => n = n'
  | RL0LME s, RL0LME s' => lz_nnz_tbeta s = lz_nnz_tbeta s' /\ lz_nnz_tgamma s = lz_nnz_tgamma s' /\
      lz_independent s = lz_independent s' /\ lz_oracle s = lz_oracle s'
  | RL1 l _, RL1 l' _ => l = l'
  | RCAD a l _, RCAD a' l' _ => a = a' /\ l = l'
  | RSCAD a b l _, RSCAD a' b' l' _ => a = a' /\ b = b' /\ l = l'
  | RDummy, RDummy => True
  | RPos _ o, RPos _ o' => match o, o' with Some a, Some a' => alike a a' | None, None => True | _, _ => False end
  | RElastic e o, RElastic e' o' =>
      e = e' /\ match o, o' with Some a, Some a' => alike a a' | None, None => True | _, _ => False end
  | _, _ => False
  end.

(** induction over the wrappers *)
Lemma reg_nested_ind (P : reg -> Prop) :
  (forall n w p, P (RL0 n w p)) -> (forall s, P (RL0LME s)) -> (forall l w, P (RL1 l w)) ->
  (forall a l w, P (RCAD a l w)) -> (forall a b l w, P (RSCAD a b l w)) -> P RDummy ->
  (forall c o, match o with Some r => P r | None => True end -> P (RPos c o)) ->
  (forall e o, match o with Some r => P r | None => True end -> P (RElastic e o)) -> forall r, P r.
Proof.
  intros H0 H1 H2 H3 H4 H5 H6 H7. fix IH 1. intros [n w p|s|l w|a l w|a b l w| |c o|e o]; [auto|auto|auto|auto|auto|auto| |].
  - apply H6. destruct o as [r|]; [apply IH|exact I].
  - apply H7. destruct o as [r|]; [apply IH|exact I].
Qed.

Lemma alike_refl r : alike r r.
Proof. induction r using reg_nested_ind; cbn; auto; destruct o; auto. Qed.
Lemma alike_instantiate : forall r r' w o, alike r r' -> instantiate r w o = instantiate r' w o.
Proof.
  induction r as [n w0 p|s|l w0|a l w0|a b l w0| |c o IH|e o IH] using reg_nested_ind; intros r' w ov A;
    destruct r' as [n' w1 p'|s'|l' w1|a' l' w1|a' b' l' w1| |c' o'|e' o']; try contradiction; cbn in A |- *.
  - subst; reflexivity.
  - destruct A as (A1 & A2 & A3 & A4). unfold l0lme_instantiate. rewrite A1, A2, A3, A4. reflexivity.
  - subst; reflexivity.
  - destruct A; subst; reflexivity.
  - destruct A as (? & ? & ?); subst; reflexivity.
  - reflexivity.
  - destruct ov; [|reflexivity]. destruct o, o'; try contradiction; [|reflexivity].
    rewrite (IH _ w None A). reflexivity.
  - destruct A as [<- A]. destruct o, o'; try contradiction; [|reflexivity].
    rewrite (IH _ w ov A). reflexivity.
Qed.

Lemma attempt_alike : forall r r' w o, budgets_given r' -> alike r r' -> alike (attempt r w o) r'.
Proof.
  induction r as [n w0 p|s|l w0|a l w0|a b l w0| |c o IH|e o IH] using reg_nested_ind; intros r' w ov B A;
    destruct r' as [n' w1 p'|s'|l' w1|a' l' w1|a' b' l' w1| |c' o'|e' o']; try contradiction; cbn in A, B |- *; auto.
  - destruct A as (A1 & A2 & A3 & A4). unfold l0lme_instantiate. destruct (lz_oracle s) as [v|] eqn:E; cbn; [|rewrite E; auto].
    destruct B as [B1 B2]. rewrite A1, A2, ?E, A3.
    destruct (lz_nnz_tbeta s'), (lz_nnz_tgamma s'); try congruence. auto.
  - destruct ov; [|exact A]. destruct o, o'; try contradiction; cbn; auto.
  - destruct A as [<- A]. destruct o, o'; try contradiction; cbn; auto.
Qed.
Lemma forget_alike r r' : alike r r' -> alike (forget r) r'.
Proof. destruct r, r'; cbn; auto. Qed.
Lemma moves_alike : forall r r' v, alike r r' -> alike (oracle_moves v r) (oracle_moves v r').
Proof.
  induction r as [n w0 p|s|l w0|a l w0|a b l w0| |c o IH|e o IH] using reg_nested_ind; intros r' v A;
    destruct r' as [n' w1 p'|s'|l' w1|a' l' w1|a' b' l' w1| |c' o'|e' o']; try contradiction; cbn in A |- *; auto.
  - destruct A as (A1 & A2 & A3 & A4). rewrite A4. auto.
  - destruct o, o'; try contradiction; cbn; auto.
  - destruct A as [<- A]. destruct o, o'; try contradiction; cbn; auto.
Qed.
Lemma moves_budgets : forall r v, budgets_given r -> budgets_given (oracle_moves v r).
Proof.
  induction r as [n w0 p|s|l w0|a l w0|a b l w0| |c o IH|e o IH] using reg_nested_ind; intros v B; cbn in *; auto;
    destruct o; cbn in *; auto.
Qed.
Lemma lifetime_alike : forall es r r', budgets_given r' -> alike r r' -> alike (lifetime r es) (lifetime r' (moves es)).
Proof.
  induction es as [|e es IH]; intros r r' B A; cbn; [exact A|]. destruct e as [w o| |o]; cbn.
  - apply IH; auto using attempt_alike.
  - apply IH; auto using forget_alike.
  - apply IH; auto using moves_budgets, moves_alike.
Qed.

(*@ C65 (partial).  Whatever happened to it, instantiate makes of a regularizer what it makes of a new one, if its
    numbers of non-zeros, when it has any, were given to the constructor. *)
Lemma regularizer_reinstantiated_partial_lemma : forall r es w o,
  just_built r -> budgets_given r ->
  instantiate (lifetime r es) w o = instantiate (lifetime r (moves es)) w o.
Proof. intros r es w o _ B. apply alike_instantiate, lifetime_alike; auto using alike_refl. Qed.

Lemma built_moves : forall es r, just_built r -> just_built (lifetime r (moves es)).
Proof.
  assert (H : forall r v, just_built r -> just_built (oracle_moves v r)).
  { induction r as [n w0 p|s|l w0|a l w0|a b l w0| |c o IH|e o IH] using reg_nested_ind; intros v B; cbn in *; auto;
      [destruct B as [? B]; split; auto|]; destruct o; cbn in *; auto. }
  induction es as [|[w o| |o] es IH]; intros r B; [exact B|exact (IH r B)|exact (IH r B)|exact (IH _ (H r o B))].
Qed.
Lemma alike_wrapper r r' : alike r r' -> not_wrapper r' -> not_wrapper r.
Proof. destruct r, r'; cbn; tauto. Qed.
Lemma moves_wrapper : forall es r, not_wrapper r -> not_wrapper (lifetime r (moves es)).
Proof.
  assert (H : forall r v, not_wrapper r -> not_wrapper (oracle_moves v r)) by (destruct r; cbn; auto).
  induction es as [|[w o| |o] es IH]; intros r B; [exact B|exact (IH r B)|exact (IH r B)|exact (IH _ (H r o B))].
Qed.

(*@ C65 (partial).  After forget such a regularizer, unless it wraps another one, computes what a new one computes. *)
Lemma regularizer_forgets_partial_lemma : forall argsort r es x alpha,
  just_built r -> budgets_given r -> not_wrapper r ->
  prox argsort (forget (lifetime r es)) x alpha = prox argsort (lifetime r (moves es)) x alpha /\
  value (forget (lifetime r es)) x = value (lifetime r (moves es)) x.
Proof.
  intros argsort r es x alpha J B W.
  pose proof (lifetime_alike es r r B (alike_refl r)) as A.
  pose proof (built_moves es r J) as J'. pose proof (moves_wrapper es r W) as W'.
  remember (lifetime r es) as a eqn:Ea. remember (lifetime r (moves es)) as b eqn:Eb. clear Ea Eb J B W.
  destruct a as [n w0 p|s|l w0|c l w0|c d l w0| |c o|e o], b as [n' w1 p'|s'|l' w1|c' l' w1|c' d' l' w1| |c' o'|e' o'];
    try contradiction; cbn in A, J'; try (now repeat match goal with H : _ /\ _ |- _ => destruct H end; subst; split; reflexivity).
  destruct s, s'; cbn in *. repeat match goal with H : _ /\ _ |- _ => destruct H end; subst. split; reflexivity.
Qed.
(*@ *)
Lemma ex_regularizer_forgets_lemma :
  let r := mk_l0lme (Some 1%Z) (Some 1%Z) true (Some (view 1 1)) in
  just_built r /\ budgets_given r /\ not_wrapper r /\
  lifetime r [Instantiates [1; 1] None; Forgets; OracleMoves (view 2 1)] =
    mk_l0lme (Some 1%Z) (Some 1%Z) true (Some (view 2 1)).
Proof. cbn. repeat split; discriminate. Qed.

(*@ C65 (refuted).  A regularizer of variances keeps its coordinates after forget, and no wrapper passes forget on;
    numbers of non-zeros left open by the constructor stay those of the first problem. *)
Lemma regularizer_forgets_refuted_lemma :
  (forall argsort,
   prox argsort (forget (lifetime (mk_pos None) [Instantiates [1; 1] (Some (view 1 1))])) [-1; -1] 1 = Ok [-1; 0] /\
   prox argsort (mk_pos None) [-1; -1] 1 = Ok [0; 0] /\
   prox argsort (forget (lifetime (mk_pos None) [Instantiates [1; 1] (Some (view 1 1))])) [-1; -1; -1] 1 = Err IndexError) /\
  (forall argsort,
   prox argsort (forget (lifetime (mk_elastic 0 (Some (mk_l1 1))) [Instantiates [0] None])) [3] 1 = Ok [3] /\
   prox argsort (mk_elastic 0 (Some (mk_l1 1))) [3] 1 = Ok [2]) /\
  (let r := mk_l0lme None None true (Some (view 1 1)) in
   exists old new,
     instantiate (lifetime r [Instantiates [1; 1] None; Forgets; OracleMoves (view 2 1)]) [1; 1; 1] None = Ok old /\
     instantiate (lifetime r [OracleMoves (view 2 1)]) [1; 1; 1] None = Ok new /\
     value old [3; 4; 5] = Ok PInf /\ value new [3; 4; 5] = Ok (Fin 0)).
Proof.
  assert (c1 : clip0 (-1) = 0) by (unfold clip0, Rmax; destruct (Rle_dec _ _); lra).
  split; [|split].
  - intros argsort. cbn. rewrite c1. auto.
  - intros argsort. cbn [lifetime fold_left lives attempt option_map mk_elastic mk_l1 forget instantiate prox].
    assert (N : nonzero (1 + 1 * 0) = true) by (apply nonzero_true; lra). rewrite N. cbn [rbind guard map].
    replace (3 / (1 + 1 * 0)) with 3 by field. replace (1 / (1 + 1 * 0)) with 1 by field.
    unfold l1_prox. cbn [length Nat.eqb guard rbind map2 map]. unfold soft, clip0.
    split; do 2 f_equal; unfold Rmax; repeat destruct (Rle_dec _ _); lra.
  - cbn zeta. eexists. eexists. split; [reflexivity|]. split; [reflexivity|].
    assert (N : nnz_count [3; 4; 5] = 3%nat).
    { unfold nnz_count. cbn. rewrite !(proj2 (nonzero_true _)) by lra. reflexivity. }
    unfold value. rewrite N. split; reflexivity.
Qed.

(*@ C65.  The oracles of linear models forget: nothing can be evaluated, they are again as the constructor made
    them, and instantiate makes of any oracle what it makes of a new one. *)
Lemma linear_oracles_forget_lemma :
  (forall o x pr, lin_loss (lin_forget o) x = Err AttributeError /\ lin_gradient (lin_forget o) x = Err AttributeError /\
     lin_instantiate (lin_forget o) pr = lin_instantiate {| lo_problem := None; lo_prior := lo_prior o |} pr) /\
  (forall inv o x w pr rg tol n x0, sr3_loss (sr3_forget o) x w = Err AttributeError /\
     (forall v, sr3_value (sr3_forget o) x <> Ok v) /\ (forall v, sr3_find (sr3_forget o) rg tol n x0 <> Ok v) /\
     mk_sr3 (so_lam o) (so_practical o) false = Ok (sr3_forget o) /\
     forall o', mk_sr3 (so_lam o) (so_practical o) false = Ok o' ->
       sr3_instantiate inv o pr = sr3_instantiate inv o' pr).
Proof.
  split.
  - intros o x pr. repeat split. unfold lin_instantiate, lin_forget. cbn. destruct (lo_prior o); reflexivity.
  - intros. split; [reflexivity|]. split.
    + intros v. unfold sr3_value, sr3_fg, sr3_forget. cbn. destruct (so_practical o); discriminate.
    + split.
      * intros v. unfold sr3_find, sr3_find_count, sr3_forget. cbn. unfold guard. destruct (nonzero _); discriminate.
      * split; [reflexivity|]. intros o' Ho'. injection Ho' as <-. reflexivity.
Qed.

(** the relaxation parameters stay when they are not increased *)
Lemma find_ip_keeps calls opts p q solve ms warm mem b g tb tg b' g' tb' tg' mem' :
  find_ip calls opts p q solve ms warm mem b g tb tg = Ok (b', g', tb', tg', mem') ->
  (io_increase opts = false -> sm_lam mem' = sm_lam mem) /\ (warm = false -> sm_warm mem' = sm_warm mem).
Proof.
  intros H. destruct tg as [|t tg].
  - unfold find_ip in H. apply rbind_inv in H. destruct H as [u [_ H]]. inversion H; subst. auto.
  - assert (T : t :: tg <> []) by discriminate.
    destruct (find_ip_inv _ _ _ _ _ _ _ _ _ _ _ _ _ _ _ _ _ T H) as (k & s & _ & St & _ & _ & _ & _ & _ & _ & E5 & E6).
    split; [|intros ->; exact E6]. intros I. rewrite E5.
    destruct (ip_startE (length g) warm mem b g tb (t :: tg) eq_refl) as (_ & _ & _ & _ & _ & _ & _ & L & _).
    eapply (ip_steps_inv _ _ _ _ _ _ _ (fun s => is_lam s = sm_lam mem)); [|exact St|exact L].
    intros s1 s2 L1 Bd. unfold ip_body in Bd.
    apply rbind_inv in Bd. destruct Bd as [f [_ Bd]]. apply rbind_inv in Bd. destruct Bd as [df [_ Bd]].
    apply rbind_inv in Bd. destruct Bd as [d [_ Bd]]. apply rbind_inv in Bd. destruct Bd as [u [_ Bd]].
    apply rbind_inv in Bd. destruct Bd as [a [_ Bd]]. destruct (rltb _ _) in Bd.
    + inversion Bd. exact L1.
    + apply rbind_inv in Bd. destruct Bd as [[tb1 tg1] [_ Bd]]. rewrite I in Bd. cbn [rbind] in Bd. inversion Bd. exact L1.
Qed.

(*@ C65 (partial).  The relaxed mixed-model oracle forgets if it does not warm-start and does not increase its
    parameters. *)
Lemma relaxed_oracle_forgets_partial_lemma : forall opts solve ms warm lb lg es c p q o,
  relaxed_after opts solve ms warm (new_relaxed lb lg) (es ++ [RelaxedForget; RelaxedInstantiate c p q]) = Ok o ->
  ro_problem o = Some (c, p, q) /\
  (io_increase opts = false -> sm_lam (ro_memory o) = {| lam_b := lb; lam_g := lg |}) /\
  (warm = false -> sm_warm (ro_memory o) = None) /\
  (io_increase opts = false -> warm = false -> o = relaxed_instantiate (new_relaxed lb lg) c p q).
Proof.
  intros opts solve ms warm lb lg es c p q o.
  assert (G : forall es o1 o2,
    relaxed_after opts solve ms warm o1 (es ++ [RelaxedForget; RelaxedInstantiate c p q]) = Ok o2 ->
    ro_problem o2 = Some (c, p, q) /\ (io_increase opts = false -> sm_lam (ro_memory o2) = sm_lam (ro_memory o1)) /\
    (warm = false -> sm_warm (ro_memory o2) = sm_warm (ro_memory o1))).
  { clear. induction es as [|e es IH]; intros o1 o2 H.
    - cbn in H. inversion H; subst. cbn. auto.
    - cbn in H. apply rbind_inv in H. destruct H as [o3 [E H]]. destruct (IH _ _ H) as (G1 & G2 & G3).
      split; [exact G1|]. destruct e as [c' p' q'| |b g tb tg]; cbn in E.
      + inversion E; subst. cbn in *. auto.
      + inversion E; subst. cbn in *. auto.
      + unfold relaxed_find in E. destruct (ro_problem o1) as [[[c' p'] q']|]; [|discriminate].
        apply rbind_inv in E. destruct E as [[r1 o4] [E1 E2]].
        apply rbind_inv in E1. destruct E1 as [[[[[b2 g2] tb2] tg2] mem] [E1 E3]]. inversion E3; subst. inversion E2; subst.
        destruct (find_ip_keeps _ _ _ _ _ _ _ _ _ _ _ _ _ _ _ _ _ E1) as [K1 K2]. cbn in *.
        split; intros I; [rewrite G2, K1|rewrite G3, K2]; auto. }
  intros H. destruct (G _ _ _ H) as (G1 & G2 & G3). cbn in G2, G3. repeat split; auto.
  intros I W. specialize (G2 I). specialize (G3 W). destruct o as [pr [lam wm]]. cbn in *. subst. reflexivity.
Qed.

Lemma lax_find lam wm b g : match wm with Some (b1, g1) => b1 = [0] /\ g1 = [b] | None => g = b end -> 0 <= b <= 1 ->
  find_ip bowl lax 1 1 no_solver no_minimiser true {| sm_lam := lam; sm_warm := wm |} [0] [g] [0] [g] =
  Ok ([0], [b], [0], [g], {| sm_lam := lam; sm_warm := Some ([0], [b]) |}).
Proof.
  intros E B. unfold find_ip. cbn [length Nat.ltb Nat.leb guard rbind].
  assert (S0 : ip_start true {| sm_lam := lam; sm_warm := wm |} [0] [g] [0] [g] =
    {| is_x := [1; 0; b]; is_beta := [0]; is_gamma := [b]; is_tbeta := [0]; is_tgamma := [g];
       is_mu := / 10 * vdot [1] [b] / 1; is_prev := None; is_step := 1; is_iter := 0;
       is_conv := false; is_lam := lam |}).
  { unfold ip_start. cbn [sm_warm sm_lam]. destruct wm as [[b1 g1]|]; [destruct E as [-> ->]|rewrite E]; reflexivity. }
  rewrite S0.
  assert (C : forall s, is_x s = [1; 0; b] -> is_mu s = / 10 * vdot [1] [b] / 1 -> ip_continue bowl lax 1 s = Ok false).
  { intros s X M. unfold ip_continue. destruct (nonzero _ && _); [|reflexivity]. unfold ip_F. rewrite X, M.
    cbn -[rltb norm vdot Rdiv].
    match goal with |- context[norm ?v] => assert (N : norm v <= 10) end.
    { unfold norm, vdot, vsum. apply Rle_trans with (sqrt (10 * 10)); [|rewrite sqrt_square; lra]. apply sqrt_le_1_alt.
      cbn. nra. }
    assert (M' : / 10 * vdot [1] [b] / 1 <= 10) by (unfold vdot, vsum; cbn; lra).
    rewrite (proj2 (rltb_false _ _) N), (proj2 (rltb_false _ _) M'). reflexivity. }
  unfold ip_loop at 1. destruct (Z.to_nat _); rewrite C by reflexivity; reflexivity.
Qed.

(** the lax options stop before the first iteration *)
Lemma lax_run : forall mem beta gamma tbeta t g, length gamma = 1%nat -> start_beta true mem beta = [0] ->
  start_gamma true mem gamma = [g] -> g = 0 \/ g = 1 ->
  find_ip bowl lax 1 1 no_solver no_minimiser true mem beta gamma tbeta [t] =
    Ok ([0], [g], tbeta, [t], {| sm_lam := sm_lam mem; sm_warm := Some ([0], [g]) |}).
Proof.
  intros mem beta gamma tbeta t g L B G Hg.
  assert (S : ip_start true mem beta gamma tbeta [t] =
    {| is_x := [1; 0; g]; is_beta := [0]; is_gamma := [g]; is_tbeta := tbeta; is_tgamma := [t];
       is_mu := / 10 * vdot [1] [g] / INR 1; is_prev := None; is_step := 1; is_iter := 0;
       is_conv := false; is_lam := sm_lam mem |}).
  { unfold ip_start, start_beta, start_gamma in *. rewrite L.
    destruct (sm_warm mem) as [[b0 g0]|]; subst; reflexivity. }
  unfold find_ip. rewrite L, S. cbn [Nat.ltb Nat.leb guard rbind].
  set (s := {| is_x := [1; 0; g] |}) in *.
  assert (C : ip_continue bowl lax 1 s = Ok false).
  { unfold ip_continue, ip_F. cbn [s is_step is_iter is_x is_lam is_tbeta is_tgamma is_mu is_prev].
    replace (nonzero 1) with true by (symmetry; apply nonzero_true; lra).
    change (Z.of_nat 0 <? io_n_iter lax)%Z with true. cbn [andb].
    change (io_tol lax) with 10.
    cbn [rbind ip_v ip_b ip_g firstn skipn length Nat.sub bowl sc_gradient_beta sc_gradient_gamma map vmul map2 app vsub].
    replace (vdot [1] [g]) with g by (unfold vdot; cbn; ring).
    match goal with |- context [norm ?f] => assert (N : norm f <= 10) end.
    { unfold norm. apply Rle_trans with (sqrt (10 * 10)); [apply sqrt_le_1_alt; unfold sqnorm|rewrite sqrt_square; lra].
      unfold vdot. cbn. destruct Hg; subst g; lra. }
    rewrite (proj2 (rltb_false _ _) N). cbn [orb].
    replace (rltb 10 (/ 10 * g / INR 1)) with false; [reflexivity|].
    symmetry. apply rltb_false. cbn. destruct Hg; subst g; lra. }
  assert (Lp : forall k, ip_loop bowl lax 1 1 no_solver no_minimiser 1 k s = Ok s).
  { intros k. destruct k; cbn [ip_loop]; rewrite C; reflexivity. }
  rewrite Lp. reflexivity.
Qed.

(*@ C65 (refuted).  The relaxed mixed-model oracle does not forget where it stopped: after one call with zero
    variances on one problem, forget and instantiate on any other, it returns zero variances, where a new oracle
    returns positive ones. *)
Lemma relaxed_oracle_forgets_refuted_lemma :
  (forall opts solve ms lb lg c1 p1 q1 b0 n tb0 tg0 c2 p2 q2 o beta gamma tbeta tgamma b' g' tb' tg' o',
     solve_ok solve -> (io_line_search opts = true -> minimiser_inside ms) -> tg0 <> [] -> tgamma <> [] ->
     relaxed_after opts solve ms true (new_relaxed lb lg)
       [RelaxedInstantiate c1 p1 q1; RelaxedFind b0 (zeros n) tb0 tg0; RelaxedForget; RelaxedInstantiate c2 p2 q2] = Ok o ->
     length gamma = n -> positive gamma ->
     (relaxed_find opts solve ms true o beta gamma tbeta tgamma = Ok ((b', g', tb', tg'), o') -> g' = zeros n) /\
     (relaxed_find opts solve ms true (relaxed_instantiate (new_relaxed lb lg) c2 p2 q2) beta gamma tbeta tgamma =
        Ok ((b', g', tb', tg'), o') -> positive g')) /\
  (exists o o1 o2 r1 r2,
     relaxed_after lax no_solver no_minimiser true (new_relaxed 1 1)
       [RelaxedInstantiate bowl 1 1; RelaxedFind [0] [0] [0] [0]; RelaxedForget; RelaxedInstantiate bowl 1 1] = Ok o /\
     relaxed_find lax no_solver no_minimiser true o [0] [1] [0] [1] = Ok (r1, o1) /\
     relaxed_find lax no_solver no_minimiser true (relaxed_instantiate (new_relaxed 1 1) bowl 1 1) [0] [1] [0] [1] = Ok (r2, o2)).
Proof.
  split.
  - intros opts solve ms lb lg c1 p1 q1 b0 n tb0 tg0 c2 p2 q2 o beta gamma tbeta tgamma b' g' tb' tg' o' So Hms T0 T H L P.
    assert (Pf : forall oo r oo', relaxed_find opts solve ms true oo beta gamma tbeta tgamma = Ok (r, oo') ->
      forall cc pp qq, ro_problem oo = Some (cc, pp, qq) ->
      find_ip cc opts pp qq solve ms true (ro_memory oo) beta gamma tbeta tgamma = Ok (r, ro_memory oo')).
    { intros oo r oo' F cc pp qq E. unfold relaxed_find in F. rewrite E in F.
      apply rbind_inv in F. destruct F as [[[[[b2 g2] tb2] tg2] mem] [E1 E3]]. inversion E3; subst. exact E1. }
    cbn in H. unfold relaxed_find in H. cbn in H.
    apply rbind_inv in H. destruct H as [o3 [E H]].
    apply rbind_inv in E. destruct E as [[r0 o4] [E1 E2]]. inversion E2; subst o4; clear E2.
    apply rbind_inv in E1. destruct E1 as [[[[[b2 g2] tb2] tg2] mem] [E1 E3]]. inversion E3; subst r0 o3; clear E3.
    inversion H; subst o; clear H.
    assert (Z : g2 = zeros n).
    { destruct zero_variances_trapped_refuted_lemma as [Tr _].
      rewrite <- (zeros_length n) at 1. eapply Tr; [exact So|exact Hms| |exact T0|exact E1].
      cbn. rewrite zeros_length. reflexivity. }
    assert (W : sm_warm mem = Some (b2, g2)).
    { destruct (find_ip_inv _ _ _ _ _ _ _ _ _ _ _ _ _ _ _ _ _ T0 E1) as (k & s & _ & _ & _ & _ & _ & _ & _ & _ & _ & E6). exact E6. }
    split; intros F.
    + pose proof (Pf _ _ _ F _ _ _ eq_refl) as Fi.
      destruct zero_variances_trapped_refuted_lemma as [Tr _].
      rewrite <- L. eapply Tr; [exact So|exact Hms| |exact T|exact Fi].
      cbn. rewrite W, Z, L. reflexivity.
    + pose proof (Pf _ _ _ F _ _ _ eq_refl) as Fi. cbn in Fi.
      destruct (find_ip_inv _ _ _ _ _ _ _ _ _ _ _ _ _ _ _ _ _ T Fi) as (k & s & _ & St & _ & Nn & _ & E2 & _).
      assert (Pg : packed_with positive (length gamma) s).
      { eapply interior_point_positive_partial_lemma; [exact Nn| | |exact Hms|exact St]; [reflexivity|exact P]. }
      destruct Pg as (v & _ & _ & _ & _ & Pg). subst g'. exact Pg.
  - set (mem g := {| sm_lam := {| lam_b := 1; lam_g := 1 |}; sm_warm := Some ([0], [g]) |}).
    exists {| ro_problem := Some (bowl, 1%nat, 1%nat); ro_memory := mem 0 |}.
    exists {| ro_problem := Some (bowl, 1%nat, 1%nat); ro_memory := mem 0 |}.
    exists {| ro_problem := Some (bowl, 1%nat, 1%nat); ro_memory := mem 1 |}.
    exists ([0], [0], [0], [1]), ([0], [1], [0], [1]).
    split; [|split].
    + cbn [relaxed_after relaxed_step rbind].
      unfold relaxed_find, relaxed_instantiate, new_relaxed. cbn [ro_problem ro_memory].
      rewrite (lax_run _ [0] [0] [0] 0 0) by (auto; reflexivity). reflexivity.
    + unfold relaxed_find. cbn [ro_problem ro_memory].
      rewrite (lax_run _ [0] [1] [0] 1 0) by (auto; reflexivity). reflexivity.
    + unfold relaxed_find, relaxed_instantiate, new_relaxed. cbn [ro_problem ro_memory].
      rewrite (lax_run _ [0] [1] [0] 1 1) by (auto; reflexivity). reflexivity.
Qed.
