(** Fits of a plain mixed model whose oracle respects an order of the features. *)
From Coq Require Import Lra Permutation.
From Verif.Base Require Import Py Vec Mat.
From Verif.Model Require Import LmeProblem Regularizers Solvers Linear LmeInner LmeTrace LmeFit.
From Verif.Spec Require Import ColumnSpec InnerSpec FeatureTableSpec.
From Verif.Proofs Require Import VecFacts SolverProofs LinearProofs ColumnProofs ColumnFit ColumnCases FeatureTable.
Open Scope R_scope.

Section Order.
Variables (p q : nat) (of og : list nat).
Hypothesis Hf : is_order p of.
Hypothesis Hg : is_order q og.
Notation pf := (permute of).
Notation pg := (permute og).
Notation full := (of ++ map (Nat.add p) og).
Notation phi := (reorder_parameters p of og).
Notation n := (p + q)%nat.

Lemma full_order : is_order n full.
Proof.
  unfold is_order. rewrite seq_app. apply Permutation_app; [exact Hf|]. cbn [Nat.add].
  assert (E : seq p q = map (Nat.add p) (seq 0 q)).
  { clear. revert p. induction q as [|k IH]; intros p; [reflexivity|]. cbn [seq map]. rewrite Nat.add_0_r. f_equal.
    rewrite (IH (S p)), <- seq_shift, map_map. apply map_ext. intros; lia. }
  rewrite E. apply Permutation_map. exact Hg.
Qed.
Lemma full_app b g : length b = p -> length g = q -> permute full (b ++ g) = pf b ++ pg g.
Proof.
  intros Hb H. unfold permute. rewrite map_app, map_map. f_equal.
  - apply map_ext_in. intros i Hi. apply (order_in _ _ Hf) in Hi. apply app_nth1. lia.
  - apply map_ext. intros i. rewrite app_nth2, Hb by lia. f_equal. lia.
Qed.
Lemma phi_full x : length x = n -> phi x = permute full x.
Proof.
  intros Hx. unfold reorder_parameters. destruct (Nat.eqb_spec (length x) p) as [E|E]; [|reflexivity].
  assert (Q : q = 0%nat) by lia. unfold is_order in Hg. rewrite Q in Hg. apply Permutation_sym, Permutation_nil in Hg.
  rewrite Hg. cbn [map]. rewrite app_nil_r. reflexivity.
Qed.
Lemma phi_app b g : length b = p -> length g = q -> phi (b ++ g) = pf b ++ pg g.
Proof. intros Hb H. rewrite phi_full by (rewrite app_length; lia). apply full_app; auto. Qed.
Lemma phi_fixed b : length b = p -> phi b = pf b.
Proof. intros Hb. unfold reorder_parameters. rewrite Hb, Nat.eqb_refl. reflexivity. Qed.
Lemma split_parts {A} (x : list A) : length x = n -> exists b g, x = b ++ g /\ length b = p /\ length g = q /\
  x_to_beta_gamma p q x = (b, g).
Proof.
  intros Hx. exists (firstn p x), (skipn p x). rewrite firstn_skipn, firstn_length, skipn_length.
  split; [reflexivity|]. split; [lia|]. split; [lia|]. unfold x_to_beta_gamma. f_equal.
  apply firstn_all2. rewrite skipn_length. lia.
Qed.
Lemma parts_app {A} (b g : list A) : length b = p -> length g = q -> x_to_beta_gamma p q (b ++ g) = (b, g).
Proof.
  intros Hb H. unfold x_to_beta_gamma. rewrite firstn_app, skipn_app, Hb, Nat.sub_diag.
  rewrite firstn_all2 by lia. rewrite skipn_all2 by lia. cbn [firstn skipn app]. rewrite app_nil_r. f_equal.
  apply firstn_all2. lia.
Qed.
Lemma phi_len x : length x = n -> length (phi x) = n.
Proof. intros. rewrite phi_full by auto. apply (permute_len _ _ full_order). Qed.
Lemma phi_map (f : R -> R) x : length x = n -> phi (map f x) = map f (phi x).
Proof. intros. rewrite !phi_full by (rewrite ?map_length; auto). apply (permute_map _ _ full_order); auto. Qed.
Lemma phi_map2 (f : R -> R -> R) x y : length x = n -> length y = n -> phi (map2 f x y) = map2 f (phi x) (phi y).
Proof.
  intros. rewrite !phi_full by (rewrite ?map2_length; auto; lia). apply (permute_map2 _ _ full_order); auto.
Qed.
Lemma phi_dot x y : length x = n -> length y = n -> vdot (phi x) (phi y) = vdot x y.
Proof. intros. rewrite !phi_full by auto. apply (permute_dot _ _ full_order); auto. Qed.

(** ** the regularizer *)
Lemma mask_map_true {A} (f : A -> A) : forall g, mask_map (repeat true (length g)) f g = map f g.
Proof. induction g as [|c g IH]; [reflexivity|]. cbn [length repeat mask_map map]. rewrite IH. reflexivity. Qed.
Lemma mask_map_app {A} (f : A -> A) b g : length b = p -> length g = q ->
  mask_map (repeat false p ++ repeat true q) f (b ++ g) = b ++ map f g.
Proof.
  intros Eb Eg. rewrite <- Eb, <- Eg. clear. induction b as [|a b IH]; [apply mask_map_true|].
  cbn [length repeat app mask_map]. rewrite IH. reflexivity.
Qed.
Lemma mask_select_true {A} : forall g : list A, mask_select (repeat true (length g)) g = g.
Proof. induction g as [|c g IH]; [reflexivity|]. cbn [length repeat mask_select]. rewrite IH. reflexivity. Qed.
Lemma mask_select_app {A} (b g : list A) : length b = p -> length g = q ->
  mask_select (repeat false p ++ repeat true q) (b ++ g) = g.
Proof.
  intros Eb Eg. rewrite <- Eb, <- Eg. clear. induction b as [|a b IH]; [apply mask_select_true|].
  cbn [length repeat app mask_select]. exact IH.
Qed.
Lemma existsb_perm {A} (f : A -> bool) l l' : Permutation l l' -> existsb f l = existsb f l'.
Proof.
  induction 1; simpl; auto; try congruence. destruct (f x), (f y); reflexivity.
Qed.
Lemma reg_sim_ext k u v rg rg' : (forall x, length x = k -> u x = v x) -> reg_sim k u rg rg' -> reg_sim k v rg rg'.
Proof.
  intros E [S1 [S2 S3]]. split; [|split].
  - intros y t Hy. rewrite <- E by auto. rewrite S1 by auto. apply rmap_ext. intros z Hz. apply E. eauto.
  - exact S2.
  - intros x Hx. rewrite <- E by auto. auto.
Qed.
Variable argsort : vec -> list nat.
Lemma positive_reg r w ov ov' : coefficientwise r -> length w = n -> ov_p ov = p -> ov_q ov = q -> ov_p ov' = p -> ov_q ov' = q ->
  exists r1 r1', instantiate (mk_pos (Some r)) w (Some ov) = Ok r1 /\
    instantiate (mk_pos (Some r)) (phi w) (Some ov') = Ok r1' /\
    reg_sim n phi (as_regularizer argsort r1) (as_regularizer argsort r1').
Proof.
  intros Hc Hw Ep Eq Ep' Eq'. rewrite (phi_full w) by auto.
  destruct (permute_reg n full full_order argsort r w Hc Hw) as [r1 [r1' [E1 [E2 S]]]].
  apply (reg_sim_ext n (permute full) phi) in S; [|intros; symmetry; apply phi_full; auto]. destruct S as [S1 [S2 S3]].
  cbn [mk_pos instantiate]. rewrite E1, E2, Ep, Eq, Ep', Eq'. cbn [rbind].
  set (c := repeat false p ++ repeat true q). assert (Lc : length c = n) by (unfold c; rewrite app_length, !repeat_length; auto).
  exists (RPos (Some c) (Some r1)), (RPos (Some c) (Some r1')). split; [reflexivity|]. split; [reflexivity|].
  unfold reg_sim in *. cbn [as_regularizer r_prox r_value prox value] in *. split; [|split].
  - intros y t Hy. rewrite phi_len, Hy, Lc, Nat.eqb_refl by auto. cbn [guard rbind].
    destruct (split_parts y Hy) as [b [g [-> [Lb [Lg _]]]]]. rewrite phi_app by auto. unfold c.
    rewrite !mask_map_app by (auto; apply (permute_len _ _ Hf) || apply (permute_len _ _ Hg)).
    rewrite <- (permute_map _ _ Hg) by auto. rewrite <- phi_app by (rewrite ?map_length; auto).
    apply S1. rewrite app_length, map_length. lia.
  - intros y t z Hy H. rewrite Hy, Lc, Nat.eqb_refl in H. cbn [guard rbind] in H.
    apply (S2 _ _ _ (eq_trans (mask_map_length _ _ _) Hy) H).
  - intros x Hx. rewrite phi_len, Hx, Lc, Nat.eqb_refl by auto. cbn [guard rbind].
    destruct (split_parts x Hx) as [b [g [E [Lb [Lg _]]]]]. rewrite S3 by auto.
    assert (V : existsb (fun xi => rltb xi 0) (mask_select c (phi x)) = existsb (fun xi => rltb xi 0) (mask_select c x)).
    { rewrite E, phi_app by auto. unfold c.
      rewrite !mask_select_app by (auto; apply (permute_len _ _ Hf) || apply (permute_len _ _ Hg)).
      apply existsb_perm. apply (permute_perm _ _ Hg). auto. }
    rewrite V. reflexivity.
Qed.

(** ** the oracle *)
Record calls_sim (c c' : lme_calls) : Prop := {
  cs_loss : forall b g, length b = p -> length g = q -> lc_loss c' (pf b) (pg g) = lc_loss c b g;
  cs_gb : forall b g, length b = p -> length g = q -> lc_gradient_beta c' (pf b) (pg g) = rmap pf (lc_gradient_beta c b g);
  cs_gbl : forall b g v, lc_gradient_beta c b g = Ok v -> length v = p;
  cs_gg : forall b g, length b = p -> length g = q -> lc_gradient_gamma c' (pf b) (pg g) = rmap pg (lc_gradient_gamma c b g);
  cs_ggl : forall b g v, lc_gradient_gamma c b g = Ok v -> length v = q;
  cs_ob : forall g, length g = q -> lc_optimal_beta c' (pg g) = rmap pf (lc_optimal_beta c g);
  cs_obl : forall g v, lc_optimal_beta c g = Ok v -> length v = p;
  cs_re : forall b g, length b = p -> length g = q -> lc_random_effects c' (pf b) (pg g) = rmap (map pg) (lc_random_effects c b g);
  cs_rel : forall b g us, lc_random_effects c b g = Ok us -> Forall (fun u => length u = q) us;
  cs_vaida : forall mg t b g, length b = p -> length g = q -> lc_vaida c' mg t (pf b) (pg g) = lc_vaida c mg t b g;
  cs_jones : forall t b g, length b = p -> length g = q -> lc_jones c' t (pf b) (pg g) = lc_jones c t b g;
  cs_muller : forall t b g, length b = p -> length g = q -> lc_muller c' t (pf b) (pg g) = lc_muller c t b g;
  cs_flip : forall b g, length b = p -> length g = q -> lc_flip c' (pf b) (pg g) = rmap pf (lc_flip c b g);
  cs_flipl : forall b g v, lc_flip c b g = Ok v -> length v = p }.
Variables c c' : lme_calls.
Hypothesis Hc : calls_sim c c'.

Lemma pf_len b : length (pf b) = p. Proof. apply (permute_len _ _ Hf). Qed.
Lemma pg_len g : length (pg g) = q. Proof. apply (permute_len _ _ Hg). Qed.

Lemma value_sim x : length x = n -> joint_loss p q (lc_loss c') (phi x) = joint_loss p q (lc_loss c) x.
Proof.
  intros Hx. destruct (split_parts x Hx) as [b [g [E [Lb [Lg Es]]]]]. unfold joint_loss. rewrite Es, E, phi_app by auto.
  rewrite parts_app by (apply pf_len || apply pg_len). apply (cs_loss _ _ Hc); auto.
Qed.
Lemma grad_sim x : length x = n ->
  joint_gradient p q (lc_gradient_beta c') (lc_gradient_gamma c') (phi x)
  = rmap phi (joint_gradient p q (lc_gradient_beta c) (lc_gradient_gamma c) x).
Proof.
  intros Hx. destruct (split_parts x Hx) as [b [g [E [Lb [Lg Es]]]]]. unfold joint_gradient. rewrite Es, phi_len, Hx by auto.
  rewrite E, phi_app, parts_app by (auto; apply pf_len || apply pg_len). rewrite (cs_gb _ _ Hc), (cs_gg _ _ Hc) by auto.
  destruct (lc_gradient_beta c b g) as [gb|e] eqn:Eb; [|reflexivity]. apply (cs_gbl _ _ Hc) in Eb. cbn [rmap rbind].
  rewrite !pf_len, Eb, Lb, Nat.eqb_refl. cbn [guard rbind].
  destruct (lc_gradient_gamma c b g) as [gg|e] eqn:Eg; [|reflexivity]. apply (cs_ggl _ _ Hc) in Eg. cbn [rmap rbind].
  rewrite !pg_len, Eg, Lg, Nat.eqb_refl. cbn [guard rbind rmap].
  replace (n - p - q)%nat with 0%nat by lia. cbn [zeros repeat]. rewrite !app_nil_r, phi_app by auto. reflexivity.
Qed.
Lemma grad_len x v : length x = n -> joint_gradient p q (lc_gradient_beta c) (lc_gradient_gamma c) x = Ok v -> length v = n.
Proof.
  intros Hx H. destruct (split_parts x Hx) as [b [g [E [Lb [Lg Es]]]]]. unfold joint_gradient in H. rewrite Es, Hx in H.
  apply rbind_inv in H as [gb [Eb H]]. apply rbind_inv in H as [u [_ H]]. apply rbind_inv in H as [gg [Eg H]].
  apply rbind_inv in H as [u' [_ H]]. apply Ok_inj in H. apply (cs_gbl _ _ Hc) in Eb. apply (cs_ggl _ _ Hc) in Eg.
  rewrite <- H. replace (n - p - q)%nat with 0%nat by lia. cbn [zeros repeat]. rewrite app_nil_r, app_length. lia.
Qed.

(** ** the solver *)
Lemma solver_sim solve m rg rg' x lg : mo_sr3 m = None -> reg_sim n phi rg rg' -> length x = n ->
  run_solver solve m p q c' rg' (phi x) (log_map phi lg)
  = rmap (fun r => (phi (fst r), log_map phi (snd r))) (run_solver solve m p q c rg x lg).
Proof.
  intros Hm [S1 [S2 S3]] Hx. unfold run_solver. rewrite Hm. destruct (step_length m) as [st|e]; [|reflexivity]. cbn [rbind].
  match goal with |- context [pgd_optimize _ rg' ?s _ _ _] => set (slv := s) end.
  pose proof (optimize_map n phi phi_len (phi_map2 Rplus) (phi_map2 Rminus) (fun k => phi_map (Rmult k)) (phi_map Ropp) phi_dot unit unit
    (fun s => s) (lme_as_oracle p q c) (lme_as_oracle p q c') rg rg' slv) as O.
  rewrite O; auto.
  - destruct (pgd_optimize _ rg slv x tt lg) as [[[x' lg'] s]|e]; reflexivity.
  - intros s y Hy. cbn [lme_as_oracle o_value]. rewrite value_sim by auto.
    destruct (joint_loss p q (lc_loss c) y); reflexivity.
  - intros s y Hy. cbn [lme_as_oracle o_grad]. rewrite grad_sim by auto.
    destruct (joint_gradient _ _ _ _ y); reflexivity.
  - intros s y g s' Hy H. cbn [lme_as_oracle o_grad] in H. apply rbind_inv in H as [v [E H]].
    apply grad_len in E; auto. congruence.
Qed.
Lemma solver_len solve m rg rg' x lg x' lg' : mo_sr3 m = None -> reg_sim n phi rg rg' -> length x = n ->
  run_solver solve m p q c rg x lg = Ok (x', lg') -> length x' = n.
Proof.
  intros Hm [S1 [S2 S3]] Hx H. unfold run_solver in H. rewrite Hm in H. apply rbind_inv in H as [st [_ H]].
  apply rbind_inv in H as [[[x1 lg1] s1] [E H]]. apply Ok_inj in H. replace x' with x1 by congruence.
  revert E. apply (optimize_len n phi phi_len (phi_map2 Rplus) (phi_map2 Rminus) (fun k => phi_map (Rmult k)) (phi_map Ropp) phi_dot unit unit
    (fun s => s) (lme_as_oracle p q c) (lme_as_oracle p q c') rg rg'); auto.
  1:{ intros s y Hy. cbn [lme_as_oracle o_value]. rewrite value_sim by auto. destruct (joint_loss p q (lc_loss c) y); reflexivity. }
  1:{ intros s y Hy. cbn [lme_as_oracle o_grad]. rewrite grad_sim by auto. destruct (joint_gradient _ _ _ _ y); reflexivity. }
  intros s y g s' Hy H'. cbn [lme_as_oracle o_grad] in H'. apply rbind_inv in H' as [v [E H']].
  apply grad_len in E; auto. congruence.
Qed.

(** ** the rest of a fit *)
Lemma add_if_sim k v v' lg : v' = rmap (value_map phi) v ->
  add_if (log_map phi lg) k v' = rmap (log_map phi) (add_if lg k v).
Proof.
  intros ->. unfold add_if. cbn [log_map lg_keys]. destruct (has_key k (lg_keys lg)); [|reflexivity].
  destruct v as [a|e]; [|reflexivity]. cbn [rmap rbind]. apply (log_map_add phi lg k (LAtom a)).
Qed.
Lemma criteria_sim m b g lg : length b = p -> length g = q ->
  log_criteria m c' (pf b) (pg g) (log_map phi lg) = rmap (log_map phi) (log_criteria m c b g lg).
Proof.
  intros Hb H. unfold log_criteria.
  assert (B : forall (r : res logger) (k k' : logger -> res logger), (forall l, k' (log_map phi l) = rmap (log_map phi) (k l)) ->
    rbind (rmap (log_map phi) r) k' = rmap (log_map phi) (rbind r k)) by (intros [l|e] k k' E; [apply E|reflexivity]).
  match goal with |- context [guard ?x ?y] => destruct (guard x y) as [[]|e] end; cbn [rbind].
  - rewrite (add_if_sim _ (let! v := lc_vaida c false (sqrt (solver_tol m)) b g in Ok (LNum v))).
    2:{ rewrite (cs_vaida _ _ Hc) by auto. destruct (lc_vaida c false _ b g); reflexivity. }
    apply B. intros l1. rewrite (add_if_sim _ (let! v := lc_vaida c true (sqrt (solver_tol m)) b g in Ok (LNum v))).
    2:{ rewrite (cs_vaida _ _ Hc) by auto. destruct (lc_vaida c true _ b g); reflexivity. }
    apply B. intros l2. rewrite (add_if_sim _ (let! v := lc_jones c (sqrt (solver_tol m)) b g in Ok (LNum v))).
    2:{ rewrite (cs_jones _ _ Hc) by auto. destruct (lc_jones c _ b g); reflexivity. }
    apply B. intros l3. rewrite (add_if_sim _ (let! v := lc_muller c (sqrt (solver_tol m)) b g in Ok (LNum v))).
    2:{ rewrite (cs_muller _ _ Hc) by auto. destruct (lc_muller c _ b g); reflexivity. }
    apply B. intros l4. apply add_if_sim. rewrite (cs_flip _ _ Hc) by auto.
    destruct (lc_flip c b g) as [v|e] eqn:E; [|reflexivity]. apply (cs_flipl _ _ Hc) in E. cbn [rmap rbind value_map].
    rewrite phi_fixed by auto. reflexivity.
  - do 4 (rewrite (add_if_sim _ (Err e)) by reflexivity; apply B; intros ?).
    apply add_if_sim. rewrite (cs_flip _ _ Hc) by auto.
    destruct (lc_flip c b g) as [v|e'] eqn:E; [|reflexivity]. apply (cs_flipl _ _ Hc) in E. cbn [rmap rbind value_map].
    rewrite phi_fixed by auto. reflexivity.
Qed.
Lemma squares_sim us k : Forall (fun u => length u = q) us ->
  mean_squares q (map pg us) k = rmap pg (mean_squares q us k) /\
  forall v, mean_squares q us k = Ok v -> length v = q.
Proof.
  intros F. unfold mean_squares. destruct (guard (0 <? k)%nat NotFinite); [|split; [reflexivity|discriminate]]. cbn [rbind rmap].
  set (h := fun u s => vadd (map (fun a => a ^ 2) u) s).
  assert (G : fold_right h (zeros q) (map pg us) = pg (fold_right h (zeros q) us) /\ length (fold_right h (zeros q) us) = q).
  { induction F as [|u us Hu F [IH1 IH2]]; [split; [symmetry; apply (permute_repeat _ _ Hg)|apply zeros_length]|].
    cbn [map fold_right]. rewrite IH1. unfold h at 1 3 5, vadd. rewrite <- (permute_map _ _ Hg) by auto.
    rewrite (permute_map2 _ _ Hg) by (rewrite ?map_length; auto). split; [reflexivity|].
    rewrite map2_length, map_length. lia. }
  destruct G as [G1 G2]. rewrite G1. split; [rewrite (permute_map _ _ Hg) by auto; reflexivity|].
  intros v H. apply Ok_inj in H. rewrite <- H, map_length. exact G2.
Qed.
Lemma initialize_sim m k b g : mo_sr3 m = None -> length b = p -> length g = q ->
  initialize m q k c' (pf b, pg g) = rmap (fun r => (pf (fst r), pg (snd r))) (initialize m q k c (b, g)) /\
  forall b1 g1, initialize m q k c (b, g) = Ok (b1, g1) -> length b1 = p /\ length g1 = q.
Proof.
  intros Hm Hb H. unfold initialize. rewrite Hm. cbn [fst snd]. destruct (String.eqb (mo_initializer m) "EM").
  2:{ split; [reflexivity|]. intros b1 g1 E. apply Ok_inj in E. inversion E; subst. auto. }
  rewrite (cs_ob _ _ Hc) by auto. destruct (lc_optimal_beta c g) as [b1|e] eqn:Eb; [|split; [reflexivity|discriminate]].
  apply (cs_obl _ _ Hc) in Eb. cbn [rmap rbind]. rewrite (cs_re _ _ Hc) by auto.
  destruct (lc_random_effects c b1 g) as [us|e] eqn:Eu; [|split; [reflexivity|discriminate]].
  apply (cs_rel _ _ Hc) in Eu. cbn [rmap rbind]. destruct (squares_sim us k Eu) as [E1 E2]. rewrite E1.
  destruct (mean_squares q us k) as [g1|e]; [|split; [reflexivity|discriminate]]. cbn [rmap rbind fst snd].
  split; [reflexivity|]. intros b2 g2 E. apply Ok_inj in E. inversion E; subst. auto.
Qed.
Lemma start_sim coef warm b0 g0 : (forall v, b0 = Some v -> length v = p) -> (forall v, g0 = Some v -> length v = q) ->
  exists b g, length b = p /\ length g = q /\ start_point coef warm b0 g0 p q = Ok (b, g) /\
    start_point coef warm (option_map pf b0) (option_map pg g0) p q = Ok (pf b, pg g).
Proof.
  intros Hb H. exists (match b0 with Some b => b | None => ones p end), (match g0 with Some g => g | None => ones q end).
  split; [destruct b0; [auto|apply ones_length]|]. split; [destruct g0; [auto|apply ones_length]|].
  assert (E : (match option_map pf b0 with Some b => b | None => ones p end, match option_map pg g0 with Some g => g | None => ones q end)
    = (pf (match b0 with Some b => b | None => ones p end), pg (match g0 with Some g => g | None => ones q end))).
  { f_equal; [destruct b0|destruct g0]; try reflexivity; symmetry; [apply (permute_repeat _ _ Hf)|apply (permute_repeat _ _ Hg)]. }
  unfold start_point. destruct coef as [co|]; [destruct warm|]; cbn [sk_check_is_fitted rbind]; rewrite E; split; reflexivity.
Qed.
Lemma penalty_coefficientwise m ov r : plain_coefficientwise m -> penalty_reg (mo_penalty m) ov = Ok r -> coefficientwise r.
Proof.
  intros [_ [_ Hp]] H. destruct (mo_penalty m); try contradiction; cbn [penalty_reg] in H.
  - apply Ok_inj in H. subst. exact I.
  - apply Ok_inj in H. subst. exact I.
  - apply Ok_inj in H. subst. exact I.
  - unfold mk_scad in H. apply rbind_inv in H as [u [_ H]]. apply Ok_inj in H. subst. exact I.
Qed.
Lemma penalty_view m ov ov' : plain_coefficientwise m -> penalty_reg (mo_penalty m) ov' = penalty_reg (mo_penalty m) ov.
Proof. intros [_ [_ Hp]]. destruct (mo_penalty m); try contradiction; reflexivity. Qed.
End Order.

Section Fit.
Variables (p q : nat) (of og order : list nat).
Hypothesis Hf : is_order p of.
Hypothesis Hg : is_order q og.
Variables (argsort : vec -> list nat) (solve : mat -> vec -> res vec)
  (calls_of : lme_problem -> option gauss_lme -> option sr3_settings -> lme_calls).
Variables (pr pr' : lme_problem) (fe re : option vec) (ov ov' : oracle_view) (wf wr : vec).
Hypothesis Ep : num_fixed pr = p.
Hypothesis Ep' : num_fixed pr' = p.
Hypothesis Eq : num_random pr = q.
Hypothesis Eq' : num_random pr' = q.
Hypothesis En : num_groups pr' = num_groups pr.
Hypothesis El : pr_group_labels pr' = pr_group_labels pr.
Hypothesis Ev : oracle_view_of pr = Ok ov /\ ov_p ov = p /\ ov_q ov = q.
Hypothesis Ev' : oracle_view_of pr' = Ok ov' /\ ov_p ov' = p /\ ov_q ov' = q.
Hypothesis Ew : fit_weights pr fe re = Ok (wf, wr) /\ length wf = p /\ length wr = q.
Hypothesis Ew' : fit_weights pr' (option_map (permute of) fe) (option_map (permute og) re) = Ok (permute of wf, permute og wr).
Hypothesis Hc : calls_sim p q of og (calls_of pr None None) (calls_of pr' None None).
Hypothesis Hpg : forall b us, length b = p -> Forall (fun u => length u = q) us ->
  per_group_coefficients (permute of b) (map (permute og) us) (pr_intercept pr' :: map Some (pr_labels pr'))
  = rmap (map (permute (0%nat :: map S order))) (per_group_coefficients b us (pr_intercept pr :: map Some (pr_labels pr))).

Lemma fit_problem_sim m coef b0 g0 warm : plain_coefficientwise m ->
  (forall v, b0 = Some v -> length v = p) -> (forall v, g0 = Some v -> length v = q) ->
  fit_problem argsort solve calls_of m coef pr' (option_map (permute of) b0) (option_map (permute og) g0) warm
    (option_map (permute of) fe) (option_map (permute og) re)
  = rmap (reorder_fit p of og order) (fit_problem argsort solve calls_of m coef pr b0 g0 warm fe re).
Proof.
  intros Hm Hb0 Hg0. pose proof Hm as [Hm1 [Hm2 Hm3]]. unfold fit_problem. rewrite Ep, Ep', Eq, Eq', En, El.
  destruct (step_length m) as [st|e]; [|reflexivity]. cbn [rbind].
  match goal with |- context [match mo_penalty m with PenSCAD _ _ _ => _ | _ => _ end] =>
    destruct (match mo_penalty m with PenSCAD lam rho sigma => rmap (fun _ => tt) (mk_scad rho sigma lam) | _ => Ok tt end) as [[]|e] end;
    [|reflexivity]. cbn [rbind].
  destruct Ev as [-> [E1 E2]]. destruct Ev' as [-> [E1' E2']]. cbn [rbind]. unfold prior_of. rewrite Hm2, Hm1. cbn [rbind].
  destruct Ew as [-> [Lf Lr]]. rewrite Ew'. cbn [rbind].
  unfold model_reg. rewrite (penalty_view m ov ov' Hm).
  destruct (penalty_reg (mo_penalty m) ov) as [r|e] eqn:Er; [|reflexivity]. cbn [rbind].
  apply (penalty_coefficientwise m) in Er; auto.
  assert (Lw : length (wf ++ wr) = (p + q)%nat) by (rewrite app_length; lia).
  destruct (positive_reg p q of og Hf Hg argsort (RElastic (mo_eps m) (Some r)) (wf ++ wr) ov ov' Er Lw E1 E2 E1' E2')
    as [r1 [r1' [I1 [I2 S]]]].
  rewrite (phi_app p q of og Hf Hg) in I2 by auto.
  unfold beta_gamma_to_x at 1 3. unfold mk_elastic. rewrite I1, I2. cbn [rbind].
  destruct (start_sim p q of og Hf Hg coef warm b0 g0 Hb0 Hg0) as [b [g [Lb [Lg [B1 B2]]]]]. rewrite B1, B2. cbn [rbind].
  destruct (initialize_sim p q of og Hg _ _ Hc m (num_groups pr) b g Hm1 Lb Lg) as [J1 J2]. rewrite J1.
  destruct (initialize m q (num_groups pr) (calls_of pr None None) (b, g)) as [[b1 g1]|e]; [|reflexivity]. cbn [rmap rbind fst snd].
  destruct (J2 b1 g1 eq_refl) as [Lb1 Lg1].
  rewrite (log_map_new (reorder_parameters p of og) (Some (mo_keys m))) at 1.
  destruct (mk_logger (Some (mo_keys m))) as [lg|e]; [|reflexivity]. cbn [rmap rbind].
  unfold beta_gamma_to_x. rewrite <- (phi_app p q of og Hf Hg) by auto.
  assert (Lx : length (b1 ++ g1) = (p + q)%nat) by (rewrite app_length; lia).
  rewrite (solver_sim p q of og Hf Hg _ _ Hc solve m _ _ (b1 ++ g1) lg Hm1 S Lx).
  destruct (run_solver solve m p q (calls_of pr None None) (as_regularizer argsort r1) (b1 ++ g1) lg) as [[x lg1]|e] eqn:Erun; [|reflexivity].
  apply (solver_len p q of og Hf Hg _ _ Hc solve m _ _ (b1 ++ g1) lg x lg1 Hm1 S Lx) in Erun. cbn [rmap rbind fst snd].
  destruct (split_parts p q x Erun) as [b2 [g2 [E [Lb2 [Lg2 Es]]]]]. rewrite Es, E, (phi_app p q of og Hf Hg) by auto.
  rewrite parts_app by (apply (permute_len _ _ Hf) || apply (permute_len _ _ Hg)).
  rewrite (cs_re _ _ _ _ _ _ Hc) by auto.
  destruct (lc_random_effects (calls_of pr None None) b2 g2) as [us|e] eqn:Eu; [|reflexivity].
  apply (cs_rel _ _ _ _ _ _ Hc) in Eu. cbn [rmap rbind]. rewrite Hpg by auto.
  destruct (per_group_coefficients b2 us _) as [pgs|e]; [|reflexivity]. cbn [rmap rbind].
  rewrite (criteria_sim p q of og _ _ Hc) by auto.
  destruct (log_criteria m (calls_of pr None None) b2 g2 lg1) as [lg2|e]; [|reflexivity]. reflexivity.
Qed.
End Fit.
