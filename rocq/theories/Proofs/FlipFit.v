(** Fits of a plain mixed model whose oracle respects signs of the features. *)
From Coq Require Import Lra Permutation.
From Verif.Base Require Import Py Vec Mat.
From Verif.Model Require Import LmeProblem Regularizers Solvers Linear LmeInner LmeTrace LmeFit.
From Verif.Spec Require Import ColumnSpec InnerSpec FlipSpec.
From Verif.Proofs Require Import VecFacts SolverProofs LinearProofs ColumnProofs ColumnFit ColumnCases FeatureFit.
Open Scope R_scope.

Section Signs.
Variables (p q : nat) (d1 d2 : vec).
Hypothesis Hf : is_signs p d1.
Hypothesis Hg : is_signs q d2.
Hypothesis q0 : (0 < q)%nat.
Notation pf := (flip d1).
Notation pg := (flip d2).
Notation full := (d1 ++ ones q).
Notation phi := (flip_parameters q d1).
Notation n := (p + q)%nat.

Lemma full_signs : is_signs n full.
Proof.
  destruct Hf as [L F]. split; [rewrite app_length, ones_length; lia|]. apply Forall_app. split; [exact F|].
  apply Forall_forall. intros x Hx. apply repeat_spec in Hx. auto.
Qed.
Lemma ones_flip : forall k g, length g = k -> vmul (ones k) g = g.
Proof.
  induction k as [|k IH]; intros g Hk; destruct g as [|a g]; try discriminate; [reflexivity|].
  unfold vmul, ones in *. cbn [repeat map2]. rewrite Rmult_1_l. f_equal. apply IH. simpl in Hk. lia.
Qed.
Lemma vmul_app : forall (a b c d : vec), length a = length c -> vmul (a ++ b) (c ++ d) = vmul a c ++ vmul b d.
Proof.
  induction a as [|x a IH]; intros b c d H; destruct c as [|y c]; try discriminate; [reflexivity|].
  unfold vmul in *. cbn [app map2]. f_equal. apply IH. simpl in H. lia.
Qed.
Lemma full_app b g : length b = p -> length g = q -> flip full (b ++ g) = pf b ++ g.
Proof. intros Hb H. unfold flip. rewrite vmul_app by (destruct Hf; lia). f_equal. apply ones_flip. auto. Qed.
Lemma phi_full x : length x = n -> phi x = flip full x.
Proof. intros Hx. unfold flip_parameters. destruct Hf as [L _]. rewrite Hx, L, Nat.eqb_refl. reflexivity. Qed.
Lemma phi_app b g : length b = p -> length g = q -> phi (b ++ g) = pf b ++ g.
Proof. intros Hb H. rewrite phi_full by (rewrite app_length; lia). apply full_app; auto. Qed.
Lemma phi_fixed b : length b = p -> phi b = b.
Proof.
  intros Hb. unfold flip_parameters. destruct Hf as [L _]. destruct (Nat.eqb_spec (length b) (length d1 + q)) as [E|E]; [lia|reflexivity].
Qed.
Lemma phi_len x : length x = n -> length (phi x) = n.
Proof. intros. rewrite phi_full by auto. apply (flip_len n full full_signs). auto. Qed.
Lemma phi_dot x y : length x = n -> length y = n -> vdot (phi x) (phi y) = vdot x y.
Proof. intros. rewrite !phi_full by auto. apply (flip_dot n full full_signs); auto. Qed.
Lemma phi_add x y : length x = n -> length y = n -> phi (vadd x y) = vadd (phi x) (phi y).
Proof. intros. rewrite !phi_full by (unfold vadd; rewrite ?map2_length; auto; lia). apply flip_add. Qed.
Lemma phi_sub x y : length x = n -> length y = n -> phi (vsub x y) = vsub (phi x) (phi y).
Proof. intros. rewrite !phi_full by (unfold vsub; rewrite ?map2_length; auto; lia). apply flip_sub. Qed.
Lemma phi_scale k x : length x = n -> phi (vscale k x) = vscale k (phi x).
Proof. intros. rewrite !phi_full by (unfold vscale; rewrite ?map_length; auto). apply flip_scale. Qed.
Lemma phi_neg x : length x = n -> phi (vneg x) = vneg (phi x).
Proof. intros. rewrite !phi_full by (unfold vneg; rewrite ?map_length; auto). apply flip_neg. Qed.
Lemma pf_len b : length b = p -> length (pf b) = p.
Proof. apply (flip_len p d1 Hf). Qed.
Lemma pg_len g : length g = q -> length (pg g) = q.
Proof. apply (flip_len q d2 Hg). Qed.

(** ** the regularizer *)
Variable argsort : vec -> list nat.
(** the L0 penalty: the order of the magnitudes does not see the signs *)
Lemma masked_flip k sg part x nnz : is_signs k sg -> length x = k ->
  take_masked argsort part (flip sg x) nnz = rmap (flip sg) (take_masked argsort part x nnz).
Proof.
  intros [L A] Hx. unfold take_masked. rewrite (flip_len k sg (conj L A)) by auto. rewrite Hx.
  destruct (guard (length part =? k)%nat IndexError) eqn:G; [|reflexivity]. cbn [rbind rmap].
  apply guard_inv in G. apply Nat.eqb_eq in G.
  f_equal. unfold flip. rewrite mask_select_flip by (auto; lia). rewrite take_flip.
  - apply mask_assign_flip; auto; [lia|]. apply take_len.
  - apply mask_select_Forall; auto.
  - apply mask_select_len; auto. lia.
Qed.
Lemma is_zero_flip sg x : all_signs sg -> length sg = length x ->
  map (fun b => reqb b 0) (flip sg x) = map (fun b => reqb b 0) x.
Proof.
  intros A L. unfold flip. rewrite (flip_map_even (fun b => reqb b 0)); auto.
  intros s y [->| ->]; destruct (reqb y 0) eqn:E.
  - apply reqb_true in E. rewrite E. apply reqb_true. lra.
  - apply reqb_false in E. apply reqb_false. lra.
  - apply reqb_true in E. rewrite E. apply reqb_true. lra.
  - apply reqb_false in E. apply reqb_false. lra.
Qed.
Lemma l0lme_flip s x o : lz_oracle s = Some o -> ov_p o = p -> ov_q o = q -> length x = n ->
  (exists w, lz_beta_weights s = Some w) ->
  l0lme_prox argsort s (phi x) = rmap phi (l0lme_prox argsort s x) /\
  forall z, l0lme_prox argsort s x = Ok z -> length z = n.
Proof.
  intros Eo Ep Eq Hx [w Ew]. unfold l0lme_prox. rewrite Eo, Ep, Eq.
  destruct (split_parts p q x Hx) as [b [g [E [Lb [Lg Es]]]]]. rewrite Es, E, phi_app by auto.
  rewrite parts_app by (auto using pf_len). unfold optimal_tbeta. rewrite Ew.
  destruct (lz_nnz_tbeta s) as [nb|]; [|split; [reflexivity|discriminate]].
  destruct (lz_beta_part s) as [pa|]; [|split; [reflexivity|discriminate]].
  rewrite (masked_flip p d1 pa b nb Hf Lb).
  destruct (take_masked argsort pa b nb) as [tb|e] eqn:Et; [|split; [reflexivity|discriminate]]. cbn [rmap rbind].
  assert (Lt : length tb = p).
  { unfold take_masked in Et. apply rbind_inv in Et as [u [_ Et]]. apply Ok_inj in Et. rewrite <- Et.
    rewrite mask_assign_length. auto. }
  assert (G : optimal_tgamma argsort s (pf tb) g = optimal_tgamma argsort s tb g).
  { unfold optimal_tgamma. destruct (lz_gamma_part s) as [gp|]; [|reflexivity].
    destruct (lz_nnz_tgamma s) as [ng|]; [|reflexivity]. destruct (lz_independent s); [reflexivity|].
    rewrite Eo. unfold hierarchy_zeros. rewrite pf_len, Lt, is_zero_flip by (auto; destruct Hf; auto; lia). reflexivity. }
  rewrite G. destruct (optimal_tgamma argsort s tb g) as [tg|e] eqn:Eg; [|split; [reflexivity|discriminate]]. cbn [rmap rbind].
  assert (Lg' : length tg = q).
  { unfold optimal_tgamma in Eg. destruct (lz_gamma_part s) as [gp|]; [|discriminate].
    destruct (lz_nnz_tgamma s) as [ng|]; [|discriminate]. apply rbind_inv in Eg as [t [E1 E2]].
    assert (Lt' : length t = q).
    { destruct (lz_independent s); [apply Ok_inj in E1; congruence|]. rewrite Eo in E1.
      apply rbind_inv in E1 as [idx [_ E1]]. apply rbind_inv in E1 as [u [_ E1]]. apply Ok_inj in E1. rewrite <- E1.
      rewrite mapi_length. auto. }
    unfold take_masked in E2. apply rbind_inv in E2 as [u [_ E2]]. apply Ok_inj in E2. rewrite <- E2.
    rewrite mask_assign_length. auto. }
  unfold beta_gamma_to_x. split; [f_equal; symmetry; apply phi_app; auto|].
  intros z Hz. apply Ok_inj in Hz. rewrite <- Hz, app_length. lia.
Qed.

Notation full_reg r := (reg_sim n phi (as_regularizer argsort r) (as_regularizer argsort r)).
Lemma even_reg r w : even_penalty r -> length w = n -> exists r1, instantiate r w None = Ok r1 /\ full_reg r1.
Proof.
  intros He Hw. destruct (flip_reg n full full_signs argsort r w He Hw) as [r1 [E S]]. exists r1. split; [exact E|].
  apply (reg_sim_ext n (flip full) phi) in S; [exact S|]. intros; symmetry; apply phi_full; auto.
Qed.
Lemma l0lme_reg nb ng w o : ov_p o = p -> ov_q o = q -> length w = n ->
  exists r1, instantiate (mk_l0lme nb ng false (Some o)) w None = Ok r1 /\ full_reg r1.
Proof.
  intros Ep Eq Hw. cbn [mk_l0lme instantiate]. unfold l0lme_instantiate. cbn [lz_oracle].
  destruct (x_to_beta_gamma (ov_p o) (ov_q o) w) as [bw gw]. cbn [rbind]. eexists. split; [reflexivity|].
  unfold reg_sim. cbn [as_regularizer r_prox r_value prox value]. split; [|split].
  - intros y t Hy. refine (proj1 (l0lme_flip _ y o _ Ep Eq Hy _)); [reflexivity|]. exists bw. reflexivity.
  - intros y t z Hy. refine (proj2 (l0lme_flip _ y o _ Ep Eq Hy _) z); [reflexivity|]. exists bw. reflexivity.
  - intros x Hx. rewrite phi_full by auto. rewrite (flip_nnz n full full_signs) by auto. reflexivity.
Qed.
Lemma elastic_reg eps r1 : full_reg r1 -> full_reg (RElastic eps (Some r1)).
Proof.
  unfold reg_sim. cbn [as_regularizer r_prox r_value prox value]. intros [S1 [S2 S3]]. split; [|split].
  - intros y t Hy. destruct (guard (nonzero (1 + t * eps)) NotFinite); [|reflexivity]. cbn [rbind].
    rewrite <- S1 by (rewrite map_length; auto). f_equal. rewrite !phi_full by (rewrite ?map_length; auto). unfold flip.
    rewrite flip_map; [reflexivity|intros; unfold Rdiv; ring|apply full_signs].
  - intros y t z Hy H. apply rbind_inv in H as [u [_ H]]. apply (S2 _ _ _ (eq_trans (map_length _ _) Hy) H).
  - intros x Hx. rewrite S3 by auto. rewrite phi_full by auto. rewrite (flip_norm n full full_signs) by auto. reflexivity.
Qed.
Lemma positive_reg r1 : full_reg r1 -> full_reg (RPos (Some (repeat false p ++ repeat true q)) (Some r1)).
Proof.
  unfold reg_sim. cbn [as_regularizer r_prox r_value prox value]. intros [S1 [S2 S3]].
  set (c := repeat false p ++ repeat true q). assert (Lc : length c = n) by (unfold c; rewrite app_length, !repeat_length; auto).
  split; [|split].
  - intros y t Hy. rewrite phi_len, Hy, Lc, Nat.eqb_refl by auto. cbn [guard rbind].
    destruct (split_parts p q y Hy) as [b [g [-> [Lb [Lg _]]]]]. rewrite phi_app by auto. unfold c.
    rewrite !mask_map_app by (auto using pf_len). rewrite <- phi_app by (rewrite ?map_length; auto).
    apply S1. rewrite app_length, map_length. lia.
  - intros y t z Hy H. rewrite Hy, Lc, Nat.eqb_refl in H. cbn [guard rbind] in H.
    apply (S2 _ _ _ (eq_trans (mask_map_length _ _ _) Hy) H).
  - intros x Hx. rewrite phi_len, Hx, Lc, Nat.eqb_refl by auto. cbn [guard rbind].
    destruct (split_parts p q x Hx) as [b [g [E [Lb [Lg _]]]]]. rewrite S3 by auto.
    assert (V : mask_select c (phi x) = mask_select c x).
    { rewrite E, phi_app by auto. unfold c. rewrite !mask_select_app by (auto using pf_len). reflexivity. }
    rewrite V. reflexivity.
Qed.
Lemma model_regs m o w : ov_p o = p -> ov_q o = q -> length w = n ->
  match (let! r := model_reg m o in instantiate r w (Some o)) with Ok r => full_reg r | Err _ => True end.
Proof.
  intros Ep Eq Hw. unfold model_reg.
  assert (P : forall r, penalty_reg (mo_penalty m) o = Ok r -> exists r1, instantiate r w None = Ok r1 /\ full_reg r1).
  { intros r H. destruct (mo_penalty m); cbn [penalty_reg] in H.
    - apply Ok_inj in H. rewrite <- H. apply even_reg; auto. exact I.
    - apply Ok_inj in H. rewrite <- H. apply l0lme_reg; auto.
    - apply Ok_inj in H. rewrite <- H. apply even_reg; auto. exact I.
    - apply Ok_inj in H. rewrite <- H. apply even_reg; auto. exact I.
    - unfold mk_scad in H. apply rbind_inv in H as [u [_ H]]. apply Ok_inj in H. rewrite <- H. apply even_reg; auto. exact I. }
  destruct (penalty_reg (mo_penalty m) o) as [r|e]; [|exact I]. destruct (P r eq_refl) as [r1 [E S]].
  cbn [rbind mk_pos mk_elastic instantiate]. rewrite E. cbn [rbind]. rewrite Ep, Eq. apply positive_reg, elastic_reg, S.
Qed.

(** ** the oracle *)
Record calls_sim (c c' : lme_calls) : Prop := {
  cs_loss : forall b g, length b = p -> length g = q -> lc_loss c' (pf b) g = lc_loss c b g;
  cs_gb : forall b g, length b = p -> length g = q -> lc_gradient_beta c' (pf b) g = rmap pf (lc_gradient_beta c b g);
  cs_gbl : forall b g v, lc_gradient_beta c b g = Ok v -> length v = p;
  cs_gg : forall b g, length b = p -> length g = q -> lc_gradient_gamma c' (pf b) g = lc_gradient_gamma c b g;
  cs_ggl : forall b g v, lc_gradient_gamma c b g = Ok v -> length v = q;
  cs_ob : forall g, length g = q -> lc_optimal_beta c' g = rmap pf (lc_optimal_beta c g);
  cs_obl : forall g v, lc_optimal_beta c g = Ok v -> length v = p;
  cs_re : forall b g, length b = p -> length g = q -> lc_random_effects c' (pf b) g = rmap (map pg) (lc_random_effects c b g);
  cs_rel : forall b g us, lc_random_effects c b g = Ok us -> Forall (fun u => length u = q) us;
  cs_vaida : forall mg t b g, length b = p -> length g = q -> lc_vaida c' mg t (pf b) g = lc_vaida c mg t b g;
  cs_jones : forall t b g, length b = p -> length g = q -> lc_jones c' t (pf b) g = lc_jones c t b g;
  cs_muller : forall t b g, length b = p -> length g = q -> lc_muller c' t (pf b) g = lc_muller c t b g;
  cs_flip : forall b g, length b = p -> length g = q -> lc_flip c' (pf b) g = lc_flip c b g;
  cs_flipl : forall b g v, lc_flip c b g = Ok v -> length v = p }.
Variables c c' : lme_calls.
Hypothesis Hc : calls_sim c c'.

Lemma value_sim x : length x = n -> joint_loss p q (lc_loss c') (phi x) = joint_loss p q (lc_loss c) x.
Proof.
  intros Hx. destruct (split_parts p q x Hx) as [b [g [E [Lb [Lg Es]]]]]. unfold joint_loss. rewrite Es, E, phi_app by auto.
  rewrite parts_app by (auto using pf_len). apply (cs_loss _ _ Hc); auto.
Qed.
Lemma grad_sim x : length x = n ->
  joint_gradient p q (lc_gradient_beta c') (lc_gradient_gamma c') (phi x)
  = rmap phi (joint_gradient p q (lc_gradient_beta c) (lc_gradient_gamma c) x).
Proof.
  intros Hx. destruct (split_parts p q x Hx) as [b [g [E [Lb [Lg Es]]]]]. unfold joint_gradient. rewrite Es, phi_len, Hx by auto.
  rewrite E, phi_app, parts_app by (auto using pf_len). rewrite (cs_gb _ _ Hc), (cs_gg _ _ Hc) by auto.
  destruct (lc_gradient_beta c b g) as [gb|e] eqn:Eb; [|reflexivity]. apply (cs_gbl _ _ Hc) in Eb. cbn [rmap rbind].
  rewrite !pf_len, Eb, Lb, Nat.eqb_refl by auto. cbn [guard rbind].
  destruct (lc_gradient_gamma c b g) as [gg|e] eqn:Eg; [|reflexivity]. apply (cs_ggl _ _ Hc) in Eg. cbn [rmap rbind].
  rewrite Eg, Lg, Nat.eqb_refl. cbn [guard rbind rmap].
  replace (n - p - q)%nat with 0%nat by lia. cbn [zeros repeat]. rewrite !app_nil_r, phi_app by auto. reflexivity.
Qed.
Lemma grad_len x v : length x = n -> joint_gradient p q (lc_gradient_beta c) (lc_gradient_gamma c) x = Ok v -> length v = n.
Proof.
  intros Hx H. destruct (split_parts p q x Hx) as [b [g [E [Lb [Lg Es]]]]]. unfold joint_gradient in H. rewrite Es, Hx in H.
  apply rbind_inv in H as [gb [Eb H]]. apply rbind_inv in H as [u [_ H]]. apply rbind_inv in H as [gg [Eg H]].
  apply rbind_inv in H as [u' [_ H]]. apply Ok_inj in H. apply (cs_gbl _ _ Hc) in Eb. apply (cs_ggl _ _ Hc) in Eg.
  rewrite <- H. replace (n - p - q)%nat with 0%nat by lia. cbn [zeros repeat]. rewrite app_nil_r, app_length. lia.
Qed.

(** ** the solver *)
Lemma solver_sim solve m rg rg' x lg : mo_sr3 m = None -> reg_sim n phi rg rg' -> length x = n ->
  run_solver solve m p q c' rg' (phi x) (log_map phi lg)
  = rmap (fun r => (phi (fst r), log_map phi (snd r))) (run_solver solve m p q c rg x lg).
Proof.
  intros Hm [S1 [S2 S3]] Hx. unfold run_solver. rewrite Hm. destruct (step_length m) as [st|e]; [|reflexivity]. cbn [rbind].
  match goal with |- context [pgd_optimize _ rg' ?s _ _ _] => set (slv := s) end.
  pose proof (optimize_map n phi phi_len phi_add phi_sub phi_scale phi_neg phi_dot unit unit
    (fun s => s) (lme_as_oracle p q c) (lme_as_oracle p q c') rg rg' slv) as O.
  rewrite O; auto.
  - destruct (pgd_optimize _ rg slv x tt lg) as [[[x' lg'] s]|e]; reflexivity.
  - intros s y Hy. cbn [lme_as_oracle o_value]. rewrite value_sim by auto.
    destruct (joint_loss p q (lc_loss c) y); reflexivity.
  - intros s y Hy. cbn [lme_as_oracle o_grad]. rewrite grad_sim by auto.
    destruct (joint_gradient _ _ _ _ y); reflexivity.
  - intros s y g s' Hy H. cbn [lme_as_oracle o_grad] in H. apply rbind_inv in H as [v [E H]].
    apply grad_len in E; auto. congruence.
Qed.
Lemma solver_len solve m rg rg' x lg x' lg' : mo_sr3 m = None -> reg_sim n phi rg rg' -> length x = n ->
  run_solver solve m p q c rg x lg = Ok (x', lg') -> length x' = n.
Proof.
  intros Hm [S1 [S2 S3]] Hx H. unfold run_solver in H. rewrite Hm in H. apply rbind_inv in H as [st [_ H]].
  apply rbind_inv in H as [[[x1 lg1] s1] [E H]]. apply Ok_inj in H. replace x' with x1 by congruence.
  revert E. apply (optimize_len n phi phi_len phi_add phi_sub phi_scale phi_neg phi_dot unit unit
    (fun s => s) (lme_as_oracle p q c) (lme_as_oracle p q c') rg rg'); auto.
  1:{ intros s y Hy. cbn [lme_as_oracle o_value]. rewrite value_sim by auto. destruct (joint_loss p q (lc_loss c) y); reflexivity. }
  1:{ intros s y Hy. cbn [lme_as_oracle o_grad]. rewrite grad_sim by auto. destruct (joint_gradient _ _ _ _ y); reflexivity. }
  intros s y g s' Hy H'. cbn [lme_as_oracle o_grad] in H'. apply rbind_inv in H' as [v [E H']].
  apply grad_len in E; auto. congruence.
Qed.

(** ** the rest of a fit *)
Lemma add_if_sim k v v' lg : v' = rmap (value_map phi) v ->
  add_if (log_map phi lg) k v' = rmap (log_map phi) (add_if lg k v).
Proof.
  intros ->. unfold add_if. cbn [log_map lg_keys]. destruct (has_key k (lg_keys lg)); [|reflexivity].
  destruct v as [a|e]; [|reflexivity]. cbn [rmap rbind]. apply (log_map_add phi lg k (LAtom a)).
Qed.
Lemma criteria_sim m b g lg : length b = p -> length g = q ->
  log_criteria m c' (pf b) g (log_map phi lg) = rmap (log_map phi) (log_criteria m c b g lg).
Proof.
  intros Hb H. unfold log_criteria.
  assert (B : forall (r : res logger) (k k' : logger -> res logger), (forall l, k' (log_map phi l) = rmap (log_map phi) (k l)) ->
    rbind (rmap (log_map phi) r) k' = rmap (log_map phi) (rbind r k)) by (intros [l|e] k k' E; [apply E|reflexivity]).
  assert (FL : (let! v := lc_flip c' (pf b) g in Ok (LVec v)) = rmap (value_map phi) (let! v := lc_flip c b g in Ok (LVec v))).
  { rewrite (cs_flip _ _ Hc) by auto. destruct (lc_flip c b g) as [v|e] eqn:E; [|reflexivity]. apply (cs_flipl _ _ Hc) in E.
    cbn [rmap rbind value_map]. rewrite phi_fixed by auto. reflexivity. }
  match goal with |- context [guard ?x ?y] => destruct (guard x y) as [[]|e] end; cbn [rbind].
  - rewrite (add_if_sim _ (let! v := lc_vaida c false (sqrt (solver_tol m)) b g in Ok (LNum v))).
    2:{ rewrite (cs_vaida _ _ Hc) by auto. destruct (lc_vaida c false _ b g); reflexivity. }
    apply B. intros l1. rewrite (add_if_sim _ (let! v := lc_vaida c true (sqrt (solver_tol m)) b g in Ok (LNum v))).
    2:{ rewrite (cs_vaida _ _ Hc) by auto. destruct (lc_vaida c true _ b g); reflexivity. }
    apply B. intros l2. rewrite (add_if_sim _ (let! v := lc_jones c (sqrt (solver_tol m)) b g in Ok (LNum v))).
    2:{ rewrite (cs_jones _ _ Hc) by auto. destruct (lc_jones c _ b g); reflexivity. }
    apply B. intros l3. rewrite (add_if_sim _ (let! v := lc_muller c (sqrt (solver_tol m)) b g in Ok (LNum v))).
    2:{ rewrite (cs_muller _ _ Hc) by auto. destruct (lc_muller c _ b g); reflexivity. }
    apply B. intros l4. apply add_if_sim, FL.
  - do 4 (rewrite (add_if_sim _ (Err e)) by reflexivity; apply B; intros ?). apply add_if_sim, FL.
Qed.
Lemma squares_flip sg u : all_signs sg -> length sg = length u -> map (fun a => a ^ 2) (flip sg u) = map (fun a => a ^ 2) u.
Proof. intros A L. unfold flip. apply (flip_map_even (fun a => a ^ 2)); auto. intros s y [->| ->]; ring. Qed.
Lemma squares_sim us k : Forall (fun u => length u = q) us -> mean_squares q (map pg us) k = mean_squares q us k.
Proof.
  intros F. unfold mean_squares. destruct (guard (0 <? k)%nat NotFinite); [|reflexivity]. cbn [rbind]. do 2 f_equal.
  induction F as [|u us Hu F IH]; [reflexivity|]. cbn [map fold_right]. rewrite IH. f_equal.
  destruct Hg. apply squares_flip; auto. lia.
Qed.
Lemma squares_len us k v : mean_squares q us k = Ok v -> Forall (fun u => length u = q) us -> length v = q.
Proof.
  unfold mean_squares. intros H F. apply rbind_inv in H as [u [_ H]]. apply Ok_inj in H. rewrite <- H, map_length.
  clear H. induction F as [|w us Hu F IH]; [apply zeros_length|]. cbn [fold_right]. unfold vadd. rewrite map2_length, map_length. etransitivity; [apply f_equal2; [exact Hu|exact IH]|]. apply Nat.min_id.
Qed.
Lemma initialize_sim m k b b' g : mo_sr3 m = None -> length b = p -> length g = q ->
  (b' = pf b \/ mo_initializer m = "EM"%string) ->
  initialize m q k c' (b', g) = rmap (fun r => (pf (fst r), snd r)) (initialize m q k c (b, g)) /\
  forall b1 g1, initialize m q k c (b, g) = Ok (b1, g1) -> length b1 = p /\ length g1 = q.
Proof.
  intros Hm Hb H Hs. unfold initialize. rewrite Hm. cbn [fst snd]. destruct (String.eqb (mo_initializer m) "EM") eqn:EM.
  2:{ destruct Hs as [->|Hs]; [|rewrite Hs in EM; discriminate]. split; [reflexivity|].
      intros b1 g1 E. apply Ok_inj in E. inversion E; subst. auto. }
  rewrite (cs_ob _ _ Hc) by auto. destruct (lc_optimal_beta c g) as [b1|e] eqn:Eb; [|split; [reflexivity|discriminate]].
  apply (cs_obl _ _ Hc) in Eb. cbn [rmap rbind]. rewrite (cs_re _ _ Hc) by auto.
  destruct (lc_random_effects c b1 g) as [us|e] eqn:Eu; [|split; [reflexivity|discriminate]].
  apply (cs_rel _ _ Hc) in Eu. cbn [rmap rbind]. rewrite squares_sim by auto.
  destruct (mean_squares q us k) as [g1|e] eqn:Es; [|split; [reflexivity|discriminate]]. cbn [rmap rbind fst snd].
  apply squares_len in Es; auto.
  split; [reflexivity|]. intros b2 g2 E. apply Ok_inj in E. inversion E; subst. auto.
Qed.
Lemma start_sim coef warm b0 g0 : (forall v, b0 = Some v -> length v = p) -> (forall v, g0 = Some v -> length v = q) ->
  exists b b' g, length b = p /\ length g = q /\ start_point coef warm b0 g0 p q = Ok (b, g) /\
    start_point coef warm (option_map pf b0) g0 p q = Ok (b', g) /\ (b0 <> None -> b' = pf b).
Proof.
  intros Hb H. exists (match b0 with Some b => b | None => ones p end),
    (match option_map pf b0 with Some b => b | None => ones p end), (match g0 with Some g => g | None => ones q end).
  split; [destruct b0; [auto|apply ones_length]|]. split; [destruct g0; [auto|apply ones_length]|].
  unfold start_point. destruct coef as [co|]; [destruct warm|]; cbn [sk_check_is_fitted rbind];
    (split; [reflexivity|split; [reflexivity|destruct b0; [reflexivity|congruence]]]).
Qed.
End Signs.

Section Fit.
Variables (p q : nat) (e : R) (s1 s2 cs : vec).
Hypothesis q0 : (0 < q)%nat.
Notation d1 := (vscale e s1) (only parsing).
Notation d2 := (vscale e s2).
Hypothesis Hf : is_signs p d1.
Hypothesis Hg : is_signs q d2.
Variables (argsort : vec -> list nat) (solve : mat -> vec -> res vec)
  (calls_of : lme_problem -> option gauss_lme -> option sr3_settings -> lme_calls).
Variables (pr pr' : lme_problem) (fe re : option vec) (ov : oracle_view) (wf wr : vec).
Hypothesis Ep : num_fixed pr = p.
Hypothesis Ep' : num_fixed pr' = p.
Hypothesis Eq : num_random pr = q.
Hypothesis Eq' : num_random pr' = q.
Hypothesis En : num_groups pr' = num_groups pr.
Hypothesis El : pr_group_labels pr' = pr_group_labels pr.
Hypothesis Ev : oracle_view_of pr = Ok ov /\ ov_p ov = p /\ ov_q ov = q.
Hypothesis Ev' : oracle_view_of pr' = Ok ov.
Hypothesis Ew : fit_weights pr fe re = Ok (wf, wr) /\ length wf = p /\ length wr = q.
Hypothesis Ew' : fit_weights pr' fe re = Ok (wf, wr).
Hypothesis Hc : calls_sim p q d1 d2 (calls_of pr None None) (calls_of pr' None None).
Hypothesis Hpg : forall b us, length b = p -> Forall (fun u => length u = q) us ->
  per_group_coefficients (flip d1 b) (map (flip d2) us) (pr_intercept pr' :: map Some (pr_labels pr'))
  = rmap (map (flip (vscale e (1 :: cs)))) (per_group_coefficients b us (pr_intercept pr :: map Some (pr_labels pr))).

Lemma fit_problem_sim m coef b0 g0 warm : plain_model_of m ->
  (b0 <> None \/ mo_initializer m = "EM"%string) ->
  (forall v, b0 = Some v -> length v = p) -> (forall v, g0 = Some v -> length v = q) ->
  fit_problem argsort solve calls_of m coef pr' (option_map (flip d1) b0) g0 warm fe re
  = rmap (flip_lme_fit q e s1 s2 cs) (fit_problem argsort solve calls_of m coef pr b0 g0 warm fe re).
Proof.
  intros [Hm1 Hm2] Hs Hb0 Hg0. unfold fit_problem. rewrite Ep, Ep', Eq, Eq', En, El.
  destruct (step_length m) as [st|er]; [|reflexivity]. cbn [rbind].
  match goal with |- context [match mo_penalty m with PenSCAD _ _ _ => _ | _ => _ end] =>
    destruct (match mo_penalty m with PenSCAD lam rho sigma => rmap (fun _ => tt) (mk_scad rho sigma lam) | _ => Ok tt end) as [[]|er] end;
    [|reflexivity]. cbn [rbind].
  destruct Ev as [-> [E1 E2]]. rewrite Ev'. cbn [rbind]. unfold prior_of. rewrite Hm2, Hm1. cbn [rbind].
  destruct Ew as [-> [Lf Lr]]. rewrite Ew'. cbn [rbind].
  assert (Lw : length (wf ++ wr) = (p + q)%nat) by (rewrite app_length; lia).
  pose proof (model_regs p q d1 Hf q0 argsort m ov (wf ++ wr) E1 E2 Lw) as S.
  destruct (model_reg m ov) as [r0|er]; [|reflexivity]. cbn [rbind] in *. unfold beta_gamma_to_x at 1 3.
  destruct (instantiate r0 (wf ++ wr) (Some ov)) as [r|er]; [|reflexivity]. cbn [rbind].
  destruct (start_sim p q d1 coef warm b0 g0 Hb0 Hg0) as [b [b' [g [Lb [Lg [B1 [B2 B3]]]]]]]. rewrite B1, B2. cbn [rbind].
  assert (Hs' : b' = flip d1 b \/ mo_initializer m = "EM"%string) by (destruct Hs; auto).
  destruct (initialize_sim p q d1 d2 Hg q0 _ _ Hc m (num_groups pr) b b' g Hm1 Lb Lg Hs') as [J1 J2]. rewrite J1.
  destruct (initialize m q (num_groups pr) (calls_of pr None None) (b, g)) as [[b1 g1]|er]; [|reflexivity]. cbn [rmap rbind fst snd].
  destruct (J2 b1 g1 eq_refl) as [Lb1 Lg1].
  rewrite (log_map_new (flip_parameters q d1) (Some (mo_keys m))) at 1.
  destruct (mk_logger (Some (mo_keys m))) as [lg|er]; [|reflexivity]. cbn [rmap rbind].
  unfold beta_gamma_to_x. rewrite <- (phi_app p q d1 Hf) by auto.
  assert (Lx : length (b1 ++ g1) = (p + q)%nat) by (rewrite app_length; lia).
  rewrite (solver_sim p q d1 d2 Hf q0 _ _ Hc solve m _ _ (b1 ++ g1) lg Hm1 S Lx).
  destruct (run_solver solve m p q (calls_of pr None None) (as_regularizer argsort r) (b1 ++ g1) lg) as [[x lg1]|er] eqn:Erun; [|reflexivity].
  apply (solver_len p q d1 d2 Hf q0 _ _ Hc solve m _ _ (b1 ++ g1) lg x lg1 Hm1 S Lx) in Erun. cbn [rmap rbind fst snd].
  destruct (split_parts p q x Erun) as [b2 [g2 [E [Lb2 [Lg2 Es]]]]]. rewrite Es, E, (phi_app p q d1 Hf) by auto.
  rewrite parts_app by (auto; apply (pf_len p d1 Hf); auto).
  rewrite (cs_re _ _ _ _ _ _ Hc) by auto.
  destruct (lc_random_effects (calls_of pr None None) b2 g2) as [us|er] eqn:Eu; [|reflexivity].
  apply (cs_rel _ _ _ _ _ _ Hc) in Eu. cbn [rmap rbind]. rewrite Hpg by auto.
  destruct (per_group_coefficients b2 us _) as [pgs|er]; [|reflexivity]. cbn [rmap rbind].
  rewrite (criteria_sim p q d1 d2 Hf q0 _ _ Hc) by auto.
  destruct (log_criteria m (calls_of pr None None) b2 g2 lg1) as [lg2|er]; [|reflexivity]. reflexivity.
Qed.
End Fit.
