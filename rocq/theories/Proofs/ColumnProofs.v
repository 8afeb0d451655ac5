(** Lemmas: the solver commutes with linear isometries that the oracle and the regularizer respect. *)
From Coq Require Import Lra Permutation.
From Verif.Base Require Import Py Vec Mat.
From Verif.Model Require Import Regularizers Linear.
From Verif.Spec Require Import ProxSpec LinearSpec ColumnSpec.
From Verif.Proofs Require Import VecFacts MatFacts SolverProofs LinearProofs.
Open Scope R_scope.

(** ** logs *)
Lemma lookup_snd {A B} (f : A -> B) k d : lookup k (snd_map f d) = option_map f (lookup k d).
Proof. induction d as [|[k' v] d IH]; [reflexivity|]. simpl. destruct (String.eqb k k'); auto. Qed.
Lemma dict_set_snd {A B} (f : A -> B) k v d : dict_set k (f v) (snd_map f d) = snd_map f (dict_set k v d).
Proof. induction d as [|[k' v'] d IH]; [reflexivity|]. simpl. destruct (String.eqb k k'); simpl; [|rewrite IH]; reflexivity. Qed.
Lemma log_keys_map f ks params : forall d,
  log_keys ks (snd_map (value_map f) params) (snd_map (entry_map f) d)
  = rmap (snd_map (entry_map f)) (log_keys ks params d).
Proof.
  induction ks as [|k ks IH]; intros d; [reflexivity|]. simpl. rewrite !lookup_snd.
  destruct (lookup k d) as [[l|v]|]; simpl; auto.
  destruct (lookup k params) as [v|]; simpl; auto.
  rewrite <- IH. f_equal. rewrite <- dict_set_snd. simpl. rewrite map_app. reflexivity.
Qed.
Lemma log_map_log f lg params : log (log_map f lg) (snd_map (value_map f) params) = rmap (log_map f) (log lg params).
Proof. unfold log. cbn [log_map lg_keys lg_dict lg_kind]. rewrite log_keys_map. destruct (log_keys _ _ _); reflexivity. Qed.
Lemma log_map_add f lg k v : add (log_map f lg) k (entry_map f v) = rmap (log_map f) (add lg k v).
Proof.
  unfold add. cbn [log_map lg_keys lg_dict lg_kind]. destruct (has_key k (lg_keys lg)).
  - simpl. unfold log_map. simpl. rewrite dict_set_snd. reflexivity.
  - destruct (lg_kind lg); try reflexivity. simpl. unfold log_map. simpl. rewrite dict_set_snd. reflexivity.
Qed.
Lemma log_map_new f keys : mk_logger keys = rmap (log_map f) (mk_logger keys).
Proof.
  destruct keys as [[kd ks]|]; [|reflexivity]. simpl. f_equal. unfold log_map. simpl. f_equal.
  assert (G : forall d, snd_map (entry_map f) (fold_left (fun d k => dict_set k (LList []) d) ks d)
                        = fold_left (fun d k => dict_set k (LList []) d) ks (snd_map (entry_map f) d)).
  { induction ks as [|k ks IH]; intros d; [reflexivity|]. simpl. rewrite IH. f_equal.
    symmetry. apply (dict_set_snd (entry_map f) k (LList [])). }
  rewrite G. reflexivity.
Qed.

(** ** the solver *)
Section Isometry.
Variables (n : nat) (phi : vec -> vec).
Hypothesis phi_len : forall x, length x = n -> length (phi x) = n.
Hypothesis phi_add : forall x y, length x = n -> length y = n -> phi (vadd x y) = vadd (phi x) (phi y).
Hypothesis phi_sub : forall x y, length x = n -> length y = n -> phi (vsub x y) = vsub (phi x) (phi y).
Hypothesis phi_scale : forall c x, length x = n -> phi (vscale c x) = vscale c (phi x).
Hypothesis phi_neg : forall x, length x = n -> phi (vneg x) = vneg (phi x).
Hypothesis phi_dot : forall x y, length x = n -> length y = n -> vdot (phi x) (phi y) = vdot x y.

Lemma phi_move x d s : length x = n -> length d = n -> move (phi x) (phi d) s = rmap phi (move x d s).
Proof.
  intros Hx Hd. unfold move. rewrite !phi_len, Hx, Hd, Nat.eqb_refl by auto. simpl.
  rewrite phi_add, phi_scale by (rewrite ?vscale_length; auto). reflexivity.
Qed.
Lemma phi_moved tol x xp : length x = n -> (forall v, xp = Some v -> length v = n) ->
  moved tol (phi x) (option_map phi xp) = moved tol x xp.
Proof.
  intros Hx Hp. destruct xp as [v|]; simpl.
  - specialize (Hp v eq_refl). rewrite !phi_len, Hx, Hp, Nat.eqb_refl by auto. simpl.
    rewrite <- phi_sub by auto. unfold norm, sqnorm. rewrite phi_dot by (apply vsub_len; auto). reflexivity.
  - pose proof (phi_len x Hx) as L. revert L. generalize (phi x). intros u L.
    destruct x as [|a x], u as [|c u]; cbn [length] in *; try reflexivity; lia.
Qed.
Lemma move_len x d s y : length x = n -> length d = n -> move x d s = Ok y -> length y = n.
Proof.
  unfold move. intros Hx Hd H. rewrite Hd, Hx, Nat.eqb_refl in H. simpl in H. apply Ok_inj in H. subst y.
  apply vadd_len; auto. rewrite vscale_length; auto.
Qed.

Variables (S S' : Type) (psi : S -> S') (orc : oracle S) (orc' : oracle S') (rg rg' : regularizer) (slv : pgd_solver).
Definition on_snd {A : Type} (f : A -> A) (r : A * S) : A * S' := (f (fst r), psi (snd r)).
Hypothesis Hval : forall s x, length x = n -> o_value orc' (psi s) (phi x) = rmap (on_snd (fun v => v)) (o_value orc s x).
Hypothesis Hgrad : forall s x, length x = n -> o_grad orc' (psi s) (phi x) = rmap (on_snd phi) (o_grad orc s x).
Hypothesis Hglen : forall s x g s', length x = n -> o_grad orc s x = Ok (g, s') -> length g = n.
Hypothesis Hprox : forall y t, length y = n -> r_prox rg' (phi y) t = rmap phi (r_prox rg y t).
Hypothesis Hplen : forall y t z, length y = n -> r_prox rg y t = Ok z -> length z = n.
Hypothesis Hrval : forall x, length x = n -> r_value rg' (phi x) = r_value rg x.

Lemma accept_map s x d z t : length x = n -> length d = n -> length z = n ->
  ls_accept orc' (psi s) (phi x) (phi d) (phi z) t = rmap (on_snd (fun b => b)) (ls_accept orc s x d z t).
Proof.
  intros Hx Hd Hz. unfold ls_accept. rewrite Hval by auto.
  destruct (o_value orc s z) as [[fz s1]|e]; [|reflexivity]. cbn [rmap rbind on_snd fst snd].
  rewrite Hval by auto. destruct (o_value orc s1 x) as [[fx s2]|e]; [|reflexivity].
  cbn [rmap rbind on_snd fst snd]. rewrite !phi_len, Hx, Hz, Nat.eqb_refl by auto. cbn [guard rbind].
  rewrite <- phi_sub by auto. assert (L : length (vsub z x) = n) by (apply vsub_len; auto).
  rewrite phi_dot by auto. unfold norm, sqnorm. rewrite phi_dot by auto. reflexivity.
Qed.

Definition ls_map (r : R * option vec * S) : R * option vec * S' :=
  (fst (fst r), option_map phi (snd (fst r)), psi (snd r)).
Lemma line_search_map fuel : forall s x d t z, length x = n -> length d = n ->
  line_search orc' rg' fuel (psi s) (phi x) (phi d) t (option_map phi z)
  = rmap ls_map (line_search orc rg fuel s x d t z).
Proof.
  induction fuel as [|fuel IH]; intros s x d t z Hx Hd; simpl.
  - destruct (rltb ls_threshold t); reflexivity.
  - destruct (rltb ls_threshold t); [|reflexivity].
    rewrite phi_move by auto. destruct (move x d t) as [y|e] eqn:Ey; [|reflexivity]. cbn [rmap rbind].
    assert (Ly : length y = n) by (apply (move_len x d t); auto).
    rewrite Hprox by auto. destruct (r_prox rg y t) as [z'|e] eqn:Ez; [|reflexivity]. cbn [rmap rbind].
    assert (Lz : length z' = n) by (apply (Hplen y t); auto).
    rewrite accept_map by auto.
    destruct (ls_accept orc s x d z' t) as [[ok s']|e]; [|reflexivity]. cbn [rmap rbind on_snd fst snd].
    destruct ok; [reflexivity|]. apply (IH s' x d (t * (1 / 2)) (Some z')); auto.
Qed.

Definition state_map (st : @pgd_state S) : @pgd_state S' :=
  {| st_x := phi (st_x st); st_x_prev := option_map phi (st_x_prev st); st_iteration := st_iteration st;
     st_loss := st_loss st; st_direction := option_map phi (st_direction st); st_step_len := st_step_len st;
     st_y := option_map phi (st_y st); st_z := option_map phi (st_z st); st_oracle := psi (st_oracle st);
     st_logger := log_map phi (st_logger st) |}.

Lemma locals_map x0 st : pgd_locals (phi x0) (state_map st) = snd_map (value_map phi) (pgd_locals x0 st).
Proof.
  unfold pgd_locals, snd_map. rewrite !map_app.
  destruct st as [x xp it [l|] [d|] [t|] [y|] [z|] s lg]; destruct xp; try destruct l; reflexivity.
Qed.
Lemma log_state_map x0 st : length (st_x st) = n ->
  log_state orc' rg' (phi x0) (state_map st) = rmap state_map (log_state orc rg x0 st).
Proof.
  intros Hx. unfold log_state. cbn [state_map st_logger st_x st_oracle st_loss st_x_prev st_iteration st_direction
    st_step_len st_y st_z log_map lg_keys]. rewrite Hval, Hrval by auto.
  assert (G : forall l s,
    rbind (if (0 <? length (lg_keys (st_logger st)))%nat
           then log (log_map phi (st_logger st)) (pgd_locals (phi x0)
             {| st_x := phi (st_x st); st_x_prev := option_map phi (st_x_prev st); st_iteration := st_iteration st;
                st_loss := l; st_direction := option_map phi (st_direction st); st_step_len := st_step_len st;
                st_y := option_map phi (st_y st); st_z := option_map phi (st_z st); st_oracle := psi s;
                st_logger := log_map phi (st_logger st) |})
           else Ok (log_map phi (st_logger st)))
      (fun lg => Ok {| st_x := phi (st_x st); st_x_prev := option_map phi (st_x_prev st); st_iteration := st_iteration st;
                st_loss := l; st_direction := option_map phi (st_direction st); st_step_len := st_step_len st;
                st_y := option_map phi (st_y st); st_z := option_map phi (st_z st); st_oracle := psi s;
                st_logger := lg |})
    = rmap state_map
     (rbind (if (0 <? length (lg_keys (st_logger st)))%nat
           then log (st_logger st) (pgd_locals x0
             {| st_x := st_x st; st_x_prev := st_x_prev st; st_iteration := st_iteration st;
                st_loss := l; st_direction := st_direction st; st_step_len := st_step_len st;
                st_y := st_y st; st_z := st_z st; st_oracle := s; st_logger := st_logger st |})
           else Ok (st_logger st))
      (fun lg => Ok {| st_x := st_x st; st_x_prev := st_x_prev st; st_iteration := st_iteration st;
                st_loss := l; st_direction := st_direction st; st_step_len := st_step_len st;
                st_y := st_y st; st_z := st_z st; st_oracle := s; st_logger := lg |}))).
  { intros l s. destruct (0 <? length (lg_keys (st_logger st)))%nat; [|reflexivity].
    match goal with |- context [pgd_locals x0 ?st1] => pose proof (locals_map x0 st1) as EL end.
    unfold state_map in EL at 1. cbn [st_x st_x_prev st_iteration st_loss st_direction st_step_len st_y st_z
      st_oracle st_logger] in EL. rewrite EL. rewrite log_map_log. destruct (log _ _); reflexivity. }
  destruct (has_key "loss" (lg_keys (st_logger st))).
  - destruct (o_value orc (st_oracle st) (st_x st)) as [[f s]|e]; [|reflexivity]. cbn [rmap rbind on_snd fst snd].
    destruct (r_value rg (st_x st)) as [v|e]; [|reflexivity]. cbn [rmap rbind]. apply G.
  - cbn [rbind]. apply G.
Qed.
Lemma log_state_x x0 st st' : log_state orc rg x0 st = Ok st' ->
  st_x st' = st_x st /\ st_x_prev st' = st_x_prev st.
Proof.
  unfold log_state. intros H. apply rbind_inv in H as [[l s] [_ H]]. apply rbind_inv in H as [lg [_ H]].
  apply Ok_inj in H. subst st'. split; reflexivity.
Qed.

Definition sized (st : @pgd_state S) : Prop :=
  length (st_x st) = n /\ forall v, st_x_prev st = Some v -> length v = n.

Lemma step_map x0 st : sized st ->
  pgd_step orc' rg' slv (phi x0) (state_map st) = rmap state_map (pgd_step orc rg slv x0 st) /\
  forall st', pgd_step orc rg slv x0 st = Ok st' -> sized st'.
Proof.
  intros [Hx _]. unfold pgd_step. cbn [state_map st_x st_oracle st_z st_iteration st_loss st_logger].
  rewrite Hgrad by auto.
  destruct (o_grad orc (st_oracle st) (st_x st)) as [[g s1]|e] eqn:Eg; [|split; [reflexivity|discriminate]].
  cbn [rmap rbind on_snd fst snd]. assert (Lg : length g = n) by (apply (Hglen (st_oracle st) (st_x st) g s1); auto).
  rewrite <- phi_neg by auto. assert (Ln : length (vneg g) = n) by (rewrite vneg_length; auto).
  assert (EL : (if String.eqb (s_stepping slv) "line-search"
     then line_search orc' rg' (ls_fuel (s_step_len slv)) (psi s1) (phi (st_x st)) (phi (vneg g)) (s_step_len slv)
            (option_map phi (st_z st))
     else Ok (s_step_len slv, option_map phi (st_z st), psi s1)) = rmap ls_map
    (if String.eqb (s_stepping slv) "line-search"
     then line_search orc rg (ls_fuel (s_step_len slv)) s1 (st_x st) (vneg g) (s_step_len slv) (st_z st)
     else Ok (s_step_len slv, st_z st, s1))).
  { destruct (String.eqb _ _); [|reflexivity]. apply line_search_map; auto. }
  rewrite EL.
  match goal with |- context [rmap ls_map ?m] => destruct m as [[[t z] s2]|e] end;
    [|split; [reflexivity|discriminate]].
  cbn [rmap rbind ls_map fst snd]. rewrite phi_move by auto.
  destruct (move (st_x st) (vneg g) t) as [y|e] eqn:Ey; [|split; [reflexivity|discriminate]]. cbn [rmap rbind].
  assert (Ly : length y = n) by (apply (move_len (st_x st) (vneg g) t); auto).
  rewrite Hprox by auto. destruct (r_prox rg y t) as [x'|e] eqn:Ez; [|split; [reflexivity|discriminate]].
  cbn [rmap rbind]. assert (Lz : length x' = n) by (apply (Hplen y t); auto).
  match goal with |- context [log_state orc rg x0 ?t1] => set (st1 := t1) end. split.
  - exact (log_state_map x0 st1 Lz).
  - intros st' H. apply log_state_x in H as [H1 H2]. split.
    + rewrite H1. exact Lz.
    + intros v Hv. rewrite H2 in Hv. unfold st1 in Hv. cbn [st_x_prev] in Hv. inversion Hv; subst. auto.
Qed.

Lemma loop_map x0 : forall fuel st, sized st ->
  pgd_loop orc' rg' slv fuel (phi x0) (state_map st) = rmap state_map (pgd_loop orc rg slv fuel x0 st).
Proof.
  induction fuel as [|fuel IH]; intros st Hs; simpl;
    pose proof (phi_moved (s_tol slv) (st_x st) (st_x_prev st) (proj1 Hs) (proj2 Hs)) as EM; rewrite EM; clear EM;
    (destruct (moved (s_tol slv) (st_x st) (st_x_prev st)) as [m|e]; [|reflexivity]); cbn [rbind];
    (destruct (m && _)%bool; [|reflexivity]).
  - reflexivity.
  - destruct (step_map x0 st Hs) as [E1 E2]. rewrite E1.
    destruct (pgd_step orc rg slv x0 st) as [st'|e]; [|reflexivity]. cbn [rmap rbind]. apply IH. auto.
Qed.

Definition run_map (r : vec * logger * S) : vec * logger * S' :=
  (phi (fst (fst r)), log_map phi (snd (fst r)), psi (snd r)).
Theorem optimize_map x0 s lg : length x0 = n ->
  pgd_optimize orc' rg' slv (phi x0) (psi s) (log_map phi lg) = rmap run_map (pgd_optimize orc rg slv x0 s lg).
Proof.
  intros Hx. unfold pgd_optimize.
  change (pgd_init (phi x0) (psi s) (log_map phi lg)) with (state_map (pgd_init x0 s lg)).
  rewrite log_state_map by exact Hx.
  destruct (log_state orc rg x0 (pgd_init x0 s lg)) as [st0|e] eqn:E0; [|reflexivity]. cbn [rmap rbind].
  apply log_state_x in E0 as [E1 E2]. rewrite loop_map.
  2:{ split; rewrite ?E1, ?E2; simpl; auto; discriminate. }
  destruct (pgd_loop orc rg slv _ x0 st0) as [st|e]; [|reflexivity]. cbn [rmap rbind state_map st_logger st_iteration st_x st_oracle].
  pose proof (log_map_add phi (st_logger st) "converged"
    (LAtom (LBool (Z.of_nat (st_iteration st) <? s_max_iter slv)%Z))) as A1. cbn [entry_map value_map] in A1. rewrite A1.
  destruct (add (st_logger st) "converged" _) as [lg1|e]; [|reflexivity]. cbn [rmap rbind].
  pose proof (log_map_add phi lg1 "iteration" (LAtom (LNum (INR (st_iteration st))))) as A2.
  cbn [entry_map value_map] in A2. rewrite A2.
  destruct (add lg1 "iteration" _) as [lg2|e]; reflexivity.
Qed.
Lemma loop_sized x0 : forall fuel st st', sized st -> pgd_loop orc rg slv fuel x0 st = Ok st' -> sized st'.
Proof.
  induction fuel as [|fuel IH]; intros st st' Hs H; simpl in H; apply rbind_inv in H as [m [_ H]];
    (destruct (m && _)%bool; [|apply Ok_inj in H; subst; auto]); [discriminate|].
  apply rbind_inv in H as [st1 [H1 H]]. apply (IH st1); auto. apply (step_map x0 st); auto.
Qed.
Lemma optimize_len x0 s lg x lg' s' : length x0 = n ->
  pgd_optimize orc rg slv x0 s lg = Ok (x, lg', s') -> length x = n.
Proof.
  intros Hx H. unfold pgd_optimize in H. apply rbind_inv in H as [st0 [E0 H]].
  apply rbind_inv in H as [st [E1 H]]. apply rbind_inv in H as [lg1 [_ H]]. apply rbind_inv in H as [lg2 [_ H]].
  apply Ok_inj in H. replace x with (st_x st) by congruence. apply log_state_x in E0 as [E2 E3].
  assert (H0 : sized st0) by (split; [rewrite E2; exact Hx|rewrite E3; discriminate]).
  exact (proj1 (loop_sized x0 _ _ _ H0 E1)).
Qed.
End Isometry.
