(** Lemmas about the logger and proximal gradient descent. *)
From Coq Require Import Lra Psatz.
From Verif.Base Require Import Py Vec.
From Verif.Model Require Import Logger Solvers.
From Verif.Spec Require Import ProxSpec SolverSpec.
From Verif.Proofs Require Import VecFacts.
Open Scope R_scope.

(** ** inversion of the error monad *)
Lemma rbind_inv {A B} (m : res A) (f : A -> res B) b :
  rbind m f = Ok b -> exists a, m = Ok a /\ f a = Ok b.
Proof. destruct m; simpl; intros H; [eauto | discriminate]. Qed.
Lemma guard_inv b e u : guard b e = Ok u -> b = true.
Proof. destruct b; simpl; congruence. Qed.
Lemma rbind_oof {A B} (m : res A) (f : A -> res B) :
  no_oof m -> (forall a, m = Ok a -> no_oof (f a)) -> no_oof (rbind m f).
Proof. unfold no_oof. destruct m; simpl; intros; auto. congruence. Qed.
Lemma guard_oof b e : e <> OutOfFuel -> no_oof (guard b e).
Proof. unfold no_oof; destruct b; simpl; congruence. Qed.
Lemma ok_oof {A} (a : A) : no_oof (Ok a).
Proof. unfold no_oof; congruence. Qed.

(** ** dictionaries *)
Lemma lookup_set {V} k k' (v : V) d :
  lookup k (dict_set k' v d) = if String.eqb k k' then Some v else lookup k d.
Proof.
  induction d as [|[k0 v0] d IH]; simpl; [reflexivity|].
  destruct (String.eqb_spec k' k0); simpl.
  - subst. destruct (String.eqb_spec k k0); auto.
  - destruct (String.eqb_spec k k0); simpl; auto.
    subst. destruct (String.eqb_spec k0 k'); congruence.
Qed.
Lemma lookup_set_same {V} k (v : V) d : lookup k (dict_set k v d) = Some v.
Proof. rewrite lookup_set, String.eqb_refl; reflexivity. Qed.
Lemma lookup_set_other {V} k k' (v : V) d : k <> k' -> lookup k (dict_set k' v d) = lookup k d.
Proof. intros H. rewrite lookup_set. destruct (String.eqb_spec k k'); congruence. Qed.
Lemma has_key_In k ks : has_key k ks = true <-> In k ks.
Proof.
  unfold has_key. rewrite existsb_exists. split.
  - intros [x [H E]]. apply String.eqb_eq in E. subst; auto.
  - intros H. exists k. rewrite String.eqb_refl; auto.
Qed.

(** ** the logger *)
Lemma fold_set_lookup ks : forall (d : list (string * lobj)) k,
  lookup k (fold_left (fun d k => dict_set k (LList []) d) ks d) =
  if has_key k ks then Some (LList []) else lookup k d.
Proof.
  induction ks as [|a ks IH]; intros d k; simpl; [reflexivity|].
  rewrite IH, lookup_set. unfold has_key. simpl.
  destruct (existsb (String.eqb k) ks); [destruct (String.eqb k a); reflexivity|].
  destruct (String.eqb k a); reflexivity.
Qed.
Lemma mk_logger_wf kd ks lg : mk_logger (Some (kd, ks)) = Ok lg ->
  logger_wf lg /\ lg_keys lg = ks /\ lg_kind lg = kd /\
  (forall k, In k ks -> lookup k (lg_dict lg) = Some (LList [])).
Proof.
  intros H. inversion H; subst; clear H. unfold logger_wf; simpl. repeat split; auto.
  - intros Hk. apply has_key_In in Hk. rewrite fold_set_lookup, Hk; eauto.
  - intros [v Hv]. rewrite fold_set_lookup in Hv. apply has_key_In.
    destruct (has_key k ks); auto. discriminate.
  - intros k Hk. apply has_key_In in Hk. rewrite fold_set_lookup, Hk; auto.
Qed.

Definition logged (params : list (string * lval)) (k : string) (o : lobj) : lobj :=
  match o with
  | LList l => match lookup k params with Some v => LList (l ++ [v]) | None => o end
  | LAtom _ => o
  end.

Lemma log_keys_spec ks params : forall d d', NoDup ks -> log_keys ks params d = Ok d' ->
  forall k, lookup k d' = if has_key k ks then option_map (logged params k) (lookup k d) else lookup k d.
Proof.
  induction ks as [|a ks IH]; intros d d' Hn H k; simpl in *.
  - inversion H; reflexivity.
  - inversion Hn as [|? ? Hna Hn']; subst.
    assert (Ha : has_key a ks = false).
    { destruct (has_key a ks) eqn:E; auto. apply has_key_In in E. contradiction. }
    destruct (lookup a d) as [[l|v]|] eqn:E; [| |discriminate].
    + destruct (lookup a params) as [v|] eqn:Ep.
      * rewrite (IH _ _ Hn' H k). unfold has_key in *. simpl.
        destruct (String.eqb_spec k a).
        -- subst. rewrite Ha, lookup_set_same, E. simpl. rewrite Ep. reflexivity.
        -- rewrite lookup_set_other by auto. reflexivity.
      * rewrite (IH _ _ Hn' H k). unfold has_key in *. simpl.
        destruct (String.eqb_spec k a); auto.
        subst. rewrite Ha, E. simpl. rewrite Ep. reflexivity.
    + rewrite (IH _ _ Hn' H k). unfold has_key in *. simpl.
      destruct (String.eqb_spec k a); auto. subst. rewrite Ha, E. reflexivity.
Qed.

Lemma log_keys_total ks params : forall d,
  (forall k, In k ks -> exists v, lookup k d = Some v) -> exists d', log_keys ks params d = Ok d'.
Proof.
  induction ks as [|a ks IH]; intros d Hd; simpl; [eauto|].
  destruct (Hd a (or_introl eq_refl)) as [v Hv]. rewrite Hv.
  destruct v as [l|v].
  - destruct (lookup a params).
    + apply IH. intros k Hk. rewrite lookup_set. destruct (String.eqb k a); eauto. apply Hd; simpl; auto.
    + apply IH. intros k Hk. apply Hd; simpl; auto.
  - apply IH. intros k Hk. apply Hd; simpl; auto.
Qed.

Lemma log_keys_dom ks params : forall d d', log_keys ks params d = Ok d' ->
  forall k, (exists v, lookup k d' = Some v) <-> (exists v, lookup k d = Some v).
Proof.
  induction ks as [|a ks IH]; intros d d' H k; simpl in *; [inversion H; tauto|].
  destruct (lookup a d) as [[l|v]|] eqn:E; [| |discriminate].
  - destruct (lookup a params) as [v|] eqn:Ep; [|apply (IH _ _ H)].
    rewrite (IH _ _ H k), lookup_set. destruct (String.eqb_spec k a); [|tauto].
    subst. split; intros _; eauto.
  - apply (IH _ _ H).
Qed.

Lemma log_keep lg params lg' : log lg params = Ok lg' ->
  lg_keys lg' = lg_keys lg /\ lg_kind lg' = lg_kind lg.
Proof. unfold log. intros H. apply rbind_inv in H as [d [_ H]]. inversion H; simpl; auto. Qed.
Lemma log_wf lg params : logger_wf lg -> exists lg', log lg params = Ok lg' /\ logger_wf lg'.
Proof.
  intros Hw. destruct (log_keys_total (lg_keys lg) params (lg_dict lg)) as [d' Hd].
  { intros k Hk. apply Hw; auto. }
  unfold log. rewrite Hd. simpl. eexists; split; [reflexivity|].
  intros k; simpl. rewrite (Hw k). symmetry. apply (log_keys_dom _ _ _ _ Hd).
Qed.
Lemma log_lookup lg params lg' : NoDup (lg_keys lg) -> log lg params = Ok lg' ->
  forall k, lookup k (lg_dict lg') =
    if has_key k (lg_keys lg) then option_map (logged params k) (lookup k (lg_dict lg)) else lookup k (lg_dict lg).
Proof.
  unfold log. intros Hn H. apply rbind_inv in H as [d [Hd H]]. inversion H; subst; simpl.
  apply log_keys_spec; auto.
Qed.
Lemma log_oof lg params : no_oof (log lg params).
Proof.
  unfold log. apply rbind_oof; [|intros; apply ok_oof].
  generalize (lg_dict lg). induction (lg_keys lg) as [|a ks IH]; intros d; simpl; [apply ok_oof|].
  destruct (lookup a d) as [[l|v]|]; auto; [|unfold no_oof; congruence].
  destruct (lookup a params); auto.
Qed.

Lemma add_lookup lg k v lg' : add lg k v = Ok lg' ->
  (forall k', lookup k' (lg_dict lg') = if String.eqb k' k then Some v else lookup k' (lg_dict lg)) /\
  lg_kind lg' = lg_kind lg /\
  lg_keys lg' = (if has_key k (lg_keys lg) then lg_keys lg else lg_keys lg ++ [k]).
Proof.
  unfold add. destruct (has_key k (lg_keys lg)).
  - intros H; inversion H; subst; simpl. repeat split; auto. intros; apply lookup_set.
  - destruct (lg_kind lg) eqn:E; intros H; inversion H; subst; simpl.
    repeat split; auto. intros; apply lookup_set.
Qed.
Lemma add_tuple lg k v : lg_kind lg = KTuple -> exists lg', add lg k v = Ok lg'.
Proof. intros H. unfold add. rewrite H. destruct (has_key k (lg_keys lg)); eauto. Qed.
Lemma add_wf lg k v lg' : logger_wf lg -> add lg k v = Ok lg' -> logger_wf lg'.
Proof.
  intros Hw H. destruct (add_lookup _ _ _ _ H) as [Hl [_ Hk]].
  intros k'. rewrite Hl, Hk. specialize (Hw k').
  destruct (String.eqb_spec k' k).
  - subst. split; intros _; [eauto|]. destruct (has_key k (lg_keys lg)) eqn:E.
    + apply has_key_In; auto.
    + apply in_or_app; simpl; auto.
  - destruct (has_key k (lg_keys lg)) eqn:E; [auto|].
    rewrite in_app_iff; simpl. rewrite <- Hw. intuition congruence.
Qed.
Lemma add_oof lg k v : no_oof (add lg k v).
Proof. unfold add, no_oof. destruct (has_key k (lg_keys lg)); [|destruct (lg_kind lg)]; congruence. Qed.

(** ** halving *)
Lemma threshold_pos : 0 < ls_threshold.
Proof. unfold ls_threshold. lra. Qed.
Lemma pow2_ge_n n : INR n < 2 ^ n.
Proof.
  induction n as [|n IH]; [simpl; lra|].
  rewrite S_INR. simpl. pose proof (pow_R1_Rle 2 n ltac:(lra)). lra.
Qed.
Lemma half_pow n : (1 / 2) ^ n * 2 ^ n = 1.
Proof. rewrite <- Rpow_mult_distr. replace (1 / 2 * 2) with 1 by lra. apply pow1. Qed.
Lemma ls_fuel_enough step : halved step (ls_fuel step) <= ls_threshold.
Proof.
  unfold halved, ls_fuel. set (u := Z.to_nat (up (step / ls_threshold))).
  pose proof threshold_pos as Ht.
  destruct (Rle_dec step 0) as [Hs|Hs].
  { pose proof (pow_lt (1/2) (S u) ltac:(lra)).
    apply Rle_trans with 0; [|lra]. rewrite <- (Rmult_0_l ((1 / 2) ^ S u)).
    apply Rmult_le_compat_r; lra. }
  assert (Hu : step / ls_threshold < INR (S u)).
  { rewrite S_INR. destruct (archimed (step / ls_threshold)) as [H _].
    assert (0 <= step / ls_threshold).
    { unfold Rdiv. apply Rmult_le_pos; [lra|]. left. apply Rinv_0_lt_compat; auto. }
    assert (Hz : (0 <= up (step / ls_threshold))%Z).
    { apply le_IZR. lra. }
    unfold u. rewrite INR_IZR_INZ, Z2Nat.id by auto. lra. }
  pose proof (pow2_ge_n (S u)) as Hp. pose proof (half_pow (S u)) as Hh.
  pose proof (pow_lt (1/2) (S u) ltac:(lra)) as Hpos.
  assert (Hs' : step < ls_threshold * 2 ^ S u).
  { apply Rlt_le_trans with (ls_threshold * INR (S u)).
    - apply Rmult_lt_reg_r with (/ ls_threshold); [apply Rinv_0_lt_compat; auto|].
      rewrite (Rmult_comm ls_threshold), Rmult_assoc, Rinv_r by lra. unfold Rdiv in Hu. lra.
    - apply Rmult_le_compat_l; lra. }
  apply Rmult_le_reg_r with (2 ^ S u); [apply pow_lt; lra|].
  rewrite Rmult_assoc, Hh. lra.
Qed.
Lemma halved_S step k : halved step (S k) = halved step k * (1 / 2).
Proof. unfold halved. simpl. ring. Qed.
Lemma halved_half step k : halved (step * (1/2)) k = halved step (S k).
Proof. unfold halved. simpl. ring. Qed.
Lemma halved_range step k : 0 < step -> 0 < halved step k <= step.
Proof.
  intros Hs. unfold halved. pose proof (pow_lt (1/2) k ltac:(lra)).
  assert ((1/2) ^ k <= 1). { apply Rle_trans with (1 ^ k); [apply pow_incr; lra | rewrite pow1; lra]. }
  split; [apply Rmult_lt_0_compat; auto|]. rewrite <- (Rmult_1_r step) at 2.
  apply Rmult_le_compat_l; lra.
Qed.

Lemma vadd_vneg x s g : vadd x (vscale s (vneg g)) = vsub x (vscale s g).
Proof.
  revert g; induction x as [|a x IH]; intros [|b g]; simpl; auto.
  unfold vadd, vsub in *. simpl. f_equal; [ring | apply IH].
Qed.
Lemma move_inv x g s y : move x (vneg g) s = Ok y ->
  length g = length x /\ y = vsub x (vscale s g).
Proof.
  unfold move. intros H. apply rbind_inv in H as [u [Hg H]]. apply guard_inv in Hg.
  apply Nat.eqb_eq in Hg. rewrite vneg_length in Hg.
  inversion H; subst. split; auto. apply vadd_vneg.
Qed.
Lemma move_oof x d s : no_oof (move x d s).
Proof. unfold move. apply rbind_oof; [apply guard_oof; congruence | intros; apply ok_oof]. Qed.

(** ** the line search and one step *)
Section Run.
Context {S : Type}.
Variable orc : oracle S.
Variable rg : regularizer.
Variable slv : pgd_solver.

Lemma ls_halved fuel : forall s x d step z step' z' s',
  line_search orc rg fuel s x d step z = Ok (step', z', s') ->
  exists k, step' = halved step k.
Proof.
  induction fuel as [|fuel IH]; intros s x d step z step' z' s' H; cbn [line_search] in H.
  - destruct (rltb ls_threshold step); [discriminate|].
    inversion H; subst. exists O. unfold halved; simpl; ring.
  - destruct (rltb ls_threshold step).
    + apply rbind_inv in H as [y [_ H]]. apply rbind_inv in H as [z1 [_ H]].
      apply rbind_inv in H as [[ok s1] [_ H]]. destruct ok.
      * inversion H; subst. exists O. unfold halved; simpl; ring.
      * apply IH in H as [k Hk]. exists (Datatypes.S k). rewrite Hk. apply halved_half.
    + inversion H; subst. exists O. unfold halved; simpl; ring.
Qed.

Lemma ls_accept_inv f g s x z step b s' :
  value_is orc f -> length (g x) = length x ->
  ls_accept orc s x (vneg (g x)) z step = Ok (b, s') ->
  length z = length x /\ (b = true <-> sufficient f g x step z).
Proof.
  intros Hf Hg H. unfold ls_accept in H.
  apply rbind_inv in H as [[fz s1] [Hz H]]. apply rbind_inv in H as [[fx s2] [Hx H]].
  apply rbind_inv in H as [u [Hl H]]. apply guard_inv in Hl. apply Nat.eqb_eq in Hl.
  cbv zeta in H. injection H as Hb _. rewrite <- Hb. split; auto.
  change (norm (vsub z x) * (norm (vsub z x) * 1)) with (norm (vsub z x) ^ 2).
  rewrite rleb_true, norm_sq, vdot_vneg_l. unfold sufficient.
  rewrite <- (Hf _ _ _ _ Hz), <- (Hf _ _ _ _ Hx).
  replace (fx - - vdot (g x) (vsub z x)) with (fx + vdot (g x) (vsub z x)) by ring. tauto.
Qed.

Lemma ls_spec f g fuel : value_is orc f ->
  forall s x step z step' z' s', length (g x) = length x ->
  line_search orc rg fuel s x (vneg (g x)) step z = Ok (step', z', s') ->
  exists k, step' = halved step k /\
    (forall j, (j < k)%nat -> ls_threshold < halved step j /\
       exists z, r_prox rg (vsub x (vscale (halved step j) (g x))) (halved step j) = Ok z /\
                 ~ sufficient f g x (halved step j) z) /\
    (step' <= ls_threshold \/ exists z, 
       r_prox rg (vsub x (vscale step' (g x))) step' = Ok z /\ sufficient f g x step' z).
Proof.
  intros Hf. induction fuel as [|fuel IH]; intros s x step z step' z' s' Hg H; cbn [line_search] in H.
  - destruct (rltb ls_threshold step) eqn:E; [discriminate|].
    apply rltb_false in E. inversion H; subst. exists O. split; [unfold halved; simpl; ring|].
    split; [intros; lia | auto].
  - destruct (rltb ls_threshold step) eqn:E.
    + apply rltb_true in E.
      apply rbind_inv in H as [y [Hy H]]. apply rbind_inv in H as [z1 [Hz H]].
      apply rbind_inv in H as [[ok s1] [Ha H]].
      apply move_inv in Hy as [_ ->].
      destruct (ls_accept_inv _ _ _ _ _ _ _ _ Hf Hg Ha) as [Hl Hb]. destruct ok.
      * inversion H; subst. exists O. split; [unfold halved; simpl; ring|].
        split; [intros; lia|]. right. exists z1. split; auto. apply Hb; auto.
      * apply IH in H as [k [Hk [Hr He]]]; auto. exists (Datatypes.S k).
        split; [rewrite Hk; apply halved_half|]. split; auto.
        intros [|j] Hj.
        -- replace (halved step 0) with step by (unfold halved; simpl; ring).
           split; auto. exists z1. split; auto. intros Hs. apply Hb in Hs. discriminate.
        -- rewrite <- halved_half. apply Hr. lia.
    + apply rltb_false in E. inversion H; subst. exists O. split; [unfold halved; simpl; ring|].
      split; [intros; lia | auto].
Qed.

Hypothesis Hret : calls_return orc rg.

Lemma ls_accept_oof s x d z step : no_oof (ls_accept orc s x d z step).
Proof.
  destruct Hret as [Hv _]. unfold ls_accept.
  apply rbind_oof; [apply Hv|intros [fz s1] _].
  apply rbind_oof; [apply Hv|intros [fx s2] _].
  apply rbind_oof; [apply guard_oof; congruence|intros; apply ok_oof].
Qed.

Lemma ls_oof fuel : forall s x d step z, halved step fuel <= ls_threshold ->
  no_oof (line_search orc rg fuel s x d step z).
Proof.
  destruct Hret as [_ [_ [_ Hp]]].
  induction fuel as [|fuel IH]; intros s x d step z Hs; cbn [line_search].
  - unfold halved in Hs. simpl in Hs. rewrite Rmult_1_r in Hs.
    destruct (rltb ls_threshold step) eqn:E; [apply rltb_true in E; lra | apply ok_oof].
  - destruct (rltb ls_threshold step); [|apply ok_oof].
    apply rbind_oof; [apply move_oof|intros y _].
    apply rbind_oof; [apply Hp|intros z1 _].
    apply rbind_oof; [apply ls_accept_oof|intros [ok s1] _].
    destruct ok; [apply ok_oof|]. apply IH. rewrite halved_half. auto.
Qed.

Lemma log_state_oof x0 st : no_oof (log_state orc rg x0 st).
Proof.
  destruct Hret as [Hv [_ [Hr _]]]. unfold log_state.
  apply rbind_oof.
  - destruct (has_key "loss" (lg_keys (st_logger st))); [|apply ok_oof].
    apply rbind_oof; [apply Hv|intros [f s'] _]. apply rbind_oof; [apply Hr|intros; apply ok_oof].
  - intros [l s] _. apply rbind_oof; [|intros; apply ok_oof].
    destruct (0 <? length (lg_keys (st_logger st)))%nat; [apply log_oof | apply ok_oof].
Qed.

Lemma pgd_step_oof x0 st : no_oof (pgd_step orc rg slv x0 st).
Proof.
  pose proof Hret as [_ [Hg [_ Hp]]]. unfold pgd_step.
  apply rbind_oof; [apply Hg|intros [g s1] _].
  apply rbind_oof.
  - destruct (String.eqb (s_stepping slv) "line-search"); [|apply ok_oof].
    apply ls_oof. apply ls_fuel_enough.
  - intros [[step z] s2] _. apply rbind_oof; [apply move_oof|intros y _].
    apply rbind_oof; [apply Hp|intros x' _]. apply log_state_oof.
Qed.
End Run.

Section Run2.
Context {S : Type}.
Variable orc : oracle S.
Variable rg : regularizer.
Variable slv : pgd_solver.

Lemma log_state_inv x0 st st' : log_state orc rg x0 st = Ok st' ->
  st_x st' = st_x st /\ st_x_prev st' = st_x_prev st /\ st_iteration st' = st_iteration st /\
  lg_keys (st_logger st') = lg_keys (st_logger st) /\ lg_kind (st_logger st') = lg_kind (st_logger st).
Proof.
  unfold log_state. intros H. apply rbind_inv in H as [[l s] [_ H]].
  apply rbind_inv in H as [lg [Hl H]]. inversion H; subst; simpl. repeat split; auto.
  - destruct (0 <? _)%nat; [apply (log_keep _ _ _ Hl) | inversion Hl; auto].
  - destruct (0 <? _)%nat; [apply (log_keep _ _ _ Hl) | inversion Hl; auto].
Qed.

Notation rule := (pgd_rule orc rg slv).

Lemma pgd_step_inv x0 st st' : pgd_step orc rg slv x0 st = Ok st' ->
  st_x_prev st' = Some (st_x st) /\ st_iteration st' = Datatypes.S (st_iteration st) /\
  lg_keys (st_logger st') = lg_keys (st_logger st) /\ lg_kind (st_logger st') = lg_kind (st_logger st) /\
  exists s, rule (st_x st) s (st_x st').
Proof.
  unfold pgd_step. intros H. apply rbind_inv in H as [[g s1] [Hg H]].
  apply rbind_inv in H as [[[step z] s2] [Hs H]].
  apply rbind_inv in H as [y [Hy H]]. apply rbind_inv in H as [x' [Hx H]].
  apply log_state_inv in H as [E1 [E2 [E3 [E4 E5]]]]. simpl in E1, E2, E3, E4, E5.
  repeat split; auto. exists step. rewrite E1.
  apply move_inv in Hy as [Hl ->]. split; [|split].
  - exists (st_oracle st), g, s1. auto.
  - destruct (String.eqb (s_stepping slv) "line-search"); [|inversion Hs; auto].
    exact (ls_halved orc rg _ _ _ _ _ _ _ _ _ Hs).
  - intros f g' Hf Hg'. unfold step_rule. rewrite (Hg' _ _ _ _ Hg) in *.
    destruct (String.eqb (s_stepping slv) "line-search"); [|inversion Hs; auto].
    destruct (ls_spec orc rg f g' _ Hf _ _ _ _ _ _ _ Hl Hs) as [k [Hk [Hr He]]].
    exists k. split; auto. split; auto. destruct He as [He|[z1 [Hz1 He]]]; auto.
    right. rewrite Hx in Hz1. inversion Hz1; subst; auto.
Qed.

Lemma moved_inv tol x xp b : moved tol x xp = Ok b ->
  (b = true <-> match xp with
                | None => x <> [] \/ tol < 0
                | Some p => tol < norm (vsub x p)
                end).
Proof.
  destruct xp as [p|]; simpl; intros H.
  - apply rbind_inv in H as [u [_ H]]. inversion H; subst. apply rltb_true.
  - destruct x; inversion H; subst.
    + rewrite rltb_true. intuition congruence.
    + split; auto. intros _. left. congruence.
Qed.

Notation still := (still slv).
Notation all_still := (all_still slv).

Lemma endpoint_cons x s x' path : endpoint x ((s, x') :: path) = endpoint x' path.
Proof.
  unfold endpoint. simpl. destruct path as [|[s1 y] path]; [reflexivity|].
  simpl map. generalize (map snd path). intros l. revert y. induction l as [|b l IH]; intros y; [reflexivity|].
  change (last (b :: l) x = last (b :: l) x'). apply IH.
Qed.

Lemma pgd_loop_inv fuel : forall x0 st st', pgd_loop orc rg slv fuel x0 st = Ok st' ->
  exists path, is_path rule (st_x st) path /\ st_x st' = endpoint (st_x st) path /\
    st_iteration st' = (st_iteration st + length path)%nat /\
    all_still (st_x_prev st) (st_x st) path /\
    st_x_prev st' = last_prev (st_x_prev st) (st_x st) path /\
    (~ still (st_x st') (st_x_prev st') \/ (s_max_iter slv <= Z.of_nat (st_iteration st'))%Z) /\
    (path = [] \/ (Z.of_nat (st_iteration st') <= s_max_iter slv)%Z) /\
    lg_keys (st_logger st') = lg_keys (st_logger st) /\ lg_kind (st_logger st') = lg_kind (st_logger st).
Proof.
  induction fuel as [|fuel IH]; intros x0 st st' H; cbn [pgd_loop] in H;
    apply rbind_inv in H as [m [Hm H]]; pose proof (moved_inv _ _ _ _ Hm) as Hmi.
  - destruct (m && (Z.of_nat (st_iteration st) <? s_max_iter slv)%Z) eqn:E; [discriminate|].
    inversion H; subst st'. exists []. simpl. rewrite Nat.add_0_r. repeat split; auto.
    apply andb_false_iff in E as [E|E].
    + left. unfold SolverSpec.still. rewrite <- Hmi. congruence.
    + right. apply Z.ltb_ge in E. auto.
  - destruct (m && (Z.of_nat (st_iteration st) <? s_max_iter slv)%Z) eqn:E.
    + apply andb_true_iff in E as [E1 E2]. apply Z.ltb_lt in E2.
      apply rbind_inv in H as [st1 [Hs H]].
      apply pgd_step_inv in Hs as [P1 [P2 [P3 [P4 [s Hr]]]]].
      apply IH in H as [path [Q1 [Q2 [Q3 [Q4 [Q5 [Q6 [Q7 [Q8 Q9]]]]]]]]].
      exists ((s, st_x st1) :: path). rewrite endpoint_cons. rewrite P1 in *.
      split; [split; auto|]. split; [auto|].
      split; [cbn [length]; rewrite Q3, P2; lia|].
      split; [split; auto; unfold SolverSpec.still; apply Hmi; auto|].
      split; [auto|]. split; [auto|]. split; [|split; congruence].
      right. destruct Q7 as [->|Q7]; [|auto]. rewrite Q3, P2. cbn [length]. lia.
    + inversion H; subst st'. exists []. simpl. rewrite Nat.add_0_r. repeat split; auto.
      apply andb_false_iff in E as [E|E].
      * left. unfold SolverSpec.still. rewrite <- Hmi. congruence.
      * right. apply Z.ltb_ge in E. auto.
Qed.

Lemma log_keys_loop fuel x0 st st' : pgd_loop orc rg slv fuel x0 st = Ok st' ->
  lg_keys (st_logger st') = lg_keys (st_logger st).
Proof. intros H. apply pgd_loop_inv in H as [path H]. apply H. Qed.

Lemma moved_oof tol x xp : no_oof (moved tol x xp).
Proof.
  destruct xp; simpl; [apply rbind_oof; [apply guard_oof; congruence | intros; apply ok_oof]|].
  destruct x; apply ok_oof.
Qed.

Lemma pgd_loop_oof fuel : calls_return orc rg -> forall x0 st,
  (s_max_iter slv <= Z.of_nat (st_iteration st + fuel))%Z ->
  no_oof (pgd_loop orc rg slv fuel x0 st).
Proof.
  intros Hret. induction fuel as [|fuel IH]; intros x0 st Hf; cbn [pgd_loop];
    apply rbind_oof; try apply moved_oof; intros m _.
  - destruct (Z.ltb_spec (Z.of_nat (st_iteration st)) (s_max_iter slv)); [lia|].
    rewrite andb_false_r. apply ok_oof.
  - destruct (m && _); [|apply ok_oof].
    apply rbind_oof; [apply pgd_step_oof; auto|]. intros st1 H1. apply IH.
    apply pgd_step_inv in H1 as [_ [E _]]. rewrite E. lia.
Qed.

Lemma pgd_optimize_inv x0 s lg x lg' s' : pgd_optimize orc rg slv x0 s lg = Ok (x, lg', s') ->
  exists path, is_path rule x0 path /\ x = endpoint x0 path /\
    all_still None x0 path /\
    (~ still x (last_prev None x0 path) \/ (s_max_iter slv <= Z.of_nat (length path))%Z) /\
    (path = [] \/ (Z.of_nat (length path) <= s_max_iter slv)%Z) /\
    get lg' "converged" = Ok (LAtom (LBool (Z.of_nat (length path) <? s_max_iter slv)%Z)) /\
    get lg' "iteration" = Ok (LAtom (LNum (INR (length path)))).
Proof.
  unfold pgd_optimize. intros H. apply rbind_inv in H as [st0 [H0 H]].
  apply rbind_inv in H as [st [H1 H]]. apply rbind_inv in H as [lg1 [Ha H]].
  apply rbind_inv in H as [lg2 [Hb H]]. inversion H; subst; clear H.
  apply log_state_inv in H0 as [E1 [E2 [E3 [E4 E5]]]]. simpl in *.
  apply pgd_loop_inv in H1 as [path [Q1 [Q2 [Q3 [Q4 [Q5 [Q6 [Q7 [Q8 Q9]]]]]]]]].
  rewrite E1, E2, E3 in *. simpl in Q3. rewrite Q3 in *.
  exists path. rewrite <- Q5. repeat split; auto.
  - unfold get. destruct (add_lookup _ _ _ _ Hb) as [L _]. rewrite L. simpl.
    destruct (add_lookup _ _ _ _ Ha) as [L' _]. rewrite L'. simpl. reflexivity.
  - unfold get. destruct (add_lookup _ _ _ _ Hb) as [L _]. rewrite L. reflexivity.
Qed.

Lemma pgd_optimize_oof x0 s lg : calls_return orc rg -> no_oof (pgd_optimize orc rg slv x0 s lg).
Proof.
  intros Hret. unfold pgd_optimize.
  apply rbind_oof; [apply log_state_oof; auto|intros st0 H0].
  apply rbind_oof.
  - apply pgd_loop_oof; auto. lia.
  - intros st _. apply rbind_oof; [apply add_oof|intros lg1 _].
    apply rbind_oof; [apply add_oof|intros; apply ok_oof].
Qed.

(** ** traces *)
Definition trace_ok (lg : logger) (xs : list vec) (ls : list ereal) : Prop :=
  logger_wf lg /\ NoDup (lg_keys lg) /\
  (In "x"%string (lg_keys lg) -> lookup "x" (lg_dict lg) = Some (LList (map LVec xs))) /\
  (In "loss"%string (lg_keys lg) -> lookup "loss" (lg_dict lg) = Some (LList (map lnum_e ls))).

Lemma log_state_trace f x0 st st' xs ls : value_is orc f ->
  log_state orc rg x0 st = Ok st' -> trace_ok (st_logger st) xs ls ->
  (st_loss st = None \/ In "loss"%string (lg_keys (st_logger st))) ->
  exists ls1, trace_ok (st_logger st') (xs ++ [st_x st]) ls1 /\
   (In "loss"%string (lg_keys (st_logger st)) -> exists l, ls1 = ls ++ [l] /\ objective f rg (st_x st) l).
Proof.
  intros Hf H [Hw [Hn [Hx Hl]]] Hno. unfold log_state in H.
  apply rbind_inv in H as [[l s] [Hloss H]].
  apply rbind_inv in H as [lg [Hlog H]]. inversion H; subst; clear H. simpl.
  destruct (0 <? length (lg_keys (st_logger st)))%nat eqn:El.
  - destruct (log_keep _ _ _ Hlog) as [Ek _].
    destruct (log_wf _ (pgd_locals x0 {|
         st_x := st_x st; st_x_prev := st_x_prev st; st_iteration := st_iteration st; st_loss := l;
         st_direction := st_direction st; st_step_len := st_step_len st; st_y := st_y st;
         st_z := st_z st; st_oracle := s; st_logger := st_logger st |}) Hw) as [lg1 [E1 Hw1]].
    rewrite Hlog in E1. inversion E1; subst lg1; clear E1.
    pose proof (log_lookup _ _ _ Hn Hlog) as HL.
    destruct (has_key "loss" (lg_keys (st_logger st))) eqn:Hk.
    + apply rbind_inv in Hloss as [[fv s1] [Hv Hloss]]. apply rbind_inv in Hloss as [r [Hr Hloss]].
      inversion Hloss; subst; clear Hloss.
      exists (ls ++ [eadd (Fin fv) r]). split.
      * split; [auto|]. rewrite Ek. split; [auto|]. split; intros Hin.
        -- rewrite HL. pose proof Hin as Hin'. apply has_key_In in Hin'. rewrite Hin', (Hx Hin). simpl.
           rewrite map_app. reflexivity.
        -- rewrite HL. pose proof Hin as Hin'. apply has_key_In in Hin'. rewrite Hin', (Hl Hin). simpl.
           rewrite map_app. reflexivity.
      * intros _. exists (eadd (Fin fv) r). split; auto. exists r. rewrite (Hf _ _ _ _ Hv). auto.
    + assert (Hnl : ~ In "loss"%string (lg_keys (st_logger st))).
      { intros Hin. apply has_key_In in Hin. congruence. }
      exists ls. split; [|contradiction].
      split; [auto|]. rewrite Ek. split; [auto|]. split; intros Hin.
      * rewrite HL. pose proof Hin as Hin'. apply has_key_In in Hin'. rewrite Hin', (Hx Hin). simpl.
        rewrite map_app. reflexivity.
      * contradiction.
  - inversion Hlog; subst lg; clear Hlog.
    assert (E : lg_keys (st_logger st) = []).
    { destruct (lg_keys (st_logger st)); auto. simpl in El. discriminate. }
    exists ls. rewrite E. split; [|simpl; tauto].
    split; [auto|]. rewrite E. split; [constructor|]. simpl; tauto.
Qed.

Lemma log_state_loss x0 st st' : log_state orc rg x0 st = Ok st' ->
  (st_loss st = None \/ In "loss"%string (lg_keys (st_logger st))) ->
  (st_loss st' = None \/ In "loss"%string (lg_keys (st_logger st'))).
Proof.
  intros H Hno. pose proof (log_state_inv _ _ _ H) as [_ [_ [_ [Ek _]]]]. rewrite Ek.
  destruct Hno as [Hno|]; auto. unfold log_state in H.
  apply rbind_inv in H as [[l s] [Hloss H]].
  apply rbind_inv in H as [lg [Hlog H]]. inversion H; subst; clear H. simpl.
  destruct (has_key "loss" (lg_keys (st_logger st))) eqn:Hk.
  - right. apply has_key_In; auto.
  - inversion Hloss; subst; auto.
Qed.

Lemma pgd_loop_trace f fuel : value_is orc f -> forall x0 st st' xs ls,
  pgd_loop orc rg slv fuel x0 st = Ok st' -> trace_ok (st_logger st) xs ls ->
  (st_loss st = None \/ In "loss"%string (lg_keys (st_logger st))) ->
  exists path ls1, is_path rule (st_x st) path /\ st_x st' = endpoint (st_x st) path /\
    st_iteration st' = (st_iteration st + length path)%nat /\
    trace_ok (st_logger st') (xs ++ map snd path) (ls ++ ls1) /\
    (In "loss"%string (lg_keys (st_logger st)) -> Forall2 (objective f rg) (map snd path) ls1).
Proof.
  intros Hf. induction fuel as [|fuel IH]; intros x0 st st' xs ls H Ht Hno; cbn [pgd_loop] in H;
    apply rbind_inv in H as [m [Hm H]].
  - destruct (m && _); [discriminate|]. inversion H; subst st'. exists [], [].
    simpl. rewrite !app_nil_r, Nat.add_0_r. repeat split; try apply Ht; auto.
  - destruct (m && _).
    2:{ inversion H; subst st'. exists [], []. simpl. rewrite !app_nil_r, Nat.add_0_r.
        repeat split; try apply Ht; auto. }
    apply rbind_inv in H as [st1 [Hs H]].
    pose proof (pgd_step_inv _ _ _ Hs) as [P1 [P2 [P3 [P4 [s Hr]]]]].
    unfold pgd_step in Hs. apply rbind_inv in Hs as [[g s1] [_ Hs]].
    apply rbind_inv in Hs as [[[step z] s2] [_ Hs]].
    apply rbind_inv in Hs as [y [_ Hs]]. apply rbind_inv in Hs as [x' [_ Hs]].
    pose proof (log_state_inv _ _ _ Hs) as [E1 _]. simpl in E1.
    pose proof (log_state_loss _ _ _ Hs Hno) as Hno1.
    destruct (log_state_trace _ _ _ _ _ _ Hf Hs Ht Hno) as [ls1 [Ht1 Hl1]].
    simpl in Ht1, Hl1. rewrite <- E1 in *. 
    destruct (IH _ _ _ _ _ H Ht1 Hno1) as [path [ls2 [Q1 [Q2 [Q3 [Q4 Q5]]]]]].
    assert (Happ : forall l, (xs ++ [st_x st1]) ++ l = xs ++ st_x st1 :: l).
    { intros l. rewrite <- app_assoc. reflexivity. }
    destruct (has_key "loss" (lg_keys (st_logger st))) eqn:Hk.
    + apply has_key_In in Hk. destruct (Hl1 Hk) as [l [-> Ho]].
      exists ((s, st_x st1) :: path), (l :: ls2). rewrite endpoint_cons.
      rewrite Happ, <- app_assoc in Q4.
      split; [split; auto|]. split; [auto|]. split; [cbn [length]; rewrite Q3, P2; lia|].
      split; [exact Q4|]. intros _. constructor; auto. apply Q5. rewrite P3; auto.
    + assert (Hnl : ~ In "loss"%string (lg_keys (st_logger st))).
      { intros Hin. apply has_key_In in Hin. congruence. }
      exists ((s, st_x st1) :: path), []. rewrite endpoint_cons. simpl.
      rewrite Happ in Q4. destruct Q4 as [T1 [T2 [T3 T4]]].
      split; [auto|]. split; [auto|]. split; [rewrite Q3, P2; lia|]. split; [|contradiction].
      split; [auto|]. split; [auto|]. split; [auto|]. intros Hin. 
      pose proof (log_keys_loop _ _ _ _ H) as Ek. rewrite Ek, P3 in Hin. contradiction.
Qed.

Lemma pgd_optimize_trace f x0 s keys lg x lg' s' : value_is orc f -> NoDup keys ->
  mk_logger (Some (KTuple, keys)) = Ok lg ->
  pgd_optimize orc rg slv x0 s lg = Ok (x, lg', s') ->
  exists path, is_path rule x0 path /\ x = endpoint x0 path /\
    get lg' "iteration" = Ok (LAtom (LNum (INR (length path)))) /\
    (In "x"%string keys -> get lg' "x" = Ok (LList (map LVec (x0 :: map snd path)))) /\
    (In "loss"%string keys -> exists losses, get lg' "loss" = Ok (LList (map lnum_e losses)) /\
        Forall2 (objective f rg) (x0 :: map snd path) losses) /\
    (forall k v, get lg' k = Ok v -> In k keys \/ k = "converged"%string \/ k = "iteration"%string).
Proof.
  intros Hf Hn Hm H. destruct (mk_logger_wf _ _ _ Hm) as [Hw [Hk [Hkd H0]]].
  unfold pgd_optimize in H. apply rbind_inv in H as [st0 [Hi H]].
  apply rbind_inv in H as [st [H1 H]]. apply rbind_inv in H as [lg1 [Ha H]].
  apply rbind_inv in H as [lg2 [Hb H]]. inversion H; subst; clear H.
  assert (Ht0 : trace_ok (st_logger (pgd_init x0 s lg)) [] []).
  { simpl. split; auto. }
  assert (Hno : st_loss (pgd_init x0 s lg) = None \/
                In "loss"%string (lg_keys (st_logger (pgd_init x0 s lg)))) by (left; reflexivity).
  pose proof (log_state_inv _ _ _ Hi) as [E1 [E2 [E3 [E4 E5]]]].
  pose proof (log_state_loss _ _ _ Hi Hno) as Hno1.
  destruct (log_state_trace _ _ _ _ _ _ Hf Hi Ht0 Hno) as [ls1 [Ht1 Hl1]].
  destruct (pgd_loop_trace f _ Hf _ _ _ _ _ H1 Ht1 Hno1) as [path [ls2 [Q1 [Q2 [Q3 [Q4 Q5]]]]]].
  pose proof (log_keys_loop _ _ _ _ H1) as Ek.
  rewrite E1, E3 in *. simpl in Q1, Q2, Q3, Q4, Hl1, E4. 
  destruct (add_lookup _ _ _ _ Ha) as [La [_ Ka]]. destruct (add_lookup _ _ _ _ Hb) as [Lb [_ Kb]].
  destruct Q4 as [T1 [T2 [T3 T4]]]. rewrite Ek, E4 in *.
  exists path. split; [auto|]. split; [auto|].
  split; [unfold get; rewrite Lb; simpl; rewrite Q3; reflexivity|].
  split; [|split].
  - intros Hin. unfold get. rewrite Lb, La. simpl. rewrite (T3 Hin). reflexivity.
  - intros Hin. destruct (Hl1 Hin) as [l [-> Ho]]. exists (l :: ls2). split.
    + unfold get. rewrite Lb, La. simpl. rewrite (T4 Hin). reflexivity.
    + constructor; auto.
  - intros k v. unfold get. destruct (lookup k (lg_dict lg')) eqn:E; [intros _|discriminate].
    assert (Hin : In k (lg_keys lg')).
    { apply (add_wf _ _ _ _ (add_wf _ _ _ _ T1 Ha) Hb). eauto. }
    rewrite Kb, Ka in Hin.
    clear - Hin. repeat match type of Hin with context [if has_key ?a ?b then _ else _] =>
      destruct (has_key a b) end; rewrite ?in_app_iff in Hin; simpl in Hin; intuition (subst; auto).
Qed.
End Run2.

(** ** the run is determined by its specification *)
Section Det.
Context {S : Type}.
Variable orc : oracle S.
Variable rg : regularizer.
Variable slv : pgd_solver.
Variable f : vec -> R.
Variable g : vec -> vec.
Hypothesis Hf : value_is orc f.
Hypothesis Hg : grad_is orc g.

Lemma rule_det x s1 x1 s2 x2 : pgd_rule orc rg slv x s1 x1 -> pgd_rule orc rg slv x s2 x2 ->
  s1 = s2 /\ x1 = x2.
Proof.
  intros [[t1 [g1 [t1' [A1 [_ P1]]]]] [_ R1]] [[t2 [g2 [t2' [A2 [_ P2]]]]] [_ R2]].
  specialize (R1 f g Hf Hg). specialize (R2 f g Hf Hg).
  rewrite (Hg _ _ _ _ A1) in P1. rewrite (Hg _ _ _ _ A2) in P2. clear A1 A2.
  assert (E : s1 = s2).
  { unfold step_rule in *. destruct (String.eqb (s_stepping slv) "line-search"); [|congruence].
    destruct R1 as [k1 [E1 [N1 L1]]], R2 as [k2 [E2 [N2 L2]]].
    destruct (lt_eq_lt_dec k1 k2) as [[H|H]|H].
    - destruct (N2 _ H) as [T [z [Pz Nz]]]. rewrite <- E1 in *.
      rewrite P1 in Pz. inversion Pz; subst z. destruct L1; [lra|contradiction].
    - subst; auto.
    - destruct (N1 _ H) as [T [z [Pz Nz]]]. rewrite <- E2 in *.
      rewrite P2 in Pz. inversion Pz; subst z. destruct L2; [lra|contradiction]. }
  subst. split; congruence.
Qed.

Lemma path_det path1 : forall path2 p x (n : nat),
  is_path (pgd_rule orc rg slv) x path1 -> is_path (pgd_rule orc rg slv) x path2 ->
  all_still slv p x path1 -> all_still slv p x path2 ->
  (~ still slv (endpoint x path1) (last_prev p x path1) \/ (s_max_iter slv <= Z.of_nat (n + length path1))%Z) ->
  (~ still slv (endpoint x path2) (last_prev p x path2) \/ (s_max_iter slv <= Z.of_nat (n + length path2))%Z) ->
  (path1 = [] \/ (Z.of_nat (n + length path1) <= s_max_iter slv)%Z) ->
  (path2 = [] \/ (Z.of_nat (n + length path2) <= s_max_iter slv)%Z) ->
  path1 = path2.
Proof.
  induction path1 as [|[s1 x1] path1 IH]; intros [|[s2 x2] path2] p x n P1 P2 A1 A2 T1 T2 M1 M2; auto.
  - exfalso. simpl in T1, A2. destruct M2 as [|M2]; [discriminate|]. cbn [length] in M2.
    destruct T1 as [T1|T1]; [apply T1, A2 | lia].
  - exfalso. simpl in T2, A1. destruct M1 as [|M1]; [discriminate|]. cbn [length] in M1.
    destruct T2 as [T2|T2]; [apply T2, A1 | lia].
  - destruct P1 as [R1 P1], P2 as [R2 P2]. destruct (rule_det _ _ _ _ _ R1 R2) as [-> ->].
    f_equal. destruct A1 as [_ A1], A2 as [_ A2].
    rewrite endpoint_cons in T1. rewrite endpoint_cons in T2. cbn [length last_prev] in *.
    apply (IH path2 (Some x) x2 (n + 1)%nat); auto.
    + destruct T1; auto. right. lia.
    + destruct T2; auto. right. lia.
    + right. destruct M1; [discriminate|lia].
    + right. destruct M2; [discriminate|lia].
Qed.

(** ** descent *)
Lemma vsub_vsub z x w : length z = length x -> length w = length x ->
  vsub z (vsub x w) = vadd (vsub z x) w.
Proof.
  revert z w. induction x as [|a x IH]; intros [|b z] [|c w] Hz Hw; try discriminate; auto.
  unfold vsub, vadd in *. simpl. f_equal; [ring|]. apply IH; simpl in *; lia.
Qed.

Lemma sufficient_descends x s z v :
  (forall y t r, 0 < t -> r_prox rg y t = Ok r -> is_prox_of_value (r_value rg) t y r) ->
  0 < s -> length (g x) = length x ->
  r_prox rg (vsub x (vscale s (g x))) s = Ok z -> sufficient f g x s z ->
  objective f rg x v -> exists v', objective f rg z v' /\ ele v' v.
Proof.
  intros Hp Hs Hl Hz Hsuf [r [Hr ->]].
  destruct (Hp _ _ _ Hs Hz) as [Hlz [rz [Hrz Hmin]]].
  assert (Hy : length (vsub x (vscale s (g x))) = length x).
  { rewrite vsub_length; rewrite ?vscale_length; auto. }
  exists (eadd (Fin (f z)) (Fin rz)). split; [exists (Fin rz); auto|].
  destruct r as [r|]; [|exact I]. simpl.
  specialize (Hmin x r (eq_sym Hy) Hr). unfold prox_cost in Hmin.
  rewrite Hy in Hlz.
  assert (E1 : sqnorm (vsub z (vsub x (vscale s (g x)))) =
    sqnorm (vsub z x) + 2 * s * vdot (g x) (vsub z x) + s ^ 2 * sqnorm (g x)).
  { assert (E : vsub z (vsub x (vscale s (g x))) = vadd (vsub z x) (vscale s (g x))).
    { apply vsub_vsub; rewrite ?vscale_length; auto. }
    rewrite E, sqnorm_vadd, sqnorm_vscale, vdot_vscale_r, vdot_comm; [ring|].
    rewrite vsub_length, vscale_length; auto. }
  assert (E2 : sqnorm (vsub x (vsub x (vscale s (g x)))) = s ^ 2 * sqnorm (g x)).
  { rewrite vsub_vsub, vsub_self by (rewrite ?vscale_length; auto).
    rewrite sqnorm_vadd, sqnorm_zeros, vdot_zeros_l, sqnorm_vscale; [ring|].
    rewrite zeros_length, vscale_length; auto. }
  rewrite E1, E2 in Hmin. unfold sufficient in Hsuf.
  set (N := sqnorm (vsub z x)) in *. set (D := vdot (g x) (vsub z x)) in *.
  assert (Hmul : 1 / (2 * s) * N * s = / 2 * N) by (field; lra).
  apply Rmult_le_reg_r with s; auto.
  apply Rmult_le_compat_r with (r := s) in Hsuf; [|lra].
  rewrite !Rmult_plus_distr_r in *. lra.
Qed.
End Det.

(** ** running the loop by hand (for the examples) *)
Lemma rbind_ok_intro {A B} (m : res A) (f : A -> res B) a b : m = Ok a -> f a = Ok b -> rbind m f = Ok b.
Proof. intros -> H; exact H. Qed.
Lemma pgd_loop_S {S} (orc : oracle S) rg slv fuel x0 st st1 st' :
  moved (s_tol slv) (st_x st) (st_x_prev st) = Ok true ->
  (Z.of_nat (st_iteration st) <? s_max_iter slv)%Z = true ->
  pgd_step orc rg slv x0 st = Ok st1 -> pgd_loop orc rg slv fuel x0 st1 = Ok st' ->
  pgd_loop orc rg slv (Datatypes.S fuel) x0 st = Ok st'.
Proof. intros H1 H2 H3 H4. cbn [pgd_loop]. rewrite H1. cbn [rbind]. rewrite H2, H3. exact H4. Qed.
Lemma pgd_loop_stop {S} (orc : oracle S) rg slv fuel x0 st b :
  moved (s_tol slv) (st_x st) (st_x_prev st) = Ok b ->
  b && (Z.of_nat (st_iteration st) <? s_max_iter slv)%Z = false ->
  pgd_loop orc rg slv fuel x0 st = Ok st.
Proof. intros H1 H2. destruct fuel; cbn [pgd_loop]; rewrite H1; cbn [rbind]; rewrite H2; auto. Qed.
