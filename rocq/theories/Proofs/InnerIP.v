(** Lemmas about the interior-point loop of the relaxed mixed-model oracle. *)
From Coq Require Import Lra Psatz String.
From Verif.Base Require Import Py Vec Mat.
From Verif.Model Require Import LmeProblem Regularizers Solvers LmeInner.
From Verif.Spec Require Import SolverSpec InnerSpec.
From Verif.Proofs Require Import VecFacts MatFacts SolverProofs InnerProofs InnerLoops.
Open Scope list_scope.
Open Scope R_scope.

(** ** blocks *)
Lemma ip_vE n (v b g : vec) : length v = n -> ip_v n (v ++ b ++ g) = v.
Proof. intros <-. unfold ip_v. rewrite firstn_app, Nat.sub_diag, firstn_all. cbn [firstn]. apply app_nil_r. Qed.
Lemma ip_bE n (v b g : vec) : length v = n -> length g = n -> ip_b n (v ++ b ++ g) = b.
Proof.
  intros <- H. unfold ip_b. rewrite !app_length, skipn_app, Nat.sub_diag, skipn_all. cbn [skipn app].
  replace (length v + (length b + length g) - length v - length v)%nat with (length b + 0)%nat by lia.
  rewrite firstn_app_2. cbn [firstn]. apply app_nil_r.
Qed.
Lemma ip_gE n (v b g : vec) : length g = n -> ip_g n (v ++ b ++ g) = g.
Proof.
  intros <-. unfold ip_g. rewrite app_assoc, app_length.
  replace (length (v ++ b) + length g - length g)%nat with (length (v ++ b) + 0)%nat by lia.
  rewrite skipn_app, skipn_all2 by lia. replace (_ + 0 - _)%nat with 0%nat by lia. reflexivity.
Qed.
Lemma split3 n m (d : vec) : length d = (n + m + n)%nat ->
  exists dv db dg, d = dv ++ db ++ dg /\ length dv = n /\ length db = m /\ length dg = n.
Proof.
  intros H. exists (firstn n d), (firstn m (skipn n d)), (skipn m (skipn n d)).
  rewrite (firstn_skipn m), (firstn_skipn n).
  repeat split; rewrite ?firstn_length, ?skipn_length; lia.
Qed.

Lemma mapi_from_app {A B} (f : nat -> A -> B) (x y : list A) : forall i,
  mapi_from i f (x ++ y) = mapi_from i f x ++ mapi_from (i + length x) f y.
Proof.
  induction x as [|a x IH]; intros i; cbn [app mapi_from length]; [rewrite Nat.add_0_r; reflexivity|].
  rewrite IH. replace (S i + length x)%nat with (i + S (length x))%nat by lia. reflexivity.
Qed.
Lemma mapi_from_const {A B} (f : nat -> A -> B) (c : B) (x : list A) : forall i,
  (forall j a, (i <= j < i + length x)%nat -> f j a = c) -> mapi_from i f x = repeat c (length x).
Proof.
  induction x as [|a x IH]; intros i H; cbn [mapi_from repeat length]; [reflexivity|].
  f_equal; [apply H; simpl; lia|]. apply IH. intros j b Hj. apply H. simpl. lia.
Qed.
Lemma ip_maskE n (v b g : vec) : length v = n -> length g = n ->
  ip_mask n (v ++ b ++ g) = repeat true n ++ repeat false (length b) ++ repeat true n.
Proof.
  intros Hv Hg. unfold ip_mask, mapi. rewrite !app_length, !mapi_from_app, Nat.add_0_l.
  rewrite (mapi_from_const _ true v), (mapi_from_const _ false b), (mapi_from_const _ true g).
  - rewrite Hv, Hg. reflexivity.
  - intros j a Hj. apply orb_true_iff. right. apply Nat.leb_le. lia.
  - intros j a Hj. apply orb_false_iff. split; [apply Nat.ltb_ge; lia | apply Nat.leb_gt; lia].
  - intros j a Hj. apply orb_true_iff. left. apply Nat.ltb_lt. lia.
Qed.
Lemma mask_select_app {A} m1 m2 (x y : list A) : length m1 = length x ->
  mask_select (m1 ++ m2) (x ++ y) = mask_select m1 x ++ mask_select m2 y.
Proof.
  revert x; induction m1 as [|b m1 IH]; destruct x as [|a x]; simpl; intros H; try discriminate; [reflexivity|].
  rewrite IH by lia. destruct b; reflexivity.
Qed.
Lemma mask_none {A} (x : list A) : mask_select (repeat false (length x)) x = [].
Proof. induction x; simpl; auto. Qed.
Lemma ip_mask_select n (v b g v' b' g' : vec) : length v = n -> length g = n ->
  length v' = n -> length g' = n -> length b' = length b ->
  mask_select (ip_mask n (v ++ b ++ g)) (v' ++ b' ++ g') = v' ++ g'.
Proof.
  intros Hv Hg Hv' Hg' Hb. rewrite ip_maskE by auto.
  rewrite !mask_select_app by (rewrite repeat_length; auto).
  rewrite !mask_all by auto. rewrite <- Hb, mask_none. reflexivity.
Qed.
Lemma step_to_app x y dx dy a : length x = length dx ->
  step_to (x ++ y) (dx ++ dy) a = step_to x dx a ++ step_to y dy a.
Proof. intros H. unfold step_to. rewrite vscale_app, vadd_app; auto. rewrite vscale_length; auto. Qed.

(** ** the linear system *)
Lemma mv_hcat (a b : mat) x y : length a = length b -> wf_mat (length x) a ->
  mv (hcat a b) (x ++ y) = vadd (mv a x) (mv b y).
Proof.
  revert b; induction a as [|r a IH]; destruct b as [|s b]; cbn [length]; intros H W; try discriminate; [reflexivity|].
  apply wf_mat_cons in W. destruct W as [W1 W2].
  cbn [hcat map2 mv map vadd]. fold (hcat a b). fold (mv (hcat a b) (x ++ y)). fold (mv a x) (mv b y).
  fold (vadd (mv a x) (mv b y)). rewrite vdot_app by auto. f_equal. apply IH; auto.
Qed.
Lemma hcat_length (a b : mat) : length a = length b -> length (hcat a b) = length a.
Proof. intros H. unfold hcat. rewrite map2_length_eq; auto. Qed.
Lemma hcat_wf p q (a b : mat) : length a = length b -> wf_mat p a -> wf_mat q b -> wf_mat (p + q) (hcat a b).
Proof.
  revert b; induction a as [|r a IH]; destruct b as [|s b]; cbn [length]; intros H Wa Wb; try discriminate; [constructor|].
  apply wf_mat_cons in Wa. apply wf_mat_cons in Wb. cbn [hcat map2]. apply wf_mat_cons.
  rewrite app_length. split; [lia|]. apply IH; tauto || lia.
Qed.
Lemma mv_zero_rows n m x : mv (repeat (zeros m) n) x = zeros n.
Proof. induction n; cbn [repeat mv map]; [reflexivity|]. fold (mv (repeat (zeros m) n) x). rewrite IHn, vdot_zeros_l. reflexivity. Qed.
Lemma zero_rows_wf n m : wf_mat m (repeat (zeros m) n).
Proof. apply Forall_forall. intros r H. apply repeat_spec in H. subst. apply zeros_length. Qed.
Lemma vadd_zeros_r x : vadd x (zeros (length x)) = x.
Proof. induction x; simpl; [reflexivity|]. unfold vadd, zeros in *. cbn [repeat map2]. rewrite IHx. f_equal. lra. Qed.
Lemma vadd_zeros_l x : vadd (zeros (length x)) x = x.
Proof. induction x; simpl; [reflexivity|]. unfold vadd, zeros in *. cbn [repeat map2]. rewrite IHx. f_equal. lra. Qed.
Lemma tr_zero_rows n m : tr m (repeat (zeros m) n) = repeat (zeros n) m.
Proof.
  unfold tr. assert (E : forall j, map (fun row => nth j row 0) (repeat (zeros m) n) = zeros n).
  { intros j. induction n; simpl; [reflexivity|]. rewrite IHn. change (zeros (S n)) with (0 :: zeros n). f_equal.
    unfold zeros. apply nth_repeat. }
  rewrite (map_ext _ (fun _ => zeros n)) by (intros; apply E).
  assert (G : forall k s, map (fun _ : nat => zeros n) (seq s k) = repeat (zeros n) k) by (induction k; intros; simpl; auto; f_equal; auto).
  apply G.
Qed.

(** ** one execution of the body *)
Section IP.
Variable calls : sr3_calls.
Variable opts : ip_options.
Variables p q : nat.
Variable solve : mat -> vec -> res vec.
Variable ms : (R -> res R) -> R -> res R.
Variable n : nat.

Lemma ip_FE l tb tg v b g mu f : length v = n -> length g = n ->
  ip_F calls l tb tg n (v ++ b ++ g) mu = Ok f ->
  exists gb gg, sc_gradient_beta calls l b g tb tg = Ok gb /\ sc_gradient_gamma calls l b g tb tg = Ok gg /\
    f = map (fun a => a - mu) (vmul v g) ++ gb ++ vsub gg v.
Proof.
  intros Hv Hg H. unfold ip_F in H. rewrite ip_vE, ip_bE, ip_gE in H by auto.
  apply rbind_inv in H. destruct H as [gb [Gb H]]. apply rbind_inv in H. destruct H as [gg [Gg H]].
  inversion H. eauto.
Qed.
Lemma ip_dFE l v b g df : length v = n -> length g = n -> ip_dF calls l n (v ++ b ++ g) = Ok df ->
  exists hb hbg hg, sc_hessian_beta calls l b g = Ok hb /\ sc_hessian_beta_gamma calls b g = Ok hbg /\
    sc_hessian_gamma calls l b g = Ok hg /\
    df = hcat (hcat (diag g) (repeat (zeros (length b)) n)) (diag v)
      ++ hcat (hcat (tr (length b) (repeat (zeros (length b)) n)) hb) hbg
      ++ hcat (hcat (diag (repeat (-1) n)) (tr n hbg)) hg.
Proof.
  intros Hv Hg H. unfold ip_dF in H. rewrite ip_vE, ip_bE, ip_gE in H by auto.
  apply rbind_inv in H. destruct H as [hb [Hb H]]. apply rbind_inv in H. destruct H as [hbg [Hbg H]].
  apply rbind_inv in H. destruct H as [hg [Hhg H]]. inversion H. exists hb, hbg, hg. auto.
Qed.

Lemma ip_body_inv s s' v : length v = n -> length (is_gamma s) = n -> is_x s = v ++ is_beta s ++ is_gamma s ->
  ip_body calls opts p q solve ms n s = Ok s' ->
  exists f df dv db dg a,
    ip_F calls (is_lam s) (is_tbeta s) (is_tgamma s) n (is_x s) (is_mu s) = Ok f /\
    ip_dF calls (is_lam s) n (is_x s) = Ok df /\
    solve df (vneg f) = Ok (dv ++ db ++ dg) /\
    length dv = n /\ length db = length (is_beta s) /\ length dg = n /\
    (if io_line_search opts
     then ms (fun t => let! f' := ip_F calls (is_lam s) (is_tbeta s) (is_tgamma s) n
                          (step_to (is_x s) (dv ++ db ++ dg) t) (is_mu s) in Ok (norm f' ^ 2))
             (max_step (ip_mask n (is_x s)) (is_x s) (dv ++ db ++ dg)) = Ok a
     else a = 99 / 100 * max_step (ip_mask n (is_x s)) (is_x s) (dv ++ db ++ dg)) /\
    is_x s' = step_to v dv a ++ is_beta s' ++ is_gamma s' /\
    is_beta s' = step_to (is_beta s) db a /\ is_gamma s' = step_to (is_gamma s) dg a /\
    is_step s' = a /\ is_iter s' = S (is_iter s) /\
    is_prev s' = Some (is_tbeta s, is_tgamma s, is_beta s, is_gamma s) /\
    barrier_update opts p q n s s' (step_to v dv a).
Proof.
  intros Hv Hg Hx H. unfold ip_body in H.
  apply rbind_inv in H. destruct H as [f [Ff H]]. apply rbind_inv in H. destruct H as [df [Fd H]].
  apply rbind_inv in H. destruct H as [d [Fs H]].
  apply rbind_inv in H. destruct H as [u [U H]]. apply guard_inv, Nat.eqb_eq in U.
  apply rbind_inv in H. destruct H as [a [Ha H]].
  assert (DL : length d = (n + length (is_beta s) + n)%nat) by (rewrite U, Hx, !app_length; lia).
  destruct (split3 _ _ _ DL) as [dv [db [dg [-> [Lv [Lb Lg]]]]]].
  change (vadd (is_x s) (vscale a (dv ++ db ++ dg))) with (step_to (is_x s) (dv ++ db ++ dg) a) in H.
  assert (X : step_to (is_x s) (dv ++ db ++ dg) a =
              step_to v dv a ++ step_to (is_beta s) db a ++ step_to (is_gamma s) dg a).
  { rewrite Hx, !step_to_app by lia. reflexivity. }
  rewrite X in H.
  assert (L1 : length (step_to v dv a) = n) by (rewrite step_to_length; lia).
  assert (L2 : length (step_to (is_gamma s) dg a) = n) by (rewrite step_to_length; lia).
  rewrite ip_vE, ip_bE, ip_gE in H by auto.
  exists f, df, dv, db, dg, a.
  split; [exact Ff|]. split; [exact Fd|]. split; [exact Fs|]. split; [exact Lv|]. split; [exact Lb|]. split; [exact Lg|].
  split.
  { destruct (io_line_search opts); [exact Ha | inversion Ha; reflexivity]. }
  clear Ha. unfold barrier_update.
  destruct (rltb _ _) eqn:E in H.
  - inversion H; subst s'; cbn [is_x is_beta is_gamma is_step is_iter is_prev is_tbeta is_tgamma is_mu is_lam is_conv].
    apply rltb_true in E. repeat (split; [reflexivity|]). left. repeat split; auto.
  - apply rltb_false in E.
    apply rbind_inv in H. destruct H as [[tb tg] [T H]].
    apply rbind_inv in H. destruct H as [[l' conv] [Lm H]].
    inversion H; subst s'; cbn [is_x is_beta is_gamma is_step is_iter is_prev is_tbeta is_tgamma is_mu is_lam is_conv].
    repeat (split; [reflexivity|]). right. split; [exact E|]. split; [reflexivity|]. split.
    + destruct (io_prox opts) as [pr|] eqn:P.
      * destruct ((0 <? io_update_every opts)%Z && (Z.of_nat (S (is_iter s)) mod io_update_every opts =? 0)%Z) eqn:B.
        -- apply rbind_inv in T. destruct T as [tx [Tx T]]. inversion T; subst.
           apply andb_true_iff in B. destruct B as [B1 B2]. apply Z.ltb_lt in B1. apply Z.eqb_eq in B2.
           left. exists pr, tx. repeat split; auto.
        -- inversion T; subst. apply andb_false_iff in B. right. split; auto. right.
           destruct B as [B|B]; [left; apply Z.ltb_ge in B | right; apply Z.eqb_neq in B]; auto.
      * inversion T; subst. right. auto.
    + destruct (io_increase opts).
      * apply rbind_inv in Lm. destruct Lm as [w [W Lm]]. inversion Lm; subst. split; [reflexivity|]. split; [reflexivity|].
        rewrite orb_true_iff, !rltb_true. reflexivity.
      * inversion Lm; subst. auto.
Qed.

(** *** positivity *)
Lemma ip_body_positive s s' : (0 < n)%nat ->
  (io_line_search opts = true -> minimiser_inside ms) ->
  packed_with positive n s -> ip_body calls opts p q solve ms n s = Ok s' -> packed_with positive n s'.
Proof.
  intros Hn Hms [v [Hv [Hg [Hx [Pv Pg]]]]] H.
  destruct (ip_body_inv _ _ _ Hv Hg Hx H) as
    (f & df & dv & db & dg & a & Ff & Fd & Fs & Lv & Lb & Lg & Ha & Ex & Eb & Eg & _).
  set (d := dv ++ db ++ dg) in *.
  assert (I : interior (ip_mask n (is_x s)) (is_x s)).
  { unfold interior. rewrite Hx, ip_mask_select by auto. apply positive_app. auto. }
  assert (M : 0 < max_step (ip_mask n (is_x s)) (is_x s) d) by (apply max_step_pos; auto).
  assert (A : 0 <= a < max_step (ip_mask n (is_x s)) (is_x s) d).
  { destruct (io_line_search opts); [apply (Hms eq_refl _ _ _ M Ha) | subst a; lra]. }
  assert (DL : length d = length (is_x s)) by (unfold d; rewrite Hx, !app_length; lia).
  pose proof (max_step_interior _ _ _ _ DL I A) as I'. unfold interior in I'. rewrite Hx in I'. unfold d in I'.
  rewrite !step_to_app in I' by lia. rewrite ip_mask_select in I'; auto; try (rewrite step_to_length; lia).
  apply positive_app in I'. exists (step_to v dv a). rewrite step_to_length by lia.
  split; [auto|]. split; [rewrite Eg, step_to_length; lia|]. split; [auto|]. rewrite Eg. exact I'.
Qed.
Lemma ip_body_nonneg s s' : (0 < n)%nat ->
  (io_line_search opts = true -> minimiser_in_bounds ms) ->
  packed_with nonneg n s -> ip_body calls opts p q solve ms n s = Ok s' -> packed_with nonneg n s'.
Proof.
  intros Hn Hms [v [Hv [Hg [Hx [Pv Pg]]]]] H.
  destruct (ip_body_inv _ _ _ Hv Hg Hx H) as
    (f & df & dv & db & dg & a & Ff & Fd & Fs & Lv & Lb & Lg & Ha & Ex & Eb & Eg & _).
  set (d := dv ++ db ++ dg) in *.
  assert (I : feasible (ip_mask n (is_x s)) (is_x s)).
  { unfold feasible. rewrite Hx, ip_mask_select by auto. apply nonneg_app. auto. }
  assert (M : 0 <= max_step (ip_mask n (is_x s)) (is_x s) d) by (apply max_step_nonneg; auto).
  pose proof (max_step_le1 (ip_mask n (is_x s)) (is_x s) d).
  assert (A : 0 <= a <= max_step (ip_mask n (is_x s)) (is_x s) d).
  { destruct (io_line_search opts); [apply (Hms eq_refl _ _ _ M Ha) | subst a; lra]. }
  assert (DL : length d = length (is_x s)) by (unfold d; rewrite Hx, !app_length; lia).
  pose proof (proj1 (max_step_feasible _ _ _ a DL I ltac:(lra)) ltac:(lra)) as I'. unfold feasible in I'. rewrite Hx in I'.
  unfold d in I'.
  rewrite !step_to_app in I' by lia. rewrite ip_mask_select in I'; auto; try (rewrite step_to_length; lia).
  apply nonneg_app in I'. exists (step_to v dv a). rewrite step_to_length by lia.
  split; [auto|]. split; [rewrite Eg, step_to_length; lia|]. split; [auto|]. rewrite Eg. exact I'.
Qed.
Lemma ip_body_packed s s' : packed n s -> ip_body calls opts p q solve ms n s = Ok s' -> packed n s'.
Proof.
  intros [v [Hv [Hg Hx]]] H.
  destruct (ip_body_inv _ _ _ Hv Hg Hx H) as
    (f & df & dv & db & dg & a & Ff & Fd & Fs & Lv & Lb & Lg & Ha & Ex & Eb & Eg & _).
  exists (step_to v dv a). rewrite step_to_length by lia. rewrite Eg, step_to_length by lia.
  rewrite <- Eg. auto.
Qed.

Lemma ip_steps_inv (P : ip_state -> Prop) k s s' :
  (forall s s', P s -> ip_body calls opts p q solve ms n s = Ok s' -> P s') ->
  ip_steps calls opts p q solve ms n k s s' -> P s -> P s'.
Proof. intros HP St. induction St; eauto. Qed.
Lemma ip_steps_iter k s s' : packed n s -> ip_steps calls opts p q solve ms n k s s' ->
  is_iter s' = (is_iter s + k)%nat /\ length (is_beta s') = length (is_beta s).
Proof.
  intros P St. induction St as [s|k s s1 s' B St IH]; [lia|].
  pose proof (ip_body_packed _ _ P B) as P1. destruct P as [v [Hv [Hg Hx]]].
  destruct (ip_body_inv _ _ _ Hv Hg Hx B) as
    (f & df & dv & db & dg & a & Ff & Fd & Fs & Lv & Lb & Lg & Ha & Ex & Eb & Eg & _ & I & _).
  destruct (IH P1) as [I1 I2]. rewrite I1, I2, I, Eb, step_to_length by lia. lia.
Qed.

Lemma ip_body_iter s s' : ip_body calls opts p q solve ms n s = Ok s' -> is_iter s' = S (is_iter s).
Proof.
  intros H. unfold ip_body in H.
  apply rbind_inv in H. destruct H as [f [_ H]]. apply rbind_inv in H. destruct H as [df [_ H]].
  apply rbind_inv in H. destruct H as [d [_ H]]. apply rbind_inv in H. destruct H as [u [_ H]].
  apply rbind_inv in H. destruct H as [a [_ H]]. destruct (rltb _ _) in H.
  - inversion H; reflexivity.
  - apply rbind_inv in H. destruct H as [[tb tg] [_ H]]. apply rbind_inv in H. destruct H as [[l' cv] [_ H]].
    inversion H; reflexivity.
Qed.
(** *** the loop *)
Lemma ip_loop_steps : forall fuel s s', ip_loop calls opts p q solve ms n fuel s = Ok s' ->
  exists k, (k <= fuel)%nat /\ ip_steps calls opts p q solve ms n k s s' /\ ip_continue calls opts n s' = Ok false.
Proof.
  induction fuel as [|fuel IH]; intros s s' H; cbn [ip_loop] in H;
    apply rbind_inv in H; destruct H as [c [C H]]; destruct c; try discriminate.
  - inversion H; subst. exists 0%nat. repeat split; auto. constructor.
  - apply rbind_inv in H. destruct H as [s1 [B H]]. destruct (IH _ _ H) as [k [K [St E]]].
    exists (S k). repeat split; auto; [lia|]. econstructor; eauto.
  - inversion H; subst. exists 0%nat. repeat split; auto; [lia|constructor].
Qed.
Lemma ip_continue_iter s : ip_continue calls opts n s = Ok true -> (Z.of_nat (is_iter s) < io_n_iter opts)%Z.
Proof.
  unfold ip_continue. intros H. destruct (nonzero (is_step s)); [|discriminate].
  destruct (Z.ltb_spec (Z.of_nat (is_iter s)) (io_n_iter opts)); [lia|discriminate].
Qed.

(** why the loop stopped *)
Lemma moved_false tol x pv : moved tol x pv = Ok false -> small_move tol x pv.
Proof.
  destruct pv as [y|]; simpl.
  - intros H. apply rbind_inv in H. destruct H as [u [U H]]. inversion H as [H']. apply rltb_false in H'. auto.
  - destruct x; intros H; inversion H as [H']. apply rltb_false in H'. auto.
Qed.
Lemma ip_stop s v : length v = n -> length (is_gamma s) = n -> is_x s = v ++ is_beta s ++ is_gamma s ->
  ip_continue calls opts n s = Ok false ->
  stop_reason calls opts s v.
Proof.
  intros Hv Hg Hx H. unfold ip_continue in H. unfold stop_reason.
  destruct (nonzero (is_step s)) eqn:E1; [|apply nonzero_false in E1; auto].
  destruct (Z.ltb_spec (Z.of_nat (is_iter s)) (io_n_iter opts)); [|right; left; lia].
  cbn [andb] in H. apply rbind_inv in H. destruct H as [f [Ff H]].
  destruct (rltb (io_tol opts) (norm f) || rltb (io_tol opts) (is_mu s)) eqn:E.
  - right; right; right. unfold prev_of.
    apply rbind_inv in H. destruct H as [c1 [C1 H]]. destruct c1; [discriminate|].
    apply rbind_inv in H. destruct H as [c2 [C2 H]]. destruct c2; [discriminate|].
    apply rbind_inv in H. destruct H as [c3 [C3 H]]. destruct c3; [discriminate|].
    apply rbind_inv in H. destruct H as [c4 [C4 H]]. inversion H as [H']. apply orb_false_iff in H'.
    destruct H' as [-> Hc]. repeat split; auto; apply moved_false; assumption.
  - apply orb_false_iff in E. destruct E as [E2 E3]. apply rltb_false in E2. apply rltb_false in E3.
    right; right; left. split; auto. rewrite Hx in Ff.
    destruct (ip_FE _ _ _ _ _ _ _ _ Hv Hg Ff) as [gb [gg [Gb [Gg ->]]]].
    exists (norm (map (fun a => a - is_mu s) (vmul v (is_gamma s)) ++ gb ++ vsub gg v)). split; [|exact E2].
    exists gb, gg. split; [exact Gb|]. split; [exact Gg|]. unfold norm. rewrite !sqnorm_app. f_equal. lra.
Qed.

(** *** the routine never runs out of fuel *)
Lemma moved_oof tol x pv : no_oof (moved tol x pv).
Proof.
  destruct pv; simpl; [apply rbind_oof; [apply guard_oof; discriminate|intros; apply ok_oof]|].
  destruct x; apply ok_oof.
Qed.
Lemma ip_F_oof l tb tg x mu : ip_calls_return calls opts solve ms -> no_oof (ip_F calls l tb tg n x mu).
Proof.
  intros [H1 [H2 _]]. unfold ip_F. apply rbind_oof; [apply H1|]. intros. apply rbind_oof; [apply H2|].
  intros; apply ok_oof.
Qed.
Lemma ip_body_oof s : ip_calls_return calls opts solve ms -> no_oof (ip_body calls opts p q solve ms n s).
Proof.
  intros HC. pose proof HC as [H1 [H2 [H3 [H4 [H5 [H6 [H7 [H8 H9]]]]]]]]. unfold ip_body.
  apply rbind_oof; [apply ip_F_oof; auto|]. intros f _.
  apply rbind_oof.
  { unfold ip_dF. apply rbind_oof; [apply H3|]. intros. apply rbind_oof; [apply H4|]. intros.
    apply rbind_oof; [apply H5|]. intros; apply ok_oof. }
  intros df _. apply rbind_oof; [apply H7|]. intros d _. apply rbind_oof; [apply guard_oof; discriminate|].
  intros _ _. apply rbind_oof; [destruct (io_line_search opts); [apply H8|apply ok_oof]|]. intros a _.
  destruct (rltb _ _); [apply ok_oof|].
  apply rbind_oof.
  { destruct (io_prox opts) as [pr|] eqn:P; [|apply ok_oof]. destruct (_ && _); [|apply ok_oof].
    apply rbind_oof; [apply (H9 _ _ _ eq_refl)|]. intros; apply ok_oof. }
  intros [tb tg] _. apply rbind_oof.
  { destruct (io_increase opts); [|apply ok_oof]. apply rbind_oof; [apply guard_oof; discriminate|].
    intros; apply ok_oof. }
  intros [l' cv] _. apply ok_oof.
Qed.
Lemma ip_continue_oof s : ip_calls_return calls opts solve ms -> no_oof (ip_continue calls opts n s).
Proof.
  intros HC. unfold ip_continue. destruct (_ && _); [|apply ok_oof].
  apply rbind_oof; [apply ip_F_oof; auto|]. intros f _. destruct (_ || _); [|apply ok_oof].
  apply rbind_oof; [apply moved_oof|]. intros c1 _. destruct c1; [apply ok_oof|].
  apply rbind_oof; [apply moved_oof|]. intros c2 _. destruct c2; [apply ok_oof|].
  apply rbind_oof; [apply moved_oof|]. intros c3 _. destruct c3; [apply ok_oof|].
  apply rbind_oof; [apply moved_oof|]. intros; apply ok_oof.
Qed.
Lemma ip_loop_oof : forall fuel s, ip_calls_return calls opts solve ms ->
  (io_n_iter opts <= Z.of_nat (is_iter s + fuel))%Z ->
  no_oof (ip_loop calls opts p q solve ms n fuel s).
Proof.
  induction fuel as [|fuel IH]; intros s HC B; cbn [ip_loop].
  - apply rbind_oof; [apply ip_continue_oof; auto|]. intros c C. destruct c; [|apply ok_oof].
    apply ip_continue_iter in C. lia.
  - apply rbind_oof; [apply ip_continue_oof; auto|]. intros c C. destruct c; [|apply ok_oof].
    apply rbind_oof; [apply ip_body_oof; auto|]. intros s1 B1.
    apply IH; auto. rewrite (ip_body_iter _ _ B1). lia.
Qed.

(** *** the Newton system *)
Lemma first_block l v b g dv db dg df : length v = n -> length g = n -> length dv = n -> length db = length b ->
  ip_dF calls l n (v ++ b ++ g) = Ok df ->
  firstn n (mv df (dv ++ db ++ dg)) = vadd (vmul g dv) (mv (diag v) dg).
Proof.
  intros Hv Hg Lv Lb H. destruct (ip_dFE _ _ _ _ _ Hv Hg H) as [hb [hbg [hg [_ [_ [_ ->]]]]]].
  rewrite mv_app. rewrite firstn_app.
  assert (L : length (mv (hcat (hcat (diag g) (repeat (zeros (length b)) n)) (diag v)) (dv ++ db ++ dg)) = n).
  { rewrite mv_length, hcat_length; rewrite ?hcat_length; rewrite ?diag_length, ?repeat_length; auto; lia. }
  rewrite L, Nat.sub_diag, firstn_all2 by lia. cbn [firstn]. rewrite app_nil_r.
  rewrite app_assoc, mv_hcat.
  - rewrite mv_hcat; [|rewrite diag_length, repeat_length; lia|rewrite Lv, <- Hg; apply diag_wf].
    rewrite mv_zero_rows, (mv_diag g) by lia.
    assert (E : n = length (vmul g dv)) by (rewrite vmul_length; lia). rewrite E at 1. rewrite vadd_zeros_r. reflexivity.
  - rewrite hcat_length; rewrite ?diag_length, ?repeat_length; lia.
  - rewrite app_length. apply hcat_wf; [rewrite diag_length, repeat_length; lia|rewrite Lv, <- Hg; apply diag_wf|].
    rewrite Lb. apply zero_rows_wf.
Qed.

Lemma app_split {A} (a b c d : list A) : length a = length c -> a ++ b = c ++ d -> a = c /\ b = d.
Proof.
  revert c; induction a as [|x a IH]; destruct c as [|y c]; simpl; intros L H; try discriminate; auto.
  inversion H; subst. destruct (IH c ltac:(lia) H2); subst. auto.
Qed.
Lemma vadd_vneg x : vadd x (vneg x) = zeros (length x).
Proof. induction x; simpl; [reflexivity|]. unfold vadd, vneg, zeros in *. cbn [map map2 repeat]. rewrite IHx. f_equal. lra. Qed.
Lemma mv_minus_eye dv : mv (diag (repeat (-1) (length dv))) dv = vneg dv.
Proof.
  rewrite mv_diag by (rewrite repeat_length; auto). unfold vmul, vneg.
  rewrite map2_repeat_l. apply map_ext. intros; lra.
Qed.
Lemma reorder dv : forall t m, length t = length dv -> length m = length dv ->
  vsub (vadd t m) dv = vadd (vadd (vneg dv) t) m.
Proof.
  induction dv as [|a dv IH]; intros [|b t] [|c m]; simpl; intros H1 H2; try discriminate; [reflexivity|].
  unfold vsub, vadd, vneg in *. cbn [map map2]. rewrite IH by lia. f_equal. lra.
Qed.

Lemma newton_lemma s v f df dv db dg : length v = n -> length (is_gamma s) = n ->
  is_x s = v ++ is_beta s ++ is_gamma s ->
  well_shaped calls (length (is_beta s)) n -> solve_ok solve ->
  ip_F calls (is_lam s) (is_tbeta s) (is_tgamma s) n (is_x s) (is_mu s) = Ok f ->
  ip_dF calls (is_lam s) n (is_x s) = Ok df ->
  solve df (vneg f) = Ok (dv ++ db ++ dg) ->
  length dv = n -> length db = length (is_beta s) -> length dg = n ->
  newton_direction calls n s v dv db dg.
Proof.
  intros Hv Hg Hx W So Ff Fd Fs Lv Lb Lg. apply So in Fs. rewrite Hx in Ff, Fd.
  pose proof (first_block _ _ _ _ dv db dg _ Hv Hg Lv Lb Fd) as B1.
  destruct (ip_FE _ _ _ _ _ _ _ _ Hv Hg Ff) as [gb [gg [Gb [Gg Ef]]]].
  destruct (ip_dFE _ _ _ _ _ Hv Hg Fd) as [hb [hbg [hg [Hb [Hbg [Hhg Ed]]]]]].
  destruct (W (is_lam s) (is_beta s) (is_gamma s) (is_tbeta s) (is_tgamma s) eq_refl Hg) as [W1 [W2 [W3 [W4 W5]]]].
  specialize (W1 _ Gb). specialize (W2 _ Gg). destruct (W3 _ Hb) as [Hb1 Hb2]. destruct (W4 _ Hbg) as [Hc1 Hc2].
  destruct (W5 _ Hhg) as [Hd1 Hd2].
  exists gb, gg, hb, hbg, hg. repeat (split; [assumption|]).
  assert (LF : length (map (fun a => a - is_mu s) (vmul v (is_gamma s))) = n) by (rewrite map_length, vmul_length; lia).
  split.
  { rewrite Fs, Ef in B1. rewrite vneg_app, firstn_app, vneg_length, LF, Nat.sub_diag, firstn_all2 in B1 by (rewrite vneg_length; lia).
    cbn [firstn] in B1. rewrite app_nil_r, mv_diag in B1 by lia.
    intros i Hi. assert (E : nth i (vneg (map (fun a => a - is_mu s) (vmul v (is_gamma s)))) 0 =
                             nth i (vadd (vmul (is_gamma s) dv) (vmul v dg)) 0) by (rewrite B1; reflexivity).
    unfold vneg, vadd, vmul in E.
    rewrite (nth_indep _ 0 (- (0 - is_mu s))) in E by (rewrite !map_length, map2_length_eq; lia).
    rewrite map_map in E. rewrite (map_nth (fun a => - (a - is_mu s))) in E.
    rewrite !(map2_nth _ _ _ _ 0 0) in E by (rewrite ?map2_length_eq; lia). lra. }
  rewrite Ed, !mv_app in Fs. rewrite Ef, !vneg_app in Fs.
  apply app_split in Fs.
  2:{ rewrite mv_length, vneg_length, LF, hcat_length; rewrite ?hcat_length; rewrite ?diag_length, ?repeat_length; lia. }
  destruct Fs as [_ Fs]. apply app_split in Fs.
  2:{ rewrite mv_length, vneg_length, W1, hcat_length; rewrite ?hcat_length; rewrite ?tr_length; lia. }
  destruct Fs as [F2 F3]. split.
  - rewrite app_assoc, mv_hcat in F2.
    + rewrite mv_hcat in F2; [|rewrite tr_length; lia|rewrite tr_zero_rows, Lv; apply zero_rows_wf].
      rewrite tr_zero_rows, mv_zero_rows in F2.
      replace (length (is_beta s)) with (length (mv hb db)) in F2 by (rewrite mv_length; auto).
      rewrite vadd_zeros_l in F2. rewrite F2, vadd_vneg. reflexivity.
    + rewrite hcat_length; rewrite ?tr_length; lia.
    + rewrite app_length. apply hcat_wf; [rewrite tr_length; lia|rewrite tr_zero_rows, Lv; apply zero_rows_wf|].
      rewrite Lb. auto.
  - rewrite app_assoc, mv_hcat in F3.
    + rewrite mv_hcat in F3.
      * rewrite <- Lv in F3 at 1. rewrite mv_minus_eye, mv_tr in F3 by (auto; lia).
        rewrite reorder; [| rewrite tmv_len; auto | rewrite mv_length; lia].
        rewrite F3, vadd_vneg, vsub_length by lia. congruence.
      * rewrite diag_length, repeat_length, tr_length. auto.
      * rewrite Lv. pose proof (diag_wf (repeat (-1) n)) as D. rewrite repeat_length in D. exact D.
    + rewrite hcat_length; rewrite ?diag_length, ?repeat_length, ?tr_length; auto; lia.
    + rewrite app_length. apply hcat_wf; [rewrite diag_length, repeat_length, tr_length; auto| |].
      * rewrite Lv. pose proof (diag_wf (repeat (-1) n)) as D. rewrite repeat_length in D. exact D.
      * rewrite Lb. pose proof (tr_wf n hbg) as D. rewrite Hc1 in D. exact D.
Qed.

(** *** a vanishing gamma never moves *)
Definition stuck (s : ip_state) : Prop :=
  is_mu s = 0 /\ is_gamma s = zeros n /\
  exists v, length v = n /\ positive v /\ is_x s = v ++ is_beta s ++ zeros n.
Lemma vdot_zeros_r x m : vdot x (zeros m) = 0.
Proof. rewrite vdot_comm. apply vdot_zeros_l. Qed.
Lemma positive_nth x i : positive x -> (i < length x)%nat -> 0 < nth i x 0.
Proof. intros P L. unfold positive in P. rewrite Forall_forall in P. apply P, nth_In; auto. Qed.

Lemma neg_ratios_app m1 : forall x dx m2 y dy, length m1 = length x -> length dx = length x ->
  neg_ratios (m1 ++ m2) (x ++ y) (dx ++ dy) = neg_ratios m1 x dx ++ neg_ratios m2 y dy.
Proof.
  induction m1 as [|c m1 IH]; intros [|a x] [|d dx] m2 y dy H1 H2; simpl in *; try discriminate; auto.
  rewrite IH by lia. destruct (c && rltb d 0); reflexivity.
Qed.
Lemma neg_ratios_false k : forall x d, neg_ratios (repeat false k) x d = [].
Proof. induction k; intros [|a x] [|e d]; simpl; auto. Qed.
Lemma neg_ratios_zeros k : forall m x, neg_ratios m x (zeros k) = [].
Proof.
  unfold zeros. induction k; intros [|c m] [|a x]; simpl; auto.
  unfold rltb. destruct (Rlt_dec 0 0); [lra|]. rewrite andb_false_r. apply IHk.
Qed.
Lemma max_step_stuck v b dv db : length v = n -> length dv = n -> length db = length b ->
  max_step (ip_mask n (v ++ b ++ zeros n)) (v ++ b ++ zeros n) (dv ++ db ++ zeros n) = max_step (repeat true n) v dv.
Proof.
  intros Hv Lv Lb. rewrite ip_maskE by (auto; apply zeros_length). unfold max_step.
  rewrite !neg_ratios_app by (rewrite ?repeat_length; lia).
  rewrite neg_ratios_false, neg_ratios_zeros, !app_nil_r. reflexivity.
Qed.

Lemma ip_body_stuck s s' : (0 < n)%nat -> solve_ok solve ->
  (io_line_search opts = true -> minimiser_inside ms) ->
  stuck s -> ip_body calls opts p q solve ms n s = Ok s' -> stuck s'.
Proof.
  intros Hn So Hms [Mu [Ga [v [Hv [Pv Hx]]]]] H.
  assert (Hg : length (is_gamma s) = n) by (rewrite Ga; apply zeros_length).
  assert (Hx' : is_x s = v ++ is_beta s ++ is_gamma s) by (rewrite Ga; auto).
  destruct (ip_body_inv _ _ _ Hv Hg Hx' H) as
    (f & df & dv & db & dg & a & Ff & Fd & Fs & Lv & Lb & Lg & Ha & Ex & Eb & Eg & Es & Ei & Ep & T).
  apply So in Fs. rewrite Hx in Ff, Fd.
  pose proof (first_block _ _ _ _ dv db dg _ Hv (zeros_length n) Lv Lb Fd) as B1.
  destruct (ip_FE _ _ _ _ _ _ _ _ Hv (zeros_length n) Ff) as [gb [gg [Gb [Gg Ef]]]].
  assert (LF : length (map (fun a => a - is_mu s) (vmul v (zeros n))) = n)
    by (rewrite map_length, vmul_length; rewrite zeros_length; lia).
  rewrite Fs, Ef in B1. rewrite vneg_app, firstn_app, vneg_length, LF, Nat.sub_diag, firstn_all2 in B1 by (rewrite vneg_length; lia).
  cbn [firstn] in B1. rewrite app_nil_r, mv_diag in B1 by lia.
  assert (Dg : dg = zeros n).
  { apply nth_ext_R; [rewrite zeros_length; auto|]. intros i Hi. rewrite Lg in Hi.
    assert (E : nth i (vneg (map (fun a => a - is_mu s) (vmul v (zeros n)))) 0 =
                nth i (vadd (vmul (zeros n) dv) (vmul v dg)) 0) by (rewrite B1; reflexivity).
    unfold vneg, vadd, vmul in E.
    rewrite (nth_indep _ 0 (- (0 - is_mu s))) in E by (rewrite !map_length, map2_length_eq; rewrite ?zeros_length; lia).
    rewrite map_map in E. rewrite (map_nth (fun a => - (a - is_mu s))) in E.
    rewrite !(map2_nth _ _ _ _ 0 0) in E by (rewrite ?map2_length_eq; rewrite ?zeros_length; lia).
    assert (Z : nth i (zeros n) 0 = 0) by (unfold zeros; apply nth_repeat).
    rewrite Z in E |- *. rewrite Mu in E. pose proof (positive_nth v i Pv ltac:(lia)). nra. }
  assert (G' : is_gamma s' = zeros n).
  { rewrite Eg, Ga, Dg. unfold step_to, vscale, zeros. clear. induction n; simpl; [reflexivity|].
    unfold vadd in *. cbn [map2]. rewrite IHn0. f_equal. lra. }
  split; [|split; [exact G'|]].
  - destruct T as [[_ [_ [_ [M _]]]]|[_ [M _]]]; [congruence|].
    rewrite M, G', vdot_zeros_r. unfold Rdiv. rewrite Rmult_0_r, Rmult_0_l. reflexivity.
  - exists (step_to v dv a). rewrite step_to_length by lia. split; [auto|]. split; [|rewrite Ex, G'; reflexivity].
    rewrite Hx, Dg, max_step_stuck in Ha by auto.
    assert (I : interior (repeat true n) v) by (unfold interior; rewrite mask_all; auto).
    pose proof (max_step_pos (repeat true n) v dv I) as M.
    assert (A : 0 <= a < max_step (repeat true n) v dv).
    { destruct (io_line_search opts); [apply (Hms eq_refl _ _ _ M Ha) | subst a; lra]. }
    pose proof (max_step_interior (repeat true n) v dv a ltac:(lia) I A) as I'.
    unfold interior in I'. rewrite mask_all in I' by (rewrite step_to_length; lia). exact I'.
Qed.

End IP.

(** *** the whole routine *)
Lemma ip_startE n warm mem beta gamma tb tg : length gamma = n ->
  let s := ip_start warm mem beta gamma tb tg in
  is_x s = ones n ++ is_beta s ++ is_gamma s /\ is_beta s = start_beta warm mem beta /\
  is_gamma s = start_gamma warm mem gamma /\ is_tbeta s = tb /\ is_tgamma s = tg /\ is_iter s = 0%nat /\
  is_mu s = / 10 * vdot (ones n) (is_gamma s) / INR n /\ is_lam s = sm_lam mem /\ is_step s = 1 /\ is_prev s = None /\
  is_conv s = false.
Proof.
  intros <-. unfold ip_start, start_beta, start_gamma.
  destruct warm, (sm_warm mem) as [[b g]|]; cbn; repeat split.
Qed.
Section Find.
Variable calls : sr3_calls.
Variable opts : ip_options.
Variables p q : nat.
Variable solve : mat -> vec -> res vec.
Variable ms : (R -> res R) -> R -> res R.
Lemma find_ip_inv warm mem beta gamma tb tg b' g' tb' tg' mem' : tg <> [] ->
  find_ip calls opts p q solve ms warm mem beta gamma tb tg = Ok (b', g', tb', tg', mem') ->
  exists k s, (Z.of_nat k <= Z.max 0 (io_n_iter opts))%Z /\
    ip_steps calls opts p q solve ms (length gamma) k (ip_start warm mem beta gamma tb tg) s /\
    ip_continue calls opts (length gamma) s = Ok false /\ (0 < length gamma)%nat /\
    b' = is_beta s /\ g' = is_gamma s /\ tb' = is_tbeta s /\ tg' = is_tgamma s /\
    sm_lam mem' = is_lam s /\ sm_warm mem' = if warm then Some (b', g') else sm_warm mem.
Proof.
  intros T H. unfold find_ip in H. destruct tg as [|t tg]; [congruence|].
  apply rbind_inv in H. destruct H as [u [U H]]. apply guard_inv, Nat.ltb_lt in U.
  apply rbind_inv in H. destruct H as [s [Ls H]]. inversion H; subst.
  destruct (ip_loop_steps _ _ _ _ _ _ _ _ _ _ Ls) as [k [K [St C]]].
  exists k, s. repeat split; auto; try lia.
Qed.
Lemma find_ip_oof warm mem beta gamma tb tg : ip_calls_return calls opts solve ms ->
  no_oof (find_ip calls opts p q solve ms warm mem beta gamma tb tg).
Proof.
  intros HC. unfold find_ip. destruct tg as [|t tg].
  - apply rbind_oof; [apply HC|]. intros; apply ok_oof.
  - apply rbind_oof; [apply guard_oof; discriminate|]. intros u U. apply rbind_oof; [|intros; apply ok_oof].
    apply ip_loop_oof; auto. lia.
Qed.
End Find.
