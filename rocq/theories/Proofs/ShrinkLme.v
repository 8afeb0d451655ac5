(** When the solver of a mixed model with an L1 penalty reaches zero and stays there. *)
From Coq Require Import Lra Psatz String.
From Verif.Base Require Import Py Vec Mat.
From Verif.Model Require Import LmeProblem Regularizers Solvers Linear LmeInner LmeFit LmeBridge.
From Verif.Spec Require Import ProxSpec RegSpec SolverSpec LinearSpec RateSpec LmeSpec InnerSpec FitSpec StationarySpec.
From Verif.Proofs Require Import VecFacts MatFacts InnerProofs SolverProofs SolversMain LinearProofs FitProofs FeatureFit LmeFitMain LmeStationaryMain.
Open Scope list_scope.
Open Scope R_scope.

(** ** one step *)
Lemma soft_is_zero t x : 0 <= t -> (soft t x = 0 <-> Rabs x <= t).
Proof.
  intros Ht. unfold soft, clip0, Rmax. split; intros H.
  - apply Rabs_le. destruct (Rle_dec (x - t) 0), (Rle_dec (- x - t) 0); lra.
  - unfold Rabs in H. destruct (Rcase_abs x); destruct (Rle_dec (x - t) 0), (Rle_dec (- x - t) 0); lra.
Qed.
Definition shrunk (eps lam t wi a : R) : R := soft (t / (1 + t * eps) * wi * lam) (a / (1 + t * eps)).
Lemma shrunk_zero eps lam t wi a : 0 <= eps -> 0 < t -> 0 <= lam * wi ->
  (shrunk eps lam t wi a = 0 <-> Rabs a <= t * (lam * wi)).
Proof.
  intros He Ht Hw. unfold shrunk. assert (D : 0 < 1 + t * eps) by nra.
  assert (N : 0 <= t / (1 + t * eps)) by (apply Rlt_le, Rdiv_lt_0_compat; lra).
  rewrite soft_is_zero by (rewrite Rmult_assoc, (Rmult_comm wi); apply Rmult_le_pos; lra).
  unfold Rdiv at 1. rewrite Rabs_mult, (Rabs_right (/ _)) by (apply Rle_ge, Rlt_le, Rinv_0_lt_compat; lra).
  replace (t / (1 + t * eps) * wi * lam) with (t * (lam * wi) * / (1 + t * eps)) by (field; lra).
  split; intros H.
  - apply Rmult_le_reg_r with (/ (1 + t * eps)); [apply Rinv_0_lt_compat; lra|exact H].
  - apply Rmult_le_compat_r; [apply Rlt_le, Rinv_0_lt_compat; lra|exact H].
Qed.
Lemma map2_zeros (f : R -> R -> R) : forall w y n, length w = n -> length y = n ->
  (map2 f w y = zeros n <-> Forall2 (fun wi a => f wi a = 0) w y).
Proof.
  induction w as [|a w IH]; intros [|b y] [|n] L1 L2; try discriminate.
  - split; [constructor|reflexivity].
  - injection L1 as L1. injection L2 as L2. cbn [map2]. change (zeros (S n)) with (0 :: zeros n). split; intros H.
    + injection H as H0 H. constructor; [exact H0|]. apply (IH y n); auto.
    + inversion H; subst. f_equal; [assumption|]. apply (IH y (length w)); auto.
Qed.

(** the regularizer of an L1 mixed model *)
Definition l1_reg (p q : nat) (eps lam : R) (w : vec) : reg :=
  RPos (Some (repeat false p ++ repeat true q)) (Some (RElastic eps (Some (RL1 lam (Some w))))).
Lemma l1_regE m ov lam w r0 r : mo_penalty m = PenL1 lam -> model_reg m ov = Ok r0 -> instantiate r0 w (Some ov) = Ok r ->
  r = l1_reg (ov_p ov) (ov_q ov) (mo_eps m) lam w.
Proof.
  intros Hp H0 H. unfold model_reg, penalty_reg in H0. rewrite Hp in H0. apply Ok_inj in H0. subst r0.
  cbn in H. apply Ok_inj in H. symmetry. exact H.
Qed.
Lemma l1_reg_prox argsort p q eps lam wf wr t yb yg x : length wf = p -> length wr = q -> length yb = p -> length yg = q ->
  prox argsort (l1_reg p q eps lam (wf ++ wr)) (yb ++ yg) t = Ok x ->
  x = map2 (shrunk eps lam t) wf yb ++ map2 (shrunk eps lam t) wr (map clip0 yg).
Proof.
  intros L1 L2 L3 L4 H. unfold l1_reg in H. cbn [prox] in H.
  rewrite !app_length, !repeat_length, L3, L4, Nat.eqb_refl in H. cbn [guard rbind] in H.
  rewrite (mask_map_app p q clip0 yb yg L3 L4) in H.
  apply rbind_inv in H as [u [_ H]]. cbn [l1_prox] in H. apply rbind_inv in H as [u' [_ H]].
  apply Ok_inj in H. subst x. rewrite map_app. clear - L1 L3. revert yb p L1 L3.
  induction wf as [|a wf IH]; intros [|b yb] p L1 L3; cbn [length] in *; subst p; try discriminate.
  - cbn [app map map2]. clear. revert yg. induction wr as [|c wr IH]; intros [|d yg]; cbn [map map2]; try reflexivity.
    rewrite IH. reflexivity.
  - injection L3 as L3. cbn [app map map2]. f_equal. apply (IH yb (length wf)); auto.
Qed.
Definition small_step (lam t : R) (wf wr yb yg : vec) : Prop :=
  Forall2 (fun wi a => Rabs a <= t * (lam * wi)) wf yb /\ Forall2 (fun wi a => a <= t * (lam * wi)) wr yg.
Lemma Forall2_iff {A B} (P Q : A -> B -> Prop) (K : A -> Prop) : (forall a b, K a -> (P a b <-> Q a b)) ->
  forall l l', Forall K l -> (Forall2 P l l' <-> Forall2 Q l l').
Proof.
  intros H l l' Hk. split; intros F; induction F as [|a b l l' H1 F IH]; try constructor; inversion Hk; subst; auto; apply (H a b); auto.
Qed.
Lemma l1_reg_zero argsort p q eps lam wf wr t yb yg x : length wf = p -> length wr = q -> length yb = p -> length yg = q ->
  0 <= eps -> 0 < t -> Forall (fun wi => 0 <= lam * wi) wf -> Forall (fun wi => 0 <= lam * wi) wr ->
  prox argsort (l1_reg p q eps lam (wf ++ wr)) (yb ++ yg) t = Ok x ->
  (x = zeros (p + q) <-> small_step lam t wf wr yb yg).
Proof.
  intros L1 L2 L3 L4 He Ht W1 W2 H. rewrite (l1_reg_prox _ _ _ _ _ _ _ _ _ _ _ L1 L2 L3 L4 H). clear H.
  unfold zeros. rewrite repeat_app.
  assert (E : forall a b c d : vec, length a = length c -> (a ++ b = c ++ d <-> a = c /\ b = d)).
  { intros a b c d L. split; [intros K; apply app_inj_len; auto|intros [-> ->]; reflexivity]. }
  rewrite E by (rewrite map2_length, repeat_length; lia). clear E.
  change (repeat 0 p) with (zeros p). change (repeat 0 q) with (zeros q).
  rewrite (map2_zeros _ wf yb p L1 L3), (map2_zeros _ wr (map clip0 yg) q L2) by (rewrite map_length; auto).
  unfold small_step.
  rewrite (Forall2_iff _ (fun wi a => Rabs a <= t * (lam * wi)) (fun wi => 0 <= lam * wi)
             (fun wi a K => shrunk_zero eps lam t wi a He Ht K) wf yb W1).
  apply and_iff_compat_l.
  rewrite (Forall2_iff _ (fun wi a => Rabs a <= t * (lam * wi)) (fun wi => 0 <= lam * wi)
             (fun wi a K => shrunk_zero eps lam t wi a He Ht K) wr (map clip0 yg) W2).
  clear - Ht W2. revert yg. induction wr as [|w wr' IH]; intros [|g yg]; cbn [map];
    try (split; intros K; inversion K; fail); [split; constructor|].
  inversion W2 as [|? ? K1 K2]; subst. specialize (IH K2 yg).
  assert (P : 0 <= t * (lam * w)) by (apply Rmult_le_pos; lra).
  assert (C : Rabs (clip0 g) <= t * (lam * w) <-> g <= t * (lam * w)).
  { unfold clip0, Rmax. destruct (Rle_dec g 0).
    - rewrite Rabs_R0. split; intros; lra.
    - rewrite Rabs_right by lra. reflexivity. }
  split; intros F; inversion F; subst; constructor; try (apply C; assumption); apply IH; assumption.
Qed.

(** ** the steps from zero *)
Definition kept (lam : R) (wf wr gb gg : vec) : Prop :=
  Forall2 (fun wi gi => Rabs gi <= lam * wi) wf gb /\ Forall2 (fun wi gi => - gi <= lam * wi) wr gg.
Lemma zero_minus s : forall v : vec, vsub (zeros (length v)) (vscale s v) = map (fun a => - (s * a)) v.
Proof.
  induction v as [|a v IH]; [reflexivity|]. cbn in *. f_equal; [lra|]. exact IH.
Qed.
Lemma small_is_kept lam s wf wr gb gg : 0 < s ->
  (small_step lam s wf wr (map (fun a => - (s * a)) gb) (map (fun a => - (s * a)) gg) <-> kept lam wf wr gb gg).
Proof.
  intros Hs. unfold small_step, kept.
  assert (A : forall w g, (Forall2 (fun wi a => Rabs a <= s * (lam * wi)) w (map (fun a => - (s * a)) g) <->
                           Forall2 (fun wi gi => Rabs gi <= lam * wi) w g)).
  { induction w as [|wi w IH]; intros [|gi g]; cbn [map]; try (split; intros K; inversion K; fail); [split; constructor|].
    assert (C : Rabs (- (s * gi)) <= s * (lam * wi) <-> Rabs gi <= lam * wi).
    { rewrite Rabs_Ropp, Rabs_mult, (Rabs_right s) by lra. split; intros; [|nra]. apply Rmult_le_reg_l with s; auto. }
    specialize (IH g). split; intros F; inversion F; subst; constructor; try (apply C; assumption); apply IH; assumption. }
  assert (B : forall w g, (Forall2 (fun wi a => a <= s * (lam * wi)) w (map (fun a => - (s * a)) g) <->
                           Forall2 (fun wi gi => - gi <= lam * wi) w g)).
  { induction w as [|wi w IH]; intros [|gi g]; cbn [map]; try (split; intros K; inversion K; fail); [split; constructor|].
    assert (C : - (s * gi) <= s * (lam * wi) <-> - gi <= lam * wi).
    { split; intros; [|nra]. apply Rmult_le_reg_l with s; auto. lra. }
    specialize (IH g). split; intros F; inversion F; subst; constructor; try (apply C; assumption); apply IH; assumption. }
  rewrite A, B. reflexivity.
Qed.

Lemma zeros_firstn p q : firstn p (zeros (p + q)) = zeros p /\ firstn q (skipn p (zeros (p + q))) = zeros q.
Proof.
  unfold zeros. rewrite repeat_app, firstn_app, skipn_app, !repeat_length, Nat.sub_diag. cbn [firstn skipn].
  rewrite firstn_all2, skipn_all2, firstn_all2 by (rewrite ?app_length, ?repeat_length; cbn; rewrite ?repeat_length; lia). rewrite app_nil_r. auto.
Qed.

Section Run.
Context (argsort : vec -> list nat) (p q : nat) (c : lme_calls) (eps lam : R) (wf wr : vec) (slv : pgd_solver).
Hypotheses (L1 : length wf = p) (L2 : length wr = q) (He : 0 <= eps) (Hst : 0 < s_step_len slv).
Hypotheses (W1 : Forall (fun wi => 0 <= lam * wi) wf) (W2 : Forall (fun wi => 0 <= lam * wi) wr).
Let rg := as_regularizer argsort (l1_reg p q eps lam (wf ++ wr)).
Let rule := pgd_rule (lme_as_oracle p q c) rg slv.

Lemma rule_len x s x' : rule x s x' -> length x = (p + q)%nat /\ length x' = (p + q)%nat.
Proof.
  intros [(u1 & dg & u2 & _ & Ldg & Pr) _]. unfold rg in Pr. cbn [as_regularizer r_prox] in Pr.
  set (y := vsub x (vscale s dg)) in *.
  assert (Ly : length y = length x) by (apply vsub_len; [reflexivity|rewrite vscale_length; exact Ldg]).
  assert (A : length y = (p + q)%nat).
  { unfold l1_reg in Pr. cbn [prox] in Pr. apply rbind_inv in Pr as [v [K _]].
    apply rbind_inv in K as [v' [K _]]. apply guard_inv in K. apply Nat.eqb_eq in K.
    rewrite app_length, !repeat_length in K. congruence. }
  split; [congruence|].
  rewrite <- (split_all p q y) in Pr by lia.
  assert (Lb : length (firstn p y) = p) by (rewrite firstn_length; lia).
  assert (Lg : length (firstn q (skipn p y)) = q) by (rewrite firstn_length, skipn_length; lia).
  apply (l1_reg_prox argsort p q eps lam wf wr s _ _ x' L1 L2 Lb Lg) in Pr. subst x'.
  rewrite app_length, !map2_length, map_length. lia.
Qed.
Lemma step_inv x s x' : length x = (p + q)%nat -> rule x s x' ->
  0 < s /\ (String.eqb (s_stepping slv) "line-search" = false -> s = s_step_len slv) /\
  exists gb gg, lc_gradient_beta c (firstn p x) (firstn q (skipn p x)) = Ok gb /\
    lc_gradient_gamma c (firstn p x) (firstn q (skipn p x)) = Ok gg /\ length gb = p /\ length gg = q /\
    prox argsort (l1_reg p q eps lam (wf ++ wr))
      (vsub (firstn p x) (vscale s gb) ++ vsub (firstn q (skipn p x)) (vscale s gg)) s = Ok x'.
Proof.
  intros Lx [(u1 & dg & u2 & G & Ldg & Pr) [Hk _]].
  assert (Hs : 0 < s).
  { destruct (String.eqb (s_stepping slv) "line-search").
    - destruct Hk as [k ->]. destruct (halved_range (s_step_len slv) k); auto.
    - subst; auto. }
  split; [exact Hs|]. split; [intros E; rewrite E in Hk; exact Hk|].
  cbn [lme_as_oracle o_grad] in G. apply rbind_inv in G as [v' [G E]]. injection E as <- _.
  unfold joint_gradient, x_to_beta_gamma in G.
  apply rbind_inv in G as [gb [Gb G]]. apply rbind_inv in G as [v1 [K1 G]]. apply guard_inv in K1. apply Nat.eqb_eq in K1.
  apply rbind_inv in G as [gg [Gg G]]. apply rbind_inv in G as [v2 [K2 G]]. apply guard_inv in K2. apply Nat.eqb_eq in K2.
  replace (length x - p - q)%nat with 0%nat in G by lia. unfold zeros in G. cbn [repeat] in G. rewrite app_nil_r in G. apply Ok_inj in G. subst v'.
  assert (Lb : length (firstn p x) = p) by (rewrite firstn_length; lia).
  assert (Lg : length (firstn q (skipn p x)) = q) by (rewrite firstn_length, skipn_length; lia).
  exists gb, gg. split; [exact Gb|]. split; [exact Gg|]. split; [congruence|]. split; [congruence|].
  rewrite <- Pr. unfold rg. cbn [as_regularizer r_prox]. f_equal.
  rewrite <- (split_all p q x) at 3 by lia.
  rewrite vscale_app, vsub_app; [reflexivity|rewrite vscale_length; congruence].
Qed.
(** one step from anywhere *)
Lemma step_zero x s x' : length x = (p + q)%nat -> rule x s x' ->
  0 < s /\ (String.eqb (s_stepping slv) "line-search" = false -> s = s_step_len slv) /\
  exists gb gg, lc_gradient_beta c (firstn p x) (firstn q (skipn p x)) = Ok gb /\
    lc_gradient_gamma c (firstn p x) (firstn q (skipn p x)) = Ok gg /\ length gb = p /\ length gg = q /\
    (x' = zeros (p + q) <->
     small_step lam s wf wr (vsub (firstn p x) (vscale s gb)) (vsub (firstn q (skipn p x)) (vscale s gg))).
Proof.
  intros Lx H. destruct (step_inv x s x' Lx H) as (Hs & Hf & gb & gg & Gb & Gg & A & B & Pr).
  split; [exact Hs|]. split; [exact Hf|]. exists gb, gg. repeat (split; [assumption|]).
  apply (l1_reg_zero argsort p q eps lam wf wr s _ _ x'); auto.
  - apply vsub_len; [rewrite firstn_length; lia|rewrite vscale_length; auto].
  - apply vsub_len; [rewrite firstn_length, skipn_length; lia|rewrite vscale_length; auto].
Qed.
(** one step from zero *)
Lemma step_from_zero s x' : rule (zeros (p + q)) s x' ->
  exists gb gg, lc_gradient_beta c (zeros p) (zeros q) = Ok gb /\ lc_gradient_gamma c (zeros p) (zeros q) = Ok gg /\
    length gb = p /\ length gg = q /\ (x' = zeros (p + q) <-> kept lam wf wr gb gg).
Proof.
  intros H. destruct (step_zero _ _ _ (zeros_length _) H) as (Hs & _ & gb & gg & Gb & Gg & A & B & E).
  destruct (zeros_firstn p q) as [F1 F2]. rewrite F1, F2 in *. exists gb, gg. repeat (split; [assumption|]).
  rewrite E. rewrite <- A at 1. rewrite <- B at 1. rewrite !zero_minus. apply small_is_kept. exact Hs.
Qed.
(** zero is kept *)
Definition zero_kept : Prop := forall gb gg, lc_gradient_beta c (zeros p) (zeros q) = Ok gb ->
  lc_gradient_gamma c (zeros p) (zeros q) = Ok gg -> length gb = p -> length gg = q -> kept lam wf wr gb gg.
Lemma kept_path path : zero_kept -> is_path rule (zeros (p + q)) path -> endpoint (zeros (p + q)) path = zeros (p + q).
Proof.
  intros Hk. induction path as [|[s x'] path IH]; intros P; [reflexivity|]. destruct P as [P1 P].
  destruct (step_from_zero _ _ P1) as (gb & gg & Gb & Gg & A & B & E).
  assert (x' = zeros (p + q)) as -> by (apply E, Hk; auto). rewrite endpoint_cons. auto.
Qed.
(** ... and noticed at once *)
Lemma kept_short path : zero_kept -> 0 <= s_tol slv -> is_path rule (zeros (p + q)) path ->
  all_still slv None (zeros (p + q)) path -> (length path <= 1)%nat.
Proof.
  intros Hk Ht P S. destruct path as [|[s x'] [|[s2 x2] path]]; try (cbn; lia). exfalso.
  destruct P as [P1 _]. destruct (step_from_zero _ _ P1) as (gb & gg & Gb & Gg & A & B & E).
  assert (x' = zeros (p + q)) as -> by (apply E, Hk; auto).
  destruct S as [_ [S _]]. cbn [still] in S.
  replace (norm (vsub (zeros (p + q)) (zeros (p + q)))) with 0 in S; [lra|].
  rewrite vsub_self. unfold norm. rewrite sqnorm_zeros, sqrt_0. reflexivity.
Qed.
End Run.

Lemma Forall2_nth (P : R -> R -> Prop) : forall l l' n, length l = n -> length l' = n ->
  (Forall2 P l l' <-> forall i, (i < n)%nat -> P (nth i l 0) (nth i l' 0)).
Proof.
  induction l as [|a l IH]; intros [|b l'] [|n] L1 L2; try discriminate.
  - split; [intros _ i K; lia|constructor].
  - injection L1 as L1. injection L2 as L2. specialize (IH l' n L1 L2). split.
    + intros F. inversion F; subst. intros [|i] K; [assumption|]. cbn [nth]. apply IH; [assumption|lia].
    + intros F. constructor; [apply (F 0%nat); lia|]. apply IH. intros i K. apply (F (S i)). lia.
Qed.

(** ** large penalties *)
Lemma large_penalty (P : R -> R -> Prop) s : 0 < s -> (forall a b, Rabs a <= b -> P a b) ->
  forall w y, length w = length y -> Forall (fun wi => 0 < wi) w ->
  exists lam0, 0 <= lam0 /\ forall lam, lam0 <= lam -> Forall2 (fun wi a => P a (s * (lam * wi))) w y.
Proof.
  intros Hs Hp. induction w as [|wi w IH]; intros [|a y] L F; try discriminate.
  - exists 0. split; [lra|]. constructor.
  - injection L as L. inversion F as [|? ? F1 F2]; subst. destruct (IH y L F2) as (l0 & N & Hl).
    exists (Rmax l0 (Rabs a / (s * wi))). split; [apply Rle_trans with l0; [exact N|apply Rmax_l]|].
    intros lam Hlam. constructor.
    + apply Hp. assert (D : 0 < s * wi) by (apply Rmult_lt_0_compat; auto).
      assert (K : Rabs a / (s * wi) <= lam) by (eapply Rle_trans; [apply Rmax_r|exact Hlam]).
      apply Rmult_le_compat_r with (r := s * wi) in K; [|lra]. unfold Rdiv in K.
      rewrite Rmult_assoc, Rinv_l, Rmult_1_r in K by lra. lra.
    + apply Hl. eapply Rle_trans; [apply Rmax_l|exact Hlam].
Qed.
Lemma large_step s wf wr yb yg : 0 < s -> length wf = length yb -> length wr = length yg ->
  Forall (fun wi => 0 < wi) wf -> Forall (fun wi => 0 < wi) wr ->
  exists lam0, 0 <= lam0 /\ forall lam, lam0 <= lam -> small_step lam s wf wr yb yg.
Proof.
  intros Hs L1 L2 F1 F2.
  destruct (large_penalty (fun a b => Rabs a <= b) s Hs (fun a b H => H) wf yb L1 F1) as (l1 & N1 & H1).
  destruct (large_penalty (fun a b => a <= b) s Hs (fun a b H => Rle_trans _ _ _ (Rle_abs a) H) wr yg L2 F2) as (l2 & N2 & H2).
  exists (Rmax l1 l2). split; [apply Rle_trans with l1; [exact N1|apply Rmax_l]|].
  intros lam H. split; [apply H1|apply H2]; (eapply Rle_trans; [|exact H]); [apply Rmax_l|apply Rmax_r].
Qed.

Lemma large_kept p q c wf wr : length wf = p -> length wr = q ->
  Forall (fun wi => 0 < wi) wf -> Forall (fun wi => 0 < wi) wr ->
  exists lam0, 0 <= lam0 /\ forall lam, lam0 <= lam -> zero_kept p q c lam wf wr.
Proof.
  intros L1 L2 F1 F2. unfold zero_kept.
  destruct (lc_gradient_beta c (zeros p) (zeros q)) as [gb|]; [|exists 0; split; [lra|discriminate]].
  destruct (lc_gradient_gamma c (zeros p) (zeros q)) as [gg|]; [|exists 0; split; [lra|discriminate]].
  destruct (Nat.eq_dec (length gb) p) as [A|A]; [|exists 0; split; [lra|intros; congruence]].
  destruct (Nat.eq_dec (length gg) q) as [B|B]; [|exists 0; split; [lra|intros; congruence]].
  destruct (large_step 1 wf wr (map (fun a => - (1 * a)) gb) (map (fun a => - (1 * a)) gg)) as (l & N & H);
    try (rewrite map_length; congruence); try assumption; [lra|].
  exists l. split; [exact N|]. intros lam Hl gb' gg' E1 E2 _ _. apply Ok_inj in E1, E2. subst gb' gg'.
  apply (small_is_kept lam 1); [lra|]. apply H, Hl.
Qed.
Lemma large_first p q c s x wf wr : 0 < s -> length wf = p -> length wr = q -> length x = (p + q)%nat ->
  Forall (fun wi => 0 < wi) wf -> Forall (fun wi => 0 < wi) wr ->
  exists lam0, 0 <= lam0 /\ forall lam, lam0 <= lam -> forall gb gg,
    lc_gradient_beta c (firstn p x) (firstn q (skipn p x)) = Ok gb ->
    lc_gradient_gamma c (firstn p x) (firstn q (skipn p x)) = Ok gg -> length gb = p -> length gg = q ->
    small_step lam s wf wr (vsub (firstn p x) (vscale s gb)) (vsub (firstn q (skipn p x)) (vscale s gg)).
Proof.
  intros Hs L1 L2 Lx F1 F2.
  destruct (lc_gradient_beta c (firstn p x) (firstn q (skipn p x))) as [gb|]; [|exists 0; split; [lra|discriminate]].
  destruct (lc_gradient_gamma c (firstn p x) (firstn q (skipn p x))) as [gg|]; [|exists 0; split; [lra|discriminate]].
  destruct (Nat.eq_dec (length gb) p) as [A|A]; [|exists 0; split; [lra|intros; congruence]].
  destruct (Nat.eq_dec (length gg) q) as [B|B]; [|exists 0; split; [lra|intros; congruence]].
  destruct (large_step s wf wr (vsub (firstn p x) (vscale s gb)) (vsub (firstn q (skipn p x)) (vscale s gg))) as (l & N & H);
    try assumption.
  - rewrite L1. symmetry. apply vsub_len; [rewrite firstn_length; lia|rewrite vscale_length; auto].
  - rewrite L2. symmetry. apply vsub_len; [rewrite firstn_length, skipn_length; lia|rewrite vscale_length; auto].
  - exists l. split; [exact N|]. intros lam Hl gb' gg' E1 E2 _ _. apply Ok_inj in E1, E2. subst gb' gg'. apply H, Hl.
Qed.

(** ** fits *)
Lemma l1_fit_inv argsort cdf m lam coef pr beta0 gamma0 warm fe re co lg :
  mo_penalty m = PenL1 lam -> mo_sr3 m = None ->
  lme_fit_problem argsort cdf m coef pr beta0 gamma0 warm fe re = Ok (co, lg) ->
  exists g wf wr b1 g1 step path,
    let p := num_fixed pr in let q := num_random pr in
    let c := problem_calls cdf pr g None in
    let slv := {| s_tol := mo_tol m; s_max_iter := mo_max_iter m; s_stepping := mo_stepping m; s_step_len := step |} in
    prior_of m pr = Ok g /\ fit_weights pr fe re = Ok (wf, wr) /\ step_length m = Ok step /\
    initialize m q (num_groups pr) c (match beta0 with Some b => b | None => ones p end,
                                      match gamma0 with Some g => g | None => ones q end) = Ok (b1, g1) /\
    is_path (pgd_rule (lme_as_oracle p q c) (as_regularizer argsort (l1_reg p q (mo_eps m) lam (wf ++ wr))) slv) (b1 ++ g1) path /\
    co_beta co = firstn p (endpoint (b1 ++ g1) path) /\ co_gamma co = firstn q (skipn p (endpoint (b1 ++ g1) path)) /\
    all_still slv None (b1 ++ g1) path /\
    (~ still slv (endpoint (b1 ++ g1) path) (last_prev None (b1 ++ g1) path) \/ (mo_max_iter m <= Z.of_nat (length path))%Z) /\
    lc_random_effects c (co_beta co) (co_gamma co) = Ok (co_effects co) /\
    get lg "converged" = Ok (LAtom (LBool (Z.of_nat (length path) <? mo_max_iter m)%Z)) /\
    (path = [] \/ length (b1 ++ g1) = (p + q)%nat).
Proof.
  intros Hp Hsr H.
  destruct (fit_problem_inv _ _ _ _ _ _ _ _ _ _ _ _ _ H) as
    (ov & g & wf & wr & r0 & r & bg0 & b1 & g1 & lg0 & x & lg1 & Hov & Hpr & Hw & Hr0 & Hr & Hs & Hn & _ & Hx & Hc & Hu & _ & _ & Hlog).
  rewrite start_pointE in Hs. injection Hs as <-. rewrite Hsr in *.
  destruct (oracle_viewE _ _ Hov) as [Ep Eq].
  assert (Er := l1_regE m ov lam (wf ++ wr) r0 r Hp Hr0 Hr). rewrite Ep, Eq in Er.
  unfold run_solver in Hx. apply rbind_inv in Hx as [step [Hst Hx]]. rewrite Hsr in Hx.
  apply rbind_inv in Hx as [[[x' lg2] u] [Hx E]]. injection E as -> ->.
  destruct (pgd_optimize_inv _ _ _ _ _ _ _ _ _ Hx) as (path & P & X & S & T & _ & C & _).
  exists g, wf, wr, b1, g1, step, path. cbv zeta. subst r.
  unfold x_to_beta_gamma in Hc. injection Hc as Hcb Hcg. rewrite X in Hcb, Hcg. rewrite X in T.
  split; [exact Hpr|]. split; [exact Hw|]. split; [exact Hst|]. split; [exact Hn|]. split; [exact P|].
  split; [exact Hcb|]. split; [exact Hcg|]. split; [exact S|]. split; [exact T|]. split; [exact Hu|]. split.
  - rewrite (log_criteria_get _ _ _ _ _ _ "converged"%string Hlog); [exact C|].
    cbn [In]. intros [K|[K|[K|[K|[K|K]]]]]; try discriminate; exact K.
  - destruct path as [|[s x'] path]; [left; reflexivity|right].
    destruct P as [[(u1 & dg & u2 & G & Ldg & Pr) _] _]. cbn [as_regularizer r_prox] in Pr.
    destruct (model_prox_len _ _ _ _ _ _ _ _ _ Hr0 Hr Pr) as [A B]. rewrite Ep, Eq in A.
    rewrite <- A. symmetry. apply vsub_len; auto. apply vscale_len; auto.
Qed.
