(** Proofs for C111: a strong L1 penalty removes every feature. *)
From Coq Require Import Lra Psatz.
From Verif.Base Require Import Py Vec Mat.
From Verif.Model Require Import Regularizers Linear.
From Verif.Spec Require Import ProxSpec SolverSpec LinearSpec RateSpec ShrinkSpec.
From Verif.Proofs Require Import VecFacts MatFacts SolverProofs LinearProofs RateProofs.
Open Scope string_scope.
Open Scope list_scope.
Open Scope R_scope.

Lemma l1_cons a z : l1_norm (a :: z) = Rabs a + l1_norm z.
Proof. unfold l1_norm. cbn [length ones repeat weighted_l1]. rewrite Rmult_1_l. reflexivity. Qed.
Lemma l1_nonneg z : 0 <= l1_norm z.
Proof. induction z as [|a z IH]; [unfold l1_norm; simpl; lra|]. rewrite l1_cons. pose proof (Rabs_pos a). lra. Qed.
Lemma sq_l1 z : sqnorm z <= l1_norm z ^ 2.
Proof.
  induction z as [|a z IH]; [unfold l1_norm, sqnorm, vdot, vmul; simpl; lra|].
  rewrite sqnorm_cons, l1_cons. pose proof (Rabs_pos a). pose proof (l1_nonneg z).
  replace (a * a) with (Rabs a ^ 2) by (rewrite pow2_abs; ring). nra.
Qed.
Lemma norm_l1 z : norm z <= l1_norm z.
Proof.
  apply Rsqr_incr_0_var; [|apply l1_nonneg]. unfold Rsqr. pose proof (sq_l1 z). pose proof (norm_sq z). nra.
Qed.
Lemma l1_zeros n : l1_norm (zeros n) = 0.
Proof. induction n; [reflexivity|]. change (zeros (S n)) with (0 :: zeros n). rewrite l1_cons, IHn, Rabs_R0. lra. Qed.
Lemma weighted_zeros w n : weighted_l1 w (zeros n) = 0.
Proof.
  revert n. induction w as [|wi w IH]; intros [|n]; simpl; auto. change (repeat 0 n) with (zeros n). rewrite IH, Rabs_R0. lra.
Qed.

(** the penalty outweighs the linear term *)
Lemma outweigh lam w mu v : below_penalty lam w mu v -> forall z, length z = length v ->
  - vdot v z <= lam * weighted_l1 w z - mu * l1_norm z.
Proof.
  induction 1 as [|wi vi w v H _ IH]; intros [|a z] L; try discriminate.
  - unfold vdot, vmul, l1_norm. simpl. lra.
  - injection L as L. specialize (IH z L). rewrite vdot_cons, l1_cons. cbn [weighted_l1].
    assert (- (vi * a) <= Rabs vi * Rabs a) by (rewrite <- Rabs_mult, <- Rabs_Ropp; apply Rle_abs).
    pose proof (Rabs_pos a). assert (Rabs vi * Rabs a + mu * Rabs a <= lam * wi * Rabs a).
    { rewrite <- Rmult_plus_distr_r. apply Rmult_le_compat_r; auto. }
    nra.
Qed.

Section Zero.
Context {S : Type} (orc : oracle S) (rg : regularizer) (slv : pgd_solver).
Variables (f : vec -> R) (g : vec -> vec) (p : nat) (L sm lam mu : R) (w : vec).
Notation pen := (fun z => lam * weighted_l1 w z).
Notation z0 := (zeros p).
Hypothesis Hex : exact_for rg all_vecs pen.
Hypothesis Hcv : convex_on all_vecs pen.
Hypothesis Lg : forall x, length x = p -> length (g x) = p.
Hypothesis Hb : below_penalty lam w mu (g z0).

(** the step from a point that is small for the margin ends at zero *)
Lemma step_zero x s x' : length x = p -> 0 < s ->
  norm (vsub x (vscale s (vsub (g x) (g z0)))) <= s * mu ->
  is_prox all_vecs pen s (vsub x (vscale s (g x))) x' -> x' = z0.
Proof.
  intros Lx Hs Hn Hp. pose proof Hp as [Lx' _].
  assert (L0 : length z0 = p) by apply zeros_length.
  assert (Ly : length (vsub x (vscale s (g x))) = p) by (apply vsub_len; auto; apply vscale_len; auto).
  assert (Ld : length (vsub (g x) (g z0)) = p) by (apply vsub_len; auto).
  rewrite Ly in Lx'.
  pose proof (prox_slope _ _ _ _ _ z0 Hs Hcv Hp ltac:(congruence) I) as H.
  cbv beta in H. rewrite weighted_zeros in H.
  rewrite vdot_vsub_r in H by congruence. rewrite (vdot_comm _ z0), vdot_zeros_l in H.
  rewrite vdot_vsub_l in H by congruence. rewrite vdot_vsub_l in H by (rewrite vscale_length, Lg; auto).
  rewrite vdot_vscale_l in H.
  pose proof (outweigh _ _ _ _ Hb x' ltac:(rewrite Lg; auto)) as O.
  pose proof (norm_dot (vsub x (vscale s (vsub (g x) (g z0)))) x') as C.
  rewrite vdot_vsub_l in C by (rewrite vscale_length; congruence).
  rewrite vdot_vscale_l, vdot_vsub_l in C by (rewrite !Lg; auto).
  pose proof (norm_l1 x') as N. pose proof (l1_nonneg x') as N0. pose proof (norm_nonneg x') as N1.
  pose proof (norm_nonneg (vsub x (vscale s (vsub (g x) (g z0))))) as N2.
  set (q := norm (vsub x (vscale s (vsub (g x) (g z0))))) in *.
  assert (C1 : q * norm x' <= s * mu * l1_norm x').
  { apply Rle_trans with (q * l1_norm x'); [apply Rmult_le_compat_l; auto|apply Rmult_le_compat_r; auto]. }
  apply Rmult_le_compat_l with (r := s) in O; [|lra].
  assert (Q : sqnorm x' <= 0) by (unfold sqnorm; nra).
  pose proof (sqnorm_nonneg x') as Q0. rewrite <- Lx'. apply sqnorm_zero_iff. lra.
Qed.

(** at zero there is nothing to correct *)
Lemma stays x s x' : 0 <= mu -> x = z0 -> 0 < s -> is_prox all_vecs pen s (vsub x (vscale s (g x))) x' -> x' = z0.
Proof.
  intros Hmu -> Hs. apply step_zero; auto; [apply zeros_length|].
  assert (E : vsub z0 (vscale s (vsub (g z0) (g z0))) = z0).
  { apply vsub_zero_eq.
    - rewrite vsub_self, vsub_length; rewrite vscale_length, zeros_length, Lg by apply zeros_length; rewrite ?zeros_length; auto.
    - rewrite vsub_self. rewrite Lg by apply zeros_length.
      replace (vscale s z0) with z0.
      + rewrite vsub_self, zeros_length, vsub_self, zeros_length. apply sqnorm_zeros.
      + clear. induction p; [reflexivity|]. cbn. f_equal; [lra|exact IHn]. }
  rewrite E. unfold norm. rewrite sqnorm_zeros, sqrt_0. apply Rmult_le_pos; lra.
Qed.

Hypothesis Hv : value_is orc f.
Hypothesis Hg : grad_is orc g.

Lemma stays_path path : 0 <= mu -> 0 < s_step_len slv -> is_path (pgd_rule orc rg slv) z0 path -> endpoint z0 path = z0.
Proof.
  intros Hmu Hsl. induction path as [|[s x'] path IH]; intros P; [reflexivity|].
  destruct P as [P1 P]. rewrite endpoint_cons.
  destruct P1 as [[t1 [g1 [t2 [A [Hl P1]]]]] [Hk _]]. rewrite (Hg _ _ _ _ A) in *.
  assert (Hs : 0 < s).
  { destruct (String.eqb (s_stepping slv) "line-search").
    - destruct Hk as [k ->]. destruct (halved_range (s_step_len slv) k); auto.
    - subst; auto. }
  assert (E : x' = z0) by (apply (stays z0 s x'); auto). subst x'. auto.
Qed.

Hypothesis Hf : convex_smooth p L f g.
Hypothesis HL : 0 <= L.
Hypothesis Hst : safe_steps slv L sm.
Hypothesis Hmu : 0 < mu.

Lemma sm_pos : 0 < sm.
Proof. destruct Hst as [[H _] _]. lra. Qed.
Lemma sm_short : L * sm <= 1.
Proof.
  destruct Hst as [[H1 H2] H]. destruct (String.eqb (s_stepping slv) "line-search"); [nra|]. nra.
Qed.

(** the objective grows at the rate mu around zero *)
Lemma sharp z : length z = p -> f z0 + pen z0 + mu * l1_norm z <= f z + pen z.
Proof.
  intros Lz. destruct (Hf z0 (zeros_length p)) as [_ H]. destruct (H z Lz) as [H1 _].
  rewrite weighted_zeros. rewrite vdot_vsub_r in H1 by (rewrite zeros_length; auto).
  rewrite (vdot_comm _ z0), vdot_zeros_l in H1.
  pose proof (outweigh _ _ _ _ Hb z ltac:(rewrite Lg; auto using zeros_length)). lra.
Qed.

(** the gradient moves at most as much as the point, up to the factor sm *)
Lemma grad_close x : length x = p -> sm ^ 2 * sqnorm (vsub (g x) (g z0)) <= sqnorm x.
Proof.
  intros Lx. set (d := vsub (g x) (g z0)). pose proof sm_pos as Hsm. pose proof sm_short as Hs.
  assert (L0 : length z0 = p) by apply zeros_length.
  assert (Ld : length d = p) by (apply vsub_len; auto).
  set (u := vsub x (vscale sm d)). assert (Lu : length u = p) by (apply vsub_len; auto; apply vscale_len; auto).
  destruct (Hf z0 L0) as [_ H0]. destruct (H0 u Lu) as [U1 _]. destruct (H0 x Lx) as [_ X1].
  destruct (Hf x Lx) as [_ H1]. destruct (H1 u Lu) as [_ U2].
  assert (E : vsub u x = vscale (- sm) d).
  { apply vdot_ext; [rewrite (vsub_len p), vscale_length; auto|]. intros e _. unfold u.
    assert (Lsd : length (vscale sm d) = p) by (apply vscale_len; auto).
    rewrite (vdot_vsub_l (vsub x (vscale sm d)) x) by (rewrite (vsub_len p); auto).
    rewrite (vdot_vsub_l x (vscale sm d)) by congruence. rewrite !vdot_vscale_l. ring. }
  rewrite E, vdot_vscale_r, sqnorm_vscale in U2.
  rewrite vdot_vsub_r in U1, X1 by congruence. rewrite (vdot_comm _ z0), vdot_zeros_l in U1, X1.
  unfold u in U1. rewrite vdot_vsub_r, vdot_vscale_r in U1 by (rewrite vscale_length; congruence).
  assert (Ez : sqnorm (vsub x z0) = sqnorm x).
  { rewrite sqnorm_vsub by congruence. rewrite (vdot_comm x z0), vdot_zeros_l, sqnorm_zeros. ring. }
  rewrite Ez in X1.
  assert (D : vdot (g x) d - vdot (g z0) d = sqnorm d).
  { unfold sqnorm. unfold d at 3. rewrite vdot_vsub_l by (rewrite !Lg; auto). ring. }
  pose proof (sqnorm_nonneg d) as Nd. pose proof (sqnorm_nonneg x) as Nx.
  change (vsub (g x) (g z0)) with d.
  assert (K : sm * sqnorm d <= L / 2 * sqnorm x + L / 2 * (sm ^ 2 * sqnorm d)).
  { rewrite <- D at 1. replace ((- sm) ^ 2) with (sm ^ 2) in U2 by ring. fold u in U1. lra. }
  assert (K1 : L * sm * (sm * sqnorm d) <= 1 * (sm * sqnorm d)) by (apply Rmult_le_compat_r; [nra|auto]).
  assert (K2 : sm * sqnorm d <= L * sqnorm x) by nra.
  apply Rmult_le_compat_l with (r := sm) in K2; [|lra].
  assert (K3 : L * sm * sqnorm x <= 1 * sqnorm x) by (apply Rmult_le_compat_r; auto). nra.
Qed.

Lemma near_zero x s x' : length x = p -> pgd_rule orc rg slv x s x' -> norm x <= sm * mu / 2 -> x' = z0.
Proof.
  intros Lx P Hn. pose proof sm_pos as Hsm.
  destruct (rule_step orc rg slv f g all_vecs pen p L sm Hv Hg Hf HL Hex Hst x s x' Lx P) as [Hs [_ [_ Hp]]].
  assert (L0 : length z0 = p) by apply zeros_length.
  assert (Ld : length (vsub (g x) (g z0)) = p) by (apply vsub_len; auto).
  apply (step_zero x s x'); auto; [lra|].
  set (d := vsub (g x) (g z0)) in *. pose proof (grad_close x Lx) as G. fold d in G.
  assert (Gd : sm * norm d <= norm x).
  { apply Rsqr_incr_0_var; [|apply norm_nonneg]. unfold Rsqr. pose proof (norm_sq d). pose proof (norm_sq x). nra. }
  pose proof (norm_nonneg x) as N1. pose proof (norm_nonneg d) as N2.
  assert (T : norm (vsub x (vscale s d)) <= norm x + s * norm d).
  { apply Rsqr_incr_0_var; [|nra]. unfold Rsqr.
    replace (norm (vsub x (vscale s d)) * norm (vsub x (vscale s d))) with (sqnorm (vsub x (vscale s d)))
      by (rewrite <- norm_sq; ring).
    rewrite sqnorm_vsub, sqnorm_vscale, vdot_vscale_r by (rewrite vscale_length; congruence).
    pose proof (norm_dot x (vneg d)) as C. rewrite vdot_vneg_r in C.
    assert (En : norm (vneg d) = norm d).
    { unfold norm, sqnorm. rewrite vdot_vneg_l, vdot_vneg_r, Ropp_involutive. reflexivity. }
    rewrite En in C. pose proof (norm_sq d). pose proof (norm_sq x).
    rewrite <- (norm_sq d), <- (norm_sq x).
    assert (s * (- vdot x d) <= s * (norm x * norm d)) by (apply Rmult_le_compat_l; lra). nra. }
  apply Rle_trans with (1 := T).
  assert (Q : s * (sm * norm d) <= s * norm x) by (apply Rmult_le_compat_l; lra).
  assert (Q2 : s * norm x <= s * (sm * mu / 2)) by (apply Rmult_le_compat_l; lra).
  assert (Q3 : s * norm d <= s * mu / 2).
  { apply Rmult_le_reg_l with sm; [lra|]. lra. }
  assert (Q4 : sm * mu <= s * mu) by (apply Rmult_le_compat_r; lra). lra.
Qed.

Lemma path_split path : forall x : vec, path <> [] -> is_path (pgd_rule orc rg slv) x path ->
  exists front s x', path = front ++ [(s, x')] /\ is_path (pgd_rule orc rg slv) x front /\
    pgd_rule orc rg slv (endpoint x front) s x' /\ endpoint x path = x' /\ forall q, last_prev q x path = Some (endpoint x front).
Proof.
  induction path as [|[s x'] path IH]; intros x N P; [congruence|]. destruct P as [P1 P].
  destruct path as [|e path].
  - exists [], s, x'. split; [reflexivity|]. split; [exact I|]. split; [exact P1|]. split; [reflexivity|]. reflexivity.
  - destruct (IH x' ltac:(discriminate) P) as [front [s2 [x2 [E [F1 [F2 [F3 F4]]]]]]].
    exists ((s, x') :: front), s2, x2. rewrite E. split; [reflexivity|]. rewrite <- E. split; [split; auto|].
    rewrite !endpoint_cons. split; [auto|]. split; [auto|]. intros q. cbn [last_prev]. rewrite <- (F4 (Some x)). reflexivity.
Qed.

Theorem reaches_zero x0 s lg x lg' s' : length x0 = p -> (0 < s_max_iter slv)%Z ->
  0 <= s_tol slv <= sm * mu / 4 -> sqnorm x0 <= (sm * mu) ^ 2 * (IZR (s_max_iter slv) - 1) ->
  pgd_optimize orc rg slv x0 s lg = Ok (x, lg', s') -> x = z0.
Proof.
  intros Lx0 Hm [Ht0 Ht] Hk H. pose proof sm_pos as Hsm.
  destruct (pgd_optimize_inv _ _ _ _ _ _ _ _ _ H) as [path [P [E [_ [T [M [C I]]]]]]].
  assert (L0 : length z0 = p) by apply zeros_length.
  destruct path as [|e path'] eqn:Ep.
  { cbn [last_prev length] in T. destruct T as [T|T]; [|simpl in T; lia].
    unfold endpoint in E. simpl in E. subst x. cbn [still] in T.
    destruct x0 as [|a x0]; [|exfalso; apply T; left; discriminate]. simpl in Lx0. subst p. reflexivity. }
  rewrite <- Ep in *. assert (N : path <> []) by (rewrite Ep; discriminate).
  destruct (path_split path x0 N P) as [front [s1 [x' [E1 [F1 [F2 [F3 F4]]]]]]].
  assert (Lq : length (endpoint x0 front) = p).
  { apply (path_len orc rg slv f g all_vecs pen p L sm Hv Hg Hf HL Hex Hst front); auto. }
  rewrite E, F3. apply (near_zero _ s1 x' Lq F2).
  assert (Lx' : length x' = p).
  { eapply (rule_step orc rg slv f g all_vecs pen p L sm Hv Hg Hf HL Hex Hst); eauto. }
  destruct T as [T|T].
  - rewrite (F4 None), E, F3 in T. cbn [still] in T. apply Rnot_lt_le in T.
    pose proof (last_step_near orc rg slv f g all_vecs pen p L sm Hv Hg Hf HL Hex Hcv Hst _ s1 x' z0 (s_tol slv) Lq F2 T L0 Logic.I) as B.
    cbv beta in B. pose proof (sharp x' Lx') as Sh. cbv beta in Sh.
    assert (Ez : vsub x' z0 = x').
    { apply vdot_ext; [rewrite (vsub_len p); auto|]. intros e0 _. rewrite vdot_vsub_l, vdot_zeros_l by congruence. ring. }
    rewrite Ez in B. pose proof (norm_l1 x') as N1. pose proof (norm_nonneg x') as N0.
    assert (B1 : mu * norm x' <= s_tol slv / sm * (norm x' + s_tol slv / 2)).
    { assert (mu * norm x' <= mu * l1_norm x') by (apply Rmult_le_compat_l; lra). lra. }
    apply Rmult_le_compat_l with (r := sm) in B1; [|lra].
    replace (sm * (s_tol slv / sm * (norm x' + s_tol slv / 2))) with (s_tol slv * (norm x' + s_tol slv / 2)) in B1 by (field; lra).
    set (tol := s_tol slv) in *.
    assert (B2 : 3 * tol * norm x' <= tol * (tol / 2)).
    { assert (4 * tol * norm x' <= sm * mu * norm x') by (apply Rmult_le_compat_r; lra). nra. }
    assert (B3 : norm x' <= tol).
    { destruct (Rle_lt_or_eq_dec 0 tol Ht0) as [Hp|Hz].
      - apply Rmult_le_reg_l with tol; [lra|]. nra.
      - rewrite <- Hz in B1. assert (sm * (mu * norm x') <= 0) by lra.
        assert (0 < sm * mu) by (apply Rmult_lt_0_compat; lra). nra. }
    assert (Tq : norm (endpoint x0 front) <= norm x' + tol).
    { set (q := endpoint x0 front) in *. apply Rsqr_incr_0_var; [|lra]. unfold Rsqr.
      replace (norm q * norm q) with (sqnorm q) by (rewrite <- norm_sq; ring).
      pose proof (norm_dot x' (vsub x' q)) as C0.
      assert (Eq : sqnorm q = sqnorm x' - 2 * vdot x' (vsub x' q) + sqnorm (vsub x' q)).
      { rewrite sqnorm_vsub, vdot_vsub_r by congruence. unfold sqnorm. ring. }
      pose proof (norm_dot x' (vneg (vsub x' q))) as C1. rewrite vdot_vneg_r in C1.
      assert (En : norm (vneg (vsub x' q)) = norm (vsub x' q)).
      { unfold norm, sqnorm. rewrite vdot_vneg_l, vdot_vneg_r, Ropp_involutive. reflexivity. }
      rewrite En in C1. rewrite Eq, <- (norm_sq x'), <- (norm_sq (vsub x' q)).
      pose proof (norm_nonneg (vsub x' q)). nra. }
    lra.
  - assert (Hn : IZR (s_max_iter slv) - 1 <= INR (length front)).
    { rewrite E1, app_length in T. simpl in T.
      replace (IZR (s_max_iter slv) - 1) with (IZR (s_max_iter slv - 1)) by (rewrite minus_IZR; ring).
      rewrite INR_IZR_INZ. apply IZR_le. lia. }
    destruct front as [|e0 front0] eqn:Ef.
    + cbn [length INR] in Hn. unfold endpoint. cbn [map last].
      assert (Z : IZR (s_max_iter slv) - 1 <= 0) by (simpl in Hn; lra).
      assert (Q0 : 0 < (sm * mu) ^ 2) by (apply pow2_gt_0; assert (0 < sm * mu) by (apply Rmult_lt_0_compat; lra); lra).
      assert (Q : sqnorm x0 <= 0) by nra. pose proof (sqnorm_nonneg x0).
      assert (Q2 : sqnorm x0 = 0) by lra. unfold norm. rewrite Q2, sqrt_0.
      assert (0 < sm * mu) by (apply Rmult_lt_0_compat; lra). lra.
    + rewrite <- Ef in *. assert (Hlen : (0 < length front)%nat) by (rewrite Ef; simpl; lia).
      pose proof (run_rate orc rg slv f g all_vecs pen p L sm Hv Hg Hf HL Hex Hcv Hst front x0 z0 Lx0 F1 L0 Logic.I Hlen) as B.
      cbv beta in B. set (q := endpoint x0 front) in *. pose proof (sharp q Lq) as Sh. cbv beta in Sh.
      assert (Ez : vsub x0 z0 = x0).
      { apply vdot_ext; [rewrite (vsub_len p); auto|]. intros e1 _. rewrite vdot_vsub_l, vdot_zeros_l by congruence. ring. }
      rewrite Ez in B. pose proof (norm_l1 q) as N1.
      assert (Hi : 0 < INR (length front)) by (apply lt_0_INR; auto).
      set (n := INR (length front)) in *.
      assert (B1 : mu * norm q <= sqnorm x0 / (2 * sm * n)).
      { assert (mu * norm q <= mu * l1_norm q) by (apply Rmult_le_compat_l; lra). lra. }
      assert (Hk2 : sqnorm x0 <= (sm * mu) ^ 2 * n).
      { apply Rle_trans with (1 := Hk). apply Rmult_le_compat_l; [apply pow2_ge_0|auto]. }
      assert (Hc : 0 < 2 * sm * n) by (apply Rmult_lt_0_compat; lra).
      apply Rmult_le_compat_l with (r := 2 * sm * n) in B1; [|lra].
      replace (2 * sm * n * (sqnorm x0 / (2 * sm * n))) with (sqnorm x0) in B1 by (field; split; lra).
      apply Rmult_le_reg_l with (2 * sm * n * mu); [apply Rmult_lt_0_compat; lra|].
      replace (2 * sm * n * mu * (sm * mu / 2)) with ((sm * mu) ^ 2 * n) by field. lra.
Qed.
End Zero.

(** ** when zero is the best point *)
Lemma step_pays lam w i v : (i < length w)%nat -> length v = length w -> lam * nth i w 0 < Rabs (nth i v 0) ->
  exists e, length e = length w /\ vdot v e + lam * weighted_l1 w e < 0.
Proof.
  revert w i. induction v as [|vi v IH]; intros [|wi w] [|i] Hi Lv H; simpl in *; try lia.
  - exists ((if Rle_dec 0 vi then -1 else 1) :: zeros (length w)). split; [cbn; rewrite zeros_length; auto|].
    rewrite vdot_cons. cbn [weighted_l1]. rewrite weighted_zeros, vdot_comm, vdot_zeros_l.
    destruct (Rle_dec 0 vi).
    + rewrite (Rabs_left (-1)) by lra. rewrite (Rabs_pos_eq vi) in H by lra. lra.
    + rewrite (Rabs_pos_eq 1) by lra. rewrite (Rabs_left vi) in H by lra. lra.
  - destruct (IH w i ltac:(lia) ltac:(lia) H) as [e [Le He]]. exists (0 :: e). split; [cbn; auto|].
    rewrite vdot_cons. cbn [weighted_l1]. rewrite Rabs_R0. lra.
Qed.
Lemma below_nth lam w mu v : length v = length w ->
  (forall i, (i < length w)%nat -> Rabs (nth i v 0) + mu <= lam * nth i w 0) -> below_penalty lam w mu v.
Proof.
  revert v. induction w as [|wi w IH]; intros [|vi v] L H; try discriminate; constructor.
  - apply (H 0%nat). simpl. lia.
  - apply IH; [auto|]. intros i Hi. apply (H (S i)). simpl. lia.
Qed.
Lemma weighted_scale w t z : 0 <= t -> weighted_l1 w (vscale t z) = t * weighted_l1 w z.
Proof.
  intros Ht. revert z. induction w as [|wi w IH]; intros [|a z]; cbn; try lra.
  change (map (Rmult t) z) with (vscale t z). rewrite IH, Rabs_mult, (Rabs_pos_eq t) by auto. ring.
Qed.
