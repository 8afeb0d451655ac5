(** Proofs about the distance between the SR3 relaxation and the relaxed problem. *)
From Verif.Base Require Import Py Vec Mat.
From Verif.Model Require Import Linear.
From Verif.Spec Require Import ProxSpec LinearSpec RelaxSpec.
From Verif.Proofs Require Import VecFacts MatFacts SolverProofs LinearProofs DistanceProofs ColumnFit.
From Coq Require Import Lra Lia.
Open Scope R_scope.

(** ** the part of a gradient that a penalty with the weights t does not cover *)
Definition excess1 (t g : R) : R := if Rle_dec g (- t) then g + t else if Rle_dec t g then g - t else 0.
Definition excess (t g : vec) : vec := map2 excess1 t g.
Lemma excess_length t g : length t = length g -> length (excess t g) = length g.
Proof. intros H. unfold excess. rewrite map2_length. lia. Qed.
Lemma excess1_dot t g : 0 <= t -> g * excess1 t g - t * Rabs (excess1 t g) = excess1 t g * excess1 t g.
Proof.
  intros H. unfold excess1. destruct (Rle_dec g (- t)); [rewrite Rabs_left1 by lra; ring|].
  destruct (Rle_dec t g); [rewrite Rabs_right by lra; ring | rewrite Rabs_R0; ring].
Qed.
Lemma excess1_rest t g : 0 <= t -> (g - excess1 t g) ^ 2 <= t ^ 2.
Proof. intros H. unfold excess1. destruct (Rle_dec g (- t)); [nra|]. destruct (Rle_dec t g); nra. Qed.
Lemma excess_dot t : Forall (fun s => 0 <= s) t -> forall g, length g = length t ->
  vdot g (excess t g) - weighted_l1 t (excess t g) = sqnorm (excess t g).
Proof.
  induction 1 as [|s t Hs Ht IH]; intros [|y g] L; try discriminate.
  - unfold excess, sqnorm, vdot, vsum, vmul. simpl. lra.
  - injection L as L. specialize (IH g L). unfold excess in *. cbn [map2 weighted_l1]. rewrite vdot_cons, sqnorm_cons.
    pose proof (excess1_dot s y Hs). lra.
Qed.
Lemma excess_rest t : Forall (fun s => 0 <= s) t -> forall g, length g = length t ->
  sqnorm (vsub g (excess t g)) <= sqnorm t.
Proof.
  induction 1 as [|s t Hs Ht IH]; intros [|y g] L; try discriminate.
  - unfold excess, sqnorm, vdot, vsum, vmul. simpl. lra.
  - injection L as L. specialize (IH g L). unfold excess, vsub in *. cbn [map2]. rewrite !sqnorm_cons.
    pose proof (excess1_rest s y Hs). unfold vsub in *. nra.
Qed.
Lemma weighted_triangle w : Forall (fun s => 0 <= s) w -> forall x e, length x = length e ->
  weighted_l1 w (vadd x e) <= weighted_l1 w x + weighted_l1 w e.
Proof.
  induction 1 as [|s w Hs Hw IH]; intros [|x0 x] [|e0 e] L; try discriminate; try (simpl; lra).
  injection L as L. specialize (IH x e L). unfold vadd in *. cbn [map2 weighted_l1].
  pose proof (Rabs_triang x0 e0). assert (s * Rabs (x0 + e0) <= s * (Rabs x0 + Rabs e0)) by (apply Rmult_le_compat_l; lra). lra.
Qed.
Lemma weighted_vscale_l c w : forall z, weighted_l1 (vscale c w) z = c * weighted_l1 w z.
Proof.
  induction w as [|s w IH]; intros [|y z]; cbn; try lra. specialize (IH z). unfold vscale in IH. rewrite IH. ring.
Qed.
Lemma weighted_vscale_r c w : forall z, weighted_l1 w (vscale c z) = Rabs c * weighted_l1 w z.
Proof.
  induction w as [|s w IH]; intros [|y z]; cbn; try lra. specialize (IH z). unfold vscale in IH. rewrite IH, Rabs_mult. ring.
Qed.

(** ** gap *)
Section Gap.
Variables (pr : linear_problem) (lam : R) (hi : mat).
Hypothesis Hw : wf_linear pr.
Hypothesis Hc : lp_c pr = eye (lp_p pr).
Hypothesis Hl : 0 < lam.
Hypothesis Hs : is_shape (lp_p pr) (lp_p pr) hi.
Hypothesis Hhi : forall v, length v = lp_p pr -> mv (h_matrix lam pr) (mv hi v) = v.
Notation v := (vfun pr lam hi).
Notation g := (vgrad pr lam hi).
Notation p := (lp_p pr).

Lemma relax_symmetric : symmetric p (lp_c pr).
Proof. rewrite Hc. apply eye_symmetric. Qed.
Lemma relax_xlen w : length (xstar pr lam hi w) = p.
Proof. apply xstar_len; auto. Qed.
Lemma relax_grad w : length w = p -> g w = vscale lam (vsub w (xstar pr lam hi w)).
Proof. intros L. unfold vgrad, wres. rewrite Hc, mv_eye; auto. apply relax_xlen. Qed.
Lemma relax_glen w : length w = p -> length (g w) = p.
Proof. intros L. rewrite relax_grad, vscale_length by auto. apply vsub_len; auto. apply relax_xlen. Qed.
Lemma relax_gap w : length w = p ->
  least_squares pr w = v w + / (2 * lam) * sqnorm (g w) + / (2 * lam ^ 2) * sqnorm (mv (lp_a pr) (g w)).
Proof.
  intros L. pose proof (relaxed_min pr lam hi Hw relax_symmetric Hs Hhi w w L L) as E.
  unfold relaxed_loss at 1 in E. rewrite Hc, !mv_eye in E by (auto; apply vsub_len; auto; apply relax_xlen).
  assert (Z : sqnorm (vsub w w) = 0).
  { rewrite sqnorm_vsub by auto. change (vdot w w) with (sqnorm w). ring. }
  rewrite Z in E. rewrite relax_grad by auto. rewrite sqnorm_vscale.
  rewrite (mv_vscale (lp_a pr) lam). rewrite sqnorm_vscale.
  unfold vfun.
  replace (/ (2 * lam) * (lam ^ 2 * sqnorm (vsub w (xstar pr lam hi w)))) with (lam / 2 * sqnorm (vsub w (xstar pr lam hi w))) by (field; lra).
  match goal with |- context [/ (2 * lam ^ 2) * (lam ^ 2 * ?q)] => replace (/ (2 * lam ^ 2) * (lam ^ 2 * q)) with (/ 2 * q) by (field; lra) end.
  lra.
Qed.

(** near the best of the relaxed problem the gradient is nearly covered by the penalty *)
Lemma relax_gradient lamb w x a e0 : 0 <= lamb -> Forall (fun s => 0 <= s) w -> length w = p -> length x = p ->
  0 <= a -> 0 <= e0 ->
  (forall u, length u = p -> v x + lamb * weighted_l1 w x <= v u + lamb * weighted_l1 w u + (e0 + a * norm (vsub x u))) ->
  norm (g x) <= lamb * norm w + 2 * a + sqrt (2 * lam * e0).
Proof.
  intros Hb Fw Lw Lx Ha He Near.
  set (t := vscale lamb w). set (h := excess t (g x)).
  assert (Lt : length t = p) by (unfold t; rewrite vscale_length; auto).
  assert (Lg : length (g x) = p) by (apply relax_glen; auto).
  assert (Lh : length h = p) by (unfold h; rewrite excess_length; congruence).
  assert (Ft : Forall (fun s => 0 <= s) t).
  { unfold t, vscale. apply Forall_forall. intros y Hy. apply in_map_iff in Hy as [z [<- Hz]].
    rewrite Forall_forall in Fw. specialize (Fw z Hz). cbn in Fw. apply Rmult_le_pos; auto. }
  pose proof (excess_dot t Ft (g x) ltac:(congruence)) as D. fold h in D.
  pose proof (excess_rest t Ft (g x) ltac:(congruence)) as Q. fold h in Q.
  set (e := vscale (- / lam) h). assert (Le : length e = p) by (unfold e; rewrite vscale_length; auto).
  specialize (Near (vadd x e) (vadd_len _ _ _ Lx Le)).
  rewrite (value_expand pr lam hi Hw relax_symmetric (Rlt_le _ _ Hl) Hs Hhi x e Lx Le) in Near.
  pose proof (F_norm_le pr lam hi Hw relax_symmetric (Rlt_le _ _ Hl) Hs Hhi e Le) as Fe.
  pose proof (weighted_triangle w Fw x e ltac:(congruence)) as Tr.
  assert (Ne : norm (vsub x (vadd x e)) = norm h / lam).
  { unfold norm at 1. replace (sqnorm (vsub x (vadd x e))) with (sqnorm e).
    - unfold e. rewrite sqnorm_vscale. replace ((- / lam) ^ 2 * sqnorm h) with ((norm h / lam) ^ 2).
      + rewrite <- Rsqr_pow2. apply sqrt_Rsqr. apply Rmult_le_pos; [apply norm_nonneg | left; apply Rinv_0_lt_compat; auto].
      + rewrite <- norm_sq. field. lra.
    - replace (vsub x (vadd x e)) with (vneg e).
      + unfold sqnorm. rewrite vdot_vneg_l, vdot_vneg_r. ring.
      + apply vdot_ext.
        * unfold vneg. rewrite map_length, (vsub_len (lp_p pr)); auto. apply vadd_len; auto.
        * intros z _. rewrite vdot_vneg_l, vdot_vsub_l, vdot_vadd_l; try congruence; [ring|].
          rewrite Lx. symmetry. apply vadd_len; auto. }
  rewrite Ne in Near.
  assert (E1 : vdot (g x) e = - / lam * vdot (g x) h) by (unfold e; apply vdot_vscale_r).
  assert (E2 : sqnorm e = / lam ^ 2 * sqnorm h) by (unfold e; rewrite sqnorm_vscale; field; lra).
  assert (Pi : 0 < / lam) by (apply Rinv_0_lt_compat; auto).
  assert (E3 : weighted_l1 w e = / lam * weighted_l1 w h).
  { unfold e. rewrite weighted_vscale_r, Rabs_Ropp, Rabs_right by lra. reflexivity. }
  assert (E4 : weighted_l1 t h = lamb * weighted_l1 w h) by (unfold t; apply weighted_vscale_l).
  rewrite E4 in D. rewrite E3 in Tr. rewrite E2 in Fe. rewrite E1 in Near.
  assert (K : sqnorm h <= 2 * a * norm h + 2 * lam * e0).
  { assert (Tr' : lamb * weighted_l1 w (vadd x e) <= lamb * weighted_l1 w x + lamb * (/ lam * weighted_l1 w h)) by nra.
    assert (Fe' : / 2 * sqnorm (mv (f_matrix lam pr hi) e) <= / 2 * (/ lam * sqnorm h)).
    { apply Rmult_le_compat_l; [lra|]. eapply Rle_trans; [exact Fe|]. right. field. lra. }
    assert (K1 : 0 <= - / lam * vdot (g x) h + / 2 * (/ lam * sqnorm h) + lamb * (/ lam * weighted_l1 w h) + (e0 + a * (norm h / lam))) by lra.
    apply (Rmult_le_compat_l (2 * lam)) in K1; [|lra]. rewrite Rmult_0_r in K1.
    replace (2 * lam * (- / lam * vdot (g x) h + / 2 * (/ lam * sqnorm h) + lamb * (/ lam * weighted_l1 w h) + (e0 + a * (norm h / lam))))
      with (- 2 * (vdot (g x) h - lamb * weighted_l1 w h) + sqnorm h + 2 * lam * e0 + 2 * a * norm h) in K1 by (field; lra).
    rewrite D in K1. lra. }
  assert (Nh : norm h <= 2 * a + sqrt (2 * lam * e0)).
  { rewrite <- norm_sq in K. pose proof (norm_nonneg h). set (s := sqrt (2 * lam * e0)).
    assert (S0 : 0 <= s) by apply sqrt_pos.
    assert (S2 : s * s = 2 * lam * e0) by (apply sqrt_sqrt; nra).
    destruct (Rle_dec (norm h) (2 * a + s)); auto. exfalso. nra. }
  assert (Nt : norm (vsub (g x) h) <= lamb * norm w).
  { unfold norm at 1. apply Rle_trans with (sqrt (sqnorm t)); [apply sqrt_le_1_alt; exact Q|].
    unfold t. rewrite sqnorm_vscale. rewrite <- norm_sq. replace (lamb ^ 2 * norm w ^ 2) with ((lamb * norm w) ^ 2) by ring.
    rewrite <- Rsqr_pow2, sqrt_Rsqr; [lra|]. apply Rmult_le_pos; auto. apply norm_nonneg. }
  assert (Tn : norm (g x) <= norm (vsub (g x) h) + norm h).
  { pose proof (norm_triangle (g x) h (zeros p)) as T0. rewrite Lg, Lh in T0. specialize (T0 eq_refl). rewrite zeros_length in T0. specialize (T0 eq_refl).
    assert (Z : forall y, length y = p -> vsub y (zeros p) = y).
    { intros y Ly. apply vdot_ext; [rewrite (vsub_len (lp_p pr)); auto; apply zeros_length|]. intros z _. rewrite vdot_vsub_l, vdot_zeros_l by (rewrite zeros_length; auto). ring. }
    rewrite !Z in T0 by auto. exact T0. }
  lra.
Qed.

(** so the penalised loss is nearly the best *)
Lemma relax_plain lamb w x a e0 : 0 <= lamb -> Forall (fun s => 0 <= s) w -> length w = p -> length x = p ->
  0 <= a -> 0 <= e0 ->
  (forall u, length u = p -> v x + lamb * weighted_l1 w x <= v u + lamb * weighted_l1 w u + (e0 + a * norm (vsub x u))) ->
  forall u, length u = p -> plain_objective lamb w pr x <=
    plain_objective lamb w pr u + (e0 + a * norm (vsub x u)) + relaxation_gap lam (lamb * norm w + 2 * a + sqrt (2 * lam * e0)) pr.
Proof.
  intros Hb Fw Lw Lx Ha He Near u Lu. pose proof (relax_gradient lamb w x a e0 Hb Fw Lw Lx Ha He Near) as B.
  set (s := lamb * norm w + 2 * a + sqrt (2 * lam * e0)) in *. specialize (Near u Lu).
  pose proof (relax_gap u Lu) as Gu. pose proof (relax_gap x Lx) as Gx.
  pose proof (sqnorm_nonneg (g u)). pose proof (sqnorm_nonneg (mv (lp_a pr) (g u))).
  assert (I1 : 0 < / (2 * lam)) by (apply Rinv_0_lt_compat; lra).
  assert (I2 : 0 < / (2 * lam ^ 2)) by (apply Rinv_0_lt_compat; nra).
  assert (U : v u <= least_squares pr u) by nra.
  assert (S2 : sqnorm (g x) <= s ^ 2).
  { rewrite <- norm_sq. pose proof (norm_nonneg (g x)). nra. }
  pose proof (frob_bound (lp_a pr) (g x)) as Fb. pose proof (frob_nonneg (lp_a pr)) as F0.
  assert (X : least_squares pr x <= v x + relaxation_gap lam s pr).
  { rewrite Gx. unfold relaxation_gap.
    replace ((1 + frob (lp_a pr) / lam) * s ^ 2 / (2 * lam)) with (/ (2 * lam) * s ^ 2 + / (2 * lam ^ 2) * (frob (lp_a pr) * s ^ 2)) by (field; lra).
    assert (/ (2 * lam) * sqnorm (g x) <= / (2 * lam) * s ^ 2) by (apply Rmult_le_compat_l; lra).
    assert (sqnorm (mv (lp_a pr) (g x)) <= frob (lp_a pr) * s ^ 2) by nra.
    assert (/ (2 * lam ^ 2) * sqnorm (mv (lp_a pr) (g x)) <= / (2 * lam ^ 2) * (frob (lp_a pr) * s ^ 2)) by (apply Rmult_le_compat_l; lra).
    lra. }
  unfold plain_objective. lra.
Qed.
End Gap.
