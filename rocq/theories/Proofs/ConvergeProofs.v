(** Runs that have enough iterations stop by themselves. *)
From Coq Require Import Lra Psatz.
From Verif.Base Require Import Py Vec Mat.
From Verif.Model Require Import Regularizers Linear.
From Verif.Spec Require Import ProxSpec RegSpec SolverSpec LinearSpec RateSpec ConvergeSpec.
From Verif.Proofs Require Import VecFacts L0Proofs RegularizerProofs RegularizersMain MatFacts SolverProofs SolversMain LinearProofs LinearMain RateProofs.
Open Scope string_scope.
Open Scope list_scope.
Open Scope R_scope.

(** the square of a norm above tol *)
Lemma still_sq slv x q : 0 <= s_tol slv -> still slv x (Some q) -> s_tol slv ^ 2 <= sqnorm (vsub x q).
Proof.
  intros Ht H. unfold still in H. rewrite <- norm_sq. apply pow_incr. lra.
Qed.

Section Count.
Variables (P : vec -> R -> vec -> Prop) (F : vec -> R) (dom : vec -> Prop) (p : nat) (slv : pgd_solver) (c low : R).
Hypothesis Hc : 0 <= c.
Hypothesis Ht : 0 <= s_tol slv.
Hypothesis Hlow : bounded_below p dom F low.
Hypothesis Hstep : forall x s x', length x = p -> P x s x' ->
  length x' = p /\ dom x' /\ (dom x -> F x' + c * sqnorm (vsub x' x) <= F x).

Lemma count path : forall x q, length x = p -> dom x -> is_path P x path -> all_still slv q x path ->
  INR (length path) * (c * s_tol slv ^ 2) <= F x - low + c * s_tol slv ^ 2.
Proof.
  assert (Hd : 0 <= c * s_tol slv ^ 2) by (apply Rmult_le_pos; [exact Hc|apply pow2_ge_0]).
  set (d := c * s_tol slv ^ 2) in *.
  induction path as [|[s x'] path IH]; intros x q Lx Dx HP HS.
  - specialize (Hlow x Lx Dx). simpl. lra.
  - destruct HP as [P1 HP]. destruct HS as [_ HS]. destruct (Hstep _ _ _ Lx P1) as [Lx' [Dx' D]]. specialize (D Dx).
    specialize (IH x' (Some x) Lx' Dx' HP HS).
    change (length ((s, x') :: path)) with (S (length path)). rewrite S_INR.
    destruct path as [|[s2 x2] path].
    + specialize (Hlow x' Lx' Dx'). pose proof (sqnorm_nonneg (vsub x' x)).
      assert (0 <= c * sqnorm (vsub x' x)) by (apply Rmult_le_pos; auto). simpl. lra.
    + destruct HS as [HS _]. apply (still_sq slv x' x Ht) in HS.
      assert (d <= c * sqnorm (vsub x' x)) by (apply Rmult_le_compat_l; auto). lra.
Qed.

(** from the second point on *)
Lemma count_after x0 path top : length x0 = p -> is_path P x0 path -> all_still slv None x0 path ->
  (forall s x', P x0 s x' -> F x' <= top) -> path <> [] ->
  (INR (length path) - 2) * (c * s_tol slv ^ 2) <= top - low.
Proof.
  intros Lx HP HS Htop Hn. destruct path as [|[s x'] path]; [congruence|].
  destruct HP as [P1 HP]. destruct HS as [_ HS]. destruct (Hstep _ _ _ Lx P1) as [Lx' [Dx' _]].
  pose proof (count path x' (Some x0) Lx' Dx' HP HS). specialize (Htop _ _ P1).
  change (length ((s, x') :: path)) with (S (length path)). rewrite S_INR. lra.
Qed.
End Count.

(** the proximal step as a minimiser of the surrogate *)
Lemma prox_surrogate dom pen f g x s x' u : 0 < s -> length (g x) = length x ->
  is_prox dom pen s (vsub x (vscale s (g x))) x' -> length u = length x -> dom u ->
  surrogate f g pen s x x' <= surrogate f g pen s x u.
Proof.
  intros Hs Hl [Lz [Dz Hmin]] Lu Du.
  assert (Hy : length (vsub x (vscale s (g x))) = length x).
  { rewrite vsub_length; rewrite ?vscale_length; auto. }
  rewrite Hy in *. specialize (Hmin u Lu Du). unfold prox_cost in Hmin.
  assert (E : forall z, length z = length x -> sqnorm (vsub z (vsub x (vscale s (g x)))) =
    sqnorm (vsub z x) + 2 * s * vdot (g x) (vsub z x) + s ^ 2 * sqnorm (g x)).
  { intros z L. assert (E : vsub z (vsub x (vscale s (g x))) = vadd (vsub z x) (vscale s (g x))).
    { apply vsub_vsub; rewrite ?vscale_length; auto. }
    rewrite E, sqnorm_vadd, sqnorm_vscale, vdot_vscale_r, vdot_comm; [ring|].
    rewrite vsub_length, vscale_length; auto. }
  rewrite !E in Hmin by auto. unfold surrogate.
  apply Rmult_le_reg_l with s; auto.
  replace (s * (f x + vdot (g x) (vsub x' x) + 1 / (2 * s) * sqnorm (vsub x' x) + pen x'))
    with (s * f x + s * vdot (g x) (vsub x' x) + / 2 * sqnorm (vsub x' x) + s * pen x') by (field; lra).
  replace (s * (f x + vdot (g x) (vsub u x) + 1 / (2 * s) * sqnorm (vsub u x) + pen u))
    with (s * f x + s * vdot (g x) (vsub u x) + / 2 * sqnorm (vsub u x) + s * pen u) by (field; lra).
  lra.
Qed.

(** of a convex penalty, with what is gained *)
Lemma prox_convex_gain dom pen f g x s x' : 0 < s -> length (g x) = length x -> convex_on dom pen ->
  is_prox dom pen s (vsub x (vscale s (g x))) x' -> sufficient f g x s x' -> dom x ->
  f x' + pen x' + 1 / (2 * s) * sqnorm (vsub x' x) <= f x + pen x.
Proof.
  intros Hs Hl Hcv Hp Hsuf Dx.
  assert (Hy : length (vsub x (vscale s (g x))) = length x).
  { rewrite vsub_length; rewrite ?vscale_length; auto. }
  assert (Lx' : length x' = length x) by (destruct Hp as [E _]; congruence).
  pose proof (prox_slope _ _ _ _ _ x Hs Hcv Hp (eq_sym Hy) Dx) as H.
  assert (E : vdot (vsub x' (vsub x (vscale s (g x)))) (vsub x x') =
    - sqnorm (vsub x' x) - s * vdot (g x) (vsub x' x)).
  { assert (L1 : length (vscale s (g x)) = length x) by (rewrite vscale_length; auto).
    rewrite (vdot_vsub_l x') by congruence. rewrite (vdot_vsub_l x) by congruence.
    rewrite vdot_vscale_l, !vdot_vsub_r, sqnorm_vsub by congruence. unfold sqnorm.
    rewrite (vdot_comm x' x). ring. }
  rewrite E in H. unfold sufficient in Hsuf.
  apply Rmult_le_reg_l with s; auto.
  apply Rmult_le_compat_l with (r := s) in Hsuf; [|lra].
  replace (s * (f x' + pen x' + 1 / (2 * s) * sqnorm (vsub x' x)))
    with (s * f x' + s * pen x' + / 2 * sqnorm (vsub x' x)) by (field; lra).
  replace (s * (f x + vdot (g x) (vsub x' x) + 1 / (2 * s) * sqnorm (vsub x' x)))
    with (s * f x + s * vdot (g x) (vsub x' x) + / 2 * sqnorm (vsub x' x)) in Hsuf by (field; lra).
  lra.
Qed.

Lemma surrogate_short f g pen s sm x u : 0 < sm <= s -> surrogate f g pen s x u <= surrogate f g pen sm x u.
Proof.
  intros H. unfold surrogate. pose proof (sqnorm_nonneg (vsub u x)).
  assert (1 / (2 * s) <= 1 / (2 * sm)).
  { apply Rmult_le_compat_l; [lra|]. apply Rinv_le_contravar; lra. }
  assert (1 / (2 * s) * sqnorm (vsub u x) <= 1 / (2 * sm) * sqnorm (vsub u x)) by (apply Rmult_le_compat_r; auto).
  lra.
Qed.
Lemma surrogate_self f g pen s x : surrogate f g pen s x x = f x + pen x.
Proof.
  unfold surrogate. rewrite vsub_self, sqnorm_zeros, vdot_comm, vdot_zeros_l. ring.
Qed.

Lemma stops {S} (orc : oracle S) rg slv x0 s lg x lg' s' (F : vec -> R) dom p c top low :
  0 <= c -> 0 <= s_tol slv -> length x0 = p -> bounded_below p dom F low ->
  (forall x s x', length x = p -> pgd_rule orc rg slv x s x' ->
     length x' = p /\ dom x' /\ (dom x -> F x' + c * sqnorm (vsub x' x) <= F x)) ->
  (forall s x', pgd_rule orc rg slv x0 s x' -> F x' <= top) ->
  enough_iterations (s_max_iter slv) c (s_tol slv) top low ->
  pgd_optimize orc rg slv x0 s lg = Ok (x, lg', s') -> get lg' "converged" = Ok (LAtom (LBool true)).
Proof.
  intros Hc Ht Lx Hlow Hstep Htop [Hm He] H.
  destruct (pgd_optimize_inv _ _ _ _ _ _ _ _ _ H) as [path [P [_ [A [_ [_ [C _]]]]]]].
  rewrite C. destruct (Z.of_nat (length path) <? s_max_iter slv)%Z eqn:E; [reflexivity|].
  exfalso. apply Z.ltb_ge in E.
  assert (Hn : path <> []) by (intros ->; simpl in E; lia).
  pose proof (count_after (pgd_rule orc rg slv) F dom p slv c low Hc Ht Hlow Hstep x0 path top Lx P A Htop Hn) as B.
  assert (IZR (s_max_iter slv) <= INR (length path)) by (rewrite INR_IZR_INZ; apply IZR_le; auto).
  assert (0 <= c * s_tol slv ^ 2) by (apply Rmult_le_pos; [auto|apply pow2_ge_0]).
  assert (c * s_tol slv ^ 2 * (IZR (s_max_iter slv) - 2) <= c * s_tol slv ^ 2 * (INR (length path) - 2))
    by (apply Rmult_le_compat_l; lra).
  lra.
Qed.

(** ** runs on functions of bounded curvature *)
Lemma convex_stops {S} (orc : oracle S) rg slv f g dom pen p L sm low x0 u s lg x lg' s' :
  value_is orc f -> grad_is orc g -> curved_below p L f g -> 0 <= L ->
  exact_for rg dom pen -> convex_on dom pen -> safe_steps slv L sm -> 0 <= s_tol slv ->
  length x0 = p -> length u = p -> dom u -> bounded_below p dom (fun z => f z + pen z) low ->
  enough_iterations (s_max_iter slv) (1 / (2 * s_step_len slv)) (s_tol slv) (surrogate f g pen sm x0 u) low ->
  pgd_optimize orc rg slv x0 s lg = Ok (x, lg', s') -> get lg' "converged" = Ok (LAtom (LBool true)).
Proof.
  intros Hv Hg Hf HL Hex Hcv Hst Ht Lx0 Lu Du Hlow He H. pose proof Hst as [[Hsm Hsl] _].
  assert (Hc : 0 <= 1 / (2 * s_step_len slv)) by (apply Rlt_le, Rdiv_lt_0_compat; lra).
  refine (stops orc rg slv x0 s lg x lg' s' (fun z => f z + pen z) dom p _ _ low Hc Ht Lx0 Hlow _ _ He H).
  - intros y t y' Ly P.
    destruct (curved_rule_step orc rg slv f g dom pen p L sm Hv Hg Hf HL Hex Hst y t y' Ly P) as [Hs [Ly' [Hsuf Hp]]].
    split; [exact Ly'|]. split; [apply Hp|]. intros Dy.
    assert (Lg : length (g y) = length y) by (destruct (Hf y Ly) as [A _]; congruence).
    pose proof (prox_convex_gain dom pen f g y t y' ltac:(lra) Lg Hcv Hp Hsuf Dy) as G.
    assert (Hle : t <= s_step_len slv).
    { destruct P as [_ [K _]]. destruct (String.eqb (s_stepping slv) "line-search").
      - destruct K as [k ->]. apply halved_range. lra.
      - lra. }
    assert (1 / (2 * s_step_len slv) * sqnorm (vsub y' y) <= 1 / (2 * t) * sqnorm (vsub y' y)).
    { apply Rmult_le_compat_r; [apply sqnorm_nonneg|]. apply Rmult_le_compat_l; [lra|].
      apply Rinv_le_contravar; lra. }
    lra.
  - intros t y' P.
    destruct (curved_rule_step orc rg slv f g dom pen p L sm Hv Hg Hf HL Hex Hst x0 t y' Lx0 P) as [Hs [Ly' [Hsuf Hp]]].
    assert (Lg : length (g x0) = length x0) by (destruct (Hf x0 Lx0) as [A _]; congruence).
    pose proof (prox_surrogate dom pen f g x0 t y' u ltac:(lra) Lg Hp ltac:(congruence) Du) as G.
    pose proof (surrogate_short f g pen t sm x0 u (conj Hsm Hs)) as G2.
    unfold surrogate in G at 1. unfold sufficient in Hsuf. lra.
Qed.

Lemma fixed_stops {S} (orc : oracle S) rg slv f g dom pen p L low x0 u s lg x lg' s' :
  value_is orc f -> grad_is orc g -> curved_below p L f g -> 0 <= L ->
  exact_for rg dom pen -> s_stepping slv <> "line-search" -> 0 < s_step_len slv -> L * s_step_len slv <= 1 ->
  0 <= s_tol slv -> length x0 = p -> length u = p -> dom u -> bounded_below p dom (fun z => f z + pen z) low ->
  enough_iterations (s_max_iter slv) (1 / (2 * s_step_len slv) - L / 2) (s_tol slv)
    (surrogate f g pen (s_step_len slv) x0 u) low ->
  pgd_optimize orc rg slv x0 s lg = Ok (x, lg', s') -> get lg' "converged" = Ok (LAtom (LBool true)).
Proof.
  intros Hv Hg Hf HL Hex Hls Hsl HLs Ht Lx0 Lu Du Hlow He H.
  set (t := s_step_len slv) in *.
  assert (Hst : safe_steps slv L t).
  { unfold safe_steps. fold t. destruct (String.eqb_spec (s_stepping slv) "line-search"); [contradiction|]. lra. }
  assert (Hc : 0 <= 1 / (2 * t) - L / 2).
  { assert (L / 2 <= 1 / (2 * t)); [|lra]. apply Rmult_le_reg_r with (2 * t); [lra|].
    replace (1 / (2 * t) * (2 * t)) with 1 by (field; lra). lra. }
  assert (Hstep : forall y q y', length y = p -> pgd_rule orc rg slv y q y' -> length y' = p /\ dom y' /\
     f y' + pen y' <= surrogate f g pen t y y' - (1 / (2 * t) - L / 2) * sqnorm (vsub y' y) /\
     (forall v, length v = p -> dom v -> surrogate f g pen t y y' <= surrogate f g pen t y v)).
  { intros y q y' Ly P.
    destruct (curved_rule_step orc rg slv f g dom pen p L t Hv Hg Hf HL Hex Hst y q y' Ly P) as [Hs [Ly' [_ Hp]]].
    assert (q = t).
    { destruct P as [_ [K _]]. destruct (String.eqb_spec (s_stepping slv) "line-search"); [contradiction|exact K]. }
    subst q. split; [exact Ly'|]. split; [apply Hp|]. split.
    - destruct (Hf y Ly) as [_ B]. specialize (B y' Ly'). unfold surrogate. lra.
    - intros v Lv Dv. apply (prox_surrogate dom pen f g y t y' v); auto; destruct (Hf y Ly) as [A _]; congruence. }
  refine (stops orc rg slv x0 s lg x lg' s' (fun z => f z + pen z) dom p _ _ low Hc Ht Lx0 Hlow _ _ He H).
  - intros y q y' Ly P. destruct (Hstep y q y' Ly P) as [Ly' [Dy' [A B]]]. split; [auto|]. split; [auto|].
    intros Dy. specialize (B y Ly Dy). rewrite surrogate_self in B. lra.
  - intros q y' P. destruct (Hstep x0 q y' Lx0 P) as [Ly' [Dy' [A B]]]. specialize (B u Lu Du).
    pose proof (sqnorm_nonneg (vsub y' x0)).
    assert (0 <= (1 / (2 * t) - L / 2) * sqnorm (vsub y' x0)) by (apply Rmult_le_pos; auto). lra.
Qed.

(** ** the value function of SR3 with the identity is flatter than el *)
Lemma sr3_curved inv o0 pr o : inv_ok inv -> wf_linear pr -> lp_c pr = eye (lp_p pr) ->
  0 < so_lam o0 -> so_practical o0 = false -> sr3_instantiate inv o0 pr = Ok o ->
  let el := so_lam o0 in
  exists f g xs, value_is (sr3_as_oracle o) f /\ grad_is (sr3_as_oracle o) g /\
    curved_below (lp_p pr) (el * frob (lp_a pr) / (frob (lp_a pr) + el)) f g /\
    (forall w, length w = lp_p pr -> length (xs w) = lp_p pr /\ f w = relaxed_loss el pr (xs w) w) /\
    (forall w z, length w = lp_p pr -> length z = lp_p pr -> f w <= relaxed_loss el pr z w) /\
    (forall w u, length w = lp_p pr -> length u = lp_p pr ->
       f w + vdot (g w) (vsub u w) + el / 2 * sqnorm (vsub u w) = relaxed_loss el pr (xs w) u).
Proof.
  intros Hi Hw Hc Hl Hp H el.
  assert (Hs : symmetric (lp_p pr) (lp_c pr)) by (rewrite Hc; apply eye_symmetric).
  destruct (sr3_instantiate_inv _ _ _ _ Hi Hw H) as [hi [S1 [S2 [_ [E1 [E2 [E3 E4]]]]]]].
  destruct (sr3_value_is inv o0 pr o Hi Hw Hs (Rlt_le _ _ Hl) Hp H) as [f [g [V [G [Lg [Ev _]]]]]].
  rewrite Hp in E2, E4. fold el in Hl, S2, E4.
  assert (Ev' : forall x, length x = lp_p pr -> f x = vfun pr el hi x /\ g x = vgrad pr el hi x).
  { intros x Lx. destruct (sr3_eval o pr _ hi x E2 E3 E4 Lx) as [V1 G1].
    rewrite value_is_relaxed in V1 by (auto; lra). rewrite gradient_is in G1 by (auto; lra).
    destruct (Ev x Lx) as [V2 G2]. unfold vfun, vgrad. split; congruence. }
  assert (Lxs : forall w, length (xstar pr el hi w) = lp_p pr) by (intros; apply xstar_len; auto).
  assert (Q : forall w u z, length w = lp_p pr -> length u = lp_p pr -> length z = lp_p pr ->
    relaxed_loss el pr z u = relaxed_loss el pr z w + el * vdot (vsub w z) (vsub u w) + el / 2 * sqnorm (vsub u w)).
  { intros w u z Lw Lu Lz. unfold relaxed_loss. rewrite Hc, mv_eye by auto.
    rewrite !sqnorm_vsub, vdot_vsub_l, !vdot_vsub_r by congruence. unfold sqnorm.
    rewrite (vdot_comm u w). lra. }
  assert (Sg : forall w u, length w = lp_p pr -> length u = lp_p pr ->
    f w + vdot (g w) (vsub u w) + el / 2 * sqnorm (vsub u w) = relaxed_loss el pr (xstar pr el hi w) u).
  { intros w u Lw Lu. destruct (Ev' w Lw) as [-> ->]. unfold vfun, vgrad, wres.
    rewrite (Q w u _ Lw Lu (Lxs w)), vdot_vscale_l, Hc, mv_eye by auto. reflexivity. }
  assert (Mn : forall w z, length w = lp_p pr -> length z = lp_p pr -> f w <= relaxed_loss el pr z w).
  { intros w z Lw Lz. destruct (Ev' w Lw) as [-> _]. unfold vfun.
    rewrite (relaxed_min pr el hi Hw Hs S1 S2 w z) by auto.
    pose proof (sqnorm_nonneg (mv (lp_a pr) (vsub z (xstar pr el hi w)))).
    pose proof (sqnorm_nonneg (mv (lp_c pr) (vsub z (xstar pr el hi w)))).
    assert (0 <= el / 2 * sqnorm (mv (lp_c pr) (vsub z (xstar pr el hi w)))) by (apply Rmult_le_pos; lra). lra. }
  exists f, g, (xstar pr el hi). split; [auto|]. split; [auto|]. split.
  - intros w Lw. split; [auto|]. intros u Lu.
    set (lam := frob (lp_a pr)). assert (Hlam : 0 <= lam) by apply frob_nonneg.
    set (th := el / (lam + el)). set (d := vsub u w). set (xw := xstar pr el hi w).
    assert (Ld : length d = lp_p pr) by (apply vsub_len; auto).
    assert (Lz : length (vadd xw (vscale th d)) = lp_p pr) by (apply vadd_len; [apply Lxs|apply vscale_len; auto]).
    apply Rle_trans with (1 := Mn u (vadd xw (vscale th d)) Lu Lz).
    rewrite (Q w u _ Lw Lu Lz), (relaxed_min pr el hi Hw Hs S1 S2 w _ Lw Lz). fold xw. fold d.
    assert (Ed : vsub (vadd xw (vscale th d)) xw = vscale th d).
    { apply vdot_ext.
      - rewrite (vsub_len (lp_p pr)), vscale_length; auto. apply Lxs.
      - intros e _. rewrite vdot_vsub_l, vdot_vadd_l; [ring| |].
        + rewrite (vscale_len (lp_p pr)); auto. apply Lxs.
        + rewrite Lz. symmetry. apply Lxs. }
    rewrite Ed, Hc, mv_eye by (apply vscale_len; auto). rewrite sqnorm_vscale.
    pose proof (frob_bound (lp_a pr) (vscale th d)) as Fb. rewrite sqnorm_vscale in Fb. fold lam in Fb.
    assert (Ew : vdot (vsub w (vadd xw (vscale th d))) d = vdot (vsub w xw) d - th * sqnorm d).
    { rewrite !vdot_vsub_l, vdot_vadd_l, vdot_vscale_l; unfold sqnorm; [ring|..];
        pose proof (Lxs w : length xw = lp_p pr); rewrite ?vscale_length; congruence. }
    rewrite Ew. destruct (Ev' w Lw) as [-> ->]. unfold vfun, vgrad, wres. fold xw.
    rewrite vdot_vscale_l, Hc, mv_eye by apply Lxs.
    assert (Et : th * (lam + el) = el) by (unfold th; field; lra).
    assert (El : el * lam / (lam + el) = lam * th) by (unfold th; field; lra).
    rewrite El. pose proof (sqnorm_nonneg d) as Nd. set (N := sqnorm d) in *.
    assert (EE : lam * th ^ 2 + el * th ^ 2 - 2 * el * th + el = lam * th).
    { replace (lam * th ^ 2 + el * th ^ 2) with (th * (th * (lam + el))) by ring. rewrite Et.
      assert (el = th * lam + th * el) by lra. lra. }
    assert (EN : (lam * th ^ 2 + el * th ^ 2 - 2 * el * th + el) * N = lam * th * N) by (rewrite EE; reflexivity).
    lra.
  - split; [|split]; auto. intros w Lw. split; [apply Lxs|]. apply Ev'; auto.
Qed.
