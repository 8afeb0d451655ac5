(** Convergence of proximal gradient descent on convex problems. *)
From Coq Require Import Lra Psatz.
From Verif.Base Require Import Py Vec Mat.
From Verif.Model Require Import Regularizers Linear.
From Verif.Spec Require Import ProxSpec RegSpec SolverSpec LinearSpec RateSpec.
From Verif.Proofs Require Import VecFacts L0Proofs RegularizerProofs RegularizersMain MatFacts SolverProofs SolversMain LinearProofs LinearMain.
Open Scope string_scope.
Open Scope list_scope.
Open Scope R_scope.

Lemma between_len n t x z : length x = n -> length z = n -> length (between t x z) = n.
Proof. intros. unfold between. apply vadd_len; auto. apply vscale_len, vsub_len; auto. Qed.

(** an affine bound with a quadratic error that holds for all small t *)
Lemma slope_nonneg a b : 0 <= b -> (forall t, 0 < t <= 1 -> 0 <= t * a + t ^ 2 * b) -> 0 <= a.
Proof.
  intros Hb H. destruct (Rle_lt_dec 0 a) as [|Ha]; auto. exfalso.
  set (t := Rmin 1 (- a / (2 * (b + 1)))).
  assert (Hq : 0 < - a / (2 * (b + 1))) by (apply Rdiv_lt_0_compat; lra).
  assert (Ht : 0 < t <= 1) by (unfold t, Rmin; destruct (Rle_dec _ _); lra).
  specialize (H t Ht).
  assert (Ht2 : t <= - a / (2 * (b + 1))) by apply Rmin_r.
  assert (t * (2 * (b + 1)) <= - a).
  { apply Rmult_le_compat_r with (r := 2 * (b + 1)) in Ht2; [|lra].
    replace (- a / (2 * (b + 1)) * (2 * (b + 1))) with (- a) in Ht2 by (field; lra). auto. }
  assert (0 <= t * (a + t * b)) by (replace (t * (a + t * b)) with (t * a + t ^ 2 * b) by ring; auto).
  assert (a + t * b < 0) by nra. nra.
Qed.

(** the optimality condition of the proximal problem of a convex penalty *)
Lemma prox_slope dom h s y z u : 0 < s -> convex_on dom h -> is_prox dom h s y z ->
  length u = length y -> dom u ->
  0 <= vdot (vsub z y) (vsub u z) + s * (h u - h z).
Proof.
  intros Hs Hc [Lz [Dz Hm]] Lu Du. set (n := length y) in *.
  apply slope_nonneg with (b := / 2 * sqnorm (vsub u z)).
  { pose proof (sqnorm_nonneg (vsub u z)). lra. }
  intros t Ht. destruct (Hc z u t) as [D B]; auto; [congruence|lra|].
  specialize (Hm (between t z u) (between_len n t z u Lz Lu) D). unfold prox_cost in Hm.
  assert (E : vsub (between t z u) y = vadd (vsub z y) (vscale t (vsub u z))).
  { unfold between. apply vdot_ext.
    - rewrite (vsub_len n), (vadd_len n); auto; try (apply vadd_len); try apply vscale_len; apply vsub_len || idtac; auto; try apply vsub_len; auto.
    - intros d _. rewrite vdot_vsub_l, !vdot_vadd_l, vdot_vsub_l, !vdot_vscale_l, vdot_vsub_l; try ring; try congruence;
      rewrite ?(vadd_len n), ?vscale_length, ?(vsub_len n); auto; try apply vscale_len, vsub_len; auto. }
  rewrite E, sqnorm_vadd, sqnorm_vscale, vdot_vscale_r in Hm
    by (rewrite vscale_length, !(vsub_len n); auto).
  assert (s * h (between t z u) <= s * ((1 - t) * h z + t * h u)) by (apply Rmult_le_compat_l; lra).
  lra.
Qed.

(** one accepted step compared with any competitor *)
Lemma step_three_point dom h f g p L x s x' u : convex_on dom h -> convex_smooth p L f g ->
  length x = p -> length u = p -> dom u -> 0 < s ->
  is_prox dom h s (vsub x (vscale s (g x))) x' -> sufficient f g x s x' ->
  2 * s * (f x' + h x' - (f u + h u)) <= sqnorm (vsub u x) - sqnorm (vsub u x').
Proof.
  intros Hc Hf Lx Lu Du Hs Hp Hsuf. destruct (Hf x Lx) as [Lg Hf'].
  destruct (Hf' u Lu) as [Hlow _].
  assert (Ly : length (vsub x (vscale s (g x))) = p) by (apply vsub_len; auto; apply vscale_len; auto).
  assert (Lx' : length x' = p) by (destruct Hp as [E _]; congruence).
  pose proof (prox_slope _ _ _ _ _ u Hs Hc Hp ltac:(congruence) Du) as Hsl.
  unfold sufficient in Hsuf.
  assert (Lsg : length (vscale s (g x)) = p) by (apply vscale_len; auto).
  rewrite (vdot_vsub_l x') in Hsl by congruence.
  rewrite (vdot_vsub_l x) in Hsl by congruence.
  rewrite vdot_vscale_l, !vdot_vsub_r in Hsl by congruence.
  rewrite vdot_vsub_r in Hlow, Hsuf by congruence.
  rewrite !sqnorm_vsub in * by congruence.
  apply Rmult_le_compat_l with (r := s) in Hsuf; [|lra].
  apply Rmult_le_compat_l with (r := s) in Hlow; [|lra].
  rewrite !Rmult_plus_distr_l in Hsuf, Hlow.
  assert (E1 : s * (1 / (2 * s) * (sqnorm x' - 2 * vdot x' x + sqnorm x)) =
               / 2 * (sqnorm x' - 2 * vdot x' x + sqnorm x)) by (field; lra).
  rewrite E1 in Hsuf. clear E1. unfold sqnorm in *.
  rewrite (vdot_comm u x), (vdot_comm u x'), (vdot_comm x' x) in *. lra.
Qed.

(** every step of a run on a function of bounded curvature, convex or not *)
Section Steps.
Context {S : Type} (orc : oracle S) (rg : regularizer) (slv : pgd_solver).
Variables (f : vec -> R) (g : vec -> vec) (dom : vec -> Prop) (pen : vec -> R) (p : nat) (L sm : R).
Hypothesis Hv : value_is orc f.
Hypothesis Hg : grad_is orc g.
Hypothesis Hf : curved_below p L f g.
Hypothesis HL : 0 <= L.
Hypothesis Hex : exact_for rg dom pen.
Hypothesis Hst : safe_steps slv L sm.

Lemma smooth_sufficient x s z : length x = p -> length z = p -> 0 < s -> L * s <= 1 -> sufficient f g x s z.
Proof.
  intros Lx Lz Hs Hle. destruct (Hf x Lx) as [_ H]. pose proof (H z Lz) as Hu. unfold sufficient.
  apply Rle_trans with (1 := Hu). apply Rplus_le_compat_l.
  apply Rmult_le_compat_r; [apply sqnorm_nonneg|].
  apply Rmult_le_reg_r with (2 * s); [lra|].
  replace (L / 2 * (2 * s)) with (L * s) by field. replace (1 / (2 * s) * (2 * s)) with 1 by (field; lra). auto.
Qed.

(** every step is at least sm, passes the test, and is an exact proximal step *)
Lemma curved_rule_step x s x' : length x = p -> pgd_rule orc rg slv x s x' ->
  sm <= s /\ length x' = p /\ sufficient f g x s x' /\ is_prox dom pen s (vsub x (vscale s (g x))) x'.
Proof.
  intros Lx [[t1 [g1 [t2 [A [Hl P]]]]] [Hkind Hr]]. destruct Hst as [[Hsm Hsl] Hs].
  specialize (Hr _ _ Hv Hg). unfold step_rule in Hr. rewrite (Hg _ _ _ _ A) in *.
  assert (Lg : length (g x) = p) by (apply Hf; auto).
  assert (Ly : forall t, length (vsub x (vscale t (g x))) = p)
    by (intros; apply vsub_len; auto; apply vscale_len; auto).
  destruct (String.eqb (s_stepping slv) "line-search").
  - destruct Hs as [Hth H2]. destruct Hr as [k [Es [Hj Hd]]].
    assert (Hp0 : forall j, 0 < halved (s_step_len slv) j)
      by (intros j; destruct (halved_range (s_step_len slv) j); [lra|auto]).
    assert (Hmin : sm <= s).
    { destruct k as [|j].
      - rewrite Es. unfold halved. simpl. lra.
      - destruct (Hj j) as [Hj1 [z [Hz Hn]]]; [lia|].
        destruct (Rle_lt_dec (L * halved (s_step_len slv) j) 1) as [Hle|Hlt].
        + exfalso. apply Hn. destruct (Hex _ _ _ (Hp0 j) Hz) as [Lz _].
          apply smooth_sufficient; auto. rewrite Lz. auto.
        + rewrite Es, SolverProofs.halved_S. set (q := halved (s_step_len slv) j) in *. nra. }
    assert (Hs0 : 0 < s) by lra.
    destruct (Hex _ _ _ Hs0 P) as [Lx' Hx']. rewrite Ly in Lx'.
    split; [auto|]. split; [auto|]. split; [destruct Hd; [lra|auto]|]. apply Hex; auto.
  - subst s. assert (Hs0 : 0 < s_step_len slv) by lra.
    destruct (Hex _ _ _ Hs0 P) as [Lx' Hx']. rewrite Ly in Lx'.
    split; [auto|]. split; [auto|]. split; [apply smooth_sufficient; auto|]. apply Hex; auto.
Qed.
End Steps.

Section Run.
Context {S : Type} (orc : oracle S) (rg : regularizer) (slv : pgd_solver).
Variables (f : vec -> R) (g : vec -> vec) (dom : vec -> Prop) (pen : vec -> R) (p : nat) (L sm : R).
Hypothesis Hv : value_is orc f.
Hypothesis Hg : grad_is orc g.
Hypothesis Hf : convex_smooth p L f g.
Hypothesis HL : 0 <= L.
Hypothesis Hex : exact_for rg dom pen.
Hypothesis Hcv : convex_on dom pen.
Hypothesis Hst : safe_steps slv L sm.

Lemma rule_step x s x' : length x = p -> pgd_rule orc rg slv x s x' ->
  sm <= s /\ length x' = p /\ sufficient f g x s x' /\ is_prox dom pen s (vsub x (vscale s (g x))) x'.
Proof.
  assert (Hc : curved_below p L f g).
  { intros y Ly. destruct (Hf y Ly) as [A B]. split; [exact A|]. intros z Lz. apply (B z Lz). }
  exact (curved_rule_step orc rg slv f g dom pen p L sm Hv Hg Hc HL Hex Hst x s x').
Qed.

Lemma rule_descends x s x' : length x = p -> pgd_rule orc rg slv x s x' ->
  dom x' /\ (dom x -> f x' + pen x' <= f x + pen x).
Proof.
  intros Lx P. destruct (rule_step _ _ _ Lx P) as [Hs [Lx' [Hsuf Hp]]].
  split; [apply Hp|]. intros Dx. destruct Hst as [[Hsm _] _].
  assert (Hs0 : 0 < s) by lra.
  pose proof (step_three_point _ _ _ _ _ _ _ _ _ x Hcv Hf Lx Lx Dx Hs0 Hp Hsuf) as H.
  rewrite vsub_self, sqnorm_zeros in H. pose proof (sqnorm_nonneg (vsub x x')).
  apply Rnot_lt_le. intros Hlt. nra.
Qed.
Lemma path_descends path : forall x, length x = p -> is_path (pgd_rule orc rg slv) x path -> dom x ->
  f (endpoint x path) + pen (endpoint x path) <= f x + pen x.
Proof.
  induction path as [|[s x'] path IH]; intros x Lx P Dx; [unfold endpoint; simpl; lra|].
  destruct P as [P1 P]. rewrite endpoint_cons.
  destruct (rule_descends _ _ _ Lx P1) as [Dx' D]. specialize (D Dx).
  destruct (rule_step _ _ _ Lx P1) as [_ [Lx' _]]. specialize (IH x' Lx' P Dx'). lra.
Qed.
Lemma path_len path : forall x, length x = p -> is_path (pgd_rule orc rg slv) x path -> length (endpoint x path) = p.
Proof.
  induction path as [|[s x'] path IH]; intros x Lx P; [auto|].
  destruct P as [P1 P]. rewrite endpoint_cons. destruct (rule_step _ _ _ Lx P1) as [_ [Lx' _]]. auto.
Qed.
Lemma path_dom path : forall x, length x = p -> is_path (pgd_rule orc rg slv) x path -> path <> [] ->
  dom (endpoint x path).
Proof.
  induction path as [|[s x'] path IH]; intros x Lx P N; [congruence|].
  destruct P as [P1 P]. rewrite endpoint_cons. destruct (rule_step _ _ _ Lx P1) as [_ [Lx' [_ [_ [D _]]]]].
  destruct path as [|q path]; [exact D|]. apply IH; auto. discriminate.
Qed.

Lemma path_rate path u : length u = p -> dom u -> forall x, length x = p ->
  is_path (pgd_rule orc rg slv) x path ->
  f u + pen u < f (endpoint x path) + pen (endpoint x path) ->
  2 * sm * INR (length path) * (f (endpoint x path) + pen (endpoint x path) - (f u + pen u)) <=
  sqnorm (vsub u x) - sqnorm (vsub u (endpoint x path)).
Proof.
  intros Lu Du. induction path as [|[s x'] path IH]; intros x Lx P Hlt.
  - change (length (@nil (R * vec))) with 0%nat. unfold endpoint. simpl. lra.
  - destruct P as [P1 P]. rewrite endpoint_cons in *.
    destruct (rule_step _ _ _ Lx P1) as [Hs [Lx' [Hsuf Hp]]].
    specialize (IH x' Lx' P Hlt). pose proof Hp as Hp'. destruct Hp' as [_ [Dx' _]].
    pose proof (path_descends path x' Lx' P Dx') as Hd. destruct Hst as [[Hsm _] _].
    assert (Hs0 : 0 < s) by lra.
    pose proof (step_three_point _ _ _ _ _ _ _ _ _ u Hcv Hf Lx Lu Du Hs0 Hp Hsuf) as H3.
    change (length ((s, x') :: path)) with (Datatypes.S (length path)). rewrite S_INR.
    set (Fe := f (endpoint x' path) + pen (endpoint x' path)) in *. set (Fu := f u + pen u) in *.
    set (F' := f x' + pen x') in *.
    assert (2 * sm * (Fe - Fu) <= 2 * s * (F' - Fu)) by nra. lra.
Qed.

Lemma run_rate path x u : length x = p -> is_path (pgd_rule orc rg slv) x path -> length u = p -> dom u ->
  (0 < length path)%nat ->
  f (endpoint x path) + pen (endpoint x path) <=
  f u + pen u + sqnorm (vsub x u) / (2 * sm * INR (length path)).
Proof.
  intros Lx P Lu Du Hn. destruct Hst as [[Hsm _] _].
  assert (Hn' : 0 < INR (length path)) by (apply lt_0_INR; auto).
  assert (Hk : 0 < 2 * sm * INR (length path)) by (apply Rmult_lt_0_compat; lra).
  pose proof (sqnorm_nonneg (vsub x u)) as N0.
  assert (Hq : 0 <= sqnorm (vsub x u) / (2 * sm * INR (length path))).
  { apply Rmult_le_pos; auto. apply Rlt_le, Rinv_0_lt_compat. auto. }
  destruct (Rle_lt_dec (f (endpoint x path) + pen (endpoint x path)) (f u + pen u)) as [|Hlt]; [lra|].
  pose proof (path_rate path u Lu Du x Lx P Hlt) as H.
  pose proof (sqnorm_nonneg (vsub u (endpoint x path))).
  rewrite (sqnorm_vsub_comm u x) in H by congruence.
  set (Fe := f (endpoint x path) + pen (endpoint x path)) in *. set (Fu := f u + pen u) in *.
  assert (Fe - Fu <= sqnorm (vsub x u) / (2 * sm * INR (length path))); [|lra].
  apply Rmult_le_reg_l with (2 * sm * INR (length path)); auto.
  replace (2 * sm * INR (length path) * (sqnorm (vsub x u) / (2 * sm * INR (length path))))
    with (sqnorm (vsub x u)) by (field; lra). lra.
Qed.

(** the last step, from q to x' *)
Lemma norm_dot a b : vdot a b <= norm a * norm b.
Proof.
  destruct (Rle_lt_dec (vdot a b) 0) as [H|H].
  - pose proof (norm_nonneg a). pose proof (norm_nonneg b).
    apply Rle_trans with (1 := H). apply Rmult_le_pos; auto.
  - apply Rsqr_incr_0_var; [|apply Rmult_le_pos; apply norm_nonneg].
    unfold Rsqr. replace (norm a * norm b * (norm a * norm b)) with (norm a ^ 2 * norm b ^ 2) by ring.
    rewrite !norm_sq. pose proof (cauchy_schwarz a b) as C. simpl in C. rewrite Rmult_1_r in C. auto.
Qed.

Lemma last_step_near q s x' u tol : length q = p -> pgd_rule orc rg slv q s x' ->
  norm (vsub x' q) <= tol -> length u = p -> dom u ->
  f x' + pen x' <= f u + pen u + tol / sm * (norm (vsub x' u) + tol / 2).
Proof.
  intros Lq P Ht Lu Du. destruct (rule_step _ _ _ Lq P) as [Hs [Lx' [Hsuf Hp]]].
  destruct Hst as [[Hsm _] _].
  assert (Hs0 : 0 < s) by lra.
    pose proof (step_three_point _ _ _ _ _ _ _ _ _ u Hcv Hf Lq Lu Du Hs0 Hp Hsuf) as H3.
  pose proof (norm_nonneg (vsub x' q)) as N1. pose proof (norm_nonneg (vsub x' u)) as N2.
  assert (E : sqnorm (vsub u q) = sqnorm (vsub u x') + 2 * vdot (vsub u x') (vsub x' q) + sqnorm (vsub x' q)).
  { rewrite !sqnorm_vsub, vdot_vsub_l, !vdot_vsub_r by congruence. unfold sqnorm. ring. }
  assert (C : vdot (vsub u x') (vsub x' q) <= norm (vsub x' u) * tol).
  { apply Rle_trans with (1 := norm_dot _ _).
    assert (En : norm (vsub u x') = norm (vsub x' u)) by (unfold norm; rewrite sqnorm_vsub_comm by congruence; auto).
    rewrite En. apply Rmult_le_compat_l; auto. }
  assert (Q : sqnorm (vsub x' q) <= tol ^ 2).
  { rewrite <- norm_sq. apply pow_incr. auto. }
  set (D := f x' + pen x' - (f u + pen u)) in *.
  assert (B : 2 * s * D <= 2 * (norm (vsub x' u) * tol) + tol ^ 2) by lra.
  assert (Hm : 0 <= norm (vsub x' u) * tol) by (apply Rmult_le_pos; lra).
  assert (G : D <= tol / sm * (norm (vsub x' u) + tol / 2)); [|unfold D in G; lra].
  apply Rmult_le_reg_l with (2 * sm); [lra|].
  replace (2 * sm * (tol / sm * (norm (vsub x' u) + tol / 2)))
    with (2 * (norm (vsub x' u) * tol) + tol ^ 2) by (field; lra).
  destruct (Rle_lt_dec D 0) as [HD|HD]; [|apply Rle_trans with (2 := B); nra].
  assert (0 <= tol ^ 2) by apply pow2_ge_0. nra.
Qed.

Lemma last_step path : forall x q0 q, length x = p -> is_path (pgd_rule orc rg slv) x path ->
  last_prev q0 x path = Some q -> path <> [] ->
  length q = p /\ exists s, pgd_rule orc rg slv q s (endpoint x path).
Proof.
  induction path as [|[s x'] path IH]; intros x q0 q Lx P E N; [congruence|].
  destruct P as [P1 P]. rewrite endpoint_cons. simpl in E.
  destruct (rule_step _ _ _ Lx P1) as [_ [Lx' _]].
  destruct path as [|[s2 x2] path].
  - simpl in E. injection E as <-. split; auto. exists s. exact P1.
  - eapply IH; eauto. discriminate.
Qed.
Lemma last_prev_none path : forall x q, last_prev q x path = None -> path = [].
Proof.
  induction path as [|[s x'] path IH]; intros x q E; auto. simpl in E. specialize (IH _ _ E). subst. discriminate.
Qed.

Lemma optimize_rate x0 s lg x lg' s' : length x0 = p ->
  pgd_optimize orc rg slv x0 s lg = Ok (x, lg', s') ->
  exists n b, get lg' "iteration" = Ok (LAtom (LNum (INR n))) /\ get lg' "converged" = Ok (LAtom (LBool b)) /\
    length x = p /\ (b = false -> (0 < s_max_iter slv)%Z -> Z.of_nat n = s_max_iter slv) /\
    ((0 < n)%nat -> near_best p dom (fun z => f z + pen z) x (fun u => sqnorm (vsub x0 u) / (2 * sm * INR n))) /\
    (b = true -> near_best p dom (fun z => f z + pen z) x
                   (fun u => s_tol slv / sm * (norm (vsub x u) + s_tol slv / 2))).
Proof.
  intros Lx0 H.
  destruct (pgd_optimize_inv _ _ _ _ _ _ _ _ _ H) as [path [P [E [_ [T [M [C I]]]]]]].
  exists (length path), (Z.of_nat (length path) <? s_max_iter slv)%Z. split; [auto|]. split; [auto|].
  subst x. split; [apply path_len; auto|]. split.
  { intros Hb Hm. apply Z.ltb_ge in Hb. destruct M as [->|M]; [simpl in Hb; lia|lia]. }
  split.
  - intros Hn u Lu Du. apply run_rate; auto.
  - intros Hb u Lu Du. apply Z.ltb_lt in Hb. destruct T as [T|T]; [|lia].
    unfold still in T. destruct (last_prev None x0 path) as [q|] eqn:Eq.
    + assert (N : path <> []) by (intros ->; simpl in Eq; discriminate).
      destruct (last_step path x0 None q Lx0 P Eq N) as [Lq [s1 R1]].
      eapply last_step_near; eauto. apply Rnot_lt_le. auto.
    + apply last_prev_none in Eq. subst path. unfold endpoint in *. simpl in *.
      destruct x0 as [|a x0]; [|exfalso; apply T; left; discriminate].
      simpl in Lx0. destruct u as [|b u]; [|simpl in Lu; lia].
      assert (Z0 : norm (vsub [] []) = 0) by (exact sqrt_0). cbv beta. rewrite Z0.
      assert (0 <= s_tol slv / sm * (0 + s_tol slv / 2)); [|lra].
      destruct Hst as [[Hsm _] _].
      replace (s_tol slv / sm * (0 + s_tol slv / 2)) with (s_tol slv ^ 2 * (/ (2 * sm))) by (field; lra).
      apply Rmult_le_pos; [apply pow2_ge_0|]. apply Rlt_le, Rinv_0_lt_compat. lra.
Qed.
End Run.

(** ** weighted L1 is convex *)
Lemma weighted_l1_between w : Forall (fun wi => 0 <= wi) w -> forall x z t, length x = length z -> 0 <= t <= 1 ->
  weighted_l1 w (between t x z) <= (1 - t) * weighted_l1 w x + t * weighted_l1 w z.
Proof.
  induction 1 as [|wi w Hw _ IH]; intros x z t Hl Ht; [simpl; lra|].
  destruct x as [|a x], z as [|b z]; try discriminate; [simpl; lra|].
  specialize (IH x z t ltac:(simpl in Hl; lia) Ht).
  change (between t (a :: x) (b :: z)) with ((a + t * (b - a)) :: between t x z). cbn [weighted_l1].
  assert (Rabs (a + t * (b - a)) <= (1 - t) * Rabs a + t * Rabs b).
  { replace (a + t * (b - a)) with ((1 - t) * a + t * b) by ring.
    apply Rle_trans with (1 := Rabs_triang _ _). rewrite !Rabs_mult.
    rewrite (Rabs_right (1 - t)), (Rabs_right t) by lra. lra. }
  assert (wi * Rabs (a + t * (b - a)) <= wi * ((1 - t) * Rabs a + t * Rabs b)) by (apply Rmult_le_compat_l; auto).
  lra.
Qed.
Lemma weighted_l1_convex lam w : 0 <= lam -> Forall (fun wi => 0 <= wi) w ->
  convex_on all_vecs (fun z => lam * weighted_l1 w z).
Proof.
  intros Hl Hw x z t L _ _ Ht. split; [exact I|].
  pose proof (weighted_l1_between w Hw x z t L Ht) as H.
  apply Rmult_le_compat_l with (r := lam) in H; auto. lra.
Qed.

(** ** the losses *)
Lemma ls_convex_smooth pr : wf_linear pr -> convex_smooth (lp_p pr) (frob (lp_a pr)) (least_squares pr) (ls_grad pr).
Proof.
  intros Hw x Lx. split.
  { unfold ls_grad. destruct Hw as [[Hn Ha] _]. apply tmv_len; auto. }
  intros z Lz. pose proof (ls_expand pr x (vsub z x) Hw Lx (vsub_len _ _ _ Lz Lx)) as E.
  rewrite (vadd_vsub (lp_p pr)) in E by auto. rewrite E. fold (ls_grad pr x).
  pose proof (frob_bound (lp_a pr) (vsub z x)). pose proof (sqnorm_nonneg (mv (lp_a pr) (vsub z x))). lra.
Qed.
Lemma frob_nonneg a : 0 <= frob a.
Proof.
  unfold frob. induction a as [|r a IH]; [unfold vsum; simpl; lra|].
  change (0 <= sqnorm r + vsum (map sqnorm a)). pose proof (sqnorm_nonneg r). lra.
Qed.
