(** Distances to the minimiser of a strongly convex objective, and its existence. *)
From Coq Require Import Lra Psatz.
From Verif.Base Require Import Py Vec Mat.
From Verif.Model Require Import Regularizers Linear.
From Verif.Spec Require Import ProxSpec RegSpec SolverSpec LinearSpec RateSpec DistanceSpec.
From Verif.Proofs Require Import VecFacts L0Proofs RegularizerProofs RegularizersMain MatFacts ScalarProx SolverProofs SolversMain LinearProofs LinearMain RateProofs LinearRateMain.
Open Scope string_scope.
Open Scope list_scope.
Open Scope R_scope.

(** ** growth around the minimiser *)
Lemma limit_nonneg a b : (forall t, 0 < t <= 1 -> 0 <= a + t * b) -> 0 <= a.
Proof.
  intros H. apply slope_nonneg with (b := Rabs b); [apply Rabs_pos|].
  intros t Ht. specialize (H t Ht). pose proof (Rle_abs b).
  assert (t * b <= t * Rabs b) by (apply Rmult_le_compat_l; lra).
  replace (t * a + t ^ 2 * Rabs b) with (t * (a + t * Rabs b)) by ring. apply Rmult_le_pos; lra.
Qed.

Lemma vsub_between_l n t x z : length x = n -> length z = n -> vsub x (between t x z) = vscale (- t) (vsub z x).
Proof.
  intros Lx Lz. unfold between. apply vdot_ext.
  - rewrite vsub_min, vadd_min, !vscale_length, vsub_min. lia.
  - intros d _. rewrite vdot_vsub_l, vdot_vadd_l, !vdot_vscale_l, vdot_vsub_l; try ring; try congruence;
      rewrite ?vadd_min, ?vscale_length, ?vsub_min; lia.
Qed.
Lemma vsub_between_r n t x z : length x = n -> length z = n -> vsub z (between t x z) = vscale (1 - t) (vsub z x).
Proof.
  intros Lx Lz. unfold between. apply vdot_ext.
  - rewrite vsub_min, vadd_min, !vscale_length, vsub_min. lia.
  - intros d _. rewrite vdot_vsub_l, vdot_vadd_l, !vdot_vscale_l, vdot_vsub_l; try ring; try congruence;
      rewrite ?vadd_min, ?vscale_length, ?vsub_min; lia.
Qed.

Lemma best_grows p dom f g pen mu u z : 0 <= mu -> curved_above p mu f g -> convex_on dom pen ->
  best_in p dom (fun z => f z + pen z) u -> length z = p -> dom z ->
  f u + pen u + mu / 2 * sqnorm (vsub z u) <= f z + pen z.
Proof.
  intros Hmu Hf Hc [Lu [Du Hu]] Lz Dz.
  assert (H : 0 <= (f z + pen z - (f u + pen u) - mu / 2 * sqnorm (vsub z u))); [|lra].
  apply limit_nonneg with (b := mu / 2 * sqnorm (vsub z u)). intros t Ht.
  set (m := between t u z). assert (Lm : length m = p) by (apply between_len; auto).
  destruct (Hc u z t) as [Dm Bm]; auto; [congruence|lra|]. fold m in Dm, Bm.
  pose proof (Hu m Lm Dm) as B. cbv beta in B.
  pose proof (Hf m z Lm Lz) as F1. pose proof (Hf m u Lm Lu) as F2.
  unfold m in F1, F2. rewrite (vsub_between_r p) in F1 by auto. rewrite (vsub_between_l p) in F2 by auto.
  fold m in F1, F2. rewrite vdot_vscale_r, sqnorm_vscale in F1, F2.
  set (k := vdot (g m) (vsub z u)) in *. set (q := sqnorm (vsub z u)) in *.
  apply Rmult_le_compat_l with (r := t) in F1; [|lra].
  apply Rmult_le_compat_l with (r := 1 - t) in F2; [|lra].
  assert (G : f m + mu / 2 * (t * (1 - t)) * q <= t * f z + (1 - t) * f u) by nra.
  assert (T : 0 <= t * (f z + pen z - (f u + pen u) - mu / 2 * q + t * (mu / 2 * q))) by nra.
  apply Rmult_le_reg_l with t; [lra|]. lra.
Qed.

Lemma best_unique p dom f g pen mu u u' : 0 < mu -> curved_above p mu f g -> convex_on dom pen ->
  best_in p dom (fun z => f z + pen z) u -> best_in p dom (fun z => f z + pen z) u' -> u = u'.
Proof.
  intros Hmu Hf Hc B B'. destruct B' as [Lu' [Du' Hu']].
  pose proof (best_grows p dom f g pen mu u u' (Rlt_le _ _ Hmu) Hf Hc B Lu' Du') as G.
  destruct B as [Lu [Du _]]. specialize (Hu' u Lu Du). cbv beta in Hu'.
  pose proof (sqnorm_nonneg (vsub u' u)) as N.
  symmetry. apply vsub_zero_eq; [congruence|]. nra.
Qed.

(** ** the run *)
Section Run.
Context {S : Type} (orc : oracle S) (rg : regularizer) (slv : pgd_solver).
Variables (f : vec -> R) (g : vec -> vec) (dom : vec -> Prop) (pen : vec -> R) (p : nat) (L sm mu : R).
Hypothesis Hv : value_is orc f.
Hypothesis Hg : grad_is orc g.
Hypothesis Hf : convex_smooth p L f g.
Hypothesis Hmu : 0 < mu.
Hypothesis Hs : curved_above p mu f g.
Hypothesis HL : 0 <= L.
Hypothesis Hex : exact_for rg dom pen.
Hypothesis Hcv : convex_on dom pen.
Hypothesis Hst : safe_steps slv L sm.
Variable u : vec.
Hypothesis Hu : best_in p dom (fun z => f z + pen z) u.

Lemma step_contracts x s x' : length x = p -> pgd_rule orc rg slv x s x' ->
  (1 + sm * mu) * sqnorm (vsub x' u) <= sqnorm (vsub x u).
Proof.
  intros Lx P.
  destruct (rule_step orc rg slv f g dom pen p L sm Hv Hg Hf HL Hex Hst _ _ _ Lx P) as [Hs' [Lx' [Hsuf Hp]]].
  destruct Hst as [[Hsm _] _]. assert (Hs0 : 0 < s) by lra.
  destruct Hu as [Lu [Du _]].
  pose proof (step_three_point _ _ _ _ _ _ _ _ _ u Hcv Hf Lx Lu Du Hs0 Hp Hsuf) as H.
  destruct Hp as [_ [Dx' _]].
  pose proof (best_grows p dom f g pen mu u x' (Rlt_le _ _ Hmu) Hs Hcv Hu Lx' Dx') as G.
  rewrite (sqnorm_vsub_comm u x), (sqnorm_vsub_comm u x') in H by congruence.
  pose proof (sqnorm_nonneg (vsub x' u)) as N. set (d := sqnorm (vsub x' u)) in *.
  assert (A : 2 * s * (mu / 2 * d) <= 2 * s * (f x' + pen x' - (f u + pen u))).
  { apply Rmult_le_compat_l; lra. }
  assert (B : sm * mu * d <= s * mu * d).
  { apply Rmult_le_compat_r; auto. apply Rmult_le_compat_r; lra. }
  lra.
Qed.
Lemma path_contracts path : forall x, length x = p -> is_path (pgd_rule orc rg slv) x path ->
  (1 + sm * mu) ^ length path * sqnorm (vsub (endpoint x path) u) <= sqnorm (vsub x u).
Proof.
  induction path as [|[s x'] path IH]; intros x Lx P.
  - unfold endpoint. simpl. lra.
  - destruct P as [P1 P]. rewrite endpoint_cons. 
    destruct (rule_step orc rg slv f g dom pen p L sm Hv Hg Hf HL Hex Hst _ _ _ Lx P1) as [_ [Lx' _]].
    pose proof (step_contracts _ _ _ Lx P1) as H1. specialize (IH x' Lx' P).
    change (length ((s, x') :: path)) with (Datatypes.S (length path)). cbn [pow].
    destruct Hst as [[Hsm _] _]. assert (0 < sm * mu) by (apply Rmult_lt_0_compat; lra).
    apply Rle_trans with (2 := H1). rewrite Rmult_assoc. apply Rmult_le_compat_l; lra.
Qed.

Lemma gap_distance tol d : 0 <= d -> mu / 2 * d ^ 2 <= tol / sm * (d + tol / 2) -> 0 <= tol ->
  d <= tol * (2 / (sm * mu) + 1 / 2).
Proof.
  intros Hd H Ht. destruct Hst as [[Hsm _] _].
  assert (Hsmu : 0 < sm * mu) by (apply Rmult_lt_0_compat; lra).
  set (k := tol / (sm * mu)).
  assert (Hk : 0 <= k) by (apply Rmult_le_pos; auto; apply Rlt_le, Rinv_0_lt_compat; auto).
  assert (E : d ^ 2 <= 2 * k * d + k * tol).
  { apply Rmult_le_reg_l with (mu / 2); [lra|]. apply Rle_trans with (1 := H). right. unfold k. field. lra. }
  replace (tol * (2 / (sm * mu) + 1 / 2)) with (2 * k + tol / 2) by (unfold k; field; lra).
  apply Rnot_lt_le. intros N. nra.
Qed.

Lemma optimize_distance x0 s lg x lg' s' : length x0 = p ->
  pgd_optimize orc rg slv x0 s lg = Ok (x, lg', s') ->
  exists n b, get lg' "iteration" = Ok (LAtom (LNum (INR n))) /\ get lg' "converged" = Ok (LAtom (LBool b)) /\
    length x = p /\ (b = false -> (0 < s_max_iter slv)%Z -> Z.of_nat n = s_max_iter slv) /\
    geometric sm mu n x0 u x /\ (b = true -> (0 < p)%nat -> settled sm mu (s_tol slv) u x).
Proof.
  intros Lx0 H.
  destruct (pgd_optimize_inv _ _ _ _ _ _ _ _ _ H) as [path [P [E [_ [T [M [C I]]]]]]].
  exists (length path), (Z.of_nat (length path) <? s_max_iter slv)%Z. split; [auto|]. split; [auto|].
  assert (Lx : length x = p).
  { subst x. exact (path_len orc rg slv f g dom pen p L sm Hv Hg Hf HL Hex Hst path x0 Lx0 P). }
  split; [auto|]. split.
  { intros Hb Hm. apply Z.ltb_ge in Hb. destruct M as [->|M]; [simpl in Hb; lia|lia]. }
  destruct Hst as [[Hsm Hsl] Hk]. assert (Hsmu : 0 < sm * mu) by (apply Rmult_lt_0_compat; lra). 
  split.
  - unfold geometric. subst x. pose proof (path_contracts path x0 Lx0 P) as B.
    assert (Hp0 : 0 < (1 + sm * mu) ^ length path) by (apply pow_lt; lra).
    apply Rmult_le_reg_l with ((1 + sm * mu) ^ length path); auto.
    replace ((1 + sm * mu) ^ length path * (sqnorm (vsub x0 u) / (1 + sm * mu) ^ length path))
      with (sqnorm (vsub x0 u)) by (field; lra). auto.
  - intros Hb Hp0. apply Z.ltb_lt in Hb. destruct T as [T|T]; [|lia].
    unfold still in T. destruct (last_prev None x0 path) as [q|] eqn:Eq.
    + assert (N : path <> []) by (intros ->; simpl in Eq; discriminate).
      destruct (last_step orc rg slv f g dom pen p L sm Hv Hg Hf HL Hex Hst path x0 None q Lx0 P Eq N) as [Lq [s1 R1]].
      rewrite <- E in R1. apply Rnot_lt_le in T.
      assert (Ht : 0 <= s_tol slv) by (eapply Rle_trans; [apply norm_nonneg|exact T]).
      destruct Hu as [Lu [Du _]].
      pose proof (last_step_near orc rg slv f g dom pen p L sm Hv Hg Hf HL Hex Hcv Hst q s1 x u (s_tol slv) Lq R1 T Lu Du) as G.
      destruct (rule_step orc rg slv f g dom pen p L sm Hv Hg Hf HL Hex Hst _ _ _ Lq R1) as [_ [_ [_ [_ [Dx _]]]]].
      pose proof (best_grows p dom f g pen mu u x (Rlt_le _ _ Hmu) Hs Hcv Hu Lx Dx) as G2.
      unfold settled. rewrite <- norm_sq in G2.
      apply gap_distance; auto; [apply norm_nonneg|lra].
    + apply last_prev_none in Eq. subst path. simpl in T.
      destruct x0 as [|a x0]; [simpl in Lx0; lia|exfalso; apply T; left; subst x; discriminate].
Qed.
End Run.

(** ** the minimiser exists *)
Lemma norm_triangle x y z : length x = length y -> length y = length z ->
  norm (vsub x z) <= norm (vsub x y) + norm (vsub y z).
Proof.
  intros L1 L2.
  assert (E : vsub x z = vadd (vsub x y) (vsub y z)).
  { apply vdot_ext; [rewrite vadd_min, !vsub_min; lia|]. intros d _.
    rewrite vdot_vadd_l, !vdot_vsub_l; try ring; try congruence. rewrite !vsub_min. lia. }
  rewrite E. set (a := vsub x y). set (b := vsub y z).
  assert (Lab : length a = length b) by (unfold a, b; rewrite !vsub_min; lia).
  pose proof (norm_nonneg a). pose proof (norm_nonneg b).
  apply Rsqr_incr_0_var; [|lra]. rewrite !Rsqr_pow2, norm_sq, sqnorm_vadd by auto.
  pose proof (norm_dot a b). replace ((norm a + norm b) ^ 2) with (norm a ^ 2 + 2 * (norm a * norm b) + norm b ^ 2) by ring.
  rewrite !norm_sq. lra.
Qed.
Lemma norm_small x e : 0 < e -> sqnorm x < e ^ 2 -> norm x < e.
Proof.
  intros He H. apply Rsqr_incrst_0; [|apply norm_nonneg|lra]. rewrite !Rsqr_pow2, norm_sq. auto.
Qed.
Lemma sqnorm_small x e : norm x < e -> sqnorm x < e ^ 2.
Proof.
  intros H. rewrite <- norm_sq. pose proof (norm_nonneg x). nra.
Qed.

Lemma vec_complete p : forall xs : nat -> vec, (forall n, length (xs n) = p) ->
  (forall e, 0 < e -> exists N, forall m n, (N <= m)%nat -> (N <= n)%nat -> sqnorm (vsub (xs m) (xs n)) < e) ->
  exists l, length l = p /\ forall e, 0 < e -> exists N, forall n, (N <= n)%nat -> sqnorm (vsub (xs n) l) < e.
Proof.
  induction p as [|p IH]; intros xs Hl Hc.
  - exists []. split; [auto|]. intros e He. exists 0%nat. intros n _.
    specialize (Hl n). destruct (xs n); [|simpl in Hl; lia]. unfold sqnorm, vdot, vsum; simpl. auto.
  - set (h := fun n => hd 0 (xs n)). set (t := fun n => tl (xs n)).
    assert (Ex : forall n, xs n = h n :: t n).
    { intros n. unfold h, t. specialize (Hl n). destruct (xs n); [simpl in Hl; lia|reflexivity]. }
    assert (Es : forall m n, sqnorm (vsub (xs m) (xs n)) = (h m - h n) * (h m - h n) + sqnorm (vsub (t m) (t n))).
    { intros m n. rewrite !Ex. change (vsub (h m :: t m) (h n :: t n)) with ((h m - h n) :: vsub (t m) (t n)).
      rewrite sqnorm_cons. reflexivity. }
    destruct (IH t) as [lt [Lt Ht]].
    { intros n. specialize (Hl n). rewrite Ex in Hl. simpl in Hl. lia. }
    { intros e He. destruct (Hc e He) as [N HN]. exists N. intros m n Hm Hn. specialize (HN m n Hm Hn).
      rewrite Es in HN. pose proof (Rle_0_sqr (h m - h n)) as Q. unfold Rsqr in Q. lra. }
    destruct (R_complete h) as [lh Hh].
    { intros e He. destruct (Hc (e ^ 2)) as [N HN]; [apply pow_lt; lra|]. exists N. intros m n Hm Hn.
      specialize (HN m n Hm Hn). rewrite Es in HN. pose proof (sqnorm_nonneg (vsub (t m) (t n))).
      unfold R_dist. rewrite <- (Rabs_right e) by lra. apply Rsqr_lt_abs_0. rewrite !Rsqr_pow2. nra. }
    exists (lh :: lt). split; [simpl; lia|]. intros e He.
    destruct (Ht (e / 2)) as [N1 H1]; [lra|].
    destruct (Hh (Rmin 1 (e / 2))) as [N2 H2]; [apply Rmin_glb_lt; lra|].
    exists (max N1 N2). intros n Hn. specialize (H1 n ltac:(lia)). specialize (H2 n ltac:(lia)).
    rewrite Ex. change (vsub (h n :: t n) (lh :: lt)) with ((h n - lh) :: vsub (t n) lt). rewrite sqnorm_cons.
    unfold R_dist in H2. pose proof (Rmin_l 1 (e / 2)). pose proof (Rmin_r 1 (e / 2)).
    pose proof (Rabs_pos (h n - lh)).
    replace ((h n - lh) * (h n - lh)) with (Rabs (h n - lh) * Rabs (h n - lh)) by (rewrite <- Rabs_mult, Rabs_right; [ring|apply Rle_ge, Rle_0_sqr]).
    nra.
Qed.

Section Contraction.
Variables (p : nat) (T : vec -> vec) (r : R).
Hypothesis Hr : 0 <= r < 1.
Hypothesis HT : forall x, length x = p -> length (T x) = p.
Hypothesis Hc : forall x y, length x = p -> length y = p -> norm (vsub (T x) (T y)) <= r * norm (vsub x y).
Fixpoint iterate (n : nat) : vec := match n with O => zeros p | Datatypes.S k => T (iterate k) end.
Lemma iterate_len n : length (iterate n) = p.
Proof. induction n; [apply zeros_length|apply HT; auto]. Qed.
Lemma iterate_bounded n : norm (vsub (iterate n) (iterate 0)) <= norm (vsub (iterate 1) (iterate 0)) / (1 - r).
Proof.
  set (D := norm (vsub (iterate 1) (iterate 0))). pose proof (norm_nonneg (vsub (iterate 1) (iterate 0))) as HD. fold D in HD.
  assert (HB : 0 <= D / (1 - r)) by (apply Rmult_le_pos; auto; apply Rlt_le, Rinv_0_lt_compat; lra).
  induction n as [|n IH].
  - rewrite vsub_self. unfold norm at 1. rewrite sqnorm_zeros, sqrt_0. auto.
  - eapply Rle_trans; [apply (norm_triangle _ (iterate 1) _); rewrite !iterate_len; auto|]. fold D.
    pose proof (Hc (iterate n) (iterate 0) (iterate_len n) (iterate_len 0)) as H.
    change (T (iterate n)) with (iterate (Datatypes.S n)) in H. change (T (iterate 0)) with (iterate 1) in H.
    assert (r * norm (vsub (iterate n) (iterate 0)) <= r * (D / (1 - r))) by (apply Rmult_le_compat_l; lra).
    replace (D / (1 - r)) with (r * (D / (1 - r)) + D) by (field; lra). lra.
Qed.
Lemma iterate_close k : forall n, norm (vsub (iterate (k + n)) (iterate k)) <= r ^ k * norm (vsub (iterate n) (iterate 0)).
Proof.
  induction k as [|k IH]; intros n; [simpl; lra|].
  change (iterate (Datatypes.S k + n)) with (T (iterate (k + n))). change (iterate (Datatypes.S k)) with (T (iterate k)).
  eapply Rle_trans; [apply Hc; apply iterate_len|]. cbn [pow]. rewrite Rmult_assoc.
  apply Rmult_le_compat_l; [lra|apply IH].
Qed.
Lemma contraction_fixed : exists l, length l = p /\ T l = l.
Proof.
  set (D := norm (vsub (iterate 1) (iterate 0)) / (1 - r)).
  assert (HD : 0 <= D).
  { apply Rmult_le_pos; [apply norm_nonneg|]. apply Rlt_le, Rinv_0_lt_compat. lra. }
  assert (Hk : forall k n, norm (vsub (iterate (k + n)) (iterate k)) <= r ^ k * D).
  { intros k n. eapply Rle_trans; [apply iterate_close|]. apply Rmult_le_compat_l; [apply pow_le; lra|apply iterate_bounded]. }
  destruct (vec_complete p iterate iterate_len) as [l [Ll Hl]].
  { intros e He. destruct (pow_lt_1_zero r ltac:(rewrite Rabs_right; lra) (sqrt e / (2 * (D + 1)))) as [N HN].
    { apply Rdiv_lt_0_compat; [apply sqrt_lt_R0; auto|lra]. }
    assert (Q : 0 < sqrt e) by (apply sqrt_lt_R0; auto).
    assert (B : forall n, (N <= n)%nat -> norm (vsub (iterate n) (iterate N)) < sqrt e / 2).
    { intros n Hn. replace n with (N + (n - N))%nat by lia. eapply Rle_lt_trans; [apply Hk|].
      specialize (HN N (le_n N)). rewrite Rabs_right in HN by (apply Rle_ge, pow_le; lra).
      apply Rmult_lt_compat_r with (r := D + 1) in HN; [|lra].
      replace (sqrt e / (2 * (D + 1)) * (D + 1)) with (sqrt e / 2) in HN by (field; lra).
      assert (0 <= r ^ N) by (apply pow_le; lra). nra. }
    exists N. intros m n Hm Hn. pose proof (B m Hm). pose proof (B n Hn).
    assert (Lt : norm (vsub (iterate m) (iterate n)) < sqrt e).
    { eapply Rle_lt_trans; [apply (norm_triangle _ (iterate N) _); rewrite !iterate_len; auto|].
      assert (En : norm (vsub (iterate N) (iterate n)) = norm (vsub (iterate n) (iterate N)))
        by (unfold norm; rewrite sqnorm_vsub_comm by (rewrite !iterate_len; auto); auto).
      lra. }
    apply sqnorm_small in Lt. replace (sqrt e ^ 2) with e in Lt by (rewrite <- Rsqr_pow2, Rsqr_sqrt; lra). auto. }
  exists l. split; [auto|]. apply vsub_zero_eq; [rewrite HT by auto; auto|].
  apply Rle_antisym; [|apply sqnorm_nonneg]. apply Rnot_lt_le. intros N0.
  set (e := sqrt (sqnorm (vsub (T l) l))). assert (He : 0 < e) by (apply sqrt_lt_R0; auto).
  destruct (Hl ((e / 2) ^ 2)) as [N HN]; [apply pow_lt; lra|].
  pose proof (norm_small _ (e / 2) ltac:(lra) (HN N (le_n N))) as H1.
  pose proof (norm_small _ (e / 2) ltac:(lra) (HN (Datatypes.S N) (le_S _ _ (le_n N)))) as H2.
  pose proof (norm_triangle (T l) (iterate (Datatypes.S N)) l ltac:(rewrite HT, iterate_len; auto) ltac:(rewrite iterate_len; auto)) as H3.
  pose proof (Hc l (iterate N) Ll (iterate_len N)) as H4.
  change (T (iterate N)) with (iterate (Datatypes.S N)) in H4.
  assert (En : norm (vsub l (iterate N)) = norm (vsub (iterate N) l))
    by (unfold norm; rewrite sqnorm_vsub_comm by (rewrite iterate_len; auto); auto).
  rewrite En in H4. pose proof (norm_nonneg (vsub (iterate N) l)).
  change (norm (vsub (T l) l)) with e in H3. nra.
Qed.
End Contraction.

(** ** proximal gradient steps contract *)
Lemma prox_nonexpansive dom h s y1 y2 z1 z2 : 0 < s -> convex_on dom h -> length y1 = length y2 ->
  is_prox dom h s y1 z1 -> is_prox dom h s y2 z2 -> norm (vsub z1 z2) <= norm (vsub y1 y2).
Proof.
  intros Hs Hc Ly P1 P2. assert (L1 : length z1 = length y1) by apply P1. assert (L2 : length z2 = length y2) by apply P2.
  assert (D1 : dom z1) by apply P1. assert (D2 : dom z2) by apply P2.
  pose proof (prox_slope dom h s y1 z1 z2 Hs Hc P1 ltac:(congruence) D2) as A.
  pose proof (prox_slope dom h s y2 z2 z1 Hs Hc P2 ltac:(congruence) D1) as B.
  assert (E : sqnorm (vsub z1 z2) <= vdot (vsub y1 y2) (vsub z1 z2)).
  { rewrite !vdot_vsub_l, !vdot_vsub_r in * by congruence. rewrite sqnorm_vsub by congruence. unfold sqnorm.
    rewrite (vdot_comm z2 z1) in *. lra. }
  pose proof (norm_dot (vsub y1 y2) (vsub z1 z2)) as C. rewrite <- norm_sq in E.
  pose proof (norm_nonneg (vsub z1 z2)). pose proof (norm_nonneg (vsub y1 y2)).
  apply Rnot_lt_le. intros N. nra.
Qed.

Lemma tmv_bound p a L v : wf_mat p a -> (forall d, length d = p -> sqnorm (mv a d) <= L * sqnorm d) -> 0 <= L ->
  length v = length a -> sqnorm (tmv p a v) <= L * sqnorm v.
Proof.
  intros Ha HL HL0 Lv. set (t := tmv p a v). assert (Lt : length t = p) by (apply tmv_len; auto).
  pose proof (cauchy_schwarz v (mv a t)) as C.
  assert (E : vdot v (mv a t) = sqnorm t) by (unfold sqnorm, t at 2; rewrite tmv_adj by auto; reflexivity).
  rewrite E in C. specialize (HL t Lt). pose proof (sqnorm_nonneg t). pose proof (sqnorm_nonneg v).
  assert (B : sqnorm v * sqnorm (mv a t) <= sqnorm v * (L * sqnorm t)) by (apply Rmult_le_compat_l; auto).
  destruct (Rle_lt_or_eq_dec 0 (sqnorm t)) as [Hp|Hz]; auto.
  - apply Rmult_le_reg_r with (sqnorm t); auto. nra.
  - rewrite <- Hz. apply Rmult_le_pos; auto.
Qed.

Section Quadratic.
Variables (p : nat) (a : mat) (b : vec) (L mu s : R).
Hypothesis Ha : wf_mat p a.
Hypothesis Hb : length b = length a.
Hypothesis HL : forall d, length d = p -> sqnorm (mv a d) <= L * sqnorm d.
Hypothesis HL0 : 0 <= L.
Hypothesis Hi : independent p mu a.
Hypothesis Hs : 0 < s.
Hypothesis Hsl : L * s <= 1.
Let g := fun x => tmv p a (vsub (mv a x) b).

Lemma quad_g_len x : length (g x) = p.
Proof. apply tmv_len. auto. Qed.
Lemma gradient_contracts x y : length x = p -> length y = p ->
  norm (vsub (vsub x (vscale s (g x))) (vsub y (vscale s (g y)))) <= sqrt (1 - s * mu) * norm (vsub x y).
Proof.
  intros Lx Ly. set (d := vsub x y). assert (Ld : length d = p) by (apply vsub_len; auto).
  assert (E : vsub (vsub x (vscale s (g x))) (vsub y (vscale s (g y))) = vsub d (vscale s (tmv p a (mv a d)))).
  { assert (Eg : tmv p a (mv a d) = vsub (g x) (g y)).
    { unfold g. rewrite <- tmv_vsub by (auto; rewrite vsub_min, mv_length; lia). f_equal. unfold d.
      rewrite mv_vsub by congruence. apply vdot_ext; [rewrite !vsub_min, !mv_length; lia|]. intros e _.
      rewrite !vdot_vsub_l by (rewrite ?vsub_min, !mv_length; lia). ring. }
    rewrite Eg. unfold d. apply vdot_ext; [rewrite !vsub_min, !vscale_length, vsub_min, !quad_g_len; lia|]. intros e _.
    repeat first [rewrite vdot_vscale_l | rewrite vdot_vsub_l by (rewrite ?vsub_min, ?vscale_length, ?vsub_min, ?quad_g_len; lia)].
    ring. }
  rewrite E. set (v := mv a d). assert (Lv : length v = length a) by (unfold v; apply mv_length).
  assert (Q : sqnorm (vsub d (vscale s (tmv p a v))) <= (1 - s * mu) * sqnorm d).
  { rewrite sqnorm_vsub by (rewrite vscale_length, tmv_len; auto).
    rewrite sqnorm_vscale, vdot_vscale_r, (vdot_comm d), tmv_adj by auto. fold v. change (vdot v v) with (sqnorm v).
    pose proof (tmv_bound p a L v Ha HL HL0 Lv) as B. destruct Hi as [Hmu Hm]. specialize (Hm d Ld). fold v in Hm.
    pose proof (sqnorm_nonneg v) as N.
    assert (s ^ 2 * sqnorm (tmv p a v) <= s ^ 2 * (L * sqnorm v)) by (apply Rmult_le_compat_l; auto; apply pow2_ge_0).
    assert (s ^ 2 * (L * sqnorm v) <= s * sqnorm v).
    { replace (s ^ 2 * (L * sqnorm v)) with (L * s * (s * sqnorm v)) by ring.
      assert (0 <= s * sqnorm v) by (apply Rmult_le_pos; lra). nra. }
    assert (s * (mu * sqnorm d) <= s * sqnorm v) by (apply Rmult_le_compat_l; lra). lra. }
  unfold norm. 
  destruct (Rle_lt_dec 0 (1 - s * mu)) as [H0|H0].
  - rewrite <- sqrt_mult by (auto; apply sqnorm_nonneg). apply sqrt_le_1_alt. auto.
  - pose proof (sqnorm_nonneg d). pose proof (sqnorm_nonneg (vsub d (vscale s (tmv p a v)))).
    rewrite (sqrt_neg_0 (1 - s * mu)) by lra. rewrite Rmult_0_l.
    assert (Z : sqnorm (vsub d (vscale s (tmv p a v))) = 0).
    { apply Rle_antisym; auto. apply Rle_trans with (1 := Q). nra. }
    rewrite Z, sqrt_0. lra.
Qed.

Variables (dom : vec -> Prop) (pen : vec -> R).
Hypothesis Hcv : convex_on dom pen.
Variable prox : vec -> vec.
Hypothesis Hprox : forall y, length y = p -> is_prox dom pen s y (prox y).
Let f := fun x => / 2 * sqnorm (vsub (mv a x) b).

Lemma quad_expand x z : length x = p -> length z = p ->
  f z = f x + vdot (g x) (vsub z x) + / 2 * sqnorm (mv a (vsub z x)).
Proof.
  intros Lx Lz. unfold f, g. rewrite tmv_adj by (auto; rewrite vsub_min, mv_length; lia).
  rewrite mv_vsub by congruence. rewrite !sqnorm_vsub, !vdot_vsub_l, !vdot_vsub_r by (rewrite !mv_length; auto).
  unfold sqnorm. rewrite (vdot_comm (mv a z) (mv a x)), (vdot_comm (mv a z) b), (vdot_comm (mv a x) b). lra.
Qed.
Lemma quad_convex_smooth : convex_smooth p L f g.
Proof.
  intros x Lx. split; [apply quad_g_len|]. intros z Lz. rewrite (quad_expand x z) by auto.
  pose proof (HL (vsub z x) (vsub_len _ _ _ Lz Lx)). pose proof (sqnorm_nonneg (mv a (vsub z x))). lra.
Qed.
Lemma quad_curved_above : curved_above p mu f g.
Proof.
  intros x z Lx Lz. rewrite (quad_expand x z) by auto. destruct Hi as [_ Hm].
  specialize (Hm (vsub z x) (vsub_len _ _ _ Lz Lx)). lra.
Qed.
Lemma quad_best_exists : exists u, best_in p dom (fun z => f z + pen z) u.
Proof.
  set (T := fun x => prox (vsub x (vscale s (g x)))).
  assert (Ly : forall x, length x = p -> length (vsub x (vscale s (g x))) = p).
  { intros x Lx. apply vsub_len; auto. apply vscale_len, quad_g_len. }
  destruct (contraction_fixed p T (sqrt (1 - s * mu))) as [l [Ll El]].
  - split; [apply sqrt_pos|]. destruct Hi as [Hmu _].
    assert (0 < s * mu) by (apply Rmult_lt_0_compat; auto).
    destruct (Rle_lt_dec 0 (1 - s * mu)).
    + apply Rlt_le_trans with (sqrt 1); [apply sqrt_lt_1; lra|rewrite sqrt_1; lra].
    + rewrite (sqrt_neg_0 (1 - s * mu)) by lra. lra.
  - intros x Lx. unfold T. destruct (Hprox _ (Ly x Lx)) as [E _]. rewrite E. auto.
  - intros x y Lx Lz. eapply Rle_trans; [|apply gradient_contracts; auto].
    apply (prox_nonexpansive dom pen s); auto; [rewrite !Ly; auto| |]; apply Hprox, Ly; auto.
  - exists l. pose proof (Hprox _ (Ly l Ll)) as P. change (prox (vsub l (vscale s (g l)))) with (T l) in P. rewrite El in P.
    split; [auto|]. split; [apply P|]. intros z Lz Dz.
    assert (Su : sufficient f g l s l).
    { unfold sufficient. rewrite vsub_self, sqnorm_zeros, vdot_comm, vdot_zeros_l. lra. }
    pose proof (step_three_point dom pen f g p L l s l z Hcv quad_convex_smooth Ll Lz Dz Hs P Su) as H.
    apply Rnot_lt_le. intros N.
    assert (0 < 2 * s * (f l + pen l - (f z + pen z))) by (apply Rmult_lt_0_compat; lra). lra.
Qed.
End Quadratic.

Lemma le_of_sq a b : 0 <= b -> a ^ 2 <= b ^ 2 -> a <= b.
Proof. intros Hb H. apply Rnot_lt_le. intros N. nra. Qed.
Lemma lt_of_sq a b : 0 <= b -> a ^ 2 < b ^ 2 -> a < b.
Proof. intros Hb H. apply Rnot_le_lt. intros N. nra. Qed.

Lemma quad_lipschitz p a b L x y : wf_mat p a -> length b = length a ->
  (forall d, length d = p -> sqnorm (mv a d) <= L * sqnorm d) -> 0 <= L -> length x = p -> length y = p ->
  norm (vsub (tmv p a (vsub (mv a x) b)) (tmv p a (vsub (mv a y) b))) <= L * norm (vsub x y).
Proof.
  intros Ha Hb HL HL0 Lx Ly.
  assert (Eg : vsub (tmv p a (vsub (mv a x) b)) (tmv p a (vsub (mv a y) b)) = tmv p a (mv a (vsub x y))).
  { rewrite <- tmv_vsub by (auto; rewrite vsub_min, mv_length; lia). f_equal.
    rewrite mv_vsub by congruence. apply vdot_ext; [rewrite !vsub_min, !mv_length; lia|]. intros e _.
    rewrite !vdot_vsub_l by (rewrite ?vsub_min, !mv_length; lia). ring. }
  rewrite Eg. apply le_of_sq; [apply Rmult_le_pos; auto; apply norm_nonneg|].
  rewrite Rpow_mult_distr, !norm_sq.
  pose proof (tmv_bound p a L (mv a (vsub x y)) Ha HL HL0 (mv_length _ _)) as B.
  specialize (HL (vsub x y) (vsub_len _ _ _ Lx Ly)). nra.
Qed.
