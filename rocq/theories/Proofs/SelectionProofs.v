(** The last step of an L1 run sets the right coefficients to zero. *)
From Coq Require Import Lra Psatz.
From Verif.Base Require Import Py Vec Mat.
From Verif.Model Require Import Regularizers Linear.
From Verif.Spec Require Import ProxSpec RegSpec SolverSpec LinearSpec RateSpec DistanceSpec SelectionSpec.
From Verif.Proofs Require Import VecFacts L0Proofs RegularizerProofs RegularizersMain MatFacts ScalarProx SolverProofs SolversMain LinearProofs LinearMain RateProofs LinearRateMain DistanceProofs LinearDistanceMain.
Open Scope string_scope.
Open Scope list_scope.
Open Scope R_scope.

Lemma nth_le_norm x : forall i, (i < length x)%nat -> Rabs (nth i x 0) <= norm x.
Proof.
  assert (H : forall i, (i < length x)%nat -> nth i x 0 * nth i x 0 <= sqnorm x).
  { induction x as [|a x IH]; intros i Hi; [simpl in Hi; lia|]. rewrite sqnorm_cons.
    pose proof (sqnorm_nonneg x). destruct i as [|i]; simpl; [nra|].
    specialize (IH i ltac:(simpl in Hi; lia)). pose proof (Rle_0_sqr a). unfold Rsqr in *. lra. }
  intros i Hi. specialize (H i Hi). unfold norm.
  rewrite <- (sqrt_Rsqr_abs (nth i x 0)). apply sqrt_le_1_alt. exact H.
Qed.
Lemma nth_vsub n x y i : length x = n -> length y = n -> (i < n)%nat -> nth i (vsub x y) 0 = nth i x 0 - nth i y 0.
Proof. intros Lx Ly Hi. unfold vsub. rewrite (map2_nth _ _ _ _ 0 0); auto; congruence. Qed.
Lemma nth_vscale c x i : (i < length x)%nat -> nth i (vscale c x) 0 = c * nth i x 0.
Proof. intros Hi. unfold vscale. rewrite (nth_indep _ 0 (c * 0)) by (rewrite map_length; auto). apply (map_nth (fun a => c * a)). Qed.

Section Run.
Context {S : Type} (orc : oracle S) (rg : regularizer) (slv : pgd_solver).
Variables (f : vec -> R) (g : vec -> vec) (p : nat) (L sm mu lam : R) (w : vec).
Hypothesis Hv : value_is orc f.
Hypothesis Hg : grad_is orc g.
Hypothesis Hf : convex_smooth p L f g.
Hypothesis Hlip : forall x y, length x = p -> length y = p -> norm (vsub (g x) (g y)) <= L * norm (vsub x y).
Hypothesis Hmu : 0 < mu.
Hypothesis Hs : curved_above p mu f g.
Hypothesis HL : 0 <= L.
Hypothesis Hlam : 0 <= lam.
Hypothesis Hw : Forall (fun wi => 0 <= wi) w.
Hypothesis Lw : length w = p.
Let pen := fun z => lam * weighted_l1 w z.
Hypothesis Hex : exact_for rg all_vecs pen.
Hypothesis Hst : safe_steps slv L sm.
Variable u : vec.
Hypothesis Hu : best_in p all_vecs (fun z => f z + pen z) u.

Let Hcv : convex_on all_vecs pen := weighted_l1_convex lam w Hlam Hw.
Let Rs := rule_step orc rg slv f g all_vecs pen p L sm Hv Hg Hf HL Hex Hst.

Lemma path_last path : forall x q0, length x = p -> is_path (pgd_rule orc rg slv) x path -> path <> [] ->
  exists q s, last_prev q0 x path = Some q /\ length q = p /\ pgd_rule orc rg slv q s (endpoint x path) /\
    (1 + sm * mu) ^ (length path - 1) * sqnorm (vsub q u) <= sqnorm (vsub x u).
Proof.
  induction path as [|[s x'] path IH]; intros x q0 Lx P N; [congruence|].
  destruct P as [P1 P]. rewrite endpoint_cons. destruct (Rs _ _ _ Lx P1) as [_ [Lx' _]].
  destruct path as [|[s2 x2] path].
  - exists x, s. simpl. split; [auto|]. split; [auto|]. split; [exact P1|]. lra.
  - destruct (IH x' (Some x) Lx' P ltac:(discriminate)) as [q [sq [E [Lq [Rq B]]]]].
    exists q, sq. split; [exact E|]. split; [auto|]. split; [auto|].
    pose proof (step_contracts orc rg slv f g all_vecs pen p L sm mu Hv Hg Hf Hmu Hs HL Hex Hcv Hst u Hu x s x' Lx P1) as C.
    change (length ((s, x') :: (s2, x2) :: path) - 1)%nat with (Datatypes.S (length path)).
    change (length ((s2, x2) :: path) - 1)%nat with (length path - 0)%nat in B. rewrite Nat.sub_0_r in B.
    cbn [pow]. pose proof Hst as [[Hsm _] _]. assert (0 < sm * mu) by (apply Rmult_lt_0_compat; lra).
    apply Rle_trans with (2 := C). rewrite Rmult_assoc. apply Rmult_le_compat_l; lra.
Qed.

(** one step from a point close to u *)
Lemma step_selects q s x dz dn : length q = p -> pgd_rule orc rg slv q s x ->
  clear_cut lam w (g u) u dz dn ->
  norm (vsub q u) * (1 / sm + L) <= dz -> norm (vsub x u) < dn -> same_selection u x.
Proof.
  intros Lq P Hcc Hq Hx. destruct (Rs _ _ _ Lq P) as [Hs1 [Lx [_ Hp]]].
  pose proof Hst as [[Hsm _] _]. assert (Hs0 : 0 < s) by lra.
  assert (Lu : length u = p) by apply Hu.
  destruct (Hf q Lq) as [Lgq _]. destruct (Hf u Lu) as [Lgu _].
  set (y := vsub q (vscale s (g q))) in *.
  assert (Ly : length y = p) by (apply vsub_len; auto; apply vscale_len; auto).
  set (z := map2 (fun wi xi => soft (s * wi * lam) xi) w y).
  assert (Lz : length z = p) by (unfold z; rewrite map2_length; lia).
  assert (Ez : x = z).
  { pose proof (l1_is_prox lam w s y Hlam Hw Hs0 ltac:(congruence)) as Hp'.
    pose proof (prox_nonexpansive all_vecs pen s y y x z Hs0 Hcv eq_refl Hp Hp') as N.
    rewrite (vsub_self y) in N. unfold norm at 2 in N. rewrite sqnorm_zeros, sqrt_0 in N.
    apply vsub_zero_eq; [congruence|]. rewrite <- norm_sq. pose proof (norm_nonneg (vsub x z)). nra. }
  split; [congruence|]. intros i Hi. rewrite Lu in Hi.
  destruct (Hcc i ltac:(congruence)) as [Cz Cn].
  assert (Wi : 0 <= nth i w 0).
  { apply (proj1 (Forall_forall _ _) Hw). apply nth_In. congruence. }
  pose proof (nth_le_norm (vsub x u) i ltac:(rewrite vsub_min; lia)) as Nx. rewrite (nth_vsub p) in Nx by auto.
  destruct (Req_EM_T (nth i u 0) 0) as [E0|E0].
  - specialize (Cz E0). assert (Xi : nth i x 0 = 0).
    { rewrite Ez. unfold z. rewrite (map2_nth _ _ _ _ 0 0) by lia.
      unfold y. rewrite (nth_vsub p), nth_vscale by (auto; try apply vscale_len; auto; lia).
      pose proof (nth_le_norm (vsub q u) i ltac:(rewrite vsub_min; lia)) as Nq. rewrite (nth_vsub p), E0 in Nq by auto.
      pose proof (nth_le_norm (vsub (g q) (g u)) i ltac:(rewrite vsub_min; lia)) as Ng. rewrite (nth_vsub p) in Ng by auto.
      pose proof (Hlip q u Lq Lu) as Hl.
      set (qi := nth i q 0) in *. set (gq := nth i (g q) 0) in *. set (gu := nth i (g u) 0) in *.
      set (d := norm (vsub q u)) in *. set (wi := nth i w 0) in *.
      assert (Hd : 0 <= d) by apply norm_nonneg.
      assert (Hd1 : d / s <= d / sm).
      { apply Rmult_le_compat_l; auto. apply Rinv_le_contravar; lra. }
      assert (K : Rabs (qi - s * gq) <= s * wi * lam).
      { replace (qi - s * gq) with ((qi - 0) + (- s * (gq - gu) + - s * gu)) by ring.
        apply Rle_trans with (1 := Rabs_triang _ _).
        apply Rle_trans with (d + (s * (L * d) + s * Rabs gu)).
        - apply Rplus_le_compat; auto. apply Rle_trans with (1 := Rabs_triang _ _).
          rewrite !Rabs_mult, Rabs_Ropp, (Rabs_right s) by lra.
          apply Rplus_le_compat; [|lra]. apply Rmult_le_compat_l; lra.
        - replace (d + (s * (L * d) + s * Rabs gu)) with (s * (d / s + L * d + Rabs gu)) by (field; lra).
          replace (s * wi * lam) with (s * (lam * wi)) by ring. apply Rmult_le_compat_l; [lra|].
          replace (d * (1 / sm + L)) with (d / sm + L * d) in Hq by (field; lra). lra. }
      assert (T : 0 <= s * wi * lam) by (eapply Rle_trans; [apply Rabs_pos|exact K]).
      assert (K2 : - (s * wi * lam) <= qi - s * gq <= s * wi * lam).
      { revert K. unfold Rabs. destruct (Rcase_abs (qi - s * gq)); lra. }
      destruct (soft_cases (s * wi * lam) (qi - s * gq) T) as [[A _]|[[_ A]|[A _]]]; lra. }
    rewrite Xi, E0. split; [tauto|lra].
  - specialize (Cn E0). assert (Dx : Rabs (nth i x 0 - nth i u 0) < Rabs (nth i u 0)) by lra.
    set (xi := nth i x 0) in *. set (ui := nth i u 0) in *.
    assert (Q : 0 < xi * ui).
    { revert Dx. unfold Rabs. destruct (Rcase_abs (xi - ui)), (Rcase_abs ui); intros; nra. }
    split; [|lra]. split; intros Z; [exfalso; rewrite Z in Q; lra|contradiction].
Qed.

Lemma optimize_selects x0 s lg x lg' s' dz dn : length x0 = p -> (0 < p)%nat -> 0 < dz -> 0 < dn ->
  clear_cut lam w (g u) u dz dn ->
  pgd_optimize orc rg slv x0 s lg = Ok (x, lg', s') ->
  exists n b, get lg' "iteration" = Ok (LAtom (LNum (INR n))) /\ get lg' "converged" = Ok (LAtom (LBool b)) /\
    (b = false -> (0 < s_max_iter slv)%Z -> Z.of_nat n = s_max_iter slv) /\
    (enough_steps sm mu L dz dn n (sqnorm (vsub x0 u)) -> same_selection u x) /\
    (b = true -> fine_enough sm mu L dz dn (s_tol slv) -> same_selection u x).
Proof.
  intros Lx0 Hp0 Hdz Hdn Hcc H.
  destruct (optimize_distance orc rg slv f g all_vecs pen p L sm mu Hv Hg Hf Hmu Hs HL Hex Hcv Hst u Hu _ _ _ _ _ _ Lx0 H)
    as [n0 [b0 [In [Cn [_ [_ [_ Hset]]]]]]].
  destruct (pgd_optimize_inv _ _ _ _ _ _ _ _ _ H) as [path [P [E [_ [T [M [C I]]]]]]].
  exists (length path), (Z.of_nat (length path) <? s_max_iter slv)%Z. split; [auto|]. split; [auto|]. split.
  { intros Hb Hm. apply Z.ltb_ge in Hb. destruct M as [->|M]; [simpl in Hb; lia|lia]. }
  pose proof Hst as [[Hsm Hsl] Hk]. assert (Hsmu : 0 < sm * mu) by (apply Rmult_lt_0_compat; lra).
  assert (Lu : length u = p) by apply Hu.
  assert (Hinv : 0 < 1 / sm + L).
  { assert (0 < 1 / sm) by (apply Rdiv_lt_0_compat; lra). lra. }
  split.
  - intros [Hn [H1 H2]].
    assert (N : path <> []) by (intros ->; simpl in Hn; lia).
    destruct (path_last path x0 None Lx0 P N) as [q [s1 [_ [Lq [R1 B]]]]]. rewrite <- E in R1.
    apply (step_selects q s1 x dz dn Lq R1 Hcc).
    + apply le_of_sq; [lra|]. rewrite Rpow_mult_distr, norm_sq.
      assert (Hp1 : 0 < (1 + sm * mu) ^ (length path - 1)) by (apply pow_lt; lra).
      apply Rmult_le_reg_l with ((1 + sm * mu) ^ (length path - 1)); auto.
      assert (0 <= (1 / sm + L) ^ 2) by apply pow2_ge_0.
      assert ((1 + sm * mu) ^ (length path - 1) * sqnorm (vsub q u) * (1 / sm + L) ^ 2 <= sqnorm (vsub x0 u) * (1 / sm + L) ^ 2)
        by (apply Rmult_le_compat_r; auto).
      lra.
    + apply lt_of_sq; [lra|]. rewrite norm_sq.
      pose proof (path_contracts orc rg slv f g all_vecs pen p L sm mu Hv Hg Hf Hmu Hs HL Hex Hcv
        (conj (conj Hsm Hsl) Hk) u Hu path x0 Lx0 P) as B2. rewrite <- E in B2.
      assert (Hp1 : 0 < (1 + sm * mu) ^ length path) by (apply pow_lt; lra).
      apply Rmult_lt_reg_l with ((1 + sm * mu) ^ length path); auto. lra.
  - intros Hb [H1 H2]. pose proof Hb as Hb'. apply Z.ltb_lt in Hb'. destruct T as [T|T]; [|lia].
    assert (Eb : b0 = true) by congruence. specialize (Hset Eb Hp0). unfold settled in Hset.
    destruct path as [|st path].
    { simpl in T. unfold still in T. exfalso. apply T. left. subst x. unfold endpoint. simpl.
      destruct x0; [simpl in Lx0; lia|discriminate]. }
    destruct (path_last (st :: path) x0 None Lx0 P ltac:(discriminate)) as [q [s1 [El [Lq [R1 _]]]]].
    rewrite <- E in R1. rewrite El in T. unfold still in T. apply Rnot_lt_le in T.
    destruct (Rs _ _ _ Lq R1) as [_ [Lx _]].
    apply (step_selects q s1 x dz dn Lq R1 Hcc); [|lra].
    apply Rle_trans with (2 := H1). apply Rmult_le_compat_r; [lra|].
    pose proof (norm_triangle q x u ltac:(congruence) ltac:(congruence)) as Tr.
    assert (En : norm (vsub q x) = norm (vsub x q)) by (unfold norm; rewrite sqnorm_vsub_comm by congruence; auto).
    replace (s_tol slv * (2 / (sm * mu) + 3 / 2)) with (s_tol slv + s_tol slv * (2 / (sm * mu) + 1 / 2)) by lra. lra.
Qed.
End Run.
