(** One-dimensional proximal operators: soft threshold, CAD, SCAD. *)
From Coq Require Import Lra Psatz.
From Verif.Base Require Import Py Vec.
From Verif.Model Require Import Regularizers.
From Verif.Spec Require Import ProxSpec.
From Verif.Proofs Require Import VecFacts.
Open Scope R_scope.

Lemma soft_cases t x : 0 <= t ->
  (x < - t /\ soft t x = x + t) \/ (- t <= x <= t /\ soft t x = 0) \/ (t < x /\ soft t x = x - t).
Proof.
  intros Ht. unfold soft, clip0, Rmax.
  destruct (Rle_dec (x - t) 0); destruct (Rle_dec (- x - t) 0); lra.
Qed.

(** strong optimality of soft-thresholding *)
Lemma soft_strong t x z : 0 <= t ->
  / 2 * (soft t x - x) ^ 2 + t * Rabs (soft t x) + / 2 * (z - soft t x) ^ 2
  <= / 2 * (z - x) ^ 2 + t * Rabs z.
Proof.
  intros Ht. destruct (soft_cases t x Ht) as [[H E]|[[H E]|[H E]]]; rewrite E; clear E.
  - rewrite (Rabs_left (x + t)) by lra. unfold Rabs; destruct (Rcase_abs z); nra.
  - rewrite Rabs_R0. unfold Rabs; destruct (Rcase_abs z); nra.
  - rewrite (Rabs_right (x - t)) by lra. unfold Rabs; destruct (Rcase_abs z); nra.
Qed.

Lemma soft_zero x : soft 0 x = x.
Proof. destruct (soft_cases 0 x); lra. Qed.

Lemma soft_shrunk t x : 0 <= t -> shrunk x (soft t x).
Proof. intros Ht. unfold shrunk. destruct (soft_cases t x Ht); lra. Qed.

(** ** CAD *)
(** scalar step of the model, weight 1 *)
Definition cad1 (rho c x : R) : R := if rleb (Rabs x) rho then soft c x else x.

Lemma cad1_optimal rho c x z : 0 <= c -> 0 <= rho -> cad_exact_region rho c x ->
  / 2 * (cad1 rho c x - x) ^ 2 + c * Rmin (Rabs (cad1 rho c x)) rho
  <= / 2 * (z - x) ^ 2 + c * Rmin (Rabs z) rho.
Proof.
  intros Hc Hr Hreg. unfold cad1, rleb. destruct (Rle_dec (Rabs x) rho) as [Hx|Hx].
  - pose proof (soft_strong c x z Hc) as S1.
    assert (Hs : Rabs (soft c x) <= rho).
    { destruct (soft_cases c x Hc) as [[H E]|[[H E]|[H E]]]; rewrite E;
        revert Hx; unfold Rabs; repeat destruct Rcase_abs; lra. }
    rewrite (Rmin_left (Rabs (soft c x)) rho) by lra.
    unfold Rmin at 1. destruct (Rle_dec (Rabs z) rho) as [Hz|Hz].
    + pose proof (pow2_ge_0 (z - soft c x)). lra.
    + (* z beyond rho: compare with the boundary point on the same side as x *)
      assert (exists b, Rabs b = rho /\ (b - x) ^ 2 <= (z - x) ^ 2) as [b [Hb1 Hb2]].
      { destruct (Rle_dec 0 z) as [Hz0|Hz0].
        - exists rho. split; [apply Rabs_right; lra|].
          rewrite Rabs_right in Hz by lra.
          assert (x <= rho) by (revert Hx; unfold Rabs; destruct Rcase_abs; lra). nra.
        - exists (- rho). split; [rewrite Rabs_Ropp; apply Rabs_right; lra|].
          rewrite Rabs_left in Hz by lra.
          assert (- rho <= x) by (revert Hx; unfold Rabs; destruct Rcase_abs; lra). nra. }
      pose proof (soft_strong c x b Hc) as S2. rewrite Hb1 in S2.
      pose proof (pow2_ge_0 (b - soft c x)). lra.
  - assert (Hx' : rho < Rabs x) by lra. clear Hx.
    rewrite (Rmin_right (Rabs x) rho) by lra.
    replace (/ 2 * (x - x) ^ 2) with 0 by (field).
    unfold Rmin. destruct (Rle_dec (Rabs z) rho) as [Hz|Hz].
    2: { pose proof (pow2_ge_0 (z - x)). lra. }
    assert (Hzx : (Rabs x - Rabs z) ^ 2 <= (z - x) ^ 2).
    { clear. unfold Rabs. destruct (Rcase_abs x), (Rcase_abs z); nra. }
    assert (Hx2 : x ^ 2 = Rabs x ^ 2).
    { rewrite <- !Rsqr_pow2. apply Rsqr_abs. }
    pose proof (Rabs_pos z) as Hz0.
    destruct Hreg as [H|[[H1 H2]|[H1 H2]]]; [lra| |].
    + (* minimiser over the inner part would be |x| - c *)
      pose proof (pow2_ge_0 (Rabs z - (Rabs x - c))). nra.
    + rewrite Hx2 in H2. set (ax := Rabs x) in *. set (az := Rabs z) in *. nra.
  Unshelve. all: exact 0.
Qed.

(** outside the region the rule is strictly suboptimal *)
Lemma cad1_suboptimal rho c x : 0 <= c -> 0 <= rho -> ~ cad_exact_region rho c x ->
  exists z, / 2 * (z - x) ^ 2 + c * Rmin (Rabs z) rho
            < / 2 * (cad1 rho c x - x) ^ 2 + c * Rmin (Rabs (cad1 rho c x)) rho.
Proof.
  intros Hc Hr Hreg. unfold cad_exact_region in Hreg.
  assert (Hx : rho < Rabs x) by (apply Rnot_le_lt; intro; apply Hreg; left; assumption).
  assert (H1 : ~ (c <= Rabs x /\ rho + c / 2 <= Rabs x)) by tauto.
  assert (H2 : ~ (Rabs x <= c /\ 2 * c * rho <= x ^ 2)) by tauto.
  unfold cad1, rleb. destruct (Rle_dec (Rabs x) rho) as [K|_]; [lra|].
  rewrite (Rmin_right (Rabs x) rho) by lra.
  replace (/ 2 * (x - x) ^ 2) with 0 by field.
  exists (soft c x).
  pose proof (Rmin_l (Rabs (soft c x)) rho) as M1.
  assert (c * Rmin (Rabs (soft c x)) rho <= c * Rabs (soft c x)) by (apply Rmult_le_compat_l; auto).
  assert (Hx2 : x ^ 2 = Rabs x ^ 2) by (rewrite <- !Rsqr_pow2; apply Rsqr_abs).
  destruct (Rle_dec c (Rabs x)) as [Hcx|Hcx].
  - assert (K : Rabs x < rho + c / 2) by (apply Rnot_le_lt; intro; apply H1; split; auto).
    assert (0 < c) by lra.
    destruct (soft_cases c x Hc) as [[Hq E]|[[Hq E]|[Hq E]]]; rewrite E in *.
    + rewrite (Rabs_left x) in * by lra. rewrite (Rabs_left (x + c)) in * by lra. nra.
    + rewrite Rabs_R0 in *.
      assert (Rabs x = c) by (revert Hcx; unfold Rabs; destruct Rcase_abs; lra). nra.
    + rewrite (Rabs_right x) in * by lra. rewrite (Rabs_right (x - c)) in * by lra. nra.
  - assert (K : x ^ 2 < 2 * c * rho)
      by (apply Rnot_le_lt; intro; apply H2; split; lra).
    destruct (soft_cases c x Hc) as [[Hq E]|[[Hq E]|[Hq E]]]; rewrite E in *.
    + exfalso; apply Hcx; rewrite Rabs_left; lra.
    + rewrite Rabs_R0 in *. nra.
    + exfalso; apply Hcx; rewrite Rabs_right; lra.
Qed.

(** each of the two branches on its own *)
Definition ccost (r c x z : R) : R := / 2 * (z - x) ^ 2 + c * Rmin (Rabs z) r.
Lemma soft_cost c x : 0 <= c ->
  (c <= Rabs x /\ Rabs (soft c x) = Rabs x - c /\ (soft c x - x) ^ 2 = c ^ 2) \/
  (Rabs x <= c /\ soft c x = 0).
Proof.
  intros Hc. destruct (soft_cases c x Hc) as [[H E]|[[H E]|[H E]]]; rewrite E.
  - left. rewrite (Rabs_left x), (Rabs_left (x + c)) by lra. split; [lra|]. split; [lra|ring].
  - right. split; [apply Rabs_le; lra|reflexivity].
  - left. rewrite (Rabs_right x), (Rabs_right (x - c)) by lra. split; [lra|]. split; [lra|ring].
Qed.
Lemma soft_best_iff r c x : 0 <= c -> 0 <= r ->
  (forall z, ccost r c x (soft c x) <= ccost r c x z) <-> soft_best r c x.
Proof.
  intros Hc Hr. unfold ccost, soft_best.
  assert (Hx2 : x ^ 2 = Rabs x ^ 2) by (rewrite <- !Rsqr_pow2; apply Rsqr_abs).
  pose proof (Rabs_pos x) as Hx0. split.
  - intros H. specialize (H x). destruct (Req_dec c 0) as [|Hc0]; [left; auto|right].
    replace (/ 2 * (x - x) ^ 2) with 0 in H by field.
    assert (M : c * Rmin (Rabs x) r <= c * r) by (apply Rmult_le_compat_l; [lra|apply Rmin_r]).
    destruct (soft_cost c x Hc) as [[H1 [H2 H3]]|[H1 H2]].
    + left. split; [auto|]. rewrite H2, H3 in H. unfold Rmin at 1 in H.
      destruct (Rle_dec (Rabs x - c) r) as [K|K].
      * apply Rmult_le_reg_l with c; [lra|]. nra.
      * exfalso. assert (0 < c ^ 2) by (apply pow2_gt_0; auto). lra.
    + right. split; [auto|]. rewrite H2, Rabs_R0 in H. rewrite (Rmin_left 0 r) in H by lra. nra.
  - intros H z. assert (Hz : 0 <= / 2 * (z - x) ^ 2) by (pose proof (pow2_ge_0 (z - x)); lra).
    destruct (Req_dec c 0) as [->|Hc0]; [rewrite soft_zero; replace (/ 2 * (x - x) ^ 2) with 0 by field; lra|].
    pose proof (soft_strong c x z Hc) as S1. pose proof (pow2_ge_0 (z - soft c x)).
    assert (M : c * Rmin (Rabs (soft c x)) r <= c * Rabs (soft c x)) by (apply Rmult_le_compat_l; [lra|apply Rmin_l]).
    unfold Rmin at 2. destruct (Rle_dec (Rabs z) r) as [K|K]; [lra|].
    assert (C : / 2 * (soft c x - x) ^ 2 + c * Rabs (soft c x) <= c * r).
    { destruct (soft_cost c x Hc) as [[H1 [H2 H3]]|[H1 H2]].
      - rewrite H2, H3. destruct H as [H|[[_ H]|[H4 H]]]; [lra| |].
        + apply Rmult_le_compat_l with (r := c) in H; [|lra]. nra.
        + assert (Rabs x = c) by lra. rewrite Hx2 in H. nra.
      - rewrite H2, Rabs_R0. destruct H as [H|[[H4 H]|[_ H]]]; [lra| |].
        + assert (Ex : Rabs x = c) by lra. apply Rmult_le_compat_l with (r := c) in H; [|lra].
          replace ((0 - x) ^ 2) with (x ^ 2) by ring. rewrite Hx2. nra.
        + nra. }
    lra.
Qed.
Lemma identity_best_iff r c x : 0 <= c -> 0 <= r -> x <> 0 ->
  (forall z, ccost r c x x <= ccost r c x z) <-> identity_best r c x.
Proof.
  intros Hc Hr Hx. unfold ccost, identity_best.
  assert (Hx2 : x ^ 2 = Rabs x ^ 2) by (rewrite <- !Rsqr_pow2; apply Rsqr_abs).
  pose proof (Rabs_pos_lt x Hx) as Hx0.
  destruct (Rle_lt_dec (Rabs x) r) as [K|K].
  - split.
    + intros H. left. destruct (Req_dec c 0) as [|Hc0]; auto. exfalso.
      specialize (H (soft c x)). replace (/ 2 * (x - x) ^ 2) with 0 in H by field.
      rewrite (Rmin_left (Rabs x) r) in H by auto.
      pose proof (soft_strong c x x Hc) as S1. replace (/ 2 * (x - x) ^ 2) with 0 in S1 by field.
      assert (M : c * Rmin (Rabs (soft c x)) r <= c * Rabs (soft c x)) by (apply Rmult_le_compat_l; [lra|apply Rmin_l]).
      assert (N : soft c x <> x).
      { destruct (soft_cases c x Hc) as [[? E]|[[? E]|[? E]]]; rewrite E; lra. }
      assert (0 < (x - soft c x) ^ 2) by (apply pow2_gt_0; lra). lra.
    + intros H z. assert (Hz : 0 <= / 2 * (z - x) ^ 2) by (pose proof (pow2_ge_0 (z - x)); lra).
      assert (c = 0).
      { destruct H as [H|[[_ H]|[H1 H]]]; auto; [lra|].
        rewrite Hx2 in H. destruct (Req_dec c 0); auto. exfalso. nra. }
      subst c. replace (/ 2 * (x - x) ^ 2) with 0 by field. lra.
  - assert (E : cad1 r c x = x) by (unfold cad1; apply Rlt_not_le in K; unfold rleb; destruct (Rle_dec (Rabs x) r); [contradiction|reflexivity]).
    split.
    + intros H. destruct (Rle_dec (Rabs x) r) as [|_]; [lra|].
      destruct (Rle_dec c (Rabs x)) as [H1|H1].
      * destruct (Rle_dec (r + c / 2) (Rabs x)) as [H2|H2]; [right; left; auto|]. 
        destruct (Req_dec (Rabs x) c) as [H3|H3].
        -- destruct (Rle_dec (2 * c * r) (x ^ 2)) as [H4|H4]; [right; right; lra|]. exfalso.
           destruct (cad1_suboptimal r c x) as [z Hz]; auto; [unfold cad_exact_region; lra|].
           rewrite E in Hz. specialize (H z). lra.
        -- exfalso. destruct (cad1_suboptimal r c x) as [z Hz]; auto; [unfold cad_exact_region; lra|].
           rewrite E in Hz. specialize (H z). lra.
      * destruct (Rle_dec (2 * c * r) (x ^ 2)) as [H4|H4]; [right; right; lra|]. exfalso.
        destruct (cad1_suboptimal r c x) as [z Hz]; auto; [unfold cad_exact_region; lra|].
        rewrite E in Hz. specialize (H z). lra.
    + intros H z. destruct H as [->|H].
      * replace (/ 2 * (x - x) ^ 2) with 0 by field. pose proof (pow2_ge_0 (z - x)). lra.
      * pose proof (cad1_optimal r c x z Hc Hr) as O. rewrite E in O. apply O. right. exact H.
Qed.

Lemma cad1_shrunk rho c x : 0 <= c -> shrunk x (cad1 rho c x).
Proof.
  intros Hc. unfold cad1. destruct (rleb (Rabs x) rho); [apply soft_shrunk; auto|].
  unfold shrunk; lra.
Qed.

(** ** SCAD *)

Lemma scad_value1_spec rho sigma w x : scad_value1 rho sigma w x = w * scad_penalty rho sigma x.
Proof.
  unfold scad_value1, scad_penalty, rltb, rleb.
  destruct (Rlt_dec (Rabs x) sigma) as [H|H]; [ring|].
  destruct (Rle_dec sigma (Rabs x)) as [H1|H1]; [|lra]. simpl.
  destruct (Rle_dec (Rabs x) (rho * sigma)); unfold Rdiv; ring.
Qed.

Lemma scad_penalty_even rho sigma x : scad_penalty rho sigma (- x) = scad_penalty rho sigma x.
Proof.
  unfold scad_penalty. rewrite Rabs_Ropp. replace ((- x) ^ 2) with (x ^ 2) by ring. reflexivity.
Qed.
Lemma scad_penalty_abs rho sigma x : scad_penalty rho sigma (Rabs x) = scad_penalty rho sigma x.
Proof. unfold Rabs; destruct Rcase_abs; auto. apply scad_penalty_even. Qed.

Section ScadScalar.
Variables rho sigma a : R.
Hypothesis Hrho : 1 < rho.
Hypothesis Hsig : 0 < sigma.
Hypothesis Ha : 0 <= a.

Let h (x z : R) : R := / 2 * (z - x) ^ 2 + a * scad_penalty rho sigma z.

Lemma scad_h_low x z : 0 <= z <= sigma -> h x z = / 2 * (z - x) ^ 2 + a * (sigma * z).
Proof.
  intros Hz. unfold h, scad_penalty. rewrite (Rabs_right z) by lra.
  destruct (Rlt_dec z sigma); [ring|].
  assert (z = sigma) by lra. subst z.
  destruct (Rle_dec sigma (rho * sigma)) as [K|K]; [|exfalso; apply K; nra].
  field. lra.
Qed.
Lemma scad_h_mid x z : sigma <= z <= rho * sigma ->
  h x z = / 2 * (z - x) ^ 2 + a * ((2 * rho * sigma * z - z ^ 2 - sigma ^ 2) / (2 * (rho - 1))).
Proof.
  intros Hz. unfold h, scad_penalty. rewrite (Rabs_right z) by lra.
  destruct (Rlt_dec z sigma); [lra|].
  destruct (Rle_dec z (rho * sigma)); [ring|lra].
Qed.
Lemma scad_h_high x z : rho * sigma <= z ->
  h x z = / 2 * (z - x) ^ 2 + a * (sigma ^ 2 * (rho + 1) / 2).
Proof.
  intros Hz. assert (sigma < rho * sigma) by nra.
  unfold h, scad_penalty. rewrite (Rabs_right z) by lra.
  destruct (Rlt_dec z sigma); [lra|].
  destruct (Rle_dec z (rho * sigma)); [|ring].
  assert (z = rho * sigma) by lra. subst z. field. lra.
Qed.

Lemma scad_h_abs x z : 0 <= x -> h x (Rabs z) <= h x z.
Proof.
  intros Hx. unfold h. rewrite scad_penalty_abs.
  unfold Rabs; destruct (Rcase_abs z); nra.
Qed.

(** candidate minimiser for x >= 0 in the convex regime *)
Lemma scad_opt_low x : a < rho - 1 -> 0 <= x <= sigma * (1 + a) -> forall z,
  h x (soft (sigma * a) x) + / 2 * (1 - a / (rho - 1)) * (Rabs z - soft (sigma * a) x) ^ 2 <= h x (Rabs z).
Proof.
  intros Hc Hx z. assert (Ht : 0 <= sigma * a) by nra.
  set (v := soft (sigma * a) x). set (t := Rabs z).
  assert (Ht0 : 0 <= t) by apply Rabs_pos.
  assert (Hv : 0 <= v <= sigma /\ ((v = 0 /\ x <= sigma * a) \/ v = x - sigma * a)).
  { unfold v. destruct (soft_cases (sigma * a) x Ht) as [[H E]|[[H E]|[H E]]]; rewrite E;
      repeat split; try lra; nra. }
  destruct Hv as [Hv0 Hv1].
  rewrite (scad_h_low x v) by lra.
  assert (Hk : 0 < / (rho - 1)) by (apply Rinv_0_lt_compat; lra).
  unfold Rdiv. set (k := / (rho - 1)) in *.
  assert (Hkr : k * (rho - 1) = 1) by (unfold k; field; lra).
  assert (Hak : 0 <= a * k) by nra.
  assert (Hak1 : a * k < 1) by nra.
  (* convexity along [0, sigma] *)
  assert (L : forall s, 0 <= s <= sigma ->
     / 2 * (v - x) ^ 2 + a * (sigma * v) + / 2 * (s - v) ^ 2 <= / 2 * (s - x) ^ 2 + a * (sigma * s)).
  { intros s Hs. destruct Hv1 as [[E1 E2]|E1]; rewrite E1; nra. }
  destruct (Rle_dec t sigma) as [H1|H1].
  { rewrite (scad_h_low x t) by lra. pose proof (L t (conj Ht0 H1)).
    pose proof (pow2_ge_0 (t - v)). nra. }
  assert (Hvx : x - v <= sigma * a) by (destruct Hv1 as [[? ?]|?]; lra).
  pose proof (L sigma (conj (Rlt_le _ _ Hsig) (Rle_refl _))) as Ls.
  destruct (Rle_dec t (rho * sigma)) as [H2|H2].
  { rewrite (scad_h_mid x t) by lra.
    replace (a * ((2 * rho * sigma * t - t ^ 2 - sigma ^ 2) / (2 * (rho - 1))))
      with (a * k * (2 * rho * sigma * t - t ^ 2 - sigma ^ 2) / 2) by (unfold k; field; lra).
    (* at sigma this equals a*sigma^2 *)
    assert (Es : a * (sigma * sigma) = a * k * (2 * rho * sigma * sigma - sigma ^ 2 - sigma ^ 2) / 2).
    { replace (a * (sigma * sigma)) with (a * (k * (rho - 1)) * (sigma * sigma)) by (rewrite Hkr; ring).
      field. }
    (* difference: (t - sigma) * ( ... ) *)
    assert (D : / 2 * (t - x) ^ 2 + a * k * (2 * rho * sigma * t - t ^ 2 - sigma ^ 2) / 2
            - (/ 2 * (sigma - x) ^ 2 + a * k * (2 * rho * sigma * sigma - sigma ^ 2 - sigma ^ 2) / 2)
            - / 2 * (1 - a * k) * (t - sigma) ^ 2
            = (t - sigma) * ((sigma - x) + a * k * (rho - 1) * sigma)) by field.
    replace (a * k * (rho - 1)) with (a * (k * (rho - 1))) in D by ring. rewrite Hkr in D.
    assert (0 <= (t - sigma) * (sigma - x + a * 1 * sigma) - (1 - a * k) * (t - sigma) * (sigma - v)).
    { replace ((t - sigma) * (sigma - x + a * 1 * sigma) - (1 - a * k) * (t - sigma) * (sigma - v))
        with ((t - sigma) * ((sigma - x + a * sigma) - (1 - a * k) * (sigma - v))) by ring.
      apply Rmult_le_pos; [lra|]. nra. }
    nra. }
  rewrite (scad_h_high x t) by lra.
  (* compare with rho*sigma *)
  assert (Hrs : sigma < rho * sigma) by nra.
  assert (E : a * (sigma ^ 2 * (rho + 1) / 2) = a * (sigma * sigma) + a * sigma ^ 2 * (rho - 1) / 2) by field.
  rewrite E.
  assert (K1 : / 2 * (t - x) ^ 2 - / 2 * (sigma - x) ^ 2 = / 2 * (t - sigma) ^ 2 + (t - sigma) * (sigma - x)) by field.
  assert (K2 : - a * sigma <= sigma - x) by lra.
  (* need: 1/2(1-ak)(t-v)^2 <= 1/2 (sigma-v)^2 + 1/2 (t-sigma)^2 + (t-sigma)(sigma-x) + a sigma^2 (rho-1)/2 *)
  set (d := t - sigma). assert (Hd : rho * sigma - sigma <= d) by (unfold d; lra).
  set (e := sigma - v). assert (He : 0 <= e) by (unfold e; lra).
  assert (Hse : e - a * sigma <= sigma - x) by (unfold e; lra).
  assert (Q : / 2 * (1 - a * k) * (d + e) ^ 2
              <= / 2 * e ^ 2 + / 2 * d ^ 2 + d * (e - a * sigma) + a * sigma ^ 2 * (rho - 1) / 2).
  { assert (Hs : a * sigma ^ 2 * (rho - 1) = a * k * (sigma * (rho - 1)) ^ 2).
    { replace (a * k * (sigma * (rho - 1)) ^ 2)
        with (a * sigma ^ 2 * (rho - 1) * (k * (rho - 1))) by ring. rewrite Hkr. ring. }
    assert (Hs2 : a * sigma = a * k * (sigma * (rho - 1))).
    { replace (a * k * (sigma * (rho - 1))) with (a * sigma * (k * (rho - 1))) by ring.
      rewrite Hkr; ring. }
    rewrite Hs, Hs2. set (m := sigma * (rho - 1)) in *.
    replace (/ 2 * e ^ 2 + / 2 * d ^ 2 + d * (e - a * k * m) + a * k * m ^ 2 / 2)
      with (/ 2 * (d + e) ^ 2 - a * k * (d * m - m ^ 2 / 2)) by field.
    assert (d * m - m ^ 2 / 2 <= (d + e) ^ 2 / 2).
    { pose proof (pow2_ge_0 (d - m)). assert (0 <= m) by (unfold m; nra).
      assert (0 <= d) by (unfold m in *; nra). nra. }
    assert (a * k * (d * m - m ^ 2 / 2) <= a * k * ((d + e) ^ 2 / 2)) by (apply Rmult_le_compat_l; auto).
    nra. }
  assert (Hdm : 0 <= d) by nra.
  assert (d * (e - a * sigma) <= d * (sigma - x)) by (apply Rmult_le_compat_l; auto).
  replace (t - v) with (d + e) by (unfold d, e; ring).
  replace (sigma - v) with e in Ls by (unfold e; ring).
  fold d in K1. lra.
Qed.

Lemma scad_opt_mid x : a < rho - 1 -> sigma * (1 + a) <= x <= rho * sigma -> forall z,
  let v := ((rho - 1) * x - rho * sigma * a) / (rho - 1 - a) in
  sigma <= v <= rho * sigma /\ v <= x /\
  h x v + / 2 * (1 - a / (rho - 1)) * (Rabs z - v) ^ 2 <= h x (Rabs z).
Proof.
  intros Hc Hx z v. set (t := Rabs z). assert (Ht0 : 0 <= t) by apply Rabs_pos.
  assert (HD : 0 < / (rho - 1 - a)) by (apply Rinv_0_lt_compat; lra).
  assert (Hv1 : sigma <= v).
  { unfold v. apply Rmult_le_reg_r with (rho - 1 - a); [lra|].
    unfold Rdiv. rewrite Rmult_assoc, Rinv_l by lra. nra. }
  assert (Hv2 : v <= x).
  { unfold v. apply Rmult_le_reg_r with (rho - 1 - a); [lra|].
    unfold Rdiv. rewrite Rmult_assoc, Rinv_l by lra. nra. }
  assert (Hv3 : v <= rho * sigma) by lra.
  split; [lra|]. split; [lra|].
  assert (Hv : v * (rho - 1 - a) = (rho - 1) * x - rho * sigma * a) by (unfold v; field; lra).
  assert (Hk : 0 < / (rho - 1)) by (apply Rinv_0_lt_compat; lra).
  unfold Rdiv. set (k := / (rho - 1)) in *.
  assert (Hkr : k * (rho - 1) = 1) by (unfold k; field; lra).
  assert (Hak : 0 <= a * k) by nra.
  assert (Hak1 : a * k < 1) by nra.
  (* stationarity: v - x + a k (rho sigma - v) = 0 *)
  assert (St : v - x + a * k * (rho * sigma - v) = 0).
  { assert (k * (v * (rho - 1 - a)) = k * ((rho - 1) * x - rho * sigma * a)) by (rewrite Hv; ring).
    assert (k * (v * (rho - 1 - a)) = v * (k * (rho - 1)) - a * k * v) by ring.
    assert (k * ((rho - 1) * x - rho * sigma * a) = x * (k * (rho - 1)) - a * k * (rho * sigma)) by ring.
    rewrite Hkr in *. lra. }
  rewrite (scad_h_mid x v) by lra.
  replace (a * ((2 * rho * sigma * v - v ^ 2 - sigma ^ 2) / (2 * (rho - 1))))
    with (a * k * (2 * rho * sigma * v - v ^ 2 - sigma ^ 2) / 2) by (unfold k; field; lra).
  assert (M : forall s, / 2 * (s - x) ^ 2 + a * k * (2 * rho * sigma * s - s ^ 2 - sigma ^ 2) / 2
     = / 2 * (v - x) ^ 2 + a * k * (2 * rho * sigma * v - v ^ 2 - sigma ^ 2) / 2
       + / 2 * (1 - a * k) * (s - v) ^ 2).
  { intros s.
    assert (E : / 2 * (s - x) ^ 2 + a * k * (2 * rho * sigma * s - s ^ 2 - sigma ^ 2) / 2
     - (/ 2 * (v - x) ^ 2 + a * k * (2 * rho * sigma * v - v ^ 2 - sigma ^ 2) / 2
       + / 2 * (1 - a * k) * (s - v) ^ 2) = (s - v) * (v - x + a * k * (rho * sigma - v))) by field.
    rewrite St in E. lra. }
  destruct (Rle_dec t sigma) as [H1|H1].
  - rewrite (scad_h_low x t) by lra. pose proof (M t) as Mt.
    assert (G : a * k * (2 * rho * sigma * t - t ^ 2 - sigma ^ 2) / 2 <= a * (sigma * t)).
    { assert (E : a * (sigma * t) = a * k * (2 * (rho - 1) * sigma * t) / 2).
      { replace (a * k * (2 * (rho - 1) * sigma * t) / 2) with (a * (k * (rho - 1)) * sigma * t) by field.
        rewrite Hkr; ring. }
      rewrite E. apply Rmult_le_compat_r; [lra|]. apply Rmult_le_compat_l; [auto|].
      pose proof (pow2_ge_0 (t - sigma)). nra. }
    lra.
  - destruct (Rle_dec t (rho * sigma)) as [H2|H2].
    + rewrite (scad_h_mid x t) by lra. pose proof (M t) as Mt.
      replace (a * ((2 * rho * sigma * t - t ^ 2 - sigma ^ 2) / (2 * (rho - 1))))
        with (a * k * (2 * rho * sigma * t - t ^ 2 - sigma ^ 2) / 2) by (unfold k; field; lra).
      lra.
    + rewrite (scad_h_high x t) by lra. pose proof (M t) as Mt.
      assert (G : a * k * (2 * rho * sigma * t - t ^ 2 - sigma ^ 2) / 2 <= a * (sigma ^ 2 * (rho + 1) / 2)).
      { assert (E : a * (sigma ^ 2 * (rho + 1) / 2) = a * k * ((rho - 1) * sigma ^ 2 * (rho + 1)) / 2).
        { replace (a * k * ((rho - 1) * sigma ^ 2 * (rho + 1)) / 2)
            with (a * (k * (rho - 1)) * sigma ^ 2 * (rho + 1) / 2) by field.
          rewrite Hkr; field. }
        rewrite E. apply Rmult_le_compat_r; [lra|]. apply Rmult_le_compat_l; [auto|].
        pose proof (pow2_ge_0 (t - rho * sigma)). nra. }
      lra.
Qed.

Lemma scad_opt_high x : a < rho - 1 -> rho * sigma < x -> forall z,
  h x x + / 2 * (1 - a / (rho - 1)) * (Rabs z - x) ^ 2 <= h x (Rabs z).
Proof.
  intros Hc Hx z. set (t := Rabs z). assert (Ht0 : 0 <= t) by apply Rabs_pos.
  assert (Hs : sigma < rho * sigma) by nra.
  rewrite (scad_h_high x x) by lra.
  assert (Hk : 0 < / (rho - 1)) by (apply Rinv_0_lt_compat; lra).
  unfold Rdiv. set (k := / (rho - 1)) in *.
  assert (Hkr : k * (rho - 1) = 1) by (unfold k; field; lra).
  assert (Hak : 0 <= a * k) by nra.
  assert (Hak1 : a * k < 1) by nra.
  replace (/ 2 * (x - x) ^ 2) with 0 by field.
  assert (E : a * (sigma ^ 2 * (rho + 1) * / 2) = a * k * ((rho - 1) * sigma ^ 2 * (rho + 1)) / 2).
  { replace (a * k * ((rho - 1) * sigma ^ 2 * (rho + 1)) / 2)
      with (a * (k * (rho - 1)) * sigma ^ 2 * (rho + 1) / 2) by field.
    rewrite Hkr; field. }
  destruct (Rle_dec t (rho * sigma)) as [H2|H2].
  - (* both inner pieces lie above the middle quadratic *)
    assert (G : / 2 * (t - x) ^ 2 + a * k * (2 * rho * sigma * t - t ^ 2 - sigma ^ 2) / 2 <= h x t).
    { destruct (Rle_dec t sigma) as [H1|H1].
      - rewrite (scad_h_low x t) by lra. apply Rplus_le_compat_l.
        assert (E2 : a * (sigma * t) = a * k * (2 * (rho - 1) * sigma * t) / 2).
        { replace (a * k * (2 * (rho - 1) * sigma * t) / 2) with (a * (k * (rho - 1)) * sigma * t) by field.
          rewrite Hkr; ring. }
        rewrite E2. apply Rmult_le_compat_r; [lra|]. apply Rmult_le_compat_l; [auto|].
        pose proof (pow2_ge_0 (t - sigma)). nra.
      - rewrite (scad_h_mid x t) by lra. apply Rplus_le_compat_l. right. unfold k. field. lra. }
    rewrite E.
    assert (a * k * ((rho - 1) * sigma ^ 2 * (rho + 1)) / 2 - a * k * (2 * rho * sigma * t - t ^ 2 - sigma ^ 2) / 2
            <= a * k * (t - x) ^ 2 / 2).
    { replace (a * k * ((rho - 1) * sigma ^ 2 * (rho + 1)) / 2 - a * k * (2 * rho * sigma * t - t ^ 2 - sigma ^ 2) / 2)
        with (a * k * (rho * sigma - t) ^ 2 / 2) by field.
      apply Rmult_le_compat_r; [lra|]. apply Rmult_le_compat_l; [auto|]. nra. }
    lra.
  - rewrite (scad_h_high x t) by lra. unfold Rdiv. pose proof (pow2_ge_0 (t - x)). nra.
Qed.

(** non-convex regime: strictly better points than the code's soft-threshold branch *)
Lemma scad_bad_point : rho - 1 < a ->
  exists x z, sigma * 1 < x < sigma * (1 + a) /\ rho * sigma <= x /\
              h x z < h x (soft (sigma * a) x).
Proof.
  intros Hc.
  (* x between sigma*(rho+1+a)/2 and sigma*(1+a), and above sigma*a *)
  set (x := Rmax (sigma * ((rho + 1 + a) / 2 + (1 + a)) / 2) (sigma * (a + (1 + a)) / 2)).
  exists x, x.
  assert (X1 : sigma * ((rho + 1 + a) / 2 + (1 + a)) / 2 <= x) by apply Rmax_l.
  assert (X2 : sigma * (a + (1 + a)) / 2 <= x) by apply Rmax_r.
  assert (X3 : x < sigma * (1 + a)).
  { unfold x, Rmax. destruct Rle_dec; nra. }
  assert (X4 : rho * sigma <= x) by nra.
  assert (X5 : sigma * 1 < x) by nra.
  split; [lra|]. split; [lra|].
  assert (Ht : 0 <= sigma * a) by nra.
  destruct (soft_cases (sigma * a) x Ht) as [[H E]|[[H E]|[H E]]]; rewrite E; [nra|nra|].
  rewrite (scad_h_low x (x - sigma * a)) by nra.
  rewrite (scad_h_high x x) by lra.
  replace (/ 2 * (x - x) ^ 2) with 0 by field. nra.
Qed.

End ScadScalar.
