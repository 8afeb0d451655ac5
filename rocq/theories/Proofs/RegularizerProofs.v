(** Vector-level facts about prox and value of the regularizer classes. *)
From Coq Require Import Lra Psatz.
From Verif.Base Require Import Py Vec.
From Verif.Model Require Import Regularizers.
From Verif.Spec Require Import ProxSpec RegSpec.
From Verif.Proofs Require Import VecFacts ScalarProx L0Proofs.
Open Scope R_scope.

(** ** separable penalties *)
Definition scost (alpha : R) (p : R -> R) (x t : R) : R := / 2 * (t - x) ^ 2 + alpha * p t.

Lemma prox_cost_cons alpha p w ws x xs z zs :
  prox_cost alpha (x :: xs) (z :: zs) (separable p (w :: ws) (z :: zs))
  = scost alpha (p w) x z + prox_cost alpha xs zs (separable p ws zs).
Proof.
  unfold prox_cost, scost. change (vsub (z :: zs) (x :: xs)) with ((z - x) :: vsub zs xs).
  rewrite sqnorm_cons. simpl separable. ring.
Qed.

Lemma separable_opt alpha p w x z : length w = length x -> length z = length x ->
  Forall2 (fun wx zi => forall t, scost alpha (p (fst wx)) (snd wx) zi <= scost alpha (p (fst wx)) (snd wx) t)
          (combine w x) z ->
  is_prox all_vecs (separable p w) alpha x z.
Proof.
  intros Hw Hz HF. split; [auto|]. split; [exact I|]. intros z' Hz' _.
  revert x z z' Hw Hz Hz' HF. induction w as [|wi w IH]; intros [|xi x] [|zi z] [|zi' z'] Hw Hz Hz' HF;
    simpl in Hw, Hz, Hz'; try discriminate.
  - lra.
  - rewrite !prox_cost_cons. simpl in HF. inversion HF as [|? ? ? ? H1 H2]; subst. simpl in H1.
    specialize (IH x z z' ltac:(lia) ltac:(lia) ltac:(lia) H2). specialize (H1 zi'). lra.
Qed.

Lemma separable_unique alpha p w x z : length w = length x -> length z = length x ->
  Forall2 (fun wx zi => forall t, t <> zi ->
             scost alpha (p (fst wx)) (snd wx) zi < scost alpha (p (fst wx)) (snd wx) t)
          (combine w x) z ->
  is_unique_prox all_vecs (separable p w) alpha x z.
Proof.
  intros Hw Hz HF. split; [auto|]. split; [exact I|]. intros z' Hz' _ Hne.
  revert x z z' Hw Hz Hz' HF Hne.
  induction w as [|wi w IH]; intros [|xi x] [|zi z] [|zi' z'] Hw Hz Hz' HF Hne;
    simpl in Hw, Hz, Hz'; try discriminate.
  - congruence.
  - rewrite !prox_cost_cons. simpl in HF. inversion HF as [|? ? ? ? H1 H2]; subst. simpl in H1.
    assert (Hle : scost alpha (p wi) xi zi <= scost alpha (p wi) xi zi').
    { destruct (Req_dec zi' zi) as [->|Hn]; [lra|]. specialize (H1 zi' Hn). lra. }
    assert (Hle2 : prox_cost alpha x z (separable p w z) <= prox_cost alpha x z' (separable p w z')).
    { destruct (list_eq_dec Req_EM_T z' z) as [->|Hn]; [lra|].
      specialize (IH x z z' ltac:(lia) ltac:(lia) ltac:(lia) H2 Hn). lra. }
    destruct (Req_dec zi' zi) as [->|Hn].
    + assert (Hn : z' <> z) by congruence.
      specialize (IH x z z' ltac:(lia) ltac:(lia) ltac:(lia) H2 Hn). lra.
    + specialize (H1 zi' Hn). lra.
Qed.

Lemma unique_is_prox dom g alpha x z : is_unique_prox dom g alpha x z -> is_prox dom g alpha x z.
Proof.
  intros [H1 [H2 H3]]. split; [auto|]. split; [auto|]. intros z' Hz' Hd.
  destruct (list_eq_dec Req_EM_T z' z) as [->|Hn]; [lra|]. specialize (H3 z' Hz' Hd Hn). lra.
Qed.

(** a minimiser of a separable cost is coordinatewise optimal *)
Lemma separable_opt_inv alpha p w x z : length w = length x ->
  is_prox all_vecs (separable p w) alpha x z ->
  Forall2 (fun wx zi => forall t, scost alpha (p (fst wx)) (snd wx) zi <= scost alpha (p (fst wx)) (snd wx) t)
          (combine w x) z.
Proof.
  intros Hw [Hz [_ H]]. revert x z Hw Hz H.
  induction w as [|wi w IH]; intros [|xi x] [|zi z] Hw Hz H; simpl in Hw, Hz; try discriminate; constructor.
  - intros t. simpl. specialize (H (t :: z) ltac:(simpl; lia) I). rewrite !prox_cost_cons in H. lra.
  - apply IH; try lia. intros z' Hz' _.
    specialize (H (zi :: z') ltac:(simpl; lia) I). rewrite !prox_cost_cons in H. lra.
Qed.

(** from a penalty function to the reported value *)
Lemma prox_of_value_iff value g alpha x z :
  (forall z', length z' = length x -> value z' = Ok (Fin (g z'))) ->
  is_prox_of_value value alpha x z <-> is_prox all_vecs g alpha x z.
Proof.
  intros HV. split.
  - intros [HL [v [Hv H]]]. split; [auto|]. split; [exact I|]. intros z' Hz' _.
    rewrite HV in Hv by auto. injection Hv as <-. apply H; auto.
  - intros [HL [_ H]]. split; [auto|]. exists (g z). split; [auto|].
    intros z' v' Hz' Hv'. rewrite HV in Hv' by auto. injection Hv' as <-. apply H; auto; exact I.
Qed.

Lemma is_prox_ext g g' alpha x z :
  (forall z', length z' = length x -> g z' = g' z') ->
  is_prox all_vecs g alpha x z -> is_prox all_vecs g' alpha x z.
Proof.
  intros E [H1 [H2 H3]]. split; [auto|]. split; [auto|]. intros z' Hz' _.
  rewrite <- !E by auto. apply H3; auto; exact I.
Qed.
Lemma is_unique_prox_ext g g' alpha x z :
  (forall z', length z' = length x -> g z' = g' z') ->
  is_unique_prox all_vecs g alpha x z -> is_unique_prox all_vecs g' alpha x z.
Proof.
  intros E [H1 [H2 H3]]. split; [auto|]. split; [auto|]. intros z' Hz' _ Hn.
  rewrite <- !E by auto. apply H3; auto; exact I.
Qed.

Lemma Forall2_map2_r {A B C} (P : A * B -> C -> Prop) (f : A -> B -> C) w x :
  Forall2 (fun wi xi => P (wi, xi) (f wi xi)) w x -> Forall2 P (combine w x) (map2 f w x).
Proof. induction 1; simpl; constructor; auto. Qed.

Lemma Forall_Forall2 {A B} (P : A -> Prop) (w : list A) (x : list B) :
  length w = length x -> Forall P w -> Forall2 (fun a _ => P a) w x.
Proof.
  intros HL H; revert x HL; induction H; intros [|b x'] HL; simpl in HL; try discriminate; constructor; auto.
Qed.
Lemma Forall2_impl {A B} (P Q : A -> B -> Prop) x y :
  (forall a b, P a b -> Q a b) -> Forall2 P x y -> Forall2 Q x y.
Proof. intros H; induction 1; constructor; auto. Qed.
Lemma Forall2_len {A B} (P : A -> B -> Prop) x y : Forall2 P x y -> length x = length y.
Proof. induction 1; simpl; auto. Qed.
Lemma Forall_ones (P : R -> Prop) n : P 1 -> Forall P (ones n).
Proof. intros H; induction n; simpl; constructor; auto. Qed.

(** ** L1 *)
Lemma soft_unique t x z : 0 <= t -> z <> soft t x ->
  / 2 * (soft t x - x) ^ 2 + t * Rabs (soft t x) < / 2 * (z - x) ^ 2 + t * Rabs z.
Proof.
  intros Ht Hn. pose proof (soft_strong t x z Ht) as H.
  assert (0 < (z - soft t x) ^ 2) by (apply pow2_gt_0; lra). lra.
Qed.

Lemma l1_prox_ones lam x alpha :
  l1_prox lam None x alpha = l1_prox lam (Some (ones (length x))) x alpha.
Proof.
  unfold l1_prox. rewrite ones_length, Nat.eqb_refl. simpl. f_equal.
  unfold ones. rewrite map2_repeat_l. apply map_ext. intros a. f_equal. ring.
Qed.

Lemma l1_prox_unique lam w x alpha : 0 <= lam -> 0 <= alpha -> length w = length x ->
  Forall (fun a => 0 <= a) w ->
  exists z, l1_prox lam (Some w) x alpha = Ok z /\
    is_unique_prox all_vecs (fun z' => lam * weighted_l1 w z') alpha x z.
Proof.
  intros Hl Ha HL Hw. unfold l1_prox. rewrite HL, Nat.eqb_refl. simpl.
  eexists; split; [reflexivity|].
  apply is_unique_prox_ext with (g := separable (fun wi t => lam * (wi * Rabs t)) w).
  { intros z' _. revert z'. clear. induction w as [|wi w IH]; intros [|c z']; simpl; try ring.
    rewrite IH. ring. }
  apply separable_unique; auto.
  { apply map2_length_eq; auto. }
  apply Forall2_map2_r. eapply Forall2_impl; [|apply Forall_Forall2; [exact HL|exact Hw]].
  intros wi xi Hwi t Hn. simpl in *. unfold scost.
  assert (0 <= alpha * wi * lam).
  { apply Rmult_le_pos; [apply Rmult_le_pos|]; auto. }
  pose proof (soft_unique (alpha * wi * lam) xi t ltac:(auto) Hn). nra.
Qed.

Lemma vdot_weighted_l1 w z : vdot w (vabs z) = weighted_l1 w z.
Proof.
  revert z; induction w as [|wi w IH]; intros [|c z]; simpl; try reflexivity.
  unfold vdot, vmul in *. simpl. rewrite <- IH. reflexivity.
Qed.
Lemma vsum_weighted_l1 z : vsum (vabs z) = weighted_l1 (ones (length z)) z.
Proof. induction z as [|c z IH]; simpl; auto. unfold ones in IH. rewrite IH. ring. Qed.

(** ** SCAD *)
Lemma scad_prox1_opp rho sigma lam w alpha x :
  scad_prox1 rho sigma lam w alpha (- x) = rmap Ropp (scad_prox1 rho sigma lam w alpha x).
Proof.
  unfold scad_prox1. rewrite Rabs_Ropp.
  destruct (reqb w 0); [reflexivity|].
  destruct (rltb _ _); [reflexivity|].
  destruct (rleb _ _ && rleb _ _).
  - destruct (reqb (rho - 1 - alpha * lam * w) 0) eqn:E; [reflexivity|].
    simpl. f_equal. unfold rsign, rltb.
    repeat rdec1; try lra; unfold Rdiv; ring.
  - simpl. f_equal. unfold soft. rewrite Ropp_involutive. ring.
Qed.

Definition sh rho sigma a (x z : R) : R := / 2 * (z - x) ^ 2 + a * scad_penalty rho sigma z.

Lemma scad_prox1_unique_pos rho sigma lam w alpha x :
  1 < rho -> 0 < sigma -> 0 <= alpha * lam * w -> alpha * lam * w < rho - 1 -> 0 <= x ->
  exists v, scad_prox1 rho sigma lam w alpha x = Ok v /\ 0 <= v <= x /\
    forall t, t <> v -> sh rho sigma (alpha * lam * w) x v < sh rho sigma (alpha * lam * w) x t.
Proof.
  intros Hr Hs Ha Hb Hx. set (a := alpha * lam * w) in *.
  assert (Hk : 0 < 1 - a / (rho - 1)).
  { apply Rlt_Rminus. apply Rmult_lt_reg_r with (rho - 1); [lra|]. field_simplify; lra. }
  assert (Hmain : forall v, 0 <= v <= x ->
     (forall z, sh rho sigma a x v + / 2 * (1 - a / (rho - 1)) * (Rabs z - v) ^ 2 <= sh rho sigma a x (Rabs z)) ->
     forall t, t <> v -> sh rho sigma a x v < sh rho sigma a x t).
  { intros v Hv H t Ht. specialize (H t).
    assert (H2 : sh rho sigma a x (Rabs t) <= sh rho sigma a x t) by (apply scad_h_abs; exact Hx).
    destruct (Req_dec (Rabs t) v) as [E|E].
    - assert (t = - v /\ 0 < v) as [-> Hv0].
      { unfold Rabs in E. destruct (Rcase_abs t); split; try lra. }
      unfold sh. rewrite scad_penalty_even.
      assert (0 < v * x) by nra. nra.
    - assert (0 < (Rabs t - v) ^ 2) by (apply pow2_gt_0; lra).
      assert (0 < / 2 * (1 - a / (rho - 1)) * (Rabs t - v) ^ 2)
        by (apply Rmult_lt_0_compat; [lra|assumption]). lra. }
  unfold scad_prox1. fold a. rewrite (Rabs_right x) by lra.
  replace (Rmax rho (1 + a)) with rho by (rewrite Rmax_left; lra).
  assert (Hsr : sigma < rho * sigma) by nra.
  destruct (reqb w 0) eqn:Ew.
  { exists x. split; [auto|]. split; [lra|].
    assert (a = 0). { apply reqb_true in Ew. unfold a; rewrite Ew; ring. }
    intros t Ht. unfold sh. rewrite H. assert (0 < (t - x) ^ 2) by (apply pow2_gt_0; lra).
    replace (x - x) with 0 by ring. lra. }
  unfold rltb. destruct (Rlt_dec (rho * sigma) x) as [H1|H1].
  { exists x. split; [auto|]. split; [lra|]. apply Hmain; [lra|].
    intros z. apply (scad_opt_high rho sigma a Hr Hs Ha x Hb H1 z). }
  unfold rleb. destruct (Rle_dec (sigma * (1 + a)) x) as [H2|H2]; simpl.
  - destruct (Rle_dec x (rho * sigma)) as [H3|H3]; [|lra].
    unfold reqb. destruct (Req_EM_T (rho - 1 - a) 0) as [E|E]; [lra|].
    assert (0 < x) by nra.
    assert (Es : rsign x = 1). { unfold rsign, rltb. destruct (Rlt_dec 0 x); [reflexivity|lra]. }
    rewrite Es. eexists; split; [reflexivity|].
    replace ((rho - 1) * x - 1 * rho * sigma * a) with ((rho - 1) * x - rho * sigma * a) by ring.
    pose proof (fun z => scad_opt_mid rho sigma a Hr Hs Ha x Hb ltac:(lra) z) as Hm. cbv zeta in Hm.
    set (v := ((rho - 1) * x - rho * sigma * a) / (rho - 1 - a)) in *.
    destruct (Hm 0) as [Hv1 [Hv2 _]].
    split; [lra|]. apply Hmain; [lra|]. intros z. apply (Hm z).
  - eexists; split; [reflexivity|].
    assert (Hv : 0 <= soft (sigma * a) x <= x).
    { apply (soft_shrunk (sigma * a) x); auto. nra. }
    split; [exact Hv|]. apply Hmain; [exact Hv|]. intros z.
    apply (scad_opt_low rho sigma a Hr Hs Ha x Hb ltac:(lra) z).
Qed.

Lemma scad_prox1_unique rho sigma lam w alpha x :
  1 < rho -> 0 < sigma -> 0 <= alpha * lam * w -> alpha * lam * w < rho - 1 ->
  exists v, scad_prox1 rho sigma lam w alpha x = Ok v /\
    forall t, t <> v -> sh rho sigma (alpha * lam * w) x v < sh rho sigma (alpha * lam * w) x t.
Proof.
  intros Hr Hs Ha Hb. destruct (Rle_dec 0 x) as [Hx|Hx].
  - destruct (scad_prox1_unique_pos rho sigma lam w alpha x) as [v [H1 [_ H2]]]; auto. exists v; auto.
  - destruct (scad_prox1_unique_pos rho sigma lam w alpha (- x)) as [v [H1 [_ H2]]]; auto; [lra|].
    exists (- v). split.
    + rewrite <- (Ropp_involutive x), scad_prox1_opp, H1. reflexivity.
    + intros t Ht. specialize (H2 (- t) ltac:(lra)). unfold sh in *.
      rewrite scad_penalty_even in *. 
      replace ((- v - x) ^ 2) with ((v - - x) ^ 2) by ring.
      replace ((t - x) ^ 2) with ((- t - - x) ^ 2) by ring. exact H2.
Qed.

Lemma scad_loop_ok rho sigma lam alpha w x z :
  Forall2 (fun wx zi => scad_prox1 rho sigma lam (fst wx) alpha (snd wx) = Ok zi) (combine w x) z ->
  length w = length x ->
  scad_prox_loop rho sigma lam alpha w x = Ok z.
Proof.
  intros HF HL. revert x z HL HF.
  induction w as [|wi w IH]; intros [|xi x] z HL HF; simpl in *; try discriminate.
  - inversion HF; subst. reflexivity.
  - inversion HF as [|? ? ? ? E HF']; subst. simpl in E. rewrite E. simpl.
    rewrite (IH x l') by (auto; lia). reflexivity.
Qed.

Lemma scad_prox_unique rho sigma lam w x alpha :
  1 < rho -> 0 < sigma -> 0 <= lam -> 0 <= alpha -> length w = length x ->
  Forall (fun wi => 0 <= wi /\ alpha * lam * wi < rho - 1) w ->
  exists z, scad_prox_loop rho sigma lam alpha w x = Ok z /\
    is_unique_prox all_vecs (fun z' => lam * separable (fun wi t => wi * scad_penalty rho sigma t) w z')
                   alpha x z.
Proof.
  intros Hr Hs Hl Ha HL Hw.
  assert (H : exists z, length z = length x /\
    Forall2 (fun wx zi => scad_prox1 rho sigma lam (fst wx) alpha (snd wx) = Ok zi /\
       forall t, t <> zi -> scost alpha (fun t => lam * (fst wx * scad_penalty rho sigma t)) (snd wx) zi
                         < scost alpha (fun t => lam * (fst wx * scad_penalty rho sigma t)) (snd wx) t)
      (combine w x) z).
  { revert x HL. induction Hw as [|wi w [Hw0 Hw1] Hw IH]; intros [|xi x] HL; simpl in HL; try discriminate.
    - exists []; split; [reflexivity|constructor].
    - destruct (IH x ltac:(lia)) as [z [Hz HF]].
      assert (0 <= alpha * lam * wi). { apply Rmult_le_pos; auto. apply Rmult_le_pos; auto. }
      destruct (scad_prox1_unique rho sigma lam wi alpha xi) as [v [E1 E2]]; auto.
      exists (v :: z). split; [simpl; lia|]. simpl. constructor; auto. simpl. split; auto.
      intros t Ht. specialize (E2 t Ht). unfold sh, scost in *. nra. }
  destruct H as [z [Hz HF]]. exists z. split.
  - apply scad_loop_ok; auto. eapply Forall2_impl; [|exact HF]. intros a b [E _]; exact E.
  - apply is_unique_prox_ext with (g := separable (fun wi t => lam * (wi * scad_penalty rho sigma t)) w).
    { intros z' _. revert z'. clear. induction w as [|wi w IH]; intros [|c z']; simpl; try ring.
      rewrite IH. ring. }
    apply separable_unique; auto.
    eapply Forall2_impl; [|exact HF]. intros a b [_ E]; exact E.
Qed.

Lemma scad_value_spec rho sigma w z :
  vsum (map2 (scad_value1 rho sigma) w z) = separable (fun wi t => wi * scad_penalty rho sigma t) w z.
Proof.
  revert z; induction w as [|wi w IH]; intros [|c z]; simpl; auto.
  rewrite IH, scad_value1_spec. reflexivity.
Qed.

(** ** CAD *)
Definition cad_step (rho lam alpha : R) (wi xi : R) : R :=
  if rleb (Rabs xi) rho && rltb 0 wi then soft (wi * alpha * lam) xi else xi.

Lemma cad_step_1 rho lam alpha xi : cad_step rho lam alpha 1 xi = cad1 rho (alpha * lam) xi.
Proof.
  unfold cad_step, cad1. replace (rltb 0 1) with true.
  - rewrite andb_true_r. replace (1 * alpha * lam) with (alpha * lam) by ring. reflexivity.
  - symmetry. apply rltb_true. lra.
Qed.
Lemma cad_step_0 rho lam alpha xi : cad_step rho lam alpha 0 xi = xi.
Proof.
  unfold cad_step. replace (rltb 0 0) with false by (symmetry; apply rltb_false; lra).
  rewrite andb_false_r. reflexivity.
Qed.

Lemma cad_prox_weighted rho lam w x alpha : length w = length x ->
  cad_prox rho lam (Some w) x alpha = Ok (map2 (cad_step rho lam alpha) w x).
Proof. intros HL. unfold cad_prox. rewrite HL, Nat.eqb_refl. reflexivity. Qed.
Lemma cad_prox_ones rho lam x alpha :
  cad_prox rho lam None x alpha = cad_prox rho lam (Some (ones (length x))) x alpha.
Proof.
  rewrite cad_prox_weighted by apply ones_length. unfold cad_prox, ones. f_equal.
  rewrite map2_repeat_l. apply map_ext. intros a. rewrite cad_step_1. reflexivity.
Qed.

Definition cad_sep rho lam (wi t : R) : R := lam * Rmin (wi * Rabs t) rho.
Lemma cad_value_sep rho lam w z :
  lam * vsum (map2 (fun wi xi => Rmin (wi * Rabs xi) rho) w z) = separable (cad_sep rho lam) w z.
Proof.
  revert z; induction w as [|wi w IH]; intros [|c z]; simpl; try ring.
  rewrite <- IH. unfold cad_sep. ring.
Qed.
Lemma cad_value_ones rho z :
  vsum (map (fun xi => Rmin (Rabs xi) rho) z)
  = vsum (map2 (fun wi xi => Rmin (wi * Rabs xi) rho) (ones (length z)) z).
Proof.
  unfold ones. rewrite map2_repeat_l. f_equal. apply map_ext. intros a. f_equal. ring.
Qed.

Lemma scost_cad_1 alpha rho lam x t :
  scost alpha (cad_sep rho lam 1) x t = / 2 * (t - x) ^ 2 + (alpha * lam) * Rmin (Rabs t) rho.
Proof. unfold scost, cad_sep. rewrite Rmult_1_l. ring. Qed.

Lemma cad_region_dec rho c x : {cad_exact_region rho c x} + {~ cad_exact_region rho c x}.
Proof.
  unfold cad_exact_region.
  destruct (Rle_dec (Rabs x) rho); destruct (Rle_dec c (Rabs x));
  destruct (Rle_dec (rho + c / 2) (Rabs x)); destruct (Rle_dec (Rabs x) c);
  destruct (Rle_dec (2 * c * rho) (x ^ 2)); tauto.
Qed.

(** prox is exact if and only if every penalised coordinate lies in the region *)
Lemma cad_exact_iff rho lam w x alpha : 0 <= rho -> 0 <= lam -> 0 <= alpha ->
  length w = length x -> Forall (fun wi => wi = 0 \/ wi = 1) w ->
  is_prox all_vecs (separable (cad_sep rho lam) w) alpha x (map2 (cad_step rho lam alpha) w x)
  <-> Forall2 (fun wi xi => wi = 1 -> cad_exact_region rho (alpha * lam) xi) w x.
Proof.
  intros Hr Hl Ha HL Hw. assert (Hc : 0 <= alpha * lam) by (apply Rmult_le_pos; auto).
  split.
  - intros H. apply separable_opt_inv in H; auto.
    revert x HL H. induction Hw as [|wi w H01 Hw IH]; intros [|xi x] HL H; simpl in *; try discriminate; constructor.
    + intros ->. inversion H as [|? ? ? ? Hh _]; subst. simpl in Hh.
      destruct (cad_region_dec rho (alpha * lam) xi) as [K|K]; [exact K|exfalso].
      destruct (cad1_suboptimal rho (alpha * lam) xi) as [t Ht]; auto.
      specialize (Hh t); rewrite cad_step_1, !scost_cad_1 in Hh; lra.
    + inversion H; subst. apply IH; auto.
  - intros H. apply separable_opt; auto.
    { apply map2_length_eq; auto. }
    apply Forall2_map2_r. revert H. clear - Hr Hc Hw. 
    induction 1 as [|wi xi w x H1 H2 IH]; constructor.
    + inversion Hw as [|? ? H01 ?]; subst. simpl. intros t. destruct H01 as [->| ->].
      * rewrite cad_step_0. unfold scost, cad_sep. rewrite !Rmult_0_l.
        pose proof (pow2_ge_0 (t - xi)). replace (xi - xi) with 0 by ring. lra.
      * rewrite cad_step_1, !scost_cad_1. apply cad1_optimal; auto.
    + apply IH. inversion Hw; auto.
Qed.

(** the same for any non-negative weights *)
Lemma scost_cad_w alpha rho lam w x t : 0 < w ->
  scost alpha (cad_sep rho lam w) x t = ccost (rho / w) (alpha * lam * w) x t.
Proof.
  intros Hw. unfold scost, cad_sep, ccost.
  assert (E : Rmin (w * Rabs t) rho = w * Rmin (Rabs t) (rho / w)).
  { replace rho with (w * (rho / w)) at 1 by (field; lra).
    unfold Rmin. destruct (Rle_dec (w * Rabs t) (w * (rho / w))) as [H|H]; destruct (Rle_dec (Rabs t) (rho / w)) as [K|K]; auto.
    - apply Rmult_le_reg_l in H; [contradiction|auto].
    - exfalso. apply H. apply Rmult_le_compat_l; lra. }
  rewrite E. ring.
Qed.
Lemma cad_step_best rho lam alpha w x : 0 <= rho -> 0 <= lam -> 0 <= alpha -> 0 <= w ->
  (forall t, scost alpha (cad_sep rho lam w) x (cad_step rho lam alpha w x) <= scost alpha (cad_sep rho lam w) x t)
  <-> cad_weighted_region rho (alpha * lam) w x.
Proof.
  intros Hr Hl Ha Hw. unfold cad_weighted_region. destruct (Req_dec w 0) as [->|Hw0].
  - split; [intros _ K; lra|]. intros _ t. rewrite cad_step_0. unfold scost, cad_sep. rewrite !Rmult_0_l.
    pose proof (pow2_ge_0 (t - x)). replace (x - x) with 0 by ring. lra.
  - assert (Hp : 0 < w) by lra.
    assert (Hc : 0 <= alpha * lam * w) by (apply Rmult_le_pos; [apply Rmult_le_pos; auto|auto]).
    assert (Hrw : 0 <= rho / w) by (apply Rmult_le_pos; [auto|apply Rlt_le, Rinv_0_lt_compat; auto]).
    assert (E : forall z, (forall t, scost alpha (cad_sep rho lam w) x z <= scost alpha (cad_sep rho lam w) x t) <->
                          (forall t, ccost (rho / w) (alpha * lam * w) x z <= ccost (rho / w) (alpha * lam * w) x t)).
    { intros z. split; intros H t; specialize (H t); rewrite !scost_cad_w in *; auto. }
    rewrite E. unfold cad_step. assert (T : rltb 0 w = true) by (apply rltb_true; auto). rewrite T, andb_true_r.
    unfold rleb. destruct (Rle_dec (Rabs x) rho) as [K|K].
    + replace (w * alpha * lam) with (alpha * lam * w) by ring.
      rewrite soft_best_iff by auto. split; [intros H _; split; [auto|intros; lra]|intros H; apply H; auto].
    + assert (Hx0 : x <> 0) by (intros ->; apply K; rewrite Rabs_R0; auto).
      rewrite identity_best_iff by auto. split; [intros H _; split; [intros; lra|auto]|intros H; apply H; auto; lra].
Qed.
Lemma cad_exact_iff_weighted rho lam w x alpha : 0 <= rho -> 0 <= lam -> 0 <= alpha ->
  length w = length x -> Forall (fun wi => 0 <= wi) w ->
  is_prox all_vecs (separable (cad_sep rho lam) w) alpha x (map2 (cad_step rho lam alpha) w x)
  <-> Forall2 (cad_weighted_region rho (alpha * lam)) w x.
Proof.
  intros Hr Hl Ha HL Hw. split.
  - intros H. apply separable_opt_inv in H; auto.
    revert x HL H. induction Hw as [|wi w Hi Hw IH]; intros [|xi x] HL H; simpl in *; try discriminate; constructor.
    + inversion H as [|? ? ? ? Hh _]; subst. simpl in Hh. apply cad_step_best in Hh; auto.
    + inversion H; subst. apply IH; auto.
  - intros H. apply separable_opt; auto.
    { apply map2_length_eq; auto. }
    apply Forall2_map2_r. revert H. clear - Hr Hl Ha Hw.
    induction 1 as [|wi xi w x H1 H2 IH]; constructor.
    + inversion Hw; subst. simpl. apply cad_step_best; auto.
    + apply IH. inversion Hw; auto.
Qed.

(** ** Elastic *)
Lemma div_vscale d x : map (fun xi => xi / d) x = vscale (/ d) x.
Proof. apply map_ext. intros a. unfold Rdiv. ring. Qed.

Lemma elastic_cost alpha eps x z v : 0 < 1 + alpha * eps -> length z = length x ->
  let d := 1 + alpha * eps in
  prox_cost alpha x z (eps / 2 * sqnorm z + v)
  = d * prox_cost (alpha / d) (vscale (/ d) x) z v + / 2 * (1 - / d) * sqnorm x.
Proof.
  intros Hd HL d. unfold prox_cost.
  rewrite !sqnorm_vsub by (rewrite ?vscale_length; auto).
  rewrite sqnorm_vscale, vdot_vscale_r. unfold d. field. lra.
Qed.

Lemma elastic_exact dom g alpha eps x z : 0 < 1 + alpha * eps ->
  is_prox dom g (alpha / (1 + alpha * eps)) (map (fun xi => xi / (1 + alpha * eps)) x) z ->
  is_prox dom (fun z' => eps / 2 * sqnorm z' + g z') alpha x z.
Proof.
  intros Hd [H1 [H2 H3]]. rewrite map_length in H1. split; [auto|]. split; [auto|].
  intros z' Hz' Hdom. rewrite !elastic_cost by auto. cbv zeta.
  rewrite div_vscale in H3. specialize (H3 z' ltac:(rewrite vscale_length; auto) Hdom).
  apply Rplus_le_compat_r. apply Rmult_le_compat_l; lra.
Qed.

(** ** Positive quadrant *)
Lemma clip0_cases x : (x <= 0 /\ clip0 x = 0) \/ (0 < x /\ clip0 x = x).
Proof. unfold clip0, Rmax. destruct (Rle_dec x 0); [left|right]; split; lra. Qed.

Lemma pos_cost_le m x z : length m = length x -> length z = length x -> nonneg_on m z ->
  sqnorm (vsub z (mask_map m clip0 x)) + sqnorm (vsub (mask_map m clip0 x) x) <= sqnorm (vsub z x).
Proof.
  unfold nonneg_on. revert x z; induction m as [|b m IH]; intros [|xi x] [|zi z] Hm Hz HF;
    simpl in Hm, Hz; try discriminate.
  - simpl. unfold sqnorm, vdot, vmul, vsub; simpl. lra.
  - change (mask_map (b :: m) clip0 (xi :: x)) with ((if b then clip0 xi else xi) :: mask_map m clip0 x).
    change (vsub (zi :: z) ((if b then clip0 xi else xi) :: mask_map m clip0 x))
      with ((zi - (if b then clip0 xi else xi)) :: vsub z (mask_map m clip0 x)).
    change (vsub ((if b then clip0 xi else xi) :: mask_map m clip0 x) (xi :: x))
      with (((if b then clip0 xi else xi) - xi) :: vsub (mask_map m clip0 x) x).
    change (vsub (zi :: z) (xi :: x)) with ((zi - xi) :: vsub z x).
    rewrite !sqnorm_cons. destruct b; simpl in HF.
    + inversion HF as [|? ? H0 HF']; subst. specialize (IH x z ltac:(lia) ltac:(lia) HF').
      assert (0 <= (clip0 xi - xi) * (zi - clip0 xi)).
      { destruct (clip0_cases xi) as [[Hx E]|[Hx E]]; rewrite E; nra. }
      nra.
    + specialize (IH x z ltac:(lia) ltac:(lia) HF). nra.
Qed.

Lemma pos_cost_eq m x z : length m = length x -> length z = length x ->
  Forall2 (fun y t => y = 0 -> t = 0) (mask_map m clip0 x) z ->
  sqnorm (vsub z (mask_map m clip0 x)) + sqnorm (vsub (mask_map m clip0 x) x) = sqnorm (vsub z x).
Proof.
  revert x z; induction m as [|b m IH]; intros [|xi x] [|zi z] Hm Hz HF;
    simpl in Hm, Hz; try discriminate.
  - simpl. unfold sqnorm, vdot, vmul, vsub; simpl. lra.
  - change (mask_map (b :: m) clip0 (xi :: x)) with ((if b then clip0 xi else xi) :: mask_map m clip0 x) in *.
    change (vsub (zi :: z) ((if b then clip0 xi else xi) :: mask_map m clip0 x))
      with ((zi - (if b then clip0 xi else xi)) :: vsub z (mask_map m clip0 x)).
    change (vsub ((if b then clip0 xi else xi) :: mask_map m clip0 x) (xi :: x))
      with (((if b then clip0 xi else xi) - xi) :: vsub (mask_map m clip0 x) x).
    change (vsub (zi :: z) (xi :: x)) with ((zi - xi) :: vsub z x).
    inversion HF as [|? ? ? ? H0 HF']; subst. specialize (IH x z ltac:(lia) ltac:(lia) HF').
    rewrite !sqnorm_cons. destruct b.
    + assert ((clip0 xi - xi) * (zi - clip0 xi) = 0).
      { destruct (clip0_cases xi) as [[Hx E]|[Hx E]]; rewrite E in *; [rewrite H0 by auto|]; ring. }
      nra.
    + nra.
Qed.

Lemma pos_exact m dom g alpha x z : length m = length x ->
  is_prox dom g alpha (mask_map m clip0 x) z ->
  Forall2 shrunk (mask_map m clip0 x) z ->
  is_prox (fun z' => nonneg_on m z' /\ dom z') g alpha x z.
Proof.
  intros Hm [H1 [H2 H3]] HF. rewrite mask_map_length in H1.
  assert (Hnn : nonneg_on m z).
  { clear H2 H3. unfold nonneg_on. revert x z Hm H1 HF.
    induction m as [|b m IH]; intros [|xi x] [|zi z] Hm Hz HF; simpl in *; try discriminate; try constructor.
    inversion HF as [|? ? ? ? S HF']; subst. destruct b; simpl; [constructor|]; eauto.
    destruct S as [S _]. apply S. unfold clip0. apply Rmax_r. }
  split; [auto|]. split; [auto|]. intros z' Hz' [Hn' Hd'].
  specialize (H3 z' ltac:(rewrite mask_map_length; auto) Hd'). unfold prox_cost in *.
  pose proof (pos_cost_le m x z' Hm Hz' Hn').
  rewrite <- (pos_cost_eq m x z Hm H1).
  - lra.
  - eapply Forall2_impl; [|exact HF]. intros y t [S1 S2] ->. lra.
Qed.

(** ** every prox shrinks *)
Lemma shrunk_refl x : shrunk x x.
Proof. unfold shrunk; lra. Qed.
Lemma shrunk_zero x : shrunk x 0.
Proof. unfold shrunk; lra. Qed.
Lemma shrunk_trans x y z : shrunk x y -> shrunk y z -> shrunk x z.
Proof. unfold shrunk; intros [A B] [C D]; split; intros H; [specialize (A H)|specialize (B H)]; lra. Qed.
Lemma shrunk_clip x : shrunk x (clip0 x).
Proof. unfold shrunk, clip0, Rmax. destruct (Rle_dec x 0); lra. Qed.
Lemma shrunk_div d x : 1 <= d -> shrunk x (x / d).
Proof.
  intros Hd. assert (0 < / d <= 1).
  { split; [apply Rinv_0_lt_compat; lra|]. rewrite <- Rinv_1. apply Rinv_le_contravar; lra. }
  unfold shrunk, Rdiv. split; intros; nra.
Qed.

Lemma Forall2_trans (x y z : vec) : Forall2 shrunk x y -> Forall2 shrunk y z -> Forall2 shrunk x z.
Proof.
  intros H; revert z; induction H; intros z' Hz; inversion Hz; subst; constructor.
  - eapply shrunk_trans; eauto.
  - auto.
Qed.
Lemma Forall2_map_r {A B} (P : A -> B -> Prop) f x : (forall a, P a (f a)) -> Forall2 P x (map f x).
Proof. intros H; induction x; simpl; constructor; auto. Qed.
Lemma shrunk_list_refl (x : vec) : Forall2 shrunk x x.
Proof. induction x; constructor; auto using shrunk_refl. Qed.
Lemma entries_shrunk (x z : vec) : Forall2 (fun xi zi => zi = xi \/ zi = 0) x z -> Forall2 shrunk x z.
Proof.
  apply Forall2_impl. intros a b [->| ->]; [apply shrunk_refl|apply shrunk_zero].
Qed.

Lemma scad_prox1_shrunk rho sigma lam w alpha x v :
  1 < rho -> 0 < sigma -> 0 <= alpha * lam * w ->
  scad_prox1 rho sigma lam w alpha x = Ok v -> shrunk x v.
Proof.
  intros Hr Hs Ha. unfold scad_prox1. set (a := alpha * lam * w) in *.
  destruct (reqb w 0). { intros [= <-]; apply shrunk_refl. }
  unfold rltb, rleb. destruct (Rlt_dec _ _) as [H1|H1]. { intros [= <-]; apply shrunk_refl. }
  destruct (Rle_dec (sigma * (1 + a)) (Rabs x)) as [H2|H2]; simpl;
    [destruct (Rle_dec (Rabs x) (Rmax rho (1 + a) * sigma)) as [H3|H3]|].
  2,3: intros [= <-]; apply soft_shrunk; nra.
  unfold reqb. destruct (Req_EM_T (rho - 1 - a) 0) as [E|E]; [discriminate|].
  intros [= <-].
  assert (Hax : 0 < Rabs x) by nra.
  assert (Hv : 0 <= ((rho - 1) * Rabs x - rho * sigma * a) / (rho - 1 - a) <= Rabs x).
  { destruct (Rlt_dec a (rho - 1)) as [Hc|Hc].
    - rewrite Rmax_left in H3 by lra.
      split.
      + apply Rmult_le_pos; [|left; apply Rinv_0_lt_compat; lra].
        assert ((rho - 1) * (sigma * (1 + a)) <= (rho - 1) * Rabs x) by (apply Rmult_le_compat_l; lra).
        assert (0 <= sigma * (rho - 1 - a)) by nra. nra.
      + apply Rmult_le_reg_r with (rho - 1 - a); [lra|].
        unfold Rdiv. rewrite Rmult_assoc, Rinv_l, Rmult_1_r by lra. nra.
    - rewrite Rmax_right in H3 by lra.
      assert (Ex : Rabs x = sigma * (1 + a)) by lra. rewrite Ex.
      replace (((rho - 1) * (sigma * (1 + a)) - rho * sigma * a) / (rho - 1 - a)) with sigma by (field; lra).
      nra. }
  unfold rsign, rltb. unfold shrunk. destruct (Rlt_dec 0 x) as [Hp|Hp].
  - rewrite (Rabs_right x) in Hv by lra.
    replace ((rho - 1) * x - 1 * rho * sigma * a) with ((rho - 1) * x - rho * sigma * a) by ring. lra.
  - destruct (Rlt_dec x 0) as [Hn|Hn].
    + rewrite (Rabs_left x) in Hv by lra.
      replace (((rho - 1) * x - -1 * rho * sigma * a) / (rho - 1 - a))
        with (- (((rho - 1) * - x - rho * sigma * a) / (rho - 1 - a))) by (field; lra).
      lra.
    + assert (x = 0) by lra. subst x. rewrite Rabs_R0 in Hax. lra.
Qed.

Lemma scad_loop_shrunk rho sigma lam alpha w x z :
  1 < rho -> 0 < sigma -> 0 <= lam -> 0 <= alpha -> Forall (fun a => 0 <= a) w ->
  scad_prox_loop rho sigma lam alpha w x = Ok z -> Forall2 shrunk x z.
Proof.
  intros Hr Hs Hl Ha Hw. revert x z. induction Hw as [|wi w H0 Hw IH]; intros x z.
  - simpl. intros [= <-]. apply entries_shrunk. induction x; simpl; constructor; auto.
  - destruct x as [|xi x]; simpl; [discriminate|].
    destruct (scad_prox1 rho sigma lam wi alpha xi) as [v|] eqn:E; simpl; [|discriminate].
    destruct (scad_prox_loop rho sigma lam alpha w x) as [v'|] eqn:E'; simpl; [|discriminate].
    intros [= <-]. constructor; auto.
    eapply scad_prox1_shrunk; [| | |exact E]; auto.
    apply Rmult_le_pos; auto. apply Rmult_le_pos; auto.
Qed.

Lemma reg_ind' (P : reg -> Prop) :
  (forall n w p, P (RL0 n w p)) -> (forall s, P (RL0LME s)) -> (forall l w, P (RL1 l w)) ->
  (forall r l w, P (RCAD r l w)) -> (forall r s l w, P (RSCAD r s l w)) -> P RDummy ->
  (forall c, P (RPos c None)) -> (forall c r, P r -> P (RPos c (Some r))) ->
  (forall e, P (RElastic e None)) -> (forall e r, P r -> P (RElastic e (Some r))) ->
  forall r, P r.
Proof.
  intros H1 H2 H3 H4 H5 H6 H7 H8 H9 H10.
  fix IH 1. intros [n w p|s|l w|r l w|r s l w| |c [r|]|e [r|]];
    [apply H1|apply H2|apply H3|apply H4|apply H5|apply H6
    |apply H8, IH|apply H7|apply H10, IH|apply H9].
Qed.

Section Sorted.
Variable argsort : vec -> list nat.

Lemma keep_entries m (x : vec) : length m = length x -> Forall2 (fun xi zi => zi = xi \/ zi = 0) x (keep m x).
Proof.
  revert m; induction x as [|a x IH]; intros [|b m] H; simpl in H; try discriminate; constructor; auto.
  destruct b; auto.
Qed.
(** these two need no property of argsort *)
Lemma tok_entries x k : Forall2 (fun xi zi => zi = xi \/ zi = 0) x (take_only_k_max argsort x k).
Proof. rewrite take_only_k_max_keep. apply keep_entries, topk_mask_length. Qed.

Lemma mask_assign_entries m (x vals : vec) : length m = length x ->
  Forall2 (fun xi zi => zi = xi \/ zi = 0) (mask_select m x) vals ->
  Forall2 (fun xi zi => zi = xi \/ zi = 0) x (mask_assign m vals x).
Proof.
  revert x vals; induction m as [|b m IH]; intros [|a x] vals HL HF; simpl in *; try discriminate; [constructor|].
  injection HL as HL. destruct b; simpl in *.
  - inversion HF; subst. constructor; auto.
  - constructor; auto.
Qed.

Lemma take_masked_entries part x nnz z : take_masked argsort part x nnz = Ok z ->
  Forall2 (fun xi zi => zi = xi \/ zi = 0) x z.
Proof.
  unfold take_masked. destruct (length part =? length x)%nat eqn:E; simpl; [|discriminate].
  intros [= <-]. apply Nat.eqb_eq in E. apply mask_assign_entries; auto. apply tok_entries.
Qed.

Lemma optimal_tbeta_entries s b z : optimal_tbeta argsort s b = Ok z ->
  Forall2 (fun xi zi => zi = xi \/ zi = 0) b z.
Proof.
  unfold optimal_tbeta. destruct (lz_nnz_tbeta s); [|discriminate].
  destruct (lz_beta_weights s); [destruct (lz_beta_part s); [|discriminate]|].
  - apply take_masked_entries.
  - intros [= <-]. apply tok_entries.
Qed.

Lemma entries_trans (x y z : vec) : Forall2 (fun xi zi => zi = xi \/ zi = 0) x y ->
  Forall2 (fun xi zi => zi = xi \/ zi = 0) y z -> Forall2 (fun xi zi => zi = xi \/ zi = 0) x z.
Proof.
  intros H; revert z; induction H as [|a b x y Hab H IH]; intros z Hz; inversion Hz as [|? c ? z' Hbc Hz']; subst; constructor; auto.
  destruct Hbc as [->| ->]; auto.
Qed.

Lemma mapi_zero_entries (f : nat -> bool) x i :
  Forall2 (fun xi zi => zi = xi \/ zi = 0) x (mapi_from i (fun k g => if f k then 0 else g) x).
Proof. revert i; induction x as [|a x IH]; intros i; simpl; constructor; auto. destruct (f i); auto. Qed.

Lemma optimal_tgamma_entries s tb g z : optimal_tgamma argsort s tb g = Ok z ->
  Forall2 (fun xi zi => zi = xi \/ zi = 0) g z.
Proof.
  unfold optimal_tgamma. destruct (lz_gamma_part s); [|discriminate]. destruct (lz_nnz_tgamma s); [|discriminate].
  destruct (lz_independent s); simpl.
  - apply take_masked_entries.
  - destruct (lz_oracle s) as [o|]; [|discriminate]. simpl.
    destruct (hierarchy_zeros (ov_map o) l tb) as [idx|]; simpl; [|discriminate].
    destruct (guard _ _); simpl; [|discriminate].
    intros H. eapply entries_trans; [|eapply take_masked_entries; exact H].
    apply mapi_zero_entries.
Qed.

Lemma l0lme_entries s x z : l0lme_prox argsort s x = Ok z -> length z = length x ->
  Forall2 (fun xi zi => zi = xi \/ zi = 0) x z.
Proof.
  unfold l0lme_prox. destruct (lz_oracle s) as [o|]; [|discriminate]. simpl.
  destruct (optimal_tbeta _ _ _) as [tb|] eqn:E1; simpl; [|discriminate].
  destruct (optimal_tgamma _ _ _ _) as [tg|] eqn:E2; simpl; [|discriminate].
  intros [= <-] HL. unfold beta_gamma_to_x in *.
  apply optimal_tbeta_entries in E1. apply optimal_tgamma_entries in E2.
  pose proof (Forall2_len _ _ _ E1) as L1. pose proof (Forall2_len _ _ _ E2) as L2.
  rewrite app_length, <- L1, <- L2, !firstn_length, skipn_length in HL.
  assert (Hx : x = firstn (ov_p o) x ++ firstn (ov_q o) (skipn (ov_p o) x)).
  { rewrite <- (firstn_skipn (ov_p o) x) at 1. f_equal. symmetry. apply firstn_all2.
    rewrite skipn_length. lia. }
  rewrite Hx at 1. apply Forall2_app; auto.
Qed.

Lemma prox_shrunk r : forall alpha x z, params_ok r -> 0 <= alpha ->
  prox argsort r x alpha = Ok z -> length z = length x -> Forall2 shrunk x z.
Proof.
  induction r using reg_ind'; intros alpha x z Hp Ha HE HL; simpl in *.
  - apply entries_shrunk. unfold l0_prox in HE. destruct w; [destruct p; [|discriminate]|].
    + eapply take_masked_entries; eauto.
    + injection HE as <-. apply tok_entries.
  - apply entries_shrunk. eapply l0lme_entries; eauto.
  - destruct Hp as [Hl Hw]. unfold l1_prox in HE. destruct w as [w|].
    + destruct (length w =? length x)%nat eqn:E; simpl in HE; [|discriminate].
      injection HE as <-. apply Nat.eqb_eq in E. clear HL. simpl in Hw.
      revert x E; induction Hw; intros [|xi x'] E; simpl in *; try discriminate; constructor.
      * apply soft_shrunk. apply Rmult_le_pos; auto. apply Rmult_le_pos; auto.
      * apply IHHw; lia.
    + injection HE as <-. apply Forall2_map_r. intros a. apply soft_shrunk. apply Rmult_le_pos; auto.
  - destruct Hp as [Hl Hw]. unfold cad_prox in HE. destruct w as [w|].
    + destruct (length w =? length x)%nat eqn:E; simpl in HE; [|discriminate].
      injection HE as <-. apply Nat.eqb_eq in E. clear HL. simpl in Hw.
      revert x E; induction Hw; intros [|xi x'] E; simpl in *; try discriminate; constructor.
      * destruct (_ && _); [|apply shrunk_refl].
        apply soft_shrunk. apply Rmult_le_pos; auto. apply Rmult_le_pos; auto.
      * apply IHHw; lia.
    + injection HE as <-. apply Forall2_map_r. intros a. apply cad1_shrunk. apply Rmult_le_pos; auto.
  - destruct Hp as [Hr [Hs [Hl Hw]]]. unfold scad_prox in HE.
    eapply scad_loop_shrunk; [| | | | |exact HE]; auto.
    destruct w; auto. apply Forall_ones; lra.
  - injection HE as <-. apply shrunk_list_refl.
  - destruct c as [m|]; simpl in HE.
    + destruct (length m =? length x)%nat eqn:E; simpl in HE; [|discriminate].
      injection HE as <-. apply Nat.eqb_eq in E. clear HL. revert x E.
      induction m as [|b m IH]; intros [|xi x'] E; simpl in *; try discriminate; constructor.
      * destruct b; [apply shrunk_clip|apply shrunk_refl].
      * apply IH; lia.
    + injection HE as <-. apply Forall2_map_r. apply shrunk_clip.
  - destruct c as [m|]; simpl in HE.
    + destruct (length m =? length x)%nat eqn:E; simpl in HE; [|discriminate].
      eapply Forall2_trans; [|eapply IHr; [exact Hp|exact Ha|exact HE|rewrite mask_map_length; auto]].
      apply Nat.eqb_eq in E. clear HE HL. revert x E.
      induction m as [|b m IH]; intros [|xi x'] E; simpl in *; try discriminate; constructor.
      * destruct b; [apply shrunk_clip|apply shrunk_refl].
      * apply IH; lia.
    + eapply Forall2_trans; [|eapply IHr; [exact Hp|exact Ha|exact HE|rewrite map_length; auto]].
      apply Forall2_map_r. apply shrunk_clip.
  - destruct Hp as [He _]. assert (1 <= 1 + alpha * e) by nra.
    destruct (guard _ _); simpl in HE; [|discriminate]. injection HE as <-.
    apply Forall2_map_r. intros xa. apply shrunk_div; auto.
  - destruct Hp as [He Hp]. assert (1 <= 1 + alpha * e) by nra.
    destruct (guard _ _); simpl in HE; [|discriminate].
    eapply Forall2_trans; [|eapply IHr; [exact Hp| |exact HE|rewrite map_length; auto]].
    + apply Forall2_map_r. intros a'. apply shrunk_div; auto.
    + apply Rmult_le_pos; auto. left. apply Rinv_0_lt_compat. lra.
Qed.

End Sorted.
