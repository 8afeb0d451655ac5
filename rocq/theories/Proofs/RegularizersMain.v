(** Final lemmas about the regularizers, restated as theorems in
    Properties/Regularizers.v. *)
(*HEAD
(** Properties C01-C11: the regularizers (src/pysr3/regularizers.py). *)
From Verif.Base Require Import Py Vec.
From Verif.Model Require Import Regularizers.
From Verif.Spec Require Import ProxSpec RegSpec.
From Verif.Proofs Require Import L0Proofs.
HEAD*)
(*OPEN
Open Scope R_scope.
OPEN*)
From Coq Require Import Lra Psatz.
From Verif.Base Require Import Py Vec.
From Verif.Model Require Import Regularizers.
From Verif.Spec Require Import ProxSpec RegSpec.
From Verif.Proofs Require Import VecFacts ScalarProx L0Proofs RegularizerProofs L0LMEProofs.
Open Scope R_scope.

Ltac rsolve := repeat (match goal with
  | |- context [Rlt_dec ?a ?b] => destruct (Rlt_dec a b); try lra
  | |- context [Rle_dec ?a ?b] => destruct (Rle_dec a b); try lra
  | |- context [Req_EM_T ?a ?b] => destruct (Req_EM_T a b); try lra
  end; simpl); try lra.

(*@ C01.  Best approximation with at most nnz non-zeros, for every tie order of argsort. *)
Lemma l0_prox_best_sparse_approximation_lemma :
  forall argsort, argsort_ok argsort -> forall nnz x alpha,
  let k := match nnz with Some n => n | None => Z.of_nat (length x) end in
  exists z, prox argsort (mk_l0 nnz) x alpha = Ok z /\ length z = length x /\
    sparse k z /\ kept_or_zeroed x z /\
    forall z', length z' = length x -> sparse k z' -> sqnorm (vsub z x) <= sqnorm (vsub z' x).
Proof.
  intros argsort Hs nnz x alpha k. exists (take_only_k_max argsort x k).
  split; [reflexivity|]. split; [apply take_only_k_max_length|].
  split; [apply take_only_k_max_sparse; auto|]. split; [apply tok_entries|].
  intros z' HL Hz. apply take_only_k_max_optimal; auto.
Qed.

(*@ C01.  ... which makes it the proximal operator of the 0/infinity penalty that
    L0Regularizer.value reports. *)
Lemma l0_prox_is_prox_of_value_lemma :
  forall argsort, argsort_ok argsort -> forall k x alpha, (0 <= k)%Z ->
  exists z, prox argsort (mk_l0 (Some k)) x alpha = Ok z /\
    is_prox_of_value (value (mk_l0 (Some k))) alpha x z.
Proof.
  intros argsort Hs k x alpha Hk. exists (take_only_k_max argsort x k). split; [reflexivity|].
  split; [apply take_only_k_max_length|]. exists 0. split.
  - simpl. rewrite nnz_count_nonzeros. pose proof (take_only_k_max_sparse argsort Hs x k) as H.
    unfold sparse in H. destruct (Z.ltb_spec k (Z.of_nat (nonzeros (take_only_k_max argsort x k)))); [lia|reflexivity].
  - intros z' v' HL HV. simpl in HV. rewrite nnz_count_nonzeros in HV.
    destruct (Z.ltb_spec k (Z.of_nat (nonzeros z'))); [discriminate|]. injection HV as <-.
    unfold prox_cost. pose proof (take_only_k_max_optimal argsort Hs x k z' HL) as H0.
    assert (sparse k z') by (unfold sparse; lia). specialize (H0 H1). lra.
Qed.

(*@ An argsort with the contract exists. *)
Lemma ex_argsort_ok_lemma : argsort_ok argsort_ins.
Proof. exact argsort_ins_ok. Qed.

(*@ prox of [3; -1; 2] with nnz=2 drops the -1. *)
Lemma ex_l0_prox_lemma : prox argsort_ins (mk_l0 (Some 2%Z)) [3; -1; 2] 1 = Ok [3; 0; 2].
Proof.
  assert (E : argsort_ins (vabs [3; -1; 2]) = [1%nat; 2%nat; 0%nat]).
  { unfold vabs, map, argsort_ins, fold_right, seq, length, insert_idx, nth, rleb.
    rewrite (Rabs_right 3), (Rabs_right 2), (Rabs_left (-1)) by lra. rsolve. reflexivity. }
  simpl. unfold l0_prox, take_only_k_max. simpl Z.ltb. cbv iota. rewrite E. reflexivity.
Qed.

(*@ C02.  With weights attached: coordinates of weight zero are untouched and counted
    first, and the result is a closest vector under that budget. *)
Lemma l0_prox_must_include_lemma :
  forall argsort, argsort_ok argsort -> forall nnz w x alpha r,
  length w = length x -> instantiate (mk_l0 nnz) w None = Ok r ->
  let k := match nnz with Some n => n | None => Z.of_nat (length x) end in
  exists z, prox argsort r x alpha = Ok z /\ length z = length x /\
    (forall i, (i < length x)%nat -> nth i w 0 = 0 -> nth i z 0 = nth i x 0) /\
    within_budget k w z /\ kept_or_zeroed x z /\
    (Z.of_nat (nonzeros z) <= Z.max k (Z.of_nat (zero_count w)))%Z /\
    forall z', length z' = length x -> within_budget k w z' ->
      sqnorm (vsub z x) <= sqnorm (vsub z' x).
Proof.
  intros argsort Hs nnz w x alpha r HL HI k. injection HI as <-.
  assert (HP : length (astype_bool w) = length x) by (unfold astype_bool; rewrite map_length; auto).
  destruct (take_masked_spec argsort Hs (astype_bool w) x k HP) as [z [E [Lz [S [U [F O]]]]]].
  exists z. split; [exact E|]. split; [auto|]. split; [|split; [|split; [|split]]].
  - intros i Hi Hz. apply U. rewrite nth_astype_bool by lia. apply nonzero_false; auto.
  - apply within_budget_mask; auto.
  - exact F.
  - rewrite <- zero_count_countb, <- countb_negb_astype. apply nonzeros_budget; auto. lia.
  - intros z' Hz' Hb. apply O; auto. apply within_budget_mask; auto.
Qed.

(*@ C02.  No dropped penalised coordinate is larger than a kept one. *)
Lemma l0_prox_keeps_largest_lemma :
  forall argsort, argsort_ok argsort -> forall nnz x alpha z i j,
  prox argsort (mk_l0 nnz) x alpha = Ok z ->
  (i < length x)%nat -> (j < length x)%nat ->
  nth i z 0 <> 0 -> nth j z 0 <> nth j x 0 -> Rabs (nth j x 0) <= Rabs (nth i x 0).
Proof.
  intros argsort Hs nnz x alpha z i j HE Hi Hj. injection HE as <-.
  apply take_only_k_max_dominates; auto.
Qed.

(*@ Weights [0; 1; 1] are attached successfully and leave one budget slot out of two. *)
Lemma ex_l0_must_include_lemma :
  instantiate (mk_l0 (Some 2%Z)) [0; 1; 1] None
    = Ok (RL0 (Some 2%Z) (Some [0; 1; 1]) (Some [false; true; true])) /\
  zero_count [0; 1; 1] = 1%nat /\ within_budget 2 [0; 1; 1] [5; 0; 3] /\
  ~ within_budget 2 [0; 1; 1] [0; 1; 3].
Proof.
  split; [|split; [|split]].
  - unfold instantiate, mk_l0, astype_bool, nonzero, reqb. simpl. rsolve. reflexivity.
  - unfold zero_count. simpl. rsolve. reflexivity.
  - unfold within_budget, zero_count. simpl. rsolve. lia.
  - unfold within_budget, zero_count. simpl. rsolve. lia.
Qed.

(*@ C03.  Both budgets, the hierarchy, the exempt coordinates, and optimality of each
    half (of the random-effect half given the fixed-effect half). *)
Lemma l0lme_prox_budgets_and_hierarchy_lemma :
  forall argsort, argsort_ok argsort -> forall nb ng indep p q bmap w x alpha r,
  length w = (p + q)%nat -> length x = (p + q)%nat -> length bmap = p ->
  (forall i, (i < p)%nat -> (nth i bmap (-1) < Z.of_nat q)%Z) ->
  instantiate (mk_l0lme nb ng indep (Some {| ov_p := p; ov_q := q; ov_map := bmap |})) w None = Ok r ->
  let bw := firstn p w in
  let gw := skipn p w in
  let nb' := match nb with Some n => n | None => Z.of_nat p end in
  let ng' := match ng with Some n => n | None => Z.of_nat q end in
  exists tb tg,
    prox argsort r x alpha = Ok (tb ++ tg) /\ length tb = p /\ length tg = q /\
    kept_or_zeroed x (tb ++ tg) /\
    within_budget nb' bw tb /\ within_budget ng' gw tg /\
    (Z.of_nat (nonzeros tb) <= Z.max nb' (Z.of_nat (zero_count bw)))%Z /\
    (Z.of_nat (nonzeros tg) <= Z.max ng' (Z.of_nat (zero_count gw)))%Z /\
    (indep = false -> hierarchical bmap gw tb tg) /\
    (forall k, (k < p + q)%nat -> nth k w 0 = 0 -> nth k (tb ++ tg) 0 = nth k x 0) /\
    (forall tb', length tb' = p -> within_budget nb' bw tb' ->
       sqnorm (vsub tb (firstn p x)) <= sqnorm (vsub tb' (firstn p x))) /\
    (forall tg', length tg' = q -> within_budget ng' gw tg' ->
       (indep = false -> hierarchical bmap gw tb tg') ->
       sqnorm (vsub tg (skipn p x)) <= sqnorm (vsub tg' (skipn p x))).
Proof. exact l0lme_prox_spec. Qed.

(*@ A layout with an intercept that is fixed only, one column that is both, and one
    random-only column meets the hypotheses. *)
Lemma ex_l0lme_layout_lemma :
  length [0; 1; 1; 1] = (2 + 2)%nat /\ length [0%Z; (-1)%Z] = 2%nat /\
  (forall i, (i < 2)%nat -> (nth i [(-1)%Z; 0%Z] (-1) < Z.of_nat 2)%Z) /\
  exists r, instantiate (mk_l0lme (Some 1%Z) (Some 1%Z) false
     (Some {| ov_p := 2; ov_q := 2; ov_map := [(-1)%Z; 0%Z] |})) [0; 1; 1; 1] None = Ok r.
Proof.
  split; [reflexivity|]. split; [reflexivity|]. split.
  - intros [|[|i]] H; simpl; lia.
  - eexists. reflexivity.
Qed.

(*@ C04.  Soft thresholding is the unique minimiser; weights w. *)
Lemma l1_prox_exact_weighted_lemma :
  forall argsort lam w o x alpha r, 0 <= lam -> 0 <= alpha ->
  length w = length x -> Forall (fun wi => 0 <= wi) w ->
  instantiate (mk_l1 lam) w o = Ok r ->
  exists z, prox argsort r x alpha = Ok z /\
    is_unique_prox all_vecs (fun z' => lam * weighted_l1 w z') alpha x z.
Proof.
  intros argsort lam w o x alpha r Hl Ha HL Hw HI. injection HI as <-.
  apply l1_prox_unique; auto.
Qed.

(*@ C04.  The same without weights. *)
Lemma l1_prox_exact_lemma :
  forall argsort lam x alpha, 0 <= lam -> 0 <= alpha ->
  exists z, prox argsort (mk_l1 lam) x alpha = Ok z /\
    is_unique_prox all_vecs (fun z' => lam * weighted_l1 (ones (length x)) z') alpha x z.
Proof.
  intros argsort lam x alpha Hl Ha.
  change (prox argsort (mk_l1 lam) x alpha) with (l1_prox lam None x alpha). rewrite l1_prox_ones.
  apply l1_prox_unique; auto; [apply ones_length|apply Forall_ones; lra].
Qed.

(*@ prox of [3; -1] with alpha*lam = 2 is [1; 0]. *)
Lemma ex_l1_prox_lemma : prox argsort_ins (mk_l1 2) [3; -1] 1 = Ok [1; 0].
Proof.
  simpl. unfold soft, clip0, Rmax. do 2 f_equal; [rsolve|]. f_equal. rsolve.
Qed.

(*@ C05 (partial: without weights, or with lam = 1).  prox minimises the reported value. *)
Lemma l1_prox_minimises_value_partial_lemma :
  forall argsort lam w x alpha, 0 <= lam -> 0 <= alpha ->
  (w = None \/ (exists l, w = Some l /\ lam = 1 /\ length l = length x /\ Forall (fun wi => 0 <= wi) l)) ->
  exists z, prox argsort (RL1 lam w) x alpha = Ok z /\
    is_prox_of_value (value (RL1 lam w)) alpha x z.
Proof.
  intros argsort lam w x alpha Hl Ha [->|[l [-> [-> [HL Hw]]]]].
  - change (prox argsort (RL1 lam None) x alpha) with (l1_prox lam None x alpha). rewrite l1_prox_ones.
    destruct (l1_prox_unique lam (ones (length x)) x alpha) as [z [E U]]; auto;
      [apply ones_length|apply Forall_ones; lra|].
    exists z. split; auto.
    refine (proj2 (prox_of_value_iff _ (fun z' => lam * weighted_l1 (ones (length x)) z') _ _ _ _) _).
    { intros z' Hz. simpl. rewrite vsum_weighted_l1, Hz. reflexivity. }
    apply unique_is_prox; auto.
  - change (prox argsort (RL1 1 (Some l)) x alpha) with (l1_prox 1 (Some l) x alpha).
    destruct (l1_prox_unique 1 l x alpha) as [z [E U]]; auto.
    exists z. split; auto.
    refine (proj2 (prox_of_value_iff _ (fun z' => 1 * weighted_l1 l z') _ _ _ _) _).
    { intros z' Hz. simpl. rewrite HL, Hz, Nat.eqb_refl. simpl. rewrite vdot_weighted_l1, Rmult_1_l. reflexivity. }
    apply unique_is_prox; auto.
Qed.

(*@ C05 (refuted with weights): for every lam other than 1 there are weights (all ones)
    and a point where prox does not minimise 1/2||z-x||^2 + alpha*value(z), because
    value drops lam once weights are attached. *)
Lemma l1_prox_minimises_value_refuted_lemma :
  forall argsort lam, 0 <= lam -> lam <> 1 ->
  exists w x alpha r z, 0 < alpha /\ instantiate (mk_l1 lam) w None = Ok r /\
    prox argsort r x alpha = Ok z /\ ~ is_prox_of_value (value r) alpha x z.
Proof.
  intros argsort lam Hl Hn. exists [1], [lam + 2], 1, (RL1 lam (Some [1])), [2].
  split; [lra|]. split; [reflexivity|]. split.
  - simpl. unfold soft, clip0, Rmax. do 2 f_equal. rsolve.
  - intros [_ [v [Hv H]]]. simpl in Hv. injection Hv as <-.
    specialize (H [lam + 1] (lam + 1) eq_refl). simpl in H.
    assert (E : Ok (Fin (vdot [1] (vabs [lam + 1]))) = Ok (Fin (lam + 1))).
    { do 2 f_equal. unfold vdot, vmul, vabs. simpl. rewrite Rabs_right by lra. ring. }
    specialize (H E). unfold prox_cost, sqnorm, vdot, vmul, vsub, vabs in H. simpl in H.
    rewrite (Rabs_right 2) in H by lra.
    assert (0 < (lam - 1) ^ 2) by (apply pow2_gt_0; lra). nra.
Qed.

(*@ C06 (partial: every penalised coordinate outside the bad zone).  For any non-negative weights,
    CAD prox is exact if and only if every penalised coordinate lies in the region of its weight. *)
Lemma cad_prox_exact_iff_partial_lemma :
  forall argsort rho lam w o x alpha r, 0 <= rho -> 0 <= lam -> 0 <= alpha ->
  length w = length x -> Forall (fun wi => 0 <= wi) w ->
  instantiate (mk_cad rho lam) w o = Ok r ->
  exists z, prox argsort r x alpha = Ok z /\
   (is_prox_of_value (value r) alpha x z <-> Forall2 (cad_weighted_region rho (alpha * lam)) w x).
Proof.
  intros argsort rho lam w o x alpha r Hr Hl Ha HL Hw HI. injection HI as <-.
  exists (map2 (cad_step rho lam alpha) w x). split.
  - simpl. apply cad_prox_weighted; auto.
  - rewrite <- (cad_exact_iff_weighted rho lam w x alpha Hr Hl Ha HL Hw).
    apply prox_of_value_iff. intros z' Hz. simpl. rewrite HL, Hz, Nat.eqb_refl. simpl.
    rewrite cad_value_sep. reflexivity.
Qed.

(*@ C06 (partial).  The same without weights. *)
Lemma cad_prox_exact_iff_unweighted_partial_lemma :
  forall argsort rho lam x alpha, 0 <= rho -> 0 <= lam -> 0 <= alpha ->
  exists z, prox argsort (mk_cad rho lam) x alpha = Ok z /\
   (is_prox_of_value (value (mk_cad rho lam)) alpha x z <->
    Forall (cad_exact_region rho (alpha * lam)) x).
Proof.
  intros argsort rho lam x alpha Hr Hl Ha.
  exists (map2 (cad_step rho lam alpha) (ones (length x)) x). split.
  - change (prox argsort (mk_cad rho lam) x alpha) with (cad_prox rho lam None x alpha).
    rewrite cad_prox_ones. apply cad_prox_weighted, ones_length.
  - assert (E : Forall (cad_exact_region rho (alpha * lam)) x <->
      Forall2 (fun wi xi => wi = 1 -> cad_exact_region rho (alpha * lam) xi) (ones (length x)) x).
    { split; intros H.
      - induction H; simpl; constructor; auto.
      - induction x as [|a x IH]; simpl in H; constructor; inversion H; auto. }
    rewrite E, <- (cad_exact_iff rho lam (ones (length x)) x alpha Hr Hl Ha).
    + apply prox_of_value_iff. intros z' Hz. simpl.
      rewrite cad_value_ones, Hz, cad_value_sep. reflexivity.
    + apply ones_length.
    + apply Forall_ones; auto.
Qed.

(*@ C06 (refuted): for every rho > 0 and every positive alpha*lam there is a point,
    just above rho, where prox does not minimise. *)
Lemma cad_prox_minimises_value_refuted_lemma :
  forall argsort rho lam alpha, 0 < rho -> 0 < lam -> 0 < alpha ->
  exists x z, prox argsort (mk_cad rho lam) x alpha = Ok z /\
    ~ is_prox_of_value (value (mk_cad rho lam)) alpha x z.
Proof.
  intros argsort rho lam alpha Hr Hl Ha.
  assert (Hc : 0 < alpha * lam) by (apply Rmult_lt_0_compat; auto).
  assert (Hx : exists x0, ~ cad_exact_region rho (alpha * lam) x0).
  { set (c := alpha * lam) in *. unfold cad_exact_region. destruct (Rlt_dec c (2 * rho)) as [H|H].
    - exists ((Rmax rho c + (rho + c / 2)) / 2).
      assert (Rmax rho c < rho + c / 2) by (unfold Rmax; destruct (Rle_dec rho c); lra).
      pose proof (Rmax_l rho c). pose proof (Rmax_r rho c).
      rewrite Rabs_right by lra. intros [K|[[K1 K2]|[K1 K2]]]; lra.
    - exists (3 / 2 * rho). rewrite Rabs_right by lra.
      intros [K|[[K1 K2]|[K1 K2]]]; [lra|lra|]. nra. }
  destruct Hx as [x0 Hx].
  destruct (cad_prox_exact_iff_unweighted_partial_lemma argsort rho lam [x0] alpha) as [z [E I]]; try lra.
  exists [x0], z. split; [exact E|]. rewrite I. intros H. inversion H; auto.
Qed.

(*@ All coordinates of [0; 1; 10] are in the exact region for rho = 2, alpha*lam = 1;
    2.25 is not. *)
Lemma ex_cad_region_lemma :
  Forall (cad_exact_region 2 1) [0; 1; 10] /\ ~ cad_exact_region 2 1 (9 / 4).
Proof.
  split.
  - apply Forall_cons; [|apply Forall_cons; [|apply Forall_cons; [|apply Forall_nil]]];
      unfold cad_exact_region.
    + rewrite Rabs_R0. left; lra.
    + rewrite Rabs_right by lra. left; lra.
    + rewrite Rabs_right by lra. right; left; lra.
  - unfold cad_exact_region. rewrite Rabs_right by lra. intros [K|[[K1 K2]|[K1 K2]]]; lra.
Qed.

(*@ With weight 2 the penalty is clipped at rho/2 = 1: for alpha*lam = 1 soft-thresholding is right at 2
    (both branches cost the same), doing nothing at 3, and soft-thresholding below rho wrong for rho = 4 at 4. *)
Lemma ex_cad_weighted_region_lemma :
  cad_weighted_region 2 1 2 2 /\ cad_weighted_region 2 1 2 3 /\ ~ cad_weighted_region 4 (/ 2) 2 4 /\
  forall x, cad_weighted_region 2 1 0 x.
Proof.
  unfold cad_weighted_region, soft_best, identity_best. rewrite (Rabs_right 2), (Rabs_right 3), (Rabs_right 4) by lra.
  split; [intros _; split; intros; [right; left; lra|lra]|].
  split; [intros _; split; intros; [lra|right; left; lra]|].
  split; [|intros x K; lra].
  intros H. destruct H as [H _]; [lra|]. destruct (H ltac:(lra)) as [K|[[K1 K2]|[K1 K2]]]; lra.
Qed.

(*@ C07 (partial: alpha*lam*w < rho - 1, the convex case).  SCAD prox is the unique
    minimiser of its value. *)
Lemma scad_prox_minimises_value_partial_lemma :
  forall argsort rho sigma lam w x alpha, 1 < rho -> 0 < sigma -> 0 <= lam -> 0 <= alpha ->
  length w = length x -> Forall (fun wi => 0 <= wi /\ alpha * lam * wi < rho - 1) w ->
  exists z, prox argsort (RSCAD rho sigma lam (Some w)) x alpha = Ok z /\
    is_prox_of_value (value (RSCAD rho sigma lam (Some w))) alpha x z /\
    is_unique_prox all_vecs
      (fun z' => lam * separable (fun wi t => wi * scad_penalty rho sigma t) w z') alpha x z.
Proof.
  intros argsort rho sigma lam w x alpha Hr Hs Hl Ha HL Hw.
  destruct (scad_prox_unique rho sigma lam w x alpha Hr Hs Hl Ha HL Hw) as [z [E U]].
  exists z. split; [exact E|]. split; [|exact U].
  refine (proj2 (prox_of_value_iff _
     (fun z' => lam * separable (fun wi t => wi * scad_penalty rho sigma t) w z') _ _ _ _) _).
  { intros z' _. simpl. rewrite scad_value_spec. reflexivity. }
  apply unique_is_prox. exact U.
Qed.

(*@ C07 (partial).  The same without weights. *)
Lemma scad_prox_minimises_value_unweighted_partial_lemma :
  forall argsort rho sigma lam x alpha r, 0 < sigma -> 0 <= lam -> 0 <= alpha ->
  alpha * lam < rho - 1 -> mk_scad rho sigma lam = Ok r ->
  exists z, prox argsort r x alpha = Ok z /\ is_prox_of_value (value r) alpha x z.
Proof.
  intros argsort rho sigma lam x alpha r Hs Hl Ha Hc HI.
  unfold mk_scad, rltb in HI. destruct (Rlt_dec 1 rho) as [Hr|Hr]; [|discriminate]. injection HI as <-.
  destruct (scad_prox_unique rho sigma lam (ones (length x)) x alpha Hr Hs Hl Ha (ones_length _)) as [z [E U]].
  { apply Forall_ones. lra. }
  exists z. split; [exact E|].
  refine (proj2 (prox_of_value_iff _
     (fun z' => lam * separable (fun wi t => wi * scad_penalty rho sigma t) (ones (length x)) z') _ _ _ _) _).
  { intros z' Hz. simpl. rewrite scad_value_spec, Hz. reflexivity. }
  apply unique_is_prox. exact U.
Qed.

(*@ C07 (refuted): whenever alpha*lam > rho - 1 there is a point where prox does not
    minimise its value. *)
Lemma scad_prox_minimises_value_refuted_lemma :
  forall argsort rho sigma lam alpha, 1 < rho -> 0 < sigma -> rho - 1 < alpha * lam ->
  exists r x z, mk_scad rho sigma lam = Ok r /\ prox argsort r x alpha = Ok z /\
    ~ is_prox_of_value (value r) alpha x z.
Proof.
  intros argsort rho sigma lam alpha Hr Hs Hc.
  destruct (scad_bad_point rho sigma (alpha * lam) Hr Hs Hc) as [x [t [Hx [Hx2 Ht]]]].
  assert (E1 : alpha * lam * 1 = alpha * lam) by ring.
  exists (RSCAD rho sigma lam None), [x], [soft (sigma * (alpha * lam)) x].
  split. { unfold mk_scad, rltb. destruct (Rlt_dec 1 rho); [reflexivity|lra]. }
  split.
  - simpl. unfold scad_prox. simpl. unfold scad_prox1. rewrite E1. unfold reqb.
    destruct (Req_EM_T 1 0); [lra|].
    rewrite (Rabs_right x) by nra. rewrite Rmax_right by lra.
    unfold rltb, rleb. destruct (Rlt_dec ((1 + alpha * lam) * sigma) x); [lra|].
    destruct (Rle_dec (sigma * (1 + alpha * lam)) x); [lra|]. reflexivity.
  - intros [_ [v [Hv H]]]. simpl in Hv. injection Hv as <-.
    specialize (H [t] _ eq_refl eq_refl). unfold prox_cost in H.
    change (vsub [?a] [?b]) with [a - b] in H. rewrite !sqnorm_cons in H. simpl in H.
    rewrite !scad_value1_spec in H.
    unfold sqnorm, vdot, vmul in H. simpl in H. nra.
Qed.

(*@ C07 (refuted): at alpha*lam = rho - 1 the prox divides by zero at |x| = rho*sigma;
    the defaults rho=2, sigma=1, lam=1 hit this at alpha=1, x=2. *)
Lemma scad_prox_always_finite_refuted_lemma :
  forall argsort rho sigma lam alpha, 1 < rho -> 0 < sigma -> alpha * lam = rho - 1 ->
  exists r, mk_scad rho sigma lam = Ok r /\ prox argsort r [rho * sigma] alpha = Err NotFinite.
Proof.
  intros argsort rho sigma lam alpha Hr Hs Hc.
  exists (RSCAD rho sigma lam None).
  split. { unfold mk_scad, rltb. destruct (Rlt_dec 1 rho); [reflexivity|lra]. }
  simpl. unfold scad_prox. simpl. unfold scad_prox1. assert (E1 : alpha * lam * 1 = rho - 1) by lra. rewrite E1.
  unfold reqb. destruct (Req_EM_T 1 0); [lra|].
  rewrite Rabs_right by nra. replace (Rmax rho (1 + (rho - 1))) with rho by (rewrite Rmax_left; lra).
  unfold rltb, rleb. destruct (Rlt_dec (rho * sigma) (rho * sigma)); [lra|].
  destruct (Rle_dec (sigma * (1 + (rho - 1))) (rho * sigma)); [|lra].
  destruct (Rle_dec (rho * sigma) (rho * sigma)); [|lra]. simpl.
  destruct (Req_EM_T (rho - 1 - (rho - 1)) 0); [reflexivity|lra].
Qed.

(*@ rho = 3.7, sigma = 1, lam = 1, alpha = 1 is in the convex case; rho = 3/2 is not. *)
Lemma ex_scad_regimes_lemma :
  1 * 1 < 37 / 10 - 1 /\ 3 / 2 - 1 < 1 * 1 /\ (exists r, mk_scad (37 / 10) 1 1 = Ok r) /\
  mk_scad 1 1 1 = Err AssertionError.
Proof.
  split; [lra|]. split; [lra|]. unfold mk_scad, rltb. split.
  - destruct (Rlt_dec 1 (37 / 10)); [|lra]. eexists; reflexivity.
  - destruct (Rlt_dec 1 1); [lra|reflexivity].
Qed.

(*@ C08.  If the inner prox is exact for g at the rescaled point, the wrapper's prox is
    exact for eps/2||.||^2 + g. *)
Lemma elastic_prox_exact_lemma :
  forall argsort r dom g eps x alpha z, 0 <= eps -> 0 < alpha ->
  let d := 1 + alpha * eps in
  prox argsort r (map (fun xi => xi / d) x) (alpha / d) = Ok z ->
  is_prox dom g (alpha / d) (map (fun xi => xi / d) x) z ->
  prox argsort (mk_elastic eps (Some r)) x alpha = Ok z /\
  is_prox dom (fun z' => eps / 2 * sqnorm z' + g z') alpha x z.
Proof.
  intros argsort r dom g eps x alpha z He Ha d HE HP.
  assert (Hd : 0 < 1 + alpha * eps) by nra. split.
  - simpl. unfold nonzero, reqb. destruct (Req_EM_T (1 + alpha * eps) 0); [lra|]. exact HE.
  - apply elastic_exact; auto.
Qed.

(*@ C08.  In particular the wrapper minimises its own reported value whenever the inner
    regularizer does. *)
Lemma elastic_prox_minimises_value_lemma :
  forall argsort r eps x alpha z, 0 <= eps -> 0 < alpha ->
  let d := 1 + alpha * eps in
  prox argsort r (map (fun xi => xi / d) x) (alpha / d) = Ok z ->
  is_prox_of_value (value r) (alpha / d) (map (fun xi => xi / d) x) z ->
  prox argsort (mk_elastic eps (Some r)) x alpha = Ok z /\
  is_prox_of_value (value (mk_elastic eps (Some r))) alpha x z.
Proof.
  intros argsort r eps x alpha z He Ha d HE [HL [v [Hv HP]]].
  assert (Hd : 0 < 1 + alpha * eps) by nra. rewrite map_length in HL. split.
  - simpl. unfold nonzero, reqb. destruct (Req_EM_T (1 + alpha * eps) 0); [lra|]. exact HE.
  - split; [auto|]. exists (eps / 2 * sqnorm z + v). split.
    + simpl. rewrite Hv. simpl. rewrite <- norm_sq. simpl. reflexivity.
    + intros z' v' Hz' Hv'. simpl in Hv'. destruct (value r z') as [[u|]|] eqn:E; simpl in Hv'; try discriminate.
      injection Hv' as <-.
      specialize (HP z' u ltac:(rewrite map_length; auto) E).
      pose proof (norm_sq z') as N. simpl in N. rewrite N.
      rewrite !elastic_cost by auto. cbv zeta. rewrite div_vscale in HP. fold d.
      apply Rplus_le_compat_r. apply Rmult_le_compat_l; [unfold d; lra|]. exact HP.
Qed.

(*@ C08.  Example: the elastic net over the L1 penalty, for all x. *)
Lemma elastic_net_l1_exact_lemma :
  forall argsort lam eps x alpha, 0 <= lam -> 0 <= eps -> 0 < alpha ->
  exists z, prox argsort (mk_elastic eps (Some (mk_l1 lam))) x alpha = Ok z /\
    is_prox all_vecs (fun z' => eps / 2 * sqnorm z' + lam * weighted_l1 (ones (length x)) z') alpha x z.
Proof.
  intros argsort lam eps x alpha Hl He Ha.
  assert (Hd : 0 < 1 + alpha * eps) by nra.
  set (y := map (fun xi => xi / (1 + alpha * eps)) x).
  destruct (l1_prox_exact_lemma argsort lam y (alpha / (1 + alpha * eps)) Hl) as [z [E U]].
  { apply Rmult_le_pos; [lra|]. left; apply Rinv_0_lt_compat; auto. }
  apply unique_is_prox in U. unfold y in U at 1. rewrite map_length in U.
  destruct (elastic_prox_exact_lemma argsort (mk_l1 lam) _ _ eps x alpha z He Ha E U) as [H1 H2].
  exists z. split; [exact H1|exact H2].
Qed.

(*@ C09.  Random-effect coordinates come out non-negative, for every nesting of
    regularizers with parameters in their documented ranges. *)
Lemma positive_quadrant_nonneg_lemma :
  forall argsort o m other x alpha z, 0 <= alpha ->
  m = repeat false (ov_p o) ++ repeat true (ov_q o) ->
  (match other with Some r => params_ok r | None => True end) ->
  prox argsort (RPos (Some m) other) x alpha = Ok z -> length z = length x ->
  nonneg_on m z.
Proof.
  intros argsort o m other x alpha z Ha _ Hp HE HL. simpl in HE.
  destruct (length m =? length x)%nat eqn:E; simpl in HE; [|discriminate]. apply Nat.eqb_eq in E.
  assert (HF : Forall2 shrunk (mask_map m clip0 x) z).
  { destruct other as [r|].
    - eapply prox_shrunk; eauto. rewrite mask_map_length; auto.
    - injection HE as <-. apply shrunk_list_refl. }
  clear HE. unfold nonneg_on. revert x z E HL HF.
  induction m as [|b m IH]; intros [|xi x] [|zi z] E HL HF; simpl in *; try discriminate; try constructor.
  inversion HF as [|? ? ? ? S HF']; subst. destruct b; simpl; [constructor|]; eauto.
  destruct S as [S _]. apply S. unfold clip0. apply Rmax_r.
Qed.

(*@ C09.  From the constructor on: after instantiate with an oracle of p fixed and q random
    effects, the last q coordinates of every prox output are non-negative. *)
Lemma positive_quadrant_variances_nonneg_lemma :
  forall argsort other w o r x alpha z j, 0 <= alpha ->
  instantiate (mk_pos other) w (Some o) = Ok r -> params_ok r ->
  prox argsort r x alpha = Ok z -> length z = length x ->
  (j < ov_q o)%nat -> 0 <= nth (ov_p o + j) z 0.
Proof.
  intros argsort other w o r x alpha z j Ha HI Hp HE HL Hj.
  set (m := repeat false (ov_p o) ++ repeat true (ov_q o)).
  assert (Hr : exists other', r = RPos (Some m) other' /\
            match other' with Some r' => params_ok r' | None => True end).
  { simpl in HI. destruct other as [r0|].
    - destruct (instantiate r0 w None) as [r1|]; simpl in HI; [|discriminate].
      injection HI as <-. exists (Some r1). split; auto.
    - injection HI as <-. exists None. auto. }
  destruct Hr as [other' [-> Hp']].
  assert (N : nonneg_on m z) by (eapply positive_quadrant_nonneg_lemma; eauto; reflexivity).
  simpl in HE. destruct (length m =? length x)%nat eqn:E; simpl in HE; [|discriminate].
  apply Nat.eqb_eq in E. assert (Hz : length z = (ov_p o + ov_q o)%nat).
  { rewrite HL, <- E. unfold m. rewrite app_length, !repeat_length. reflexivity. }
  clear - N Hz Hj. subst m. unfold nonneg_on in N. revert z N Hz.
  induction (ov_p o) as [|p IH]; simpl; intros z N Hz.
  - revert j z Hj N Hz. induction (ov_q o) as [|q IHq]; intros j [|z0 z] Hj N Hz; simpl in *; try lia.
    inversion N; subst. destruct j; simpl; auto. apply IHq; auto; lia.
  - destruct z as [|z0 z]; simpl in *; [lia|]. apply IH; auto.
Qed.

(*@ C09.  If the inner prox is exact for g at the clipped point, the wrapper's prox is
    exact for g restricted to non-negative random-effect coordinates.  No assumption on
    g is needed beyond the inner prox being exact and the inner regularizer having
    parameters in range. *)
Lemma positive_quadrant_prox_exact_lemma :
  forall argsort m r dom g x alpha z, 0 <= alpha -> params_ok r -> length m = length x ->
  let y := mask_map m (fun a => Rmax a 0) x in
  prox argsort r y alpha = Ok z -> is_prox dom g alpha y z ->
  prox argsort (RPos (Some m) (Some r)) x alpha = Ok z /\
  is_prox (fun z' => nonneg_on m z' /\ dom z') g alpha x z.
Proof.
  intros argsort m r dom g x alpha z Ha Hp HL y HE HP. split.
  - simpl. rewrite HL, Nat.eqb_refl. simpl. exact HE.
  - apply pos_exact; auto. eapply prox_shrunk; [exact Hp|exact Ha|exact HE|]. apply HP.
Qed.

(*@ The mask attached by instantiate is "False for fixed, True for random effects". *)
Lemma ex_positive_quadrant_instantiate_lemma :
  forall w, instantiate (mk_pos (Some (mk_l1 1))) w (Some {| ov_p := 2; ov_q := 1; ov_map := [] |})
  = Ok (RPos (Some [false; false; true]) (Some (RL1 1 (Some w)))) /\ params_ok (RL1 1 (Some [1; 1; 0])).
Proof.
  intros w. split; [reflexivity|]. simpl. split; [lra|]. repeat constructor; lra.
Qed.

(*@ C10.  Every prox shrinks coordinatewise and keeps signs, for every nesting. *)
Lemma prox_shrinks_and_keeps_signs_lemma :
  forall argsort r alpha x z, params_ok r -> 0 <= alpha ->
  prox argsort r x alpha = Ok z -> length z = length x -> Forall2 shrunk x z.
Proof. intros argsort r alpha x z. apply prox_shrunk. Qed.

(*@ C10.  Hence zero stays zero and magnitudes never grow. *)
Lemma prox_zero_stays_zero_lemma :
  forall argsort r alpha x z k, params_ok r -> 0 <= alpha ->
  prox argsort r x alpha = Ok z -> length z = length x -> (k < length x)%nat ->
  Rabs (nth k z 0) <= Rabs (nth k x 0) /\ (nth k x 0 = 0 -> nth k z 0 = 0).
Proof.
  intros argsort r alpha x z k Hp Ha HE HL Hk.
  pose proof (prox_shrunk argsort r alpha x z Hp Ha HE HL) as HF.
  pose proof (Forall2_nth_elim _ _ _ 0 0 k HF Hk) as [S1 S2]. split.
  - destruct (Rle_dec 0 (nth k x 0)) as [H|H].
    + rewrite !Rabs_right; lra.
    + rewrite !Rabs_left1; lra.
  - intros E. rewrite E in *. lra.
Qed.

(*@ A nested regularizer with parameters in range. *)
Lemma ex_params_ok_lemma :
  params_ok (RPos (Some [true]) (Some (RElastic 1 (Some (RSCAD 3 1 1 (Some [1])))))).
Proof. simpl. repeat split; try lra. repeat constructor; lra. Qed.

(*@ C11.  A coordinate of weight zero passes through prox unchanged. *)
Lemma zero_weight_coordinate_unchanged_lemma :
  forall argsort r0 r w o x alpha z k,
  plain_reg r0 -> instantiate r0 w o = Ok r -> length w = length x ->
  prox argsort r x alpha = Ok z ->
  (k < length x)%nat -> nth k w 0 = 0 -> nth k z 0 = nth k x 0.
Proof. exact zero_weight_prox. Qed.

(*@ C11.  ... and does not contribute to value. *)
Lemma zero_weight_coordinate_not_charged_lemma :
  forall r0 r w o x x',
  (match r0 with RL1 _ _ | RSCAD _ _ _ _ => True | RCAD rho _ _ => 0 <= rho | _ => False end) ->
  instantiate r0 w o = Ok r -> agree_on_penalised w x x' -> value r x = value r x'.
Proof. exact zero_weight_value. Qed.

(*@ [5; 1] and [7; 1] agree where the weights [0; 1] are not zero. *)
Lemma ex_agree_on_penalised_lemma : agree_on_penalised [0; 1] [5; 1] [7; 1].
Proof.
  split; [reflexivity|]. split; [reflexivity|].
  intros [|[|k]] Hk H; simpl in *; try lra; lia.
Qed.
