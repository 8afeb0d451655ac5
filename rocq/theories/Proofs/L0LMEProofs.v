(** L0RegularizerLME.prox, and exemption of zero-weight coordinates. *)
From Coq Require Import Lra Psatz.
From Verif.Base Require Import Py Vec.
From Verif.Model Require Import Regularizers.
From Verif.Spec Require Import ProxSpec RegSpec.
From Verif.Proofs Require Import VecFacts ScalarProx L0Proofs RegularizerProofs.
Open Scope R_scope.

Lemma rbind_ok_eq {A B} (m : res A) a (f : A -> res B) r : m = Ok a -> f a = r -> rbind m f = r.
Proof. intros -> H. exact H. Qed.

Lemma sequence_map_ok {A B} (f : A -> res B) (g : A -> B) l :
  (forall a, In a l -> f a = Ok (g a)) -> sequence (map f l) = Ok (map g l).
Proof.
  induction l as [|a l IH]; intros H; simpl; auto.
  rewrite (H a) by (left; auto). simpl. rewrite IH by (intros; apply H; right; auto). reflexivity.
Qed.

Lemma In_mask_select {A} (m : list bool) (x : list A) a d : length m = length x ->
  In a (mask_select m x) <-> exists i, (i < length x)%nat /\ nth i m false = true /\ nth i x d = a.
Proof.
  revert x; induction m as [|b m IH]; intros [|c x] HL; simpl in *; try discriminate.
  - split; [intros []|intros [i [Hi _]]; lia].
  - injection HL as HL. specialize (IH x HL). split.
    + intros H. destruct b.
      * destruct H as [->|H]; [exists 0%nat; repeat split; lia|].
        apply IH in H. destruct H as [i [Hi [H1 H2]]]. exists (S i). repeat split; auto; lia.
      * apply IH in H. destruct H as [i [Hi [H1 H2]]]. exists (S i). repeat split; auto; lia.
    + intros [[|i] [Hi [H1 H2]]]; simpl in *.
      * subst. left; auto.
      * destruct b; [right|]; apply IH; exists i; repeat split; auto; lia.
Qed.

Lemma nth_map_lt {A B} (f : A -> B) l i d d' : (i < length l)%nat -> nth i (map f l) d = f (nth i l d').
Proof.
  intros H. rewrite nth_indep with (d' := f d') by (rewrite map_length; auto). apply map_nth.
Qed.

Lemma hierarchy_zeros_spec bmap gpart tb : length bmap = length tb ->
  (forall i, (i < length bmap)%nat -> (nth i bmap (-1) < Z.of_nat (length gpart))%Z) ->
  exists idx, hierarchy_zeros bmap gpart tb = Ok idx /\
    forall j, In j idx <-> nth j gpart false = true /\
       exists i, (i < length tb)%nat /\ nth i tb 0 = 0 /\ nth i bmap (-1)%Z = Z.of_nat j.
Proof.
  intros HL Hmap. unfold hierarchy_zeros. rewrite HL, Nat.eqb_refl. simpl.
  set (cand := filter _ _).
  assert (Hc : forall j, In j cand <-> (0 <= j)%Z /\
     exists i, (i < length tb)%nat /\ nth i tb 0 = 0 /\ nth i bmap (-1)%Z = j).
  { intros j. unfold cand. rewrite filter_In, Z.leb_le.
    rewrite (In_mask_select _ _ _ (-1)%Z) by (rewrite map_length; auto).
    split.
    - intros [[i [Hi [H1 H2]]] Hj]. split; auto. exists i. rewrite HL in Hi. repeat split; auto.
      rewrite (nth_map_lt _ _ _ _ 0) in H1 by auto. apply reqb_true in H1; auto.
    - intros [Hj [i [Hi [H1 H2]]]]. split; auto. exists i. rewrite HL. repeat split; auto.
      rewrite (nth_map_lt _ _ _ _ 0) by auto. apply reqb_true; auto. }
  rewrite sequence_map_ok with (g := fun j => (Z.to_nat j, nth (Z.to_nat j) gpart false)).
  - simpl. eexists; split; [reflexivity|]. intros j. rewrite in_map_iff. split.
    + intros [[j' b] [<- H]]. apply filter_In in H. destruct H as [H Hb]. simpl in *. subst b.
      apply in_map_iff in H. destruct H as [z [E Hz]]. injection E as E1 E2. apply Hc in Hz.
      destruct Hz as [Hz0 [i [Hi [H1 H2]]]]. subst j'. split; auto. exists i. repeat split; auto.
      rewrite H2. lia.
    + intros [Hg [i [Hi [H1 H2]]]]. exists (j, true). split; auto. apply filter_In. split; auto.
      apply in_map_iff. exists (Z.of_nat j). rewrite Nat2Z.id. split; [congruence|].
      apply Hc. split; [lia|]. exists i; auto.
  - intros z Hz. apply Hc in Hz. destruct Hz as [Hz0 [i [Hi [H1 H2]]]].
    rewrite <- HL in Hi. specialize (Hmap i Hi). rewrite H2 in Hmap.
    rewrite (nth_error_nth' gpart false); [reflexivity|lia].
Qed.

Lemma nonzeros_budget part z (k : Z) : length part = length z ->
  sparse (k - Z.of_nat (countb negb part)) (mask_select part z) ->
  (Z.of_nat (nonzeros z) <= Z.max k (Z.of_nat (countb negb part)))%Z.
Proof.
  intros HL Hs. pose proof (nonzeros_mask_split part z HL). unfold sparse in Hs. lia.
Qed.

(** number of zero weights *)
Lemma countb_negb_astype w : countb negb (astype_bool w) = countb (fun a => reqb a 0) w.
Proof.
  unfold countb, astype_bool. induction w as [|a w IH]; simpl; auto.
  unfold nonzero. rewrite negb_involutive. destruct (reqb a 0); simpl; auto.
Qed.

Lemma nth_astype_bool w k : (k < length w)%nat -> nth k (astype_bool w) false = nonzero (nth k w 0).
Proof.
  intros H. unfold astype_bool.
  rewrite nth_indep with (d' := nonzero 0) by (rewrite map_length; auto). apply map_nth.
Qed.
Lemma nonzero_true a : nonzero a = true <-> a <> 0.
Proof.
  unfold nonzero, reqb. destruct (Req_EM_T a 0); simpl; split; intros; try congruence.
Qed.
Lemma nonzero_false a : nonzero a = false <-> a = 0.
Proof. unfold nonzero, reqb. destruct (Req_EM_T a 0); simpl; split; intros; congruence. Qed.

Lemma nth_firstn {A} (l : list A) n k d : (k < n)%nat -> nth k (firstn n l) d = nth k l d.
Proof.
  revert n k; induction l as [|a l IH]; intros [|n] [|k] H; simpl; auto; try lia. apply IH; lia.
Qed.
Lemma nth_skipn' {A} (l : list A) n k d : nth k (skipn n l) d = nth (n + k) l d.
Proof.
  revert l; induction n as [|n IH]; intros [|a l]; simpl; auto. destruct k; auto.
Qed.

(** zeroing a set of positions, and the Pythagoras identity *)
Lemma mapi_zero_sq (f : nat -> bool) (g z : vec) i : length z = length g ->
  (forall k, (k < length g)%nat -> f (i + k)%nat = true -> nth k z 0 = 0) ->
  sqnorm (vsub z g) = sqnorm (vsub z (mapi_from i (fun k a => if f k then 0 else a) g))
                      + sqnorm (vsub (mapi_from i (fun k a => if f k then 0 else a) g) g).
Proof.
  revert z i; induction g as [|a g IH]; intros [|c z] i HL H; simpl in HL; try discriminate.
  - unfold sqnorm, vdot, vmul, vsub; simpl. lra.
  - simpl mapi_from.
    change (vsub (c :: z) (a :: g)) with ((c - a) :: vsub z g).
    set (b := if f i then 0 else a).
    set (r := mapi_from (S i) _ g).
    change (vsub (c :: z) (b :: r)) with ((c - b) :: vsub z r).
    change (vsub (b :: r) (a :: g)) with ((b - a) :: vsub r g).
    rewrite !sqnorm_cons. rewrite (IH z (S i)).
    + fold r. pose proof (H 0%nat ltac:(simpl; lia)) as H0. rewrite Nat.add_0_r in H0. simpl in H0.
      unfold b. destruct (f i); [rewrite H0 by auto|]; ring.
    + lia.
    + intros k Hk Hf. apply (H (S k)); [simpl; lia|]. rewrite <- plus_n_Sm. exact Hf.
Qed.

Section LME.
Variable argsort : vec -> list nat.
Hypothesis Hsort : argsort_ok argsort.

Lemma zero_count_countb w : countb (fun a => reqb a 0) w = zero_count w.
Proof.
  unfold zero_count, countb. induction w as [|a w IH]; [reflexivity|]. cbn [filter nonzeros length]. unfold reqb at 1.
  pose proof (nonzeros_le_length w). destruct (Req_EM_T a 0); cbn [length]; rewrite IH; cbn [length]; lia.
Qed.
Lemma penalised_mask w z : nonzeros (mask_select (map nonzero w) z) = penalised_nonzeros w z.
Proof.
  revert z; induction w as [|a w IH]; intros [|b z]; simpl; auto.
  unfold nonzero, reqb at 1. destruct (Req_EM_T a 0); cbn [negb]; auto.
  simpl. destruct (Req_EM_T b 0); auto.
Qed.
Lemma within_budget_mask k w z :
  sparse (k - Z.of_nat (countb negb (astype_bool w))) (mask_select (astype_bool w) z) <-> within_budget k w z.
Proof.
  unfold sparse, within_budget. rewrite countb_negb_astype, zero_count_countb.
  unfold astype_bool. rewrite penalised_mask. reflexivity.
Qed.

Lemma l0lme_prox_spec nb ng indep p q bmap w x alpha r :
  length w = (p + q)%nat -> length x = (p + q)%nat -> length bmap = p ->
  (forall i, (i < p)%nat -> (nth i bmap (-1) < Z.of_nat q)%Z) ->
  instantiate (mk_l0lme nb ng indep (Some {| ov_p := p; ov_q := q; ov_map := bmap |})) w None = Ok r ->
  let bw := firstn p w in
  let gw := skipn p w in
  let nb' := match nb with Some n => n | None => Z.of_nat p end in
  let ng' := match ng with Some n => n | None => Z.of_nat q end in
  exists tb tg,
    prox argsort r x alpha = Ok (tb ++ tg) /\ length tb = p /\ length tg = q /\
    kept_or_zeroed x (tb ++ tg) /\
    within_budget nb' bw tb /\ within_budget ng' gw tg /\
    (Z.of_nat (nonzeros tb) <= Z.max nb' (Z.of_nat (zero_count bw)))%Z /\
    (Z.of_nat (nonzeros tg) <= Z.max ng' (Z.of_nat (zero_count gw)))%Z /\
    (indep = false -> hierarchical bmap gw tb tg) /\
    (forall k, (k < p + q)%nat -> nth k w 0 = 0 -> nth k (tb ++ tg) 0 = nth k x 0) /\
    (forall tb', length tb' = p -> within_budget nb' bw tb' ->
       sqnorm (vsub tb (firstn p x)) <= sqnorm (vsub tb' (firstn p x))) /\
    (forall tg', length tg' = q -> within_budget ng' gw tg' ->
       (indep = false -> hierarchical bmap gw tb tg') ->
       sqnorm (vsub tg (skipn p x)) <= sqnorm (vsub tg' (skipn p x))).
Proof.
  intros Hw Hx Hm Hmap HI bw gw nb' ng'.
  assert (Egw : firstn q (skipn p w) = gw) by (unfold gw; apply firstn_all2; rewrite skipn_length; lia).
  assert (Egx : firstn q (skipn p x) = skipn p x) by (apply firstn_all2; rewrite skipn_length; lia).
  assert (Lbw : length bw = p) by (unfold bw; rewrite firstn_length; lia).
  assert (Lgw : length gw = q) by (unfold gw; rewrite skipn_length; lia).
  set (b := firstn p x). set (g := skipn p x).
  assert (Lb : length b = p) by (unfold b; rewrite firstn_length; lia).
  assert (Lg : length g = q) by (unfold g; rewrite skipn_length; lia).
  simpl in HI. rewrite Egw in HI. fold bw in HI. injection HI as <-.
  assert (Lpb : length (astype_bool bw) = length b) by (unfold astype_bool; rewrite map_length; lia).
  assert (Lpg : forall g' : vec, length g' = q -> length (astype_bool gw) = length g')
    by (intros; unfold astype_bool; rewrite map_length; lia).
  destruct (take_masked_spec argsort Hsort (astype_bool bw) b nb' Lpb)
    as [tb [Eb [Ltb [Sb [Ub [Fb Ob]]]]]].
  assert (Lb' : length tb = p) by lia.
  (* the vector handed to the selection of the random effects *)
  assert (Hg : exists g0,
     (if indep then Ok g else
        let! idx := hierarchy_zeros bmap (astype_bool gw) tb in
        let! _ := guard (forallb (fun i => i <? length g)%nat idx) IndexError in
        Ok (mapi (fun i a => if memb i idx then 0 else a) g)) = Ok g0 /\
     length g0 = q /\
     Forall2 (fun xi zi => zi = xi \/ zi = 0) g g0 /\
     (indep = false -> forall i j, (i < length tb)%nat -> nth i bmap (-1)%Z = Z.of_nat j ->
        nth i tb 0 = 0 -> nth j gw 0 <> 0 -> nth j g0 0 = 0) /\
     (forall k, nth k gw 0 = 0 -> nth k g0 0 = nth k g 0) /\
     (forall tg', length tg' = q ->
        (indep = false -> forall i j, (i < length tb)%nat -> nth i bmap (-1)%Z = Z.of_nat j ->
           nth i tb 0 = 0 -> nth j gw 0 <> 0 -> nth j tg' 0 = 0) ->
        sqnorm (vsub tg' g) = sqnorm (vsub tg' g0) + sqnorm (vsub g0 g))).
  { destruct indep.
    - exists g. split; [reflexivity|]. split; [auto|]. split.
      { clear. induction g; constructor; auto. }
      split; [discriminate|]. split; [auto|].
      intros tg' Ht _. rewrite vsub_self, sqnorm_zeros. lra.
    - destruct (hierarchy_zeros_spec bmap (astype_bool gw) tb) as [idx [Ei Hi]].
      { lia. }
      { intros i Hi. unfold astype_bool. rewrite map_length, Lgw. apply Hmap. lia. }
      rewrite Ei. simpl.
      assert (Hpart : forall j, nth j (astype_bool gw) false = true <-> (j < q)%nat /\ nth j gw 0 <> 0).
      { intros j. destruct (le_lt_dec q j) as [Hj|Hj].
        - rewrite nth_overflow by (unfold astype_bool; rewrite map_length; lia).
          split; [discriminate|lia].
        - rewrite nth_astype_bool by lia. rewrite nonzero_true. intuition. }
      assert (Hfb : forallb (fun i => i <? length g)%nat idx = true).
      { apply forallb_forall. intros j Hj. apply Hi in Hj. destruct Hj as [Hj _].
        apply Hpart in Hj. apply Nat.ltb_lt. lia. }
      rewrite Hfb. simpl. eexists; split; [reflexivity|].
      split; [rewrite mapi_length; auto|].
      split; [apply mapi_zero_entries|].
      split; [|split].
      + intros _ i j Hi1 Hi2 Hi3 Hj.
        destruct (le_lt_dec q j) as [Hjq|Hjq];
          [apply nth_overflow; rewrite mapi_length; lia|].
        rewrite (mapi_nth _ _ _ _ 0) by lia.
        assert (Hin : In j idx).
        { apply Hi. split; [apply Hpart; auto|]. exists i; auto. }
        apply memb_In in Hin. rewrite Hin. reflexivity.
      + intros k Hk. destruct (le_lt_dec q k) as [Hkq|Hkq].
        { rewrite !nth_overflow; auto; [lia|rewrite mapi_length; lia]. }
        rewrite (mapi_nth _ _ _ _ 0) by lia.
        destruct (memb k idx) eqn:E; auto. apply memb_In in E. apply Hi in E. destruct E as [E _].
        apply Hpart in E. destruct E; contradiction.
      + intros tg' Ht Hz. unfold mapi.
        apply (mapi_zero_sq (fun k => memb k idx) g tg' 0); [lia|].
        intros k Hk Hf. simpl in Hf. apply memb_In in Hf. apply Hi in Hf.
        destruct Hf as [Hf [i [Hi1 [Hi2 Hi3]]]]. apply Hpart in Hf. destruct Hf as [_ Hf].
        eapply Hz; eauto. }
  destruct Hg as [g0 [Eg [Lg0 [Fg0 [Hh [Hfix Hpy]]]]]].
  destruct (take_masked_spec argsort Hsort (astype_bool gw) g0 ng' (Lpg g0 Lg0))
    as [tg [Et [Ltg [Sg [Ug [Fg Og]]]]]].
  assert (Lt' : length tg = q) by lia.
  exists tb, tg.
  assert (Hhier : indep = false -> forall i j, (i < length tb)%nat -> nth i bmap (-1)%Z = Z.of_nat j ->
     nth i tb 0 = 0 -> nth j gw 0 <> 0 -> nth j tg 0 = 0).
  { intros Hi i j H1 H2 H3 H4. specialize (Hh Hi i j H1 H2 H3 H4).
    destruct (le_lt_dec q j) as [Hj|Hj]; [apply nth_overflow; lia|].
    pose proof (Forall2_nth_elim _ _ _ 0 0 j Fg ltac:(lia)) as K. simpl in K. destruct K; congruence. }
  split.
  { match goal with |- prox _ (RL0LME ?s0) _ _ = _ => set (s := s0) end.
    assert (E1 : optimal_tbeta argsort s b = Ok tb).
    { unfold optimal_tbeta, s; simpl. unfold nb' in Eb. destruct nb; [exact Eb|].
      rewrite Lbw. exact Eb. }
    assert (E2 : optimal_tgamma argsort s tb g = Ok tg).
    { unfold optimal_tgamma, s; simpl. unfold ng' in Et.
      destruct ng; (eapply rbind_ok_eq; [exact Eg|]); [exact Et|]. rewrite Lgw. exact Et. }
    simpl. unfold l0lme_prox. simpl. fold b. rewrite Egx. fold g.
    rewrite E1. simpl. rewrite E2. reflexivity. }
  split; [auto|]. split; [auto|].
  split.
  { rewrite <- (firstn_skipn p x). fold b. fold g. apply Forall2_app; [exact Fb|].
    eapply entries_trans; [exact Fg0|exact Fg]. }
  split; [apply within_budget_mask; exact Sb|].
  split; [apply within_budget_mask; exact Sg|].
  rewrite <- !zero_count_countb, <- !countb_negb_astype.
  split; [apply nonzeros_budget; auto; lia|].
  split; [apply nonzeros_budget; auto; rewrite <- Ltg in Lg0; auto|].
  split; [exact Hhier|].
  split.
  { intros k Hk Hz. destruct (le_lt_dec p k) as [Hkp|Hkp].
    - rewrite app_nth2 by lia. rewrite Lb'.
      assert (Hz' : nth (k - p) gw 0 = 0).
      { unfold gw. rewrite nth_skipn'. replace (p + (k - p))%nat with k by lia. auto. }
      rewrite Ug.
      + rewrite Hfix by auto. unfold g. rewrite nth_skipn'. f_equal. lia.
      + rewrite nth_astype_bool by lia. apply nonzero_false; auto.
    - rewrite app_nth1 by lia.
      rewrite Ub.
      + unfold b. apply nth_firstn; auto.
      + rewrite nth_astype_bool by lia. apply nonzero_false. unfold bw. rewrite nth_firstn by auto. auto. }
  split.
  - intros tb' Ht Hs. apply Ob; [lia|]. apply within_budget_mask. exact Hs.
  - intros tg' Ht Hs Hz. rewrite (Hpy tg' Ht Hz), (Hpy tg Lt' Hhier).
    apply Rplus_le_compat_r. apply Og; [lia|]. apply within_budget_mask. exact Hs.
Qed.

End LME.

(** ** zero-weight coordinates *)
Lemma zero_weight_prox argsort r0 r w o x alpha z k :
  plain_reg r0 -> instantiate r0 w o = Ok r -> length w = length x ->
  prox argsort r x alpha = Ok z ->
  (k < length x)%nat -> nth k w 0 = 0 -> nth k z 0 = nth k x 0.
Proof.
  intros Hp HI HL HE Hk Hw. destruct r0; simpl in Hp; try contradiction; injection HI as <-; simpl in HE.
  - unfold take_masked in HE. destruct (guard _ _); simpl in HE; [|discriminate]. injection HE as <-.
    apply mask_assign_outside. rewrite nth_astype_bool by lia. apply nonzero_false; auto.
  - rewrite HL, Nat.eqb_refl in HE. injection HE as <-.
    rewrite map2_nth with (dx := 0) (dy := 0) by lia. rewrite Hw.
    replace (alpha * 0 * lam) with 0 by ring. apply soft_zero.
  - rewrite HL, Nat.eqb_refl in HE. injection HE as <-.
    rewrite map2_nth with (dx := 0) (dy := 0) by lia. rewrite Hw.
    replace (rltb 0 0) with false by (symmetry; apply rltb_false; lra). rewrite andb_false_r. reflexivity.
  - unfold scad_prox in HE. revert x z k HL HE Hk Hw.
    induction w as [|wi w IH]; intros [|xi x] z k HL HE Hk Hw; simpl in *; try discriminate; try lia.
    destruct (scad_prox1 rho sigma lam wi alpha xi) as [v|] eqn:E; simpl in HE; [|discriminate].
    destruct (scad_prox_loop rho sigma lam alpha w x) as [v'|] eqn:E'; simpl in HE; [|discriminate].
    injection HE as <-. destruct k as [|k]; simpl.
    + subst wi. unfold scad_prox1 in E. replace (reqb 0 0) with true in E by (symmetry; apply reqb_true; auto).
      congruence.
    + apply (IH x v' k); auto; lia.
  - injection HE as <-. reflexivity.
Qed.

Lemma agree_cons wi w a x b x' : agree_on_penalised (wi :: w) (a :: x) (b :: x') ->
  (wi <> 0 -> a = b) /\ agree_on_penalised w x x'.
Proof.
  intros [H1 [H2 H3]]. simpl in *. split; [apply (H3 0%nat); lia|].
  split; [lia|]. split; [lia|]. intros k Hk. apply (H3 (S k)). lia.
Qed.

Lemma map2_agree (f : R -> R -> R) w x x' :
  (forall a b, f 0 a = f 0 b) -> agree_on_penalised w x x' -> map2 f w x = map2 f w x'.
Proof.
  intros Hf. revert x x'; induction w as [|wi w IH]; intros [|a x] [|b x'] H;
    try (destruct H as [H1 [H2 _]]; simpl in *; discriminate); auto.
  apply agree_cons in H. destruct H as [H1 H2]. simpl. f_equal; auto.
  destruct (Req_dec wi 0) as [->|Hn]; auto. rewrite (H1 Hn). reflexivity.
Qed.

Lemma zero_weight_value r0 r w o x x' :
  (match r0 with RL1 _ _ | RSCAD _ _ _ _ => True | RCAD rho _ _ => 0 <= rho | _ => False end) ->
  instantiate r0 w o = Ok r -> agree_on_penalised w x x' ->
  value r x = value r x'.
Proof.
  intros Hp HI HA. destruct r0; simpl in Hp; try contradiction; injection HI as <-; simpl.
  - pose proof HA as [H1 [H2 _]]. rewrite H1, H2, Nat.eqb_refl. simpl. do 2 f_equal.
    unfold vdot, vmul, vabs. rewrite !map2_map_r. f_equal.
    apply (map2_agree (fun a b => a * Rabs b)); auto. intros; ring.
  - pose proof HA as [H1 [H2 _]]. rewrite H1, H2, Nat.eqb_refl. simpl. do 3 f_equal. f_equal.
    apply (map2_agree (fun a b => Rmin (a * Rabs b) rho)); auto. intros. rewrite !Rmult_0_l. reflexivity.
  - do 3 f_equal. f_equal. apply map2_agree; auto. intros. rewrite !scad_value1_spec. ring.
Qed.
