(** The interior point method of LinearLMEOracleSR3 when the oracle respects an order of the features. *)
From Coq Require Import Lra Lia Permutation.
From Verif.Base Require Import Py Vec Mat.
From Verif.Model Require Import LmeProblem Regularizers Solvers LmeInner LmeTrace LmeFit.
From Verif.Spec Require Import ColumnSpec FeatureTableSpec.
From Verif.Proofs Require Import VecFacts MatFacts SolverProofs LinearProofs ColumnProofs ColumnCases FeatureFit.
Open Scope R_scope.

(** the order of rows, and of rows and columns, of a matrix *)
Definition re_rows {A} (o : list nat) (d : A) (a : list A) : list A := map (fun i => nth i a d) o.
Definition re_mx (o1 o2 : list nat) (a : mat) : mat := map (permute o2) (re_rows o1 [] a).

Lemma map_repeat2 {A B} (f : A -> B) a : forall n, map f (repeat a n) = repeat (f a) n.
Proof. induction n as [|n IH]; [reflexivity|]. cbn. f_equal. exact IH. Qed.
Lemma map_const {A B} (f : A -> B) c : forall l, (forall x, In x l -> f x = c) -> map f l = repeat c (length l).
Proof.
  induction l as [|a l IH]; intros H; [reflexivity|]. cbn [map length repeat]. rewrite (H a (or_introl eq_refl)). f_equal.
  apply IH. intros x Hx. apply H. right. exact Hx.
Qed.
Lemma re_rows_app {A} (d : A) n o o' X Y : is_order n o -> length X = n ->
  re_rows (o ++ map (Nat.add n) o') d (X ++ Y) = re_rows o d X ++ re_rows o' d Y.
Proof.
  intros Ho HX. unfold re_rows. rewrite map_app, map_map. f_equal.
  - apply map_ext_in. intros i Hi. apply (order_in _ _ Ho) in Hi. apply app_nth1. lia.
  - apply map_ext. intros i. rewrite app_nth2 by lia. f_equal. lia.
Qed.
Lemma nth_map2 {A B C} (f : A -> B -> C) da db dc : forall a b i, (i < length a)%nat -> (i < length b)%nat ->
  nth i (map2 f a b) dc = f (nth i a da) (nth i b db).
Proof.
  induction a as [|x a IH]; intros b i Ha Hb; [cbn in Ha; lia|]. destruct b as [|y b]; [cbn in Hb; lia|].
  destruct i as [|i]; [reflexivity|]. cbn [map2 nth]. apply IH; cbn in *; lia.
Qed.
Lemma re_mx_zeros o1 o2 n m n' m' : is_order n o1 -> is_order m o2 -> n' = n -> m' = m ->
  re_mx o1 o2 (repeat (zeros m') n') = repeat (zeros m) n.
Proof.
  intros H1 H2 -> ->. unfold re_mx, re_rows. rewrite map_map. rewrite (map_const _ (zeros m)).
  - rewrite (order_len _ _ H1). reflexivity.
  - intros i Hi. apply (order_in _ _ H1) in Hi. rewrite nth_indep with (d' := zeros m) by (rewrite repeat_length; auto).
    rewrite nth_repeat. apply (permute_repeat _ _ H2).
Qed.
Lemma nth_diag v : forall i, (i < length v)%nat -> nth i (diag v) [] = vscale (nth i v 0) (unit_row (length v) i).
Proof.
  unfold diag, mapi. assert (G : forall (w : vec) m k i, (i < length w)%nat ->
    nth i (mapi_from k (fun i c => vscale c (unit_row m i)) w) [] = vscale (nth i w 0) (unit_row m (k + i))).
  { induction w as [|a w IH]; intros m k i H; [cbn in H; lia|]. destruct i as [|i]; cbn [mapi_from nth].
    - rewrite Nat.add_0_r. reflexivity.
    - rewrite IH by (cbn in H; lia). do 2 f_equal. lia. }
  intros i H. apply (G v (length v) 0%nat i H).
Qed.
Lemma diag_length v : length (diag v) = length v.
Proof. unfold diag. apply mapi_length. Qed.
Lemma nth_map_in {A B} (f : A -> B) da db : forall l k, (k < length l)%nat -> nth k (map f l) db = f (nth k l da).
Proof.
  induction l as [|a l IH]; intros k H; [cbn in H; lia|]. destruct k as [|k]; [reflexivity|]. cbn [map nth]. apply IH. cbn in H. lia.
Qed.
Lemma nth_permute n o x k : is_order n o -> (k < n)%nat -> nth k (permute o x) 0 = nth (nth k o 0%nat) x 0.
Proof.
  intros Ho Hk. unfold permute. rewrite (nth_map_in _ 0%nat) by (rewrite (order_len _ _ Ho); auto). reflexivity.
Qed.
Lemma nth_unit n a j : (j < n)%nat -> nth j (unit_row n a) 0 = if (a =? j)%nat then 1 else 0.
Proof.
  intros H. unfold unit_row. rewrite (nth_map_in _ 0%nat) by (rewrite seq_length; auto). rewrite seq_nth by auto. reflexivity.
Qed.
Lemma diag_re n o v : is_order n o -> length v = n -> re_mx o o (diag v) = diag (permute o v).
Proof.
  intros Ho Hv. pose proof (order_len _ _ Ho) as LO.
  assert (ND : NoDup o) by (apply (Permutation_NoDup (Permutation_sym Ho)), seq_NoDup).
  apply nth_ext with (d := []) (d' := []).
  - unfold re_mx, re_rows. rewrite !map_length, diag_length, (permute_len _ _ Ho). exact LO.
  - intros k Hk. unfold re_mx, re_rows in *. rewrite !map_length in Hk. rewrite map_map.
    rewrite nth_diag by (rewrite (permute_len _ _ Ho); lia).
    rewrite (nth_map_in _ 0%nat) by auto.
    assert (Hi : (nth k o 0 < n)%nat) by (apply (order_in _ _ Ho), nth_In; auto).
    rewrite nth_diag by lia. rewrite (permute_len _ _ Ho), Hv.
    assert (LU : length (unit_row n (nth k o 0%nat)) = n) by (unfold unit_row; rewrite map_length, seq_length; auto).
    unfold vscale. rewrite (permute_map _ _ Ho) by auto.
    rewrite (nth_permute n) by (auto; lia). f_equal.
    apply nth_ext with (d := 0) (d' := 0); [rewrite (permute_len _ _ Ho); unfold unit_row; rewrite map_length, seq_length; auto|].
    intros l Hl. rewrite (permute_len _ _ Ho) in Hl. rewrite (nth_permute n) by auto.
    assert (Hj : (nth l o 0 < n)%nat) by (apply (order_in _ _ Ho), nth_In; lia).
    rewrite !nth_unit by lia. destruct (Nat.eqb_spec (nth k o 0%nat) (nth l o 0%nat)) as [E|E], (Nat.eqb_spec k l) as [E'|E']; auto.
    + exfalso. apply E'. apply (proj1 (NoDup_nth o 0%nat) ND); auto; lia.
    + exfalso. subst l. auto.
Qed.
Lemma tr_re n m o1 o2 a : is_order n o1 -> is_order m o2 -> length a = n ->
  tr m (re_mx o1 o2 a) = re_mx o2 o1 (tr m a).
Proof.
  intros H1 H2 Ha. unfold tr at 1. unfold re_mx at 2, re_rows. rewrite map_map.
  apply nth_ext with (d := []) (d' := []); rewrite !map_length, ?seq_length; [symmetry; apply (order_len _ _ H2)|].
  intros k Hk.
  rewrite (nth_map_in _ 0%nat) by (rewrite seq_length; auto). rewrite seq_nth by auto.
  rewrite (nth_map_in _ 0%nat) by (rewrite (order_len _ _ H2); auto).
  assert (Hi : (nth k o2 0 < m)%nat) by (apply (order_in _ _ H2), nth_In; rewrite (order_len _ _ H2); auto).
  unfold tr. rewrite (nth_map_in _ 0%nat) by (rewrite seq_length; auto). rewrite seq_nth by auto. cbn [Nat.add].
  set (j := nth k o2 0%nat) in *. unfold re_mx, re_rows. rewrite !map_map. unfold permute at 2. apply map_ext_in. intros i Hii.
  apply (order_in _ _ H1) in Hii. rewrite (nth_permute m) by auto. rewrite (nth_map_in _ []) by lia. reflexivity.
Qed.
Lemma tr_zeros2 n m : tr m (repeat (zeros m) n) = repeat (zeros n) m.
Proof.
  unfold tr. rewrite (map_ext_in _ (fun _ => zeros n)).
  - generalize 0%nat as k. induction m as [|m IH]; intros k; [reflexivity|]. cbn [seq map repeat]. f_equal. apply IH.
  - intros j Hj. rewrite map_repeat2. unfold zeros. rewrite nth_repeat. reflexivity.
Qed.
Lemma hcat_wf2 n m : forall a b, wf_mat n a -> wf_mat m b -> wf_mat (n + m) (hcat a b).
Proof.
  unfold hcat. induction a as [|r a IH]; intros b Wa Wb; [constructor|]. destruct b as [|t b]; [constructor|].
  inversion Wa; inversion Wb; subst. constructor; [apply app_length|]. apply IH; auto.
Qed.
Lemma hcat3_len2 n a b c : length a = n -> length b = n -> length c = n -> length (hcat (hcat a b) c) = n.
Proof. intros A B C. unfold hcat. rewrite !map2_length. lia. Qed.
Lemma diag_shape2 v : is_shape (length v) (length v) (diag v).
Proof.
  unfold diag, is_shape. split; [apply mapi_length|].
  assert (G : forall (w : vec) k m, wf_mat m (mapi_from k (fun i c => vscale c (unit_row m i)) w)).
  { induction w as [|a w IH]; intros k m; [constructor|]. cbn [mapi_from]. constructor; [|apply IH].
    unfold vscale, unit_row. rewrite !map_length, seq_length. reflexivity. }
  apply G.
Qed.
Lemma re_mx_wf m o1 o2 a : is_order m o2 -> wf_mat m (re_mx o1 o2 a).
Proof. intros H. unfold re_mx. apply Forall_forall. intros r Hr. apply in_map_iff in Hr as [x [<- _]]. apply (permute_len _ _ H). Qed.
Lemma re_mx_len n o1 o2 a : is_order n o1 -> length (re_mx o1 o2 a) = n.
Proof. intros H. unfold re_mx, re_rows. rewrite !map_length. apply (order_len _ _ H). Qed.

(** ** the longest step *)
Definition ratio (x y : vec) (i : nat) : vec := if rltb (nth i y 0) 0 then [- nth i x 0 / nth i y 0] else [].
Lemma neg_ratios_flat : forall n x y, length x = n -> length y = n ->
  neg_ratios (repeat true n) x y = flat_map (ratio x y) (seq 0 n).
Proof.
  induction n as [|n IH]; intros x y Hx Hy; [reflexivity|]. destruct x as [|a x], y as [|b y]; try discriminate.
  cbn [repeat neg_ratios seq flat_map andb]. unfold ratio at 1. cbn [nth].
  assert (E : flat_map (ratio (a :: x) (b :: y)) (seq 1 n) = flat_map (ratio x y) (seq 0 n)).
  { rewrite <- seq_shift, flat_map_concat_map, map_map, <- flat_map_concat_map. reflexivity. }
  rewrite E, IH by (simpl in *; lia). destruct (rltb b 0); reflexivity.
Qed.
Lemma flat_map_perm {A B} (f : A -> list B) l l' : Permutation l l' -> Permutation (flat_map f l) (flat_map f l').
Proof.
  induction 1; cbn [flat_map].
  - constructor.
  - apply Permutation_app_head. exact IHPermutation.
  - rewrite !app_assoc. apply Permutation_app_tail, Permutation_app_comm.
  - eapply Permutation_trans; eauto.
Qed.
Lemma neg_ratios_perm n o x y : is_order n o -> length x = n -> length y = n ->
  Permutation (neg_ratios (repeat true n) (permute o x) (permute o y)) (neg_ratios (repeat true n) x y).
Proof.
  intros Ho Hx Hy. rewrite !neg_ratios_flat by (auto; apply (permute_len _ _ Ho)).
  assert (E : flat_map (ratio (permute o x) (permute o y)) (seq 0 n) = flat_map (ratio x y) o).
  { assert (G : forall l k, (forall i, (i < length l)%nat -> nth (k + i) o 0%nat = nth i l 0%nat) -> (k + length l <= n)%nat ->
      flat_map (ratio (permute o x) (permute o y)) (seq k (length l)) = flat_map (ratio x y) l).
    { induction l as [|a l IH]; intros k H L; [reflexivity|]. cbn [length seq flat_map]. cbn [length] in L.
      rewrite IH; [|intros i Hi; replace (S k + i)%nat with (k + S i)%nat by lia; apply (H (S i)); cbn; lia|lia]. f_equal.
      unfold ratio. rewrite !(nth_permute n) by (auto; lia). specialize (H 0%nat ltac:(cbn; lia)). rewrite Nat.add_0_r in H. rewrite H. reflexivity. }
    rewrite <- (order_len _ _ Ho) at 1. apply G; [reflexivity|rewrite (order_len _ _ Ho); lia]. }
  rewrite E. apply flat_map_perm. exact Ho.
Qed.
Lemma fold_min_perm l l' : Permutation l l' -> fold_right Rmin 1 l = fold_right Rmin 1 l'.
Proof.
  induction 1; cbn [fold_right]; try congruence. rewrite !Rmin_assoc, (Rmin_comm x y). reflexivity.
Qed.
Lemma neg_ratios_app2 : forall m1 m2 x1 x2 y1 y2, length m1 = length x1 -> length x1 = length y1 ->
  neg_ratios (m1 ++ m2) (x1 ++ x2) (y1 ++ y2) = neg_ratios m1 x1 y1 ++ neg_ratios m2 x2 y2.
Proof.
  induction m1 as [|b m1 IH]; intros m2 x1 x2 y1 y2 H1 H2; destruct x1, y1; try discriminate; [reflexivity|].
  cbn [app neg_ratios]. simpl in H1, H2. rewrite IH by lia. destruct (b && _)%bool; reflexivity.
Qed.
Lemma neg_ratios_false2 : forall n x y, neg_ratios (repeat false n) x y = [].
Proof. induction n as [|n IH]; intros x y; [reflexivity|]. destruct x, y; try reflexivity. cbn. apply IH. Qed.
Lemma mask_split2 p q (x : vec) : length x = (q + (p + q))%nat -> ip_mask q x = repeat true q ++ repeat false p ++ repeat true q.
Proof.
  intros Hx. unfold ip_mask, mapi. rewrite Hx.
  set (f := fun (i : nat) (_ : R) => ((i <? q)%nat || (q + (p + q) - q <=? i)%nat)%bool).
  assert (G : forall (u : vec) b k, (forall i, (k <= i < k + length u)%nat -> f i 0 = b) -> mapi_from k f u = repeat b (length u)).
  { induction u as [|a u IH]; intros b k H; [reflexivity|]. cbn [mapi_from length repeat]. f_equal.
    - apply (H k). cbn. lia.
    - apply IH. intros i Hi. apply H. cbn. lia. }
  assert (A : forall (u w : vec) k, mapi_from k f (u ++ w) = mapi_from k f u ++ mapi_from (k + length u) f w).
  { induction u as [|a u IH]; intros w k; cbn [app mapi_from length]; [rewrite Nat.add_0_r; reflexivity|].
    f_equal. rewrite IH. do 2 f_equal. lia. }
  rewrite <- (firstn_skipn q x), A. rewrite <- (firstn_skipn p (skipn q x)), A.
  assert (L1 : length (firstn q x) = q) by (rewrite firstn_length; lia).
  assert (L2 : length (firstn p (skipn q x)) = p) by (rewrite firstn_length, skipn_length; lia).
  assert (L3 : length (skipn p (skipn q x)) = q) by (rewrite !skipn_length; lia).
  rewrite (G _ true), (G _ false), (G _ true), L1, L2, L3; [reflexivity|..]; rewrite ?L1, ?L2, ?L3; intros i Hi; unfold f.
  - destruct (Nat.ltb_spec i q); [lia|]. destruct (Nat.leb_spec (q + (p + q) - q) i); [reflexivity|lia].
  - destruct (Nat.ltb_spec i q); [lia|]. destruct (Nat.leb_spec (q + (p + q) - q) i); [lia|reflexivity].
  - destruct (Nat.ltb_spec i q); [reflexivity|lia].
Qed.

Section Inner.
Variables (p q : nat) (o1 o2 : list nat).
Hypothesis Hf : is_order p o1.
Hypothesis Hg : is_order q o2.
Notation pf := (permute o1).
Notation pg := (permute o2).
Notation phi := (reorder_parameters p o1 o2).
Definition ext : list nat := o2 ++ map (Nat.add q) (o1 ++ map (Nat.add p) o2).
Notation Phi := (permute ext).
Notation N := (q + (p + q))%nat.

Lemma ext_order : is_order N ext.
Proof. unfold ext. apply full_order; auto. apply full_order; auto. Qed.
Lemma Phi_app v b g : length v = q -> length b = p -> length g = q -> Phi (v ++ b ++ g) = pg v ++ pf b ++ pg g.
Proof.
  intros Hv Hb H. unfold ext. rewrite (full_app q (p + q) o2 _ Hg v (b ++ g)) by (rewrite ?app_length; lia).
  rewrite (full_app p q o1 o2 Hf) by auto. reflexivity.
Qed.
Lemma parts3 (v b g : vec) : length v = q -> length b = p -> length g = q ->
  ip_v q (v ++ b ++ g) = v /\ ip_b q (v ++ b ++ g) = b /\ ip_g q (v ++ b ++ g) = g.
Proof.
  intros Hv Hb H. unfold ip_v, ip_b, ip_g. rewrite !app_length. split; [|split].
  - rewrite firstn_app, Hv, Nat.sub_diag, firstn_O, app_nil_r. rewrite <- Hv. apply firstn_all.
  - rewrite skipn_app, Hv, Nat.sub_diag, (skipn_all2 v) by lia. cbn [app skipn].
    replace (q + (length b + length g) - q - q)%nat with (length b) by lia.
    rewrite firstn_app, Nat.sub_diag, firstn_O, app_nil_r. apply firstn_all.
  - replace (length v + (length b + length g) - q)%nat with (length v + length b)%nat by lia.
    rewrite skipn_app, (skipn_all2 v) by lia. cbn [app].
    replace (length v + length b - length v)%nat with (length b) by lia.
    rewrite skipn_app, (skipn_all2 b), Nat.sub_diag by lia. reflexivity.
Qed.
Lemma split3 (x : vec) : length x = N -> exists v b g, x = v ++ b ++ g /\ length v = q /\ length b = p /\ length g = q.
Proof.
  intros H. exists (firstn q x), (firstn p (skipn q x)), (skipn p (skipn q x)).
  rewrite !firstn_skipn. split; [reflexivity|].
  rewrite !firstn_length, !skipn_length. lia.
Qed.

(** ** the matrix of the step *)
Lemma hcat3_re n o A B C : is_order n o -> length A = n -> length B = n -> length C = n ->
  wf_mat q A -> wf_mat p B -> wf_mat q C ->
  re_mx o ext (hcat (hcat A B) C) = hcat (hcat (re_mx o o2 A) (re_mx o o1 B)) (re_mx o o2 C).
Proof.
  intros Ho LA LB LC WA WB WC. unfold re_mx, re_rows, hcat. rewrite !map_map.
  assert (M : forall (f g : nat -> vec) l, map2 (@app R) (map f l) (map g l) = map (fun i => f i ++ g i) l).
  { intros f g l. induction l as [|a l IH]; [reflexivity|]. cbn. f_equal. exact IH. }
  rewrite M. rewrite M. apply map_ext_in. intros i Hi. apply (order_in _ _ Ho) in Hi.
  rewrite (nth_map2 (@app R) [] []) by (rewrite ?map2_length; lia). rewrite (nth_map2 (@app R) [] []) by lia.
  assert (WL : forall k M, wf_mat k M -> (i < length M)%nat -> length (nth i M []) = k).
  { intros k m W H. apply (proj1 (Forall_forall _ _) W). apply nth_In. auto. }
  rewrite <- !app_assoc. apply Phi_app; apply WL; auto; lia.
Qed.

Variables c c' : sr3_calls.
Record sr3_sim : Prop := {
  ss_gb : forall l b g tb tg, length b = p -> length g = q -> length tb = p -> length tg = q ->
    sc_gradient_beta c' l (pf b) (pg g) (pf tb) (pg tg) = rmap pf (sc_gradient_beta c l b g tb tg);
  ss_gbl : forall l b g tb tg v, sc_gradient_beta c l b g tb tg = Ok v -> length v = p;
  ss_gg : forall l b g tb tg, length b = p -> length g = q -> length tb = p -> length tg = q ->
    sc_gradient_gamma c' l (pf b) (pg g) (pf tb) (pg tg) = rmap pg (sc_gradient_gamma c l b g tb tg);
  ss_ggl : forall l b g tb tg v, sc_gradient_gamma c l b g tb tg = Ok v -> length v = q;
  ss_hb : forall l b g, length b = p -> length g = q ->
    sc_hessian_beta c' l (pf b) (pg g) = rmap (re_mx o1 o1) (sc_hessian_beta c l b g);
  ss_hbs : forall l b g h, sc_hessian_beta c l b g = Ok h -> is_shape p p h;
  ss_hbg : forall b g, length b = p -> length g = q ->
    sc_hessian_beta_gamma c' (pf b) (pg g) = rmap (re_mx o1 o2) (sc_hessian_beta_gamma c b g);
  ss_hbgs : forall b g h, sc_hessian_beta_gamma c b g = Ok h -> is_shape p q h;
  ss_hg : forall l b g, length b = p -> length g = q ->
    sc_hessian_gamma c' l (pf b) (pg g) = rmap (re_mx o2 o2) (sc_hessian_gamma c l b g);
  ss_hgs : forall l b g h, sc_hessian_gamma c l b g = Ok h -> is_shape q q h;
  ss_ob : forall l g tb, length g = q -> length tb = p -> sc_optimal_beta c' l (pg g) (pf tb) = rmap pf (sc_optimal_beta c l g tb);
  ss_obl : forall l g tb v, sc_optimal_beta c l g tb = Ok v -> length v = p;
  ss_loss : forall l b g tb tg, length b = p -> length g = q -> length tb = p -> length tg = q ->
    sc_loss c' l (pf b) (pg g) (pf tb) (pg tg) = sc_loss c l b g tb tg
}.
Hypothesis Hc : sr3_sim.
Variable solve : mat -> vec -> res vec.
Hypothesis Hsolve : forall n o a b, is_order n o -> is_shape n n a -> length b = n ->
  solve (re_mx o o a) (permute o b) = rmap (permute o) (solve a b).
Hypothesis Hsolve_len : forall a b x, solve a b = Ok x -> length x = length b.

Lemma Pf b : length (pf b) = p. Proof. apply (permute_len _ _ Hf). Qed.
Lemma Pg b : length (pg b) = q. Proof. apply (permute_len _ _ Hg). Qed.
Lemma Phi_len x : length (Phi x) = N.
Proof. apply (permute_len _ _ ext_order). Qed.
Lemma Phi_norm x : length x = N -> norm (Phi x) = norm x.
Proof. apply (permute_norm _ _ ext_order). Qed.

Lemma F_len l tb tg x mu f : length x = N -> ip_F c l tb tg q x mu = Ok f -> length f = N.
Proof.
  intros Hx H. destruct (split3 x Hx) as [v [b [g [E [Lv [Lb Lg]]]]]]. destruct (parts3 v b g Lv Lb Lg) as [E1 [E2 E3]].
  unfold ip_F in H. rewrite E, E1, E2, E3 in H. apply rbind_inv in H as [gb [H1 H]]. apply rbind_inv in H as [gg [H2 H]].
  apply Ok_inj in H. rewrite <- H. apply (ss_gbl Hc) in H1. apply (ss_ggl Hc) in H2.
  rewrite !app_length, map_length. unfold vmul. rewrite map2_length. rewrite (vsub_len q gg v) by auto. rewrite Lv, Lg, H1, Nat.min_id. lia.
Qed.
Lemma mul_len (v g : vec) k : length v = k -> length g = k -> length (vmul v g) = k.
Proof. intros A B. unfold vmul. rewrite map2_length. lia. Qed.
Lemma F_sim l tb tg x mu : length x = N -> length tb = p -> length tg = q ->
  ip_F c' l (pf tb) (pg tg) q (Phi x) mu = rmap Phi (ip_F c l tb tg q x mu).
Proof.
  intros Hx Ht Hgg. destruct (split3 x Hx) as [v [b [g [E [Lv [Lb Lg]]]]]]. destruct (parts3 v b g Lv Lb Lg) as [E1 [E2 E3]].
  destruct (parts3 (pg v) (pf b) (pg g) (Pg v) (Pf b) (Pg g)) as [E1' [E2' E3']].
  unfold ip_F. rewrite E, Phi_app, E1, E2, E3, E1', E2', E3' by auto. rewrite (ss_gb Hc), (ss_gg Hc) by auto.
  destruct (sc_gradient_beta c l b g tb tg) as [gb|e] eqn:Eb; [|reflexivity]. cbn [rmap rbind].
  destruct (sc_gradient_gamma c l b g tb tg) as [gg|e] eqn:Eg; [|reflexivity]. cbn [rmap rbind].
  apply (ss_gbl Hc) in Eb. apply (ss_ggl Hc) in Eg. f_equal.
  pose proof (mul_len v g q Lv Lg) as LM.
  rewrite Phi_app; auto; [|rewrite map_length; auto|apply vsub_len; auto].
  rewrite (permute_map _ _ Hg) by auto. unfold vmul, vsub in *. rewrite !(permute_map2 _ _ Hg) by auto. reflexivity.
Qed.
Lemma dF_shape l x df : length x = N -> ip_dF c l q x = Ok df -> is_shape N N df.
Proof.
  intros Hx H. destruct (split3 x Hx) as [v [b [g [E [Lv [Lb Lg]]]]]]. destruct (parts3 v b g Lv Lb Lg) as [E1 [E2 E3]].
  unfold ip_dF in H. rewrite E, E1, E2, E3 in H. apply rbind_inv in H as [hb [H1 H]]. apply rbind_inv in H as [hbg [H2 H]].
  apply rbind_inv in H as [hg [H3 H]]. apply Ok_inj in H. rewrite <- H, Lb.
  apply (ss_hbs Hc) in H1 as [A1 A2]. apply (ss_hbgs Hc) in H2 as [B1 B2]. apply (ss_hgs Hc) in H3 as [C1 C2].
  destruct (diag_shape2 g) as [D1 D2]. destruct (diag_shape2 v) as [V1 V2]. destruct (diag_shape2 (repeat (-1) q)) as [I1 I2].
  rewrite repeat_length in I1, I2. rewrite Lg in D1, D2. rewrite Lv in V1, V2.
  rewrite tr_zeros2. pose proof (tr_length q hbg) as T1. pose proof (tr_wf q hbg) as T2. rewrite B1 in T2.
  assert (Z : forall n m, wf_mat m (repeat (zeros m) n)).
  { intros n m. apply Forall_forall. intros r Hr. apply repeat_spec in Hr. rewrite Hr. apply zeros_length. }
  split.
  - rewrite !app_length, (hcat3_len2 q), (hcat3_len2 p), (hcat3_len2 q); rewrite ?repeat_length; auto.
  - rewrite !Nat.add_assoc. repeat (apply Forall_app; split); apply hcat_wf2; auto; apply hcat_wf2; auto.
Qed.
Lemma re_mx_app X Y W : length X = q -> length Y = p -> length W = q ->
  re_mx ext ext (X ++ Y ++ W) = re_mx o2 ext X ++ re_mx o1 ext Y ++ re_mx o2 ext W.
Proof.
  intros LX LY LW. unfold re_mx. unfold ext at 2. rewrite (re_rows_app [] q) by auto. rewrite (re_rows_app [] p) by auto.
  rewrite !map_app. reflexivity.
Qed.
Lemma dF_sim l x : length x = N -> ip_dF c' l q (Phi x) = rmap (re_mx ext ext) (ip_dF c l q x).
Proof.
  intros Hx. destruct (split3 x Hx) as [v [b [g [E [Lv [Lb Lg]]]]]]. destruct (parts3 v b g Lv Lb Lg) as [E1 [E2 E3]].
  destruct (parts3 (pg v) (pf b) (pg g) (Pg v) (Pf b) (Pg g)) as [E1' [E2' E3']].
  unfold ip_dF. rewrite E, Phi_app, E1, E2, E3, E1', E2', E3', (Pf b), Lb by auto.
  rewrite (ss_hb Hc), (ss_hbg Hc), (ss_hg Hc) by auto.
  destruct (sc_hessian_beta c l b g) as [hb|e] eqn:H1; [|reflexivity]. cbn [rmap rbind].
  destruct (sc_hessian_beta_gamma c b g) as [hbg|e] eqn:H2; [|reflexivity]. cbn [rmap rbind].
  destruct (sc_hessian_gamma c l b g) as [hg|e] eqn:H3; [|reflexivity]. cbn [rmap rbind]. f_equal.
  apply (ss_hbs Hc) in H1 as [A1 A2]. apply (ss_hbgs Hc) in H2 as [B1 B2]. apply (ss_hgs Hc) in H3 as [C1 C2].
  destruct (diag_shape2 g) as [D1 D2]. destruct (diag_shape2 v) as [V1 V2]. destruct (diag_shape2 (repeat (-1) q)) as [I1 I2].
  rewrite repeat_length in I1, I2. rewrite Lg in D1, D2. rewrite Lv in V1, V2.
  rewrite tr_zeros2. pose proof (tr_length q hbg) as T1. pose proof (tr_wf q hbg) as T2. rewrite B1 in T2.
  assert (Z : forall n m, wf_mat m (repeat (zeros m) n)).
  { intros n m. apply Forall_forall. intros r Hr. apply repeat_spec in Hr. rewrite Hr. apply zeros_length. }
  rewrite re_mx_app by (apply hcat3_len2; rewrite ?repeat_length; auto).
  rewrite (hcat3_re q) by (rewrite ?repeat_length; auto). rewrite (hcat3_re p) by (rewrite ?repeat_length; auto).
  rewrite (hcat3_re q) by (rewrite ?repeat_length; auto).
  rewrite !(diag_re q) by (rewrite ?repeat_length; auto). rewrite (permute_repeat _ _ Hg).
  rewrite (re_mx_zeros o2 o1 q p), (re_mx_zeros o1 o2 p q) by auto.
  rewrite (tr_re p q) by auto. reflexivity.
Qed.

(** ** steps *)
Lemma max_step_sim x y : length x = N -> length y = N -> max_step (ip_mask q (Phi x)) (Phi x) (Phi y) = max_step (ip_mask q x) x y.
Proof.
  intros Hx Hy. unfold max_step. apply fold_min_perm. rewrite !(mask_split2 p q) by (auto; apply Phi_len).
  destruct (split3 x Hx) as [v [b [g [-> [Lv [Lb Lg]]]]]]. destruct (split3 y Hy) as [w [b' [g' [-> [Lw [Lb' Lg']]]]]].
  rewrite !Phi_app by auto. pose proof (Pf b). pose proof (Pf b'). pose proof (Pg v). pose proof (Pg w). pose proof (Pg g). pose proof (Pg g').
  rewrite !neg_ratios_app2 by (rewrite ?repeat_length; lia). rewrite !neg_ratios_false2. cbn [app].
  apply Permutation_app; apply neg_ratios_perm; auto.
Qed.

Variable opts : ip_options.
Variable prox' : option (vec -> R -> res vec).
Definition opts' : ip_options :=
  {| io_n_iter := io_n_iter opts; io_tol := io_tol opts; io_neighbourhood := io_neighbourhood opts; io_mu_decay := io_mu_decay opts;
     io_line_search := io_line_search opts; io_prox := prox'; io_prox_step := io_prox_step opts;
     io_update_every := io_update_every opts; io_increase := io_increase opts |}.
Variable minimize : (R -> res R) -> R -> res R.
Hypothesis no_search : io_line_search opts = false.
Hypothesis no_increase : io_increase opts = false.
Definition prox_sim : Prop :=
  match io_prox opts, prox' with
  | None, None => True
  | Some pr, Some pr' =>
      (forall y t, length y = (p + q)%nat -> pr' (phi y) t = rmap phi (pr y t)) /\
      (forall y t z, length y = (p + q)%nat -> pr y t = Ok z -> length z = (p + q)%nat)
  | _, _ => False
  end.
Hypothesis Hprox : prox_sim.

Definition prev_map (r : vec * vec * vec * vec) : vec * vec * vec * vec :=
  let '(tb, tg, b, g) := r in (pf tb, pg tg, pf b, pg g).
Definition ip_map (st : ip_state) : ip_state :=
  {| is_x := Phi (is_x st); is_beta := pf (is_beta st); is_gamma := pg (is_gamma st); is_tbeta := pf (is_tbeta st);
     is_tgamma := pg (is_tgamma st); is_mu := is_mu st; is_prev := option_map prev_map (is_prev st); is_step := is_step st;
     is_iter := is_iter st; is_conv := is_conv st; is_lam := is_lam st |}.
Definition wf_prev (r : vec * vec * vec * vec) : Prop :=
  let '(tb, tg, b, g) := r in length tb = p /\ length tg = q /\ length b = p /\ length g = q.
Definition wf_ip (st : ip_state) : Prop :=
  length (is_x st) = N /\ length (is_beta st) = p /\ length (is_gamma st) = q /\ length (is_tbeta st) = p /\
  length (is_tgamma st) = q /\ forall r, is_prev st = Some r -> wf_prev r.

Lemma moved_re n o tol x (v : option vec) : is_order n o -> length x = n -> (forall u, v = Some u -> length u = n) ->
  moved tol (permute o x) (option_map (permute o) v) = moved tol x v.
Proof.
  intros Ho. apply phi_moved.
  - intros a Ha. apply (permute_len _ _ Ho).
  - intros a b Ha Hb. unfold vsub. apply (permute_map2 _ _ Ho); auto.
  - intros a b Ha Hb. apply (permute_dot _ _ Ho); auto.
Qed.
Lemma continue_sim st : wf_ip st -> ip_continue c' opts' q (ip_map st) = ip_continue c opts q st.
Proof.
  intros [W1 [W2 [W3 [W4 [W5 W6]]]]]. unfold ip_continue.
  cbn [opts' io_tol io_n_iter ip_map is_x is_beta is_gamma is_tbeta is_tgamma is_mu is_prev is_step is_iter is_conv is_lam].
  destruct (nonzero (is_step st) && _)%bool; [|reflexivity]. rewrite F_sim by auto.
  destruct (ip_F c (is_lam st) (is_tbeta st) (is_tgamma st) q (is_x st) (is_mu st)) as [f|e] eqn:Ef; [|reflexivity].
  apply F_len in Ef; auto. cbn [rmap rbind]. rewrite Phi_norm by auto.
  destruct (rltb (io_tol opts) (norm f) || rltb (io_tol opts) (is_mu st))%bool; [|reflexivity].
  assert (PP : forall k k' : vec * vec * vec * vec -> vec, forall h : vec -> vec, (forall r, k' (prev_map r) = h (k r)) ->
    option_map k' (option_map prev_map (is_prev st)) = option_map h (option_map k (is_prev st))).
  { intros k k' h H. destruct (is_prev st) as [r|]; [|reflexivity]. cbn [option_map]. rewrite H. reflexivity. }
  rewrite (PP (fun '(a, _, _, _) => a) (fun '(a, _, _, _) => a) pf) by (intros [[[? ?] ?] ?]; reflexivity).
  rewrite (PP (fun '(_, a, _, _) => a) (fun '(_, a, _, _) => a) pg) by (intros [[[? ?] ?] ?]; reflexivity).
  rewrite (PP (fun '(_, _, a, _) => a) (fun '(_, _, a, _) => a) pf) by (intros [[[? ?] ?] ?]; reflexivity).
  rewrite (PP (fun '(_, _, _, a) => a) (fun '(_, _, _, a) => a) pg) by (intros [[[? ?] ?] ?]; reflexivity).
  assert (PL : forall (k : vec * vec * vec * vec -> vec) n, (forall r, wf_prev r -> length (k r) = n) ->
    forall u, option_map k (is_prev st) = Some u -> length u = n).
  { intros k n H u Hu. destruct (is_prev st) as [r|]; [|discriminate]. cbn [option_map] in Hu. inversion Hu. apply H, W6. reflexivity. }
  rewrite (moved_re p o1) by (auto; apply PL; intros [[[? ?] ?] ?] [? [? [? ?]]]; auto).
  rewrite (moved_re q o2) by (auto; apply PL; intros [[[? ?] ?] ?] [? [? [? ?]]]; auto).
  rewrite (moved_re p o1) by (auto; apply PL; intros [[[? ?] ?] ?] [? [? [? ?]]]; auto).
  rewrite (moved_re q o2) by (auto; apply PL; intros [[[? ?] ?] ?] [? [? [? ?]]]; auto).
  reflexivity.
Qed.
Lemma off_re (v g : vec) a : length v = q -> length g = q ->
  norm (map (fun x => x - a) (vmul (pg g) (pg v))) = norm (map (fun x => x - a) (vmul g v)).
Proof.
  intros Lv Lg. pose proof (mul_len g v q Lg Lv) as LM. unfold vmul in *.
  rewrite <- (permute_map2 _ _ Hg) by auto. rewrite <- (permute_map _ _ Hg) by auto. apply (permute_norm _ _ Hg).
  rewrite map_length. auto.
Qed.
Lemma body_sim st : wf_ip st ->
  ip_body c' opts' p q solve minimize q (ip_map st) = rmap ip_map (ip_body c opts p q solve minimize q st) /\
  forall st', ip_body c opts p q solve minimize q st = Ok st' -> wf_ip st'.
Proof.
  intros [W1 [W2 [W3 [W4 [W5 W6]]]]]. unfold ip_body.
  cbn [opts' io_tol io_n_iter io_neighbourhood io_mu_decay io_line_search io_prox io_prox_step io_update_every io_increase
    ip_map is_x is_beta is_gamma is_tbeta is_tgamma is_mu is_prev is_step is_iter is_conv is_lam].
  rewrite no_search, no_increase. cbn [rbind]. rewrite F_sim by auto.
  destruct (ip_F c (is_lam st) (is_tbeta st) (is_tgamma st) q (is_x st) (is_mu st)) as [f|e] eqn:Ef; [|split; [reflexivity|discriminate]].
  apply F_len in Ef; auto. cbn [rmap rbind]. rewrite dF_sim by auto.
  destruct (ip_dF c (is_lam st) q (is_x st)) as [df|e] eqn:Ed; [|split; [reflexivity|discriminate]].
  apply dF_shape in Ed; auto. cbn [rmap rbind].
  replace (vneg (Phi f)) with (Phi (vneg f)) by (unfold vneg; apply (permute_map _ _ ext_order); auto).
  assert (Ln : length (vneg f) = N) by (rewrite vneg_length; auto).
  rewrite (Hsolve N) by (auto; exact ext_order).
  destruct (solve df (vneg f)) as [d|e] eqn:Es; [|split; [reflexivity|discriminate]]. cbn [rmap rbind].
  apply Hsolve_len in Es. rewrite Ln in Es. rewrite !Phi_len, Es, W1, Nat.eqb_refl by auto. cbn [guard rbind].
  rewrite max_step_sim by auto. set (hi := max_step (ip_mask q (is_x st)) (is_x st) d).
  assert (EX : vadd (Phi (is_x st)) (vscale (99 / 100 * hi) (Phi d)) = Phi (vadd (is_x st) (vscale (99 / 100 * hi) d))).
  { unfold vadd, vscale. rewrite <- (permute_map _ _ ext_order) by auto. symmetry. apply (permute_map2 _ _ ext_order); rewrite ?map_length; auto. }
  rewrite EX. set (x' := vadd (is_x st) (vscale (99 / 100 * hi) d)).
  assert (Lx : length x' = N) by (unfold x'; apply vadd_len; auto; rewrite vscale_length; auto).
  clearbody x' hi. clear EX.
  destruct (split3 x' Lx) as [v [b [g [E [Lv [Lb Lg]]]]]]. destruct (parts3 v b g Lv Lb Lg) as [E1 [E2 E3]].
  destruct (parts3 (pg v) (pf b) (pg g) (Pg v) (Pf b) (Pg g)) as [E1' [E2' E3']].
  rewrite E, Phi_app, E1, E2, E3, E1', E2', E3' by auto. rewrite !(permute_dot _ _ Hg) by auto. rewrite off_re by auto.
  destruct (rltb (io_neighbourhood opts * vdot g v / INR q) _).
  - split.
    + cbn [rmap]. unfold ip_map. cbn. rewrite Phi_app by auto. reflexivity.
    + intros st' H. apply Ok_inj in H. rewrite <- H. unfold wf_ip. cbn. rewrite <- E. repeat split; auto.
      intros r Hr. inversion Hr. cbn. auto.
  - assert (PX : exists o, (match io_prox opts with
      | Some prox => if ((0 <? io_update_every opts) && (Z.of_nat (S (is_iter st)) mod io_update_every opts =? 0))%Z%bool
          then let! tx := prox (beta_gamma_to_x b g) (io_prox_step opts) in Ok (x_to_beta_gamma p q tx)
          else Ok (is_tbeta st, is_tgamma st)
      | None => Ok (is_tbeta st, is_tgamma st) end) = o /\
      (match prox' with
      | Some prox => if ((0 <? io_update_every opts) && (Z.of_nat (S (is_iter st)) mod io_update_every opts =? 0))%Z%bool
          then let! tx := prox (beta_gamma_to_x (pf b) (pg g)) (io_prox_step opts) in Ok (x_to_beta_gamma p q tx)
          else Ok (pf (is_tbeta st), pg (is_tgamma st))
      | None => Ok (pf (is_tbeta st), pg (is_tgamma st)) end) = rmap (fun r => (pf (fst r), pg (snd r))) o /\
      forall r, o = Ok r -> length (fst r) = p /\ length (snd r) = q).
    { eexists. split; [reflexivity|]. pose proof Hprox as HP. unfold prox_sim in HP.
      destruct (io_prox opts) as [pr|] eqn:Epr, prox' as [pr'|]; try contradiction.
      2:{ split; [reflexivity|]. intros r Hr. apply Ok_inj in Hr. rewrite <- Hr. auto. }
      destruct HP as [HP1 HP2].
      destruct ((0 <? io_update_every opts) && _)%Z%bool.
      2:{ split; [reflexivity|]. intros r Hr. apply Ok_inj in Hr. rewrite <- Hr. auto. }
      unfold beta_gamma_to_x. assert (L : length (b ++ g) = (p + q)%nat) by (rewrite app_length; lia).
      rewrite <- (phi_app p q o1 o2 Hf Hg) by auto. rewrite HP1 by auto.
      destruct (pr (b ++ g) (io_prox_step opts)) as [z|e] eqn:Ez; [|split; [reflexivity|discriminate]].
      apply HP2 in Ez; auto. cbn [rmap rbind].
      destruct (split_parts p q z Ez) as [zb [zg [E0 [Lzb [Lzg Es0]]]]]. rewrite Es0, E0, (phi_app p q o1 o2 Hf Hg) by auto.
      rewrite parts_app by (apply Pf || apply Pg). split; [reflexivity|]. intros r Hr. apply Ok_inj in Hr. rewrite <- Hr. auto. }
    destruct PX as [o [P1 [P2 P3]]]. rewrite P1, P2. destruct o as [[tb tg]|e]; [|split; [reflexivity|discriminate]].
    destruct (P3 _ eq_refl) as [P4 P5]. cbn [rmap rbind fst snd] in *. split.
    + cbn [rmap]. unfold ip_map. cbn. rewrite Phi_app by auto. reflexivity.
    + intros st' H. apply Ok_inj in H. rewrite <- H. unfold wf_ip. cbn. rewrite <- E. repeat split; auto.
      intros r Hr. inversion Hr. cbn. auto.
Qed.
Lemma loop_sim : forall fuel st, wf_ip st ->
  ip_loop c' opts' p q solve minimize q fuel (ip_map st) = rmap ip_map (ip_loop c opts p q solve minimize q fuel st) /\
  forall st', ip_loop c opts p q solve minimize q fuel st = Ok st' -> wf_ip st'.
Proof.
  induction fuel as [|fuel IH]; intros st W; cbn [ip_loop]; rewrite continue_sim by auto;
    (destruct (ip_continue c opts q st) as [[|]|e]; cbn [rbind]; [|split; [reflexivity|intros st' H; apply Ok_inj in H; rewrite <- H; exact W]|split; [reflexivity|discriminate]]).
  - split; [reflexivity|discriminate].
  - destruct (body_sim st W) as [B1 B2]. rewrite B1.
    destruct (ip_body c opts p q solve minimize q st) as [st1|e]; [|split; [reflexivity|discriminate]]. cbn [rmap rbind]. apply IH. auto.
Qed.

(** ** the oracle *)
Variable warm : bool.
Definition warm_map (bg : vec * vec) : vec * vec := (pf (fst bg), pg (snd bg)).
Definition mem_map (m : sr3_memory) : sr3_memory := {| sm_lam := sm_lam m; sm_warm := option_map warm_map (sm_warm m) |}.
Definition wf_mem (m : sr3_memory) : Prop := forall bg, sm_warm m = Some bg -> length (fst bg) = p /\ length (snd bg) = q.
Lemma start_ip_sim m b g tb tg : wf_mem m -> length b = p -> length g = q -> length tb = p -> length tg = q ->
  ip_start warm (mem_map m) (pf b) (pg g) (pf tb) (pg tg) = ip_map (ip_start warm m b g tb tg) /\ wf_ip (ip_start warm m b g tb tg).
Proof.
  intros W Lb Lg Lt Ltg. unfold ip_start, mem_map. cbn [sm_warm sm_lam].
  assert (LO : length (ones q) = q) by apply ones_length.
  assert (PO : ones q = pg (ones q)) by (symmetry; apply (permute_repeat _ _ Hg)).
  assert (G : forall b0 g0, length b0 = p -> length g0 = q ->
    length (ones q ++ b0 ++ g0) = N) by (intros; rewrite !app_length, ones_length; lia).
  assert (MU : forall (x y : vec), length x = q -> length y = q -> vdot (pg x) (pg y) = vdot x y) by (intros; apply (permute_dot _ _ Hg); auto).
  assert (MO : forall x : vec, length x = q -> vdot (ones q) (pg x) = vdot (ones q) x) by (intros x Hx; rewrite PO at 1; apply MU; auto).
  rewrite Lg, Pg. destruct warm; [destruct (sm_warm m) as [[wb wg]|] eqn:Ew|]; cbn [option_map warm_map fst snd].
  - destruct (W _ Ew) as [L1 L2]. cbn [fst snd] in L1, L2. split.
    + unfold ip_map. cbn. rewrite Phi_app by auto. rewrite <- PO. rewrite MO by auto. reflexivity.
    + unfold wf_ip. cbn. repeat split; auto. discriminate.
  - split.
    + unfold ip_map. cbn. rewrite Phi_app by auto. rewrite <- PO. rewrite MO by auto. reflexivity.
    + unfold wf_ip. cbn. repeat split; auto. discriminate.
  - split.
    + unfold ip_map. cbn. rewrite Phi_app by auto. rewrite <- PO. rewrite MO by auto. reflexivity.
    + unfold wf_ip. cbn. repeat split; auto. discriminate.
Qed.
Definition find_map (r : vec * vec * vec * vec * sr3_memory) : vec * vec * vec * vec * sr3_memory :=
  let '(b, g, tb, tg, m) := r in (pf b, pg g, pf tb, pg tg, mem_map m).
Definition wf_find (r : vec * vec * vec * vec * sr3_memory) : Prop :=
  let '(b, g, tb, tg, m) := r in length b = p /\ length g = q /\ length tb = p /\ length tg = q /\ wf_mem m.
Lemma find_sim m b g tb tg : wf_mem m -> length b = p -> length g = q -> length tb = p -> length tg = q ->
  find_ip c' opts' p q solve minimize warm (mem_map m) (pf b) (pg g) (pf tb) (pg tg)
  = rmap find_map (find_ip c opts p q solve minimize warm m b g tb tg) /\
  forall r, find_ip c opts p q solve minimize warm m b g tb tg = Ok r -> wf_find r.
Proof.
  intros W Lb Lg Lt Ltg. unfold find_ip. pose proof (Pg tg) as LP.
  destruct tg as [|t tg].
  - cbn [length] in Ltg. assert (EP : pg [] = []) by (apply length_zero_iff_nil; lia). rewrite EP. cbn [mem_map sm_lam].
    rewrite <- EP at 1. rewrite (ss_ob Hc) by auto.
    destruct (sc_optimal_beta c (sm_lam m) [] tb) as [b1|e] eqn:Eb; [|split; [reflexivity|discriminate]]. cbn [rmap rbind].
    apply (ss_obl Hc) in Eb. split; [cbn [find_map]; rewrite EP; reflexivity|].
    intros r Hr. apply Ok_inj in Hr. rewrite <- Hr. cbn [wf_find]. auto.
  - destruct (start_ip_sim m b g tb (t :: tg) W Lb Lg Lt Ltg) as [S1 S2]. rewrite S1. rewrite Lg, Pg.
    assert (Q : (0 < q)%nat) by (cbn [length] in Ltg; lia).
    destruct (pg (t :: tg)) as [|t' tg']; [cbn [length] in LP; lia|].
    destruct (Nat.ltb_spec 0 q); [|lia]. cbn [guard rbind]. cbn [opts' io_n_iter].
    destruct (loop_sim (Z.to_nat (io_n_iter opts)) _ S2) as [L1 L2]. rewrite L1.
    destruct (ip_loop c opts p q solve minimize q (Z.to_nat (io_n_iter opts)) (ip_start warm m b g tb (t :: tg))) as [st|e];
      [|split; [reflexivity|discriminate]]. cbn [rmap rbind].
    destruct (L2 st eq_refl) as [W1 [W2 [W3 [W4 [W5 W6]]]]]. split.
    + cbn [find_map]. unfold mem_map. cbn [sm_lam sm_warm ip_map is_beta is_gamma is_tbeta is_tgamma is_lam].
      destruct warm; reflexivity.
    + intros r Hr. apply Ok_inj in Hr. rewrite <- Hr. cbn [wf_find]. repeat split; auto.
      * cbn [sm_warm] in H0. destruct warm; [inversion H0; auto|apply W; auto].
      * cbn [sm_warm] in H0. destruct warm; [inversion H0; auto|apply W; auto].
Qed.
Lemma double_re n o b : is_order n o -> length b = n -> vscale 2 (permute o b) = permute o (vscale 2 b).
Proof. intros Ho Hb. symmetry. unfold vscale. apply (permute_map _ _ Ho). auto. Qed.
Lemma value_function_sim m x : wf_mem m -> length x = (p + q)%nat ->
  value_function c' opts' p q solve minimize warm (mem_map m) (phi x)
  = rmap (fun r => (fst r, mem_map (snd r))) (value_function c opts p q solve minimize warm m x) /\
  forall r, value_function c opts p q solve minimize warm m x = Ok r -> wf_mem (snd r).
Proof.
  intros W Hx. unfold value_function. destruct (split_parts p q x Hx) as [b [g [E [Lb [Lg Es]]]]].
  rewrite Es, E, (phi_app p q o1 o2 Hf Hg) by auto. rewrite parts_app by (apply Pf || apply Pg).
  rewrite (double_re p o1), (double_re q o2) by auto.
  destruct (find_sim m (vscale 2 b) (vscale 2 g) b g W) as [F1 F2]; rewrite ?vscale_length; auto. rewrite F1.
  destruct (find_ip c opts p q solve minimize warm m (vscale 2 b) (vscale 2 g) b g) as [[[[[b1 g1] tb1] tg1] m1]|e];
    [|split; [reflexivity|discriminate]]. cbn [rmap rbind find_map].
  destruct (F2 _ eq_refl) as [L1 [L2 [L3 [L4 L5]]]]. cbn [mem_map sm_lam]. rewrite (ss_loss Hc) by auto.
  destruct (sc_loss c (sm_lam m1) b1 g1 tb1 tg1) as [f|e]; [|split; [reflexivity|discriminate]]. split; [reflexivity|].
  intros r Hr. apply Ok_inj in Hr. rewrite <- Hr. exact L5.
Qed.
Lemma gradient_function_sim m x : wf_mem m -> length x = (p + q)%nat ->
  gradient_value_function c' opts' p q solve minimize warm (mem_map m) (phi x)
  = rmap (fun r => (phi (fst r), mem_map (snd r))) (gradient_value_function c opts p q solve minimize warm m x) /\
  forall r, gradient_value_function c opts p q solve minimize warm m x = Ok r -> length (fst r) = (p + q)%nat /\ wf_mem (snd r).
Proof.
  intros W Hx. unfold gradient_value_function. rewrite (phi_len p q o1 o2 Hf Hg), Hx by auto.
  destruct (split_parts p q x Hx) as [b [g [E [Lb [Lg Es]]]]].
  assert (Es' : x_to_beta_gamma p q (phi x) = (pf b, pg g)).
  { rewrite E, (phi_app p q o1 o2 Hf Hg) by auto. apply parts_app; [apply Pf|apply Pg]. }
  rewrite Es, Es'. rewrite (double_re p o1), (double_re q o2) by auto.
  destruct (find_sim m (vscale 2 b) (vscale 2 g) b g W) as [F1 F2]; rewrite ?vscale_length; auto. rewrite F1.
  destruct (find_ip c opts p q solve minimize warm m (vscale 2 b) (vscale 2 g) b g) as [[[[[b1 g1] tb1] tg1] m1]|e];
    [|split; [reflexivity|discriminate]]. cbn [rmap rbind find_map].
  destruct (F2 _ eq_refl) as [L1 [L2 [L3 [L4 L5]]]]. cbn [mem_map sm_lam]. unfold beta_gamma_to_x.
  assert (L : length (b1 ++ g1) = (p + q)%nat) by (rewrite app_length; lia).
  rewrite <- (phi_app p q o1 o2 Hf Hg) by auto. rewrite (phi_len p q o1 o2 Hf Hg), L, app_length, !repeat_length, Nat.eqb_refl by auto.
  cbn [andb guard rbind]. set (lams := repeat (lam_b (sm_lam m1)) p ++ repeat (lam_g (sm_lam m1)) q).
  assert (LL : length lams = (p + q)%nat) by (unfold lams; rewrite app_length, !repeat_length; auto).
  assert (LS : length (vsub (b1 ++ g1) x) = (p + q)%nat) by (apply vsub_len; auto).
  assert (LN : length (vneg lams) = (p + q)%nat) by (rewrite vneg_length; auto).
  assert (EL : phi lams = lams).
  { unfold lams. rewrite (phi_app p q o1 o2 Hf Hg) by apply repeat_length.
    rewrite (permute_repeat _ _ Hf), (permute_repeat _ _ Hg). reflexivity. }
  assert (LV : length (vmul (vneg lams) (vsub (b1 ++ g1) x)) = (p + q)%nat) by (apply mul_len; auto).
  split.
  - cbn [rmap fst snd]. unfold mem_map at 1. cbn [sm_warm sm_lam]. f_equal. f_equal.
    unfold vmul. rewrite (phi_map2 p q o1 o2 Hf Hg) by auto. f_equal.
    + unfold vneg. rewrite (phi_map p q o1 o2 Hf Hg) by auto. rewrite EL. reflexivity.
    + unfold vsub. symmetry. apply (phi_map2 p q o1 o2 Hf Hg); auto.
  - intros r Hr. apply Ok_inj in Hr. rewrite <- Hr. auto.
Qed.
Lemma optimal_parameters_sim m x : wf_mem m -> length x = (p + q)%nat ->
  find_optimal_parameters c' opts' p q solve minimize warm (mem_map m) (phi x)
  = rmap (fun r => (phi (fst r), mem_map (snd r))) (find_optimal_parameters c opts p q solve minimize warm m x) /\
  forall r, find_optimal_parameters c opts p q solve minimize warm m x = Ok r -> length (fst r) = (p + q)%nat /\ wf_mem (snd r).
Proof.
  intros W Hx. unfold find_optimal_parameters. destruct (split_parts p q x Hx) as [b [g [E [Lb [Lg Es]]]]].
  rewrite Es, E, (phi_app p q o1 o2 Hf Hg) by auto. rewrite parts_app by (apply Pf || apply Pg).
  rewrite (double_re p o1), (double_re q o2) by auto.
  destruct (find_sim m (vscale 2 b) (vscale 2 g) b g W) as [F1 F2]; rewrite ?vscale_length; auto. rewrite F1.
  destruct (find_ip c opts p q solve minimize warm m (vscale 2 b) (vscale 2 g) b g) as [[[[[b1 g1] tb1] tg1] m1]|e];
    [|split; [reflexivity|discriminate]]. cbn [rmap rbind find_map].
  destruct (F2 _ eq_refl) as [L1 [L2 [L3 [L4 L5]]]]. unfold beta_gamma_to_x. split.
  - cbn [fst snd]. rewrite (phi_app p q o1 o2 Hf Hg) by auto. reflexivity.
  - intros r Hr. apply Ok_inj in Hr. rewrite <- Hr. cbn [fst snd]. rewrite app_length. auto.
Qed.
End Inner.
