(** The interior point method of LinearLMEOracleSR3 when the oracle respects signs of the fixed features. *)
From Coq Require Import Lra Lia.
From Verif.Base Require Import Py Vec Mat.
From Verif.Model Require Import LmeProblem Regularizers Solvers LmeInner LmeTrace LmeFit.
From Verif.Spec Require Import ColumnSpec FlipSpec.
From Verif.Proofs Require Import VecFacts MatFacts SolverProofs LinearProofs ColumnProofs ColumnCases FeatureFit FlipFit.
Open Scope R_scope.

(** the signs of rows, and of rows and columns, of a matrix *)
Definition flip_rows (sg : vec) (a : mat) : mat := map2 vscale sg a.
Definition flip_mx (s1 s2 : vec) (a : mat) : mat := map2 (fun s row => vscale s (flip s2 row)) s1 a.

Lemma map2_app {A B C} (f : A -> B -> C) : forall a b c d, length a = length c ->
  map2 f (a ++ b) (c ++ d) = map2 f a c ++ map2 f b d.
Proof.
  induction a as [|x a IH]; intros b c d H; destruct c as [|y c]; try discriminate; [reflexivity|].
  cbn [app map2]. f_equal. apply IH. simpl in H. lia.
Qed.
Lemma map_repeat {A B} (f : A -> B) a : forall n, map f (repeat a n) = repeat (f a) n.
Proof. induction n as [|n IH]; [reflexivity|]. cbn. f_equal. exact IH. Qed.
Lemma vmul_app2 (a b c d : vec) : length a = length c -> vmul (a ++ b) (c ++ d) = vmul a c ++ vmul b d.
Proof. apply map2_app. Qed.
Lemma ones_flip2 : forall k g, length g = k -> vmul (ones k) g = g.
Proof.
  induction k as [|k IH]; intros g Hk; destruct g as [|a g]; try discriminate; [reflexivity|].
  unfold vmul, ones in *. cbn [repeat map2]. rewrite Rmult_1_l. f_equal. apply IH. simpl in Hk. lia.
Qed.
Lemma vscale_app k a b : vscale k (a ++ b) = vscale k a ++ vscale k b.
Proof. apply map_app. Qed.
Lemma vscale_one a : vscale 1 a = a.
Proof. unfold vscale. rewrite (map_ext _ (fun x => x)) by (intros; ring). apply map_id. Qed.
Lemma vscale_zeros k n : vscale k (zeros n) = zeros n.
Proof. unfold vscale, zeros. rewrite map_repeat. f_equal. ring. Qed.
Lemma flip_rows_ones : forall n a, length a = n -> flip_rows (ones n) a = a.
Proof.
  induction n as [|n IH]; intros a H; destruct a as [|r a]; try discriminate; [reflexivity|].
  unfold flip_rows, ones in *. cbn [repeat map2]. rewrite vscale_one. f_equal. apply IH. simpl in H. lia.
Qed.
Lemma flip_mx_ones : forall n d a, length a = n -> flip_mx (ones n) d a = map (flip d) a.
Proof.
  induction n as [|n IH]; intros d a H; destruct a as [|r a]; try discriminate; [reflexivity|].
  unfold flip_mx, ones in *. cbn [repeat map2 map]. rewrite vscale_one. f_equal. apply IH. simpl in H. lia.
Qed.

Section Inner.
Variables (p q : nat) (d1 : vec).
Hypothesis Hf : is_signs p d1.
Hypothesis q0 : (0 < q)%nat.
Notation pf := (flip d1).
Notation phi := (flip_parameters q d1).
Definition ext : vec := ones q ++ d1 ++ ones q.
Notation Phi := (flip ext).
Notation N := (q + (p + q))%nat.

Lemma ext_signs : is_signs N ext.
Proof.
  unfold ext. destruct Hf as [L F]. split; [rewrite !app_length, !ones_length; lia|].
  assert (O : Forall (fun s : R => s = 1 \/ s = -1) (ones q)).
  { apply Forall_forall. intros x Hx. apply repeat_spec in Hx. auto. }
  apply Forall_app. split; [exact O|]. apply Forall_app. split; auto.
Qed.
Lemma Phi_app v b g : length v = q -> length b = p -> length g = q -> Phi (v ++ b ++ g) = v ++ pf b ++ g.
Proof.
  intros Hv Hb H. unfold ext, flip. destruct Hf as [L _].
  rewrite vmul_app2 by (rewrite ones_length; auto). rewrite vmul_app2 by lia. rewrite !ones_flip2 by auto. reflexivity.
Qed.
Lemma parts3 (v b g : vec) : length v = q -> length b = p -> length g = q ->
  ip_v q (v ++ b ++ g) = v /\ ip_b q (v ++ b ++ g) = b /\ ip_g q (v ++ b ++ g) = g.
Proof.
  intros Hv Hb H. unfold ip_v, ip_b, ip_g. rewrite !app_length. split; [|split].
  - rewrite firstn_app, Hv, Nat.sub_diag, firstn_O, app_nil_r. rewrite <- Hv. apply firstn_all.
  - rewrite skipn_app, Hv, Nat.sub_diag, (skipn_all2 v) by lia. cbn [app skipn].
    replace (q + (length b + length g) - q - q)%nat with (length b) by lia.
    rewrite firstn_app, Nat.sub_diag, firstn_O, app_nil_r. apply firstn_all.
  - replace (length v + (length b + length g) - q)%nat with (length v + length b)%nat by lia.
    rewrite skipn_app, (skipn_all2 v) by lia. cbn [app].
    replace (length v + length b - length v)%nat with (length b) by lia.
    rewrite skipn_app, (skipn_all2 b), Nat.sub_diag by lia. reflexivity.
Qed.
Lemma split3 (x : vec) : length x = N -> exists v b g, x = v ++ b ++ g /\ length v = q /\ length b = p /\ length g = q.
Proof.
  intros H. exists (firstn q x), (firstn p (skipn q x)), (skipn p (skipn q x)).
  rewrite !firstn_skipn. split; [reflexivity|].
  rewrite !firstn_length, !skipn_length. lia.
Qed.

(** ** the matrix of the step *)
Lemma hcat3 : forall sg A B C, length A = length sg -> length B = length sg -> length C = length sg ->
  wf_mat q A -> wf_mat p B -> wf_mat q C ->
  flip_mx sg ext (hcat (hcat A B) C) = hcat (hcat (flip_rows sg A) (flip_mx sg d1 B)) (flip_rows sg C).
Proof.
  induction sg as [|s sg IH]; intros A B C LA LB LC WA WB WC; destruct A as [|a A], B as [|b B], C as [|c C]; try discriminate; [reflexivity|].
  inversion WA as [|a0 A0 HA WA' EA]. inversion WB as [|b0 B0 HB WB' EB]. inversion WC as [|c0 C0 HC WC' EC].
  unfold hcat, flip_mx, flip_rows in *. cbn [map2]. f_equal; [|apply IH; auto].
  rewrite <- app_assoc, Phi_app by auto. rewrite !vscale_app, app_assoc. reflexivity.
Qed.
Lemma hcat_len a b : length a = length b -> length (hcat a b) = length a.
Proof. intros E. unfold hcat. rewrite map2_length. rewrite E. apply Nat.min_id. Qed.
Lemma hcat3_len n a b c : length a = n -> length b = n -> length c = n -> length (hcat (hcat a b) c) = n.
Proof. intros A B C. unfold hcat. rewrite !map2_length. lia. Qed.
Lemma hcat_wf n m : forall a b, wf_mat n a -> wf_mat m b -> wf_mat (n + m) (hcat a b).
Proof.
  unfold hcat. induction a as [|r a IH]; intros b Wa Wb; [constructor|]. destruct b as [|t b]; [constructor|].
  inversion Wa; inversion Wb; subst. constructor; [apply app_length|]. apply IH; auto.
Qed.
Lemma diag_shape v : is_shape (length v) (length v) (diag v).
Proof.
  unfold diag, is_shape. split; [apply mapi_length|].
  assert (G : forall (w : vec) k m, wf_mat m (mapi_from k (fun i c => vscale c (unit_row m i)) w)).
  { induction w as [|a w IH]; intros k m; [constructor|]. cbn [mapi_from]. constructor; [|apply IH].
    unfold vscale, unit_row. rewrite !map_length, seq_length. reflexivity. }
  apply G.
Qed.
Lemma zero_rows : forall n sg m, length sg = n -> flip_rows sg (repeat (zeros m) n) = repeat (zeros m) n.
Proof.
  induction n as [|n IH]; intros sg m H; destruct sg as [|s sg]; try discriminate; [reflexivity|].
  unfold flip_rows in *. cbn [repeat map2]. rewrite vscale_zeros. f_equal. apply IH. simpl in H. lia.
Qed.
Lemma tr_zeros n m : tr m (repeat (zeros m) n) = repeat (zeros n) m.
Proof.
  unfold tr. rewrite (map_ext_in _ (fun _ => zeros n)).
  - generalize 0%nat as k. induction m as [|m IH]; intros k; [reflexivity|]. cbn [seq map repeat]. f_equal. apply IH.
  - intros j Hj. rewrite map_repeat. unfold zeros. rewrite nth_repeat. reflexivity.
Qed.
Lemma nth_vscale_plain k x j : nth j (vscale k x) 0 = k * nth j x 0.
Proof. unfold vscale. replace 0 with (k * 0) at 1 by ring. apply map_nth. Qed.
Lemma tr_flip m : forall sg a, length sg = length a -> tr m (flip_rows sg a) = map (flip sg) (tr m a).
Proof.
  intros sg a H. unfold tr. rewrite map_map. apply map_ext. intros j. unfold flip, vmul, flip_rows.
  revert a H. induction sg as [|s sg IH]; intros a H; destruct a as [|r a]; try discriminate; [reflexivity|].
  cbn [map2 map]. rewrite nth_vscale_plain. f_equal. apply IH. simpl in H. lia.
Qed.

Variables c c' : sr3_calls.
Record sr3_sim : Prop := {
  ss_gb : forall l b g tb tg, length b = p -> length g = q -> length tb = p -> length tg = q ->
    sc_gradient_beta c' l (pf b) g (pf tb) tg = rmap pf (sc_gradient_beta c l b g tb tg);
  ss_gbl : forall l b g tb tg v, sc_gradient_beta c l b g tb tg = Ok v -> length v = p;
  ss_gg : forall l b g tb tg, length b = p -> length g = q -> length tb = p -> length tg = q ->
    sc_gradient_gamma c' l (pf b) g (pf tb) tg = sc_gradient_gamma c l b g tb tg;
  ss_ggl : forall l b g tb tg v, sc_gradient_gamma c l b g tb tg = Ok v -> length v = q;
  ss_hb : forall l b g, length b = p -> length g = q ->
    sc_hessian_beta c' l (pf b) g = rmap (flip_mx d1 d1) (sc_hessian_beta c l b g);
  ss_hbs : forall l b g h, sc_hessian_beta c l b g = Ok h -> is_shape p p h;
  ss_hbg : forall b g, length b = p -> length g = q ->
    sc_hessian_beta_gamma c' (pf b) g = rmap (flip_rows d1) (sc_hessian_beta_gamma c b g);
  ss_hbgs : forall b g h, sc_hessian_beta_gamma c b g = Ok h -> is_shape p q h;
  ss_hg : forall l b g, length b = p -> length g = q -> sc_hessian_gamma c' l (pf b) g = sc_hessian_gamma c l b g;
  ss_hgs : forall l b g h, sc_hessian_gamma c l b g = Ok h -> is_shape q q h;
  ss_ob : forall l g tb, length g = q -> length tb = p -> sc_optimal_beta c' l g (pf tb) = rmap pf (sc_optimal_beta c l g tb);
  ss_obl : forall l g tb v, sc_optimal_beta c l g tb = Ok v -> length v = p;
  ss_loss : forall l b g tb tg, length b = p -> length g = q -> length tb = p -> length tg = q ->
    sc_loss c' l (pf b) g (pf tb) tg = sc_loss c l b g tb tg
}.
Hypothesis Hc : sr3_sim.
Variable solve : mat -> vec -> res vec.
Hypothesis Hsolve : forall n sg a b, is_signs n sg -> is_shape n n a -> length b = n ->
  solve (flip_mx sg sg a) (flip sg b) = rmap (flip sg) (solve a b).
Hypothesis Hsolve_len : forall a b x, solve a b = Ok x -> length x = length b.

Notation Pf := (pf_len p d1 Hf).
Lemma Phi_len x : length x = N -> length (Phi x) = N.
Proof. apply (flip_len N ext ext_signs). Qed.
Lemma Phi_norm x : length x = N -> norm (Phi x) = norm x.
Proof. apply (flip_norm N ext ext_signs). Qed.
Lemma pf_norm x : length x = p -> norm (pf x) = norm x.
Proof. apply (flip_norm p d1 Hf). Qed.

Lemma F_len l tb tg x mu f : length x = N -> ip_F c l tb tg q x mu = Ok f -> length f = N.
Proof.
  intros Hx H. destruct (split3 x Hx) as [v [b [g [E [Lv [Lb Lg]]]]]]. destruct (parts3 v b g Lv Lb Lg) as [E1 [E2 E3]].
  unfold ip_F in H. rewrite E, E1, E2, E3 in H. apply rbind_inv in H as [gb [H1 H]]. apply rbind_inv in H as [gg [H2 H]].
  apply Ok_inj in H. rewrite <- H. apply (ss_gbl Hc) in H1. apply (ss_ggl Hc) in H2.
  rewrite !app_length, map_length. unfold vmul. rewrite map2_length. rewrite (vsub_len q gg v) by auto. rewrite Lv, Lg, H1, Nat.min_id. lia.
Qed.
Lemma F_sim l tb tg x mu : length x = N -> length tb = p -> length tg = q ->
  ip_F c' l (pf tb) tg q (Phi x) mu = rmap Phi (ip_F c l tb tg q x mu).
Proof.
  intros Hx Ht Hg. destruct (split3 x Hx) as [v [b [g [E [Lv [Lb Lg]]]]]]. destruct (parts3 v b g Lv Lb Lg) as [E1 [E2 E3]].
  destruct (parts3 v (pf b) g Lv (Pf b Lb) Lg) as [E1' [E2' E3']].
  unfold ip_F. rewrite E, Phi_app, E1, E2, E3, E1', E2', E3' by auto. rewrite (ss_gb Hc), (ss_gg Hc) by auto.
  destruct (sc_gradient_beta c l b g tb tg) as [gb|e] eqn:Eb; [|reflexivity]. cbn [rmap rbind].
  destruct (sc_gradient_gamma c l b g tb tg) as [gg|e] eqn:Eg; [|reflexivity]. cbn [rmap rbind].
  apply (ss_gbl Hc) in Eb. apply (ss_ggl Hc) in Eg. f_equal. symmetry. apply Phi_app; auto.
  - rewrite map_length. unfold vmul. rewrite map2_length, Lv, Lg. apply Nat.min_id.
  - apply vsub_len; auto.
Qed.
Lemma dF_shape l x df : length x = N -> ip_dF c l q x = Ok df -> is_shape N N df.
Proof.
  intros Hx H. destruct (split3 x Hx) as [v [b [g [E [Lv [Lb Lg]]]]]]. destruct (parts3 v b g Lv Lb Lg) as [E1 [E2 E3]].
  unfold ip_dF in H. rewrite E, E1, E2, E3 in H. apply rbind_inv in H as [hb [H1 H]]. apply rbind_inv in H as [hbg [H2 H]].
  apply rbind_inv in H as [hg [H3 H]]. apply Ok_inj in H. rewrite <- H, Lb.
  apply (ss_hbs Hc) in H1 as [A1 A2]. apply (ss_hbgs Hc) in H2 as [B1 B2]. apply (ss_hgs Hc) in H3 as [C1 C2].
  destruct (diag_shape g) as [D1 D2]. destruct (diag_shape v) as [V1 V2]. destruct (diag_shape (repeat (-1) q)) as [I1 I2].
  rewrite repeat_length in I1, I2. rewrite Lg in D1, D2. rewrite Lv in V1, V2.
  rewrite tr_zeros. pose proof (tr_length q hbg) as T1. pose proof (tr_wf q hbg) as T2. rewrite B1 in T2.
  assert (Z : forall n m, wf_mat m (repeat (zeros m) n)).
  { intros n m. apply Forall_forall. intros r Hr. apply repeat_spec in Hr. rewrite Hr. apply zeros_length. }
  split.
  - rewrite !app_length, (hcat3_len q), (hcat3_len p), (hcat3_len q); rewrite ?repeat_length; auto.
  - rewrite !Nat.add_assoc. repeat (apply Forall_app; split); apply hcat_wf; auto; apply hcat_wf; auto.
Qed.
Lemma dF_sim l x : length x = N -> ip_dF c' l q (Phi x) = rmap (flip_mx ext ext) (ip_dF c l q x).
Proof.
  intros Hx. destruct (split3 x Hx) as [v [b [g [E [Lv [Lb Lg]]]]]]. destruct (parts3 v b g Lv Lb Lg) as [E1 [E2 E3]].
  destruct (parts3 v (pf b) g Lv (Pf b Lb) Lg) as [E1' [E2' E3']].
  unfold ip_dF. rewrite E, Phi_app, E1, E2, E3, E1', E2', E3', (Pf b Lb), Lb by auto.
  rewrite (ss_hb Hc), (ss_hbg Hc), (ss_hg Hc) by auto.
  destruct (sc_hessian_beta c l b g) as [hb|e] eqn:H1; [|reflexivity]. cbn [rmap rbind].
  destruct (sc_hessian_beta_gamma c b g) as [hbg|e] eqn:H2; [|reflexivity]. cbn [rmap rbind].
  destruct (sc_hessian_gamma c l b g) as [hg|e] eqn:H3; [|reflexivity]. cbn [rmap rbind]. f_equal.
  apply (ss_hbs Hc) in H1 as [A1 A2]. apply (ss_hbgs Hc) in H2 as [B1 B2]. apply (ss_hgs Hc) in H3 as [C1 C2].
  destruct (diag_shape g) as [D1 D2]. destruct (diag_shape v) as [V1 V2]. destruct (diag_shape (repeat (-1) q)) as [I1 I2].
  rewrite repeat_length in I1, I2. rewrite Lg in D1, D2. rewrite Lv in V1, V2.
  rewrite tr_zeros. pose proof (tr_length q hbg) as T1. pose proof (tr_wf q hbg) as T2. rewrite B1 in T2.
  assert (Z : forall n m, wf_mat m (repeat (zeros m) n)).
  { intros n m. apply Forall_forall. intros r Hr. apply repeat_spec in Hr. rewrite Hr. apply zeros_length. }
  assert (G : forall X Y W, flip_mx ext ext (X ++ Y ++ W) = flip_mx (ones q) ext X ++ flip_mx d1 ext Y ++ flip_mx (ones q) ext W \/
    length X <> q \/ length Y <> p).
  { intros X Y W. destruct (Nat.eq_dec (length X) q); [|auto]. destruct (Nat.eq_dec (length Y) p) as [LY|]; [|auto]. left.
    unfold flip_mx. unfold ext at 2. rewrite map2_app by (rewrite ones_length; auto). rewrite map2_app by exact (eq_trans (proj1 Hf) (eq_sym LY)). reflexivity. }
  match goal with |- _ = flip_mx ext ext (?X ++ ?Y ++ ?W) => destruct (G X Y W) as [G'|[G'|G']] end.
  2:{ exfalso. apply G'. apply hcat3_len; rewrite ?repeat_length; auto. }
  2:{ exfalso. apply G'. apply hcat3_len; rewrite ?repeat_length; auto. }
  rewrite G'. clear G G'. destruct Hf as [L _].
  rewrite !hcat3; auto; rewrite ?ones_length, ?repeat_length; try lia.
  rewrite !flip_rows_ones by auto. rewrite zero_rows by auto. rewrite !flip_mx_ones by (rewrite ?repeat_length; auto).
  rewrite tr_flip by lia. rewrite map_repeat. unfold flip at 1. rewrite flip_zeros by auto. reflexivity.
Qed.

(** ** steps *)
Lemma mask_len (x y : vec) : length x = length y -> ip_mask q x = ip_mask q y.
Proof.
  unfold ip_mask, mapi. intros H. rewrite <- H. generalize (length x) as m. generalize 0%nat as k. intros k m. revert k y H.
  induction x as [|a x IH]; intros k y H; destruct y as [|b y]; try discriminate; [reflexivity|].
  cbn [mapi_from]. f_equal. apply IH. simpl in H. lia.
Qed.
Lemma neg_ratios_app : forall m1 m2 x1 x2 y1 y2, length m1 = length x1 -> length x1 = length y1 ->
  neg_ratios (m1 ++ m2) (x1 ++ x2) (y1 ++ y2) = neg_ratios m1 x1 y1 ++ neg_ratios m2 x2 y2.
Proof.
  induction m1 as [|b m1 IH]; intros m2 x1 x2 y1 y2 H1 H2; destruct x1, y1; try discriminate; [reflexivity|].
  cbn [app neg_ratios]. simpl in H1, H2. rewrite IH by lia. destruct (b && _)%bool; reflexivity.
Qed.
Lemma neg_ratios_false : forall n x y, neg_ratios (repeat false n) x y = [].
Proof. induction n as [|n IH]; intros x y; [reflexivity|]. destruct x, y; try reflexivity. cbn. apply IH. Qed.
Lemma mask_split (x : vec) : length x = N -> exists m1 m3, ip_mask q x = m1 ++ repeat false p ++ m3 /\ length m1 = q /\ length m3 = q.
Proof.
  intros Hx. destruct (split3 x Hx) as [v [b [g [E [Lv [Lb Lg]]]]]]. unfold ip_mask, mapi. rewrite Hx.
  set (f := fun (i : nat) (_ : R) => ((i <? q)%nat || (N - q <=? i)%nat)%bool).
  assert (A : forall (u w : vec) k, mapi_from k f (u ++ w) = mapi_from k f u ++ mapi_from (k + length u) f w).
  { induction u as [|a u IH]; intros w k; cbn [app mapi_from length]; [rewrite Nat.add_0_r; reflexivity|].
    f_equal. rewrite IH. do 2 f_equal. lia. }
  assert (LL : forall (u : vec) k, length (mapi_from k f u) = length u).
  { induction u as [|a u IH]; intros k; [reflexivity|]. cbn [mapi_from length]. f_equal. apply IH. }
  exists (mapi_from 0 f v), (mapi_from (q + p) f g). rewrite E, !A, Lv, Lb, !LL. cbn [Nat.add].
  split; [|auto]. do 2 f_equal.
  assert (M : forall (u : vec) k, (q <= k)%nat -> (k + length u <= q + p)%nat -> mapi_from k f u = repeat false (length u)).
  { induction u as [|a u IH]; intros k H1 H2; [reflexivity|]. cbn [mapi_from length repeat]. cbn [length] in H2. f_equal.
    - unfold f. destruct (Nat.ltb_spec k q); [lia|]. destruct (Nat.leb_spec (N - q) k); [lia|]. reflexivity.
    - apply IH; lia. }
  rewrite (M b q) by lia. rewrite Lb. reflexivity.
Qed.
Lemma max_step_sim x y : length x = N -> length y = N -> max_step (ip_mask q (Phi x)) (Phi x) (Phi y) = max_step (ip_mask q x) x y.
Proof.
  intros Hx Hy. unfold max_step. f_equal. rewrite (mask_len (Phi x) x) by (rewrite Phi_len; auto).
  destruct (mask_split x Hx) as [m1 [m3 [-> [M1 M3]]]].
  destruct (split3 x Hx) as [v [b [g [-> [Lv [Lb Lg]]]]]]. destruct (split3 y Hy) as [w [b' [g' [-> [Lw [Lb' Lg']]]]]].
  rewrite !Phi_app by auto. pose proof (Pf b Lb). pose proof (Pf b' Lb').
  rewrite !neg_ratios_app by (rewrite ?repeat_length; lia). rewrite !neg_ratios_false. reflexivity.
Qed.

Variable opts : ip_options.
Variable minimize : (R -> res R) -> R -> res R.
Hypothesis no_search : io_line_search opts = false.
Hypothesis no_increase : io_increase opts = false.
Hypothesis Hprox : forall pr y t, io_prox opts = Some pr -> length y = (p + q)%nat -> pr (phi y) t = rmap phi (pr y t).
Hypothesis Hplen : forall pr y t z, io_prox opts = Some pr -> length y = (p + q)%nat -> pr y t = Ok z -> length z = (p + q)%nat.

Definition prev_map (r : vec * vec * vec * vec) : vec * vec * vec * vec :=
  let '(tb, tg, b, g) := r in (pf tb, tg, pf b, g).
Definition ip_map (st : ip_state) : ip_state :=
  {| is_x := Phi (is_x st); is_beta := pf (is_beta st); is_gamma := is_gamma st; is_tbeta := pf (is_tbeta st);
     is_tgamma := is_tgamma st; is_mu := is_mu st; is_prev := option_map prev_map (is_prev st); is_step := is_step st;
     is_iter := is_iter st; is_conv := is_conv st; is_lam := is_lam st |}.
Definition wf_prev (r : vec * vec * vec * vec) : Prop :=
  let '(tb, tg, b, g) := r in length tb = p /\ length tg = q /\ length b = p /\ length g = q.
Definition wf_ip (st : ip_state) : Prop :=
  length (is_x st) = N /\ length (is_beta st) = p /\ length (is_gamma st) = q /\ length (is_tbeta st) = p /\
  length (is_tgamma st) = q /\ forall r, is_prev st = Some r -> wf_prev r.

Lemma moved_pf tol x o : length x = p -> (forall v, o = Some v -> length v = p) -> moved tol (pf x) (option_map pf o) = moved tol x o.
Proof.
  apply phi_moved.
  - exact Pf.
  - intros a b Ha Hb. apply flip_sub.
  - intros a b Ha Hb. apply (flip_dot p d1 Hf); auto.
Qed.
Lemma continue_sim st : wf_ip st -> ip_continue c' opts q (ip_map st) = ip_continue c opts q st.
Proof.
  intros [W1 [W2 [W3 [W4 [W5 W6]]]]]. unfold ip_continue.
  cbn [ip_map is_x is_beta is_gamma is_tbeta is_tgamma is_mu is_prev is_step is_iter is_conv is_lam].
  destruct (nonzero (is_step st) && _)%bool; [|reflexivity]. rewrite F_sim by auto.
  destruct (ip_F c (is_lam st) (is_tbeta st) (is_tgamma st) q (is_x st) (is_mu st)) as [f|e] eqn:Ef; [|reflexivity].
  apply F_len in Ef; auto. cbn [rmap rbind]. rewrite Phi_norm by auto.
  destruct (rltb (io_tol opts) (norm f) || rltb (io_tol opts) (is_mu st))%bool; [|reflexivity].
  destruct (is_prev st) as [[[[tb tg] b] g]|]; cbn [option_map prev_map].
  - destruct (W6 _ eq_refl) as [P1 [P2 [P3 P4]]].
    pose proof (moved_pf (io_tol opts) (is_tbeta st) (Some tb) W4) as M1. cbn [option_map] in M1.
    rewrite M1 by (intros v Hv; congruence).
    destruct (moved (io_tol opts) (is_tbeta st) (Some tb)) as [[|]|e]; try reflexivity. cbn [rbind].
    destruct (moved (io_tol opts) (is_tgamma st) (Some tg)) as [[|]|e]; try reflexivity. cbn [rbind].
    pose proof (moved_pf (io_tol opts) (is_beta st) (Some b) W2) as M2. cbn [option_map] in M2.
    rewrite M2 by (intros v Hv; congruence). reflexivity.
  - pose proof (moved_pf (io_tol opts) (is_tbeta st) None W4) as M1. cbn [option_map] in M1. rewrite M1 by discriminate.
    pose proof (moved_pf (io_tol opts) (is_beta st) None W2) as M2. cbn [option_map] in M2. rewrite M2 by discriminate. reflexivity.
Qed.
Lemma body_sim st : wf_ip st ->
  ip_body c' opts p q solve minimize q (ip_map st) = rmap ip_map (ip_body c opts p q solve minimize q st) /\
  forall st', ip_body c opts p q solve minimize q st = Ok st' -> wf_ip st'.
Proof.
  intros [W1 [W2 [W3 [W4 [W5 W6]]]]]. unfold ip_body.
  cbn [ip_map is_x is_beta is_gamma is_tbeta is_tgamma is_mu is_prev is_step is_iter is_conv is_lam].
  rewrite no_search, no_increase. cbn [rbind]. rewrite F_sim by auto.
  destruct (ip_F c (is_lam st) (is_tbeta st) (is_tgamma st) q (is_x st) (is_mu st)) as [f|e] eqn:Ef; [|split; [reflexivity|discriminate]].
  apply F_len in Ef; auto. cbn [rmap rbind]. rewrite dF_sim by auto.
  destruct (ip_dF c (is_lam st) q (is_x st)) as [df|e] eqn:Ed; [|split; [reflexivity|discriminate]].
  apply dF_shape in Ed; auto. cbn [rmap rbind].
  replace (vneg (Phi f)) with (Phi (vneg f)) by (unfold flip; apply flip_neg).
  assert (Ln : length (vneg f) = N) by (rewrite vneg_length; auto).
  rewrite (Hsolve N) by (auto; exact ext_signs).
  destruct (solve df (vneg f)) as [d|e] eqn:Es; [|split; [reflexivity|discriminate]]. cbn [rmap rbind].
  apply Hsolve_len in Es. rewrite Ln in Es. rewrite !Phi_len, Es, W1, Nat.eqb_refl by auto. cbn [guard rbind].
  rewrite max_step_sim by auto. set (hi := max_step (ip_mask q (is_x st)) (is_x st) d).
  assert (EX : vadd (Phi (is_x st)) (vscale (99 / 100 * hi) (Phi d)) = Phi (vadd (is_x st) (vscale (99 / 100 * hi) d))).
  { unfold flip. rewrite flip_add, flip_scale. reflexivity. }
  rewrite EX. set (x' := vadd (is_x st) (vscale (99 / 100 * hi) d)).
  assert (Lx : length x' = N) by (unfold x'; apply vadd_len; auto; rewrite vscale_length; auto).
  clearbody x' hi. clear EX.
  destruct (split3 x' Lx) as [v [b [g [E [Lv [Lb Lg]]]]]]. destruct (parts3 v b g Lv Lb Lg) as [E1 [E2 E3]].
  destruct (parts3 v (pf b) g Lv (Pf b Lb) Lg) as [E1' [E2' E3']].
  rewrite E, Phi_app, E1, E2, E3, E1', E2', E3' by auto.
  destruct (rltb (io_neighbourhood opts * vdot g v / INR q) _).
  - split.
    + cbn [rmap]. unfold ip_map. cbn. rewrite Phi_app by auto. reflexivity.
    + intros st' H. apply Ok_inj in H. rewrite <- H. unfold wf_ip. cbn. rewrite <- E. repeat split; auto.
      intros r Hr. inversion Hr. cbn. auto.
  - assert (PX : exists o, (match io_prox opts with
      | Some prox => if ((0 <? io_update_every opts) && (Z.of_nat (S (is_iter st)) mod io_update_every opts =? 0))%Z%bool
          then let! tx := prox (beta_gamma_to_x b g) (io_prox_step opts) in Ok (x_to_beta_gamma p q tx)
          else Ok (is_tbeta st, is_tgamma st)
      | None => Ok (is_tbeta st, is_tgamma st) end) = o /\
      (match io_prox opts with
      | Some prox => if ((0 <? io_update_every opts) && (Z.of_nat (S (is_iter st)) mod io_update_every opts =? 0))%Z%bool
          then let! tx := prox (beta_gamma_to_x (pf b) g) (io_prox_step opts) in Ok (x_to_beta_gamma p q tx)
          else Ok (pf (is_tbeta st), is_tgamma st)
      | None => Ok (pf (is_tbeta st), is_tgamma st) end) = rmap (fun r => (pf (fst r), snd r)) o /\
      forall r, o = Ok r -> length (fst r) = p /\ length (snd r) = q).
    { eexists. split; [reflexivity|]. destruct (io_prox opts) as [pr|] eqn:Epr.
      2:{ split; [reflexivity|]. intros r Hr. apply Ok_inj in Hr. rewrite <- Hr. auto. }
      destruct ((0 <? io_update_every opts) && _)%Z%bool.
      2:{ split; [reflexivity|]. intros r Hr. apply Ok_inj in Hr. rewrite <- Hr. auto. }
      unfold beta_gamma_to_x. assert (L : length (b ++ g) = (p + q)%nat) by (rewrite app_length; lia).
      rewrite <- (phi_app p q d1 Hf) by auto. rewrite (Hprox pr) by auto.
      destruct (pr (b ++ g) (io_prox_step opts)) as [z|e] eqn:Ez; [|split; [reflexivity|discriminate]].
      apply (Hplen pr) in Ez; auto. cbn [rmap rbind].
      destruct (split_parts p q z Ez) as [zb [zg [E0 [Lzb [Lzg Es0]]]]]. rewrite Es0, E0, (phi_app p q d1 Hf) by auto.
      rewrite parts_app by (auto; apply Pf; auto). split; [reflexivity|]. intros r Hr. apply Ok_inj in Hr. rewrite <- Hr. auto. }
    destruct PX as [o [P1 [P2 P3]]]. rewrite P1, P2. destruct o as [[tb tg]|e]; [|split; [reflexivity|discriminate]].
    destruct (P3 _ eq_refl) as [P4 P5]. cbn [rmap rbind fst snd] in *. split.
    + cbn [rmap]. unfold ip_map. cbn. rewrite Phi_app by auto. reflexivity.
    + intros st' H. apply Ok_inj in H. rewrite <- H. unfold wf_ip. cbn. rewrite <- E. repeat split; auto.
      intros r Hr. inversion Hr. cbn. auto.
Qed.
Lemma loop_sim : forall fuel st, wf_ip st ->
  ip_loop c' opts p q solve minimize q fuel (ip_map st) = rmap ip_map (ip_loop c opts p q solve minimize q fuel st) /\
  forall st', ip_loop c opts p q solve minimize q fuel st = Ok st' -> wf_ip st'.
Proof.
  induction fuel as [|fuel IH]; intros st W; cbn [ip_loop]; rewrite continue_sim by auto;
    (destruct (ip_continue c opts q st) as [[|]|e]; cbn [rbind]; [|split; [reflexivity|intros st' H; apply Ok_inj in H; rewrite <- H; exact W]|split; [reflexivity|discriminate]]).
  - split; [reflexivity|discriminate].
  - destruct (body_sim st W) as [B1 B2]. rewrite B1.
    destruct (ip_body c opts p q solve minimize q st) as [st1|e]; [|split; [reflexivity|discriminate]]. cbn [rmap rbind]. apply IH. auto.
Qed.

(** ** the oracle *)
Variable warm : bool.
Definition warm_map (bg : vec * vec) : vec * vec := (pf (fst bg), snd bg).
Definition mem_map (m : sr3_memory) : sr3_memory := {| sm_lam := sm_lam m; sm_warm := option_map warm_map (sm_warm m) |}.
Definition wf_mem (m : sr3_memory) : Prop := forall bg, sm_warm m = Some bg -> length (fst bg) = p /\ length (snd bg) = q.
Lemma start_ip_sim m b g tb tg : wf_mem m -> length b = p -> length g = q -> length tb = p -> length tg = q ->
  ip_start warm (mem_map m) (pf b) g (pf tb) tg = ip_map (ip_start warm m b g tb tg) /\ wf_ip (ip_start warm m b g tb tg).
Proof.
  intros W Lb Lg Lt Ltg. unfold ip_start, mem_map. cbn [sm_warm sm_lam].
  assert (LO : length (ones q) = q) by apply ones_length.
  assert (G : forall b0 g0, length b0 = p -> length g0 = q ->
    length (ones q ++ b0 ++ g0) = N) by (intros; rewrite !app_length, ones_length; lia).
  rewrite Lg. destruct warm; [destruct (sm_warm m) as [[wb wg]|] eqn:Ew|]; cbn [option_map warm_map fst snd].
  - destruct (W _ Ew) as [L1 L2]. cbn [fst snd] in L1, L2. split.
    + unfold ip_map. cbn. rewrite Phi_app by auto. reflexivity.
    + unfold wf_ip. cbn. repeat split; auto. discriminate.
  - split.
    + unfold ip_map. cbn. rewrite Phi_app by auto. reflexivity.
    + unfold wf_ip. cbn. repeat split; auto. discriminate.
  - split.
    + unfold ip_map. cbn. rewrite Phi_app by auto. reflexivity.
    + unfold wf_ip. cbn. repeat split; auto. discriminate.
Qed.
Definition find_map (r : vec * vec * vec * vec * sr3_memory) : vec * vec * vec * vec * sr3_memory :=
  let '(b, g, tb, tg, m) := r in (pf b, g, pf tb, tg, mem_map m).
Definition wf_find (r : vec * vec * vec * vec * sr3_memory) : Prop :=
  let '(b, g, tb, tg, m) := r in length b = p /\ length g = q /\ length tb = p /\ length tg = q /\ wf_mem m.
Lemma find_sim m b g tb tg : wf_mem m -> length b = p -> length g = q -> length tb = p -> length tg = q ->
  find_ip c' opts p q solve minimize warm (mem_map m) (pf b) g (pf tb) tg
  = rmap find_map (find_ip c opts p q solve minimize warm m b g tb tg) /\
  forall r, find_ip c opts p q solve minimize warm m b g tb tg = Ok r -> wf_find r.
Proof.
  intros W Lb Lg Lt Ltg. unfold find_ip. destruct tg as [|t tg]; [simpl in Ltg; lia|].
  rewrite Lg. destruct (Nat.ltb_spec 0 q); [|lia]. cbn [guard rbind].
  destruct (start_ip_sim m b g tb (t :: tg) W Lb Lg Lt Ltg) as [S1 S2]. rewrite S1.
  destruct (loop_sim (Z.to_nat (io_n_iter opts)) _ S2) as [L1 L2]. rewrite L1.
  destruct (ip_loop c opts p q solve minimize q (Z.to_nat (io_n_iter opts)) (ip_start warm m b g tb (t :: tg))) as [st|e];
    [|split; [reflexivity|discriminate]]. cbn [rmap rbind].
  destruct (L2 st eq_refl) as [W1 [W2 [W3 [W4 [W5 W6]]]]]. split.
  - cbn [find_map]. unfold mem_map. cbn [sm_lam sm_warm ip_map is_beta is_gamma is_tbeta is_tgamma is_lam].
    destruct warm; reflexivity.
  - intros r Hr. apply Ok_inj in Hr. rewrite <- Hr. cbn [wf_find]. repeat split; auto.
    + cbn [sm_warm] in H0. destruct warm; [inversion H0; auto|apply W; auto].
    + cbn [sm_warm] in H0. destruct warm; [inversion H0; auto|apply W; auto].
Qed.
Lemma double_pf b : vscale 2 (pf b) = pf (vscale 2 b).
Proof. unfold flip. symmetry. apply flip_scale. Qed.
Lemma value_function_sim m x : wf_mem m -> length x = (p + q)%nat ->
  value_function c' opts p q solve minimize warm (mem_map m) (phi x)
  = rmap (fun r => (fst r, mem_map (snd r))) (value_function c opts p q solve minimize warm m x) /\
  forall r, value_function c opts p q solve minimize warm m x = Ok r -> wf_mem (snd r).
Proof.
  intros W Hx. unfold value_function. destruct (split_parts p q x Hx) as [b [g [E [Lb [Lg Es]]]]].
  rewrite Es, E, (phi_app p q d1 Hf) by auto. rewrite parts_app by (auto; apply Pf; auto). rewrite double_pf.
  destruct (find_sim m (vscale 2 b) (vscale 2 g) b g W) as [F1 F2]; rewrite ?vscale_length; auto. rewrite F1.
  destruct (find_ip c opts p q solve minimize warm m (vscale 2 b) (vscale 2 g) b g) as [[[[[b1 g1] tb1] tg1] m1]|e];
    [|split; [reflexivity|discriminate]]. cbn [rmap rbind find_map].
  destruct (F2 _ eq_refl) as [L1 [L2 [L3 [L4 L5]]]]. cbn [mem_map sm_lam]. rewrite (ss_loss Hc) by auto.
  destruct (sc_loss c (sm_lam m1) b1 g1 tb1 tg1) as [f|e]; [|split; [reflexivity|discriminate]]. split; [reflexivity|].
  intros r Hr. apply Ok_inj in Hr. rewrite <- Hr. exact L5.
Qed.
Lemma gradient_function_sim m x : wf_mem m -> length x = (p + q)%nat ->
  gradient_value_function c' opts p q solve minimize warm (mem_map m) (phi x)
  = rmap (fun r => (phi (fst r), mem_map (snd r))) (gradient_value_function c opts p q solve minimize warm m x) /\
  forall r, gradient_value_function c opts p q solve minimize warm m x = Ok r -> length (fst r) = (p + q)%nat /\ wf_mem (snd r).
Proof.
  intros W Hx. unfold gradient_value_function. rewrite (phi_len p q d1 Hf), Hx by auto.
  destruct (split_parts p q x Hx) as [b [g [E [Lb [Lg Es]]]]].
  assert (Es' : x_to_beta_gamma p q (phi x) = (pf b, g)).
  { rewrite E, (phi_app p q d1 Hf) by auto. apply parts_app; auto. apply Pf; auto. }
  rewrite Es, Es', double_pf.
  destruct (find_sim m (vscale 2 b) (vscale 2 g) b g W) as [F1 F2]; rewrite ?vscale_length; auto. rewrite F1.
  destruct (find_ip c opts p q solve minimize warm m (vscale 2 b) (vscale 2 g) b g) as [[[[[b1 g1] tb1] tg1] m1]|e];
    [|split; [reflexivity|discriminate]]. cbn [rmap rbind find_map].
  destruct (F2 _ eq_refl) as [L1 [L2 [L3 [L4 L5]]]]. cbn [mem_map sm_lam]. unfold beta_gamma_to_x.
  assert (L : length (b1 ++ g1) = (p + q)%nat) by (rewrite app_length; lia).
  rewrite <- (phi_app p q d1 Hf) by auto. rewrite (phi_len p q d1 Hf), L, app_length, !repeat_length, Nat.eqb_refl by auto.
  cbn [andb guard rbind]. set (lams := repeat (lam_b (sm_lam m1)) p ++ repeat (lam_g (sm_lam m1)) q).
  assert (LL : length lams = (p + q)%nat) by (unfold lams; rewrite app_length, !repeat_length; auto).
  assert (LS : length (vsub (b1 ++ g1) x) = (p + q)%nat) by (apply vsub_len; auto).
  assert (LV : length (vmul (vneg lams) (vsub (b1 ++ g1) x)) = (p + q)%nat).
  { unfold vmul. rewrite map2_length, vneg_length. rewrite LL, LS. apply Nat.min_id. }
  split.
  - cbn [rmap fst snd]. unfold mem_map at 1. cbn [sm_warm sm_lam]. f_equal. f_equal.
    rewrite <- (phi_sub p q d1 Hf) by auto. rewrite !(phi_full p q d1 Hf) by auto. unfold flip.
    generalize (vsub (b1 ++ g1) x) as z. generalize (vneg lams) as w. generalize (d1 ++ ones q) as s. unfold vmul.
    induction s as [|a s IH]; intros [|w1 w] [|z1 z]; cbn [map2]; try reflexivity. f_equal; [ring|apply IH].
  - intros r Hr. apply Ok_inj in Hr. rewrite <- Hr. auto.
Qed.
Lemma optimal_parameters_sim m x : wf_mem m -> length x = (p + q)%nat ->
  find_optimal_parameters c' opts p q solve minimize warm (mem_map m) (phi x)
  = rmap (fun r => (phi (fst r), mem_map (snd r))) (find_optimal_parameters c opts p q solve minimize warm m x) /\
  forall r, find_optimal_parameters c opts p q solve minimize warm m x = Ok r -> length (fst r) = (p + q)%nat /\ wf_mem (snd r).
Proof.
  intros W Hx. unfold find_optimal_parameters. destruct (split_parts p q x Hx) as [b [g [E [Lb [Lg Es]]]]].
  rewrite Es, E, (phi_app p q d1 Hf) by auto. rewrite parts_app by (auto; apply Pf; auto). rewrite double_pf.
  destruct (find_sim m (vscale 2 b) (vscale 2 g) b g W) as [F1 F2]; rewrite ?vscale_length; auto. rewrite F1.
  destruct (find_ip c opts p q solve minimize warm m (vscale 2 b) (vscale 2 g) b g) as [[[[[b1 g1] tb1] tg1] m1]|e];
    [|split; [reflexivity|discriminate]]. cbn [rmap rbind find_map].
  destruct (F2 _ eq_refl) as [L1 [L2 [L3 [L4 L5]]]]. unfold beta_gamma_to_x. split.
  - cbn [fst snd]. rewrite (phi_app p q d1 Hf) by auto. reflexivity.
  - intros r Hr. apply Ok_inj in Hr. rewrite <- Hr. cbn [fst snd]. rewrite app_length. auto.
Qed.
End Inner.
Lemma flip_mx_wf n s2 : is_signs n s2 -> forall s1 a, wf_mat n a -> wf_mat n (flip_mx s1 s2 a).
Proof.
  intros H. unfold flip_mx. induction s1 as [|s s1 IH]; intros a W; [constructor|]. destruct a as [|r a]; [constructor|].
  inversion W as [|r' a' Hr W' E]. cbn [map2]. constructor; [|apply IH; exact W'].
  unfold vscale. rewrite map_length. apply (flip_len n s2 H). exact Hr.
Qed.
