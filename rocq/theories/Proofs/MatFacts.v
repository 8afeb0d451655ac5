(** Facts about matrices as lists of rows. *)
From Coq Require Import Lra Psatz.
From Verif.Base Require Import Py Vec Mat.
From Verif.Proofs Require Import VecFacts L0Proofs.
Open Scope R_scope.

Lemma wf_mat_In p a : wf_mat p a -> forall row, In row a -> length row = p.
Proof. intros H row Hr. unfold wf_mat in H. rewrite Forall_forall in H. auto. Qed.
Lemma wf_mat_cons p row a : wf_mat p (row :: a) <-> length row = p /\ wf_mat p a.
Proof. unfold wf_mat. rewrite Forall_cons_iff. tauto. Qed.
Lemma nth_ext_R (x y : vec) : length x = length y ->
  (forall i, (i < length x)%nat -> nth i x 0 = nth i y 0) -> x = y.
Proof. intros. apply nth_ext with (d := 0) (d' := 0); auto. Qed.

Lemma tmv_len p a r : wf_mat p a -> length (tmv p a r) = p.
Proof. intros H. apply tmv_length. apply wf_mat_In; auto. Qed.
Lemma tmv_adj p a r x : wf_mat p a -> length r = length a -> vdot (tmv p a r) x = vdot r (mv a x).
Proof. intros H. apply tmv_adjoint. apply wf_mat_In; auto. Qed.

(** lengths, by computing them *)
Lemma vadd_min x y : length (vadd x y) = Nat.min (length x) (length y).
Proof. apply map2_length. Qed.
Lemma vsub_min x y : length (vsub x y) = Nat.min (length x) (length y).
Proof. apply map2_length. Qed.
Lemma vmul_min x y : length (vmul x y) = Nat.min (length x) (length y).
Proof. apply map2_length. Qed.
#[export] Hint Rewrite vadd_min vsub_min vmul_min vscale_length vneg_length mv_length zeros_length
  ones_length app_length map_length seq_length repeat_length : vlen.
Ltac vlen := autorewrite with vlen in *; try lia.

(** products *)
Lemma mv_mm p a b x : wf_mat p b -> wf_mat (length b) a -> mv (mm p a b) x = mv a (mv b x).
Proof.
  intros Hb Ha. unfold mm, mv. rewrite map_map. apply map_ext_in. intros row Hr.
  apply tmv_adj; auto. eapply wf_mat_In; eauto.
Qed.
Lemma mm_wf p a b : wf_mat p b -> wf_mat p (mm p a b).
Proof. intros H. unfold mm, wf_mat. rewrite Forall_map, Forall_forall. intros; apply tmv_len; auto. Qed.
Lemma mm_length p a b : length (mm p a b) = length a.
Proof. apply map_length. Qed.

(** sums *)
Lemma mv_madd p a b x : wf_mat p a -> wf_mat p b -> mv (madd a b) x = vadd (mv a x) (mv b x).
Proof.
  revert b. induction a as [|r a IH]; intros [|s b] Ha Hb; simpl; auto.
  apply wf_mat_cons in Ha as [Hr Ha]. apply wf_mat_cons in Hb as [Hs Hb].
  change (vadd (vdot r x :: mv a x) (vdot s x :: mv b x)) with ((vdot r x + vdot s x) :: vadd (mv a x) (mv b x)).
  f_equal; [apply vdot_vadd_l; lia | apply IH; auto].
Qed.
Lemma mv_msub p a b x : wf_mat p a -> wf_mat p b -> mv (msub a b) x = vsub (mv a x) (mv b x).
Proof.
  revert b. induction a as [|r a IH]; intros [|s b] Ha Hb; simpl; auto.
  apply wf_mat_cons in Ha as [Hr Ha]. apply wf_mat_cons in Hb as [Hs Hb].
  change (vsub (vdot r x :: mv a x) (vdot s x :: mv b x)) with ((vdot r x - vdot s x) :: vsub (mv a x) (mv b x)).
  f_equal; [apply vdot_vsub_l; lia | apply IH; auto].
Qed.
Lemma madd_wf p a b : wf_mat p a -> wf_mat p b -> wf_mat p (madd a b).
Proof.
  revert b. induction a as [|r a IH]; intros [|s b] Ha Hb; simpl; try constructor.
  - apply wf_mat_cons in Ha as [Hr Ha]. apply wf_mat_cons in Hb as [Hs Hb]. rewrite vadd_length; lia.
  - apply wf_mat_cons in Ha as [Hr Ha]. apply wf_mat_cons in Hb as [Hs Hb]. apply IH; auto.
Qed.
Lemma msub_wf p a b : wf_mat p a -> wf_mat p b -> wf_mat p (msub a b).
Proof.
  revert b. induction a as [|r a IH]; intros [|s b] Ha Hb; simpl; try constructor.
  - apply wf_mat_cons in Ha as [Hr Ha]. apply wf_mat_cons in Hb as [Hs Hb]. rewrite vsub_length; lia.
  - apply wf_mat_cons in Ha as [Hr Ha]. apply wf_mat_cons in Hb as [Hs Hb]. apply IH; auto.
Qed.
Lemma mv_mscale c a x : mv (mscale c a) x = vscale c (mv a x).
Proof. unfold mv, mscale, vscale at 2. rewrite !map_map. apply map_ext. intros; apply vdot_vscale_l. Qed.
Lemma mscale_wf p c a : wf_mat p a -> wf_mat p (mscale c a).
Proof. unfold wf_mat, mscale. rewrite Forall_map. apply Forall_impl. intros; rewrite vscale_length; auto. Qed.
Lemma mscale_length c a : length (mscale c a) = length a.
Proof. apply map_length. Qed.
Lemma mv_app a b x : mv (a ++ b) x = mv a x ++ mv b x.
Proof. apply map_app. Qed.
Lemma vsub_app a b c d : length a = length c -> vsub (a ++ b) (c ++ d) = vsub a c ++ vsub b d.
Proof.
  revert c. induction a as [|x a IH]; intros [|y c] H; try discriminate; auto.
  unfold vsub in *. simpl. f_equal. apply IH. simpl in H; lia.
Qed.
Lemma vdot_app a b c d : length a = length c -> vdot (a ++ b) (c ++ d) = vdot a c + vdot b d.
Proof.
  revert c. induction a as [|x a IH]; intros [|y c] H; try discriminate; simpl.
  - unfold vdot at 2, vmul. simpl. ring.
  - rewrite !vdot_cons, IH by (simpl in H; lia). ring.
Qed.
Lemma sqnorm_app a b : sqnorm (a ++ b) = sqnorm a + sqnorm b.
Proof. apply vdot_app. reflexivity. Qed.
Lemma app_wf p a b : wf_mat p a -> wf_mat p b -> wf_mat p (a ++ b).
Proof. intros. apply Forall_app; auto. Qed.

(** the identity *)
Lemma unit_row_length n i : length (unit_row n i) = n.
Proof. unfold unit_row. rewrite map_length, seq_length. reflexivity. Qed.
Lemma vdot_unit_from n : forall k i d, length d = n -> (k <= i)%nat ->
  vdot (map (fun j => if (i =? j)%nat then 1 else 0) (seq k n)) d = nth (i - k) d 0.
Proof.
  induction n as [|n IH]; intros k i [|c d] Hd Hk; simpl in Hd; try discriminate; simpl.
  - destruct (i - k)%nat; reflexivity.
  - rewrite vdot_cons. destruct (Nat.eqb_spec i k).
    + subst. rewrite Nat.sub_diag. simpl.
      replace (map (fun j => if (k =? j)%nat then 1 else 0) (seq (S k) n)) with (zeros n).
      * rewrite vdot_zeros_l. ring.
      * clear. assert (H : forall m, (k < m)%nat ->
          zeros n = map (fun j => if (k =? j)%nat then 1 else 0) (seq m n)); [|apply H; lia].
        induction n as [|n IH]; intros m Hm; simpl; auto.
        destruct (Nat.eqb_spec k m); [lia|]. unfold zeros in *. simpl. f_equal. apply IH. lia.
    + rewrite IH by (auto; lia). replace (i - k)%nat with (S (i - S k)) by lia. simpl. ring.
Qed.
Lemma vdot_unit n i d : length d = n -> vdot (unit_row n i) d = nth i d 0.
Proof. intros. unfold unit_row. rewrite vdot_unit_from by (auto; lia). rewrite Nat.sub_0_r. reflexivity. Qed.
Lemma eye_length n : length (eye n) = n.
Proof. unfold eye. rewrite map_length, seq_length. reflexivity. Qed.
Lemma eye_wf n : wf_mat n (eye n).
Proof. unfold eye, wf_mat. rewrite Forall_map, Forall_forall. intros; apply unit_row_length. Qed.
Lemma mv_eye n x : length x = n -> mv (eye n) x = x.
Proof.
  intros H. apply nth_ext_R; [rewrite mv_length, eye_length; auto|].
  intros i Hi. rewrite mv_length, eye_length in Hi. unfold mv, eye. rewrite map_map.
  rewrite nth_map_seq by auto. apply vdot_unit; auto.
Qed.
Lemma eye_shape n : is_shape n n (eye n).
Proof. split; [apply eye_length | apply eye_wf]. Qed.

(** diagonal matrices *)
Lemma diag_length v : length (diag v) = length v.
Proof. apply mapi_length. Qed.
Lemma nth_mapi_lt {A B} (f : nat -> A -> B) x k d d' : (k < length x)%nat ->
  nth k (mapi f x) d' = f k (nth k x d).
Proof. intros. apply mapi_nth; auto. Qed.
Lemma mv_diag v x : length x = length v -> mv (diag v) x = vmul v x.
Proof.
  intros H. apply nth_ext_R; [rewrite mv_length, diag_length, vmul_length; auto|].
  intros i Hi. rewrite mv_length, diag_length in Hi. unfold mv.
  rewrite nth_indep with (d' := (fun row => vdot row x) []) by (rewrite map_length, diag_length; auto).
  rewrite map_nth with (f := fun row => vdot row x). unfold diag.
  rewrite nth_mapi_lt with (d := 0) by auto. rewrite vdot_vscale_l, vdot_unit by auto.
  unfold vmul. rewrite map2_nth with (dx := 0) (dy := 0) by (auto; lia). reflexivity.
Qed.
Lemma diag_wf v : wf_mat (length v) (diag v).
Proof.
  unfold wf_mat. rewrite Forall_forall. intros r Hr. apply In_nth with (d := []) in Hr as [i [Hi <-]].
  rewrite diag_length in Hi. unfold diag. rewrite nth_mapi_lt with (d := 0) by auto.
  rewrite vscale_length, unit_row_length. reflexivity.
Qed.

(** transposes *)
Lemma tr_length p a : length (tr p a) = p.
Proof. unfold tr. rewrite map_length, seq_length. reflexivity. Qed.
Lemma tr_wf p a : wf_mat (length a) (tr p a).
Proof. unfold tr, wf_mat. rewrite Forall_map, Forall_forall. intros; apply map_length. Qed.
Lemma row_as_map (row : vec) p : length row = p -> row = map (fun j => nth j row 0) (seq 0 p).
Proof.
  intros H. apply nth_ext_R; [rewrite map_length, seq_length; auto|].
  intros i Hi. rewrite nth_map_seq by lia. reflexivity.
Qed.
Lemma mv_tr p a r : wf_mat p a -> length r = length a -> mv (tr p a) r = tmv p a r.
Proof.
  revert r. induction a as [|row a IH]; intros [|c r] Ha Hr; try discriminate.
  - simpl. unfold mv, tr, zeros. rewrite map_map. simpl.
    apply nth_ext_R; [rewrite map_length, seq_length, repeat_length; auto|].
    intros i Hi. rewrite map_length, seq_length in Hi. rewrite nth_map_seq, nth_repeat by auto. reflexivity.
  - apply wf_mat_cons in Ha as [Hrow Ha]. simpl tmv. rewrite <- IH by (auto; simpl in Hr; lia).
    unfold mv, tr. rewrite !map_map.
    apply nth_ext_R.
    { rewrite map_length, seq_length, vadd_length; rewrite ?vscale_length, ?map_length, ?seq_length; auto. }
    intros i Hi. rewrite map_length, seq_length in Hi.
    rewrite nth_map_seq by auto. simpl. rewrite vdot_cons. unfold vadd.
    rewrite map2_nth with (dx := 0) (dy := 0)
      by (rewrite ?vscale_length, ?map_length, ?seq_length; lia).
    rewrite nth_map_seq by auto.
    assert (E : nth i (vscale c row) 0 = c * nth i row 0).
    { unfold vscale. rewrite nth_indep with (d' := c * 0) by (rewrite map_length; lia).
      apply map_nth with (f := fun t => c * t). }
    rewrite E. ring.
Qed.

(** <M x, y> for the gram matrix *)
Lemma mv_gram p a x : wf_mat p a -> mv (mm p (tr p a) a) x = tmv p a (mv a x).
Proof.
  intros Ha. rewrite mv_mm by (auto; apply tr_wf). apply mv_tr; auto. apply mv_length.
Qed.

(** linearity of a' *)
Lemma tmv_vadd p a r s : wf_mat p a -> length r = length a -> length s = length a ->
  tmv p a (vadd r s) = vadd (tmv p a r) (tmv p a s).
Proof.
  intros Ha Hr Hs. apply vdot_ext.
  - rewrite vadd_length; rewrite !tmv_len; auto.
  - intros d _. rewrite vdot_vadd_l by (rewrite !tmv_len; auto).
    rewrite !tmv_adj; auto. 2:{ rewrite vadd_length; lia. }
    apply vdot_vadd_l; lia.
Qed.
Lemma tmv_vsub p a r s : wf_mat p a -> length r = length a -> length s = length a ->
  tmv p a (vsub r s) = vsub (tmv p a r) (tmv p a s).
Proof.
  intros Ha Hr Hs. apply vdot_ext.
  - rewrite vsub_length; rewrite !tmv_len; auto.
  - intros d _. rewrite vdot_vsub_l by (rewrite !tmv_len; auto).
    rewrite !tmv_adj; auto. 2:{ rewrite vsub_length; lia. }
    apply vdot_vsub_l; lia.
Qed.

(** |a d|^2 <= |a|_F^2 |d|^2 *)
Lemma frob_bound a d : sqnorm (mv a d) <= frob a * sqnorm d.
Proof.
  induction a as [|row a IH].
  - unfold frob; simpl. unfold sqnorm at 1, vdot, vmul; simpl. lra.
  - simpl mv. rewrite sqnorm_cons. unfold frob in *. simpl.
    pose proof (cauchy_schwarz row d). lra.
Qed.
Lemma frob_nonneg a : 0 <= frob a.
Proof.
  unfold frob. induction a as [|row a IH]; simpl; [lra|]. pose proof (sqnorm_nonneg row). lra.
Qed.
