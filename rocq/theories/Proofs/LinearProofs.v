(** Proofs about Model/Linear.v and Model/Priors.v. *)
From Coq Require Import Lra Psatz.
From Verif.Base Require Import Py Vec Mat.
From Verif.Model Require Import Regularizers Linear.
From Verif.Spec Require Import ProxSpec SolverSpec LinearSpec.
From Verif.Proofs Require Import VecFacts L0Proofs MatFacts SolverProofs.
Open Scope string_scope.
Open Scope list_scope.
Open Scope R_scope.

Lemma vadd_len n x y : length x = n -> length y = n -> length (vadd x y) = n.
Proof. intros; rewrite vadd_length; lia. Qed.
Lemma vsub_len n x y : length x = n -> length y = n -> length (vsub x y) = n.
Proof. intros; rewrite vsub_length; lia. Qed.
Lemma mv_len n a x : length a = n -> length (mv a x) = n.
Proof. intros; rewrite mv_length; auto. Qed.
Lemma vscale_len n c x : length x = n -> length (vscale c x) = n.
Proof. intros; rewrite vscale_length; auto. Qed.

Lemma Ok_inj {A} (a b : A) : Ok a = Ok b -> a = b.
Proof. congruence. Qed.

Lemma vadd_zeros n x : length x = n -> vadd x (zeros n) = x.
Proof.
  intros H. apply vdot_ext; [rewrite (vadd_len n); auto; apply zeros_length|].
  intros d _. rewrite vdot_vadd_l by (rewrite zeros_length; auto). rewrite vdot_zeros_l. ring.
Qed.
Lemma mv_zero_rows n p d : mv (repeat (zeros p) n) d = zeros n.
Proof.
  unfold mv, zeros. induction n; simpl; auto. f_equal; auto. apply vdot_zeros_l.
Qed.

(** ** the prior's quadratic *)
Lemma gauss_expand w : forall s x d m, length s = length w -> length x = length w ->
  length d = length w -> length m = length w -> Forall (fun t => t <> 0) s ->
  vsum (vmul (vmul w (map (fun t => 1 / (2 * t)) s)) (map (fun t => t ^ 2) (vsub (vadd x d) m))) =
  vsum (vmul (vmul w (map (fun t => 1 / (2 * t)) s)) (map (fun t => t ^ 2) (vsub x m)))
  + vdot (vmul (vmul w (map (fun t => 1 / t) s)) (vsub x m)) d
  + / 2 * vdot d (vmul (vmul w (map (fun t => 1 / t) s)) d).
Proof.
  induction w as [|w0 w IH]; intros [|s0 s] [|x0 x] [|d0 d] [|m0 m]; simpl; try discriminate; intros.
  - unfold vdot; simpl. lra.
  - inversion H3; subst. injection H; injection H0; injection H1; injection H2; intros.
    specialize (IH s x d m). unfold vdot, vadd, vsub, vmul in *. simpl in *.
    rewrite IH by auto. field. auto.
Qed.

Definition gauss_ready (g : gauss) (n : nat) : Prop :=
  exists m s w, gp_inst g = Some (m, s, w) /\ length m = n /\ length s = n /\ length w = n /\
    Forall (fun t => 0 < t) s.

Lemma sequence_length {A} (l : list (res A)) r : sequence l = Ok r -> length r = length l.
Proof.
  revert r. induction l as [|m l IH]; simpl; intros r H; [inversion H; auto|].
  apply rbind_inv in H as [a [_ H]]. apply rbind_inv in H as [r' [H' H]]. inversion H; subst. simpl. auto.
Qed.
Lemma sequence_Forall2 {A B} (f : A -> res B) l r : sequence (map f l) = Ok r ->
  Forall2 (fun a b => f a = Ok b) l r.
Proof.
  revert r. induction l as [|m l IH]; simpl; intros r H; [inversion H; constructor|].
  apply rbind_inv in H as [a [Ha H]]. apply rbind_inv in H as [r' [H' H]]. inversion H; subst. constructor; auto.
Qed.
Lemma sequence_ok {A B} (f : A -> res B) l r : Forall2 (fun a b => f a = Ok b) l r ->
  sequence (map f l) = Ok r.
Proof. induction 1; simpl; auto. rewrite H, IHForall2. reflexivity. Qed.
Lemma sequence_err {A B} (f : A -> res B) l e : sequence (map f l) = Err e ->
  exists a, In a l /\ f a = Err e.
Proof.
  induction l as [|a l IH]; simpl; [discriminate|]. destruct (f a) eqn:E; simpl.
  - destruct (sequence (map f l)) eqn:E'; simpl; [discriminate|].
    intros H. destruct (IH H) as [b [? ?]]. eauto.
  - intros H; inversion H; subst. eauto.
Qed.

Lemma gauss_column_std params c m s w : gauss_column params c = Ok (m, s, w) -> 0 < s.
Proof.
  unfold gauss_column. destruct (match lookup c params with Some ms => ms | None => (0, 0) end) as [m0 s0].
  intros H. apply rbind_inv in H as [u [_ H]]. inversion H; subst.
  destruct (rltb 0 s0) eqn:E; [apply rltb_true in E; auto|lra].
Qed.
Lemma gauss_instantiate_ready g cols g' : gauss_instantiate g cols = Ok g' -> gauss_ready g' (length cols).
Proof.
  unfold gauss_instantiate. intros H. apply rbind_inv in H as [u [_ H]].
  apply rbind_inv in H as [l [Hl H]]. inversion H; subst. clear H.
  pose proof (sequence_length _ _ Hl) as E. rewrite map_length in E.
  do 3 eexists. split; [reflexivity|]. rewrite !map_length, E. do 3 (split; [auto|]).
  apply sequence_Forall2 in Hl. rewrite Forall_map. clear E.
  induction Hl as [|c [[m s] w] cs r Hc _ IH]; constructor; auto. simpl. eapply gauss_column_std; eauto.
Qed.

(** ready priors: what instantiate leaves behind *)
Definition prior_ready (p : prior) (n : nat) : Prop :=
  match p with PNone => True | PGauss g => gauss_ready g n end.

Lemma gauss_same g n x : gauss_ready g n -> length x = n ->
  prior_loss (PGauss g) x = gauss_loss g x /\ prior_gradient (PGauss g) x = gauss_gradient g x.
Proof.
  intros [m [s [w [E [Lm _]]]]] Hx. simpl. unfold same_length. rewrite E, Hx, Lm, Nat.eqb_refl. auto.
Qed.
Lemma prior_expand pr n x d : prior_ready pr n -> length x = n -> length d = n ->
  exists l l' g h, prior_loss pr x = Ok l /\ prior_loss pr (vadd x d) = Ok l' /\
    prior_gradient pr x = Ok g /\ prior_hessian pr n = Ok h /\ length g = n /\ is_shape n n h /\
    l' = l + vdot g d + / 2 * vdot d (mv h d).
Proof.
  intros Hr Hx Hd. assert (Hxd : length (vadd x d) = n) by (apply vadd_len; auto).
  destruct pr as [|g]; simpl in *.
  - exists 0, 0, (zeros (length x)), (repeat (zeros n) n). rewrite !zeros_length.
    do 4 (split; [auto|]). split; [auto|]. split.
    + split; [apply repeat_length|]. apply Forall_forall. intros r Hin. apply repeat_spec in Hin. subst.
      apply zeros_length.
    + rewrite mv_zero_rows, vdot_zeros_l, vdot_comm, vdot_zeros_l. ring.
  - destruct Hr as [m [s [w [E [Lm [Ls [Lw Hs]]]]]]].
    unfold same_length, gauss_loss, gauss_gradient, gauss_hessian, gauss_match. rewrite E, Hx, Hxd, Lm, Nat.eqb_refl. simpl.
    do 4 eexists. do 4 (split; [reflexivity|]).
    assert (Lk : length (vmul w (map (fun t => 1 / t) s)) = n) by (rewrite vmul_length; rewrite map_length; lia).
    split; [|split].
    + rewrite vmul_length; [apply vsub_len; auto | rewrite Lk, (vsub_len n); auto].
    + split; [rewrite diag_length; auto|]. pose proof (diag_wf (vmul w (map (fun t => 1 / t) s))) as W.
      rewrite Lk in W. auto.
    + rewrite mv_diag by lia. apply gauss_expand; try lia.
      eapply Forall_impl; [|exact Hs]. simpl; intros; lra.
Qed.

(** ** the plain oracle *)
Lemma residual_ok pr x : wf_linear pr -> length x = lp_p pr ->
  residual pr x = Ok (vsub (mv (lp_a pr) x) (lp_b pr)).
Proof. intros [[Hn Ha] [Hb _]] Hx. unfold residual. rewrite Hx, Hb, !Nat.eqb_refl. reflexivity. Qed.
Lemma residual_inv pr x r : residual pr x = Ok r ->
  length x = lp_p pr /\ length (lp_b pr) = lp_n pr /\ r = vsub (mv (lp_a pr) x) (lp_b pr).
Proof.
  unfold residual. intros H. apply rbind_inv in H as [u [G H]]. apply guard_inv in G.
  apply rbind_inv in H as [u' [G' H]]. apply guard_inv in G'. inversion H; subst.
  apply Nat.eqb_eq in G, G'. auto.
Qed.

Lemma ls_expand pr x d : wf_linear pr -> length x = lp_p pr -> length d = lp_p pr ->
  least_squares pr (vadd x d) = least_squares pr x
   + vdot (tmv (lp_p pr) (lp_a pr) (vsub (mv (lp_a pr) x) (lp_b pr))) d
   + / 2 * sqnorm (mv (lp_a pr) d).
Proof.
  intros [[Hn Ha] [Hb _]] Hx Hd. unfold least_squares.
  assert (Lr : length (vsub (mv (lp_a pr) x) (lp_b pr)) = lp_n pr)
    by (apply vsub_len; auto; apply mv_len; auto).
  rewrite tmv_adj by (auto; lia).
  rewrite (mv_vadd (lp_p pr)) by (auto; apply wf_mat_In; auto).
  replace (vsub (vadd (mv (lp_a pr) x) (mv (lp_a pr) d)) (lp_b pr))
    with (vadd (vsub (mv (lp_a pr) x) (lp_b pr)) (mv (lp_a pr) d)).
  - rewrite sqnorm_vadd by (rewrite Lr, mv_length; lia). lra.
  - apply vdot_ext.
    + rewrite (vadd_len (lp_n pr)), (vsub_len (lp_n pr)); auto using mv_len.
      apply vadd_len; apply mv_len; auto.
    + intros e _. rewrite vdot_vadd_l, !vdot_vsub_l, vdot_vadd_l by vlen. ring.
Qed.

Lemma lin_loss_ok o pr x l : lo_problem o = Some pr -> wf_linear pr -> length x = lp_p pr ->
  prior_loss (lo_prior o) x = Ok l -> lin_loss o x = Ok (least_squares pr x + l).
Proof.
  intros Ho Hw Hx Hl. unfold lin_loss. rewrite Ho, residual_ok by auto. cbn [rbind]. rewrite Hl. cbn [rbind].
  rewrite norm_sq. unfold least_squares. do 2 f_equal. lra.
Qed.

Lemma linear_expansion o pr x d : lo_problem o = Some pr -> wf_linear pr ->
  prior_ready (lo_prior o) (lp_p pr) -> length x = lp_p pr -> length d = lp_p pr ->
  exists f f' g h, lin_loss o x = Ok f /\ lin_loss o (vadd x d) = Ok f' /\
    lin_gradient o x = Ok g /\ lin_hessian o = Ok h /\
    length g = lp_p pr /\ is_shape (lp_p pr) (lp_p pr) h /\
    f' = f + vdot g d + / 2 * vdot d (mv h d).
Proof.
  intros Ho Hw Hr Hx Hd.
  destruct (prior_expand _ _ x d Hr Hx Hd) as [l [l' [g [h [E1 [E2 [E3 [E4 [Lg [Sh E]]]]]]]]]].
  assert (Hxd : length (vadd x d) = lp_p pr) by (apply vadd_len; auto).
  do 4 eexists. split; [eapply lin_loss_ok; eauto|]. split; [eapply lin_loss_ok; eauto|].
  unfold lin_gradient, lin_hessian. rewrite Ho, residual_ok by auto. simpl. rewrite E3, E4. simpl.
  do 2 (split; [reflexivity|]). pose proof Hw as Hw'. destruct Hw as [[Hn Ha] [Hb Hc]].
  set (r := vsub (mv (lp_a pr) x) (lp_b pr)).
  assert (Lt : length (tmv (lp_p pr) (lp_a pr) r) = lp_p pr) by (apply tmv_len; auto).
  destruct Sh as [Sh1 Sh2].
  split; [apply vadd_len; auto|]. split.
  - split.
    + unfold madd. rewrite map2_length, mm_length, tr_length.
      transitivity (Nat.min (lp_p pr) (lp_p pr)); [f_equal; exact Sh1 | apply Nat.min_id].
    + apply madd_wf; auto. apply mm_wf; auto.
  - rewrite ls_expand by auto. fold r.
    rewrite vdot_vadd_l by lia.
    rewrite (mv_madd (lp_p pr)) by (auto; apply mm_wf; auto).
    rewrite mv_gram by auto.
    rewrite vdot_vadd_r by (rewrite tmv_len, mv_length; auto).
    rewrite (vdot_comm d (tmv _ _ (mv _ _))), (tmv_adj _ _ (mv _ _)) by (auto; apply mv_length).
    fold (sqnorm (mv (lp_a pr) d)). rewrite E. lra.
Qed.

(** ** descent from the sufficient-decrease inequality, for a penalty on a domain *)
Lemma descends_for rg dom pen f g x s z :
  exact_for rg dom pen -> 0 < s -> length (g x) = length x ->
  r_prox rg (vsub x (vscale s (g x))) s = Ok z -> sufficient f g x s z ->
  dom z /\ (dom x -> f z + pen z <= f x + pen x).
Proof.
  intros Hp Hs Hl Hz Hsuf. destruct (Hp _ _ _ Hs Hz) as [Hlz [Hdz Hmin]]. split; [auto|]. intros Hdx.
  assert (Hy : length (vsub x (vscale s (g x))) = length x).
  { rewrite vsub_length; rewrite ?vscale_length; auto. }
  rewrite Hy in *. specialize (Hmin x eq_refl Hdx). unfold prox_cost in Hmin.
  assert (E1 : sqnorm (vsub z (vsub x (vscale s (g x)))) =
    sqnorm (vsub z x) + 2 * s * vdot (g x) (vsub z x) + s ^ 2 * sqnorm (g x)).
  { assert (E : vsub z (vsub x (vscale s (g x))) = vadd (vsub z x) (vscale s (g x))).
    { apply vsub_vsub; rewrite ?vscale_length; auto. }
    rewrite E, sqnorm_vadd, sqnorm_vscale, vdot_vscale_r, vdot_comm; [ring|].
    rewrite vsub_length, vscale_length; auto. }
  assert (E2 : sqnorm (vsub x (vsub x (vscale s (g x)))) = s ^ 2 * sqnorm (g x)).
  { rewrite vsub_vsub, vsub_self by (rewrite ?vscale_length; auto).
    rewrite sqnorm_vadd, sqnorm_zeros, vdot_zeros_l, sqnorm_vscale; [ring|].
    rewrite zeros_length, vscale_length; auto. }
  rewrite E1, E2 in Hmin. unfold sufficient in Hsuf.
  set (N := sqnorm (vsub z x)) in *. set (D := vdot (g x) (vsub z x)) in *.
  assert (Hmul : 1 / (2 * s) * N * s = / 2 * N) by (field; lra).
  apply Rmult_le_reg_r with s; auto.
  apply Rmult_le_compat_r with (r := s) in Hsuf; [|lra].
  rewrite !Rmult_plus_distr_r in *. lra.
Qed.

Lemma vadd_vsub n x z : length x = n -> length z = n -> vadd x (vsub z x) = z.
Proof.
  intros Hx Hz. apply vdot_ext.
  - rewrite (vadd_len n); auto. apply vsub_len; auto.
  - intros d _. rewrite vdot_vadd_l, vdot_vsub_l; try lia. ring. rewrite (vsub_len n); auto.
Qed.

(** ** line search on least squares: every step is accepted *)
Lemma ls_sufficient pr x z s : wf_linear pr -> length x = lp_p pr -> length z = lp_p pr ->
  0 < s -> frob (lp_a pr) <= 1 / s ->
  sufficient (least_squares pr)
    (fun x => tmv (lp_p pr) (lp_a pr) (vsub (mv (lp_a pr) x) (lp_b pr))) x s z.
Proof.
  intros Hw Hx Hz Hs HK. unfold sufficient.
  pose proof (ls_expand pr x (vsub z x) Hw Hx (vsub_len _ _ _ Hz Hx)) as E.
  rewrite (vadd_vsub (lp_p pr)) in E by auto. rewrite E.
  pose proof (frob_bound (lp_a pr) (vsub z x)) as F.
  pose proof (sqnorm_nonneg (vsub z x)) as N0.
  assert (frob (lp_a pr) * sqnorm (vsub z x) <= 1 / s * sqnorm (vsub z x))
    by (apply Rmult_le_compat_r; auto).
  replace (1 / (2 * s)) with (/ 2 * (1 / s)) by (field; lra). lra.
Qed.

Definition ls_grad (pr : linear_problem) (x : vec) : vec :=
  tmv (lp_p pr) (lp_a pr) (vsub (mv (lp_a pr) x) (lp_b pr)).

Lemma lin_value_is o pr : lo_problem o = Some pr -> lo_prior o = PNone ->
  value_is (lin_as_oracle o) (least_squares pr).
Proof.
  intros Ho Hp s x r s' H. simpl in H. apply rbind_inv in H as [v [H E]]. inversion E; subst.
  unfold lin_loss in H. rewrite Ho, Hp in H. apply rbind_inv in H as [r0 [Hr H]].
  apply residual_inv in Hr as [_ [_ ->]]. simpl prior_loss in H. cbn [rbind] in H.
  apply Ok_inj in H. rewrite norm_sq in H. unfold least_squares. lra.
Qed.
Lemma lin_grad_is o pr : wf_linear pr -> lo_problem o = Some pr -> lo_prior o = PNone ->
  grad_is (lin_as_oracle o) (ls_grad pr).
Proof.
  intros Hw Ho Hp s x r s' H. simpl in H. apply rbind_inv in H as [v [H E]]. inversion E; subst.
  unfold lin_gradient in H. rewrite Ho, Hp in H. apply rbind_inv in H as [r0 [Hr H]].
  apply residual_inv in Hr as [Hx [_ ->]]. simpl prior_gradient in H. cbn [rbind] in H.
  inversion H. destruct Hw as [[Hn Ha] _]. unfold ls_grad. apply vadd_zeros.
  rewrite tmv_len; auto.
Qed.
Lemma lin_grad_len o pr s x r s' : lo_problem o = Some pr ->
  o_grad (lin_as_oracle o) s x = Ok (r, s') -> length x = lp_p pr.
Proof.
  intros Ho H. simpl in H. apply rbind_inv in H as [v [H E]].
  unfold lin_gradient in H. rewrite Ho in H. apply rbind_inv in H as [r0 [Hr H]].
  apply residual_inv in Hr as [Hx _]. auto.
Qed.

Lemma halved_S step k : halved step (S k) = halved step k * (1 / 2).
Proof. unfold halved. simpl. ring. Qed.

Lemma lin_step_accepted o pr rg dom pen slv x s x' :
  wf_linear pr -> lo_problem o = Some pr -> lo_prior o = PNone -> frob (lp_a pr) <= 50000000000000 ->
  exact_for rg dom pen -> s_stepping slv = "line-search" -> ls_threshold < s_step_len slv ->
  pgd_rule (lin_as_oracle o) rg slv x s x' ->
  length x = lp_p pr /\ length x' = lp_p pr /\ ls_threshold < s /\
  sufficient (least_squares pr) (ls_grad pr) x s x' /\
  dom x' /\ (dom x -> least_squares pr x' + pen x' <= least_squares pr x + pen x).
Proof.
  intros Hw Ho Hp HK Hex Hst Hsl [[t1 [g1 [t2 [A [Hl P]]]]] [_ Hr]].
  pose proof (lin_value_is o pr Ho Hp) as Hf. pose proof (lin_grad_is o pr Hw Ho Hp) as Hg.
  pose proof (lin_grad_len _ _ _ _ _ _ Ho A) as Hx.
  specialize (Hr _ _ Hf Hg). unfold step_rule in Hr. rewrite Hst in Hr. simpl in Hr.
  destruct Hr as [k [Es [Hj Hs]]]. pose proof threshold_pos as T0.
  assert (Hp0 : forall j, 0 < halved (s_step_len slv) j)
    by (intros j; destruct (halved_range (s_step_len slv) j); [lra|auto]).
  assert (Ht : ls_threshold < s).
  { apply Rnot_le_lt. intros Hle. destruct k as [|j].
    - rewrite Es in Hle. unfold halved in Hle. simpl in Hle. lra.
    - destruct (Hj j) as [Hj1 [z [Hz Hn]]]; [lia|]. apply Hn. fold (ls_grad pr) in *.
      assert (Lz : length z = lp_p pr).
      { destruct (Hex _ _ _ (Hp0 j) Hz) as [Lz _]. rewrite Lz.
        apply vsub_len; auto. apply vscale_len. rewrite <- (Hg _ _ _ _ A), Hl. auto. }
      apply ls_sufficient; auto.
      rewrite Es, halved_S in Hle. unfold ls_threshold in *.
      apply Rle_trans with (1 := HK). pose proof (Hp0 j) as Hpj.
      unfold Rdiv. rewrite Rmult_1_l. rewrite <- (Rinv_inv 50000000000000).
      apply Rinv_le_contravar; auto. lra. }
  assert (Hs0 : 0 < s) by lra.
  destruct Hs as [Hs|Hs]; [lra|]. rewrite (Hg _ _ _ _ A) in *.
  destruct (Hex _ _ _ Hs0 P) as [Lx' _].
  destruct (descends_for rg dom pen (least_squares pr) (ls_grad pr) x s x') as [D1 D2]; auto.
  split; [auto|]. split; [|auto].
  rewrite Lx'. apply vsub_len; auto. apply vscale_len. lia.
Qed.

Lemma lin_path_descends o pr rg dom pen slv path : forall x,
  wf_linear pr -> lo_problem o = Some pr -> lo_prior o = PNone -> frob (lp_a pr) <= 50000000000000 ->
  exact_for rg dom pen -> s_stepping slv = "line-search" -> ls_threshold < s_step_len slv ->
  is_path (pgd_rule (lin_as_oracle o) rg slv) x path ->
  Forall (fun p => ls_threshold < fst p) path /\
  non_increasing dom (fun x => least_squares pr x + pen x) x path.
Proof.
  induction path as [|[s x'] path IH]; intros x Hw Ho Hp HK Hex Hst Hsl P; [split; constructor|].
  destruct P as [P1 P]. destruct (IH x') as [I1 I2]; auto.
  destruct (lin_step_accepted _ _ _ _ _ _ _ _ _ Hw Ho Hp HK Hex Hst Hsl P1) as [_ [_ [Ht [_ [D1 D2]]]]].
  split; [constructor; auto|]. simpl. auto.
Qed.
Lemma non_increasing_end (dom : vec -> Prop) F path : forall x, dom x -> non_increasing dom F x path ->
  F (endpoint x path) <= F x.
Proof.
  induction path as [|[s x'] path IH]; intros x Hx H; [unfold endpoint; simpl; lra|].
  destruct H as [H1 [H2 H3]]. rewrite endpoint_cons. specialize (IH x' H1 H3). specialize (H2 Hx). lra.
Qed.

(** ** SR3: elimination of x *)
Section SR3Algebra.
Variables (pr : linear_problem) (lam : R) (hi : mat).
Notation p := (lp_p pr).
Notation n := (lp_n pr).
Notation a := (lp_a pr).
Notation b := (lp_b pr).
Notation c := (lp_c pr).
Hypothesis Hw : wf_linear pr.
Hypothesis Hsym : symmetric p c.
Hypothesis Hlam : 0 <= lam.
Hypothesis Hhi : is_shape p p hi.
Hypothesis Hinv : forall v, length v = p -> mv (h_matrix lam pr) (mv hi v) = v.

Ltac vdots tac := repeat first [rewrite vdot_vscale_l | rewrite vdot_vsub_l by tac | rewrite vdot_vadd_l by tac].

Lemma La : length a = n. Proof. apply Hw. Qed.
Lemma Wa : wf_mat p a. Proof. apply Hw. Qed.
Lemma Lb : length b = n. Proof. apply Hw. Qed.
Lemma Lc : length c = p. Proof. apply Hw. Qed.
Lemma Wc : wf_mat p c. Proof. apply Hw. Qed.
Lemma Lhi : length hi = p. Proof. apply Hhi. Qed.
Lemma Whi : wf_mat p hi. Proof. apply Hhi. Qed.
Hint Resolve La Wa Lb Lc Wc Lhi Whi : core.

Lemma Lta v : length (tmv p a v) = p. Proof. apply tmv_len; auto. Qed.
Lemma Ltc v : length (tmv p c v) = p. Proof. apply tmv_len; auto. Qed.
Lemma mva_len x : length (mv a x) = n. Proof. rewrite mv_length; auto. Qed.
Lemma mvc_len x : length (mv c x) = p. Proof. rewrite mv_length; auto. Qed.
Lemma mvh_len x : length (mv hi x) = p. Proof. rewrite mv_length; auto. Qed.
Ltac vl := repeat (progress rewrite ?vadd_min, ?vsub_min, ?vscale_length, ?Lta, ?Ltc, ?mva_len, ?mvc_len, ?mvh_len, ?Lb, ?La, ?Lc, ?Lhi); try lia; auto.

Lemma c_adj x y : length x = p -> length y = p -> vdot (mv c x) y = vdot x (mv c y).
Proof. apply Hsym. Qed.
Lemma tmv_c w : length w = p -> tmv p c w = mv c w.
Proof.
  intros H. apply vdot_ext; [vl|]. intros d Hd. rewrite Ltc in Hd.
  rewrite tmv_adj by (auto; rewrite Lc; auto). symmetry. apply c_adj; auto.
Qed.

Lemma h_apply x : length x = p ->
  mv (h_matrix lam pr) x = vadd (tmv p a (mv a x)) (vscale lam (mv c (mv c x))).
Proof.
  intros Hx. unfold h_matrix.
  rewrite (mv_madd p) by (try apply mscale_wf; apply mm_wf; auto).
  rewrite mv_gram by auto. rewrite mv_mscale, mv_mm; auto. rewrite Lc. auto.
Qed.

(** x(w) *)
Definition xstar (w : vec) : vec := mv hi (vadd (tmv p a b) (vscale lam (tmv p c w))).
Lemma xstar_len w : length (xstar w) = p. Proof. apply mvh_len. Qed.
Definition ures (w : vec) : vec := vsub (mv a (xstar w)) b.
Definition wres (w : vec) : vec := vsub w (mv c (xstar w)).

(** stationarity in x *)
Lemma normal_equation w d : length w = p -> length d = p ->
  vdot (ures w) (mv a d) = lam * vdot (wres w) (mv c d).
Proof.
  intros Lw Ld.
  assert (E : mv (h_matrix lam pr) (xstar w) = vadd (tmv p a b) (vscale lam (tmv p c w))).
  { apply Hinv. vl. }
  rewrite h_apply in E by apply xstar_len.
  apply (f_equal (fun v => vdot v d)) in E.
  rewrite !vdot_vadd_l in E by vl. rewrite !vdot_vscale_l in E.
  rewrite !(tmv_adj p a) in E by vl.
  rewrite tmv_c, (c_adj (mv c (xstar w)) d), (c_adj w d) in E by vl.
  unfold ures, wres. rewrite !vdot_vsub_l by vl.
  lra.
Qed.

(** u(d) = H^-1 C d *)
Definition ustar (d : vec) : vec := mv hi (tmv p c d).
Lemma ustar_len d : length (ustar d) = p. Proof. apply mvh_len. Qed.

Lemma f_apply w : length w = p ->
  mv (f_matrix lam pr hi) w =
  vscale lam (mv a (ustar w)) ++ vscale (sqrt lam) (vsub w (vscale lam (mv c (ustar w)))).
Proof.
  intros Lw. unfold f_matrix. rewrite mv_app, !mv_mscale.
  assert (W1 : wf_mat p (tr p c)) by (rewrite <- Lc at 1; apply tr_wf).
  assert (L1 : length (tr p c) = p) by apply tr_length.
  f_equal.
  - rewrite mv_mm by (auto; rewrite L1; apply mm_wf; auto).
    rewrite mv_mm by (auto; rewrite Lhi; auto). rewrite mv_tr by (auto; rewrite Lc; auto). reflexivity.
  - f_equal. rewrite (mv_msub p).
    + rewrite mv_eye, mv_mscale by auto.
      rewrite mv_mm by (auto; rewrite L1; apply mm_wf; auto).
      rewrite mv_mm by (auto; rewrite Lhi; auto). rewrite mv_tr by (auto; rewrite Lc; auto). reflexivity.
    + apply eye_wf.
    + apply mscale_wf, mm_wf; auto.
Qed.
Lemma f_wf : wf_mat p (f_matrix lam pr hi).
Proof.
  assert (W1 : wf_mat p (tr p c)) by (rewrite <- Lc at 1; apply tr_wf).
  unfold f_matrix. apply app_wf; apply mscale_wf; [apply mm_wf; auto|].
  apply msub_wf; [apply eye_wf|]. apply mscale_wf, mm_wf; auto.
Qed.
Lemma g_apply : mv (g_matrix lam pr hi) b =
  vsub b (mv a (mv hi (tmv p a b))) ++ vscale (sqrt lam) (mv c (mv hi (tmv p a b))).
Proof.
  unfold g_matrix. rewrite mv_app, !mv_mscale.
  assert (W1 : wf_mat n (tr p a)) by (rewrite <- La; apply tr_wf).
  assert (L1 : length (tr p a) = p) by apply tr_length.
  f_equal.
  - rewrite (mv_msub n) by (first [apply eye_wf | apply mm_wf; auto]).
    rewrite mv_eye by auto. rewrite mv_mm by (auto; rewrite L1; apply mm_wf; auto).
    rewrite mv_mm by (auto; rewrite Lhi; auto). rewrite mv_tr by (auto; rewrite La; auto). reflexivity.
  - rewrite mv_mm by (auto; rewrite L1; apply mm_wf; auto).
    rewrite mv_mm by (auto; rewrite Lhi; auto). rewrite mv_tr by (auto; rewrite La; auto). reflexivity.
Qed.

Lemma xstar_split w : length w = p ->
  xstar w = vadd (mv hi (tmv p a b)) (vscale lam (ustar w)).
Proof.
  intros Lw. unfold xstar, ustar.
  rewrite (mv_vadd p) by (try (apply wf_mat_In; auto); vl). rewrite mv_vscale. reflexivity.
Qed.

Lemma fg_residual w : length w = p ->
  vsub (mv (f_matrix lam pr hi) w) (mv (g_matrix lam pr hi) b) =
  ures w ++ vscale (sqrt lam) (wres w).
Proof.
  intros Lw. rewrite f_apply, g_apply by auto.
  rewrite vsub_app by vl. unfold ures, wres. rewrite xstar_split by auto.
  rewrite !(mv_vadd p) by (try (apply wf_mat_In; auto); vl; unfold ustar; vl).
  rewrite !mv_vscale.
  assert (Lu : length (ustar w) = p) by apply ustar_len.
  f_equal.
  - apply vdot_ext; [vl|]. intros d _.
    vdots vl; ring.
  - apply vdot_ext; [vl|]. intros d _.
    vdots vl; ring.
Qed.

Lemma value_is_relaxed w : length w = p ->
  / 2 * sqnorm (vsub (mv (f_matrix lam pr hi) w) (mv (g_matrix lam pr hi) b)) =
  relaxed_loss lam pr (xstar w) w.
Proof.
  intros Lw. rewrite fg_residual by auto. rewrite sqnorm_app, sqnorm_vscale.
  replace (sqrt lam ^ 2) with lam by (rewrite <- Rsqr_pow2, Rsqr_sqrt; auto).
  unfold relaxed_loss, least_squares. fold (ures w).
  rewrite (sqnorm_vsub_comm (mv c (xstar w)) w) by vl. fold (wres w). lra.
Qed.

(** x(w) minimises over x *)
Lemma relaxed_min w x : length w = p -> length x = p ->
  relaxed_loss lam pr x w = relaxed_loss lam pr (xstar w) w
   + / 2 * sqnorm (mv a (vsub x (xstar w))) + lam / 2 * sqnorm (mv c (vsub x (xstar w))).
Proof.
  intros Lw Lx. set (d := vsub x (xstar w)).
  assert (Ld : length d = p) by (unfold d; rewrite vsub_min, xstar_len; lia).
  assert (Ex : x = vadd (xstar w) d) by (symmetry; apply (vadd_vsub p); auto; apply xstar_len).
  pose proof (normal_equation w d Lw Ld) as N.
  rewrite Ex at 1. unfold relaxed_loss.
  rewrite ls_expand by (auto; apply xstar_len). fold (ures w).
  rewrite tmv_adj by (unfold ures; auto; vl).
  rewrite (mv_vadd p) by (try (apply wf_mat_In; auto); auto; rewrite xstar_len; auto).
  assert (E : sqnorm (vsub (vadd (mv c (xstar w)) (mv c d)) w) =
              sqnorm (vsub (mv c (xstar w)) w) - 2 * vdot (wres w) (mv c d) + sqnorm (mv c d)).
  { replace (vsub (vadd (mv c (xstar w)) (mv c d)) w) with (vsub (mv c d) (wres w)).
    - rewrite sqnorm_vsub by (unfold wres; vl). rewrite (sqnorm_vsub_comm (mv c (xstar w)) w) by vl.
      fold (wres w). rewrite (vdot_comm (mv c d)). ring.
    - unfold wres. apply vdot_ext; [vl|]. intros e _.
      vdots vl; ring. }
  rewrite E, N. lra.
Qed.

Lemma F_dot w d : length w = p -> length d = p ->
  vdot (ures w ++ vscale (sqrt lam) (wres w)) (mv (f_matrix lam pr hi) d) = lam * vdot (wres w) d.
Proof.
  intros Lw Ld. rewrite f_apply by auto.
  assert (Lu : length (ustar d) = p) by apply ustar_len.
  rewrite vdot_app by (unfold ures; vl).
  rewrite vdot_vscale_r, vdot_vscale_l, vdot_vscale_r, vdot_vsub_r, vdot_vscale_r by vl.
  rewrite normal_equation by auto.
  assert (Hq : sqrt lam * sqrt lam = lam) by (apply sqrt_sqrt; auto).
  match goal with |- _ + sqrt lam * (sqrt lam * ?X) = _ =>
    replace (sqrt lam * (sqrt lam * X)) with (lam * X) by (rewrite <- Rmult_assoc, Hq; reflexivity) end.
  ring.
Qed.

Lemma f_len : length (f_matrix lam pr hi) = (n + p)%nat.
Proof.
  unfold f_matrix. rewrite app_length, !mscale_length, !mm_length, La.
  unfold msub. rewrite map2_length, mscale_length, !mm_length, eye_length. rewrite Lc. lia.
Qed.
Lemma gradient_is w : length w = p ->
  tmv p (f_matrix lam pr hi) (vsub (mv (f_matrix lam pr hi) w) (mv (g_matrix lam pr hi) b)) =
  vscale lam (wres w).
Proof.
  intros Lw. apply vdot_ext.
  - rewrite tmv_len by apply f_wf. unfold wres. vl.
  - intros d Hd. rewrite tmv_len in Hd by apply f_wf. rewrite fg_residual by auto.
    rewrite tmv_adj, F_dot, vdot_vscale_l; auto; [apply f_wf|].
    rewrite f_len, app_length. unfold ures, wres. vl.
Qed.

Lemma F_norm d : length d = p ->
  sqnorm (mv (f_matrix lam pr hi) d) =
  lam * sqnorm d - lam ^ 2 * sqnorm (mv a (ustar d)) - lam ^ 3 * sqnorm (mv c (ustar d)).
Proof.
  intros Ld. assert (Lu : length (ustar d) = p) by apply ustar_len.
  rewrite f_apply by auto. rewrite sqnorm_app, !sqnorm_vscale.
  rewrite sqnorm_vsub, sqnorm_vscale, vdot_vscale_r by vl.
  replace (sqrt lam ^ 2) with lam by (rewrite <- Rsqr_pow2, Rsqr_sqrt; auto).
  assert (E : vdot d (mv c (ustar d)) = sqnorm (mv a (ustar d)) + lam * sqnorm (mv c (ustar d))).
  { rewrite <- c_adj by auto. rewrite <- tmv_c by auto.
    rewrite <- (Hinv (tmv p c d)) by vl. fold (ustar d).
    rewrite h_apply by auto. rewrite vdot_vadd_l by vl.
    rewrite tmv_adj by vl. rewrite vdot_vscale_l, c_adj by vl. reflexivity. }
  rewrite E. ring.
Qed.
Lemma F_norm_le d : length d = p -> sqnorm (mv (f_matrix lam pr hi) d) <= lam * sqnorm d.
Proof.
  intros Ld. rewrite F_norm by auto.
  pose proof (sqnorm_nonneg (mv a (ustar d))). pose proof (sqnorm_nonneg (mv c (ustar d))).
  assert (0 <= lam ^ 2) by (apply pow_le; auto). assert (0 <= lam ^ 3) by (apply pow_le; auto).
  assert (0 <= lam ^ 2 * sqnorm (mv a (ustar d))) by (apply Rmult_le_pos; auto).
  assert (0 <= lam ^ 3 * sqnorm (mv c (ustar d))) by (apply Rmult_le_pos; auto). lra.
Qed.

(** the value function is quadratic with curvature at most lam *)
Definition vfun (w : vec) : R := relaxed_loss lam pr (xstar w) w.
Definition vgrad (w : vec) : vec := vscale lam (wres w).
Lemma value_expand w d : length w = p -> length d = p ->
  vfun (vadd w d) = vfun w + vdot (vgrad w) d + / 2 * sqnorm (mv (f_matrix lam pr hi) d).
Proof.
  intros Lw Ld. unfold vfun. rewrite <- !value_is_relaxed by (auto; vl).
  rewrite (mv_vadd p) by (try (apply wf_mat_In; apply f_wf); auto).
  set (F := mv (f_matrix lam pr hi)). set (g := mv (g_matrix lam pr hi) b).
  assert (LF : forall x, length (F x) = (n + p)%nat) by (intros; unfold F; rewrite mv_length; apply f_len).
  assert (Lg : length g = (n + p)%nat).
  { unfold g. rewrite g_apply, app_length. vl. }
  replace (vsub (vadd (F w) (F d)) g) with (vadd (vsub (F w) g) (F d)).
  - rewrite sqnorm_vadd by (rewrite vsub_min, !LF; lia).
    unfold F, g. rewrite (fg_residual w), F_dot by auto. unfold vgrad. rewrite vdot_vscale_l. lra.
  - apply vdot_ext; [rewrite vadd_min, !vsub_min, vadd_min, !LF; lia|]. intros e _.
    rewrite ?vdot_vsub_l, ?vdot_vadd_l, ?vdot_vsub_l by (rewrite ?vadd_min, ?vsub_min, ?LF; lia). ring.
Qed.
Lemma value_sufficient w z : length w = p -> length z = p -> 0 < lam ->
  sufficient vfun vgrad w (1 / lam) z.
Proof.
  intros Lw Lz Hl. unfold sufficient.
  pose proof (value_expand w (vsub z w) Lw (vsub_len _ _ _ Lz Lw)) as E.
  rewrite (vadd_vsub p) in E by auto. rewrite E.
  pose proof (F_norm_le (vsub z w) (vsub_len _ _ _ Lz Lw)).
  replace (1 / (2 * (1 / lam))) with (lam / 2) by (field; lra). lra.
Qed.
End SR3Algebra.

(** ** SR3 objects *)
Lemma sr3_instantiate_inv inv o0 pr o : inv_ok inv -> wf_linear pr -> sr3_instantiate inv o0 pr = Ok o ->
  exists hi, is_shape (lp_p pr) (lp_p pr) hi /\
    (forall v, length v = lp_p pr -> mv (h_matrix (so_lam o0) pr) (mv hi v) = v) /\
    inv (lp_p pr) (h_matrix (so_lam o0) pr) = Ok hi /\
    so_lam o = so_lam o0 /\ so_practical o = so_practical o0 /\ so_problem o = Some pr /\
    so_data o = Some {| sd_h_inv := hi; sd_ab := tmv (lp_p pr) (lp_a pr) (lp_b pr);
                        sd_fg := if so_practical o0 then None
                                 else Some (f_matrix (so_lam o0) pr hi, mv (g_matrix (so_lam o0) pr hi) (lp_b pr)) |}.
Proof.
  intros Hi Hw H. unfold sr3_instantiate in H. apply rbind_inv in H as [hi [H1 H]].
  apply rbind_inv in H as [u [_ H]]. inversion H; subst; clear H. exists hi.
  assert (Sh : is_shape (lp_p pr) (lp_p pr) (h_matrix (so_lam o0) pr)).
  { destruct Hw as [[Hn Ha] [Hb [Hc Wc]]]. unfold h_matrix. split.
    - unfold madd. rewrite map2_length, mm_length, tr_length, mscale_length, mm_length.
      transitivity (Nat.min (lp_p pr) (lp_p pr)); [f_equal; exact Hc | apply Nat.min_id].
    - apply madd_wf; [|apply mscale_wf]; apply mm_wf; auto. }
  destruct (Hi _ _ _ Sh H1) as [S1 S2]. auto 10.
Qed.

Lemma sr3_eval o pr lam hi w : so_practical o = false -> so_problem o = Some pr ->
  so_data o = Some {| sd_h_inv := hi; sd_ab := tmv (lp_p pr) (lp_a pr) (lp_b pr);
                      sd_fg := Some (f_matrix lam pr hi, mv (g_matrix lam pr hi) (lp_b pr)) |} ->
  length w = lp_p pr ->
  sr3_value o w = Ok (/ 2 * sqnorm (vsub (mv (f_matrix lam pr hi) w) (mv (g_matrix lam pr hi) (lp_b pr)))) /\
  sr3_gradient o w = Ok (tmv (lp_p pr) (f_matrix lam pr hi)
      (vsub (mv (f_matrix lam pr hi) w) (mv (g_matrix lam pr hi) (lp_b pr)))).
Proof.
  intros Ho Hp Hd Hw. unfold sr3_value, sr3_gradient, sr3_fg. rewrite Ho, Hp, Hd, Hw, Nat.eqb_refl.
  cbn [negb guard rbind]. rewrite norm_sq. split; auto. f_equal. lra.
Qed.
Lemma sr3_gradient_len o pr w g : so_problem o = Some pr -> sr3_gradient o w = Ok g -> length w = lp_p pr.
Proof.
  intros Hp H. unfold sr3_gradient in H. apply rbind_inv in H as [[[p0 f] g0] [H _]].
  unfold sr3_fg in H. apply rbind_inv in H as [u [_ H]]. rewrite Hp in H.
  destruct (so_data o) as [[h ab [[f1 g1]|]]|]; try discriminate.
  apply rbind_inv in H as [u' [G H]]. apply guard_inv in G. apply Nat.eqb_eq in G. auto.
Qed.
Lemma sr3_gradient_bad o pr w : so_practical o = false -> so_problem o = Some pr -> so_data o <> None ->
  (forall d, so_data o = Some d -> sd_fg d <> None) -> length w <> lp_p pr ->
  sr3_gradient o w = Err ValueError.
Proof.
  intros Ho Hp Hd Hf Hl. unfold sr3_gradient, sr3_fg. rewrite Ho, Hp. cbn [negb guard rbind].
  destruct (so_data o) as [[h ab [[f1 g1]|]]|]; try congruence.
  - apply Nat.eqb_neq in Hl. rewrite Hl. reflexivity.
  - exfalso. apply (Hf _ eq_refl). reflexivity.
Qed.

Lemma eye_symmetric p : symmetric p (eye p).
Proof. intros x y Hx Hy. rewrite !mv_eye; auto. Qed.

(** ** one fixed step 1/lam of the standard scheme is one practical step *)
Lemma step_is_xstar pr lam hi x : wf_linear pr -> lp_c pr = eye (lp_p pr) -> 0 < lam ->
  is_shape (lp_p pr) (lp_p pr) hi -> length x = lp_p pr ->
  vadd x (vscale (1 / lam) (vneg (vscale lam (wres pr lam hi x)))) = xstar pr lam hi x.
Proof.
  intros Hw Hc Hl Hh Hx. unfold wres.
  assert (Lx : length (xstar pr lam hi x) = lp_p pr) by (apply xstar_len; auto).
  rewrite Hc, mv_eye by auto. apply vdot_ext.
  - rewrite vadd_min, vscale_length, vneg_length, vscale_length, vsub_min. lia.
  - intros d _. rewrite vdot_vadd_l by (rewrite vscale_length, vneg_length, vscale_length, vsub_min; lia).
    rewrite vdot_vscale_l, vdot_vneg_l, vdot_vscale_l, vdot_vsub_l by lia. field. lra.
Qed.

Definition quiet (lg : logger) : Prop := lg_keys lg = [].
Lemma log_state_quiet {S} (orc : oracle S) rg x0 st : quiet (st_logger st) ->
  log_state orc rg x0 st = Ok st.
Proof. intros H. unfold quiet in H. unfold log_state. rewrite H. destruct st; reflexivity. Qed.

Lemma practical_loop_pgd o1 o2 pr lam hi d rg tol mi x0 : forall fuel st,
  wf_linear pr -> lp_c pr = eye (lp_p pr) -> 0 < lam -> is_shape (lp_p pr) (lp_p pr) hi ->
  (forall v, length v = lp_p pr -> mv (h_matrix lam pr) (mv hi v) = v) ->
  so_lam o1 = lam -> sd_h_inv d = hi -> sd_ab d = tmv (lp_p pr) (lp_a pr) (lp_b pr) ->
  so_practical o2 = false -> so_problem o2 = Some pr ->
  so_data o2 = Some {| sd_h_inv := hi; sd_ab := tmv (lp_p pr) (lp_a pr) (lp_b pr);
                      sd_fg := Some (f_matrix lam pr hi, mv (g_matrix lam pr hi) (lp_b pr)) |} ->
  quiet (st_logger st) -> st_oracle st = tt ->
  let slv := {| s_tol := tol; s_max_iter := mi; s_stepping := "fixed"; s_step_len := 1 / lam |} in
  match practical_loop fuel o1 pr d rg tol mi (st_x st) (st_x_prev st) (st_iteration st) with
  | Ok (x, n) => exists st', pgd_loop (sr3_as_oracle o2) rg slv fuel x0 st = Ok st' /\
                   st_x st' = x /\ st_iteration st' = n /\ st_logger st' = st_logger st /\ st_oracle st' = tt
  | Err e => pgd_loop (sr3_as_oracle o2) rg slv fuel x0 st = Err e
  end.
Proof.
  intros fuel st Hw Hc Hl Hh Hinv H1 Hd1 Hd2 H2 H3 H4. revert st.
  induction fuel as [|fuel IH]; intros st Hq Ho slv; simpl practical_loop; simpl pgd_loop.
  - destruct (moved tol (st_x st) (st_x_prev st)) as [m|e]; cbn [rbind]; [|reflexivity].
    destruct (m && (Z.of_nat (st_iteration st) <? mi)%Z); [reflexivity|]. exists st. auto.
  - destruct (moved tol (st_x st) (st_x_prev st)) as [m|e]; cbn [rbind]; [|reflexivity].
    destruct (m && (Z.of_nat (st_iteration st) <? mi)%Z) eqn:Em; [|exists st; auto].
    destruct (Nat.eqb_spec (length (st_x st)) (lp_p pr)) as [Lx|Lx].
    + cbn [guard rbind].
      assert (Wi : pgd_step (sr3_as_oracle o2) rg slv x0 st =
        let! x' := r_prox rg (xstar pr lam hi (st_x st)) (1 / lam) in
        Ok {| st_x := x'; st_x_prev := Some (st_x st); st_iteration := Datatypes.S (st_iteration st);
              st_loss := st_loss st; st_direction := Some (vneg (vscale lam (wres pr lam hi (st_x st))));
              st_step_len := Some (1 / lam); st_y := Some (xstar pr lam hi (st_x st)); st_z := st_z st;
              st_oracle := tt; st_logger := st_logger st |}).
      { destruct (sr3_eval o2 pr lam hi (st_x st) H2 H3 H4 Lx) as [_ Eg].
        rewrite gradient_is in Eg; auto.
        2:{ rewrite Hc. apply eye_symmetric. } 2:lra.
        unfold pgd_step. cbn [sr3_as_oracle o_grad]. rewrite Eg, Ho. cbn [rbind slv s_stepping s_step_len].
        change (String.eqb "fixed" "line-search") with false. cbn iota. cbn [rbind].
        unfold move. rewrite vneg_length, vscale_length.
        assert (Lwr : length (wres pr lam hi (st_x st)) = length (st_x st)).
        { unfold wres. rewrite vsub_min. rewrite Hc, mv_length, eye_length. lia. }
        rewrite Lwr, Nat.eqb_refl. cbn [guard rbind]. rewrite step_is_xstar by auto.
        destruct (r_prox rg (xstar pr lam hi (st_x st)) (1 / lam)); [|reflexivity].
        cbn [rbind]. apply log_state_quiet. auto. }
      rewrite Wi. rewrite Hd1, Hd2, H1. fold (xstar pr lam hi (st_x st)).
      destruct (r_prox rg (xstar pr lam hi (st_x st)) (1 / lam)) as [x'|e]; [|reflexivity].
      cbn [rbind]. specialize (IH {| st_x := x'; st_x_prev := Some (st_x st); st_iteration := Datatypes.S (st_iteration st);
              st_loss := st_loss st; st_direction := Some (vneg (vscale lam (wres pr lam hi (st_x st))));
              st_step_len := Some (1 / lam); st_y := Some (xstar pr lam hi (st_x st)); st_z := st_z st;
              st_oracle := tt; st_logger := st_logger st |}).
      apply IH; auto.
    + cbn [guard rbind]. unfold pgd_step. cbn [sr3_as_oracle o_grad].
      rewrite (sr3_gradient_bad o2 pr); auto; rewrite H4; try congruence.
      intros d0 E. inversion E. simpl. congruence.
Qed.

(** ** fits *)
Lemma sr3_value_is inv o0 pr o : inv_ok inv -> wf_linear pr -> symmetric (lp_p pr) (lp_c pr) ->
  0 <= so_lam o0 -> so_practical o0 = false -> sr3_instantiate inv o0 pr = Ok o ->
  exists f g, value_is (sr3_as_oracle o) f /\ grad_is (sr3_as_oracle o) g /\
    (forall x, length x = lp_p pr -> length (g x) = lp_p pr) /\
    (forall x, length x = lp_p pr -> sr3_value o x = Ok (f x) /\ sr3_gradient o x = Ok (g x)) /\
    (forall w z, length w = lp_p pr -> length z = lp_p pr -> 0 < so_lam o0 ->
       sufficient f g w (1 / so_lam o0) z).
Proof.
  intros Hi Hw Hs Hl Hp H.
  destruct (sr3_instantiate_inv _ _ _ _ Hi Hw H) as [hi [S1 [S2 [_ [E1 [E2 [E3 E4]]]]]]].
  rewrite Hp in *. exists (vfun pr (so_lam o0) hi), (vgrad pr (so_lam o0) hi).
  assert (Ev : forall x, length x = lp_p pr -> sr3_value o x = Ok (vfun pr (so_lam o0) hi x) /\
                 sr3_gradient o x = Ok (vgrad pr (so_lam o0) hi x)).
  { intros x Lx. destruct (sr3_eval o pr _ hi x E2 E3 E4 Lx) as [V G].
    rewrite value_is_relaxed in V by auto. rewrite gradient_is in G by auto. auto. }
  split; [|split; [|split; [|split]]]; auto.
  - intros s x r s' E. simpl in E. apply rbind_inv in E as [v [V E]]. inversion E; subst.
    assert (Lx : length x = lp_p pr).
    { unfold sr3_value in V. apply rbind_inv in V as [[[p0 f0] g0] [V _]]. unfold sr3_fg in V.
      rewrite E2, E3, E4 in V. cbn [negb guard rbind] in V. apply rbind_inv in V as [u [G _]].
      apply guard_inv in G. apply Nat.eqb_eq in G. auto. }
    destruct (Ev x Lx) as [V' _]. congruence.
  - intros s x r s' E. simpl in E. apply rbind_inv in E as [v [V E]]. inversion E; subst.
    pose proof (sr3_gradient_len _ _ _ _ E3 V) as Lx. destruct (Ev x Lx) as [_ G']. congruence.
  - intros x Lx. unfold vgrad, wres. rewrite vscale_length, vsub_min, mv_length.
    destruct Hw as [_ [_ [Lc _]]]. lia.
  - intros w z Lw Lz Hl0. apply value_sufficient; auto.
Qed.

(** a run of one iteration *)
Lemma pgd_one_step (orc : oracle unit) rg tol step x0 g x1 :
  x0 <> [] -> o_grad orc tt x0 = Ok (g, tt) -> length g = length x0 ->
  r_prox rg (vadd x0 (vscale step (vneg g))) step = Ok x1 -> length x1 = length x0 ->
  pgd_optimize orc rg {| s_tol := tol; s_max_iter := 1; s_stepping := "fixed"; s_step_len := step |} x0 tt
    {| lg_kind := KTuple; lg_keys := []; lg_dict := [] |} =
  Ok (x1, {| lg_kind := KTuple; lg_keys := ["converged"; "iteration"];
             lg_dict := [("converged", LAtom (LBool false)); ("iteration", LAtom (LNum 1))] |}, tt).
Proof.
  intros Hn Hg Lg Hp Lx. set (lg := {| lg_kind := KTuple; lg_keys := []; lg_dict := [] |}).
  set (slv := {| s_tol := tol; s_max_iter := 1; s_stepping := "fixed"; s_step_len := step |}).
  set (st1 := {| st_x := x1; st_x_prev := Some x0; st_iteration := 1; st_loss := None;
                 st_direction := Some (vneg g); st_step_len := Some step;
                 st_y := Some (vadd x0 (vscale step (vneg g))); st_z := None; st_oracle := tt; st_logger := lg |}).
  assert (H1 : pgd_step orc rg slv x0 (pgd_init x0 tt lg) = Ok st1).
  { unfold pgd_step. cbn [pgd_init st_x st_oracle st_z st_loss st_iteration st_logger].
    rewrite Hg. cbn [rbind slv s_stepping s_step_len]. change (String.eqb "fixed" "line-search") with false.
    cbn iota. cbn [rbind]. unfold move. rewrite vneg_length, Lg, Nat.eqb_refl. cbn [guard rbind].
    rewrite Hp. cbn [rbind]. apply log_state_quiet. reflexivity. }
  assert (H2 : pgd_loop orc rg slv 1 x0 (pgd_init x0 tt lg) = Ok st1).
  { apply (pgd_loop_S _ _ _ _ _ _ st1); auto.
    - unfold moved. cbn [pgd_init st_x_prev st_x]. destruct x0; congruence.
    - simpl pgd_loop. rewrite Lx, Nat.eqb_refl. cbn [guard rbind].
      change (Z.of_nat (st_iteration st1) <? s_max_iter slv)%Z with false. rewrite andb_false_r. reflexivity. }
  unfold pgd_optimize. rewrite log_state_quiet by reflexivity. cbn [rbind].
  change (Z.to_nat (s_max_iter slv)) with 1%nat. rewrite H2. reflexivity.
Qed.
