(** Lemmas: fits of linear models to two problems related by a linear isometry of the coefficients. *)
From Coq Require Import Lra Permutation.
From Verif.Base Require Import Py Vec Mat.
From Verif.Model Require Import Regularizers Linear.
From Verif.Spec Require Import ProxSpec LinearSpec ColumnSpec.
From Verif.Proofs Require Import VecFacts MatFacts SolverProofs LinearProofs ColumnProofs.
Open Scope R_scope.

Lemma h_wf el a p b : wf_mat p a ->
  is_shape p p (h_matrix el {| lp_a := a; lp_b := b; lp_n := length a; lp_p := p; lp_c := eye p; lp_weights := None; lp_obs_std := None |}).
Proof.
  intros W. unfold h_matrix. cbn [lp_a lp_c lp_p]. split.
  - unfold madd. rewrite map2_length, mm_length, tr_length, mscale_length, mm_length, eye_length. apply Nat.min_id.
  - apply madd_wf; [|apply mscale_wf]; apply mm_wf; auto. apply eye_wf.
Qed.

Lemma tmv_eye p u : length u = p -> tmv p (eye p) u = u.
Proof.
  intros Hu. apply vdot_ext; [rewrite tmv_len; auto using eye_wf|]. intros d Hd.
  rewrite tmv_len in Hd by apply eye_wf. rewrite tmv_adj by (try apply eye_wf; rewrite eye_length; auto).
  rewrite mv_eye; auto.
Qed.

(** regularizers of the two problems *)
Definition reg_sim (n : nat) (phi : vec -> vec) (rg rg' : regularizer) : Prop :=
  (forall y t, length y = n -> r_prox rg' (phi y) t = rmap phi (r_prox rg y t)) /\
  (forall y t z, length y = n -> r_prox rg y t = Ok z -> length z = n) /\
  (forall x, length x = n -> r_value rg' (phi x) = r_value rg x).

Section Fit.
Variables (p : nat) (phi : vec -> vec).
Hypothesis phi_len : forall x, length x = p -> length (phi x) = p.
Hypothesis phi_add : forall x y, length x = p -> length y = p -> phi (vadd x y) = vadd (phi x) (phi y).
Hypothesis phi_sub : forall x y, length x = p -> length y = p -> phi (vsub x y) = vsub (phi x) (phi y).
Hypothesis phi_scale : forall c x, length x = p -> phi (vscale c x) = vscale c (phi x).
Hypothesis phi_neg : forall x, length x = p -> phi (vneg x) = vneg (phi x).
Hypothesis phi_dot : forall x y, length x = p -> length y = p -> vdot (phi x) (phi y) = vdot x y.
Hypothesis phi_nnz : forall x, length x = p -> nnz_count (phi x) = nnz_count x.

Variables (a a' : mat) (b b' : vec).
Hypothesis Wa : wf_mat p a.
Hypothesis Wa' : wf_mat p a'.
Hypothesis La : length a' = length a.
Hypothesis Lb : length b' = length b.
Hypothesis Hres : forall x, length b = length a -> length x = p ->
  sqnorm (vsub (mv a' (phi x)) b') = sqnorm (vsub (mv a x) b).
Hypothesis Hgram : forall x, length x = p -> tmv p a' (mv a' (phi x)) = phi (tmv p a (mv a x)).
Hypothesis Hab : length b = length a -> tmv p a' b' = phi (tmv p a b).

Notation pr := {| lp_a := a; lp_b := b; lp_n := length a; lp_p := p; lp_c := eye p; lp_weights := None; lp_obs_std := None |}.
Notation pr' := {| lp_a := a'; lp_b := b'; lp_n := length a'; lp_p := p; lp_c := eye p; lp_weights := None; lp_obs_std := None |}.

Definition lin_of (pb : linear_problem) : lin_oracle := {| lo_problem := Some pb; lo_prior := PNone |}.

Lemma phi_zeros : phi (zeros p) = zeros p.
Proof.
  assert (E : zeros p = vscale 0 (zeros p)).
  { unfold vscale, zeros. clear. induction p; simpl; [reflexivity|]. rewrite <- IHn. f_equal. ring. }
  rewrite E, phi_scale by apply zeros_length.
  pose proof (phi_len (zeros p) (zeros_length p)) as L. rewrite <- E.
  clear E. revert L. generalize (phi (zeros p)). intros u L.
  apply nth_ext_R; [rewrite vscale_length, zeros_length; auto|].
  intros k Hk. unfold vscale, zeros. rewrite nth_repeat, (nth_indep _ 0 (0 * 0)) by exact Hk.
  rewrite map_nth. ring.
Qed.

Lemma loss_map x : length x = p -> lin_loss (lin_of pr') (phi x) = lin_loss (lin_of pr) x.
Proof.
  intros Hx. unfold lin_loss, lin_of, residual. cbn [lo_problem lo_prior lp_p lp_n lp_a lp_b].
  rewrite phi_len, Hx, Nat.eqb_refl, La, Lb by auto. cbn [guard rbind].
  destruct (Nat.eqb_spec (length b) (length a)) as [E|E]; [|reflexivity]. cbn [guard rbind prior_loss].
  rewrite !norm_sq, Hres by auto. reflexivity.
Qed.
Lemma gradient_map x : length x = p -> lin_gradient (lin_of pr') (phi x) = rmap phi (lin_gradient (lin_of pr) x).
Proof.
  intros Hx. unfold lin_gradient, lin_of, residual. cbn [lo_problem lo_prior lp_p lp_n lp_a lp_b].
  rewrite phi_len, Hx, Nat.eqb_refl, La, Lb by auto. cbn [guard rbind].
  destruct (Nat.eqb_spec (length b) (length a)) as [E|E]; [|reflexivity]. cbn [guard rbind prior_gradient rmap].
  rewrite phi_len, Hx by auto. f_equal.
  rewrite !tmv_vsub by (auto; rewrite ?mv_length; congruence).
  rewrite Hgram, Hab by auto.
  rewrite phi_add, phi_sub, phi_zeros; auto using zeros_length, tmv_len.
  apply vsub_len; apply tmv_len; auto.
Qed.
Lemma gradient_len x g : length x = p -> lin_gradient (lin_of pr) x = Ok g -> length g = p.
Proof.
  intros Hx. unfold lin_gradient, lin_of. cbn [lo_problem lo_prior]. intros H.
  apply rbind_inv in H as [r [_ H]]. cbn [prior_gradient rbind] in H. apply Ok_inj in H. subst g.
  cbn [lp_p lp_a]. apply vadd_len; [apply tmv_len; auto|]. rewrite zeros_length. auto.
Qed.
Lemma aic_map x : length x = p -> lin_aic (lin_of pr') (phi x) = lin_aic (lin_of pr) x.
Proof. intros Hx. unfold lin_aic. rewrite loss_map, phi_nnz by auto. reflexivity. Qed.
Lemma bic_map x : length x = p -> lin_bic (lin_of pr') (phi x) = lin_bic (lin_of pr) x.
Proof.
  intros Hx. unfold lin_bic. rewrite loss_map, phi_nnz by auto. cbn [lin_of lo_problem lp_n]. rewrite La. reflexivity.
Qed.

(** SR3 *)
Lemma h_map el u : length u = p -> mv (h_matrix el pr') (phi u) = phi (mv (h_matrix el pr) u).
Proof.
  intros Hu. unfold h_matrix. cbn [lp_p lp_a lp_c].
  rewrite !(mv_madd p) by (try apply mscale_wf; apply mm_wf; auto using eye_wf).
  rewrite !mv_gram, !mv_mscale, !mv_mm by (auto using eye_wf; rewrite eye_length; apply eye_wf).
  rewrite !mv_eye by (rewrite ?mv_eye; auto).
  rewrite Hgram, phi_add, phi_scale; auto; [apply tmv_len; auto | rewrite vscale_length; auto].
Qed.
Lemma h_injective el (c : mat) (d : vec) u v : 0 < el -> wf_mat p c -> length u = p -> length v = p ->
  let pb := {| lp_a := c; lp_b := d; lp_n := length c; lp_p := p; lp_c := eye p; lp_weights := None; lp_obs_std := None |} in
  mv (h_matrix el pb) u = mv (h_matrix el pb) v -> u = v.
Proof.
  intros Hel W Hu Hv pb E. apply vsub_zero_eq; [congruence|].
  set (z := vsub u v). assert (Lz : length z = p) by (apply vsub_len; auto).
  assert (Ez : vdot (mv (h_matrix el pb) z) z = 0).
  { unfold z at 1. rewrite mv_vsub by congruence. rewrite E, vsub_self. apply vdot_zeros_l. }
  unfold h_matrix, pb in Ez. cbn [lp_p lp_a lp_c] in Ez.
  rewrite !(mv_madd p) in Ez by (try apply mscale_wf; apply mm_wf; auto using eye_wf).
  rewrite !mv_gram, !mv_mscale, !mv_mm in Ez by (auto using eye_wf; rewrite eye_length; apply eye_wf).
  rewrite !mv_eye in Ez by (rewrite ?mv_eye; auto).
  rewrite vdot_vadd_l, vdot_vscale_l in Ez by (rewrite vscale_length, tmv_len; auto).
  rewrite tmv_adj in Ez by (auto; apply mv_length).
  fold (sqnorm (mv c z)) in Ez. fold (sqnorm z) in Ez.
  pose proof (sqnorm_nonneg (mv c z)). pose proof (sqnorm_nonneg z).
  assert (el * sqnorm z = 0) by nra. destruct (Rmult_integral _ _ H1); lra.
Qed.

Section SR3.
Variables (el : R) (hi hi' : mat).
Hypothesis Hel : 0 < el.
Hypothesis Eb : length b = length a.
Hypothesis Sh : is_shape p p hi.
Hypothesis Sh' : is_shape p p hi'.
Hypothesis Hinv : forall v, length v = p -> mv (h_matrix el pr) (mv hi v) = v.
Hypothesis Hinv' : forall v, length v = p -> mv (h_matrix el pr') (mv hi' v) = v.

Lemma wf_pr : wf_linear pr.
Proof. split; [split; [reflexivity|exact Wa]|]. split; [exact Eb|apply eye_shape]. Qed.
Lemma wf_pr' : wf_linear pr'.
Proof. split; [split; [reflexivity|exact Wa']|]. split; [cbn; congruence|apply eye_shape]. Qed.
Lemma mvh v : length (mv hi v) = p. Proof. rewrite mv_length. apply Sh. Qed.
Lemma mvh' v : length (mv hi' v) = p. Proof. rewrite mv_length. apply Sh'. Qed.

Lemma hi_map v : length v = p -> mv hi' (phi v) = phi (mv hi v).
Proof.
  intros Hv. apply (h_injective el a' b'); auto using mvh, mvh'.
  rewrite Hinv' by auto. rewrite h_map by apply mvh. rewrite Hinv; auto.
Qed.
Lemma rhs_map w : length w = p ->
  vadd (tmv p a' b') (vscale el (tmv p (eye p) (phi w))) = phi (vadd (tmv p a b) (vscale el (tmv p (eye p) w))).
Proof.
  intros Hw. rewrite !tmv_eye by auto. rewrite phi_add, phi_scale, Hab; auto; [apply tmv_len; auto|].
  rewrite vscale_length. auto.
Qed.
Lemma xstar_map w : length w = p -> xstar pr' el hi' (phi w) = phi (xstar pr el hi w).
Proof.
  intros Hw. unfold xstar. cbn [lp_p lp_a lp_b lp_c]. rewrite rhs_map by auto.
  apply hi_map. apply vadd_len; [apply tmv_len; auto|]. rewrite vscale_length. apply tmv_len, eye_wf.
Qed.
Lemma wres_map w : length w = p -> wres pr' el hi' (phi w) = phi (wres pr el hi w).
Proof.
  intros Hw. unfold wres. cbn [lp_c]. rewrite xstar_map by auto.
  assert (L : length (xstar pr el hi w) = p) by apply mvh.
  rewrite !mv_eye by auto. rewrite phi_sub; auto.
Qed.

Variables (o o' : sr3_oracle).
Hypothesis Ho1 : so_practical o = false.
Hypothesis Ho2 : so_problem o = Some pr.
Hypothesis Ho3 : so_data o = Some {| sd_h_inv := hi; sd_ab := tmv p a b;
                   sd_fg := Some (f_matrix el pr hi, mv (g_matrix el pr hi) b) |}.
Hypothesis Ho1' : so_practical o' = false.
Hypothesis Ho2' : so_problem o' = Some pr'.
Hypothesis Ho3' : so_data o' = Some {| sd_h_inv := hi'; sd_ab := tmv p a' b';
                   sd_fg := Some (f_matrix el pr' hi', mv (g_matrix el pr' hi') b') |}.
Hypothesis Ho4 : so_lam o = el.
Hypothesis Ho4' : so_lam o' = el.

Lemma sr3_value_at w : length w = p -> sr3_value o w = Ok (relaxed_loss el pr (xstar pr el hi w) w).
Proof.
  intros Hw. destruct (sr3_eval o pr el hi w Ho1 Ho2 Ho3 Hw) as [V _]. rewrite V. f_equal.
  apply value_is_relaxed; auto using wf_pr, eye_symmetric; lra.
Qed.
Lemma sr3_value_at' w : length w = p -> sr3_value o' w = Ok (relaxed_loss el pr' (xstar pr' el hi' w) w).
Proof.
  intros Hw. destruct (sr3_eval o' pr' el hi' w Ho1' Ho2' Ho3' Hw) as [V _]. rewrite V. f_equal.
  apply value_is_relaxed; auto using wf_pr', eye_symmetric; lra.
Qed.
Lemma sr3_gradient_at w : length w = p -> sr3_gradient o w = Ok (vscale el (wres pr el hi w)).
Proof.
  intros Hw. destruct (sr3_eval o pr el hi w Ho1 Ho2 Ho3 Hw) as [_ V]. rewrite V. f_equal.
  apply gradient_is; auto using wf_pr; [apply eye_symmetric|lra].
Qed.
Lemma sr3_gradient_at' w : length w = p -> sr3_gradient o' w = Ok (vscale el (wres pr' el hi' w)).
Proof.
  intros Hw. destruct (sr3_eval o' pr' el hi' w Ho1' Ho2' Ho3' Hw) as [_ V]. rewrite V. f_equal.
  apply gradient_is; auto using wf_pr'; [apply eye_symmetric|lra].
Qed.
Lemma wres_len w : length w = p -> length (wres pr el hi w) = p.
Proof. intros Hw. unfold wres. cbn [lp_c]. apply vsub_len; auto. rewrite mv_length, eye_length. reflexivity. Qed.

Lemma sr3_value_map w : length w = p -> sr3_value o' (phi w) = sr3_value o w.
Proof.
  intros Hw. rewrite sr3_value_at, sr3_value_at' by auto. f_equal. rewrite xstar_map by auto.
  assert (L : length (xstar pr el hi w) = p) by apply mvh.
  unfold relaxed_loss, least_squares. cbn [lp_a lp_b lp_c]. rewrite Hres by auto.
  rewrite !mv_eye by auto. rewrite <- phi_sub by auto. unfold sqnorm at 2 4.
  rewrite phi_dot by (apply vsub_len; auto). reflexivity.
Qed.
Lemma sr3_gradient_map w : length w = p -> sr3_gradient o' (phi w) = rmap phi (sr3_gradient o w).
Proof.
  intros Hw. rewrite sr3_gradient_at, sr3_gradient_at' by auto. cbn [rmap]. f_equal.
  rewrite wres_map, phi_scale by (auto using wres_len). reflexivity.
Qed.

Lemma practical_map rg rg' tol mi : reg_sim p phi rg rg' -> forall fuel (x : vec) (xp : option vec) it d d',
  so_data o = Some d -> so_data o' = Some d' ->
  length x = p -> (forall v, xp = Some v -> length v = p) ->
  practical_loop fuel o' pr' d' rg' tol mi (phi x) (option_map phi xp) it
  = rmap (fun r => (phi (fst r), snd r)) (practical_loop fuel o pr d rg tol mi x xp it).
Proof.
  intros [H1 [H2 H3]] fuel x xp it d d' Ed Ed'. rewrite Ho3 in Ed. rewrite Ho3' in Ed'.
  assert (D : sd_h_inv d = hi /\ sd_ab d = tmv p a b) by (inversion Ed; split; reflexivity).
  assert (D' : sd_h_inv d' = hi' /\ sd_ab d' = tmv p a' b') by (inversion Ed'; split; reflexivity).
  destruct D as [D1 D2], D' as [D1' D2']. clear Ed Ed'. revert x xp it.
  induction fuel as [|fuel IH]; intros x xp it Hx Hp; simpl;
    pose proof (phi_moved p phi phi_len phi_sub phi_dot tol x xp Hx Hp) as EM; rewrite EM; clear EM;
    (destruct (moved tol x xp) as [m|e]; [|reflexivity]); cbn [rbind];
    (destruct (m && _)%bool; [|reflexivity]); [reflexivity|].
  rewrite phi_len, Hx, Nat.eqb_refl by auto. cbn [guard rbind].
  assert (LR : length (vadd (tmv p a b) (vscale el (tmv p (eye p) x))) = p).
  { apply vadd_len; [apply tmv_len; auto|]. rewrite vscale_length. apply tmv_len, eye_wf. }
  rewrite D1', D2', Ho4', rhs_map, hi_map by auto.
  rewrite D1, D2, Ho4, H1 by apply mvh.
  match goal with |- context [rmap phi ?m] => destruct m as [x'|e] eqn:Ep end; [|reflexivity].
  cbn [rmap rbind]. apply (IH x' (Some x)).
  - apply (H2 _ _ _ (mvh _) Ep).
  - intros v Hv. inversion Hv; subst; auto.
Qed.
End SR3.

(** the whole fit *)
Variables (argsort : vec -> list nat) (inv : nat -> mat -> res mat) (m : linear_model).
Variables (x0 x0' w w' : option vec) (warm : bool).
Definition start_of (x0 : option vec) : vec := if warm then match x0 with Some x => x | None => ones p end else ones p.
Definition weights_of (w : option vec) : vec := match w with Some w => w | None => ones p end.
Hypothesis Hstart : start_of x0' = phi (start_of x0).
Hypothesis Lstart : length (start_of x0) = p.
Hypothesis Hreg : match instantiate (lm_reg m) (weights_of w) None with
  | Ok r => exists r', instantiate (lm_reg m) (weights_of w') None = Ok r' /\
              reg_sim p phi (as_regularizer argsort r) (as_regularizer argsort r')
  | Err e => instantiate (lm_reg m) (weights_of w') None = Err e end.
Hypothesis Hsr3 : match lm_el m with None => True | Some el =>
  0 < el /\ inv_ok inv /\
  ((exists hi hi', inv p (h_matrix el pr) = Ok hi /\ inv p (h_matrix el pr') = Ok hi') \/
   (exists e, inv p (h_matrix el pr) = Err e /\ inv p (h_matrix el pr') = Err e)) end.

(** what follows the optimisation *)
Definition finish (aic bic : vec -> res R) (r : res (vec * logger * unit)) : res (vec * logger) :=
  let! (x, lg1, _) := r in
  let! lg2 := (if has_key "aic" (lg_keys lg1)
               then let! v := aic x in add lg1 "aic" (LAtom (LNum v)) else Ok lg1) in
  let! lg3 := (if has_key "bic" (lg_keys lg2)
               then let! v := bic x in add lg2 "bic" (LAtom (LNum v)) else Ok lg2) in
  Ok (x, lg3).
Lemma finish_map aic bic aic' bic' r r' :
  (forall x, length x = p -> aic' (phi x) = aic x) -> (forall x, length x = p -> bic' (phi x) = bic x) ->
  r' = rmap (run_map phi unit unit (fun u => u)) r ->
  (forall x lg u, r = Ok (x, lg, u) -> length x = p) ->
  finish aic' bic' r' = rmap (fit_map phi) (finish aic bic r).
Proof.
  intros Ha Hb E L. subst r'. destruct r as [[[x lg] u]|e]; [|reflexivity].
  specialize (L x lg u eq_refl). unfold finish. cbn [rmap rbind run_map fst snd log_map lg_keys].
  destruct (has_key "aic" (lg_keys lg)).
  - rewrite Ha by auto. destruct (aic x) as [v|e]; [|reflexivity]. cbn [rbind].
    pose proof (log_map_add phi lg "aic" (LAtom (LNum v))) as A. cbn [entry_map value_map] in A. 
    change {| lg_kind := lg_kind lg; lg_keys := lg_keys lg; lg_dict := snd_map (entry_map phi) (lg_dict lg) |}
      with (log_map phi lg).
    rewrite A. destruct (add lg "aic" _) as [lg2|e]; [|reflexivity]. cbn [rmap rbind log_map lg_keys].
    destruct (has_key "bic" (lg_keys lg2)); [|reflexivity].
    rewrite Hb by auto. destruct (bic x) as [v2|e]; [|reflexivity]. cbn [rbind].
    pose proof (log_map_add phi lg2 "bic" (LAtom (LNum v2))) as A2. cbn [entry_map value_map] in A2.
    change {| lg_kind := lg_kind lg2; lg_keys := lg_keys lg2; lg_dict := snd_map (entry_map phi) (lg_dict lg2) |}
      with (log_map phi lg2).
    rewrite A2. destruct (add lg2 "bic" _); reflexivity.
  - cbn [rbind log_map lg_keys]. destruct (has_key "bic" (lg_keys lg)); [|reflexivity].
    rewrite Hb by auto. destruct (bic x) as [v2|e]; [|reflexivity]. cbn [rbind].
    pose proof (log_map_add phi lg "bic" (LAtom (LNum v2))) as A2. cbn [entry_map value_map] in A2.
    change {| lg_kind := lg_kind lg; lg_keys := lg_keys lg; lg_dict := snd_map (entry_map phi) (lg_dict lg) |}
      with (log_map phi lg).
    rewrite A2. destruct (add lg "bic" _); reflexivity.
Qed.

Lemma practical_len (o : sr3_oracle) (pb : linear_problem) (d : sr3_data) rg rg' tol mi : reg_sim p phi rg rg' ->
  length (sd_h_inv d) = p ->
  forall fuel (x : vec) (xp : option vec) it r, length x = p -> practical_loop fuel o pb d rg tol mi x xp it = Ok r -> length (fst r) = p.
Proof.
  intros [_ [H2 _]] Ld. induction fuel as [|fuel IH]; intros x xp it r Hx H; simpl in H;
    apply rbind_inv in H as [mv0 [_ H]]; (destruct (mv0 && _)%bool; [|apply Ok_inj in H; subst r; exact Hx]);
    [discriminate|].
  apply rbind_inv in H as [u [_ H]]. apply rbind_inv in H as [x' [Hx' H]].
  refine (IH _ _ _ _ _ H). refine (H2 _ _ _ _ Hx'). rewrite mv_length. exact Ld.
Qed.

Theorem fit_map_lemma :
  linear_fit argsort inv m a' p b' x0' warm w' = rmap (fit_map phi) (linear_fit argsort inv m a p b x0 warm w).
Proof.
  unfold linear_fit, linear_from_x_y, mk_linear_problem. cbn [rbind]. unfold linear_fit_problem. cbn [lp_p].
  fold (weights_of w) (weights_of w') (start_of x0) (start_of x0').
  destruct (lm_el m) as [el|] eqn:Eel.
  - destruct Hsr3 as [Hel [Hio Hi]]. destruct (lm_prior m); [|reflexivity]. cbn [mk_sr3 negb guard rbind].
    unfold sr3_instantiate. cbn [so_lam so_practical lp_p lp_b lp_n lp_a].
    destruct Hi as [[hi [hi' [Hi Hi']]]|[e [Hi Hi']]]; rewrite Hi, Hi'; [|reflexivity]. cbn [rbind].
    replace (length b' =? length a')%nat with (length b =? length a)%nat by (rewrite La, Lb; reflexivity).
    destruct (Nat.eqb_spec (length b) (length a)) as [Eb|Eb]; [|reflexivity]. cbn [guard rbind].
    destruct (Hio _ _ _ (h_wf el a p b Wa) Hi) as [Sh Hinv].
    destruct (Hio _ _ _ (h_wf el a' p b' Wa') Hi') as [Sh' Hinv'].
    set (o := {| so_lam := el; so_practical := false; so_problem := Some pr; so_data := Some
      {| sd_h_inv := hi; sd_ab := tmv p a b; sd_fg := Some (f_matrix el pr hi, mv (g_matrix el pr hi) b) |} |}).
    set (o' := {| so_lam := el; so_practical := false; so_problem := Some pr'; so_data := Some
      {| sd_h_inv := hi'; sd_ab := tmv p a' b'; sd_fg := Some (f_matrix el pr' hi', mv (g_matrix el pr' hi') b') |} |}).
    pose proof (sr3_value_map el hi hi' Hel Eb Sh Sh' Hinv Hinv' o o' eq_refl eq_refl eq_refl eq_refl eq_refl eq_refl) as V.
    pose proof (sr3_gradient_map el hi hi' Hel Eb Sh Sh' Hinv Hinv' o o' eq_refl eq_refl eq_refl eq_refl eq_refl eq_refl) as G.
    assert (G1 : forall (s : unit) x, length x = p -> o_value (sr3_as_oracle o') s (phi x)
      = rmap (on_snd _ _ (fun u => u) (fun v => v)) (o_value (sr3_as_oracle o) s x)).
    { intros s x Hx. cbn [sr3_as_oracle o_value]. rewrite V by auto. destruct (sr3_value o x); reflexivity. }
    assert (G2 : forall (s : unit) x, length x = p -> o_grad (sr3_as_oracle o') s (phi x)
      = rmap (on_snd _ _ (fun u => u) phi) (o_grad (sr3_as_oracle o) s x)).
    { intros s x Hx. cbn [sr3_as_oracle o_grad]. rewrite G by auto. destruct (sr3_gradient o x); reflexivity. }
    assert (G3 : forall (s : unit) x g s', length x = p -> o_grad (sr3_as_oracle o) s x = Ok (g, s') -> length g = p).
    { intros s x g s' Hx H. cbn [sr3_as_oracle o_grad] in H. apply rbind_inv in H as [g0 [H0 H]].
      apply Ok_inj in H. replace g with g0 by congruence.
      rewrite (sr3_gradient_at el hi Hel Eb Sh Hinv o eq_refl eq_refl eq_refl x Hx) in H0. apply Ok_inj in H0.
      rewrite <- H0, vscale_length. apply wres_len; auto. }
    destruct (instantiate (lm_reg m) (weights_of w) None) as [r|e]; [|rewrite Hreg; reflexivity].
    destruct Hreg as [r' [Hr Hsim]].
    pose proof (fun d d' E E' => practical_map el hi hi' Hel Eb Sh Sh' Hinv Hinv' o o' eq_refl eq_refl eq_refl eq_refl eq_refl eq_refl
      _ _ (lm_tol m) (lm_max_iter m) Hsim (Z.to_nat (lm_max_iter m)) (start_of x0) (@None vec) 0%nat d d' E E' Lstart
      (fun v (K : @None vec = Some v) => False_ind _ (eq_ind (@None vec) (fun z => match z with None => True | _ => False end) I _ K))) as P.
    cbn [option_map] in P. rewrite Hr. cbn [rbind].
    rewrite (log_map_new phi (Some (lm_keys m))) at 1.
    destruct (mk_logger (Some (lm_keys m))) as [lg|e]; [|reflexivity]. cbn [rmap rbind].
    apply finish_map.
    + apply aic_map.
    + apply bic_map.
    + rewrite Hstart. destruct (lm_practical m).
      * set (d := {| sd_h_inv := hi; sd_ab := tmv p a b; sd_fg := Some (f_matrix el pr hi, mv (g_matrix el pr hi) b) |}).
        set (d' := {| sd_h_inv := hi'; sd_ab := tmv p a' b'; sd_fg := Some (f_matrix el pr' hi', mv (g_matrix el pr' hi') b') |}).
        unfold fake_pgd_optimize, sr3_find, sr3_find_count.
        change (so_lam o) with el. change (so_lam o') with el.
        change (so_problem o) with (Some pr). change (so_problem o') with (Some pr').
        change (so_data o) with (Some d). change (so_data o') with (Some d'). cbv beta iota.
        destruct (guard (nonzero el) ZeroDivisionError); [|reflexivity]. cbn [rbind].
        specialize (P d d' eq_refl eq_refl). rewrite P. clear P.
        pose proof (practical_len o pr d _ _ (lm_tol m) (lm_max_iter m) Hsim (proj1 Sh)
            (Z.to_nat (lm_max_iter m)) (start_of x0) None 0%nat) as PL.
        destruct (practical_loop (Z.to_nat (lm_max_iter m)) o pr d (as_regularizer argsort r) (lm_tol m) (lm_max_iter m)
          (start_of x0) None 0%nat) as [[x it']|e]; [|reflexivity].
        specialize (PL _ Lstart eq_refl). cbn [fst] in PL. cbn [rmap rbind fst snd].
        rewrite G1 by auto. destruct Hsim as [_ [_ S3]]. rewrite S3 by auto.
        cbn [log_map lg_keys].
        change {| lg_kind := lg_kind lg; lg_keys := lg_keys lg; lg_dict := snd_map (entry_map phi) (lg_dict lg) |}
          with (log_map phi lg).
        assert (Q : forall lg0 (s : unit), (let! lg3 := add (log_map phi lg0) "converged" (LAtom (LBool true)) in
            Ok (phi x, lg3, s)) = rmap (run_map phi unit unit (fun u => u))
            (let! lg3 := add lg0 "converged" (LAtom (LBool true)) in Ok (x, lg3, s))).
        { intros lg0 s. pose proof (log_map_add phi lg0 "converged" (LAtom (LBool true))) as A.
          cbn [entry_map value_map] in A. rewrite A. destruct (add lg0 _ _); reflexivity. }
        destruct (has_key "loss" (lg_keys lg)); [|apply Q].
        destruct (o_value (sr3_as_oracle o) tt x) as [[f s]|e]; [|reflexivity]. cbn [rmap rbind on_snd fst snd].
        destruct (r_value _ x) as [v|e]; [|reflexivity]. cbn [rbind].
        pose proof (log_map_add phi lg "loss" (LAtom (lnum_e (eadd (Fin f) v)))) as A.
        replace (entry_map phi (LAtom (lnum_e (eadd (Fin f) v)))) with (LAtom (lnum_e (eadd (Fin f) v))) in A
          by (destruct v; reflexivity).
        rewrite A. destruct (add lg "loss" _) as [lg1|e]; [|reflexivity]. cbn [rmap rbind]. apply Q.
      * destruct Hsim as [S1 [S2 S3]].
        apply (optimize_map p phi phi_len phi_add phi_sub phi_scale phi_neg phi_dot unit unit (fun u => u)); auto.
    + intros x lg' u H. destruct (lm_practical m).
      * unfold fake_pgd_optimize, sr3_find, sr3_find_count in H. cbn [so_lam so_problem so_data o] in H.
        apply rbind_inv in H as [[[x1 lg1] s1] [H1 H]]. apply rbind_inv in H as [[lg2 s2] [_ H]].
        apply rbind_inv in H as [lg3 [_ H]]. apply Ok_inj in H. replace x with x1 by congruence.
        apply rbind_inv in H1 as [x2 [H1 H2]]. apply Ok_inj in H2. replace x1 with x2 by congruence.
        apply rbind_inv in H1 as [[x3 it] [H1 H3]]. apply Ok_inj in H3. replace x2 with x3 by congruence.
        apply rbind_inv in H1 as [u0 [_ H1]].
        match type of H1 with practical_loop _ _ _ ?d _ _ _ _ _ _ = _ =>
          apply (practical_len o pr d _ _ (lm_tol m) (lm_max_iter m) Hsim (proj1 Sh) _ _ _ _ _ Lstart H1) end.
      * destruct Hsim as [S1 [S2 S3]].
        refine (optimize_len p phi phi_len phi_add phi_sub phi_scale phi_neg phi_dot unit unit (fun u => u)
          _ (sr3_as_oracle o') _ _ _ G1 G2 G3 S1 S2 S3 _ _ _ _ _ _ _ H); auto.
  - destruct (lm_prior m); [|reflexivity]. cbn [lin_instantiate lo_prior rbind].
    destruct (instantiate (lm_reg m) (weights_of w) None) as [r|e]; [|rewrite Hreg; reflexivity].
    destruct Hreg as [r' [Hr [S1 [S2 S3]]]]. rewrite Hr. cbn [rbind].
    rewrite (log_map_new phi (Some (lm_keys m))) at 1.
    destruct (mk_logger (Some (lm_keys m))) as [lg|e]; [|reflexivity]. cbn [rmap rbind].
    assert (G1 : forall (s : unit) x, length x = p -> o_value (lin_as_oracle (lin_of pr')) s (phi x)
      = rmap (on_snd _ _ (fun u => u) (fun v => v)) (o_value (lin_as_oracle (lin_of pr)) s x)).
    { intros s x Hx. cbn [lin_as_oracle o_value]. rewrite loss_map by auto. destruct (lin_loss _ x); reflexivity. }
    assert (G2 : forall (s : unit) x, length x = p -> o_grad (lin_as_oracle (lin_of pr')) s (phi x)
      = rmap (on_snd _ _ (fun u => u) phi) (o_grad (lin_as_oracle (lin_of pr)) s x)).
    { intros s x Hx. cbn [lin_as_oracle o_grad]. rewrite gradient_map by auto. destruct (lin_gradient _ x); reflexivity. }
    assert (G3 : forall (s : unit) x g s', length x = p -> o_grad (lin_as_oracle (lin_of pr)) s x = Ok (g, s') -> length g = p).
    { intros s x g s' Hx H. cbn [lin_as_oracle o_grad] in H. apply rbind_inv in H as [g0 [H0 H]].
      apply Ok_inj in H. replace g with g0 by congruence. apply (gradient_len x); auto. }
    apply finish_map.
    + apply aic_map.
    + apply bic_map.
    + rewrite Hstart. 
      apply (optimize_map p phi phi_len phi_add phi_sub phi_scale phi_neg phi_dot unit unit (fun u => u)); auto.
    + intros x lg' u H.
      refine (optimize_len p phi phi_len phi_add phi_sub phi_scale phi_neg phi_dot unit unit (fun u => u)
        _ (lin_as_oracle (lin_of pr')) _ _ _ G1 G2 G3 S1 S2 S3 _ _ _ _ _ _ _ H); auto.
Qed.
End Fit.
