(** Facts about the Gaussian priors of mixed models. *)
From Verif.Base Require Import Py Vec Mat.
From Verif.Model Require Import Logger Priors LmeProblem Solvers LmeInner LmeFit.
From Verif.Spec Require Import LinearSpec PriorSpec.
From Verif.Proofs Require Import VecFacts SolverProofs LinearProofs LinearMain LmeProblemProofs.
From Coq Require Import Lra Lia.
Open Scope R_scope.

Lemma gauss_column_weight params c m s w : gauss_column params c = Ok (m, s, w) -> 0 <= w.
Proof.
  unfold gauss_column. destruct (match lookup c params with Some ms => ms | None => (0, 0) end) as [m0 s0].
  intros H. apply rbind_inv in H as [u [_ H]]. inversion H; subst. destruct (rltb 0 s0); lra.
Qed.
Lemma gauss_instantiate_full g cols g' : gauss_instantiate g cols = Ok g' ->
  exists m s w, gp_inst g' = Some (m, s, w) /\ length m = length cols /\ length s = length cols /\ length w = length cols /\
    Forall (fun t => 0 < t) s /\ Forall (fun t => 0 <= t) w.
Proof.
  intros H. destruct (gauss_instantiate_ready _ _ _ H) as [m [s [w [E [A [B [C D]]]]]]].
  exists m, s, w. do 5 (split; [auto|]). unfold gauss_instantiate in H. apply rbind_inv in H as [u [_ H]].
  apply rbind_inv in H as [l [Hl H]]. inversion H; subst. cbn [gp_inst] in E. inversion E; subst. clear - Hl.
  apply sequence_Forall2 in Hl. rewrite Forall_map.
  induction Hl as [|c [[m s] w] cs r Hc _ IH]; constructor; auto. simpl. eapply gauss_column_weight; eauto.
Qed.

Lemma names_checked fe cols : forallb (fun kv : string * (R * R) => has_key (fst kv) cols) fe = true <->
  Forall (fun kv => In (fst kv) cols) fe.
Proof.
  rewrite forallb_forall, Forall_forall. split; intros H kv Hin; [apply has_key_In|apply has_key_In]; auto.
Qed.

Lemma lme_instantiate_ok fe re fcols rcols : fcols <> [] -> rcols <> [] -> accepted fe fcols -> accepted re rcols ->
  exists b r, gauss_instantiate (mk_gauss fe) fcols = Ok b /\ gauss_instantiate (mk_gauss re) rcols = Ok r /\
    gauss_lme_instantiate (mk_gauss_lme fe re) (Some fcols) (Some rcols)
    = Ok {| gl_fe := Some fe; gl_re := Some re; gl_beta := b; gl_gamma := r |} /\
    (forall x, length x = length fcols -> gauss_loss b x = Ok (gauss_energy_coded fe fcols x)) /\
    (forall x, length x = length rcols -> gauss_loss r x = Ok (gauss_energy_coded re rcols x)).
Proof.
  intros Hf Hr Af Ar.
  destruct (proj1 (gauss_prior_partial_lemma fe fcols) Af) as [b [Eb Lb]].
  destruct (proj1 (gauss_prior_partial_lemma re rcols) Ar) as [r [Er Lr]].
  exists b, r. do 2 (split; [auto|]). split; [|auto].
  unfold gauss_lme_instantiate. destruct fcols as [|c f]; [congruence|]. destruct rcols as [|d r']; [congruence|].
  cbn [mk_gauss_lme gl_fe gl_re gl_beta gl_gamma]. rewrite (proj2 (names_checked fe (c :: f)) (proj1 Af)).
  cbn [guard rbind]. rewrite Eb. cbn [rbind]. rewrite Er. reflexivity.
Qed.
Lemma lme_instantiate_err fe re fcols rcols :
  ~ (fcols <> [] /\ rcols <> [] /\ accepted fe fcols /\ accepted re rcols) ->
  gauss_lme_instantiate (mk_gauss_lme fe re) (Some fcols) (Some rcols) = Err AssertionError.
Proof.
  intros N. unfold gauss_lme_instantiate. destruct fcols as [|c f]; [reflexivity|]. destruct rcols as [|d r]; [reflexivity|].
  cbn [mk_gauss_lme gl_fe gl_re gl_beta gl_gamma].
  destruct (forallb _ fe) eqn:F; [|reflexivity]. cbn [guard rbind].
  destruct (gauss_instantiate (mk_gauss fe) (c :: f)) as [b|e] eqn:Eb; cbn [rbind].
  - destruct (gauss_instantiate (mk_gauss re) (d :: r)) as [g|e] eqn:Er; cbn [rbind].
    + exfalso. apply N. split; [discriminate|]. split; [discriminate|].
      split; apply Classical_Prop.NNPP; intros M; fold (accepted) in M.
      * pose proof (proj2 (gauss_prior_partial_lemma fe (c :: f)) M). congruence.
      * pose proof (proj2 (gauss_prior_partial_lemma re (d :: r)) M). congruence.
    + f_equal. destruct (Classical_Prop.classic (accepted re (d :: r))) as [A|A].
      * destruct (proj1 (gauss_prior_partial_lemma _ _) A) as [g [E _]]. congruence.
      * pose proof (proj2 (gauss_prior_partial_lemma re (d :: r)) A). congruence.
  - f_equal. destruct (Classical_Prop.classic (accepted fe (c :: f))) as [A|A].
    * destruct (proj1 (gauss_prior_partial_lemma _ _) A) as [g [E _]]. congruence.
    * pose proof (proj2 (gauss_prior_partial_lemma fe (c :: f)) A). congruence.
Qed.

(** instantiated by anything *)
Lemma lme_instantiate_inv g0 fcols rcols g : gauss_lme_instantiate g0 (Some fcols) (Some rcols) = Ok g ->
  exists b r, gauss_instantiate (gl_beta g0) fcols = Ok b /\ gauss_instantiate (gl_gamma g0) rcols = Ok r /\
    gl_beta g = b /\ gl_gamma g = r.
Proof.
  unfold gauss_lme_instantiate. destruct fcols as [|c f]; [discriminate|]. destruct rcols as [|d r]; [discriminate|].
  destruct (gl_fe g0); [|discriminate]. intros H. apply rbind_inv in H as [u [_ H]].
  apply rbind_inv in H as [b [Eb H]]. apply rbind_inv in H as [r' [Er H]]. apply Ok_inj in H. subst g. exists b, r'. auto.
Qed.

(** entries *)
Lemma nth_vmul x y i : length x = length y -> nth i (vmul x y) 0 = nth i x 0 * nth i y 0.
Proof.
  revert y i. induction x as [|a x IH]; intros [|b y] [|i] H; try discriminate; simpl; try ring.
  apply IH. auto.
Qed.
Lemma nth_vsub x y i : length x = length y -> nth i (vsub x y) 0 = nth i x 0 - nth i y 0.
Proof.
  revert y i. induction x as [|a x IH]; intros [|b y] [|i] H; try discriminate; simpl; try ring.
  apply IH. auto.
Qed.
Lemma nth_map_lt (f : R -> R) x i : (i < length x)%nat -> nth i (map f x) 0 = f (nth i x 0).
Proof. intros H. rewrite (nth_indep _ 0 (f 0)) by (rewrite map_length; auto). apply map_nth. Qed.
Lemma nth_mapi_from {A B} (f : nat -> A -> B) x d e : forall k i, (i < length x)%nat ->
  nth i (mapi_from k f x) e = f (k + i)%nat (nth i x d).
Proof.
  induction x as [|a x IH]; intros k [|i] H; simpl in *; try lia; [f_equal; lia|].
  rewrite IH by lia. f_equal. lia.
Qed.
Lemma nth_diag v i j : (i < length v)%nat -> (j < length v)%nat ->
  nth j (nth i (diag v) []) 0 = if (i =? j)%nat then nth i v 0 else 0.
Proof.
  intros Hi Hj. unfold diag, mapi. rewrite (nth_mapi_from _ v 0) by auto. simpl. unfold vscale, unit_row.
  rewrite map_map. rewrite (nth_indep _ 0 (nth i v 0 * (if (i =? 0)%nat then 1 else 0))) by (rewrite map_length, seq_length; auto).
  rewrite (map_nth (fun x => nth i v 0 * (if (i =? x)%nat then 1 else 0)) (seq 0 (length v)) 0%nat j).
  rewrite seq_nth by auto. simpl. destruct (i =? j)%nat; ring.
Qed.

(** the names that from_x_y attaches: not the intercept *)
Lemma names_length columns idx l : names_of columns idx = Ok (Some l) -> length l = length idx.
Proof.
  unfold names_of. destruct columns as [[|c cs]|]; try discriminate. intros H. apply rbind_inv in H as [l' [E H]].
  apply Ok_inj in H. inversion H; subst. apply sequence_length in E. rewrite map_length in E. auto.
Qed.
Lemma table_names x0 y columns labels0 ff fr mf mr pr fc rc : from_x_y x0 y columns labels0 ff fr mf mr = Ok pr ->
  pr_fe_columns pr = Some fc -> pr_re_columns pr = Some rc ->
  num_fixed pr = (length fc + b2n ff)%nat /\ num_random pr = (length rc + b2n fr)%nat.
Proof.
  intros H Hf Hr. destruct (from_x_y_inv _ _ _ _ _ _ _ _ _ H)
    as [g [v [gl [fec [rec [wf [wr [_ [_ [_ [_ [_ [_ [_ [_ [_ [Nf [Nr [_ ->]]]]]]]]]]]]]]]]]]].
  cbn [built pr_fe_columns pr_re_columns] in Hf, Hr. subst fec rec.
  apply names_length in Nf, Nr. rewrite where_length in Nf, Nr.
  unfold num_fixed, num_random. cbn [built pr_labels pr_intercept]. rewrite <- Nf, <- Nr.
  destruct ff, fr; cbn; auto.
Qed.
