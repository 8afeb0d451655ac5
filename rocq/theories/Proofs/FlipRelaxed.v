(** Fits of a relaxed mixed model whose oracle respects signs of the features. *)
From Coq Require Import Lra Lia.
From Verif.Base Require Import Py Vec Mat.
From Verif.Model Require Import LmeProblem Regularizers Solvers LmeInner LmeTrace LmeFit.
From Verif.Spec Require Import ColumnSpec InnerSpec FlipSpec.
From Verif.Proofs Require Import VecFacts MatFacts SolverProofs LinearProofs ColumnProofs ColumnFit ColumnCases FeatureFit FlipFit FlipInner.
Open Scope R_scope.

(** ** logs *)
Lemma log_keys_lookup params params' : forall ks d, (forall k, In k ks -> lookup k params = lookup k params') ->
  log_keys ks params d = log_keys ks params' d.
Proof.
  induction ks as [|k ks IH]; intros d H; [reflexivity|]. cbn [log_keys]. rewrite (H k (or_introl eq_refl)).
  assert (H' : forall k, In k ks -> lookup k params = lookup k params') by (intros; apply H; right; auto).
  destruct (lookup k d) as [[l|v]|]; auto. destruct (lookup k params'); auto.
Qed.
Lemma log_some f lg params params' :
  (forall k, In k (lg_keys lg) -> lookup k params' = option_map (value_map f) (lookup k params)) ->
  log (log_map f lg) params' = rmap (log_map f) (log lg params).
Proof.
  intros H. rewrite <- log_map_log. unfold log. cbn [log_map lg_keys lg_dict lg_kind].
  rewrite (log_keys_lookup params' (snd_map (value_map f) params)); [reflexivity|].
  intros k Hk. rewrite lookup_snd. auto.
Qed.
Lemma value_map_id v : value_map (fun x => x) v = v.
Proof. destruct v; reflexivity. Qed.
Lemma log_map_id lg : log_map (fun x => x) lg = lg.
Proof.
  destruct lg as [kd ks d]. unfold log_map. cbn [lg_kind lg_keys lg_dict]. f_equal.
  unfold snd_map. rewrite (map_ext _ (fun kv => kv)); [apply map_id|]. intros [k o]. cbn [fst snd]. f_equal.
  destruct o as [l|v]; cbn [entry_map].
  - f_equal. rewrite (map_ext _ (fun v => v)); [apply map_id|apply value_map_id].
  - f_equal. apply value_map_id.
Qed.
Definition quiet (lg : logger) : Prop := forall k, In k (lg_keys lg) -> ~ In k coefficient_locals.
Lemma add_quiet lg k v lg' : quiet lg -> ~ In k coefficient_locals -> add lg k v = Ok lg' -> quiet lg'.
Proof.
  intros Q Hk H. unfold add in H. destruct (has_key k (lg_keys lg)); [apply Ok_inj in H; rewrite <- H; exact Q|].
  destruct (lg_kind lg); try discriminate. apply Ok_inj in H. rewrite <- H. intros a Ha. cbn [lg_keys] in Ha.
  apply in_app_or in Ha as [Ha|[<-|[]]]; auto.
Qed.
Lemma log_quiet lg ps lg' : quiet lg -> log lg ps = Ok lg' -> quiet lg'.
Proof. intros Q H. unfold log in H. apply rbind_inv in H as [d [_ H]]. apply Ok_inj in H. rewrite <- H. exact Q. Qed.
Definition entry_ok (f : vec -> vec) (a a' : string * lval) : Prop :=
  fst a' = fst a /\ (In (fst a) coefficient_locals \/ snd a' = value_map f (snd a)).
Lemma lookup_ok f : forall l l', Forall2 (entry_ok f) l l' -> forall k, ~ In k coefficient_locals ->
  lookup k l' = option_map (value_map f) (lookup k l).
Proof.
  intros l l' H k Hk. induction H as [|[k1 v1] [k2 v2] l l' [H1 H2] H IH]; [reflexivity|]. cbn [fst snd] in *. cbn [lookup].
  rewrite H1. destruct (String.eqb_spec k k1) as [->|]; [|exact IH]. destruct H2 as [H2| ->]; [contradiction|reflexivity].
Qed.

Section Relaxed.
Variables (p q : nat) (d1 : vec).
Hypothesis Hf : is_signs p d1.
Hypothesis q0 : (0 < q)%nat.
Notation pf := (flip d1).
Notation phi := (flip_parameters q d1).
Notation Phi := (flip (ext q d1)).
Notation N := (q + (p + q))%nat.
Notation n := (p + q)%nat.
Notation Pf := (pf_len p d1 Hf).

Lemma phi_gamma g : length g = q -> phi g = g.
Proof.
  intros H. unfold flip_parameters. destruct Hf as [L _]. destruct (Nat.eqb_spec (length g) (length d1 + q)) as [E|E]; [|reflexivity].
  assert (Z : length d1 = 0%nat) by lia. apply length_zero_iff_nil in Z. rewrite Z. cbn [app]. apply ones_flip2. auto.
Qed.

Section Trace.
Variables c c' : sr3_calls.
Hypothesis Hc : sr3_sim p q d1 c c'.
Variable solve : mat -> vec -> res vec.
Hypothesis Hsolve : forall n sg a b, is_signs n sg -> is_shape n n a -> length b = n ->
  solve (flip_mx sg sg a) (flip sg b) = rmap (flip sg) (solve a b).
Hypothesis Hsolve_len : forall a b x, solve a b = Ok x -> length x = length b.
Variable opts : ip_options.
Variable minimize : (R -> res R) -> R -> res R.
Hypothesis no_search : io_line_search opts = false.
Hypothesis no_increase : io_increase opts = false.
Hypothesis Hprox : forall pr y t, io_prox opts = Some pr -> length y = n -> pr (phi y) t = rmap phi (pr y t).
Hypothesis Hplen : forall pr y t z, io_prox opts = Some pr -> length y = n -> pr y t = Ok z -> length z = n.
Notation imap := (ip_map q d1).
Notation wfi := (wf_ip p q).

Lemma v_Phi x : length x = N -> ip_v q (Phi x) = ip_v q x /\ length (ip_v q x) = q.
Proof.
  intros Hx. destruct (split3 p q q0 x Hx) as [v [b [g [E [Lv [Lb Lg]]]]]]. rewrite E, (Phi_app p q d1 Hf q0) by auto.
  destruct (parts3 p q q0 v b g Lv Lb Lg) as [-> _]. destruct (parts3 p q q0 v (pf b) g Lv (Pf b Lb) Lg) as [-> _]. auto.
Qed.
Lemma log_step_sim st st' (tx : option vec) lg : wfi st -> wfi st' -> (forall v, tx = Some v -> length v = n) -> quiet lg ->
  ip_log_step c' opts solve q (imap st) (imap st') (option_map phi tx) (log_map phi lg)
  = rmap (fun r => (option_map phi (fst r), log_map phi (snd r))) (ip_log_step c opts solve q st st' tx lg) /\
  forall r, ip_log_step c opts solve q st st' tx lg = Ok r -> (forall v, fst r = Some v -> length v = n) /\ quiet (snd r).
Proof.
  intros [W1 [W2 [W3 [W4 [W5 W6]]]]] [V1 [V2 [V3 [V4 [V5 V6]]]]] Htx Q. unfold ip_log_step.
  destruct (v_Phi (is_x st') V1) as [Ev Lv].
  replace (ip_off_path opts q (imap st')) with (ip_off_path opts q st').
  2:{ unfold ip_off_path. cbn [ip_map is_x is_gamma]. rewrite Ev. reflexivity. }
  destruct (ip_off_path opts q st').
  { split; [reflexivity|]. intros r Hr. apply Ok_inj in Hr. rewrite <- Hr. auto. }
  cbn [ip_map is_x is_beta is_gamma is_tbeta is_tgamma is_mu is_prev is_step is_iter is_conv is_lam].
  rewrite (F_sim p q d1 Hf q0 c c' Hc) by auto.
  destruct (ip_F c (is_lam st) (is_tbeta st) (is_tgamma st) q (is_x st) (is_mu st)) as [f|e] eqn:Ef; [|split; [reflexivity|discriminate]].
  apply (F_len p q d1 q0 c c' Hc) in Ef; auto. cbn [rmap rbind]. rewrite (dF_sim p q d1 Hf q0 c c' Hc) by auto.
  destruct (ip_dF c (is_lam st) q (is_x st)) as [df|e] eqn:Ed; [|split; [reflexivity|discriminate]].
  apply (dF_shape p q d1 q0 c c' Hc) in Ed; auto. cbn [rmap rbind].
  replace (vneg (Phi f)) with (Phi (vneg f)) by (unfold flip; apply flip_neg).
  assert (Ln : length (vneg f) = N) by (rewrite vneg_length; auto).
  rewrite (Hsolve N) by (auto; exact (ext_signs p q d1 Hf q0)).
  destruct (solve df (vneg f)) as [d|e] eqn:Es; [|split; [reflexivity|discriminate]]. cbn [rmap rbind].
  apply Hsolve_len in Es. rewrite Ln in Es.
  change (ip_proxes opts (imap st')) with (ip_proxes opts st').
  set (tx1 := if ip_proxes opts st' then Some (beta_gamma_to_x (is_tbeta st') (is_tgamma st')) else tx).
  assert (Etx : (if ip_proxes opts st' then Some (beta_gamma_to_x (pf (is_tbeta st')) (is_tgamma st')) else option_map phi tx) = option_map phi tx1).
  { unfold tx1, beta_gamma_to_x. destruct (ip_proxes opts st'); [|reflexivity]. cbn [option_map]. rewrite (phi_app p q d1 Hf q0) by auto. reflexivity. }
  rewrite Etx. assert (L1 : forall v, tx1 = Some v -> length v = n).
  { unfold tx1, beta_gamma_to_x. destruct (ip_proxes opts st'); [|exact Htx]. intros v Hv. replace v with (is_tbeta st' ++ is_tgamma st') by congruence.
    rewrite app_length. lia. }
  clearbody tx1. clear Etx. cbn [log_map lg_keys]. destruct (0 <? length (lg_keys lg))%nat.
  - rewrite (log_some phi lg (ip_locals opts q st st' f d tx1)).
    2:{ intros k Hk. apply lookup_ok; [|apply Q; exact Hk]. unfold ip_locals.
        cbn [ip_map is_x is_beta is_gamma is_tbeta is_tgamma is_mu is_prev is_step is_iter is_conv is_lam].
        rewrite Ev, (max_step_sim p q d1 Hf q0) by auto. rewrite no_search. cbn [app].
        repeat (apply Forall2_cons; [split; [reflexivity|];
          first [right; reflexivity|left; cbn [fst In coefficient_locals]; tauto|right; cbn [snd value_map]; rewrite phi_gamma by auto; reflexivity]|]).
        destruct tx1; cbn [some_vec option_map app]; [|constructor]. apply Forall2_cons; [|constructor]. split; [reflexivity|right; reflexivity]. }
    destruct (log lg (ip_locals opts q st st' f d tx1)) as [lg1|e] eqn:El; [|split; [reflexivity|discriminate]].
    cbn [rmap rbind]. split; [reflexivity|]. intros r Hr. apply Ok_inj in Hr. rewrite <- Hr. cbn [fst snd].
    split; [exact L1|apply (log_quiet lg _ _ Q El)].
  - cbn [rbind]. split; [reflexivity|]. intros r Hr. apply Ok_inj in Hr. rewrite <- Hr. cbn [fst snd]. auto.
Qed.
Lemma trace_sim : forall fuel st (tx : option vec) lg, wfi st -> (forall v, tx = Some v -> length v = n) -> quiet lg ->
  ip_trace c' opts p q solve minimize q fuel (imap st) (option_map phi tx) (log_map phi lg)
  = rmap (fun r => (imap (fst r), log_map phi (snd r))) (ip_trace c opts p q solve minimize q fuel st tx lg) /\
  forall r, ip_trace c opts p q solve minimize q fuel st tx lg = Ok r -> wfi (fst r) /\ quiet (snd r).
Proof.
  induction fuel as [|fuel IH]; intros st tx lg W Ht Q; cbn [ip_trace]; rewrite (continue_sim p q d1 Hf q0 c c' Hc) by auto;
    (destruct (ip_continue c opts q st) as [[|]|e]; cbn [rbind];
      [|split; [reflexivity|intros r Hr; apply Ok_inj in Hr; rewrite <- Hr; auto]|split; [reflexivity|discriminate]]).
  - split; [reflexivity|discriminate].
  - destruct (body_sim p q d1 Hf q0 c c' Hc solve Hsolve Hsolve_len opts minimize no_search no_increase Hprox Hplen st W) as [B1 B2]. rewrite B1.
    destruct (ip_body c opts p q solve minimize q st) as [st1|e]; [|split; [reflexivity|discriminate]]. cbn [rmap rbind].
    specialize (B2 st1 eq_refl). destruct (log_step_sim st st1 tx lg W B2 Ht Q) as [S1 S2]. rewrite S1.
    destruct (ip_log_step c opts solve q st st1 tx lg) as [[tx1 lg1]|e]; [|split; [reflexivity|discriminate]]. cbn [rmap rbind fst snd].
    destruct (S2 _ eq_refl) as [S3 S4]. apply IH; auto.
Qed.
Variable warm : bool.
Lemma find_log_sim m x lg : wf_mem p q m -> length x = n -> quiet lg ->
  find_optimal_parameters_log c' opts p q solve minimize warm (mem_map d1 m) (phi x) (log_map phi lg)
  = rmap (log_map phi) (find_optimal_parameters_log c opts p q solve minimize warm m x lg).
Proof.
  intros W Hx Q. unfold find_optimal_parameters_log. destruct (split_parts p q x Hx) as [b [g [E [Lb [Lg Es]]]]].
  rewrite Es, E, (phi_app p q d1 Hf q0) by auto. rewrite parts_app by (auto; apply Pf; auto). rewrite double_pf.
  unfold find_ip_log. destruct g as [|t g]; [reflexivity|].
  rewrite vscale_length, Lg. destruct (Nat.ltb_spec 0 q); [|lia]. cbn [guard rbind].
  pose proof (log_map_add phi lg "mu_effective" (LList [])) as A1. cbn [entry_map map] in A1. rewrite A1. clear A1.
  destruct (add lg "mu_effective" (LList [])) as [lg1|e] eqn:Q1; [|reflexivity]. apply add_quiet in Q1; auto; [|cbn; intuition discriminate].
  cbn [rmap rbind].
  pose proof (log_map_add phi lg1 "mu" (LList [])) as A1. cbn [entry_map map] in A1. rewrite A1. clear A1.
  destruct (add lg1 "mu" (LList [])) as [lg2|e] eqn:Q2; [|reflexivity]. apply add_quiet in Q2; auto; [|cbn; intuition discriminate].
  cbn [rmap rbind].
  destruct (start_ip_sim p q d1 Hf q0 warm m (vscale 2 b) (vscale 2 (t :: g)) b (t :: g) W) as [S1 S2]; rewrite ?vscale_length; auto. rewrite S1.
  destruct (trace_sim (Z.to_nat (io_n_iter opts)) _ None lg2 S2) as [T1 T2]; [discriminate|exact Q2|]. cbn [option_map] in T1. rewrite T1.
  destruct (ip_trace c opts p q solve minimize q (Z.to_nat (io_n_iter opts)) (ip_start warm m (vscale 2 b) (vscale 2 (t :: g)) b (t :: g)) None lg2)
    as [[st lg3]|e]; [|reflexivity]. cbn [rmap rbind fst snd].
  destruct (T2 _ eq_refl) as [[W1 [W2 [W3 [W4 [W5 W6]]]]] _]. cbn [fst] in *. unfold good_stop.
  cbn [ip_map is_x is_beta is_gamma is_tbeta is_tgamma is_mu is_prev is_step is_iter is_conv is_lam].
  rewrite (F_sim p q d1 Hf q0 c c' Hc) by auto.
  destruct (ip_F c (is_lam st) (is_tbeta st) (is_tgamma st) q (is_x st) (is_mu st)) as [f|e] eqn:Ef; [|reflexivity].
  apply (F_len p q d1 q0 c c' Hc) in Ef; auto. cbn [rmap rbind]. rewrite (Phi_norm p q d1 Hf q0) by auto.
  pose proof (log_map_add phi lg3 "good_stopping_reason" (LAtom (LBool (rltb (norm f) (io_tol opts) && rltb (is_mu st) (io_tol opts))))) as A1.
  cbn [entry_map value_map] in A1. rewrite A1. clear A1.
  destruct (add lg3 "good_stopping_reason" _) as [lg4|e]; [|reflexivity]. cbn [rmap rbind].
  exact (log_map_add phi lg4 "iteration" (LAtom (LNum (INR (is_iter st))))).
Qed.
End Trace.

(** ** memories with sizes that fit *)
Definition goodb (m : sr3_memory) : bool :=
  match sm_warm m with None => true | Some bg => (length (fst bg) =? p)%nat && (length (snd bg) =? q)%nat end.
Lemma goodb_wf m : goodb m = true <-> wf_mem p q m.
Proof.
  unfold goodb, wf_mem. destruct (sm_warm m) as [bg|].
  - rewrite andb_true_iff, !Nat.eqb_eq. split; [intros H bg' E; inversion E; subst bg'; exact H|intros H; apply H; reflexivity].
  - split; [discriminate|reflexivity].
Qed.
Definition good_memory : Type := { m : sr3_memory | goodb m = true }.
Definition pack (m : sr3_memory) : option good_memory :=
  match Bool.bool_dec (goodb m) true with left H => Some (exist _ m H) | right _ => None end.
Lemma pack_ok m : wf_mem p q m -> exists s, pack m = Some s /\ proj1_sig s = m.
Proof.
  intros W. apply goodb_wf in W. unfold pack. destruct (Bool.bool_dec (goodb m) true) as [H|H]; [|contradiction]. eauto.
Qed.
Definition packed {A} (r : res (A * sr3_memory)) : res (A * good_memory) :=
  let! (a, m) := r in match pack m with Some s => Ok (a, s) | None => Err OutOfFuel end.
Definition good_oracle (o : oracle sr3_memory) : oracle good_memory :=
  {| o_value := fun s x => packed (o_value o (proj1_sig s) x); o_grad := fun s x => packed (o_grad o (proj1_sig s) x) |}.
Lemma packed_rmap {A B T} (f : A -> B) (h : sr3_memory -> T) (r : res (A * sr3_memory)) :
  (forall a m, r = Ok (a, m) -> wf_mem p q m) ->
  rmap (fun x => (f (fst x), h (proj1_sig (snd x)))) (packed r) = rmap (fun x => (f (fst x), h (snd x))) r.
Proof.
  intros H. destruct r as [[a m]|e]; [|reflexivity]. unfold packed. cbn [rbind]. destruct (pack_ok m (H a m eq_refl)) as [s [-> <-]]. reflexivity.
Qed.
Lemma optimize_wf (o o' : oracle sr3_memory) rg slv x m lg :
  (forall m x, wf_mem p q m -> length x = n ->
     o_value o' (mem_map d1 m) (phi x) = rmap (fun r => (fst r, mem_map d1 (snd r))) (o_value o m x) /\
     forall r, o_value o m x = Ok r -> wf_mem p q (snd r)) ->
  (forall m x, wf_mem p q m -> length x = n ->
     o_grad o' (mem_map d1 m) (phi x) = rmap (fun r => (phi (fst r), mem_map d1 (snd r))) (o_grad o m x) /\
     forall r, o_grad o m x = Ok r -> length (fst r) = n /\ wf_mem p q (snd r)) ->
  reg_sim n phi rg rg -> length x = n -> wf_mem p q m ->
  exists r : res (vec * logger * good_memory), rmap fst (pgd_optimize o rg slv x m lg) = rmap fst r /\
    rmap fst (pgd_optimize o' rg slv (phi x) (mem_map d1 m) (log_map phi lg))
    = rmap (fun a => (phi (fst (fst a)), log_map phi (snd (fst a)))) r /\
    forall a, r = Ok a -> length (fst (fst a)) = n.
Proof.
  intros HV HG [S1 [S2 S3]] Hx W. destruct (pack_ok m W) as [s [_ Es]].
  assert (V0 : forall (s : good_memory) y a m', length y = n -> o_value o (proj1_sig s) y = Ok (a, m') -> wf_mem p q m').
  { intros s' y a m' Hy E. apply (proj2 (HV _ y (proj1 (goodb_wf _) (proj2_sig s')) Hy) _ E). }
  assert (G0 : forall (s : good_memory) y a m', length y = n -> o_grad o (proj1_sig s) y = Ok (a, m') -> length a = n /\ wf_mem p q m').
  { intros s' y a m' Hy E. apply (proj2 (HG _ y (proj1 (goodb_wf _) (proj2_sig s')) Hy) _ E). }
  assert (GL : forall (s : good_memory) y g s', length y = n -> o_grad (good_oracle o) s y = Ok (g, s') -> length g = n).
  { intros s1 y g s' Hy E. cbn [good_oracle o_grad] in E. unfold packed in E. apply rbind_inv in E as [[a m'] [E1 E2]].
    destruct (G0 _ _ _ _ Hy E1) as [E3 _]. destruct (pack m'); [|discriminate]. congruence. }
  exists (pgd_optimize (good_oracle o) rg slv x s lg).
  pose proof (optimize_map n (fun x => x) (fun x H => H) (fun x y _ _ => eq_refl) (fun x y _ _ => eq_refl) (fun c x _ => eq_refl)
    (fun x _ => eq_refl) (fun x y _ _ => eq_refl) good_memory sr3_memory (@proj1_sig _ _) (good_oracle o) o rg rg slv) as O1.
  pose proof (optimize_map n phi (phi_len p q d1 Hf q0) (phi_add p q d1 Hf q0) (phi_sub p q d1 Hf q0) (phi_scale p q d1 Hf) (phi_neg p q d1 Hf)
    (phi_dot p q d1 Hf q0) good_memory sr3_memory (fun s => mem_map d1 (proj1_sig s)) (good_oracle o) o' rg rg slv) as O2.
  rewrite <- Es. split; [|split].
  - rewrite <- (log_map_id lg) at 1. rewrite O1; auto.
    + destruct (pgd_optimize (good_oracle o) rg slv x s lg) as [[[x1 lg1] s1]|e]; [|reflexivity].
      cbn [rmap run_map fst snd]. rewrite log_map_id. reflexivity.
    + intros s1 y Hy. cbn [good_oracle o_value]. unfold on_snd.
      rewrite (packed_rmap (fun v => v) (fun m => m)) by (intros a m' E; apply (V0 s1 y a m' Hy E)).
      destruct (o_value o (proj1_sig s1) y) as [[a m']|]; reflexivity.
    + intros s1 y Hy. cbn [good_oracle o_grad]. unfold on_snd.
      rewrite (packed_rmap (fun v => v) (fun m => m)) by (intros a m' E; apply (G0 s1 y a m' Hy E)).
      destruct (o_grad o (proj1_sig s1) y) as [[a m']|]; reflexivity.
    + intros y t Hy. destruct (r_prox rg y t); reflexivity.
  - rewrite O2; auto.
    + destruct (pgd_optimize (good_oracle o) rg slv x s lg) as [[[x1 lg1] s1]|e]; reflexivity.
    + intros s1 y Hy. cbn [good_oracle o_value]. unfold on_snd.
      rewrite (packed_rmap (fun v => v) (mem_map d1)) by (intros a m' E; apply (V0 s1 y a m' Hy E)).
      apply (proj1 (HV _ y (proj1 (goodb_wf _) (proj2_sig s1)) Hy)).
    + intros s1 y Hy. cbn [good_oracle o_grad]. unfold on_snd.
      rewrite (packed_rmap phi (mem_map d1)) by (intros a m' E; apply (G0 s1 y a m' Hy E)).
      apply (proj1 (HG _ y (proj1 (goodb_wf _) (proj2_sig s1)) Hy)).
  - intros [[x1 lg1] s1] E. cbn [fst]. revert E.
    apply (optimize_len n (fun x => x) (fun x H => H) (fun x y _ _ => eq_refl) (fun x y _ _ => eq_refl) (fun c x _ => eq_refl)
      (fun x _ => eq_refl) (fun x y _ _ => eq_refl) good_memory sr3_memory (@proj1_sig _ _) (good_oracle o) o rg rg slv); auto.
    + intros s2 y Hy. cbn [good_oracle o_value]. unfold on_snd.
      rewrite (packed_rmap (fun v => v) (fun m => m)) by (intros a m' E; apply (V0 s2 y a m' Hy E)).
      destruct (o_value o (proj1_sig s2) y) as [[a m']|]; reflexivity.
    + intros s2 y Hy. cbn [good_oracle o_grad]. unfold on_snd.
      rewrite (packed_rmap (fun v => v) (fun m => m)) by (intros a m' E; apply (G0 s2 y a m' Hy E)).
      destruct (o_grad o (proj1_sig s2) y) as [[a m']|]; reflexivity.
    + intros y t Hy. destruct (r_prox rg y t); reflexivity.
Qed.

(** ** the solver *)
Variables c c' : lme_calls.
Hypothesis Hc : sr3_sim p q d1 (lc_sr3 c) (lc_sr3 c').
Variable solve : mat -> vec -> res vec.
Hypothesis Hsolve : forall n sg a b, is_signs n sg -> is_shape n n a -> length b = n ->
  solve (flip_mx sg sg a) (flip sg b) = rmap (flip sg) (solve a b).
Hypothesis Hsolve_len : forall a b x, solve a b = Ok x -> length x = length b.
Lemma start_wf ss : wf_mem p q (sr3_start ss).
Proof. intros bg H. discriminate. Qed.
Lemma oracle_value_sim ss m x : wf_mem p q m -> length x = n ->
  o_value (sr3_lme_oracle solve p q c' ss) (mem_map d1 m) (phi x)
  = rmap (fun r => (fst r, mem_map d1 (snd r))) (o_value (sr3_lme_oracle solve p q c ss) m x) /\
  forall r, o_value (sr3_lme_oracle solve p q c ss) m x = Ok r -> wf_mem p q (snd r).
Proof.
  intros W Hx. cbn [sr3_lme_oracle o_value].
  apply (value_function_sim p q d1 Hf q0 _ _ Hc solve Hsolve Hsolve_len (ip_options_of ss None) no_minimizer eq_refl eq_refl); auto; discriminate.
Qed.
Lemma oracle_grad_sim ss m x : wf_mem p q m -> length x = n ->
  o_grad (sr3_lme_oracle solve p q c' ss) (mem_map d1 m) (phi x)
  = rmap (fun r => (phi (fst r), mem_map d1 (snd r))) (o_grad (sr3_lme_oracle solve p q c ss) m x) /\
  forall r, o_grad (sr3_lme_oracle solve p q c ss) m x = Ok r -> length (fst r) = n /\ wf_mem p q (snd r).
Proof.
  intros W Hx. cbn [sr3_lme_oracle o_grad].
  apply (gradient_function_sim p q d1 Hf q0 _ _ Hc solve Hsolve Hsolve_len (ip_options_of ss None) no_minimizer eq_refl eq_refl); auto; discriminate.
Qed.
Lemma relaxed_solver_sim m ss rg x lg : mo_sr3 m = Some ss -> (ss_practical ss = true -> quiet lg) -> reg_sim n phi rg rg -> length x = n ->
  run_solver solve m p q c' rg (phi x) (log_map phi lg)
  = rmap (fun r => (phi (fst r), log_map phi (snd r))) (run_solver solve m p q c rg x lg) /\
  forall r, run_solver solve m p q c rg x lg = Ok r -> length (fst r) = n.
Proof.
  intros Hm Q S Hx. unfold run_solver. rewrite Hm. destruct (step_length m) as [st|e]; [|split; [reflexivity|discriminate]]. cbn [rbind].
  destruct (ss_practical ss).
  - specialize (Q eq_refl). destruct S as [S1 [S2 S3]]. unfold fake_pgd_optimize.
    set (o := ip_options_of ss (Some (r_prox rg))).
    assert (P1 : forall pr y t, io_prox o = Some pr -> length y = n -> pr (phi y) t = rmap phi (pr y t)).
    { intros pr y t E Hy. inversion E. auto. }
    assert (P2 : forall pr y t z, io_prox o = Some pr -> length y = n -> pr y t = Ok z -> length z = n).
    { intros pr y t z E Hy. inversion E. eauto. }
    change (sr3_start ss) with (mem_map d1 (sr3_start ss)) at 1.
    rewrite (find_log_sim _ _ Hc solve Hsolve Hsolve_len o no_minimizer eq_refl eq_refl P1 P2 (ss_warm ss) (sr3_start ss) x lg (start_wf ss) Hx Q).
    destruct (find_optimal_parameters_log (lc_sr3 c) o p q solve no_minimizer (ss_warm ss) (sr3_start ss) x lg) as [lg1|e];
      [|split; [reflexivity|discriminate]]. cbn [rmap rbind].
    change (sr3_start ss) with (mem_map d1 (sr3_start ss)) at 1.
    destruct (optimal_parameters_sim p q d1 Hf q0 _ _ Hc solve Hsolve Hsolve_len o no_minimizer eq_refl eq_refl P1 P2 (ss_warm ss)
      (sr3_start ss) x (start_wf ss) Hx) as [O1 O2]. rewrite O1.
    destruct (find_optimal_parameters (lc_sr3 c) o p q solve no_minimizer (ss_warm ss) (sr3_start ss) x) as [[x1 m1]|e];
      [|split; [reflexivity|discriminate]]. cbn [rmap rbind fst snd]. destruct (O2 _ eq_refl) as [L1 W1]. cbn [fst snd] in L1, W1.
    cbn [log_map lg_keys]. change (lg_keys lg1) with (lg_keys (log_map phi lg1)) at 1. cbn [log_map lg_keys].
    assert (T : forall l (mm mm' : sr3_memory),
      (let! (x', lg', _) := (let! (lg2, s2) := Ok (log_map phi l, mm') in
         let! lg3 := add lg2 "converged" (LAtom (LBool true)) in Ok (phi x1, lg3, s2)) in Ok (x', lg'))
      = rmap (fun r => (phi (fst r), log_map phi (snd r)))
        (let! (x', lg', _) := (let! (lg2, s2) := Ok (l, mm) in
           let! lg3 := add lg2 "converged" (LAtom (LBool true)) in Ok (x1, lg3, s2)) in Ok (x', lg')) /\
      forall r, (let! (x', lg', _) := (let! (lg2, s2) := Ok (l, mm) in
           let! lg3 := add lg2 "converged" (LAtom (LBool true)) in Ok (x1, lg3, s2)) in Ok (x', lg')) = Ok r -> length (fst r) = n).
    { intros l mm mm'. cbn [rbind]. pose proof (log_map_add phi l "converged" (LAtom (LBool true))) as A. cbn [entry_map value_map] in A. rewrite A.
      destruct (add l "converged" (LAtom (LBool true))) as [lg3|e]; [|split; [reflexivity|discriminate]]. cbn [rmap rbind fst snd].
      split; [reflexivity|]. intros r Hr. apply Ok_inj in Hr. rewrite <- Hr. exact L1. }
    destruct (has_key "loss" (lg_keys lg1)); [|apply T].
    destruct (oracle_value_sim ss m1 x1 W1 L1) as [V1 V2]. rewrite V1.
    destruct (o_value (sr3_lme_oracle solve p q c ss) m1 x1) as [[f m2]|e]; [|split; [reflexivity|discriminate]]. cbn [rmap rbind fst snd].
    rewrite S3 by auto. destruct (r_value rg x1) as [v|e]; [|split; [reflexivity|discriminate]]. cbn [rbind].
    pose proof (log_map_add phi lg1 "loss" (LAtom (lnum_e (eadd (Fin f) v)))) as A.
    replace (entry_map phi (LAtom (lnum_e (eadd (Fin f) v)))) with (LAtom (lnum_e (eadd (Fin f) v))) in A by (destruct v; reflexivity).
    rewrite A. destruct (add lg1 "loss" _) as [lg2|e]; [|split; [reflexivity|discriminate]]. cbn [rmap]. apply T.
  - match goal with |- context [pgd_optimize _ rg ?s _ _ _] => set (slv := s) end.
    change (sr3_start ss) with (mem_map d1 (sr3_start ss)) at 1.
    destruct (optimize_wf (sr3_lme_oracle solve p q c ss) (sr3_lme_oracle solve p q c' ss) rg slv x (sr3_start ss) lg
      (oracle_value_sim ss) (oracle_grad_sim ss) S Hx (start_wf ss)) as [r [R1 [R2 R3]]].
    assert (F : forall T (z : res (vec * logger * T)), (let! (x', lg', _) := z in Ok (x', lg')) = rmap fst z).
    { intros T [[[a b] t]|e]; reflexivity. }
    rewrite !F, R1, R2. destruct r as [[[a l] t]|e]; [|split; [reflexivity|discriminate]]. split; [reflexivity|].
    intros r Hr. cbn [rmap fst] in Hr. apply Ok_inj in Hr. rewrite <- Hr. exact (R3 _ eq_refl).
Qed.
Variable d2 : vec.
Hypothesis Hg : is_signs q d2.
Hypothesis Hcc : calls_sim p q d1 d2 c c'.
Lemma relaxed_initialize_sim m ss k b g : mo_sr3 m = Some ss -> length b = p -> length g = q ->
  initialize m q k c' (pf b, g) = rmap (fun r => (pf (fst r), snd r)) (initialize m q k c (b, g)) /\
  forall b1 g1, initialize m q k c (b, g) = Ok (b1, g1) -> length b1 = p /\ length g1 = q.
Proof.
  intros Hm Hb H. unfold initialize. rewrite Hm. cbn [fst snd]. destruct (String.eqb (mo_initializer m) "EM") eqn:EM.
  2:{ split; [reflexivity|]. intros b1 g1 E. apply Ok_inj in E. inversion E; subst b1 g1. auto. }
  rewrite (ss_ob _ _ _ _ _ Hc) by auto.
  destruct (sc_optimal_beta (lc_sr3 c) (sm_lam (sr3_start ss)) g b) as [b1|e] eqn:Eb; [|split; [reflexivity|discriminate]].
  apply (ss_obl _ _ _ _ _ Hc) in Eb. cbn [rmap rbind]. rewrite (cs_re _ _ _ _ _ _ Hcc) by auto.
  destruct (lc_random_effects c b1 g) as [us|e] eqn:Eu; [|split; [reflexivity|discriminate]].
  apply (cs_rel _ _ _ _ _ _ Hcc) in Eu. cbn [rmap rbind]. rewrite (squares_sim q d2 Hg q0) by auto.
  destruct (mean_squares q us k) as [g1|e] eqn:Es; [|split; [reflexivity|discriminate]]. cbn [rmap rbind fst snd].
  apply squares_len in Es; auto.
  split; [reflexivity|]. intros b2 g2 E. apply Ok_inj in E. inversion E; subst b2 g2. auto.
Qed.
End Relaxed.

Section Fit.
Variables (p q : nat) (e : R) (s1 s2 cs : vec).
Hypothesis q0 : (0 < q)%nat.
Notation d1 := (vscale e s1).
Notation d2 := (vscale e s2).
Hypothesis Hf : is_signs p d1.
Hypothesis Hg : is_signs q d2.
Variables (argsort : vec -> list nat) (solve : mat -> vec -> res vec)
  (calls_of : lme_problem -> option gauss_lme -> option sr3_settings -> lme_calls).
Variables (pr pr' : lme_problem) (fe re : option vec) (ov : oracle_view) (wf wr : vec) (ss : sr3_settings).
Hypothesis Hsolve : forall n sg a b, is_signs n sg -> is_shape n n a -> length b = n ->
  solve (flip_mx sg sg a) (flip sg b) = rmap (flip sg) (solve a b).
Hypothesis Hsolve_len : forall a b x, solve a b = Ok x -> length x = length b.
Hypothesis Ep : num_fixed pr = p.
Hypothesis Ep' : num_fixed pr' = p.
Hypothesis Eq : num_random pr = q.
Hypothesis Eq' : num_random pr' = q.
Hypothesis En : num_groups pr' = num_groups pr.
Hypothesis El : pr_group_labels pr' = pr_group_labels pr.
Hypothesis Ev : oracle_view_of pr = Ok ov /\ ov_p ov = p /\ ov_q ov = q.
Hypothesis Ev' : oracle_view_of pr' = Ok ov.
Hypothesis Ew : fit_weights pr fe re = Ok (wf, wr) /\ length wf = p /\ length wr = q.
Hypothesis Ew' : fit_weights pr' fe re = Ok (wf, wr).
Notation c := (calls_of pr None (Some ss)).
Notation c' := (calls_of pr' None (Some ss)).
Hypothesis Hc : calls_sim p q d1 d2 c c'.
Hypothesis Hs : sr3_sim p q d1 (lc_sr3 c) (lc_sr3 c').
Hypothesis Hpg : forall b us, length b = p -> Forall (fun u => length u = q) us ->
  per_group_coefficients (flip d1 b) (map (flip d2) us) (pr_intercept pr' :: map Some (pr_labels pr'))
  = rmap (map (flip (vscale e (1 :: cs)))) (per_group_coefficients b us (pr_intercept pr :: map Some (pr_labels pr))).

Lemma relaxed_problem_sim m coef b0 g0 warm : mo_sr3 m = Some ss -> mo_prior m = None ->
  (ss_practical ss = true -> logs_no_coefficients m) ->
  length b0 = p -> (forall v, g0 = Some v -> length v = q) ->
  fit_problem argsort solve calls_of m coef pr' (Some (flip d1 b0)) g0 warm fe re
  = rmap (flip_lme_fit q e s1 s2 cs) (fit_problem argsort solve calls_of m coef pr (Some b0) g0 warm fe re).
Proof.
  intros Hm1 Hm2 Hq Hb0 Hg0. unfold fit_problem. rewrite Ep, Ep', Eq, Eq', En, El.
  destruct (step_length m) as [st|er]; [|reflexivity]. cbn [rbind].
  match goal with |- context [match mo_penalty m with PenSCAD _ _ _ => _ | _ => _ end] =>
    destruct (match mo_penalty m with PenSCAD lam rho sigma => rmap (fun _ => tt) (mk_scad rho sigma lam) | _ => Ok tt end) as [[]|er] end;
    [|reflexivity]. cbn [rbind].
  destruct Ev as [-> [E1 E2]]. rewrite Ev'. cbn [rbind]. unfold prior_of. rewrite Hm2, Hm1. cbn [rbind].
  destruct Ew as [-> [Lf Lr]]. rewrite Ew'. cbn [rbind].
  assert (Lw : length (wf ++ wr) = (p + q)%nat) by (rewrite app_length; lia).
  pose proof (model_regs p q d1 Hf q0 argsort m ov (wf ++ wr) E1 E2 Lw) as S.
  destruct (model_reg m ov) as [r0|er]; [|reflexivity]. cbn [rbind] in *. unfold beta_gamma_to_x at 1 3.
  destruct (instantiate r0 (wf ++ wr) (Some ov)) as [r|er]; [|reflexivity]. cbn [rbind].
  assert (Hb1 : forall v : list R, Some b0 = Some v -> length v = p) by (intros v Hv; inversion Hv; subst v; auto).
  destruct (start_sim p q d1 coef warm (Some b0) g0 Hb1 Hg0) as [b [b' [g [Lb [Lg [B1 [B2 B3]]]]]]].
  cbn [option_map] in B2. rewrite B1, B2. cbn [rbind].
  rewrite (B3 ltac:(discriminate)).
  destruct (relaxed_initialize_sim p q d1 q0 _ _ Hs d2 Hg Hc m ss (num_groups pr) b g Hm1 Lb Lg) as [J1 J2]. rewrite J1.
  destruct (initialize m q (num_groups pr) c (b, g)) as [[b1 g1]|er]; [|reflexivity]. cbn [rmap rbind fst snd].
  destruct (J2 b1 g1 eq_refl) as [Lb1 Lg1].
  rewrite (log_map_new (flip_parameters q d1) (Some (mo_keys m))) at 1.
  destruct (mk_logger (Some (mo_keys m))) as [lg|er] eqn:Elg; [|reflexivity]. cbn [rmap rbind].
  assert (Q : ss_practical ss = true -> quiet lg).
  { intros Hp. specialize (Hq Hp). unfold logs_no_coefficients in Hq. destruct (mo_keys m) as [kd ks]. cbn [mk_logger] in Elg.
    apply Ok_inj in Elg. rewrite <- Elg. exact Hq. }
  unfold beta_gamma_to_x. rewrite <- (phi_app p q d1 Hf q0) by auto.
  assert (Lx : length (b1 ++ g1) = (p + q)%nat) by (rewrite app_length; lia).
  destruct (relaxed_solver_sim p q d1 Hf q0 _ _ Hs solve Hsolve Hsolve_len m ss _ (b1 ++ g1) lg Hm1 Q S Lx) as [R1 R2]. rewrite R1.
  destruct (run_solver solve m p q c (as_regularizer argsort r) (b1 ++ g1) lg) as [[x lg1]|er] eqn:Erun; [|reflexivity].
  specialize (R2 _ eq_refl). cbn [rmap rbind fst snd] in *.
  destruct (split_parts p q x R2) as [b2 [g2 [E [Lb2 [Lg2 Es]]]]]. rewrite Es, E, (phi_app p q d1 Hf q0) by auto.
  rewrite parts_app by (auto; apply (pf_len p d1 Hf); auto).
  rewrite (cs_re _ _ _ _ _ _ Hc) by auto.
  destruct (lc_random_effects c b2 g2) as [us|er] eqn:Eu; [|reflexivity].
  apply (cs_rel _ _ _ _ _ _ Hc) in Eu. cbn [rmap rbind]. rewrite Hpg by auto.
  destruct (per_group_coefficients b2 us _) as [pgs|er]; [|reflexivity]. cbn [rmap rbind].
  rewrite (criteria_sim p q d1 d2 Hf q0 _ _ Hc) by auto.
  destruct (log_criteria m c b2 g2 lg1) as [lg2|er]; [|reflexivity]. reflexivity.
Qed.
End Fit.
