(** The log of the interior-point method. *)
From Coq Require Import Lra Lia String.
From Verif.Base Require Import Py Vec Mat.
From Verif.Model Require Import LmeProblem Regularizers Solvers LmeInner LmeTrace.
From Verif.Spec Require Import InnerSpec TraceSpec.
From Verif.Proofs Require Import VecFacts MatFacts SolverProofs InnerProofs InnerIP.
Open Scope string_scope.
Open Scope list_scope.
Open Scope R_scope.

Lemma add_keeps lg k v lg' k' : add lg k v = Ok lg' -> In k' (lg_keys lg) -> In k' (lg_keys lg').
Proof.
  intros H Hk. destruct (add_lookup _ _ _ _ H) as (_ & _ & ->). destruct (has_key k (lg_keys lg)); [exact Hk|].
  apply in_or_app. left. exact Hk.
Qed.
Lemma add_has lg k v lg' : add lg k v = Ok lg' -> In k (lg_keys lg').
Proof.
  intros H. destruct (add_lookup _ _ _ _ H) as (_ & _ & ->). destruct (has_key k (lg_keys lg)) eqn:E.
  - apply has_key_In. exact E.
  - apply in_or_app. right. left. reflexivity.
Qed.
Lemma add_NoDup lg k v lg' : add lg k v = Ok lg' -> NoDup (lg_keys lg) -> NoDup (lg_keys lg').
Proof.
  intros H N. destruct (add_lookup _ _ _ _ H) as (_ & _ & ->). destruct (has_key k (lg_keys lg)) eqn:E; [exact N|].
  apply NoDup_rev in N. rewrite <- (rev_involutive (lg_keys lg ++ [k])). apply NoDup_rev. rewrite rev_app_distr. cbn.
  constructor; [|exact N]. rewrite <- in_rev. intros C. apply has_key_In in C. congruence.
Qed.

Lemma add_get lg k v lg' k' : add lg k v = Ok lg' -> get lg' k' = if String.eqb k' k then Ok v else get lg k'.
Proof. intros H. unfold get. rewrite (proj1 (add_lookup _ _ _ _ H)). destruct (String.eqb k' k); reflexivity. Qed.
Lemma nth_map2 (f : R -> R -> R) : forall x y i, (i < length x)%nat -> (i < length y)%nat ->
  nth i (map2 f x y) 0 = f (nth i x 0) (nth i y 0).
Proof.
  induction x as [|a x IH]; intros [|b y] [|i] A B; cbn in A, B; try lia; [reflexivity|]. cbn. apply IH; lia.
Qed.

Section Trace.
Variable calls : sr3_calls.
Variable opts : ip_options.
Variables p q : nat.
Variable solve : mat -> vec -> res vec.
Variable ms : (R -> res R) -> R -> res R.
Notation body := (ip_body calls opts p q solve ms).
Notation path := (ip_path calls opts p q solve ms).
Notation trace := (ip_trace calls opts p q solve ms).

Lemma path_steps n s l s' : path n s l s' -> ip_steps calls opts p q solve ms n (length l) s s'.
Proof. induction 1; cbn; econstructor; eauto. Qed.

Lemma ip_log_step_keys n s s' tx lg tx' lg' : ip_log_step calls opts solve n s s' tx lg = Ok (tx', lg') ->
  lg_keys lg' = lg_keys lg.
Proof.
  intros H. unfold ip_log_step in H. destruct (ip_off_path opts n s'); [injection H as _ <-; reflexivity|].
  apply rbind_inv in H. destruct H as [f [_ H]]. apply rbind_inv in H. destruct H as [df [_ H]].
  apply rbind_inv in H. destruct H as [d [_ H]]. cbv zeta in H. apply rbind_inv in H. destruct H as [l [L H]].
  injection H as _ <-. destruct (0 <? length (lg_keys lg))%nat; [|injection L as <-; reflexivity].
  apply (log_keep _ _ _ L).
Qed.
Lemma ip_trace_keys n : forall fuel s tx lg s' lg', trace n fuel s tx lg = Ok (s', lg') -> lg_keys lg' = lg_keys lg.
Proof.
  induction fuel as [|fuel IH]; intros s tx lg s' lg' H; cbn [ip_trace] in H;
    apply rbind_inv in H; destruct H as [c [_ H]]; destruct c; try discriminate; try (injection H as _ <-; reflexivity).
  apply rbind_inv in H. destruct H as [s1 [_ H]]. apply rbind_inv in H. destruct H as [[tx1 lg1] [L H]].
  rewrite (IH _ _ _ _ _ H). eapply ip_log_step_keys; eauto.
Qed.
Lemma find_log_keeps warm mem w lg lg' k : find_optimal_parameters_log calls opts p q solve ms warm mem w lg = Ok lg' ->
  In k (lg_keys lg) -> In k (lg_keys lg').
Proof.
  unfold find_optimal_parameters_log. destruct (x_to_beta_gamma p q w) as [tb tg]. unfold find_ip_log.
  destruct tg as [|t tg]; [intros H; injection H as <-; auto|]. intros H K.
  apply rbind_inv in H. destruct H as [u [_ H]]. apply rbind_inv in H. destruct H as [l1 [H1 H]].
  apply rbind_inv in H. destruct H as [l2 [H2 H]]. apply rbind_inv in H. destruct H as [[s l3] [H3 H]].
  apply rbind_inv in H. destruct H as [b [_ H]]. apply rbind_inv in H. destruct H as [l4 [H4 H]].
  eapply add_keeps; [exact H|]. eapply add_keeps; [exact H4|]. rewrite (ip_trace_keys _ _ _ _ _ _ _ H3).
  eapply add_keeps; [exact H2|]. eapply add_keeps; [exact H1|exact K].
Qed.

(** the traced loop is the loop *)
Lemma ip_trace_loop n : forall fuel s tx lg s' lg', trace n fuel s tx lg = Ok (s', lg') ->
  ip_loop calls opts p q solve ms n fuel s = Ok s'.
Proof.
  induction fuel as [|fuel IH]; intros s tx lg s' lg' H; cbn [ip_trace] in H; cbn [ip_loop];
    apply rbind_inv in H; destruct H as [c [-> H]]; cbn [rbind]; destruct c; try discriminate; try (injection H as -> _; reflexivity).
  apply rbind_inv in H. destruct H as [s1 [-> H]]. cbn [rbind]. apply rbind_inv in H. destruct H as [[tx1 lg1] [_ H]].
  eapply IH; eauto.
Qed.
Lemma vmul_comm x : forall y, vmul x y = vmul y x.
Proof. induction x as [|a x IH]; intros [|b y]; cbn; f_equal; [lra|apply IH]. Qed.
Lemma ip_off_pathE n s : ip_off_path opts n s = true <-> ~ centred opts n s.
Proof.
  unfold ip_off_path, centred, average, dual, ip_v. rewrite rltb_true.
  rewrite (vdot_comm (is_gamma s)), (vmul_comm (is_gamma s)). unfold Rdiv. rewrite Rmult_assoc. split; lra.
Qed.
(** what one iteration appends *)
Lemma ip_log_step_get n s s' tx lg tx' lg' l1 l2 : NoDup (lg_keys lg) -> In "mu" (lg_keys lg) -> In "mu_effective" (lg_keys lg) ->
  ip_log_step calls opts solve n s s' tx lg = Ok (tx', lg') ->
  get lg "mu" = Ok (LList l1) -> get lg "mu_effective" = Ok (LList l2) ->
  (~ centred opts n s' /\ get lg' "mu" = Ok (LList l1) /\ get lg' "mu_effective" = Ok (LList l2)) \/
  (centred opts n s' /\ get lg' "mu" = Ok (LList (l1 ++ [LNum (is_mu s')])) /\
   get lg' "mu_effective" = Ok (LList (l2 ++ [LNum (average n s')]))).
Proof.
  intros N K1 K2 H G1 G2. unfold ip_log_step in H. destruct (ip_off_path opts n s') eqn:E.
  { injection H as _ <-. left. apply ip_off_pathE in E. auto. }
  right. split.
  { destruct (Classical_Prop.classic (centred opts n s')) as [C|C]; [exact C|]. apply ip_off_pathE in C. congruence. }
  apply rbind_inv in H. destruct H as [f [_ H]]. apply rbind_inv in H. destruct H as [df [_ H]].
  apply rbind_inv in H. destruct H as [d [_ H]]. cbv zeta in H. apply rbind_inv in H. destruct H as [l [L H]].
  injection H as _ <-. assert (P : (0 <? length (lg_keys lg))%nat = true).
  { apply Nat.ltb_lt. destruct (lg_keys lg); [destruct K1|cbn; lia]. }
  rewrite P in L. pose proof (log_lookup _ _ _ N L) as Q. apply has_key_In in K1. apply has_key_In in K2.
  unfold get in *. split.
  - rewrite Q, K1. destruct (lookup "mu" (lg_dict lg)) as [o|]; [|discriminate]. injection G1 as ->. reflexivity.
  - rewrite Q, K2. destruct (lookup "mu_effective" (lg_dict lg)) as [o|]; [|discriminate]. injection G2 as ->. reflexivity.
Qed.
Lemma ip_trace_path n : forall fuel s tx lg s' lg' l1 l2, trace n fuel s tx lg = Ok (s', lg') ->
  NoDup (lg_keys lg) -> In "mu" (lg_keys lg) -> In "mu_effective" (lg_keys lg) ->
  get lg "mu" = Ok (LList l1) -> get lg "mu_effective" = Ok (LList l2) ->
  exists l steps, path n s l s' /\ picked (centred opts n) l steps /\
    get lg' "mu" = Ok (LList (l1 ++ map (fun s => LNum (is_mu s)) steps)) /\
    get lg' "mu_effective" = Ok (LList (l2 ++ map (fun s => LNum (average n s)) steps)).
Proof.
  induction fuel as [|fuel IH]; intros s tx lg s' lg' l1 l2 H N K1 K2 G1 G2; cbn [ip_trace] in H;
    apply rbind_inv in H; destruct H as [c [_ H]]; destruct c; try discriminate;
    try (injection H as <- <-; exists [], []; rewrite !app_nil_r; repeat split; auto; constructor).
  apply rbind_inv in H. destruct H as [s1 [B H]]. apply rbind_inv in H. destruct H as [[tx1 lg1] [L H]].
  pose proof (ip_log_step_keys _ _ _ _ _ _ _ L) as Ek.
  destruct (ip_log_step_get _ _ _ _ _ _ _ _ _ N K1 K2 L G1 G2) as [(C & A1 & A2)|(C & A1 & A2)].
  - rewrite <- Ek in N, K1, K2. destruct (IH _ _ _ _ _ _ _ H N K1 K2 A1 A2) as (pl & steps & P & S & M1 & M2).
    exists (s1 :: pl), steps. split; [econstructor; eauto|]. split; [constructor; auto|]. auto.
  - rewrite <- Ek in N, K1, K2. destruct (IH _ _ _ _ _ _ _ H N K1 K2 A1 A2) as (pl & steps & P & S & M1 & M2).
    exists (s1 :: pl), (s1 :: steps). split; [econstructor; eauto|]. split; [constructor; auto|].
    cbn [map]. rewrite <- !app_assoc in M1, M2. auto.
Qed.
Lemma path_packed n s l s' : path n s l s' -> packed n s -> Forall (packed n) l /\ packed n s'.
Proof.
  induction 1 as [|s s1 l s' B P IH]; intros Hs; [split; [constructor|exact Hs]|].
  pose proof (ip_body_packed _ _ _ _ _ _ _ _ _ Hs B) as H1. destruct (IH H1) as [F Q]. split; [|exact Q].
  constructor; assumption.
Qed.
Lemma packed_dual n s : packed n s -> exists v, length v = n /\ length (is_gamma s) = n /\
  is_x s = v ++ is_beta s ++ is_gamma s /\ dual n s = v.
Proof. intros (v & A & B & C). exists v. repeat split; auto. unfold dual. rewrite C. apply (ip_vE n v); auto. Qed.
(** a step that stays near the path sets mu *)
Lemma body_mu n s s' : packed n s -> body n s = Ok s' -> centred opts n s' -> is_mu s' = io_mu_decay opts * average n s'.
Proof.
  intros (v & Hv & Hg & Hx) B C.
  destruct (ip_body_inv _ _ _ _ _ _ _ _ _ _ Hv Hg Hx B) as
    (f & df & dv & db & dg & a & _ & _ & _ & Lv & _ & Lg & _ & Ex & _ & Eg & _ & _ & _ & U).
  assert (D : dual n s' = step_to v dv a).
  { unfold dual. rewrite Ex. apply (ip_vE n (step_to v dv a)). rewrite step_to_length; lia. }
  unfold centred, average in *. rewrite D in *. destruct U as [(U & _)|(_ & U & _)].
  - exfalso. rewrite (vdot_comm (is_gamma s')), (vmul_comm (is_gamma s')) in U. unfold Rdiv in C, U.
    rewrite Rmult_assoc in U. lra.
  - rewrite U. unfold Rdiv. ring.
Qed.
Lemma path_lam n s l s' : io_increase opts = false -> path n s l s' -> packed n s -> is_lam s' = is_lam s.
Proof.
  intros I P. induction P as [|s s1 l s' B P IH]; intros Hs; [reflexivity|].
  rewrite (IH (ip_body_packed _ _ _ _ _ _ _ _ _ Hs B)). destruct Hs as (v & Hv & Hg & Hx).
  destruct (ip_body_inv _ _ _ _ _ _ _ _ _ _ Hv Hg Hx B) as
    (f & df & dv & db & dg & a & _ & _ & _ & Lv & _ & Lg & _ & Ex & _ & Eg & _ & _ & _ & U).
  unfold barrier_update in U. rewrite I in U. destruct U as [(_ & _ & _ & _ & U & _)|(_ & _ & _ & U & _)]; exact U.
Qed.
Lemma path_mu n s l s' steps : path n s l s' -> packed n s -> picked (centred opts n) l steps ->
  Forall (fun s' => is_mu s' = io_mu_decay opts * average n s') steps.
Proof.
  intros P. revert steps. induction P as [|s s1 l s' B P IH]; intros steps Hs S.
  { inversion S. constructor. }
  pose proof (ip_body_packed _ _ _ _ _ _ _ _ _ Hs B) as Hs1.
  inversion S as [|a l0 m C S'|a l0 m C S']; subst.
  - constructor; [exact (body_mu _ _ _ Hs B C)|exact (IH _ Hs1 S')].
  - exact (IH _ Hs1 S').
Qed.
Lemma good_stopE n s b : packed n s -> good_stop calls opts n s = Ok b -> (b = true <-> solved calls opts n s).
Proof.
  intros P H. destruct (packed_dual _ _ P) as (v & A1 & A2 & A3 & A4). unfold good_stop in H.
  apply rbind_inv in H. destruct H as [f [F H]]. injection H as <-. rewrite A3 in F.
  destruct (ip_FE _ _ _ _ _ _ _ _ _ _ A1 A2 F) as [gb [gg [Gb [Gg ->]]]].
  rewrite andb_true_iff, !rltb_true. unfold solved. rewrite A4.
  assert (Q : norm (map (fun a => a - is_mu s) (vmul v (is_gamma s)) ++ gb ++ vsub gg v) =
    sqrt (sqnorm (map (fun a => a - is_mu s) (vmul v (is_gamma s))) + sqnorm gb + sqnorm (vsub gg v))).
  { unfold norm. rewrite !sqnorm_app. f_equal. lra. }
  split.
  - intros [B1 B2]. split; [exact B2|]. eexists. split; [exists gb, gg; split; [exact Gb|]; split; [exact Gg|reflexivity]|].
    rewrite <- Q. exact B1.
  - intros [B2 (r & (gb' & gg' & Gb' & Gg' & ->) & B1)]. rewrite Gb in Gb'. rewrite Gg in Gg'.
    injection Gb' as <-. injection Gg' as <-. rewrite Q. auto.
Qed.
Lemma path_iter n s l s' : packed n s -> path n s l s' -> is_iter s' = (is_iter s + length l)%nat.
Proof. intros P H. apply (ip_steps_iter _ _ _ _ _ _ _ _ _ _ P (path_steps _ _ _ _ H)). Qed.

Lemma sqnorm_entry : forall x i, (i < length x)%nat -> Rabs (nth i x 0) <= norm x.
Proof.
  intros x i H. unfold norm. rewrite <- sqrt_Rsqr_abs. apply sqrt_le_1; [apply Rle_0_sqr|apply sqnorm_nonneg|].
  revert i H. induction x as [|a x IH]; intros i H; [cbn in H; lia|]. destruct i as [|i]; cbn [nth].
  - rewrite sqnorm_cons. pose proof (sqnorm_nonneg x). unfold Rsqr. lra.
  - rewrite sqnorm_cons. cbn [length] in H. specialize (IH i ltac:(lia)). unfold Rsqr in *.
    pose proof (Rle_0_sqr a). unfold Rsqr in *. lra.
Qed.
Lemma solved_near n s : packed_with nonneg n s -> variance_sized calls n -> solved calls opts n s ->
  near_optimal calls s (io_tol opts).
Proof.
  intros (v & Hv & Hg & Hx & Pv & Pg) W (Hm & r & (gb & gg & Gb & Gg & Er) & Hr).
  assert (D : dual n s = v) by (unfold dual; rewrite Hx; apply (ip_vE n v); auto). rewrite D in Er.
  pose proof (W _ _ _ _ _ _ Hg Gg) as Wg. exists gb, gg. split; [exact Gb|]. split; [exact Gg|]. split; [congruence|].
  set (c := map (fun a => a - is_mu s) (vmul v (is_gamma s))) in Er.
  assert (Q : norm (c ++ gb ++ vsub gg v) = r).
  { unfold norm. rewrite !sqnorm_app, Er. f_equal. lra. }
  assert (Lc : length c = n) by (unfold c; rewrite map_length, vmul_length; lia).
  assert (Ld : length (vsub gg v) = n) by (rewrite vsub_length; lia).
  assert (A : forall i, (i < length (c ++ gb ++ vsub gg v))%nat -> Rabs (nth i (c ++ gb ++ vsub gg v) 0) < io_tol opts).
  { intros i H. eapply Rle_lt_trans; [apply sqnorm_entry, H|]. rewrite Q. exact Hr. }
  rewrite !app_length in A. split.
  - intros i Hi. specialize (A (length c + i)%nat ltac:(lia)). rewrite app_nth2_plus, app_nth1 in A by lia. exact A.
  - intros i Hi. rewrite Wg in Hi.
    pose proof (A i ltac:(lia)) as A1. rewrite app_nth1 in A1 by lia.
    pose proof (A (length c + (length gb + i))%nat ltac:(lia)) as A2. rewrite !app_nth2_plus in A2.
    assert (N1 : nth i c 0 = nth i v 0 * nth i (is_gamma s) 0 - is_mu s).
    { unfold c. rewrite (nth_indep _ 0 (0 - is_mu s)) by (fold c; lia).
      rewrite (map_nth (fun a => a - is_mu s)). unfold vmul. rewrite nth_map2 by lia. reflexivity. }
    assert (N2 : nth i (vsub gg v) 0 = nth i gg 0 - nth i v 0) by (unfold vsub; apply nth_map2; lia).
    rewrite N1 in A1. rewrite N2 in A2. apply Rabs_def2 in A1. apply Rabs_def2 in A2.
    assert (V : 0 <= nth i v 0) by (apply (proj1 (Forall_forall _ _) Pv); apply nth_In; lia).
    assert (G : 0 <= nth i (is_gamma s) 0) by (apply (proj1 (Forall_forall _ _) Pg); apply nth_In; lia).
    split; [exact G|]. split; [lra|].
    assert (nth i (is_gamma s) 0 * nth i gg 0 <= nth i (is_gamma s) 0 * (nth i v 0 + io_tol opts))
      by (apply Rmult_le_compat_l; lra).
    lra.
Qed.

(** ** the whole method *)
Lemma find_ip_logged warm mem beta gamma tb tg lg lg' : tg <> [] ->
  length (start_gamma warm mem gamma) = length gamma -> NoDup (lg_keys lg) ->
  find_ip_log calls opts p q solve ms warm mem beta gamma tb tg lg = Ok lg' ->
  exists path s mem',
    find_ip calls opts p q solve ms warm mem beta gamma tb tg =
      Ok (is_beta s, is_gamma s, is_tbeta s, is_tgamma s, mem') /\
    ip_path calls opts p q solve ms (length gamma) (ip_start warm mem beta gamma tb tg) path s /\
    (Z.of_nat (length path) <= Z.max 0 (io_n_iter opts))%Z /\ (0 < length gamma)%nat /\
    ip_logged calls opts (length gamma) path s lg'.
Proof.
  intros T L N H. unfold find_ip_log in H. destruct tg as [|t tg]; [congruence|].
  apply rbind_inv in H. destruct H as [u [U H]]. pose proof U as U'. apply guard_inv, Nat.ltb_lt in U'.
  apply rbind_inv in H. destruct H as [l1 [H1 H]]. apply rbind_inv in H. destruct H as [l2 [H2 H]].
  apply rbind_inv in H. destruct H as [[s l3] [H3 H]]. apply rbind_inv in H. destruct H as [b [Gb H]].
  apply rbind_inv in H. destruct H as [l4 [H4 H]].
  pose proof (ip_startE (length gamma) warm mem beta gamma tb (t :: tg) eq_refl) as St. cbv zeta in St.
  set (s0 := ip_start warm mem beta gamma tb (t :: tg)) in *.
  assert (P0 : packed (length gamma) s0).
  { exists (ones (length gamma)). split; [apply repeat_length|]. split; [|apply St]. destruct St as (_ & _ & -> & _). exact L. }
  assert (N2 : NoDup (lg_keys l2)) by eauto using add_NoDup.
  assert (K1 : In "mu" (lg_keys l2)) by eauto using add_has.
  assert (K2 : In "mu_effective" (lg_keys l2)) by (eapply add_keeps; [exact H2|eauto using add_has]).
  assert (G1 : get l2 "mu" = Ok (LList [])) by (rewrite (add_get _ _ _ _ _ H2); reflexivity).
  assert (G2 : get l2 "mu_effective" = Ok (LList [])).
  { rewrite (add_get _ _ _ _ _ H2). cbn [String.eqb]. rewrite (add_get _ _ _ _ _ H1). reflexivity. }
  destruct (ip_trace_path _ _ _ _ _ _ _ _ _ H3 N2 K1 K2 G1 G2) as (pl & steps & P & S & M1 & M2).
  pose proof (ip_trace_loop _ _ _ _ _ _ _ H3) as Lp.
  exists pl, s. eexists. split.
  { unfold find_ip. fold s0. rewrite U. cbn [rbind]. rewrite Lp. cbn [rbind]. reflexivity. }
  split; [exact P|]. split.
  { pose proof (path_iter _ _ _ _ P0 P) as I. destruct (ip_loop_steps _ _ _ _ _ _ _ _ _ _ Lp) as [k [K [Sk _]]].
    pose proof (ip_steps_iter _ _ _ _ _ _ _ _ _ _ P0 Sk). lia. }
  split; [exact U'|]. destruct (path_packed _ _ _ _ P P0) as [_ Ps].
  split; [|split].
  - rewrite (add_get _ _ _ _ _ H). rewrite (path_iter _ _ _ _ P0 P).
    destruct St as (_ & _ & _ & _ & _ & -> & _). reflexivity.
  - exists steps. split; [exact S|]. split; [|split].
    + rewrite (add_get _ _ _ _ _ H), (add_get _ _ _ _ _ H4). unfold numbers. rewrite map_map. exact M1.
    + rewrite (add_get _ _ _ _ _ H), (add_get _ _ _ _ _ H4). unfold numbers. rewrite map_map. exact M2.
    + eapply path_mu; eassumption.
  - exists b. split; [|apply good_stopE; assumption].
    rewrite (add_get _ _ _ _ _ H), (add_get _ _ _ _ _ H4). reflexivity.
Qed.

(** ** requested names *)
Definition records (k : string) (n : nat) (f : ip_state -> ip_state -> lval) : Prop :=
  forall s s' a d tx, lookup k (ip_locals opts n s s' a d tx) = Some (f s s').
Lemma recorded_local n k f : In (k, f) (ip_recorded opts n) ->
  records k n f /\ k <> "mu" /\ k <> "mu_effective" /\ k <> "good_stopping_reason" /\ k <> "iteration".
Proof.
  intros H. cbn [ip_recorded In] in H. unfold records.
  repeat (destruct H as [H|H]; [injection H as <- <-; split; [intros; reflexivity|repeat split; discriminate]|]). destruct H.
Qed.
Lemma ip_log_step_record n k f s s' tx lg tx' lg' l : records k n f -> NoDup (lg_keys lg) -> In k (lg_keys lg) ->
  ip_log_step calls opts solve n s s' tx lg = Ok (tx', lg') -> get lg k = Ok (LList l) ->
  (~ centred opts n s' /\ get lg' k = Ok (LList l)) \/ (centred opts n s' /\ get lg' k = Ok (LList (l ++ [f s s']))).
Proof.
  intros F N K H G. unfold ip_log_step in H. destruct (ip_off_path opts n s') eqn:E.
  { injection H as _ <-. left. apply ip_off_pathE in E. auto. }
  right. split.
  { destruct (Classical_Prop.classic (centred opts n s')) as [C|C]; [exact C|]. apply ip_off_pathE in C. congruence. }
  apply rbind_inv in H. destruct H as [a [_ H]]. apply rbind_inv in H. destruct H as [df [_ H]].
  apply rbind_inv in H. destruct H as [d [_ H]]. cbv zeta in H. apply rbind_inv in H. destruct H as [lg1 [L H]].
  injection H as _ <-. assert (P : (0 <? length (lg_keys lg))%nat = true).
  { apply Nat.ltb_lt. destruct (lg_keys lg); [destruct K|cbn; lia]. }
  rewrite P in L. pose proof (log_lookup _ _ _ N L k) as Q. apply has_key_In in K. unfold get in *. rewrite Q, K.
  destruct (lookup k (lg_dict lg)) as [o|]; [|discriminate]. injection G as ->. cbn [option_map]. unfold logged. rewrite F. reflexivity.
Qed.
Lemma ip_trace_record n k f : records k n f -> forall fuel s tx lg s' lg' l, trace n fuel s tx lg = Ok (s', lg') ->
  NoDup (lg_keys lg) -> In k (lg_keys lg) -> get lg k = Ok (LList l) ->
  exists pl steps, path n s pl s' /\ picked (fun t => centred opts n (snd t)) (iterations_of s pl) steps /\
    get lg' k = Ok (LList (l ++ map (fun t => f (fst t) (snd t)) steps)).
Proof.
  intros F. induction fuel as [|fuel IH]; intros s tx lg s' lg' l H N K G; cbn [ip_trace] in H;
    apply rbind_inv in H; destruct H as [c [_ H]]; destruct c; try discriminate;
    try (injection H as <- <-; exists [], []; cbn [map]; rewrite app_nil_r; repeat split; auto; constructor).
  apply rbind_inv in H. destruct H as [s1 [B H]]. apply rbind_inv in H. destruct H as [[tx1 lg1] [L H]].
  pose proof (ip_log_step_keys _ _ _ _ _ _ _ L) as Ek.
  destruct (ip_log_step_record _ _ _ _ _ _ _ _ _ _ F N K L G) as [[C A]|[C A]];
    rewrite <- Ek in N, K; destruct (IH _ _ _ _ _ _ H N K A) as (pl & steps & P & S & M).
  - exists (s1 :: pl), steps. split; [econstructor; eauto|]. split; [apply picked_no; [exact C|exact S]|exact M].
  - exists (s1 :: pl), ((s, s1) :: steps). split; [econstructor; eauto|]. split; [apply picked_yes; [exact C|exact S]|].
    cbn [map fst snd]. rewrite <- app_assoc in M. exact M.
Qed.
Lemma find_ip_record warm mem beta gamma tb tg lg lg' k f l : tg <> [] ->
  length (start_gamma warm mem gamma) = length gamma -> NoDup (lg_keys lg) ->
  find_ip_log calls opts p q solve ms warm mem beta gamma tb tg lg = Ok lg' ->
  In (k, f) (ip_recorded opts (length gamma)) -> In k (lg_keys lg) -> get lg k = Ok (LList l) ->
  let s0 := ip_start warm mem beta gamma tb tg in
  exists pl s steps, path (length gamma) s0 pl s /\ get lg' "iteration" = Ok (LAtom (LNum (INR (length pl)))) /\
    picked (fun t => centred opts (length gamma) (snd t)) (iterations_of s0 pl) steps /\
    get lg' k = Ok (LList (l ++ map (fun t => f (fst t) (snd t)) steps)).
Proof.
  intros T L N H I K G s0. unfold find_ip_log in H. destruct tg as [|t tg]; [congruence|].
  apply rbind_inv in H. destruct H as [u [U H]].
  apply rbind_inv in H. destruct H as [l1 [H1 H]]. apply rbind_inv in H. destruct H as [l2 [H2 H]].
  apply rbind_inv in H. destruct H as [[s l3] [H3 H]]. apply rbind_inv in H. destruct H as [b [Gb H]].
  apply rbind_inv in H. destruct H as [l4 [H4 H]].
  destruct (recorded_local _ _ _ I) as (F & D1 & D2 & D3 & D4).
  apply String.eqb_neq in D1, D2, D3, D4.
  pose proof (ip_startE (length gamma) warm mem beta gamma tb (t :: tg) eq_refl) as St. cbv zeta in St. fold s0 in St.
  assert (P0 : packed (length gamma) s0).
  { exists (ones (length gamma)). split; [apply repeat_length|]. split; [|apply St]. destruct St as (_ & _ & -> & _). exact L. }
  assert (N2 : NoDup (lg_keys l2)) by eauto using add_NoDup.
  assert (K2 : In k (lg_keys l2)) by eauto using add_keeps.
  assert (G2 : get l2 k = Ok (LList l)) by (rewrite (add_get _ _ _ _ _ H2), D1, (add_get _ _ _ _ _ H1), D2; exact G).
  destruct (ip_trace_record _ _ _ F _ _ _ _ _ _ _ H3 N2 K2 G2) as (pl & steps & P & S & M).
  exists pl, s, steps. split; [exact P|]. split.
  { rewrite (add_get _ _ _ _ _ H), (path_iter _ _ _ _ P0 P). destruct St as (_ & _ & _ & _ & _ & -> & _). reflexivity. }
  split; [exact S|]. rewrite (add_get _ _ _ _ _ H), D4, (add_get _ _ _ _ _ H4), D3. exact M.
Qed.
End Trace.
