(** Final lemmas about the index map and the iterative routines of the mixed-model oracle, restated as theorems in
    Properties/LmeInner.v. *)
(*HEAD
(** Properties C45, C46, C48-C50, C70, C71: packing, the index map and the iterative routines of the mixed-model
    oracles (src/pysr3/lme/oracles.py). *)
From Verif.Base Require Import Py Vec Mat.
From Verif.Model Require Import LmeProblem Regularizers Solvers LmeInner.
From Verif.Spec Require Import SolverSpec InnerSpec.
HEAD*)
(*OPEN
Open Scope list_scope.
Open Scope R_scope.
OPEN*)
From Coq Require Import Lra Psatz String.
From Verif.Base Require Import Py Vec Mat.
From Verif.Model Require Import LmeProblem Regularizers Solvers LmeInner.
From Verif.Spec Require Import SolverSpec InnerSpec.
From Verif.Proofs Require Import VecFacts MatFacts SolverProofs InnerProofs InnerLoops InnerIP InnerGamma.
Open Scope list_scope.
Open Scope R_scope.

(** ** runs of the sample oracle *)
Lemma knows_ok d : solve_ok (knows d).
Proof. intros a b x. unfold knows. destruct (list_eq_dec Req_EM_T (mv a d) b); intros H; inversion H; subst; auto. Qed.
Lemma bowl_shaped p n : well_shaped bowl p n.
Proof.
  intros l b g tb tg Hb Hg. cbn. split; [|split; [|split; [|split]]]; intros r H; inversion H; subst; auto.
  - apply map_length.
  - apply eye_shape.
  - split; [apply repeat_length|]. unfold wf_mat. apply Forall_forall. intros x Hx. apply repeat_spec in Hx. subst x.
    apply zeros_length.
  - apply eye_shape.
Qed.
Lemma bowl_body d n_iter g : (d = [-95/100; 0; 5/100] /\ g = 1) \/ (d = [-2; 0; 0] /\ g = 0) ->
  exists s, ip_body bowl (plain_options n_iter) 1 1 (knows d) no_minimiser 1
  (ip_start true fresh_memory [0] [g] [0] [g]) = Ok s.
Proof.
  intros HD. unfold ip_body, ip_start, ip_F, ip_dF.
  cbn -[rltb max_step norm knows tr hcat diag vdot Rdiv vadd vscale vneg eye ip_mask].
  unfold knows at 1.
  match goal with |- context[list_eq_dec ?e ?a ?b] => destruct (list_eq_dec e a b) as [E|E] end.
  2:{ exfalso. apply E. destruct HD as [[-> ->]|[-> ->]]; cbn; repeat (apply f_equal2; [lra|]); reflexivity. }
  assert (L : length d = 3%nat) by (destruct HD as [[-> _]|[-> _]]; reflexivity).
  cbn [rbind]. rewrite L. cbn [rbind guard length Nat.eqb].
  destruct (rltb _ _); eexists; reflexivity.
Qed.
Lemma bowl_run : exists r, find_ip bowl (plain_options 1) 1 1 (knows [-95/100; 0; 5/100]) no_minimiser true fresh_memory
  [0] [1] [0] [1] = Ok r.
Proof.
  destruct (bowl_body [-95/100; 0; 5/100] 1 1 (or_introl (conj eq_refl eq_refl))) as [s B].
  unfold find_ip. cbn [length Nat.ltb Nat.leb guard rbind]. change (Z.to_nat (io_n_iter (plain_options 1))) with 1%nat.
  assert (C : ip_continue bowl (plain_options 1) 1 (ip_start true fresh_memory [0] [1] [0] [1]) = Ok true).
  { unfold ip_continue, ip_start, ip_F. cbn -[rltb norm vdot Rdiv nonzero].
    replace (nonzero 1) with true by (symmetry; apply nonzero_true; lra). cbn [andb].
    replace (rltb (/ 1000000) (/ 10 * vdot [1] [1] / 1)) with true; [rewrite orb_true_r; reflexivity|].
    symmetry. apply rltb_true. unfold vdot. cbn. lra. }
  cbn [ip_loop]. rewrite C. cbn [rbind]. rewrite B. cbn [rbind ip_loop].
  assert (D : ip_continue bowl (plain_options 1) 1 s = Ok false).
  { unfold ip_continue. rewrite (ip_body_iter _ _ _ _ _ _ _ _ _ B). cbn [ip_start is_iter sm_warm fresh_memory].
    rewrite andb_comm. reflexivity. }
  rewrite D. cbn [rbind]. eexists. reflexivity.
Qed.

(*@ C45.  Unpacking undoes packing, and packing undoes unpacking of vectors of length p + q. *)
Lemma packing_roundtrip_lemma : forall A p q,
  (forall b g : list A, length b = p -> length g = q -> x_to_beta_gamma p q (beta_gamma_to_x b g) = (b, g)) /\
  (forall x : list A, length x = (p + q)%nat ->
     beta_gamma_to_x (fst (x_to_beta_gamma p q x)) (snd (x_to_beta_gamma p q x)) = x /\
     length (fst (x_to_beta_gamma p q x)) = p /\ length (snd (x_to_beta_gamma p q x)) = q).
Proof.
  intros A p q. split.
  - intros b g <- <-. apply unpack_pack.
  - intros x H. pose proof (pack_unpack p q x H) as P. destruct (x_to_beta_gamma p q x). exact P.
Qed.
(*@ *)
Lemma ex_packing_roundtrip_lemma : length [1; 2; 3] = (2 + 1)%nat /\ x_to_beta_gamma 2 1 [1; 2; 3] = ([1; 2], [3]).
Proof. split; reflexivity. Qed.

(*@ C45.  The loss and the gradient on packed parameters are those on the two parts, packed alike. *)
Lemma joint_calls_unpack_lemma : forall loss gb gg b g rb rg p q,
  length b = p -> length g = q -> gb b g = Ok rb -> gg b g = Ok rg -> length rb = p -> length rg = q ->
  joint_loss p q loss (beta_gamma_to_x b g) = loss b g /\
  joint_gradient p q gb gg (beta_gamma_to_x b g) = Ok (beta_gamma_to_x rb rg).
Proof.
  intros loss gb gg b g rb rg p q Lb Lg Gb Gg Rb Rg. subst p q. unfold joint_loss, joint_gradient.
  rewrite unpack_pack. split; [reflexivity|]. rewrite Gb. cbn [rbind]. rewrite Rb, Nat.eqb_refl. cbn [guard rbind].
  rewrite Gg. cbn [rbind]. rewrite Rg, Nat.eqb_refl. cbn [guard rbind]. f_equal. unfold beta_gamma_to_x.
  rewrite app_length. replace (length b + length g - length b - length g)%nat with 0%nat by lia.
  unfold zeros. cbn [repeat]. rewrite app_nil_r. reflexivity.
Qed.
(*@ *)
Lemma ex_joint_calls_unpack_lemma :
  joint_gradient 1 2 (fun b _ => Ok b) (fun _ g => Ok (vneg g)) (beta_gamma_to_x [1] [2; 3]) = Ok [1; - (2); - (3)].
Proof. reflexivity. Qed.

(*@ C46.  The index map has one entry per fixed effect.  The entry of the fixed effect of a column is the position of
    the random effect of the same column, -1 if it has none; the intercept is the first column. *)
Lemma index_map_pairs_lemma : forall pr, exists m, beta_to_gamma_map pr = Ok m /\ length m = num_fixed pr /\
  (forall c l, nth_error (columns_of pr) c = Some l -> is_fixed l = true ->
     nth_error m (rank is_fixed (columns_of pr) c) =
     Some (if is_random l then Z.of_nat (rank is_random (columns_of pr) c) else (-1)%Z)) /\
  (forall i, (i < num_fixed pr)%nat -> exists c l, nth_error (columns_of pr) c = Some l /\ is_fixed l = true /\
     rank is_fixed (columns_of pr) c = i) /\
  (forall c l, nth_error (columns_of pr) c = Some l -> is_random l = true ->
     (rank is_random (columns_of pr) c < num_random pr)%nat).
Proof.
  intros pr. exists (pairing (columns_of pr) 0). split; [apply beta_to_gamma_mapE|].
  split; [rewrite pairing_length; apply columns_fixed|]. split; [|split].
  - intros c l H F. apply (pairing_nth (columns_of pr) 0 c l H F).
  - intros i Hi. apply rank_onto. rewrite columns_fixed. exact Hi.
  - intros c l H F. rewrite <- columns_random. eapply rank_lt; eauto.
Qed.
(*@ *)
Lemma ex_index_map_pairs_lemma : forall pr, pr_intercept pr = Some FIXED_RANDOM ->
  pr_labels pr = [GROUP; FIXED; RANDOM; FIXED_RANDOM] -> beta_to_gamma_map pr = Ok [0; -1; 2]%Z.
Proof. intros pr H1 H2. rewrite beta_to_gamma_mapE. unfold columns_of. rewrite H1, H2. reflexivity. Qed.

(*@ C48.  The interior-point loop ends for all inputs and all histories of the oracle. *)
Lemma interior_point_terminates_lemma : forall calls opts p q solve ms warm mem beta gamma tbeta tgamma,
  ip_calls_return calls opts solve ms ->
  find_ip calls opts p q solve ms warm mem beta gamma tbeta tgamma <> Err OutOfFuel.
Proof. intros. apply find_ip_oof. auto. Qed.
(*@ *)
Lemma ex_interior_point_terminates_lemma : ip_calls_return bowl (plain_options 1) (knows [-95/100; 0; 5/100]) no_minimiser.
Proof.
  unfold ip_calls_return, no_oof. cbn.
  repeat split; intros; try discriminate.
  unfold knows. destruct (list_eq_dec _ _ _); discriminate.
Qed.

(*@ C48.  What it returns has been reached by at most n_iter_inner iterations from the starting point, and the
    loop ended for one of its four reasons; beta and gamma are remembered for the next call. *)
Lemma interior_point_stops_lemma : forall calls opts p q solve ms warm mem beta gamma tbeta tgamma b' g' tb' tg' mem',
  tgamma <> [] -> length (start_gamma warm mem gamma) = length gamma ->
  find_ip calls opts p q solve ms warm mem beta gamma tbeta tgamma = Ok (b', g', tb', tg', mem') ->
  exists k s v, (Z.of_nat k <= Z.max 0 (io_n_iter opts))%Z /\ is_iter s = k /\
    ip_steps calls opts p q solve ms (length gamma) k (ip_start warm mem beta gamma tbeta tgamma) s /\
    b' = is_beta s /\ g' = is_gamma s /\ tb' = is_tbeta s /\ tg' = is_tgamma s /\
    length v = length gamma /\ length g' = length gamma /\ is_x s = v ++ b' ++ g' /\
    stop_reason calls opts s v /\
    sm_lam mem' = is_lam s /\ sm_warm mem' = (if warm then Some (b', g') else sm_warm mem).
Proof.
  intros calls opts p q solve ms warm mem beta gamma tbeta tgamma b' g' tb' tg' mem' T L H.
  destruct (find_ip_inv _ _ _ _ _ _ _ _ _ _ _ _ _ _ _ _ _ T H) as (k & s & K & St & C & N & E1 & E2 & E3 & E4 & E5 & E6).
  destruct (ip_startE (length gamma) warm mem beta gamma tbeta tgamma eq_refl) as (X & Bs & Gs & _ & _ & I & _).
  assert (P0 : packed (length gamma) (ip_start warm mem beta gamma tbeta tgamma)).
  { exists (ones (length gamma)). split; [apply ones_length|]. split; [rewrite Gs; auto|exact X]. }
  destruct (ip_steps_iter _ _ _ _ _ _ _ _ _ _ P0 St) as [It _].
  assert (P : packed (length gamma) s).
  { eapply (ip_steps_inv _ _ _ _ _ _ _ (packed (length gamma))); [|exact St|exact P0].
    intros. eapply ip_body_packed; eauto. }
  destruct P as [v [Hv [Hg Hx]]].
  exists k, s, v. subst b' g'. rewrite I in It. repeat (split; [solve [auto]|]).
  split; [eapply ip_stop; eauto|]. auto.
Qed.
(*@ *)
Lemma ex_interior_point_stops_lemma : exists r,
  find_ip bowl (plain_options 1) 1 1 (knows [-95/100; 0; 5/100]) no_minimiser true fresh_memory [0] [1] [0] [1] = Ok r.
Proof. exact bowl_run. Qed.

(*@ C48, partial: from positive variances every iterate has positive variances and positive dual variables;
    with a line search, if the minimiser does not return the end of its interval. *)
Lemma interior_point_positive_partial_lemma : forall calls opts p q solve ms warm mem beta gamma tbeta tgamma k s,
  (0 < length gamma)%nat -> length (start_gamma warm mem gamma) = length gamma ->
  positive (start_gamma warm mem gamma) ->
  (io_line_search opts = true -> minimiser_inside ms) ->
  ip_steps calls opts p q solve ms (length gamma) k (ip_start warm mem beta gamma tbeta tgamma) s ->
  packed_with positive (length gamma) s.
Proof.
  intros calls opts p q solve ms warm mem beta gamma tbeta tgamma k s N L P Hms St.
  destruct (ip_startE (length gamma) warm mem beta gamma tbeta tgamma eq_refl) as (X & Bs & Gs & _).
  eapply (ip_steps_inv _ _ _ _ _ _ _ (packed_with positive (length gamma))); [|exact St|].
  - intros. eapply ip_body_positive; eauto.
  - exists (ones (length gamma)). split; [apply ones_length|]. split; [rewrite Gs; auto|]. split; [exact X|]. rewrite Gs.
    split; auto. apply ones_positive.
Qed.
(*@ *)
Lemma ex_interior_point_positive_partial_lemma :
  positive (start_gamma true fresh_memory [1]) /\ io_line_search (plain_options 1) = false /\
  exists s, ip_steps bowl (plain_options 1) 1 1 (knows [-95/100; 0; 5/100]) no_minimiser 1 1
              (ip_start true fresh_memory [0] [1] [0] [1]) s.
Proof.
  split; [repeat constructor; lra|]. split; [reflexivity|].
  destruct (bowl_body [-95/100; 0; 5/100] 1 1 (or_introl (conj eq_refl eq_refl))) as [s B].
  exists s. econstructor; [exact B|constructor].
Qed.

(*@ C48, partial: from non-negative variances every iterate stays non-negative, for every answer of the bounded
    minimiser within its interval. *)
Lemma interior_point_nonneg_partial_lemma : forall calls opts p q solve ms warm mem beta gamma tbeta tgamma k s,
  (0 < length gamma)%nat -> length (start_gamma warm mem gamma) = length gamma ->
  nonneg (start_gamma warm mem gamma) ->
  (io_line_search opts = true -> minimiser_in_bounds ms) ->
  ip_steps calls opts p q solve ms (length gamma) k (ip_start warm mem beta gamma tbeta tgamma) s ->
  packed_with nonneg (length gamma) s.
Proof.
  intros calls opts p q solve ms warm mem beta gamma tbeta tgamma k s N L P Hms St.
  destruct (ip_startE (length gamma) warm mem beta gamma tbeta tgamma eq_refl) as (X & Bs & Gs & _).
  eapply (ip_steps_inv _ _ _ _ _ _ _ (packed_with nonneg (length gamma))); [|exact St|].
  - intros. eapply ip_body_nonneg; eauto.
  - exists (ones (length gamma)). split; [apply ones_length|]. split; [rewrite Gs; auto|]. split; [exact X|]. rewrite Gs.
    split; auto. apply positive_nonneg, ones_positive.
Qed.
(*@ *)
Lemma ex_interior_point_nonneg_partial_lemma :
  nonneg (start_gamma true fresh_memory [0]) /\ minimiser_in_bounds (fun _ hi => Ok hi) /\
  exists s, ip_steps bowl (plain_options 1) 1 1 (knows [-2; 0; 0]) no_minimiser 1 1
              (ip_start true fresh_memory [0] [0] [0] [0]) s.
Proof.
  split; [repeat constructor; lra|].
  split; [intros f hi a H E; inversion E; subst; lra|].
  destruct (bowl_body [-2; 0; 0] 1 0 (or_intror (conj eq_refl eq_refl))) as [s B].
  exists s. econstructor; [exact B|constructor].
Qed.

(*@ C48, refuted: started with a variance equal to zero, an iterate need not be positive. *)
Lemma interior_point_positive_refuted_lemma : exists calls opts solve ms mem beta gamma tbeta tgamma s,
  solve_ok solve /\ nonneg gamma /\ length gamma = 1%nat /\
  ip_steps calls opts 1 1 solve ms 1 1 (ip_start true mem beta gamma tbeta tgamma) s /\ ~ positive (is_gamma s).
Proof.
  destruct (bowl_body [-2; 0; 0] 1 0 (or_intror (conj eq_refl eq_refl))) as [s B].
  exists bowl, (plain_options 1), (knows [-2; 0; 0]), no_minimiser, fresh_memory, [0], [0], [0], [0], s.
  split; [apply knows_ok|]. split; [repeat constructor; lra|]. split; [reflexivity|].
  split; [econstructor; [exact B|constructor]|].
  assert (S : stuck 1 s).
  { eapply (ip_body_stuck bowl (plain_options 1) 1 1 (knows [-2; 0; 0]) no_minimiser 1); [lia | apply knows_ok | discriminate | | exact B].
    split; [|split; [reflexivity|]].
    - cbn -[vdot Rdiv]. unfold vdot. cbn. lra.
    - exists [1]. repeat split. repeat constructor. lra. }
  destruct S as [_ [-> _]]. intros P. inversion P; subst. lra.
Qed.

(*@ C48.  The returned relaxed variances are non-negative if those given are and the prox keeps them so. *)
Lemma relaxed_variances_nonneg_lemma : forall calls opts p q solve ms warm mem beta gamma tbeta tgamma b' g' tb' tg' mem',
  length (start_gamma warm mem gamma) = length gamma -> nonneg tgamma ->
  (forall pr x tx, io_prox opts = Some pr -> pr x (io_prox_step opts) = Ok tx -> nonneg (snd (x_to_beta_gamma p q tx))) ->
  find_ip calls opts p q solve ms warm mem beta gamma tbeta tgamma = Ok (b', g', tb', tg', mem') ->
  nonneg tg'.
Proof.
  intros calls opts p q solve ms warm mem beta gamma tbeta tgamma b' g' tb' tg' mem' L N Hp H.
  destruct (list_eq_dec Req_EM_T tgamma []) as [->|T].
  { unfold find_ip in H. apply rbind_inv in H. destruct H as [b [_ H]]. inversion H; subst. constructor. }
  destruct (find_ip_inv _ _ _ _ _ _ _ _ _ _ _ _ _ _ _ _ _ T H) as (k & s & K & St & C & Nn & _ & _ & _ & E4 & _).
  destruct (ip_startE (length gamma) warm mem beta gamma tbeta tgamma eq_refl) as (X & Bs & Gs & _ & Ts & _).
  assert (P : packed (length gamma) s /\ nonneg (is_tgamma s)); [|subst tg'; tauto].
  eapply (ip_steps_inv _ _ _ _ _ _ _ (fun s => packed (length gamma) s /\ nonneg (is_tgamma s))); [|exact St|].
  - intros s0 s1 [P1 P2] B. split; [eapply ip_body_packed; eauto|].
    destruct P1 as [v [Hv [Hg Hx]]].
    destruct (ip_body_inv _ _ _ _ _ _ _ _ _ _ Hv Hg Hx B) as
      (f & df & dv & db & dg & a & _ & _ & _ & _ & _ & _ & _ & _ & _ & _ & _ & _ & _ & U).
    destruct U as [(_ & _ & -> & _)|(_ & _ & [(pr & tx & E1 & _ & _ & E5 & _ & ->)|(_ & _ & ->)] & _)]; auto.
    apply (Hp pr _ _ E1 E5).
  - split; [|rewrite Ts; auto]. exists (ones (length gamma)). split; [apply ones_length|]. split; [rewrite Gs; auto|exact X].
Qed.
(*@ *)
Lemma ex_relaxed_variances_nonneg_lemma : nonneg [1] /\ io_prox (plain_options 1) = None /\ exists r,
  find_ip bowl (plain_options 1) 1 1 (knows [-95/100; 0; 5/100]) no_minimiser true fresh_memory [0] [1] [0] [1] = Ok r.
Proof. split; [repeat constructor; lra|]. split; [reflexivity|exact bowl_run]. Qed.

(*@ C71.  Every iteration moves along a Newton direction of the optimality conditions, by 0.99 of the largest step
    in [0, 1] that keeps the variances and dual variables non-negative, or by what the bounded minimiser answers;
    then the barrier, the relaxed variables and the weights of the relaxation are updated. *)
Lemma interior_point_newton_lemma : forall calls opts p q solve ms warm mem beta gamma tbeta tgamma k s s',
  (0 < length gamma)%nat -> length (start_gamma warm mem gamma) = length gamma ->
  nonneg (start_gamma warm mem gamma) ->
  (io_line_search opts = true -> minimiser_in_bounds ms) -> solve_ok solve ->
  well_shaped calls (length (start_beta warm mem beta)) (length gamma) ->
  ip_steps calls opts p q solve ms (length gamma) k (ip_start warm mem beta gamma tbeta tgamma) s ->
  ip_body calls opts p q solve ms (length gamma) s = Ok s' ->
  exists v dv db dg a hi, is_x s = v ++ is_beta s ++ is_gamma s /\
    length v = length gamma /\ length dv = length gamma /\ length db = length (start_beta warm mem beta) /\
    length dg = length gamma /\
    newton_direction calls (length gamma) s v dv db dg /\
    largest_step (v ++ is_gamma s) (dv ++ dg) hi /\
    (io_line_search opts = false -> a = 99 / 100 * hi) /\ (io_line_search opts = true -> 0 <= a <= hi) /\
    is_x s' = step_to v dv a ++ is_beta s' ++ is_gamma s' /\
    is_beta s' = step_to (is_beta s) db a /\ is_gamma s' = step_to (is_gamma s) dg a /\
    is_step s' = a /\ is_iter s' = S (is_iter s) /\
    is_prev s' = Some (is_tbeta s, is_tgamma s, is_beta s, is_gamma s) /\
    barrier_update opts p q (length gamma) s s' (step_to v dv a).
Proof.
  intros calls opts p q solve ms warm mem beta gamma tbeta tgamma k s s' N L P Hms So W St B.
  pose proof (interior_point_nonneg_partial_lemma _ _ _ _ _ _ _ _ beta gamma tbeta tgamma _ _ N L P Hms St) as PN.
  destruct (ip_startE (length gamma) warm mem beta gamma tbeta tgamma eq_refl) as (X & Bs & Gs & _).
  assert (P0 : packed (length gamma) (ip_start warm mem beta gamma tbeta tgamma)).
  { exists (ones (length gamma)). split; [apply ones_length|]. split; [rewrite Gs; auto|exact X]. }
  destruct (ip_steps_iter _ _ _ _ _ _ _ _ _ _ P0 St) as [_ Lb]. rewrite Bs in Lb.
  destruct PN as [v [Hv [Hg [Hx [Pv Pg]]]]].
  destruct (ip_body_inv _ _ _ _ _ _ _ _ _ _ Hv Hg Hx B) as
    (f & df & dv & db & dg & a & Ff & Fd & Fs & Lv & Ldb & Lg & Ha & Ex & Eb & Eg & Es & Ei & Ep & U).
  set (hi := max_step (ip_mask (length gamma) (is_x s)) (is_x s) (dv ++ db ++ dg)) in *.
  assert (F : feasible (ip_mask (length gamma) (is_x s)) (is_x s)).
  { unfold feasible. rewrite Hx, ip_mask_select by auto. apply nonneg_app. auto. }
  assert (DL : length (dv ++ db ++ dg) = length (is_x s)) by (rewrite Hx, !app_length; lia).
  assert (LS : largest_step (v ++ is_gamma s) (dv ++ dg) hi).
  { split; [split; [apply max_step_nonneg; auto | apply max_step_le1]|].
    intros t Ht. unfold hi. rewrite max_step_feasible by auto. unfold feasible. rewrite Hx.
    rewrite !step_to_app by lia. rewrite ip_mask_select; auto; try (rewrite step_to_length; lia). reflexivity. }
  exists v, dv, db, dg, a, hi. rewrite <- Lb.
  split; [exact Hx|]. split; [auto|]. split; [auto|]. split; [auto|]. split; [auto|].
  split; [eapply newton_lemma; eauto; rewrite Lb; auto|]. split; [exact LS|].
  split; [intros E; rewrite E in Ha; exact Ha|].
  split; [intros E; rewrite E in Ha; apply (Hms E _ _ _ (proj1 (proj1 LS)) Ha)|].
  repeat (split; [assumption|]). exact U.
Qed.
(*@ *)
Lemma ex_interior_point_newton_lemma : solve_ok (knows [-95/100; 0; 5/100]) /\ well_shaped bowl 1 1 /\
  exists s', ip_body bowl (plain_options 1) 1 1 (knows [-95/100; 0; 5/100]) no_minimiser 1
              (ip_start true fresh_memory [0] [1] [0] [1]) = Ok s'.
Proof.
  split; [apply knows_ok|]. split; [apply bowl_shaped|].
  apply bowl_body. left. auto.
Qed.

(*@ C70, refuted: started from zero variances (without anything remembered) the interior-point method returns zero
    variances, whatever the data, for every oracle, regularizer and number of iterations. *)
Lemma zero_variances_trapped_refuted_lemma :
  (forall calls opts p q solve ms warm mem beta gamma tbeta tgamma b' g' tb' tg' mem',
     solve_ok solve -> (io_line_search opts = true -> minimiser_inside ms) ->
     start_gamma warm mem gamma = zeros (length gamma) -> tgamma <> [] ->
     find_ip calls opts p q solve ms warm mem beta gamma tbeta tgamma = Ok (b', g', tb', tg', mem') ->
     g' = zeros (length gamma)) /\
  (* although the minimum may be elsewhere *)
  (exists calls : sr3_calls, (forall l b g tb tg, length b = 1%nat -> length g = 1%nat ->
      exists r r1, sc_loss calls l b g tb tg = Ok r /\ sc_loss calls l [0] [1] tb tg = Ok r1 /\ r1 <= r /\
                   (r = r1 -> b = [0] /\ g = [1])) /\
   exists solve r, solve_ok solve /\
     find_ip calls (plain_options 1) 1 1 solve no_minimiser true fresh_memory [0] [0] [0] [0] = Ok r).
Proof.
  split.
  - intros calls opts p q solve ms warm mem beta gamma tbeta tgamma b' g' tb' tg' mem' So Hms Z T H.
    destruct (find_ip_inv _ _ _ _ _ _ _ _ _ _ _ _ _ _ _ _ _ T H) as (k & s & K & St & C & Nn & _ & E2 & _).
    destruct (ip_startE (length gamma) warm mem beta gamma tbeta tgamma eq_refl) as (X & Bs & Gs & _ & _ & _ & Mu & _).
    assert (S : stuck (length gamma) s).
    { eapply (ip_steps_inv _ _ _ _ _ _ _ (stuck (length gamma))); [|exact St|].
      - intros. eapply ip_body_stuck; eauto.
      - rewrite Gs, Z in Mu. split; [|split; [rewrite Gs, Z; reflexivity|]].
        + rewrite Mu, vdot_zeros_r. unfold Rdiv. rewrite Rmult_0_r, Rmult_0_l. reflexivity.
        + exists (ones (length gamma)). split; [apply ones_length|]. split; [apply ones_positive|].
          rewrite X, Gs, Z. reflexivity. }
    destruct S as [_ [S _]]. congruence.
  - exists bowl. split.
    + intros l b g tb tg Hb Hg. destruct b as [|b [|]]; try discriminate. destruct g as [|g [|]]; try discriminate.
      exists (/ 2 * sqnorm [b] + / 2 * sqnorm [g - 1]), (/ 2 * sqnorm [0] + / 2 * sqnorm [1 - 1]).
      split; [reflexivity|]. split; [reflexivity|]. unfold sqnorm, vdot. cbn.
      pose proof (Rle_0_sqr b) as S1. pose proof (Rle_0_sqr (g - 1)) as S2. pose proof (Rsqr_0_uniq b) as U1.
      pose proof (Rsqr_0_uniq (g - 1)) as U2. unfold Rsqr in *. clear Hb Hg.
      split; [lra|]. intros E. assert (b = 0) by (apply U1; lra). assert (g - 1 = 0) by (apply U2; lra).
      split; f_equal; lra.
    + exists (knows [-2; 0; 0]).
      destruct (bowl_body [-2; 0; 0] 1 0 (or_intror (conj eq_refl eq_refl))) as [s B].
      assert (C : ip_continue bowl (plain_options 1) 1 (ip_start true fresh_memory [0] [0] [0] [0]) = Ok true).
      { unfold ip_continue, ip_start, ip_F. cbn -[rltb norm vdot Rdiv nonzero].
        replace (nonzero 1) with true by (symmetry; apply nonzero_true; lra). cbn [andb].
        match goal with |- context[rltb (/ 1000000) (norm ?f)] => replace (rltb (/ 1000000) (norm f)) with true end;
          [reflexivity|].
        symmetry. apply rltb_true. unfold norm. rewrite <- (sqrt_pow2 (/ 1000000)) by lra.
        apply sqrt_lt_1; try lra; [apply sqnorm_nonneg|]. unfold sqnorm, vdot. cbn. lra. }
      assert (D : ip_continue bowl (plain_options 1) 1 s = Ok false).
      { unfold ip_continue. rewrite (ip_body_iter _ _ _ _ _ _ _ _ _ B). cbn [ip_start is_iter sm_warm fresh_memory].
        rewrite andb_comm. reflexivity. }
      unfold find_ip. cbn [length Nat.ltb Nat.leb guard rbind].
      change (Z.to_nat (io_n_iter (plain_options 1))) with 1%nat.
      cbn [ip_loop]. rewrite C. cbn [rbind]. rewrite B. cbn [rbind ip_loop]. rewrite D. cbn [rbind].
      eexists. split; [apply knows_ok|reflexivity].
Qed.

(*@ C49, refuted: without random effects the practical mode returns its starting point, whatever the data, the
    penalty and the options. *)
Lemma practical_without_random_effects_refuted_lemma :
  (forall calls opts p solve ms warm mem w r, length w = p ->
     find_optimal_parameters calls opts p 0 solve ms warm mem w = Ok r -> r = (w, mem)) /\
  (forall opts solve ms warm mem p w, length w = p ->
     find_optimal_parameters bowl opts p 0 solve ms warm mem w = Ok (w, mem)).
Proof.
  assert (G : forall w : vec, x_to_beta_gamma (length w) 0 w = (w, [])).
  { intros w. unfold x_to_beta_gamma. rewrite firstn_all. reflexivity. }
  split.
  - intros calls opts p solve ms warm mem w r <- H. unfold find_optimal_parameters in H. rewrite G in H.
    unfold find_ip in H. apply rbind_inv in H. destruct H as [[[[[b g] tb] tg] m] [F H]].
    apply rbind_inv in F. destruct F as [b0 [_ F]]. inversion F; subst. inversion H.
    unfold beta_gamma_to_x. rewrite app_nil_r. reflexivity.
  - intros opts solve ms warm mem p w <-. unfold find_optimal_parameters. rewrite G. unfold find_ip. cbn.
    unfold beta_gamma_to_x. rewrite app_nil_r. reflexivity.
Qed.

(*@ C49, partial: without random effects the value function and its gradient are those at the optimal beta. *)
Lemma value_function_without_random_effects_partial_lemma :
  forall calls opts p solve ms warm mem w b, length w = p -> length b = p ->
  sc_optimal_beta calls (sm_lam mem) [] w = Ok b ->
  value_function calls opts p 0 solve ms warm mem w =
    (let! f := sc_loss calls (sm_lam mem) b [] w [] in Ok (f, mem)) /\
  exists g, gradient_value_function calls opts p 0 solve ms warm mem w = Ok (g, mem) /\
    g = map2 (fun wi bi => lam_b (sm_lam mem) * (wi - bi)) w b.
Proof.
  intros calls opts p solve ms warm mem w b Lw Lb H. subst p.
  assert (G : x_to_beta_gamma (length w) 0 w = (w, [])).
  { unfold x_to_beta_gamma. rewrite firstn_all. reflexivity. }
  unfold value_function, gradient_value_function. rewrite G. unfold find_ip. rewrite H. cbn [rbind].
  split; [reflexivity|]. unfold beta_gamma_to_x. cbn [repeat]. rewrite !app_nil_r.
  rewrite repeat_length, Lb, Nat.eqb_refl. cbn [andb guard rbind]. eexists. split; [reflexivity|].
  unfold vmul, vneg, vsub.
  clear -Lb. revert b Lb. induction w as [|a w IH]; intros [|c b] Lb; simpl in *; try discriminate; [reflexivity|].
  rewrite IH by lia. f_equal. lra.
Qed.
(*@ *)
Lemma ex_value_function_without_random_effects_partial_lemma :
  sc_optimal_beta bowl (sm_lam fresh_memory) [] [3] = Ok [0].
Proof. reflexivity. Qed.

(*@ C50.  Projected gradient descent for the variances: it ends; from non-negative variances it makes at most
    n_iter_inner steps, each along the projected gradient within the largest feasible step, stays
    non-negative, and stops at the limit, after a step of length zero, or where the projected gradient is small. *)
Lemma variance_descent_feasible_lemma : forall n_iter tol loss gradient hessian minimize solve,
  (forall gamma, (forall x, no_oof (gradient x)) -> (forall f hi, no_oof (minimize f hi)) ->
     optimal_gamma n_iter tol loss gradient hessian minimize solve "pgd" gamma <> Err OutOfFuel) /\
  (forall gamma g' log, nonneg gamma ->
     optimal_gamma n_iter tol loss gradient hessian minimize solve "pgd" gamma = Ok (g', log) ->
     exists path, is_path (gamma_step tol loss gradient minimize) gamma path /\
       g' = endpoint gamma path /\ log = gamma :: map snd path /\
       (Z.of_nat (length path) <= Z.max 0 n_iter)%Z /\ nonneg g' /\ Forall nonneg log /\
       length g' = length gamma /\ moving path /\
       ((n_iter <= Z.of_nat (length path))%Z \/ last_step path <= 0 \/
        exists g, gradient g' = Ok g /\ norm (projected_descent g' g) <= tol)).
Proof.
  intros n_iter tol loss gradient hessian minimize solve. split.
  - intros gamma Hg Hm. apply optimal_gamma_pgd_oof; auto.
  - intros gamma g' log N H. eapply optimal_gamma_pgd_inv; eauto.
Qed.
(*@ *)
Lemma ex_variance_descent_feasible_lemma : nonneg [1] /\ exists g' log,
  optimal_gamma 1 (/ 2) (fun g => Ok (sqnorm g)) (fun g => Ok g) (fun g => Ok []) (fun _ hi => Ok hi) (knows []) "pgd" [1]
    = Ok (g', log) /\ length log = 2%nat.
Proof.
  split; [repeat constructor; lra|]. unfold optimal_gamma, optimal_gamma_pgd. change (Z.to_nat 1) with 1%nat.
  cbn -[rltb norm kill_zeros max_step project_direction vadd].
  replace (rltb 0 1) with true by (symmetry; apply rltb_true; lra).
  match goal with |- context[rltb (/ 2) (norm ?d)] => replace (rltb (/ 2) (norm d)) with true end.
  2:{ symmetry. apply rltb_true. unfold norm. rewrite <- (sqrt_pow2 (/ 2)) by lra.
      apply sqrt_lt_1; try lra; [apply sqnorm_nonneg|]. unfold project_direction, sqnorm, vdot. cbn.
      replace (reqb 1 0) with false by (symmetry; apply reqb_false; lra). rewrite andb_comm. cbn. lra. }
  cbn -[rltb norm kill_zeros max_step project_direction vadd]. rewrite Nat.eqb_refl.
  cbn -[rltb norm kill_zeros max_step project_direction vadd].
  rewrite (andb_comm _ false). cbn [andb]. eexists. eexists. split; reflexivity.
Qed.

(*@ C50.  The interior-point variant: it ends; from non-negative variances it makes at most n_iter_inner projected
    Newton steps, every iterate is non-negative, and it stops at the limit, after a step of length zero, or at
    small residuals of the optimality conditions.  Any other method name is a ValueError. *)
Lemma variance_interior_point_feasible_lemma : forall n_iter tol loss gradient hessian minimize solve,
  (forall gamma, (forall x, no_oof (gradient x)) -> (forall f hi, no_oof (minimize f hi)) ->
     (forall x, no_oof (hessian x)) -> (forall x, no_oof (loss x)) -> (forall a b, no_oof (solve a b)) ->
     optimal_gamma n_iter tol loss gradient hessian minimize solve "ip" gamma <> Err OutOfFuel) /\
  (forall gamma g' log n, nonneg gamma -> length gamma = n -> solve_ok solve ->
     (forall g r, length g = n -> gradient g = Ok r -> length r = n) ->
     (forall g h, length g = n -> hessian g = Ok h -> is_shape n n h) ->
     optimal_gamma n_iter tol loss gradient hessian minimize solve "ip" gamma = Ok (g', log) ->
     let x := ones n ++ gamma in
     let mu := vdot (ones n) gamma / INR n in
     exists path, gamma_newton_path tol gradient hessian minimize n mu x path /\
       g' = skipn n (endpoint x path) /\ log = gamma :: map (fun s => skipn n (snd s)) path /\
       (Z.of_nat (length path) <= Z.max 0 n_iter)%Z /\
       nonneg g' /\ Forall nonneg log /\ length g' = n /\
       Forall (fun s => s <> 0) (removelast (map fst path)) /\
       ((n_iter <= Z.of_nat (length path))%Z \/ last_step path = 0 \/
        exists r, gamma_residual gradient n (last_barrier n mu path) (endpoint x path) = Ok r /\ r <= tol)) /\
  (forall method gamma, method <> "pgd"%string -> method <> "ip"%string ->
     optimal_gamma n_iter tol loss gradient hessian minimize solve method gamma = Err ValueError).
Proof.
  intros n_iter tol loss gradient hessian minimize solve. split; [|split].
  - intros. apply optimal_gamma_ip_oof; auto.
  - intros gamma g' log n N L S G K H. exact (optimal_gamma_ip_inv _ _ _ _ _ _ _ _ G K S _ _ _ N L H).
  - intros method gamma H1 H2. unfold optimal_gamma.
    destruct (String.eqb_spec method "pgd"); [congruence|]. destruct (String.eqb_spec method "ip"); [congruence|]. reflexivity.
Qed.
(*@ *)
Lemma ex_variance_interior_point_feasible_lemma : nonneg [1] /\ exists g' log,
  optimal_gamma 1 (/ 2) (fun g => Ok 0) (fun g => Ok [2]) (fun g => Ok [[1]]) (fun _ hi => Ok hi) (knows [/ 2; - / 2]) "ip" [1]
    = Ok (g', log) /\ length log = 2%nat.
Proof.
  split; [repeat constructor; lra|]. unfold optimal_gamma, optimal_gamma_ip, ip_gamma_F, ip_gamma_dF.
  change (Z.to_nat 1) with 1%nat.
  cbn -[rltb norm kill_zeros max_step project_direction vadd nonzero vdot Rdiv knows].
  replace (nonzero 1) with true by (symmetry; apply nonzero_true; lra).
  cbn -[rltb norm kill_zeros max_step project_direction vadd nonzero vdot Rdiv knows].
  match goal with |- context[rltb (/ 2) (norm ?d)] => replace (rltb (/ 2) (norm d)) with true end.
  2:{ symmetry. apply rltb_true. unfold norm. rewrite <- (sqrt_pow2 (/ 2)) by lra.
      apply sqrt_lt_1; try lra; [apply sqnorm_nonneg|]. unfold sqnorm, vdot. cbn. lra. }
  unfold knows at 1.
  match goal with |- context[list_eq_dec ?e ?a ?b] => destruct (list_eq_dec e a b) as [E|E] end.
  2:{ exfalso. apply E. cbn. repeat (apply f_equal2; [unfold vdot; cbn; lra|]). reflexivity. }
  cbn -[rltb norm kill_zeros max_step project_direction vadd nonzero vdot Rdiv knows].
  rewrite (andb_comm _ false). cbn [andb rbind]. eexists. eexists. split; reflexivity.
Qed.
