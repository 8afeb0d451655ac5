(** Lemmas about the interior-point method for the variances. *)
From Coq Require Import Lra Psatz String.
From Verif.Base Require Import Py Vec Mat.
From Verif.Model Require Import LmeProblem Regularizers Solvers LmeInner.
From Verif.Spec Require Import SolverSpec InnerSpec.
From Verif.Proofs Require Import VecFacts MatFacts SolverProofs InnerProofs InnerLoops InnerIP.
Open Scope list_scope.
Open Scope R_scope.

Lemma drop_leavingE x : forall d, project_direction d x = drop_leaving x d.
Proof.
  unfold project_direction, drop_leaving.
  induction x as [|a x IH]; intros [|c d]; simpl; auto. rewrite IH. reflexivity.
Qed.

Section Gamma.
Variable n_iter : Z.
Variable tol : R.
Variable loss : vec -> res R.
Variable gradient : vec -> res vec.
Variable hessian : vec -> res mat.
Variable minimize : (R -> res R) -> R -> res R.
Variable solve : mat -> vec -> res vec.
Variable n : nat.
Hypothesis grad_len : forall g r, length g = n -> gradient g = Ok r -> length r = n.
Hypothesis hess_shape : forall g h, length g = n -> hessian g = Ok h -> is_shape n n h.
Hypothesis solves : solve_ok solve.

Lemma residualE x mu f : ip_gamma_F gradient n x mu = Ok f -> gamma_residual gradient n mu x = Ok (norm f).
Proof.
  unfold ip_gamma_F, gamma_residual. destruct (gradient (skipn n x)); cbn [rbind]; intros H; inversion H. reflexivity.
Qed.
Lemma residual_sqE x mu : (let! f := ip_gamma_F gradient n x mu in Ok (norm f ^ 2)) =
  (let! r := gamma_residual gradient n mu x in Ok (r ^ 2)).
Proof. unfold ip_gamma_F, gamma_residual. destruct (gradient (skipn n x)); reflexivity. Qed.

Lemma newton_gamma v g mu gr h dv dg : length v = n -> length g = n -> length gr = n -> is_shape n n h ->
  length dv = n -> length dg = n ->
  mv (hcat (diag g) (diag v) ++ hcat (diag (repeat (-1) n)) h) (dv ++ dg) =
    vneg (map (fun a => a - mu) (vmul v g) ++ vsub gr v) ->
  (forall i, (i < n)%nat -> nth i v 0 * nth i g 0 + nth i g 0 * nth i dv 0 + nth i v 0 * nth i dg 0 = mu) /\
  vadd (vsub gr v) (vsub (mv h dg) dv) = zeros n.
Proof.
  intros Lv Lg Lr [Lh Wh] Ldv Ldg H.
  assert (LF : length (map (fun a => a - mu) (vmul v g)) = n) by (rewrite map_length, vmul_length; lia).
  rewrite mv_app, vneg_app in H. apply app_split in H.
  2:{ rewrite mv_length, vneg_length, LF, hcat_length; rewrite ?diag_length; lia. }
  destruct H as [H1 H2]. split.
  - rewrite mv_hcat in H1; [|rewrite !diag_length; lia|rewrite Ldv, <- Lg; apply diag_wf].
    rewrite !mv_diag in H1 by lia. intros i Hi.
    assert (E : nth i (vneg (map (fun a => a - mu) (vmul v g))) 0 = nth i (vadd (vmul g dv) (vmul v dg)) 0)
      by (rewrite H1; reflexivity).
    unfold vneg, vadd, vmul in E.
    rewrite (nth_indep _ 0 (- (0 - mu))) in E by (rewrite !map_length, map2_length_eq; lia).
    rewrite map_map in E. rewrite (map_nth (fun a => - (a - mu))) in E.
    rewrite !(map2_nth _ _ _ _ 0 0) in E by (rewrite ?map2_length_eq; lia). lra.
  - pose proof (diag_wf (repeat (-1) n)) as D. rewrite repeat_length in D.
    rewrite mv_hcat in H2; [|rewrite diag_length, repeat_length; lia|rewrite Ldv; exact D].
    rewrite <- Ldv in H2 at 1. rewrite mv_minus_eye in H2.
    assert (Lm : length (mv h dg) = n) by (rewrite mv_length; auto).
    replace (vsub (mv h dg) dv) with (vneg (vsub gr v)).
    + rewrite vadd_vneg, vsub_length by lia. congruence.
    + rewrite <- H2. clear - Lm Ldv. rewrite <- Ldv in Lm. revert dv Lm Ldv.
      generalize (mv h dg) as m. clear. intros m dv L _. revert dv L.
      induction m as [|a m IH]; intros [|c dv] L; simpl in *; try discriminate; [reflexivity|].
      unfold vadd, vneg, vsub in *. cbn [map map2]. rewrite IH by lia. f_equal. lra.
Qed.

Lemma ip_gamma_path : forall fuel it x mu step log g' log',
  length x = (n + n)%nat -> nonneg x -> 0 <= mu ->
  ip_gamma_loop n_iter tol loss gradient hessian minimize solve n fuel it x mu step log = Ok (g', log') ->
  exists path, gamma_newton_path tol gradient hessian minimize n mu x path /\
    g' = skipn n (endpoint x path) /\ log' = log ++ map (fun s => skipn n (snd s)) path /\
    (Z.of_nat (it + length path) <= Z.max (Z.of_nat it) n_iter)%Z /\
    Forall (fun s => nonneg (snd s) /\ length (snd s) = (n + n)%nat) path /\
    0 <= last_barrier n mu path /\
    Forall (fun s => s <> 0) (removelast (step :: map fst path)) /\
    ((n_iter <= Z.of_nat (it + length path))%Z \/ last (map fst path) step = 0 \/
     exists r, gamma_residual gradient n (last_barrier n mu path) (endpoint x path) = Ok r /\ r <= tol).
Proof.
  assert (STOP : forall it x mu step log g' log',
    length x = (n + n)%nat -> nonneg x -> 0 <= mu -> Ok (skipn n x, log) = Ok (g', log') ->
    (if nonzero step && (Z.of_nat it <? n_iter)%Z
     then let! f := ip_gamma_F gradient n x mu in Ok (rltb tol (norm f)) else Ok false) = Ok false ->
    exists path, gamma_newton_path tol gradient hessian minimize n mu x path /\
    g' = skipn n (endpoint x path) /\ log' = log ++ map (fun s => skipn n (snd s)) path /\
    (Z.of_nat (it + length path) <= Z.max (Z.of_nat it) n_iter)%Z /\
    Forall (fun s => nonneg (snd s) /\ length (snd s) = (n + n)%nat) path /\
    0 <= last_barrier n mu path /\
    Forall (fun s => s <> 0) (removelast (step :: map fst path)) /\
    ((n_iter <= Z.of_nat (it + length path))%Z \/ last (map fst path) step = 0 \/
     exists r, gamma_residual gradient n (last_barrier n mu path) (endpoint x path) = Ok r /\ r <= tol)).
  { intros it x mu step log g' log' L N M H C. inversion H; subst. exists [].
    unfold endpoint, last_barrier; cbn [map last length gamma_newton_path removelast]. rewrite app_nil_r, Nat.add_0_r.
    repeat (split; [solve [auto|lia]|]).
    destruct (nonzero step) eqn:E1; [|apply nonzero_false in E1; auto].
    destruct (Z.ltb_spec (Z.of_nat it) n_iter); [|left; lia].
    cbn [andb] in C. apply rbind_inv in C. destruct C as [f [Ff C]].
    right; right. exists (norm f). split; [apply residualE; auto|]. inversion C as [C']. apply rltb_false in C'. exact C'. }
  induction fuel as [|fuel IH]; intros it x mu step log g' log' L N M H;
    cbn [ip_gamma_loop] in H; apply rbind_inv in H; destruct H as [c [C H]]; destruct c; try discriminate;
    try (eapply STOP; eassumption).
  apply rbind_inv in H. destruct H as [f [Ff H]].
  apply rbind_inv in H. destruct H as [df [Fd H]].
  apply rbind_inv in H. destruct H as [d [Fs H]].
  apply rbind_inv in H. destruct H as [u [U H]]. apply guard_inv, Nat.eqb_eq in U.
  apply rbind_inv in H. destruct H as [a [Ma H]].
  apply rbind_inv in H. destruct H as [l1 [L1 H]].
  apply rbind_inv in H. destruct H as [f1 [F1 H]].
  rewrite drop_leavingE in *.
  set (x1 := kill_zeros (vadd x (vscale a (drop_leaving x d)))) in *.
  assert (PL : length (drop_leaving x d) = length x) by (rewrite <- drop_leavingE; apply project_length; auto).
  assert (X1 : length x1 = (n + n)%nat).
  { unfold x1. rewrite kill_zeros_length. change (vadd x _) with (step_to x (drop_leaving x d) a).
    rewrite step_to_length; auto. }
  assert (N1 : nonneg x1) by apply kill_zeros_nonneg.
  destruct (nonzero step) eqn:E1; [|discriminate]. apply nonzero_true in E1.
  destruct (Z.ltb_spec (Z.of_nat it) n_iter) as [E2|]; [|discriminate].
  cbn [andb] in C. rewrite Ff in C. cbn [rbind] in C. inversion C as [C']. apply rltb_true in C'. clear C.
  apply IH in H; [| exact X1 | exact N1 |].
  - destruct H as [path [P [E [LL [B [FA [N' [A R]]]]]]]].
    exists ((a, x1) :: path). cbn [map fst snd length gamma_newton_path].
    replace (it + S (length path))%nat with (S it + length path)%nat by lia.
    assert (EP : endpoint x ((a, x1) :: path) = endpoint x1 path)
      by (unfold endpoint; cbn [map snd]; apply last_shift).
    assert (EB : last_barrier n mu ((a, x1) :: path) = last_barrier n (tenth_of_gap n x1) path)
      by (unfold last_barrier; cbn [map snd]; apply last_shift).
    rewrite EP, EB.
    split.
    { split; [|exact P].
      unfold ip_gamma_dF in Fd. apply rbind_inv in Fd. destruct Fd as [h [Hh Fd]]. inversion Fd; subst df. clear Fd.
      pose proof Ff as Ff'.
      unfold ip_gamma_F in Ff'. apply rbind_inv in Ff'. destruct Ff' as [gr [G Ff']]. inversion Ff'; subst f. clear Ff'.
      assert (Lv : length (firstn n x) = n) by (rewrite firstn_length; lia).
      assert (Lg : length (skipn n x) = n) by (rewrite skipn_length; lia).
      apply solves in Fs. rewrite <- (firstn_skipn n d) in Fs.
      assert (Lw : length (firstn n d) = n) by (rewrite firstn_length; lia).
      assert (Lz : length (skipn n d) = n) by (rewrite skipn_length; lia).
      destruct (newton_gamma _ _ _ _ _ _ _ Lv Lg (grad_len _ _ Lg G) (hess_shape _ _ Lg Hh) Lw Lz Fs) as [K1 K2].
      exists gr, h, (firstn n d), (skipn n d), (max_step (repeat true (length x)) x (drop_leaving x d)).
      eexists. split; [exact G|]. split; [exact Hh|]. split; [exact Lw|]. split; [exact Lz|].
      split; [exact K1|]. split; [exact K2|]. split; [apply residualE; exact Ff|]. split; [exact C'|].
      rewrite (firstn_skipn n d). split; [rewrite <- PL; apply largest_step_max; auto|].
      split; [|apply drop_tiny_kill].
      rewrite <- Ma. f_equal. apply FunctionalExtensionality.functional_extensionality. intros s.
      symmetry. apply residual_sqE. }
    split; [exact E|]. split; [rewrite LL, <- app_assoc; reflexivity|].
    split; [lia|]. split; [constructor; auto|].
    split; [exact N'|]. split; [cbn [removelast] in *; constructor; auto|]. rewrite last_shift. exact R.
  - apply div_INR_nonneg.
    + assert (0 <= vdot (firstn n x1) (skipn n x1)) by (apply vdot_nonneg; [apply nonneg_firstn | apply nonneg_skipn]; auto). lra.
    + intros Z. clear - Z. rewrite Z. unfold vdot. cbn [firstn vmul map2 vsum fold_right]. lra.
Qed.

Lemma optimal_gamma_ip_inv gamma g' log : nonneg gamma -> length gamma = n ->
  optimal_gamma_ip n_iter tol loss gradient hessian minimize solve gamma = Ok (g', log) ->
  let x := ones n ++ gamma in
  let mu := vdot (ones n) gamma / INR n in
  exists path, gamma_newton_path tol gradient hessian minimize n mu x path /\
    g' = skipn n (endpoint x path) /\ log = gamma :: map (fun s => skipn n (snd s)) path /\
    (Z.of_nat (length path) <= Z.max 0 n_iter)%Z /\
    nonneg g' /\ Forall nonneg log /\ length g' = n /\
    Forall (fun s => s <> 0) (removelast (map fst path)) /\
    ((n_iter <= Z.of_nat (length path))%Z \/ last_step path = 0 \/
     exists r, gamma_residual gradient n (last_barrier n mu path) (endpoint x path) = Ok r /\ r <= tol).
Proof.
  intros N L H x mu. unfold optimal_gamma_ip in H. rewrite L in H.
  assert (X : nonneg x) by (apply nonneg_app; split; [apply positive_nonneg, ones_positive|auto]).
  assert (XL : length x = (n + n)%nat) by (unfold x; rewrite app_length, ones_length; lia).
  apply ip_gamma_path in H; auto.
  - destruct H as [path [P [E [LL [B [FA [N' [A R]]]]]]]]. exists path.
    cbn [Nat.add app] in *. change (Z.of_nat 0) with 0%Z in B.
    assert (EN : nonneg (endpoint x path) /\ length (endpoint x path) = (n + n)%nat).
    { clear - FA X XL. clearbody x. revert x X XL. unfold endpoint. induction path as [|[a x1] path IH]; intros x X XL; [auto|].
      cbn [map snd]. rewrite last_shift. inversion FA; subst. apply IH; tauto. }
    split; [exact P|]. split; [exact E|]. split; [exact LL|]. split; [lia|].
    split; [rewrite E; apply nonneg_skipn; exact (proj1 EN)|].
    split.
    { subst log. constructor; auto. clear - FA. induction FA; simpl; constructor; auto. apply nonneg_skipn. tauto. }
    split; [rewrite E, skipn_length; fold x; rewrite (proj2 EN); lia|].
    split; [|exact R]. clear - A. destruct path; [constructor|].
    cbn [map] in *. cbn [removelast] in A. inversion A; subst. exact H2.
  - apply div_INR_nonneg; [apply vdot_nonneg; [apply positive_nonneg, ones_positive|auto]|].
    intros Z. clear - Z. rewrite Z. reflexivity.
Qed.
End Gamma.
