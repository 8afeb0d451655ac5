(** Lemmas about the loops of the mixed-model oracle. *)
From Coq Require Import Lra Psatz String.
From Verif.Base Require Import Py Vec Mat.
From Verif.Model Require Import LmeProblem Regularizers Solvers LmeInner.
From Verif.Spec Require Import SolverSpec InnerSpec.
From Verif.Proofs Require Import VecFacts MatFacts SolverProofs InnerProofs.
Open Scope list_scope.
Open Scope R_scope.

Lemma largest_step_max x d : length d = length x -> nonneg x ->
  largest_step x d (max_step (repeat true (length d)) x d).
Proof.
  intros L N. assert (F : feasible (repeat true (length d)) x) by (apply feasible_all; auto).
  split; [split; [apply max_step_nonneg; auto | apply max_step_le1]|].
  intros s Hs. rewrite max_step_feasible by auto.
  rewrite feasible_all by (rewrite step_to_length; auto). reflexivity.
Qed.
Lemma drop_tiny_kill z : drop_tiny z (kill_zeros z).
Proof.
  unfold drop_tiny, kill_zeros. induction z; simpl; constructor; auto.
  unfold rleb, tiny. destruct (Rle_dec a (/ 10 ^ 18)); [left|right]; split; lra.
Qed.
Lemma projected_length x g : length g = length x -> length (projected_descent x g) = length x.
Proof. intros H. unfold projected_descent. rewrite map2_length_eq; auto. Qed.

Lemma last_shift {A} (l : list A) : forall a d, last (a :: l) d = last l a.
Proof.
  induction l as [|b l IH]; intros a d; [reflexivity|].
  change (last (a :: b :: l) d) with (last (b :: l) d). rewrite IH. symmetry. apply IH.
Qed.

Lemma vdot_nonneg x y : nonneg x -> nonneg y -> 0 <= vdot x y.
Proof.
  revert y; induction x as [|a x IH]; intros [|b y] Hx Hy; try (unfold vdot; simpl; lra).
  rewrite vdot_cons. inversion Hx; inversion Hy; subst. specialize (IH y H2 H6). nra.
Qed.
Lemma nonneg_firstn n x : nonneg x -> nonneg (firstn n x).
Proof. intros H. rewrite <- (firstn_skipn n x) in H. apply nonneg_app in H. tauto. Qed.
Lemma nonneg_skipn n x : nonneg x -> nonneg (skipn n x).
Proof. intros H. rewrite <- (firstn_skipn n x) in H. apply nonneg_app in H. tauto. Qed.
Lemma div_INR_nonneg r n : 0 <= r -> (n = 0%nat -> r = 0) -> 0 <= r / INR n.
Proof.
  intros H Z. destruct n; [rewrite Z by reflexivity; unfold Rdiv; rewrite Rmult_0_l; lra|].
  apply Rmult_le_pos; auto. apply Rlt_le, Rinv_0_lt_compat, lt_0_INR. lia.
Qed.


Section Gamma.
Variable n_iter : Z.
Variable tol : R.
Variable loss : vec -> res R.
Variable gradient : vec -> res vec.
Variable hessian : vec -> res mat.
Variable minimize : (R -> res R) -> R -> res R.
Variable solve : mat -> vec -> res vec.

Lemma pgd_gamma_loop_inv : forall fuel it gamma dir step log g' log',
  (exists g, gradient gamma = Ok g /\ length g = length gamma /\ dir = projected_descent gamma g) ->
  nonneg gamma ->
  pgd_gamma_loop n_iter tol loss gradient minimize fuel it gamma dir step log = Ok (g', log') ->
  exists path, is_path (gamma_step tol loss gradient minimize) gamma path /\
    g' = endpoint gamma path /\ log' = log ++ map snd path /\
    (Z.of_nat (it + length path) <= Z.max (Z.of_nat it) n_iter)%Z /\ nonneg g' /\
    Forall nonneg (map snd path) /\
    length g' = length gamma /\
    Forall (fun s => 0 < s) (removelast (step :: map fst path)) /\
    ((n_iter <= Z.of_nat (it + length path))%Z \/ last (map fst path) step <= 0 \/
     exists g, gradient g' = Ok g /\ norm (projected_descent g' g) <= tol).
Proof.
  induction fuel as [|fuel IH]; intros it gamma dir step log g' log' [g [G [GL ->]]] N H.
  - cbn [pgd_gamma_loop] in H.
    destruct (rltb 0 step && (Z.of_nat it <? n_iter)%Z && rltb tol (norm (projected_descent gamma g))) eqn:E; [discriminate|].
    inversion H; subst. exists []. simpl. unfold endpoint. simpl. rewrite app_nil_r, Nat.add_0_r.
    repeat split; auto; try lia.
    apply andb_false_iff in E. destruct E as [E|E]; [apply andb_false_iff in E; destruct E as [E|E]|].
    + apply rltb_false in E; auto.
    + apply Z.ltb_ge in E. left; lia.
    + apply rltb_false in E. right; right; eauto.
  - cbn [pgd_gamma_loop] in H.
    destruct (rltb 0 step && (Z.of_nat it <? n_iter)%Z && rltb tol (norm (projected_descent gamma g))) eqn:E.
    + apply andb_true_iff in E. destruct E as [E E3]. apply andb_true_iff in E. destruct E as [E1 E2].
      apply rltb_true in E1. apply Z.ltb_lt in E2. apply rltb_true in E3.
      set (d := projected_descent gamma g) in *.
      assert (DL : length d = length gamma) by (apply projected_length; auto).
      apply rbind_inv in H. destruct H as [a [Ma H]].
      set (gamma1 := kill_zeros (vadd gamma (vscale a d))) in *.
      assert (L1 : length gamma1 = length gamma).
      { unfold gamma1. rewrite kill_zeros_length. apply step_to_length; auto. }
      apply rbind_inv in H. destruct H as [g1 [G1 H]].
      apply rbind_inv in H. destruct H as [u [U H]]. apply guard_inv, Nat.eqb_eq in U.
      rewrite project_descentE in H.
      destruct (IH _ _ _ _ _ _ _ (ex_intro _ g1 (conj G1 (conj U eq_refl))) (kill_zeros_nonneg _) H)
        as [path [P [EE [LL [B [N' [NP [L' [A R]]]]]]]]].
      exists ((a, gamma1) :: path). cbn [is_path map fst snd length].
      replace (it + S (length path))%nat with (S it + length path)%nat by lia.
      repeat split.
      * exists g, (max_step (repeat true (length d)) gamma d).
        exact (conj G (conj GL (conj E3 (conj (largest_step_max _ _ DL N) (conj Ma (drop_tiny_kill _)))))).
      * exact P.
      * rewrite EE. unfold endpoint. cbn [map snd]. symmetry. apply last_shift.
      * rewrite LL, <- app_assoc. reflexivity.
      * lia.
      * exact N'.
      * constructor; [apply kill_zeros_nonneg | exact NP].
      * lia.
      * cbn [removelast]. constructor; auto.
      * rewrite last_shift. exact R.
    + inversion H; subst. exists []. simpl. unfold endpoint. simpl. rewrite app_nil_r, Nat.add_0_r.
      repeat split; auto; try lia.
      apply andb_false_iff in E. destruct E as [E|E]; [apply andb_false_iff in E; destruct E as [E|E]|].
      * apply rltb_false in E; auto.
      * apply Z.ltb_ge in E. left; lia.
      * apply rltb_false in E. right; right; eauto.
Qed.

Lemma pgd_gamma_loop_oof : forall fuel it gamma dir step log,
  (n_iter <= Z.of_nat (it + fuel))%Z ->
  (forall x, no_oof (gradient x)) -> (forall f hi, no_oof (minimize f hi)) ->
  no_oof (pgd_gamma_loop n_iter tol loss gradient minimize fuel it gamma dir step log).
Proof.
  induction fuel as [|fuel IH]; intros it gamma dir step log B Hg Hm; cbn [pgd_gamma_loop].
  - destruct (Z.ltb_spec (Z.of_nat it) n_iter); [lia|]. rewrite andb_false_r. apply ok_oof.
  - destruct (_ && _ && _); [|apply ok_oof].
    apply rbind_oof; [apply Hm|]. intros a _. apply rbind_oof; [apply Hg|]. intros g _.
    apply rbind_oof; [apply guard_oof; discriminate|]. intros _ _. apply IH; auto. lia.
Qed.

Lemma optimal_gamma_pgd_oof gamma :
  (forall x, no_oof (gradient x)) -> (forall f hi, no_oof (minimize f hi)) ->
  no_oof (optimal_gamma_pgd n_iter tol loss gradient minimize gamma).
Proof.
  intros Hg Hm. unfold optimal_gamma_pgd. apply rbind_oof; [apply Hg|]. intros g _.
  apply rbind_oof; [apply guard_oof; discriminate|]. intros _ _. apply pgd_gamma_loop_oof; auto. lia.
Qed.

Lemma optimal_gamma_pgd_inv gamma g' log : nonneg gamma ->
  optimal_gamma_pgd n_iter tol loss gradient minimize gamma = Ok (g', log) ->
  exists path, is_path (gamma_step tol loss gradient minimize) gamma path /\
    g' = endpoint gamma path /\ log = gamma :: map snd path /\
    (Z.of_nat (length path) <= Z.max 0 n_iter)%Z /\ nonneg g' /\ Forall nonneg log /\
    length g' = length gamma /\ moving path /\
    ((n_iter <= Z.of_nat (length path))%Z \/ last_step path <= 0 \/
     exists g, gradient g' = Ok g /\ norm (projected_descent g' g) <= tol).
Proof.
  intros N H. unfold optimal_gamma_pgd in H.
  apply rbind_inv in H. destruct H as [g [G H]].
  apply rbind_inv in H. destruct H as [u [U H]]. apply guard_inv, Nat.eqb_eq in U.
  rewrite project_descentE in H.
  destruct (pgd_gamma_loop_inv _ _ _ _ _ _ _ _ (ex_intro _ g (conj G (conj U eq_refl))) N H)
    as [path [P [EE [LL [B [N' [NP [L' [A R]]]]]]]]].
  exists path. cbn [Nat.add] in *. repeat (split; [solve [auto]|]).
  split; [subst log; constructor; auto|]. split; [auto|]. split; [|exact R].
  unfold moving. clear - A. cbn [removelast] in A. destruct path as [|e path]; [constructor|].
  cbn [map] in A. inversion A as [|? ? _ A']; subst. clear A.
  revert e A'. induction path as [|e' path IH]; intros e A'; [constructor|].
  cbn [removelast map] in *. inversion A'; subst. constructor; auto.
Qed.

(** *** the interior-point variant *)
Lemma ip_gamma_loop_oof n : forall fuel it x mu step log,
  (n_iter <= Z.of_nat (it + fuel))%Z ->
  (forall x, no_oof (gradient x)) -> (forall f hi, no_oof (minimize f hi)) ->
  (forall x, no_oof (hessian x)) -> (forall x, no_oof (loss x)) -> (forall a b, no_oof (solve a b)) ->
  no_oof (ip_gamma_loop n_iter tol loss gradient hessian minimize solve n fuel it x mu step log).
Proof.
  intros fuel it x mu step log B Hg Hm Hh Hl Hs. revert it x mu step log B.
  assert (FO : forall x mu, no_oof (ip_gamma_F gradient n x mu)).
  { intros. apply rbind_oof; [apply Hg|]. intros; apply ok_oof. }
  assert (DO : forall x, no_oof (ip_gamma_dF hessian n x)).
  { intros. apply rbind_oof; [apply Hh|]. intros; apply ok_oof. }
  induction fuel as [|fuel IH]; intros it x mu step log B; cbn [ip_gamma_loop].
  - destruct (Z.ltb_spec (Z.of_nat it) n_iter); [lia|]. rewrite andb_false_r. apply ok_oof.
  - apply rbind_oof.
    + destruct (nonzero step && (Z.of_nat it <? n_iter)%Z); [|apply ok_oof].
      apply rbind_oof; [apply FO|]. intros; apply ok_oof.
    + intros c _. destruct c; [|apply ok_oof].
      apply rbind_oof; [apply FO|]. intros f _. apply rbind_oof; [apply DO|]. intros df _.
      apply rbind_oof; [apply Hs|]. intros d _. apply rbind_oof; [apply guard_oof; discriminate|]. intros _ _.
      apply rbind_oof; [apply Hm|]. intros a _. apply rbind_oof; [apply Hl|]. intros _ _.
      apply rbind_oof; [apply FO|]. intros _ _. apply IH. lia.
Qed.

Lemma optimal_gamma_ip_oof gamma :
  (forall x, no_oof (gradient x)) -> (forall f hi, no_oof (minimize f hi)) ->
  (forall x, no_oof (hessian x)) -> (forall x, no_oof (loss x)) -> (forall a b, no_oof (solve a b)) ->
  no_oof (optimal_gamma_ip n_iter tol loss gradient hessian minimize solve gamma).
Proof. intros. unfold optimal_gamma_ip. apply ip_gamma_loop_oof; auto. lia. Qed.
End Gamma.
