(** Lemmas: reordering and sign changes of features, reordering of observations. *)
From Coq Require Import Lra Permutation.
From Verif.Base Require Import Py Vec Mat.
From Verif.Model Require Import Regularizers Linear.
From Verif.Spec Require Import ProxSpec LinearSpec ColumnSpec.
From Verif.Proofs Require Import VecFacts MatFacts SolverProofs LinearProofs ColumnProofs ColumnFit.
Open Scope R_scope.

Lemma rmap_ext {A B} (f g : A -> B) m : (forall x, m = Ok x -> f x = g x) -> rmap f m = rmap g m.
Proof. destruct m; simpl; intros H; [rewrite H; auto|reflexivity]. Qed.

(** ** order of the features *)
Section Order.
Variables (p : nat) (order : list nat).
Hypothesis Ho : is_order p order.
Notation phi := (permute order).

Lemma order_in i : In i order -> (i < p)%nat.
Proof. intros H. apply (Permutation_in _ Ho) in H. apply in_seq in H. lia. Qed.
Lemma order_len : length order = p.
Proof. rewrite (Permutation_length Ho). apply seq_length. Qed.
Lemma permute_len x : length (phi x) = p.
Proof. unfold permute. rewrite map_length. apply order_len. Qed.
Lemma permute_map (f : R -> R) x : length x = p -> phi (map f x) = map f (phi x).
Proof.
  intros Hx. unfold permute. rewrite map_map. apply map_ext_in. intros i Hi. apply order_in in Hi.
  rewrite (nth_indep _ 0 (f 0)) by (rewrite map_length, Hx; auto). apply map_nth.
Qed.
Lemma permute_map2 (f : R -> R -> R) x y : length x = p -> length y = p ->
  phi (map2 f x y) = map2 f (phi x) (phi y).
Proof.
  intros Hx Hy. unfold permute. rewrite map2_map_l, map2_map_r, map2_same. apply map_ext_in. intros i Hi.
  apply order_in in Hi. apply map2_nth; lia.
Qed.
Lemma permute_id x : length x = p -> permute (seq 0 p) x = x.
Proof. intros Hx. symmetry. apply row_as_map. auto. Qed.
Lemma permute_perm x : length x = p -> Permutation (phi x) x.
Proof. intros Hx. rewrite <- (permute_id x Hx) at 2. apply Permutation_map. exact Ho. Qed.
Lemma vsum_perm x y : Permutation x y -> vsum x = vsum y.
Proof. induction 1; simpl; try lra. Qed.
Lemma countb_perm {A} (f : A -> bool) x y : Permutation x y -> countb f x = countb f y.
Proof.
  unfold countb. induction 1; simpl; auto; try congruence.
  - destruct (f x); simpl; congruence.
  - destruct (f x), (f y); reflexivity.
Qed.
Lemma permute_vsum x : length x = p -> vsum (phi x) = vsum x.
Proof. intros. apply vsum_perm, permute_perm; auto. Qed.
Lemma permute_dot x y : length x = p -> length y = p -> vdot (phi x) (phi y) = vdot x y.
Proof.
  intros Hx Hy. unfold vdot, vmul. rewrite <- permute_map2 by auto. apply permute_vsum.
  rewrite map2_length. lia.
Qed.
Lemma permute_repeat c : phi (repeat c p) = repeat c p.
Proof.
  transitivity (repeat c (length order)); [|rewrite order_len; reflexivity]. unfold permute.
  assert (G : forall l, (forall i, In i l -> (i < p)%nat) -> map (fun i => nth i (repeat c p) 0) l = repeat c (length l)).
  { induction l as [|i l IH]; intros H; [reflexivity|]. simpl. rewrite IH by (intros; apply H; right; auto).
    f_equal. assert (Hi : (i < p)%nat) by (apply H; left; auto).
    rewrite (nth_indep _ 0 c) by (rewrite repeat_length; auto). apply nth_repeat. }
  apply G. exact order_in.
Qed.
Lemma permute_mv a x : wf_mat p a -> length x = p -> mv (permute_columns order a) (phi x) = mv a x.
Proof.
  intros W Hx. unfold mv, permute_columns. rewrite map_map. apply map_ext_in. intros row Hr.
  apply permute_dot; auto. apply (wf_mat_In p a); auto.
Qed.
Lemma permute_tmv a : forall r, wf_mat p a -> tmv p (permute_columns order a) r = phi (tmv p a r).
Proof.
  induction a as [|row a IH]; intros r W; [symmetry; apply permute_repeat|].
  apply wf_mat_cons in W as [W1 W2]. destruct r as [|c r]; [symmetry; apply permute_repeat|]. simpl.
  rewrite IH by auto. unfold vadd, vscale.
  rewrite permute_map2, permute_map; auto; [rewrite map_length; auto|]. apply tmv_len; auto.
Qed.
Lemma permute_columns_wf a : wf_mat p (permute_columns order a).
Proof. unfold wf_mat, permute_columns. apply Forall_forall. intros row H. apply in_map_iff in H as [r [<- _]]. apply permute_len. Qed.

(** a computation for each entry that can fail in only one way *)
Lemma sequence_permute (f : nat -> res R) e : (forall i x, f i = Err x -> x = e) ->
  sequence (map f order) = rmap phi (sequence (map f (seq 0 p))).
Proof.
  intros He. destruct (sequence (map f (seq 0 p))) as [vs|x] eqn:E.
  - apply sequence_Forall2 in E as F. cbn [rmap]. apply sequence_ok.
    assert (G : forall i, In i order -> f i = Ok (nth i vs 0)).
    { intros i Hi. apply order_in in Hi. clear E.
      assert (K : forall k n l, Forall2 (fun a b => f a = Ok b) (seq k n) l -> forall i, (i < n)%nat -> f (k + i)%nat = Ok (nth i l 0)).
      { intros k n. revert k. induction n as [|n IH]; intros k l Hl j Hj; [lia|]. simpl in Hl. inversion Hl; subst.
        destruct j as [|j]; simpl; [rewrite Nat.add_0_r; auto|].
        replace (k + S j)%nat with (S k + j)%nat by lia. apply IH; auto. lia. }
      apply (K 0%nat p vs F i Hi). }
    unfold permute. clear -G. induction order as [|i l IH]; [constructor|]. simpl. constructor.
    + apply G. left; auto.
    + apply IH. intros j Hj. apply G. right; auto.
  - cbn [rmap]. apply sequence_err in E as [i [Hi Ei]]. apply He in Ei as Ex. subst x.
    assert (Hi' : In i order) by (apply (Permutation_in _ (Permutation_sym Ho)); auto).
    clear -He Hi' Ei. induction order as [|j l IH]; [contradiction|]. simpl.
    destruct (f j) as [v|x] eqn:Ej.
    + destruct Hi' as [->|Hi']; [congruence|]. rewrite IH by auto. reflexivity.
    + apply He in Ej. subst. reflexivity.
Qed.

Lemma scad_loop_seq rho sigma lam alpha : forall ws x, length ws = length x ->
  scad_prox_loop rho sigma lam alpha ws x = sequence (map2 (fun w xi => scad_prox1 rho sigma lam w alpha xi) ws x).
Proof.
  induction ws as [|w ws IH]; intros [|xi x] H; try discriminate; [reflexivity|]. simpl in *. rewrite IH by lia.
  reflexivity.
Qed.
Lemma scad1_err rho sigma lam w alpha x e : scad_prox1 rho sigma lam w alpha x = Err e -> e = NotFinite.
Proof.
  unfold scad_prox1. repeat match goal with |- context [if ?b then _ else _] => destruct b end; congruence.
Qed.
Lemma map2_index {A B C} (f : A -> B -> C) (dx : A) (dy : B) : forall xs ys, length xs = length ys ->
  map2 f xs ys = map (fun i => f (nth i xs dx) (nth i ys dy)) (seq 0 (length xs)).
Proof.
  induction xs as [|x xs IH]; intros [|y ys] H; try discriminate; [reflexivity|]. simpl. f_equal.
  rewrite <- seq_shift, map_map. apply IH. simpl in H. lia.
Qed.
Lemma scad_permute rho sigma lam alpha ws x : length ws = p -> length x = p ->
  scad_prox_loop rho sigma lam alpha (phi ws) (phi x) = rmap phi (scad_prox_loop rho sigma lam alpha ws x).
Proof.
  intros Hw Hx. rewrite !scad_loop_seq by (rewrite ?permute_len; congruence).
  rewrite (map2_index _ 0 0 ws x), Hw by congruence.
  rewrite <- (sequence_permute (fun i => scad_prox1 rho sigma lam (nth i ws 0) alpha (nth i x 0)) NotFinite).
  - f_equal. unfold permute. rewrite map2_map_l, map2_map_r, map2_same. reflexivity.
  - intros i e. apply scad1_err.
Qed.
Lemma scad_len rho sigma lam alpha ws x z : length ws = length x ->
  scad_prox_loop rho sigma lam alpha ws x = Ok z -> length z = length x.
Proof.
  intros H E. rewrite scad_loop_seq in E by auto. apply sequence_length in E. rewrite E, map2_length. lia.
Qed.
Lemma permute_norm x : length x = p -> norm (phi x) = norm x.
Proof. intros Hx. unfold norm, sqnorm. rewrite permute_dot; auto. Qed.

Variable argsort : vec -> list nat.
Lemma permute_reg : forall r w, coefficientwise r -> length w = p ->
  exists r1 r1', instantiate r w None = Ok r1 /\ instantiate r (phi w) None = Ok r1' /\
    reg_sim p phi (as_regularizer argsort r1) (as_regularizer argsort r1').
Proof.
  fix IH 1. intros r w Hc Hw. destruct r as [nnz w0 pa|s|lam w0|rho lam w0|rho sigma lam w0| |c o|eps [r|]]; try contradiction.
  - exists (RL1 lam (Some w)), (RL1 lam (Some (phi w))). split; [reflexivity|]. split; [reflexivity|].
    unfold reg_sim. cbn [as_regularizer r_prox r_value prox value l1_prox]. split; [|split].
    + intros y t Hy. rewrite !permute_len, Hw, Hy, Nat.eqb_refl. cbn [guard rbind rmap].
      rewrite permute_map2; auto.
    + intros y t z Hy H. rewrite Hw, Hy, Nat.eqb_refl in H. cbn [guard rbind] in H. apply Ok_inj in H.
      rewrite <- H, map2_length. lia.
    + intros x Hx. rewrite !permute_len, Hw, Hx, Nat.eqb_refl. cbn [guard rbind].
      unfold vabs. rewrite <- permute_map by auto. rewrite permute_dot; auto. rewrite map_length; auto.
  - exists (RCAD rho lam (Some w)), (RCAD rho lam (Some (phi w))). split; [reflexivity|]. split; [reflexivity|].
    unfold reg_sim. cbn [as_regularizer r_prox r_value prox value cad_prox]. split; [|split].
    + intros y t Hy. rewrite !permute_len, Hw, Hy, Nat.eqb_refl. cbn [guard rbind rmap].
      rewrite permute_map2; auto.
    + intros y t z Hy H. rewrite Hw, Hy, Nat.eqb_refl in H. cbn [guard rbind] in H. apply Ok_inj in H.
      rewrite <- H, map2_length. lia.
    + intros x Hx. rewrite !permute_len, Hw, Hx, Nat.eqb_refl. cbn [guard rbind].
      rewrite <- permute_map2 by auto. rewrite permute_vsum; auto. rewrite map2_length. lia.
  - exists (RSCAD rho sigma lam (Some w)), (RSCAD rho sigma lam (Some (phi w))). split; [reflexivity|]. split; [reflexivity|].
    unfold reg_sim. cbn [as_regularizer r_prox r_value prox value scad_prox]. split; [|split].
    + intros y t Hy. apply scad_permute; auto.
    + intros y t z Hy H. apply scad_len in H; congruence.
    + intros x Hx. rewrite <- permute_map2 by auto. rewrite permute_vsum; auto. rewrite map2_length. lia.
  - exists RDummy, RDummy. split; [reflexivity|]. split; [reflexivity|].
    unfold reg_sim. cbn [as_regularizer r_prox r_value prox value]. split; [|split]; auto.
    intros y t z Hy H. apply Ok_inj in H. congruence.
  - destruct (IH r w Hc Hw) as [r1 [r1' [E1 [E2 [S1 [S2 S3]]]]]].
    exists (RElastic eps (Some r1)), (RElastic eps (Some r1')).
    split; [simpl; rewrite E1; reflexivity|]. split; [simpl; rewrite E2; reflexivity|].
    unfold reg_sim in *. cbn [as_regularizer r_prox r_value prox value] in *. split; [|split].
    + intros y t Hy. destruct (guard (nonzero (1 + t * eps)) NotFinite); [|reflexivity]. cbn [rbind].
      rewrite <- permute_map by auto. apply S1. rewrite map_length. auto.
    + intros y t z Hy H. apply rbind_inv in H as [u [_ H]]. apply (S2 _ _ _ (eq_trans (map_length _ _) Hy) H).
    + intros x Hx. rewrite permute_norm, S3 by auto. reflexivity.
  - exists (RElastic eps None), (RElastic eps None). split; [reflexivity|]. split; [reflexivity|].
    unfold reg_sim. cbn [as_regularizer r_prox r_value prox value]. split; [|split].
    + intros y t Hy. destruct (guard (nonzero (1 + t * eps)) NotFinite); [|reflexivity]. cbn [rbind rmap].
      rewrite permute_map; auto.
    + intros y t z Hy H. apply rbind_inv in H as [u [_ H]]. apply Ok_inj in H. rewrite <- H, map_length. auto.
    + intros x Hx. rewrite permute_norm by auto. reflexivity.
Qed.

Lemma permute_fit inv m a b x0 warm w : coefficientwise (lm_reg m) -> wf_mat p a ->
  (forall x, x0 = Some x -> length x = p) -> (forall v, w = Some v -> length v = p) ->
  sr3_ready inv m p b a (permute_columns order a) ->
  linear_fit argsort inv m (permute_columns order a) p b (option_map phi x0) warm (option_map phi w)
  = rmap (fit_map phi) (linear_fit argsort inv m a p b x0 warm w).
Proof.
  intros Hc W Hx0 Hw Hs.
  assert (Lw : length (weights_of p w) = p).
  { destruct w as [v|]; simpl; [apply Hw; reflexivity|apply ones_length]. }
  assert (Ew : weights_of p (option_map phi w) = phi (weights_of p w)).
  { destruct w as [v|]; simpl; [reflexivity|]. symmetry. apply permute_repeat. }
  apply fit_map_lemma.
  - intros; apply permute_len.
  - intros; apply permute_map2; auto.
  - intros; apply permute_map2; auto.
  - intros; apply permute_map; auto.
  - intros; apply permute_map; auto.
  - intros; apply permute_dot; auto.
  - intros x Hx. apply countb_perm, permute_perm; auto.
  - exact W.
  - apply permute_columns_wf.
  - unfold permute_columns. apply map_length.
  - reflexivity.
  - intros x _ Hx. rewrite permute_mv; auto.
  - intros x Hx. rewrite permute_mv by auto. apply permute_tmv; auto.
  - intros _. apply permute_tmv; auto.
  - unfold start_of. destruct warm; [destruct x0|]; cbn [option_map]; try reflexivity; symmetry; apply permute_repeat.
  - unfold start_of. destruct warm; [destruct x0|]; try apply ones_length. apply Hx0. reflexivity.
  - destruct (permute_reg (lm_reg m) (weights_of p w) Hc Lw) as [r1 [r1' [E1 [E2 S]]]]. rewrite E1, Ew. eauto.
  - unfold sr3_ready in Hs. destruct (lm_el m) as [el|]; [|exact I]. destruct Hs as [H1 [H2 [H3 H4]]].
    split; [exact H1|]. split; [exact H2|]. left.
    destruct H3 as [pr [hi [P1 P2]]]. destruct H4 as [pr' [hi' [P1' P2']]]. apply Ok_inj in P1. apply Ok_inj in P1'.
    subst pr pr'. exists hi, hi'. auto.
Qed.
End Order.

(** ** signs of the features *)
Lemma soft_odd s t x : s = 1 \/ s = -1 -> soft t (s * x) = s * soft t x.
Proof.
  intros [->| ->]; unfold soft, clip0; [rewrite !Rmult_1_l; reflexivity|].
  replace (-1 * x - t) with (- x - t) by ring. replace (- (-1 * x) - t) with (x - t) by ring. ring.
Qed.
Lemma abs_sign s x : s = 1 \/ s = -1 -> Rabs (s * x) = Rabs x.
Proof. intros [->| ->]; [rewrite Rmult_1_l; reflexivity|]. replace (-1 * x) with (- x) by ring. apply Rabs_Ropp. Qed.
Lemma nonzero_sign s x : s = 1 \/ s = -1 -> nonzero (s * x) = nonzero x.
Proof.
  intros H. apply Bool.eq_true_iff_eq. rewrite !nonzero_true.
  split; intros K L; apply K; [rewrite L; ring|]. destruct H; subst; lra.
Qed.
Lemma rsign_odd s x : s = 1 \/ s = -1 -> rsign (s * x) = s * rsign x.
Proof.
  intros [->| ->]; [rewrite !Rmult_1_l; reflexivity|]. unfold rsign, rltb.
  repeat match goal with |- context [Rlt_dec ?a ?b] => destruct (Rlt_dec a b) end; lra.
Qed.
Lemma scad1_odd rho sigma lam w alpha s x : s = 1 \/ s = -1 ->
  scad_prox1 rho sigma lam w alpha (s * x) = rmap (Rmult s) (scad_prox1 rho sigma lam w alpha x).
Proof.
  intros H. unfold scad_prox1. rewrite !abs_sign, rsign_odd, soft_odd by auto.
  repeat match goal with |- context [if ?b then _ else _] => destruct b end; try reflexivity.
  cbn [rmap]. f_equal. unfold Rdiv. ring.
Qed.
Lemma scad_value_even rho sigma w s x : s = 1 \/ s = -1 -> scad_value1 rho sigma w (s * x) = scad_value1 rho sigma w x.
Proof.
  intros H. unfold scad_value1. rewrite !abs_sign by auto.
  replace ((s * x) ^ 2) with (x ^ 2) by (destruct H; subst; ring). reflexivity.
Qed.

Definition all_signs (signs : vec) : Prop := Forall (fun s => s = 1 \/ s = -1) signs.

(** pointwise facts *)
Lemma flip_map (f : R -> R) : (forall s x, s = 1 \/ s = -1 -> f (s * x) = s * f x) -> forall signs x,
  all_signs signs -> map f (vmul signs x) = vmul signs (map f x).
Proof.
  intros Hf. induction signs as [|s signs IH]; intros [|xi x] H; try reflexivity. inversion H; subst.
  unfold vmul in *. simpl. rewrite Hf, IH by auto. reflexivity.
Qed.
Lemma flip_map_even {A} (f : R -> A) : (forall s x, s = 1 \/ s = -1 -> f (s * x) = f x) -> forall signs x,
  all_signs signs -> length signs = length x -> map f (vmul signs x) = map f x.
Proof.
  intros Hf. induction signs as [|s signs IH]; intros [|xi x] H L; try discriminate; try reflexivity. inversion H; subst.
  unfold vmul in *. simpl. rewrite Hf, IH by (auto; simpl in L; lia). reflexivity.
Qed.
Lemma flip_map2 (f : R -> R -> R) : (forall w s x, s = 1 \/ s = -1 -> f w (s * x) = s * f w x) -> forall signs w x,
  all_signs signs -> map2 f w (vmul signs x) = vmul signs (map2 f w x).
Proof.
  intros Hf. induction signs as [|s signs IH]; intros [|wi w] [|xi x] H; try reflexivity. inversion H; subst.
  unfold vmul in *. simpl. rewrite Hf, IH by auto. reflexivity.
Qed.
Lemma flip_map2_even (f : R -> R -> R) : (forall w s x, s = 1 \/ s = -1 -> f w (s * x) = f w x) -> forall signs w x,
  all_signs signs -> length signs = length x -> map2 f w (vmul signs x) = map2 f w x.
Proof.
  intros Hf. induction signs as [|s signs IH]; intros [|wi w] [|xi x] H L; try discriminate; try reflexivity.
  inversion H; subst. unfold vmul in *. simpl. rewrite Hf, IH by (auto; simpl in L; lia). reflexivity.
Qed.
Lemma flip_scad rho sigma lam alpha : forall signs ws x, all_signs signs -> length signs = length x ->
  scad_prox_loop rho sigma lam alpha ws (vmul signs x) = rmap (vmul signs) (scad_prox_loop rho sigma lam alpha ws x).
Proof.
  intros signs ws. revert signs. induction ws as [|w ws IH]; intros signs x H L.
  - simpl. f_equal. rewrite vmul_min, L, Nat.min_id. clear H.
    revert x L. induction signs as [|s signs IH]; intros [|xi x] L; try discriminate; [reflexivity|].
    unfold vmul, zeros in *. simpl. rewrite Rmult_0_r. f_equal. apply IH. simpl in L. lia.
  - destruct signs as [|s signs], x as [|xi x]; try discriminate; [reflexivity|]. inversion H; subst.
    unfold vmul in *. simpl. rewrite scad1_odd, IH by (auto; simpl in L; lia).
    destruct (scad_prox1 _ _ _ _ _ xi); [|reflexivity]. simpl.
    destruct (scad_prox_loop _ _ _ _ ws x); reflexivity.
Qed.

(** L0 *)
Lemma mask_select_flip : forall m signs x, length signs = length x ->
  mask_select m (vmul signs x) = vmul (mask_select m signs) (mask_select m x).
Proof.
  induction m as [|b m IH]; intros [|s signs] [|xi x] L; try discriminate; try reflexivity.
  unfold vmul in *. simpl. destruct b; simpl; rewrite IH by (simpl in L; lia); reflexivity.
Qed.
Lemma mask_select_Forall {A} (P : A -> Prop) : forall m x, Forall P x -> Forall P (mask_select m x).
Proof.
  induction m as [|b m IH]; intros [|xi x] H; simpl; auto. inversion H; subst. destruct b; auto.
Qed.
Lemma mask_select_len {A B} : forall m (x : list A) (y : list B), length x = length y ->
  length (mask_select m x) = length (mask_select m y).
Proof.
  induction m as [|b m IH]; intros [|xi x] [|yi y] H; simpl in *; try discriminate; auto.
  destruct b; simpl; rewrite (IH x y); auto; lia.
Qed.
Lemma mask_assign_flip : forall m signs v x, length signs = length x -> length v = length (mask_select m x) ->
  mask_assign m (vmul (mask_select m signs) v) (vmul signs x) = vmul signs (mask_assign m v x).
Proof.
  induction m as [|b m IH]; intros [|s signs] v [|xi x] L H; try discriminate; try reflexivity.
  simpl in *. destruct b.
  - destruct v as [|v0 v]; [discriminate|]. unfold vmul in *. simpl. rewrite IH by (simpl in H; lia). reflexivity.
  - unfold vmul in *. simpl. rewrite IH by (simpl in H; lia). reflexivity.
Qed.
Lemma mapi_flip (keep : nat -> bool) : forall signs x k,
  mapi_from k (fun i a => if keep i then a else 0) (vmul signs x)
  = vmul signs (mapi_from k (fun i a => if keep i then a else 0) x).
Proof.
  induction signs as [|s signs IH]; intros [|xi x] k; try reflexivity. unfold vmul in *. simpl. rewrite IH. f_equal.
  destruct (keep k); ring.
Qed.
Lemma flip_zeros signs n : length signs = n -> vmul signs (zeros n) = zeros n.
Proof. intros <-. unfold vmul, zeros. induction signs; simpl; [reflexivity|]. rewrite IHsigns. f_equal. ring. Qed.
Lemma take_flip argsort signs x k : all_signs signs -> length signs = length x ->
  take_only_k_max argsort (vmul signs x) k = vmul signs (take_only_k_max argsort x k).
Proof.
  intros H L. unfold take_only_k_max. destruct (0 <? k)%Z.
  - unfold vabs at 1. rewrite (flip_map_even Rabs) by (auto using abs_sign). apply mapi_flip.
  - rewrite vmul_min, L, Nat.min_id. symmetry. apply flip_zeros; auto.
Qed.
Lemma take_len argsort x k : length (take_only_k_max argsort x k) = length x.
Proof. unfold take_only_k_max. destruct (0 <? k)%Z; [apply mapi_length|apply zeros_length]. Qed.
Lemma l0_flip argsort nnz w part signs x : all_signs signs -> length signs = length x ->
  l0_prox argsort nnz w part (vmul signs x) = rmap (vmul signs) (l0_prox argsort nnz w part x).
Proof.
  intros H L. unfold l0_prox. assert (Lv : length (vmul signs x) = length x) by (rewrite vmul_min; lia).
  rewrite Lv. destruct w as [w|]; [|cbn [rmap]; f_equal; apply take_flip; auto].
  destruct part as [pa|]; [|reflexivity]. unfold take_masked. rewrite Lv.
  destruct (length pa =? length x)%nat; [|reflexivity]. cbn [guard rbind rmap]. f_equal.
  rewrite mask_select_flip by auto. rewrite take_flip.
  - apply mask_assign_flip; auto. apply take_len.
  - apply mask_select_Forall; auto.
  - apply mask_select_len; auto.
Qed.
Lemma l0_len argsort nnz w part x z : l0_prox argsort nnz w part x = Ok z -> length z = length x.
Proof.
  unfold l0_prox. destruct w; [destruct part as [pa|]; [|discriminate]|].
  - unfold take_masked. intros H. apply rbind_inv in H as [u [_ H]]. apply Ok_inj in H. rewrite <- H. apply mask_assign_length.
  - intros H. apply Ok_inj in H. rewrite <- H. apply take_len.
Qed.

Section Signs.
Variables (p : nat) (signs : vec).
Hypothesis Hs : is_signs p signs.
Notation phi := (flip signs).
Lemma Ls : length signs = p. Proof. apply Hs. Qed.
Lemma As : all_signs signs. Proof. apply Hs. Qed.
Lemma flip_len x : length x = p -> length (phi x) = p.
Proof. intros H. unfold flip. rewrite vmul_min, Ls. lia. Qed.
Lemma flip_dot_any : forall sg x y, all_signs sg -> length sg = length x -> length x = length y ->
  vdot (vmul sg x) (vmul sg y) = vdot x y.
Proof.
  induction sg as [|s sg IH]; intros [|a x] [|b y] H L1 L2; try discriminate; [reflexivity|]. inversion H; subst.
  unfold vmul in *. simpl map2. rewrite !vdot_cons, IH by (auto; simpl in *; lia).
  destruct H2; subst; ring.
Qed.
Lemma flip_dot x y : length x = p -> length y = p -> vdot (phi x) (phi y) = vdot x y.
Proof. intros. apply flip_dot_any; rewrite ?Ls; auto using As; congruence. Qed.
Lemma flip_add : forall (sg x y : vec), vmul sg (vadd x y) = vadd (vmul sg x) (vmul sg y).
Proof. induction sg; intros [|b x] [|c y]; try reflexivity. unfold vmul, vadd in *. simpl. rewrite IHsg. f_equal. ring. Qed.
Lemma flip_sub : forall (sg x y : vec), vmul sg (vsub x y) = vsub (vmul sg x) (vmul sg y).
Proof. induction sg; intros [|b x] [|c y]; try reflexivity. unfold vmul, vsub in *. simpl. rewrite IHsg. f_equal. ring. Qed.
Lemma flip_scale : forall c (sg x : vec), vmul sg (vscale c x) = vscale c (vmul sg x).
Proof. induction sg; intros [|b x]; try reflexivity. unfold vmul, vscale in *. simpl. rewrite IHsg. f_equal. ring. Qed.
Lemma flip_neg : forall (sg x : vec), vmul sg (vneg x) = vneg (vmul sg x).
Proof. induction sg; intros [|b x]; try reflexivity. unfold vmul, vneg in *. simpl. rewrite IHsg. f_equal. ring. Qed.
Lemma flip_mv a x : wf_mat p a -> length x = p -> mv (flip_columns signs a) (phi x) = mv a x.
Proof.
  intros W Hx. unfold mv, flip_columns. rewrite map_map. apply map_ext_in. intros row Hr.
  apply flip_dot; auto. apply (wf_mat_In p a); auto.
Qed.
Lemma flip_tmv a : forall r, wf_mat p a -> tmv p (flip_columns signs a) r = phi (tmv p a r).
Proof.
  induction a as [|row a IH]; intros r W; [symmetry; apply flip_zeros, Ls|].
  apply wf_mat_cons in W as [W1 W2]. destruct r as [|c r]; [symmetry; apply flip_zeros, Ls|]. simpl.
  rewrite IH by auto. unfold flip. rewrite flip_add, flip_scale. reflexivity.
Qed.
Lemma flip_columns_wf a : wf_mat p a -> wf_mat p (flip_columns signs a).
Proof.
  intros W. unfold wf_mat, flip_columns. apply Forall_forall. intros row H. apply in_map_iff in H as [r [<- Hr]].
  apply flip_len, (wf_mat_In p a); auto.
Qed.
Lemma countb_map {A B} (f : A -> B) (g : B -> bool) x : countb g (map f x) = countb (fun a => g (f a)) x.
Proof. unfold countb. induction x; simpl; [reflexivity|]. destruct (g (f a)); simpl; congruence. Qed.
Lemma flip_nnz x : length x = p -> nnz_count (phi x) = nnz_count x.
Proof.
  intros Hx. unfold nnz_count.
  pose proof (countb_map nonzero (fun b => b) (phi x)) as E1. pose proof (countb_map nonzero (fun b => b) x) as E2.
  cbv beta in E1, E2. change (fun a => nonzero a) with nonzero in *. rewrite <- E1, <- E2. unfold flip.
  rewrite (flip_map_even nonzero); auto using nonzero_sign, As. rewrite Ls; auto.
Qed.
Lemma flip_norm x : length x = p -> norm (phi x) = norm x.
Proof. intros Hx. unfold norm, sqnorm. rewrite flip_dot; auto. Qed.

Variable argsort : vec -> list nat.
Lemma flip_reg : forall r w, even_penalty r -> length w = p ->
  exists r1, instantiate r w None = Ok r1 /\ reg_sim p phi (as_regularizer argsort r1) (as_regularizer argsort r1).
Proof.
  fix IH 1. intros r w Hc Hw. destruct r as [nnz w0 pa|s|lam w0|rho lam w0|rho sigma lam w0| |c o|eps [r|]]; try contradiction.
  - exists (RL0 nnz (Some w) (Some (astype_bool w))). split; [reflexivity|].
    unfold reg_sim. cbn [as_regularizer r_prox r_value prox value]. split; [|split].
    + intros y t Hy. apply l0_flip; [apply As|rewrite Ls; auto].
    + intros y t z Hy H. apply l0_len in H. congruence.
    + intros x Hx. rewrite flip_nnz by auto. reflexivity.
  - exists (RL1 lam (Some w)). split; [reflexivity|].
    unfold reg_sim. cbn [as_regularizer r_prox r_value prox value l1_prox]. split; [|split].
    + intros y t Hy. rewrite flip_len, Hw, Hy, Nat.eqb_refl by auto. cbn [guard rbind rmap]. unfold flip.
      rewrite flip_map2; auto using As, soft_odd.
    + intros y t z Hy H. rewrite Hw, Hy, Nat.eqb_refl in H. cbn [guard rbind] in H. apply Ok_inj in H.
      rewrite <- H, map2_length. lia.
    + intros x Hx. rewrite flip_len, Hw, Hx, Nat.eqb_refl by auto. cbn [guard rbind].
      unfold vabs, flip. rewrite (flip_map_even Rabs); auto using As, abs_sign. rewrite Ls; auto.
  - exists (RCAD rho lam (Some w)). split; [reflexivity|].
    unfold reg_sim. cbn [as_regularizer r_prox r_value prox value cad_prox]. split; [|split].
    + intros y t Hy. rewrite flip_len, Hw, Hy, Nat.eqb_refl by auto. cbn [guard rbind rmap]. unfold flip.
      rewrite flip_map2; auto using As. intros wi s x H. rewrite abs_sign, soft_odd by auto.
      destruct (rleb (Rabs x) rho && rltb 0 wi); reflexivity.
    + intros y t z Hy H. rewrite Hw, Hy, Nat.eqb_refl in H. cbn [guard rbind] in H. apply Ok_inj in H.
      rewrite <- H, map2_length. lia.
    + intros x Hx. rewrite flip_len, Hw, Hx, Nat.eqb_refl by auto. cbn [guard rbind].
      unfold flip. rewrite (flip_map2_even (fun wi xi => Rmin (wi * Rabs xi) rho)); auto using As; [|rewrite Ls; auto].
      intros wi s xi H. rewrite abs_sign by auto. reflexivity.
  - exists (RSCAD rho sigma lam (Some w)). split; [reflexivity|].
    unfold reg_sim. cbn [as_regularizer r_prox r_value prox value scad_prox]. split; [|split].
    + intros y t Hy. apply flip_scad; [apply As|rewrite Ls; auto].
    + intros y t z Hy H. apply scad_len in H; congruence.
    + intros x Hx. unfold flip. rewrite (flip_map2_even (scad_value1 rho sigma)); auto using As; [|rewrite Ls; auto].
      intros wi s xi H. apply scad_value_even; auto.
  - exists RDummy. split; [reflexivity|].
    unfold reg_sim. cbn [as_regularizer r_prox r_value prox value]. split; [|split]; auto.
    intros y t z Hy H. apply Ok_inj in H. congruence.
  - destruct (IH r w Hc Hw) as [r1 [E1 [S1 [S2 S3]]]].
    exists (RElastic eps (Some r1)). split; [simpl; rewrite E1; reflexivity|].
    unfold reg_sim in *. cbn [as_regularizer r_prox r_value prox value] in *. split; [|split].
    + intros y t Hy. destruct (guard (nonzero (1 + t * eps)) NotFinite); [|reflexivity]. cbn [rbind].
      unfold flip in *. rewrite flip_map; [|intros; unfold Rdiv; ring|apply As]. apply S1. rewrite map_length. auto.
    + intros y t z Hy H. apply rbind_inv in H as [u [_ H]]. apply (S2 _ _ _ (eq_trans (map_length _ _) Hy) H).
    + intros x Hx. rewrite flip_norm, S3 by auto. reflexivity.
  - exists (RElastic eps None). split; [reflexivity|].
    unfold reg_sim. cbn [as_regularizer r_prox r_value prox value]. split; [|split].
    + intros y t Hy. destruct (guard (nonzero (1 + t * eps)) NotFinite); [|reflexivity]. cbn [rbind rmap].
      unfold flip. rewrite flip_map; auto using As. intros; unfold Rdiv; ring.
    + intros y t z Hy H. apply rbind_inv in H as [u [_ H]]. apply Ok_inj in H. rewrite <- H, map_length. auto.
    + intros x Hx. rewrite flip_norm by auto. reflexivity.
Qed.

Lemma flip_fit inv m a b x0 w : even_penalty (lm_reg m) -> wf_mat p a ->
  length x0 = p -> (forall v, w = Some v -> length v = p) ->
  sr3_ready inv m p b a (flip_columns signs a) ->
  linear_fit argsort inv m (flip_columns signs a) p b (Some (phi x0)) true w
  = rmap (fit_map phi) (linear_fit argsort inv m a p b (Some x0) true w).
Proof.
  intros Hc W Hx0 Hw Hsr.
  assert (Lw : length (weights_of p w) = p).
  { destruct w as [v|]; simpl; [apply Hw; reflexivity|apply ones_length]. }
  apply fit_map_lemma.
  - apply flip_len.
  - intros; apply flip_add.
  - intros; apply flip_sub.
  - intros; apply flip_scale.
  - intros; apply flip_neg.
  - intros; apply flip_dot; auto.
  - apply flip_nnz.
  - exact W.
  - apply flip_columns_wf; auto.
  - unfold flip_columns. apply map_length.
  - reflexivity.
  - intros x _ Hx. rewrite flip_mv; auto.
  - intros x Hx. rewrite flip_mv by auto. apply flip_tmv; auto.
  - intros _. apply flip_tmv; auto.
  - reflexivity.
  - exact Hx0.
  - destruct (flip_reg (lm_reg m) (weights_of p w) Hc Lw) as [r1 [E1 S]]. rewrite E1. eauto.
  - unfold sr3_ready in Hsr. destruct (lm_el m) as [el|]; [|exact I]. destruct Hsr as [H1 [H2 [H3 H4]]].
    split; [exact H1|]. split; [exact H2|]. left.
    destruct H3 as [pr [hi [P1 P2]]]. destruct H4 as [pr' [hi' [P1' P2']]]. apply Ok_inj in P1. apply Ok_inj in P1'.
    subst pr pr'. exists hi, hi'. auto.
Qed.
End Signs.

(** ** order of the observations *)
Section Rows.
Variables (p : nat) (d d' : list (vec * R)).
Hypothesis Hd : Permutation d d'.
Notation a := (map fst d).
Notation b := (map snd d).
Notation a' := (map fst d').
Notation b' := (map snd d').
Hypothesis W : wf_mat p a.

Lemma rows_wf : wf_mat p a'.
Proof. unfold wf_mat in *. apply (Permutation_Forall (Permutation_map fst Hd)). exact W. Qed.
Lemma tmv_rows (g : vec * R -> R) : tmv p a' (map g d') = tmv p a (map g d).
Proof.
  apply vdot_ext; [rewrite !tmv_len; auto using rows_wf|]. intros z _.
  rewrite !tmv_adj by (auto using rows_wf; rewrite !map_length; reflexivity).
  unfold vdot, vmul, mv. rewrite !map_map, !map2_map_l, !map2_map_r, !map2_same.
  apply vsum_perm, Permutation_map, Permutation_sym, Hd.
Qed.
Lemma rows_res x : sqnorm (vsub (mv a' x) b') = sqnorm (vsub (mv a x) b).
Proof.
  unfold sqnorm, vdot, vmul, vsub, mv. rewrite !map_map, !map2_map_l, !map2_map_r, !map2_same, !map_map.
  apply vsum_perm, Permutation_map, Permutation_sym, Hd.
Qed.
Lemma rows_gram x : tmv p a' (mv a' x) = tmv p a (mv a x).
Proof. unfold mv. rewrite !map_map. apply (tmv_rows (fun e => vdot (fst e) x)). Qed.
Lemma rows_h el :
  h_matrix el {| lp_a := a'; lp_b := b'; lp_n := length a'; lp_p := p; lp_c := eye p; lp_weights := None; lp_obs_std := None |}
  = h_matrix el {| lp_a := a; lp_b := b; lp_n := length a; lp_p := p; lp_c := eye p; lp_weights := None; lp_obs_std := None |}.
Proof.
  unfold h_matrix. cbn [lp_p lp_a lp_c]. f_equal. unfold mm, tr. rewrite !map_map. apply map_ext. intros j.
  rewrite !map_map. apply (tmv_rows (fun e => nth j (fst e) 0)).
Qed.

Lemma sim_id rg : (forall y t z, length y = p -> r_prox rg y t = Ok z -> length z = p) -> reg_sim p (fun x => x) rg rg.
Proof.
  intros H. split; [|split]; auto. intros y t Hy. destruct (r_prox rg y t); reflexivity.
Qed.
Lemma value_map_id v : value_map (fun x => x) v = v.
Proof. destruct v; reflexivity. Qed.
Lemma fit_map_id r : fit_map (fun x => x) r = r.
Proof.
  destruct r as [x lg]. unfold fit_map. cbn [fst snd]. f_equal. destruct lg as [kd ks dd]. unfold log_map. cbn. f_equal.
  unfold snd_map. rewrite <- (map_id dd) at 2. apply map_ext. intros [k o]. cbn [fst snd]. f_equal.
  destruct o as [l|v]; cbn [entry_map].
  - f_equal. rewrite <- (map_id l) at 2. apply map_ext. apply value_map_id.
  - f_equal. apply value_map_id.
Qed.
End Rows.

(** ** runs without a log *)
Lemma quiet_step {S} (orc : oracle S) rg slv x0 st g s1 x' : quiet (st_logger st) ->
  s_stepping slv = "fixed"%string ->
  o_grad orc (st_oracle st) (st_x st) = Ok (g, s1) -> length g = length (st_x st) ->
  r_prox rg (vadd (st_x st) (vscale (s_step_len slv) (vneg g))) (s_step_len slv) = Ok x' ->
  exists st', pgd_step orc rg slv x0 st = Ok st' /\ st_x st' = x' /\ st_x_prev st' = Some (st_x st) /\
    st_iteration st' = Datatypes.S (st_iteration st) /\ st_logger st' = st_logger st /\ st_oracle st' = s1.
Proof.
  intros Hq Hf Hg Lg Hp. unfold pgd_step. rewrite Hg. cbn [rbind]. rewrite Hf.
  change (String.eqb "fixed" "line-search") with false. cbn [rbind]. unfold move.
  rewrite vneg_length, Lg, Nat.eqb_refl. cbn [guard rbind]. rewrite Hp. cbn [rbind].
  eexists. rewrite log_state_quiet by exact Hq. split; [reflexivity|]. cbn. auto.
Qed.
Lemma loop_again {S} (orc : oracle S) rg slv fuel x0 st st' : moved (s_tol slv) (st_x st) (st_x_prev st) = Ok true ->
  (Z.of_nat (st_iteration st) <? s_max_iter slv)%Z = true -> pgd_step orc rg slv x0 st = Ok st' ->
  pgd_loop orc rg slv (Datatypes.S fuel) x0 st = pgd_loop orc rg slv fuel x0 st'.
Proof. intros H1 H2 H3. simpl. rewrite H1. cbn [rbind]. rewrite H2. cbn [andb]. rewrite H3. reflexivity. Qed.
Lemma loop_ends {S} (orc : oracle S) rg slv fuel x0 st : moved (s_tol slv) (st_x st) (st_x_prev st) = Ok false ->
  pgd_loop orc rg slv fuel x0 st = Ok st.
Proof. intros H1. destruct fuel; simpl; rewrite H1; reflexivity. Qed.
Lemma loop_full {S} (orc : oracle S) rg slv fuel x0 st b : moved (s_tol slv) (st_x st) (st_x_prev st) = Ok b ->
  (Z.of_nat (st_iteration st) <? s_max_iter slv)%Z = false ->
  pgd_loop orc rg slv fuel x0 st = Ok st.
Proof. intros H1 H2. destruct fuel; simpl; rewrite H1; cbn [rbind]; rewrite H2, andb_false_r; reflexivity. Qed.
Lemma not_moved tol x : 0 <= tol -> moved tol x (Some x) = Ok false.
Proof.
  intros H. simpl. rewrite Nat.eqb_refl. simpl. f_equal. apply rltb_false. unfold norm. rewrite vsub_self, sqnorm_zeros, sqrt_0. auto.
Qed.
