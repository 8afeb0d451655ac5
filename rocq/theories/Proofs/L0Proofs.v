(** Best k-term approximation: _take_only_k_max and its masked variants. *)
From Coq Require Import Lra Psatz Permutation.
From Verif.Base Require Import Py Vec.
From Verif.Model Require Import Regularizers.
From Verif.Spec Require Import ProxSpec.
From Verif.Proofs Require Import VecFacts.
Open Scope R_scope.

Lemma nnz_count_nonzeros z : nnz_count z = nonzeros z.
Proof.
  induction z as [|a z IH]; auto.
  unfold nnz_count, countb in *; simpl. unfold nonzero, reqb.
  destruct (Req_EM_T a 0); simpl; auto.
Qed.

Lemma nonzeros_app x y : nonzeros (x ++ y) = (nonzeros x + nonzeros y)%nat.
Proof. induction x as [|a x IH]; simpl; auto. destruct Req_EM_T; simpl; lia. Qed.
Lemma nonzeros_zeros n : nonzeros (zeros n) = 0%nat.
Proof. induction n as [|n IH]; simpl; auto. destruct Req_EM_T; auto. congruence. Qed.
Lemma nonzeros_le_length z : (nonzeros z <= length z)%nat.
Proof. induction z as [|a z IH]; simpl; auto. destruct Req_EM_T; lia. Qed.
Lemma nonzeros_0_zeros z : nonzeros z = 0%nat -> z = zeros (length z).
Proof.
  induction z as [|a z IH]; simpl; auto. destruct Req_EM_T; intros H; [|lia].
  change (zeros (S (length z))) with (0 :: zeros (length z)). f_equal; auto.
Qed.

(** keeping the positions of a mask *)
Definition keep (m : list bool) (x : vec) : vec := map2 (fun (b : bool) a => if b then a else 0) m x.

Lemma keep_length m x : length m = length x -> length (keep m x) = length x.
Proof. apply map2_length_eq. Qed.

Lemma mapi_keep_from (f : nat -> bool) x i :
  mapi_from i (fun k a => if f k then a else 0) x = keep (map f (seq i (length x))) x.
Proof.
  revert i; induction x as [|a x IH]; intros i; simpl; auto.
  unfold keep in *; simpl. f_equal. apply IH.
Qed.
Lemma mapi_keep (f : nat -> bool) x :
  mapi (fun k a => if f k then a else 0) x = keep (map f (seq 0 (length x))) x.
Proof. apply mapi_keep_from. Qed.

Lemma nonzeros_keep m x : (nonzeros (keep m x) <= countb (fun b : bool => b) m)%nat.
Proof.
  revert x; induction m as [|b m IH]; intros [|a x]; unfold keep, countb in *; simpl; try lia.
  destruct b; simpl; destruct Req_EM_T; simpl; specialize (IH x); try lia; congruence.
Qed.

(** the counting argument, coordinate by coordinate *)
Lemma keep_optimal tau m x z : 0 <= tau -> length m = length x -> length z = length x ->
  Forall2 (fun (b : bool) a => if b then tau <= a ^ 2 else a ^ 2 <= tau) m x ->
  sqnorm (vsub (keep m x) x)
  <= sqnorm (vsub z x) + tau * (INR (nonzeros z) - INR (countb (fun b : bool => b) m)).
Proof.
  intros Htau Hm Hz HF. revert m z Hm Hz HF.
  induction x as [|a x IH]; intros [|b m] [|c z] Hm Hz HF; simpl in Hm, Hz; try discriminate.
  - unfold sqnorm, vdot, vsub, vmul, countb; simpl. lra.
  - inversion HF as [|? ? ? ? Hb HF']; subst.
    specialize (IH m z ltac:(lia) ltac:(lia) HF').
    change (keep (b :: m) (a :: x)) with ((if b then a else 0) :: keep m x).
    change (vsub ((if b then a else 0) :: keep m x) (a :: x))
      with (((if b then a else 0) - a) :: vsub (keep m x) x).
    change (vsub (c :: z) (a :: x)) with ((c - a) :: vsub z x).
    rewrite !sqnorm_cons. unfold countb in *. simpl.
    destruct b; destruct (Req_EM_T c 0) as [Ec|Ec]; simpl length; rewrite ?S_INR.
    + subst c. nra.
    + pose proof (Rle_0_sqr (c - a)) as K; unfold Rsqr in K. nra.
    + subst c. nra.
    + pose proof (Rle_0_sqr (c - a)) as K; unfold Rsqr in K. nra.
Qed.

(** counting members of a duplicate-free index list *)
Lemma countb_memb l n : NoDup l -> (forall i, In i l -> (i < n)%nat) ->
  countb (fun b : bool => b) (map (fun k => memb k l) (seq 0 n)) = length l.
Proof.
  intros Hnd Hlt.
  assert (E : forall (f : nat -> bool) s, countb (fun b : bool => b) (map f s) = length (filter f s)).
  { intros f s. unfold countb. induction s as [|k s IH]; simpl; auto. destruct (f k); simpl; auto. }
  rewrite E. apply Permutation_length. apply NoDup_Permutation; auto.
  - apply NoDup_filter, seq_NoDup.
  - intros i. rewrite filter_In, in_seq. unfold memb. rewrite existsb_exists. split.
    + intros [_ [j [Hj Ej]]]. apply Nat.eqb_eq in Ej. subst; auto.
    + intros Hi. split; [specialize (Hlt i Hi); lia|]. exists i. split; auto. apply Nat.eqb_refl.
Qed.

Lemma memb_In k l : memb k l = true <-> In k l.
Proof.
  unfold memb. rewrite existsb_exists. split.
  - intros [j [Hj Ej]]. apply Nat.eqb_eq in Ej; subst; auto.
  - intros H. exists k; split; auto. apply Nat.eqb_refl.
Qed.

Lemma In_skipn_nth {A} (l : list A) n d i : In i (skipn n l) ->
  exists a, (n <= a < length l)%nat /\ nth a l d = i.
Proof.
  intros H. destruct (In_nth _ _ d H) as [k [Hk E]]. rewrite skipn_length in Hk.
  exists (n + k)%nat. split; [lia|]. rewrite <- E.
  rewrite <- (firstn_skipn n l) at 1.
  destruct (le_lt_dec (length l) n) as [Hl|Hl]; [rewrite skipn_all2 in H by lia; destruct H|].
  rewrite app_nth2; rewrite firstn_length_le by lia; [f_equal; lia|lia].
Qed.
Lemma In_firstn_nth {A} (l : list A) n d i : In i (firstn n l) ->
  exists a, (a < n)%nat /\ (a < length l)%nat /\ nth a l d = i.
Proof.
  intros H. destruct (In_nth _ _ d H) as [k [Hk E]]. rewrite firstn_length in Hk.
  exists k. split; [lia|]. split; [lia|]. rewrite <- E.
  rewrite <- (firstn_skipn n l) at 1. rewrite app_nth1; auto. rewrite firstn_length; lia.
Qed.

Lemma nth_map_seq {A} (f : nat -> A) n i d : (i < n)%nat -> nth i (map f (seq 0 n)) d = f i.
Proof.
  intros H. rewrite nth_indep with (d' := f 0%nat) by (rewrite map_length, seq_length; auto).
  rewrite map_nth, seq_nth by auto. reflexivity.
Qed.

Lemma NoDup_skipn {A} n (l : list A) : NoDup l -> NoDup (skipn n l).
Proof.
  revert l; induction n as [|n IH]; intros [|a l] H; simpl; auto. inversion H; auto.
Qed.

Lemma nth_vabs x k : nth k (vabs x) 0 = Rabs (nth k x 0).
Proof. unfold vabs. rewrite <- Rabs_R0 at 1. apply map_nth. Qed.

Lemma Forall2_nth_intro {A B} (P : A -> B -> Prop) x y da db :
  length x = length y -> (forall k, (k < length x)%nat -> P (nth k x da) (nth k y db)) -> Forall2 P x y.
Proof.
  revert y; induction x as [|a x IH]; intros [|b y] HL H; simpl in HL; try discriminate; constructor.
  - apply (H 0%nat); simpl; lia.
  - apply IH; [lia|]. intros k Hk. apply (H (S k)); simpl; lia.
Qed.
Lemma Forall2_nth_elim {A B} (P : A -> B -> Prop) x y da db k :
  Forall2 P x y -> (k < length x)%nat -> P (nth k x da) (nth k y db).
Proof.
  intros H; revert k; induction H; intros [|k] Hk; simpl in *; try lia; auto. apply IHForall2; lia.
Qed.

Section TopK.
Variable argsort : vec -> list nat.
Hypothesis Hsort : argsort_ok argsort.

Lemma argsort_length x : length (argsort x) = length x.
Proof.
  destruct (Hsort x) as [Hin [Hnd _]].
  rewrite <- (seq_length (length x) 0). apply Permutation_length, NoDup_Permutation; auto.
  - apply seq_NoDup.
  - intros i. rewrite Hin, in_seq. lia.
Qed.

Definition topk_mask (x : vec) (k : Z) : list bool :=
  if (0 <? k)%Z
  then map (fun i => memb i (last_k k (argsort (vabs x)))) (seq 0 (length x))
  else repeat false (length x).

Lemma topk_mask_length x k : length (topk_mask x k) = length x.
Proof.
  unfold topk_mask. destruct (0 <? k)%Z; [rewrite map_length, seq_length|rewrite repeat_length]; auto.
Qed.

Lemma take_only_k_max_keep x k : take_only_k_max argsort x k = keep (topk_mask x k) x.
Proof.
  unfold take_only_k_max, topk_mask. destruct (0 <? k)%Z.
  - apply mapi_keep.
  - unfold keep. rewrite map2_repeat_l. unfold zeros.
    induction x as [|a x IH]; simpl; auto. f_equal; auto.
Qed.

Lemma topk_count x k :
  countb (fun b : bool => b) (topk_mask x k) = Nat.min (Z.to_nat k) (length x).
Proof.
  unfold topk_mask. destruct (Z.ltb_spec 0 k) as [Hk|Hk].
  - destruct (Hsort (vabs x)) as [Hin [Hnd _]].
    rewrite countb_memb.
    + unfold last_k. rewrite skipn_length, argsort_length, vabs_length. lia.
    + apply NoDup_skipn; auto.
    + intros i Hi. unfold last_k in Hi.
      assert (In i (argsort (vabs x))) as Hi'
        by (rewrite <- (firstn_skipn (length (argsort (vabs x)) - Z.to_nat k)); apply in_or_app; auto).
      apply Hin in Hi'. rewrite vabs_length in Hi'. exact Hi'.
  - replace (Z.to_nat k) with 0%nat by lia. simpl. unfold countb.
    induction (length x) as [|n IH]; simpl; auto.
Qed.

(** a threshold separates kept from dropped *)
Lemma topk_threshold x k : (0 < k)%Z -> exists tau, 0 <= tau /\
  Forall2 (fun (b : bool) a => if b then tau <= a ^ 2 else a ^ 2 <= tau) (topk_mask x k) x.
Proof.
  intros Hk. destruct (Hsort (vabs x)) as [Hin [Hnd Hord]].
  pose proof (argsort_length (vabs x)) as HL. rewrite vabs_length in HL.
  set (s := argsort (vabs x)) in *. set (n := length x) in *.
  assert (Hsq : forall i j, nth i (vabs x) 0 <= nth j (vabs x) 0 -> nth i x 0 ^ 2 <= nth j x 0 ^ 2).
  { intros i j H. rewrite !nth_vabs in H. rewrite <- !Rsqr_pow2. apply Rsqr_le_abs_1; auto. }
  destruct (le_lt_dec n (Z.to_nat k)) as [Hbig|Hsmall].
  - exists 0. split; [lra|].
    apply Forall2_nth_intro with (da := false) (db := 0); [apply topk_mask_length|].
    intros i Hi. rewrite topk_mask_length in Hi. fold n in Hi.
    unfold topk_mask. destruct (Z.ltb_spec 0 k); [|lia].
    assert (E : last_k k s = s).
    { unfold last_k. replace (length s - Z.to_nat k)%nat with 0%nat by lia. reflexivity. }
    fold s. rewrite E.
    rewrite nth_map_seq by auto.
    assert (In i s) as Hi' by (apply Hin; rewrite vabs_length; auto).
    apply memb_In in Hi'. rewrite Hi'. nra.
  - set (c := (n - Z.to_nat k)%nat).
    exists (nth (nth (c - 1) s 0%nat) x 0 ^ 2). split; [apply pow2_ge_0|].
    apply Forall2_nth_intro with (da := false) (db := 0); [apply topk_mask_length|].
    intros i Hi. rewrite topk_mask_length in Hi. fold n in Hi.
    unfold topk_mask. destruct (Z.ltb_spec 0 k); [|lia]. fold s.
    rewrite nth_map_seq by auto.
    assert (Hlast : last_k k s = skipn c s) by (unfold last_k, c; rewrite HL; reflexivity).
    rewrite Hlast.
    destruct (memb i (skipn c s)) eqn:Em.
    + apply memb_In in Em. destruct (In_skipn_nth s c 0%nat i Em) as [a [Ha Ea]].
      rewrite <- Ea. apply Hsq. apply Hord; lia.
    + assert (In i s) as Hi' by (apply Hin; rewrite vabs_length; auto).
      rewrite <- (firstn_skipn c s) in Hi'. apply in_app_or in Hi'. destruct Hi' as [Hi'|Hi'].
      * destruct (In_firstn_nth s c 0%nat i Hi') as [a [Ha1 [Ha2 Ea]]]. rewrite <- Ea.
        destruct (Nat.eq_dec a (c - 1)) as [->|Hne]; [lra|].
        apply Hsq. apply Hord; lia.
      * apply memb_In in Hi'. congruence.
Qed.

Lemma take_only_k_max_length x k : length (take_only_k_max argsort x k) = length x.
Proof. rewrite take_only_k_max_keep. apply keep_length, topk_mask_length. Qed.

Lemma take_only_k_max_entries x k :
  Forall2 (fun xi zi => zi = xi \/ zi = 0) x (take_only_k_max argsort x k).
Proof.
  rewrite take_only_k_max_keep. generalize (topk_mask_length x k). generalize (topk_mask x k).
  induction x as [|a x IH]; intros [|b m] H; simpl in H; try discriminate; constructor; auto.
  destruct b; auto.
Qed.

Lemma take_only_k_max_sparse x k : sparse k (take_only_k_max argsort x k).
Proof.
  unfold sparse. rewrite take_only_k_max_keep.
  pose proof (nonzeros_keep (topk_mask x k) x) as H. rewrite topk_count in H. lia.
Qed.

Lemma take_only_k_max_optimal x k z : length z = length x -> sparse k z ->
  sqnorm (vsub (take_only_k_max argsort x k) x) <= sqnorm (vsub z x).
Proof.
  intros HL Hs. destruct (Z_lt_le_dec 0 k) as [Hk|Hk].
  - rewrite take_only_k_max_keep.
    destruct (topk_threshold x k Hk) as [tau [Htau HF]].
    pose proof (keep_optimal tau (topk_mask x k) x z Htau (topk_mask_length x k) HL HF) as K.
    rewrite topk_count in K. unfold sparse in Hs.
    pose proof (nonzeros_le_length z) as Hz.
    assert (INR (nonzeros z) <= INR (Nat.min (Z.to_nat k) (length x))) by (apply le_INR; lia).
    nra.
  - assert (E : z = zeros (length z)) by (apply nonzeros_0_zeros; unfold sparse in Hs; lia).
    unfold take_only_k_max. destruct (Z.ltb_spec 0 k); [lia|].
    rewrite E, HL. lra.
Qed.

(** the kept coordinates dominate the dropped ones *)
Lemma take_only_k_max_dominates x k i j :
  (i < length x)%nat -> (j < length x)%nat ->
  nth i (take_only_k_max argsort x k) 0 <> 0 ->
  nth j (take_only_k_max argsort x k) 0 <> nth j x 0 ->
  Rabs (nth j x 0) <= Rabs (nth i x 0).
Proof.
  intros Hi Hj. destruct (Z_lt_le_dec 0 k) as [Hk|Hk].
  - rewrite take_only_k_max_keep. intros Ni Nj.
    destruct (topk_threshold x k Hk) as [tau [Htau HF]].
    pose proof (topk_mask_length x k) as HL.
    unfold keep in Ni, Nj.
    rewrite map2_nth with (dx := false) (dy := 0) in Ni, Nj by lia.
    pose proof (Forall2_nth_elim _ _ _ false 0 i HF ltac:(lia)) as Fi.
    pose proof (Forall2_nth_elim _ _ _ false 0 j HF ltac:(lia)) as Fj.
    cbv beta in Fi, Fj.
    destruct (nth i (topk_mask x k) false); [|congruence].
    destruct (nth j (topk_mask x k) false); [congruence|].
    apply Rsqr_le_abs_0. rewrite !Rsqr_pow2. lra.
  - unfold take_only_k_max. destruct (Z.ltb_spec 0 k); [lia|].
    intros Ni. exfalso. apply Ni. unfold zeros. apply nth_repeat.
Qed.

(** ** the masked variant *)


Lemma mask_assign_sq m (x vals : vec) : length m = length x ->
  length vals = length (mask_select m x) ->
  sqnorm (vsub (mask_assign m vals x) x) = sqnorm (vsub vals (mask_select m x)).
Proof.
  revert x vals; induction m as [|b m IH]; intros [|a x] vals HL Hv; simpl in *; try discriminate.
  - destruct vals; [reflexivity|discriminate].
  - destruct b; simpl in *.
    + destruct vals as [|v vals]; [discriminate|].
      change (vsub (v :: mask_assign m vals x) (a :: x)) with ((v - a) :: vsub (mask_assign m vals x) x).
      change (vsub (v :: vals) (a :: mask_select m x)) with ((v - a) :: vsub vals (mask_select m x)).
      rewrite !sqnorm_cons. rewrite IH; auto.
    + change (vsub (a :: mask_assign m vals x) (a :: x)) with ((a - a) :: vsub (mask_assign m vals x) x).
      rewrite sqnorm_cons. rewrite IH by auto. lra.
Qed.

Lemma mask_select_sq m (z x : vec) : length m = length x -> length z = length x ->
  sqnorm (vsub (mask_select m z) (mask_select m x)) <= sqnorm (vsub z x).
Proof.
  revert z x; induction m as [|b m IH]; intros [|c z] [|a x] HL Hz; simpl in *; try discriminate.
  - lra.
  - change (vsub (c :: z) (a :: x)) with ((c - a) :: vsub z x). rewrite sqnorm_cons.
    specialize (IH z x ltac:(lia) ltac:(lia)).
    pose proof (Rle_0_sqr (c - a)) as K; unfold Rsqr in K.
    destruct b.
    + change (vsub (c :: mask_select m z) (a :: mask_select m x))
        with ((c - a) :: vsub (mask_select m z) (mask_select m x)).
      rewrite sqnorm_cons. lra.
    + lra.
Qed.

Lemma mask_select_assign {A} m (x vals : list A) : length m = length x ->
  length vals = length (mask_select m x) -> mask_select m (mask_assign m vals x) = vals.
Proof.
  revert x vals; induction m as [|b m IH]; intros [|a x] vals HL Hv; simpl in *; try discriminate.
  - destruct vals; [reflexivity|discriminate].
  - destruct b; simpl in *.
    + destruct vals as [|v vals]; [discriminate|]. simpl. f_equal. injection HL as HL; injection Hv as Hv; apply IH; assumption.
    + injection HL as HL; apply IH; assumption.
Qed.

Lemma mask_assign_outside {A} m (x vals : list A) d k : nth k m false = false ->
  nth k (mask_assign m vals x) d = nth k x d.
Proof.
  revert x vals k; induction m as [|b m IH]; intros [|a x] vals k H; simpl in *; auto.
  destruct k as [|k].
  - simpl in H. subst b. reflexivity.
  - destruct b; [destruct vals|]; simpl; auto.
Qed.

Lemma take_masked_spec part x nnz : length part = length x ->
  exists z, take_masked argsort part x nnz = Ok z /\ length z = length x /\
    sparse (nnz - Z.of_nat (countb negb part)) (mask_select part z) /\
    (forall k, nth k part false = false -> nth k z 0 = nth k x 0) /\
    Forall2 (fun xi zi => zi = xi \/ zi = 0) x z /\
    (forall z', length z' = length x ->
       sparse (nnz - Z.of_nat (countb negb part)) (mask_select part z') ->
       sqnorm (vsub z x) <= sqnorm (vsub z' x)).
Proof.
  intros HL. unfold take_masked. rewrite HL, Nat.eqb_refl. simpl.
  eexists; split; [reflexivity|].
  set (k' := (nnz - Z.of_nat (countb negb part))%Z).
  set (vals := take_only_k_max argsort (mask_select part x) k').
  assert (Hv : length vals = length (mask_select part x)) by apply take_only_k_max_length.
  split; [apply mask_assign_length|].
  split. { rewrite mask_select_assign by auto. apply take_only_k_max_sparse. }
  split. { intros k Hk. apply mask_assign_outside; auto. }
  split.
  - pose proof (take_only_k_max_entries (mask_select part x) k') as HF. fold vals in HF.
    clearbody vals. clear k'. revert x vals HL Hv HF.
    induction part as [|b m IH]; intros [|a x] vals HL Hv HF; simpl in *; try discriminate; [constructor|].
    injection HL as HL. destruct b; simpl in *.
    + inversion HF; subst. constructor; auto.
    + constructor; auto.
  - intros z' Hz' Hs. rewrite mask_assign_sq by auto.
    eapply Rle_trans; [|apply (mask_select_sq part z' x); auto].
    apply take_only_k_max_optimal; auto.
    clear - Hz' HL. revert z' x Hz' HL.
    induction part as [|b m IH]; intros [|c z'] [|a x] H1 H2; simpl in *; try discriminate; auto.
    destruct b; simpl; [f_equal|]; apply IH; lia.
Qed.

(** total number of non-zeros of a masked selection *)
Lemma nonzeros_mask_split part z : length part = length z ->
  (nonzeros z <= nonzeros (mask_select part z) + countb negb part)%nat.
Proof.
  revert z; induction part as [|b m IH]; intros [|a z] H; simpl in *; try discriminate; try lia.
  specialize (IH z ltac:(lia)). unfold countb in *. destruct b; simpl; destruct Req_EM_T; simpl; lia.
Qed.

End TopK.

(** ** a concrete argsort satisfying the contract *)
Fixpoint insert_idx (x : vec) (i : nat) (l : list nat) : list nat :=
  match l with
  | [] => [i]
  | j :: l' => if rleb (nth i x 0) (nth j x 0) then i :: l else j :: insert_idx x i l'
  end.
Definition argsort_ins (x : vec) : list nat :=
  fold_right (insert_idx x) [] (seq 0 (length x)).

Lemma insert_idx_perm x i l : Permutation (insert_idx x i l) (i :: l).
Proof.
  induction l as [|j l IH]; simpl; auto.
  destruct (rleb _ _); auto.
  eapply perm_trans; [apply perm_skip, IH|apply perm_swap].
Qed.

Inductive sorted_by (x : vec) : list nat -> Prop :=
| sb_nil : sorted_by x []
| sb_cons i l : Forall (fun j => nth i x 0 <= nth j x 0) l -> sorted_by x l -> sorted_by x (i :: l).

Lemma insert_idx_sorted x i l : sorted_by x l -> sorted_by x (insert_idx x i l).
Proof.
  intros H; induction H as [|j l HF Hs IH]; simpl; [repeat constructor|].
  destruct (rleb (nth i x 0) (nth j x 0)) eqn:E.
  - apply rleb_true in E. constructor; [|constructor; auto].
    constructor; auto. eapply Forall_impl; [|exact HF]. intros a Ha; simpl in Ha; lra.
  - apply rleb_false in E. constructor; auto.
    eapply Permutation_Forall; [symmetry; apply insert_idx_perm|]. constructor; auto; lra.
Qed.

Lemma sorted_by_nth x l : sorted_by x l -> forall a b, (a < b)%nat -> (b < length l)%nat ->
  nth (nth a l 0%nat) x 0 <= nth (nth b l 0%nat) x 0.
Proof.
  induction 1 as [|i l HF Hs IH]; intros a b Hab Hb; simpl in Hb; [lia|].
  destruct a as [|a]; destruct b as [|b]; try lia; simpl.
  - rewrite Forall_forall in HF. apply HF. apply nth_In; lia.
  - apply IH; lia.
Qed.

Lemma argsort_ins_ok : argsort_ok argsort_ins.
Proof.
  intros x. assert (HP : Permutation (argsort_ins x) (seq 0 (length x))).
  { unfold argsort_ins. generalize (seq 0 (length x)). intros l. induction l as [|i l IH]; simpl; auto.
    eapply perm_trans; [apply insert_idx_perm|]. auto. }
  split; [|split].
  - intros i. split; intros H.
    + apply (Permutation_in _ HP) in H. apply in_seq in H. lia.
    + apply (Permutation_in _ (Permutation_sym HP)). apply in_seq. lia.
  - eapply Permutation_NoDup; [apply Permutation_sym, HP|apply seq_NoDup].
  - apply sorted_by_nth. unfold argsort_ins. generalize (seq 0 (length x)).
    intros l; induction l as [|i l IH]; simpl; [constructor|apply insert_idx_sorted; auto].
Qed.
