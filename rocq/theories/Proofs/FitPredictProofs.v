(** What predict returns on the table a model was fitted to, on the side of arrays. *)
From Coq Require Import Lia Lra Sorted.
From Verif.Base Require Import Py Vec Mat.
From Verif.Model Require Import LmeProblem LmePredict.
From Verif.Spec Require Import LmeSpec.
From Verif.Proofs Require Import VecFacts LmeProblemProofs LmeProblemMain LmePredictMain.
Open Scope R_scope.

(** the same table without targets *)
Lemma from_x_y_no_target x y labels ff fr pr :
  from_x_y x (Some y) None (Some labels) ff fr None None = Ok pr ->
  exists pr', from_x_y x None None (Some labels) ff fr None None = Ok pr' /\
    pr_fixed pr' = pr_fixed pr /\ pr_random pr' = pr_random pr /\ pr_group_labels pr' = pr_group_labels pr /\
    num_fixed pr' = num_fixed pr /\ num_random pr' = num_random pr.
Proof.
  intros H. apply from_x_y_inv in H. cbn [default_labels fst snd] in H.
  destruct H as (g & v & gl & fec & rec & wf & wr & _ & A2 & A3 & A4 & A5 & A6 & A7 & A8 & A9 & A10 & A11 & _ & E).
  exists (built labels x None ff fr g v gl fec rec wf wr).
  split; [|subst pr; repeat split].
  unfold from_x_y. cbn [default_labels rbind].
  rewrite A2. cbn [guard rbind]. rewrite (proj2 (Nat.eqb_eq _ _) A3). cbn [guard rbind].
  rewrite A4, A5, A6. cbn [guard rbind]. rewrite A7. cbn [rbind]. rewrite A8. cbn [rbind]. rewrite A9. cbn [rbind].
  rewrite A10. cbn [rbind]. rewrite A11. reflexivity.
Qed.

Lemma labels_distinct x y columns labels ff fr mf mr pr :
  from_x_y x y columns labels ff fr mf mr = Ok pr -> NoDup (pr_group_labels pr).
Proof.
  intros H. apply from_x_y_inv in H.
  destruct H as (g & v & gl & fec & rec & wf & wr & _ & _ & _ & _ & _ & _ & A7 & _ & _ & _ & _ & _ & E).
  subst pr. cbn [built pr_group_labels]. apply sorted_Rlt_NoDup. apply unique_labels_spec in A7. tauto.
Qed.

(** one group whose label is in the list *)
Lemma predict_group_known c q pre l post us1 u us2 x z : cf_group_labels c = pre ++ l :: post ->
  cf_us c = us1 ++ u :: us2 -> length us1 = length pre -> NoDup (cf_group_labels c) ->
  length u = q -> (forall r, In r z -> length r = q) -> length x = length z ->
  predict_group c q l x z = Ok (vadd (mv x (cf_beta c)) (mv z u)).
Proof.
  intros Eg Eu L Hn Lu Lz Lx. unfold predict_group.
  assert (W : take_rows (cf_us c) (where_ (fun a => reqb a l) (cf_group_labels c)) = Ok [u]).
  { rewrite Eg, Eu. rewrite Eg in Hn. clear - L Hn. revert us1 L. induction pre as [|a pre IH]; intros [|b us1] L; try discriminate.
    - cbn [app]. unfold where_. cbn [where_from]. rewrite reqb_refl, where_from_shift.
      fold (where_ (fun a => reqb a l) post). rewrite where_nil; [reflexivity|].
      intros a Ha. apply reqb_false. intros ->. inversion Hn; subst. auto.
    - cbn [app] in *. inversion Hn as [|? ? N1 N2]; subst. unfold where_. cbn [where_from].
      assert (E : reqb a l = false) by (apply reqb_false; intros ->; apply N1; apply in_or_app; right; left; auto).
      rewrite E, where_from_shift, take_rows_cons. apply IH; [exact N2|]. simpl in L. lia. }
  destruct (0 <? q)%nat eqn:Eq.
  - rewrite W. cbn [rbind concat]. rewrite app_nil_r, Lu, Nat.eqb_refl. reflexivity.
  - f_equal. apply Nat.ltb_ge in Eq.
    assert (Z : forall r, In r z -> r = []) by (intros r Hr; apply Lz in Hr; destruct r; auto; simpl in Hr; lia).
    clear - Z Lx. unfold mv, vadd. revert z Z Lx. induction x as [|a x IH]; intros [|b z] Z HL; try discriminate; auto.
    cbn [map map2]. rewrite (Z b) by (left; auto). rewrite <- IH; [|intros; apply Z; right; auto|simpl in HL; lia].
    f_equal. change (vdot [] _) with 0. lra.
Qed.

Lemma predict_groups c q : forall gl us xz pre us0,
  cf_group_labels c = pre ++ gl -> cf_us c = us0 ++ us -> length us0 = length pre -> length us = length gl ->
  NoDup (cf_group_labels c) -> Forall (fun u => length u = q) us ->
  Forall (fun p : mat * mat => length (fst p) = length (snd p) /\ forall r, In r (snd p) -> length r = q) xz ->
  sequence (map2 (fun label p => predict_group c q label (fst p) (snd p)) gl xz) =
  Ok (map2 (fun u p => vadd (mv (fst p) (cf_beta c)) (mv (snd p) u)) us xz).
Proof.
  induction gl as [|l gl IH]; intros us xz pre us0 Eg Eu L Lu Hn Fu Fx.
  - destruct us; [|discriminate]. reflexivity.
  - destruct us as [|u us]; [discriminate|]. destruct xz as [|p xz]; [reflexivity|].
    inversion Fu; subst. inversion Fx as [|? ? [F1 F2] F3]; subst. cbn [map2 sequence].
    rewrite (predict_group_known c (length u) pre l gl us0 u us) by auto. cbn [rbind].
    rewrite (IH us xz (pre ++ [l]) (us0 ++ [u])); [reflexivity| | | | | | |]; auto.
    + rewrite <- app_assoc. auto.
    + rewrite <- app_assoc. auto.
    + rewrite !app_length, L. auto.
Qed.

Lemma concat_nonempty {A} (ls : list (list A)) : ls <> [] -> match ls with [] => Err ValueError | _ => Ok (concat ls) end = Ok (concat ls).
Proof. destruct ls; congruence. Qed.

Lemma predict_training x y labels ff fr pr c : wf_table x ->
  from_x_y x (Some y) None (Some labels) ff fr None None = Ok pr ->
  cf_group_labels c = pr_group_labels pr -> length (cf_us c) = length (pr_group_labels pr) ->
  length (cf_beta c) = num_fixed pr -> Forall (fun u => length u = num_random pr) (cf_us c) ->
  predict (Some c) x (Some labels) ff fr =
  Ok (concat (map2 (fun u p => vadd (mv (fst p) (cf_beta c)) (mv (snd p) u)) (cf_us c) (combine (pr_fixed pr) (pr_random pr)))).
Proof.
  intros Wx H Eg Lu Lb Fu.
  pose proof (labels_distinct _ _ _ _ _ _ _ _ _ H) as Hn.
  destruct (from_x_y_no_target _ _ _ _ _ _ H) as (pr' & H' & E1 & E2 & E3 & E4 & E5).
  pose proof H as Hi. apply from_x_y_inv in Hi. cbn [default_labels fst snd] in Hi.
  destruct Hi as (g & v & gl & fec & rec & wf & wr & A1 & A2 & A3 & A4 & A5 & A6 & A7 & _ & _ & _ & _ & _ & E).
  destruct (check_X_y_inv _ _ A1) as [Rx _].
  assert (Cx : t_cols x <> 0%nat).
  { intros Z. rewrite <- A3 in Z. destruct labels; [discriminate A4|discriminate Z]. }
  assert (Gl : pr_group_labels pr = gl) by (subst pr; reflexivity).
  assert (Ng : gl <> []) by (eapply glabels_nonempty; eauto).
  unfold predict. destruct (t_rows x) as [|r0 rs] eqn:Er; [congruence|]. cbn [length Nat.eqb negb andb].
  rewrite (proj2 (Nat.eqb_neq _ _) Cx). cbn [negb guard rbind]. rewrite H'. cbn [rbind].
  unfold predict_problem. rewrite E1, E2, E3, E4, E5, Lb, Nat.eqb_refl. cbn [guard rbind].
  assert (G2 : match cf_us c with [] => Ok tt | u :: _ => guard (num_random pr =? length u)%nat AssertionError end = Ok tt).
  { destruct (cf_us c) as [|u us]; [reflexivity|]. inversion Fu as [|? ? Q]; subst. rewrite Q, Nat.eqb_refl. reflexivity. }
  rewrite G2. cbn [rbind].
  rewrite <- Eg. rewrite (predict_groups c (num_random pr) (cf_group_labels c) (cf_us c) _ [] []); auto.
  - cbn [rbind]. apply concat_nonempty.
    intros Z. apply (f_equal (@length _)) in Z. rewrite map2_length, combine_length, Lu, Gl in Z.
    assert (Lf : length (pr_fixed pr) = length gl) by (subst pr; cbn; apply map_length).
    assert (Lr : length (pr_random pr) = length gl) by (subst pr; cbn; apply map_length).
    rewrite Lf, Lr in Z. destruct gl; [congruence|]. simpl in Z. lia.
  - rewrite Lu, Eg. reflexivity.
  - rewrite Eg. exact Hn.
  - apply Forall_forall. intros [a b] Hin. cbn [fst snd].
    assert (Q : combine (pr_fixed pr) (pr_random pr) =
      map (fun l => (map (feature_row ff (where_ is_fixed labels)) (filter (in_group g l) (t_rows x)),
                     map (feature_row fr (where_ is_random labels)) (filter (in_group g l) (t_rows x)))) gl).
    { subst pr. cbn [built pr_fixed pr_random]. clear. induction gl; cbn [map combine]; [reflexivity|]. f_equal. assumption. }
    rewrite Q in Hin. apply in_map_iff in Hin as [l [Hl _]]. injection Hl as <- <-. rewrite !map_length.
    split; [reflexivity|]. intros r Hr. apply in_map_iff in Hr as [row [<- _]].
    rewrite feature_row_length, where_length. subst pr. unfold num_random, built. cbn [pr_labels pr_intercept].
    destruct ff, fr; reflexivity.
Qed.
