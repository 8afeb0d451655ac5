(** Facts on the double-precision proximal operators. *)
From Coq Require Import Reals ZArith List Lra Lia Bool.
From Flocq Require Import Core BinarySingleNaN Relative Plus_error.
From Verif.Base Require Import Py Vec.
From Verif.Model Require Import Float64.
From Verif.Spec Require Import Float64Spec.
Open Scope R_scope.

Lemma fexpE e : SpecFloat.fexp 53 1024 e = FLT_exp (-1074) 53 e.
Proof. reflexivity. Qed.
Lemma rndE x : round radix2 (SpecFloat.fexp 53 1024) (round_mode mode_NE) x = rnd x.
Proof. reflexivity. Qed.
#[local] Instance vexp : Valid_exp (FLT_exp (-1074) 53).
Proof. apply FLT_exp_valid. reflexivity. Qed.
Definition fmt := generic_format radix2 (FLT_exp (-1074) 53).
Lemma fmt_val x : fmt (val x).
Proof. exact (generic_format_B2R 53 1024 x). Qed.
Lemma fmt_opp x : fmt x -> fmt (- x).
Proof. apply generic_format_opp. Qed.
Lemma rnd_fmt x : fmt x -> rnd x = x.
Proof. intros H. apply round_generic; [apply valid_rnd_N|exact H]. Qed.
Lemma rnd_is x : fmt (rnd x).
Proof. apply generic_format_round; [apply vexp|apply valid_rnd_N]. Qed.
Lemma rnd_0 : rnd 0 = 0.
Proof. apply round_0. apply valid_rnd_N. Qed.
Lemma rnd_le x y : x <= y -> rnd x <= rnd y.
Proof. intros H. apply round_le; [apply vexp|apply valid_rnd_N|exact H]. Qed.
Lemma rnd_opp x : rnd (- x) = - rnd x.
Proof. apply round_NE_opp. Qed.
Lemma rnd_nonneg x : 0 <= x -> 0 <= rnd x.
Proof. intros H. rewrite <- rnd_0. apply rnd_le. exact H. Qed.
Lemma rnd_nonpos x : x <= 0 -> rnd x <= 0.
Proof. intros H. rewrite <- rnd_0. apply rnd_le. exact H. Qed.
Lemma abs_le_inv a b : Rabs a <= b -> - b <= a <= b.
Proof. unfold Rabs. destruct (Rcase_abs a); lra. Qed.
Lemma rnd_abs_le x y : fmt y -> Rabs x <= y -> Rabs (rnd x) <= y.
Proof.
  intros Hy H. apply Rabs_le. apply abs_le_inv in H. split.
  - rewrite <- (rnd_fmt y Hy), <- rnd_opp. apply rnd_le. lra.
  - rewrite <- (rnd_fmt y Hy). apply rnd_le. lra.
Qed.
Lemma val_lt x : Rabs (val x) < bpow radix2 1024.
Proof. apply abs_B2R_lt_emax. Qed.

(** ** the operations *)
Lemma fsub_exact x y : finite x -> finite y -> Rabs (rnd (val x - val y)) < bpow radix2 1024 ->
  finite (fsub x y) /\ val (fsub x y) = rnd (val x - val y).
Proof.
  intros Hx Hy H. pose proof (Bminus_correct 53 1024 _ _ mode_NE x y Hx Hy) as C. rewrite rndE in C.
  rewrite Rlt_bool_true in C by exact H. destruct C as (C1 & C2 & _). split; [exact C2|exact C1].
Qed.
Lemma fsub_over x y : finite x -> finite y -> bpow radix2 1024 <= Rabs (rnd (val x - val y)) ->
  fsub x y = B754_infinity (Bsign x).
Proof.
  intros Hx Hy H. pose proof (Bminus_correct 53 1024 _ _ mode_NE x y Hx Hy) as C. rewrite rndE in C.
  rewrite Rlt_bool_false in C by exact H. destruct C as (C1 & _).
  change (fsub x y) with (Bminus mode_NE x y). destruct (Bminus mode_NE x y); cbn in C1; congruence.
Qed.
Lemma flt_val x y : finite x -> finite y -> flt x y = Rlt_bool (val x) (val y).
Proof. apply Bltb_correct. Qed.
Lemma fle_val x y : finite x -> finite y -> fle x y = Rle_bool (val x) (val y).
Proof. apply Bleb_correct. Qed.
Lemma finite_zero : finite fzero.
Proof. reflexivity. Qed.
Lemma val_zero : val fzero = 0.
Proof. reflexivity. Qed.
Lemma finite_opp x : finite x -> finite (fopp x).
Proof. unfold finite, fopp. rewrite is_finite_Bopp. auto. Qed.
Lemma val_opp x : val (fopp x) = - val x.
Proof. apply B2R_Bopp. Qed.
Lemma val_neg_sign x : val x < 0 -> Bsign x = true.
Proof.
  unfold val. destruct x as [s|s| |s m e B]; cbn; try lra. destruct s; [reflexivity|].
  intros H. exfalso. assert (0 < F2R (Float radix2 (Zpos m) e)) by (apply F2R_gt_0; reflexivity). cbn in *. lra.
Qed.
Lemma val_zero_inv x : finite x -> val x = 0 -> exists s, x = B754_zero s.
Proof.
  unfold val. destruct x as [s|s| |s m e B]; cbn; intros H E; try discriminate; [eauto|].
  exfalso. destruct s.
  - assert (F2R (Float radix2 (Zneg m) e) < 0) by (apply F2R_lt_0; reflexivity). cbn in *. lra.
  - assert (0 < F2R (Float radix2 (Zpos m) e)) by (apply F2R_gt_0; reflexivity). cbn in *. lra.
Qed.

(** ** soft thresholding *)
Definition pos_part (a : R) : R := if Rle_dec 0 a then a else 0.
Lemma clip_sub x t : finite x -> finite t -> 0 <= val t ->
  finite (fclip (fsub x t)) /\ val (fclip (fsub x t)) = rnd (pos_part (val x - val t)).
Proof.
  intros Hx Ht T. set (X := val x) in *. set (T0 := val t) in *.
  destruct (Rlt_le_dec (Rabs (rnd (X - T0))) (bpow radix2 1024)) as [L|L].
  - destruct (fsub_exact x t Hx Ht L) as [F V]. unfold fclip. rewrite flt_val by (exact F || reflexivity). rewrite val_zero, V. fold X T0.
    unfold pos_part. destruct (Rle_dec 0 (X - T0)) as [H|H].
    + rewrite Rlt_bool_false by (apply rnd_nonneg; exact H). split; [exact F|rewrite V; reflexivity].
    + assert (N : rnd (X - T0) <= 0) by (apply rnd_nonpos; lra). rewrite rnd_0.
      destruct (Rlt_bool_spec (rnd (X - T0)) 0) as [S|S]; [split; reflexivity|]. split; [exact F|]. rewrite V. fold X T0. lra.
  - assert (X < 0).
    { apply Rnot_le_lt. intros C. apply (Rlt_not_le _ _ (Rmax_lub_lt (Rabs X) (Rabs T0) _ (val_lt x) (val_lt t))).
      eapply Rle_trans; [exact L|]. rewrite (Rabs_right X), (Rabs_right T0) by lra. apply rnd_abs_le.
      - unfold Rmax. destruct (Rle_dec X T0); apply fmt_val.
      - apply Rabs_le. unfold Rmax. destruct (Rle_dec X T0); lra. }
    rewrite (fsub_over x t Hx Ht L), (val_neg_sign x H). cbn. split; [reflexivity|].
    unfold pos_part. destruct (Rle_dec 0 (X - T0)); [lra|]. rewrite rnd_0. reflexivity.
Qed.

Lemma soft_parts t x : 0 <= t -> soft_threshold t x = pos_part (x - t) - pos_part (- x - t).
Proof.
  intros T. unfold soft_threshold, pos_part. destruct (Rle_dec (Rabs x) t) as [H|H].
  - apply abs_le_inv in H. destruct (Rle_dec 0 (x - t)), (Rle_dec 0 (- x - t)); lra.
  - destruct (Rle_dec 0 x) as [P|P].
    + rewrite Rabs_right in H by lra. destruct (Rle_dec 0 (x - t)), (Rle_dec 0 (- x - t)); lra.
    + rewrite Rabs_left in H by lra. destruct (Rle_dec 0 (x - t)), (Rle_dec 0 (- x - t)); lra.
Qed.
Lemma one_part t x : 0 <= t -> pos_part (x - t) = 0 \/ pos_part (- x - t) = 0.
Proof. intros T. unfold pos_part. destruct (Rle_dec 0 (x - t)), (Rle_dec 0 (- x - t)); lra. Qed.

Lemma soft_correct t x : finite x -> finite t -> 0 <= val t ->
  finite (fsoft t x) /\ val (fsoft t x) = rnd (soft_threshold (val t) (val x)).
Proof.
  intros Hx Ht T. destruct (clip_sub x t Hx Ht T) as [F1 V1].
  destruct (clip_sub (fopp x) t (finite_opp x Hx) Ht T) as [F2 V2]. rewrite val_opp in V2.
  rewrite soft_parts by exact T. unfold fsoft.
  set (a := fclip (fsub x t)) in *. set (b := fclip (fsub (fopp x) t)) in *.
  assert (E : rnd (val a - val b) = rnd (pos_part (val x - val t) - pos_part (- val x - val t)) /\
              Rabs (rnd (val a - val b)) < bpow radix2 1024).
  { destruct (one_part (val t) (val x) T) as [Z|Z]; rewrite Z in *; rewrite rnd_0 in *.
    - rewrite V1. rewrite !Rminus_0_l, !rnd_opp. rewrite (rnd_fmt (val b)) by apply fmt_val. split; [rewrite V2; reflexivity|].
      rewrite Rabs_Ropp. apply val_lt.
    - rewrite V2. rewrite !Rminus_0_r. rewrite (rnd_fmt (val a)) by apply fmt_val. split; [exact V1|apply val_lt]. }
  destruct E as [E L]. destruct (fsub_exact a b F1 F2 L) as [F V]. split; [exact F|]. rewrite V. exact E.
Qed.

Lemma soft_infinite x : finite x -> finite (fsoft (B754_infinity false) x) /\ val (fsoft (B754_infinity false) x) = 0.
Proof. destruct x as [s|s| |s m e B]; intros H; try discriminate H; [destruct s|destruct s]; split; reflexivity. Qed.

(** gradual underflow: differences of different numbers do not vanish *)
Lemma rnd_sub_neq a b : fmt a -> fmt b -> a <> b -> rnd (a - b) <> 0.
Proof.
  intros Ha Hb N. unfold Rminus. apply round_plus_neq_0; try exact Ha.
  - apply vexp.
  - apply FLT_exp_monotone || apply _.
  - apply valid_rnd_N.
  - apply fmt_opp. exact Hb.
  - lra.
Qed.
Lemma soft_zero_iff t x : finite x -> finite t -> 0 <= val t -> (val (fsoft t x) = 0 <-> Rabs (val x) <= val t).
Proof.
  intros Hx Ht T. destruct (soft_correct t x Hx Ht T) as [_ ->]. unfold soft_threshold.
  destruct (Rle_dec (Rabs (val x)) (val t)) as [H|H]; [rewrite rnd_0; tauto|]. split; [|tauto]. intros E. exfalso.
  destruct (Rle_dec 0 (val x)) as [P|P].
  - revert E. apply rnd_sub_neq; try apply fmt_val. rewrite Rabs_right in H by lra. lra.
  - revert E. replace (val x + val t) with (val x - - val t) by ring. apply rnd_sub_neq; [apply fmt_val|apply fmt_opp, fmt_val|].
    rewrite Rabs_left in H by lra. lra.
Qed.
Lemma soft_between t x : finite x -> finite t -> 0 <= val t ->
  (0 <= val x -> 0 <= val (fsoft t x) <= val x) /\ (val x <= 0 -> val x <= val (fsoft t x) <= 0).
Proof.
  intros Hx Ht T. destruct (soft_correct t x Hx Ht T) as [_ ->]. unfold soft_threshold.
  split; intros P; (destruct (Rle_dec (Rabs (val x)) (val t)) as [H|H]; [rewrite rnd_0; lra|]).
  - destruct (Rle_dec 0 (val x)); [|lra]. rewrite Rabs_right in H by lra. split; [apply rnd_nonneg; lra|].
    rewrite <- (rnd_fmt (val x)) at 2 by apply fmt_val. apply rnd_le. lra.
  - destruct (Rle_dec 0 (val x)) as [Q|Q].
    + exfalso. assert (val x = 0) as E by lra. rewrite E, Rabs_R0 in H. lra.
    + rewrite Rabs_left in H by lra. split; [|apply rnd_nonpos; lra].
      rewrite <- (rnd_fmt (val x)) at 1 by apply fmt_val. apply rnd_le. lra.
Qed.

(** ** error of the L1 prox against exact arithmetic *)
Lemma u_roE : u_ro radix2 53 = unit_roundoff.
Proof. unfold u_ro, unit_roundoff. cbn. field. Qed.
Lemma u_pos : 0 < unit_roundoff.
Proof. unfold unit_roundoff. apply Rinv_0_lt_compat. apply pow_lt. lra. Qed.
Lemma eta_pos : 0 < underflow_error.
Proof. apply bpow_gt_0. Qed.
Lemma rnd_error z : Rabs (rnd z - z) <= unit_roundoff * Rabs z + underflow_error.
Proof.
  destruct (error_N_FLT radix2 (-1074) 53 eq_refl (fun x => negb (Z.even x)) z) as (e & n & He & Hn & _ & E).
  change (round radix2 (FLT_exp (-1074) 53) (Znearest (fun x : Z => negb (Z.even x))) z) with (rnd z) in E. rewrite E.
  fold (u_ro radix2 53) in He. rewrite u_roE in He.
  replace (/ 2 * bpow radix2 (-1074)) with underflow_error in Hn
    by (unfold underflow_error; change (-1074)%Z with (1 + -1075)%Z; rewrite bpow_plus; change (bpow radix2 1) with 2; field).
  replace (z * (1 + e) + n - z) with (e * z + n) by ring. eapply Rle_trans; [apply Rabs_triang|]. rewrite Rabs_mult.
  apply Rplus_le_compat; [|exact Hn]. apply Rmult_le_compat_r; [apply Rabs_pos|exact He].
Qed.
Lemma rnd_sub_error a b : fmt a -> fmt b -> Rabs (rnd (a - b) - (a - b)) <= unit_roundoff * Rabs (a - b).
Proof.
  intros Ha Hb. destruct (FLT_plus_error_N_ex radix2 (-1074) 53 (fun x => negb (Z.even x)) a (- b) Ha (fmt_opp _ Hb)) as (e & He & E).
  change (rnd (a - b) = (a - b) * (1 + e)) in E. rewrite E.
  replace ((a - b) * (1 + e) - (a - b)) with (e * (a - b)) by ring. rewrite Rabs_mult.
  apply Rmult_le_compat_r; [apply Rabs_pos|]. eapply Rle_trans; [exact He|]. rewrite <- u_roE. apply u_rod1pu_ro_le_u_ro.
Qed.
Lemma soft_error t x : finite x -> finite t -> 0 <= val t ->
  Rabs (val (fsoft t x) - soft_threshold (val t) (val x)) <= unit_roundoff * Rabs (val x).
Proof.
  intros Hx Ht T. destruct (soft_correct t x Hx Ht T) as [_ ->]. pose proof u_pos as U. unfold soft_threshold.
  destruct (Rle_dec (Rabs (val x)) (val t)) as [H|H].
  - rewrite rnd_0, Rminus_0_r, Rabs_R0. apply Rmult_le_pos; [lra|apply Rabs_pos].
  - destruct (Rle_dec 0 (val x)) as [P|P].
    + rewrite (Rabs_right (val x)) in * by lra. eapply Rle_trans; [apply rnd_sub_error; apply fmt_val|].
      apply Rmult_le_compat_l; [lra|]. rewrite Rabs_right by lra. lra.
    + rewrite (Rabs_left (val x)) in * by lra. replace (val x + val t) with (val x - - val t) by ring.
      eapply Rle_trans; [apply rnd_sub_error; [apply fmt_val|apply fmt_opp, fmt_val]|].
      apply Rmult_le_compat_l; [lra|]. rewrite Rabs_left by lra. lra.
Qed.
Lemma soft_lipschitz s t x : Rabs (soft_threshold s x - soft_threshold t x) <= Rabs (s - t).
Proof.
  unfold soft_threshold. unfold Rabs.
  destruct (Rcase_abs x); repeat match goal with |- context [Rle_dec ?a ?b] => destruct (Rle_dec a b) end;
    repeat match goal with |- context [Rcase_abs ?a] => destruct (Rcase_abs a) end; lra.
Qed.

(** ** signs, for all doubles *)
Definition zero_or_nan (x : f64) : Prop := match x with B754_zero _ | B754_nan => True | _ => False end.
Lemma F2R_pos m e : 0 < F2R (Float radix2 (Zpos m) e).
Proof. apply F2R_gt_0. reflexivity. Qed.
Lemma F2R_neg m e : F2R (Float radix2 (Zneg m) e) < 0.
Proof. apply F2R_lt_0. reflexivity. Qed.
Lemma nn_val x : finite x -> (~ negative x <-> 0 <= val x).
Proof.
  unfold val. destruct x as [s|s| |s m e B]; intros H; try discriminate H; cbn.
  - split; [lra|tauto].
  - destruct s; cbn.
    + pose proof (F2R_neg m e). cbn in *. split; [intros C; exfalso; apply C; reflexivity|lra].
    + pose proof (F2R_pos m e). cbn in *. split; [lra|discriminate].
Qed.
Lemma nn_nonneg x : ~ negative x -> finite x -> 0 <= val x.
Proof. intros H F. apply nn_val; assumption. Qed.
Lemma nn_sign x : ~ negative x -> 0 < val x -> Bsign x = false.
Proof.
  intros N H. destruct x as [s|s| |s m e B]; unfold val in *; cbn in *; try lra. destruct s; [exfalso; apply N; reflexivity|reflexivity].
Qed.
Lemma fmul_nn a b : ~ negative a -> ~ negative b -> ~ negative (fmul a b).
Proof.
  intros Ha Hb. destruct a as [s|s| |s m e Bd] eqn:Ea.
  - destruct b as [s'|s'| |s' m' e' B']; cbn; tauto.
  - destruct b as [s'|s'| |s' m' e' B']; cbn in *; try tauto; destruct s, s'; cbn in *; intuition congruence.
  - destruct b as [s'|s'| |s' m' e' B']; cbn; tauto.
  - destruct b as [s'|s'| |s' m' e' B'] eqn:Eb.
    1, 3: cbn; tauto.
    + cbn in *. destruct s, s'; cbn in *; intuition congruence.
    + rewrite <- Ea, <- Eb in *.
      assert (Fa : finite a) by (rewrite Ea; reflexivity). assert (Fb : finite b) by (rewrite Eb; reflexivity).
      pose proof (Bmult_correct 53 1024 _ _ mode_NE a b) as C. rewrite rndE in C.
      change (Bmult mode_NE a b) with (fmul a b) in C.
      destruct (Rlt_bool _ _) in C.
      * destruct C as (V & F & _). rewrite Fa, Fb in F. apply nn_val; [exact F|]. unfold val at 1. rewrite V. apply rnd_nonneg.
        apply Rmult_le_pos; apply nn_nonneg; assumption.
      * assert (S : xorb (Bsign a) (Bsign b) = false).
        { rewrite Ea, Eb in *. cbn. destruct s, s'; cbn in *; intuition congruence. }
        rewrite S in C. destruct (fmul a b); cbn in C |- *; try discriminate C; try tauto. injection C as ->. discriminate.
Qed.
Lemma fclip_nn x : ~ negative (fclip x).
Proof.
  unfold fclip. destruct (flt x fzero) eqn:E; [cbn; tauto|]. destruct x as [s|s| |s m e B]; cbn; try tauto; destruct s; try discriminate; cbn in E; discriminate E.
Qed.
Lemma fclip_nonpos x : ~ negative (fopp x) -> zero_or_nan (fclip x).
Proof.
  intros H. unfold fclip. destruct (flt x fzero) eqn:E; [exact I|]. destruct x as [s|s| |s m e B]; cbn; try exact I.
  - destruct s; cbn in *; [discriminate E|]. apply H. reflexivity.
  - destruct s; cbn in *; [discriminate E|]. apply H. reflexivity.
Qed.
Lemma fsub_zero_or_nan a b : ~ negative a -> zero_or_nan b -> ~ negative (fsub a b).
Proof.
  intros Ha Hb. destruct b as [s'|s'| |s' m' e' B']; cbn in Hb; try tauto.
  - destruct a as [s|s| |s m e B]; cbn in *; try tauto. destruct s, s'; cbn; tauto.
  - destruct a as [s|s| |s m e B]; cbn in *; tauto.
Qed.
Lemma fsub_opp_nonpos x t : ~ negative x -> ~ negative t -> ~ negative (fopp (fsub (fopp x) t)).
Proof.
  intros Hx Ht. destruct x as [s|s| |s m e B] eqn:Ex.
  - destruct t as [s'|s'| |s' m' e' B']; cbn in *; try tauto; try (destruct s'; cbn in *; intuition congruence).
    destruct s, s'; cbn; tauto.
  - destruct s; [exfalso; apply Hx; reflexivity|].
    destruct t as [s'|s'| |s' m' e' B']; cbn in *; try discriminate; try tauto. destruct s'; cbn; intuition congruence.
  - destruct t; cbn; tauto.
  - destruct s; [exfalso; apply Hx; reflexivity|].
    destruct t as [s'|s'| |s' m' e' B'] eqn:Et.
    + cbn. discriminate.
    + destruct s'; [exfalso; apply Ht; reflexivity|]. cbn. discriminate.
    + cbn. tauto.
    + rewrite <- Ex, <- Et in *. assert (Fx : finite (fopp x)) by (rewrite Ex; reflexivity). assert (Ft : finite t) by (rewrite Et; reflexivity).
      assert (X : 0 <= val x) by (apply nn_nonneg; [exact Hx|rewrite Ex; reflexivity]).
      assert (T : 0 <= val t) by (apply nn_nonneg; assumption).
      destruct (Rlt_le_dec (Rabs (rnd (val (fopp x) - val t))) (bpow radix2 1024)) as [L|L].
      * destruct (fsub_exact _ _ Fx Ft L) as [F V]. apply nn_val; [apply finite_opp; exact F|]. rewrite val_opp, V, val_opp.
        assert (rnd (- val x - val t) <= 0) by (apply rnd_nonpos; lra). lra.
      * rewrite (fsub_over _ _ Fx Ft L). rewrite Ex. cbn. discriminate.
Qed.
Lemma fsoft_nn t x : ~ negative t -> ~ negative x -> ~ negative (fsoft t x).
Proof.
  intros Ht Hx. unfold fsoft. apply fsub_zero_or_nan; [apply fclip_nn|]. apply fclip_nonpos. apply fsub_opp_nonpos; assumption.
Qed.

Definition at_least_one (d : f64) : Prop := is_nan d = true \/ d = B754_infinity false \/ (finite d /\ 1 <= val d).
Lemma val_one : val fone = 1.
Proof. apply Bone_correct. Qed.
Lemma finite_one : finite fone.
Proof. reflexivity. Qed.
Lemma fadd_one a : ~ negative a -> at_least_one (fadd fone a).
Proof.
  intros Ha. destruct a as [s|s| |s m e B] eqn:E.
  - right; right. destruct s; cbn; (split; [reflexivity|]); change (1 <= val fone); rewrite val_one; lra.
  - destruct s; [exfalso; apply Ha; reflexivity|]. right; left. reflexivity.
  - left. reflexivity.
  - rewrite <- E in *. assert (F : finite a) by (rewrite E; reflexivity).
    pose proof (nn_nonneg a Ha F) as V.
    pose proof (Bplus_correct 53 1024 _ _ mode_NE fone a finite_one F) as C. rewrite rndE in C.
    change (Bplus mode_NE fone a) with (fadd fone a) in C. destruct (Rlt_bool _ _) in C.
    + destruct C as (C1 & C2 & _). right; right. split; [exact C2|]. unfold val. rewrite C1. fold (val fone) (val a).
      rewrite <- val_one at 1. rewrite <- (rnd_fmt (val fone)) at 1 by apply fmt_val. apply rnd_le. lra.
    + destruct C as (C1 & _). right; left. destruct (fadd fone a); cbn in C1; try discriminate C1. injection C1 as ->. reflexivity.
Qed.
Lemma fdiv_correct x d : finite x -> finite d -> 1 <= val d ->
  finite (fdiv x d) /\ val (fdiv x d) = rnd (val x / val d).
Proof.
  intros Fx Fd D. assert (N : B2R d <> 0) by (unfold val in D; lra).
  pose proof (Bdiv_correct 53 1024 _ _ mode_NE x d N) as C. rewrite rndE in C. fold (val x) (val d) in C.
  change (Bdiv mode_NE x d) with (fdiv x d) in C. rewrite Rlt_bool_true in C.
  - destruct C as (V & F & _). split; [unfold finite; rewrite F; exact Fx|exact V].
  - eapply Rle_lt_trans; [|apply (val_lt x)]. apply rnd_abs_le.
    + apply generic_format_abs. apply fmt_val.
    + unfold Rdiv. rewrite Rabs_mult. rewrite <- (Rmult_1_r (Rabs (val x))) at 2. apply Rmult_le_compat_l; [apply Rabs_pos|].
      rewrite Rabs_right by (apply Rle_ge, Rlt_le, Rinv_0_lt_compat; lra). rewrite <- Rinv_1. apply Rinv_le_contravar; lra.
Qed.
Lemma fdiv_nn x d : ~ negative x -> at_least_one d -> ~ negative (fdiv x d).
Proof.
  intros Hx [Hd|[->|[Fd Vd]]].
  - destruct d; try discriminate Hd. destruct x; cbn; tauto.
  - destruct x as [s|s| |s m e B]; cbn in *; tauto.
  - destruct x as [s|s| |s m e B] eqn:E.
    + destruct d; cbn; tauto.
    + destruct s; [exfalso; apply Hx; reflexivity|]. destruct d as [s'|s'| |s' m' e' B']; cbn; try tauto; try discriminate Fd.
      * unfold val in Vd. cbn in Vd. lra.
      * unfold val in Vd. destruct s'; cbn; [|discriminate]. cbn in Vd. pose proof (F2R_neg m' e'). cbn in *. lra.
    + destruct d; cbn; tauto.
    + rewrite <- E in *. assert (Fx : finite x) by (rewrite E; reflexivity). destruct (fdiv_correct x d Fx Fd Vd) as [F V].
      apply nn_val; [exact F|]. rewrite V. apply rnd_nonneg. apply Rmult_le_pos; [apply nn_nonneg; assumption|].
      apply Rlt_le, Rinv_0_lt_compat. lra.
Qed.

(** ** moving towards zero *)
Definition tame (x : f64) : Prop := is_nan x = true \/ finite x.
Definition moves (x y : f64) : Prop :=
  is_nan y = true \/ (exists s, y = B754_zero s) \/ (finite x /\ finite y /\ toward_zero (val x) (val y)).
Lemma moves_tame x y : moves x y -> tame y.
Proof. intros [H|[[s ->]|[_ [H _]]]]; [left; exact H|right; reflexivity|right; exact H]. Qed.
Lemma moves_refl x : tame x -> moves x x.
Proof. intros [H|H]; [left; exact H|]. right; right. unfold toward_zero. repeat split; try exact H; lra. Qed.
Lemma moves_trans x y z : moves x y -> moves y z -> moves x z.
Proof.
  intros Hxy [H|[H|(Fy & Fz & T)]]; [left; exact H|right; left; exact H|].
  destruct Hxy as [H|[[s ->]|(Fx & _ & T')]].
  - destruct y; discriminate.
  - right; left. apply val_zero_inv; [exact Fz|]. destruct T as [T1 T2]. change (val (B754_zero s)) with 0 in T1. specialize (T1 (Rle_refl 0)). lra.
  - right; right. split; [exact Fx|]. split; [exact Fz|]. unfold toward_zero in *. destruct T, T'. split; intros; split;
    repeat match goal with H : ?a -> _, K : ?a |- _ => specialize (H K) end; try lra;
    destruct (Rle_dec 0 (val y)), (Rle_dec (val y) 0); repeat match goal with H : ?a -> _, K : ?a |- _ => specialize (H K) end; lra.
Qed.
Lemma soft_moves t x : ~ negative t -> tame x -> moves x (fsoft t x).
Proof.
  intros Ht [Hx|Hx].
  - left. destruct x; try discriminate Hx. destruct t; reflexivity.
  - destruct t as [s|s| |s m e B] eqn:E.
    1, 4: rewrite <- E in *; assert (F : finite t) by (rewrite E; reflexivity); pose proof (nn_nonneg t Ht F) as V;
          right; right; split; [exact Hx|]; split; [apply soft_correct; assumption|apply soft_between; assumption].
    + destruct s; [exfalso; apply Ht; reflexivity|]. right; left. destruct (soft_infinite x Hx). apply val_zero_inv; assumption.
    + left. destruct x; reflexivity.
Qed.
Lemma div_moves d x : at_least_one d -> tame x -> moves x (fdiv x d).
Proof.
  intros Hd [Hx|Hx].
  - left. destruct x; try discriminate Hx. destruct d; reflexivity.
  - destruct Hd as [Hd|[->|[Fd Vd]]].
    + left. destruct d; try discriminate Hd. destruct x; reflexivity.
    + right; left. destruct x as [s|s| |s m e B]; try discriminate Hx; cbn; eauto.
    + destruct (fdiv_correct x d Hx Fd Vd) as [F V]. right; right. split; [exact Hx|]. split; [exact F|]. rewrite V.
      assert (I : 0 < / val d <= 1).
      { split; [apply Rinv_0_lt_compat; lra|]. rewrite <- Rinv_1. apply Rinv_le_contravar; lra. }
      unfold Rdiv. split; intros P; split.
      * apply rnd_nonneg. nra.
      * rewrite <- (rnd_fmt (val x)) at 2 by apply fmt_val. apply rnd_le. nra.
      * rewrite <- (rnd_fmt (val x)) at 1 by apply fmt_val. apply rnd_le. nra.
      * apply rnd_nonpos. nra.
Qed.
Lemma clip_moves x : tame x -> moves x (fclip x).
Proof.
  intros H. unfold fclip. destruct (flt x fzero); [right; left; exists false; reflexivity|apply moves_refl; exact H].
Qed.

(** ** the whole operators *)
From Verif.Model Require Import Regularizers.
From Verif.Proofs Require Import VecFacts.

Fixpoint freg_ind' (P : freg -> Prop) (h1 : forall k, P (FSelect k)) (h2 : forall l w, P (FL1 l w))
  (h3 : forall r l w, P (FCAD r l w)) (h4 : forall r s l w, P (FSCAD r s l w)) (h5 : P FDummy)
  (h6 : forall c o, match o with Some r => P r | None => True end -> P (FPos c o))
  (h7 : forall e o, match o with Some r => P r | None => True end -> P (FElastic e o)) (r : freg) : P r :=
  match r with
  | FSelect k => h1 k
  | FL1 l w => h2 l w
  | FCAD a l w => h3 a l w
  | FSCAD a s l w => h4 a s l w
  | FDummy => h5
  | FPos c o => h6 c o (match o with Some r' => freg_ind' P h1 h2 h3 h4 h5 h6 h7 r' | None => I end)
  | FElastic e o => h7 e o (match o with Some r' => freg_ind' P h1 h2 h3 h4 h5 h6 h7 r' | None => I end)
  end.

Section Coordinatewise.
(* a relation between a coordinate and its image which all the pieces of the operators respect *)
Variable rel : f64 -> f64 -> Prop.
Variable dom : f64 -> Prop.
Hypothesis rel_refl : forall x, dom x -> rel x x.
Hypothesis rel_dom : forall x y, dom x -> rel x y -> dom y.
Hypothesis rel_trans : forall x y z, rel x y -> rel y z -> rel x z.
Hypothesis rel_zero : forall x, rel x fzero.
Hypothesis rel_soft : forall t x, ~ negative t -> dom x -> rel x (fsoft t x).
Hypothesis rel_div : forall d x, at_least_one d -> dom x -> rel x (fdiv x d).
Hypothesis rel_clip : forall x, dom x -> rel x (fclip x).

Lemma nth_zero (l : list f64) i : (length l <= i)%nat -> nth i l fzero = fzero.
Proof. apply nth_overflow. Qed.
Lemma Forall_nn w i : Forall (fun wi => ~ negative wi) w -> ~ negative (nth i w fzero).
Proof.
  intros H. destruct (Nat.lt_ge_cases i (length w)) as [L|L].
  - rewrite Forall_forall in H. apply H. apply nth_In. exact L.
  - rewrite nth_overflow by exact L. cbn. tauto.
Qed.
Lemma map_rel f x i : (forall a, dom a -> rel a (f a)) -> dom (nth i x fzero) -> rel (nth i x fzero) (nth i (map f x) fzero).
Proof.
  intros H D. destruct (Nat.lt_ge_cases i (length x)) as [L|L].
  - rewrite (nth_indep (map f x) fzero (f fzero)) by (rewrite map_length; exact L). rewrite map_nth. apply H. exact D.
  - rewrite (nth_overflow (map f x)) by (rewrite map_length; exact L). apply rel_zero.
Qed.
Lemma map2_rel {A} (f : A -> f64 -> f64) (w : list A) (da : A) x i : (forall a, dom a -> rel a (f (nth i w da) a)) -> dom (nth i x fzero) ->
  rel (nth i x fzero) (nth i (map2 f w x) fzero).
Proof.
  intros H D. destruct (Nat.lt_ge_cases i (length (map2 f w x))) as [L|L].
  - pose proof L as L'. rewrite map2_length in L'. rewrite (map2_nth f w x i da fzero) by lia. apply H. exact D.
  - rewrite (nth_overflow (map2 f w x)) by exact L. apply rel_zero.
Qed.
Lemma prox_rel r : plain r -> forall x alpha y i, ~ negative alpha -> fprox r x alpha = Ok y -> dom (nth i x fzero) ->
  rel (nth i x fzero) (nth i y fzero).
Proof.
  induction r as [k|l w|a l w|a s l w| |c o IH|e o IH] using freg_ind'; intros P x alpha y i A H D; cbn in H.
  - injection H as <-. apply map2_rel with (da := false); [|exact D]. intros b Hb. destruct (nth i (k x) false); [apply rel_refl; exact Hb|apply rel_zero].
  - cbn in P. destruct P as [Pl Pw]. unfold fl1_prox in H. destruct w as [w|].
    + destruct (length w =? length x)%nat; [|discriminate H]. cbn in H. injection H as <-.
      apply map2_rel with (da := fzero); [|exact D]. intros b Hb. apply rel_soft; [|exact Hb].
      apply fmul_nn; [apply fmul_nn; [exact A|apply Forall_nn; exact Pw]|exact Pl].
    + injection H as <-. apply map_rel; [|exact D]. intros b Hb. apply rel_soft; [|exact Hb]. apply fmul_nn; assumption.
  - cbn in P. destruct P as [Pl Pw]. unfold fcad_prox in H. destruct w as [w|].
    + destruct (length w =? length x)%nat; [|discriminate H]. cbn in H. injection H as <-.
      apply map2_rel with (da := fzero); [|exact D]. intros b Hb. destruct (fle (fabs b) a && flt fzero (nth i w fzero)); [|apply rel_refl; exact Hb].
      apply rel_soft; [|exact Hb]. apply fmul_nn; [apply fmul_nn; [apply Forall_nn; exact Pw|exact A]|exact Pl].
    + injection H as <-. apply map_rel; [|exact D]. intros b Hb. destruct (fle (fabs b) a); [|apply rel_refl; exact Hb].
      apply rel_soft; [|exact Hb]. apply fmul_nn; assumption.
  - destruct P.
  - injection H as <-. apply rel_refl. exact D.
  - destruct (length c =? length x)%nat; [|discriminate H]. cbn in H.
    set (z := map2 (fun (b : bool) xi => if b then fclip xi else xi) c x) in H.
    assert (Z : rel (nth i x fzero) (nth i z fzero)).
    { apply map2_rel with (da := false); [|exact D]. intros b Hb. destruct (nth i c false); [apply rel_clip|apply rel_refl]; exact Hb. }
    destruct o as [r|]; [|injection H as <-; exact Z].
    apply rel_trans with (nth i z fzero); [exact Z|]. apply (IH P z alpha y i A H). apply rel_dom with (nth i x fzero); assumption.
  - set (d := fadd fone (fmul alpha e)) in H. set (z := map (fun xi => fdiv xi d) x) in H.
    assert (E : ~ negative e) by (destruct o; [destruct P|]; assumption).
    assert (Hd : at_least_one d) by (apply fadd_one; apply fmul_nn; assumption).
    assert (Z : rel (nth i x fzero) (nth i z fzero)) by (apply map_rel; [intros b Hb; apply rel_div; assumption|exact D]).
    destruct o as [r|]; [|injection H as <-; exact Z]. destruct P as [_ P].
    apply rel_trans with (nth i z fzero); [exact Z|]. apply (IH P z (fdiv alpha d) y i); [apply fdiv_nn; assumption|exact H|].
    apply rel_dom with (nth i x fzero); assumption.
Qed.
End Coordinatewise.

Lemma prox_moves r x alpha y i : plain r -> ~ negative alpha -> fprox r x alpha = Ok y -> finite (nth i x fzero) ->
  moves (nth i x fzero) (nth i y fzero).
Proof.
  intros P A H F. apply (prox_rel moves tame) with (r := r) (alpha := alpha); try assumption.
  - apply moves_refl.
  - intros a b _. apply moves_tame.
  - apply moves_trans.
  - intros a. right; left. exists false. reflexivity.
  - apply soft_moves.
  - apply div_moves.
  - apply clip_moves.
  - right. exact F.
Qed.
Lemma prox_nn r x alpha y i : plain r -> ~ negative alpha -> fprox r x alpha = Ok y -> ~ negative (nth i x fzero) ->
  ~ negative (nth i y fzero).
Proof.
  intros P A H F. revert F. apply (prox_rel (fun a b => ~ negative a -> ~ negative b) (fun _ => True)) with (r := r) (alpha := alpha); try assumption; auto.
  - intros t a Ht _. apply fsoft_nn. exact Ht.
  - intros d a Hd _ N. apply fdiv_nn; assumption.
  - intros a _ _. apply fclip_nn.
Qed.

(** ** the L1 class *)
Lemma fmul_finite a b : finite (fmul a b) -> finite a /\ finite b /\ val (fmul a b) = rnd (val a * val b).
Proof.
  intros H. pose proof (Bmult_correct 53 1024 _ _ mode_NE a b) as C. rewrite rndE in C.
  change (Bmult mode_NE a b) with (fmul a b) in C. destruct (Rlt_bool _ _) in C.
  - destruct C as (V & F & _). unfold finite in *. rewrite H in F. symmetry in F. apply andb_prop in F. destruct F. auto.
  - destruct (fmul a b); cbn in C; try discriminate C; discriminate H.
Qed.
Lemma product_error a b c : 0 <= a -> 0 <= b -> 0 <= c ->
  Rabs (rnd (rnd (a * b) * c) - a * b * c) <=
  (2 * unit_roundoff + unit_roundoff ^ 2) * (a * b * c) + underflow_error * (1 + (1 + unit_roundoff) * c).
Proof.
  intros Ha Hb Hc. pose proof u_pos as U. pose proof eta_pos as N. set (u := unit_roundoff) in *. set (n := underflow_error) in *.
  pose proof (rnd_error (a * b)) as E1. pose proof (rnd_error (rnd (a * b) * c)) as E2. fold u n in E1, E2.
  assert (AB : 0 <= a * b) by (apply Rmult_le_pos; assumption).
  assert (Q : 0 <= rnd (a * b)) by (apply rnd_nonneg; exact AB).
  rewrite (Rabs_right (a * b)) in E1 by lra.
  rewrite (Rabs_right (rnd (a * b) * c)) in E2 by (apply Rle_ge, Rmult_le_pos; assumption).
  set (q := rnd (a * b)) in *. set (s := a * b) in *.
  apply abs_le_inv in E1. apply abs_le_inv in E2.
  assert (H1 : q * c - s * c <= (u * s + n) * c) by (replace (q * c - s * c) with ((q - s) * c) by ring; apply Rmult_le_compat_r; lra).
  assert (H2 : - ((u * s + n) * c) <= q * c - s * c)
    by (replace (q * c - s * c) with ((q - s) * c) by ring; rewrite <- Ropp_mult_distr_l_reverse; apply Rmult_le_compat_r; lra).
  assert (H3 : u * (q * c) <= u * (s * c + (u * s + n) * c)) by (apply Rmult_le_compat_l; lra).
  apply Rabs_le. split; nra.
Qed.
Lemma soft_threshold_soft t x : 0 <= t -> soft t x = soft_threshold t x.
Proof.
  intros T. rewrite soft_parts by exact T. unfold soft. f_equal; unfold clip0, pos_part.
  all: match goal with |- context [Rle_dec 0 ?a] => destruct (Rle_dec 0 a) end.
  all: unfold Rmax; repeat match goal with |- context [Rle_dec ?a ?b] => destruct (Rle_dec a b) end; lra.
Qed.
Lemma threshold_nn lam w alpha n i : ~ negative lam -> ~ negative alpha -> weights_fit w n -> ~ negative (l1_threshold lam w alpha i).
Proof.
  intros L A W. unfold l1_threshold. destruct w as [w|]; [|apply fmul_nn; assumption].
  apply fmul_nn; [apply fmul_nn; [exact A|apply Forall_nn; apply W]|exact L].
Qed.
Lemma l1_coordinate lam w x alpha : weights_fit w (length x) ->
  exists y, fl1_prox lam w x alpha = Ok y /\ length y = length x /\
    forall i, (i < length x)%nat -> nth i y fzero = fsoft (l1_threshold lam w alpha i) (nth i x fzero).
Proof.
  intros W. unfold fl1_prox, l1_threshold. destruct w as [w|].
  - destruct W as [Hl _]. rewrite Hl, Nat.eqb_refl. eexists. split; [reflexivity|]. split; [apply map2_length_eq; exact Hl|].
    intros i Hi. rewrite (map2_nth _ w x i fzero fzero fzero) by lia. reflexivity.
  - eexists. split; [reflexivity|]. split; [apply map_length|]. intros i Hi.
    rewrite (nth_indep (map _ x) fzero (fsoft (fmul alpha lam) fzero)) by (rewrite map_length; exact Hi). apply map_nth.
Qed.
Lemma l1_exact_coordinate lam w x alpha z i : 0 <= exact_threshold lam w alpha i -> (i < length x)%nat ->
  l1_prox (val lam) (option_map (map val) w) (map val x) (val alpha) = Ok z ->
  nth i z 0 = soft_threshold (exact_threshold lam w alpha i) (val (nth i x fzero)).
Proof.
  intros T Hi. unfold l1_prox, exact_threshold in *. destruct w as [w|]; cbn [option_map].
  - rewrite !map_length. destruct (Nat.eqb_spec (length w) (length x)) as [E|E]; [|discriminate]. cbn. intros H. injection H as <-.
    rewrite (map2_nth _ _ _ i (val fzero) (val fzero)) by (rewrite map_length; lia). rewrite !map_nth. apply soft_threshold_soft. exact T.
  - intros H. injection H as <-. rewrite map_map.
    rewrite (nth_indep _ 0 (soft (val alpha * val lam) (val fzero))) by (rewrite map_length; exact Hi).
    rewrite (map_nth (fun a => soft (val alpha * val lam) (val a))). apply soft_threshold_soft. exact T.
Qed.
Lemma threshold_error lam w alpha n i : ~ negative lam -> ~ negative alpha -> weights_fit w n -> finite (l1_threshold lam w alpha i) ->
  0 <= exact_threshold lam w alpha i /\
  Rabs (val (l1_threshold lam w alpha i) - exact_threshold lam w alpha i) <=
  (2 * unit_roundoff + unit_roundoff ^ 2) * exact_threshold lam w alpha i + underflow_error * (1 + (1 + unit_roundoff) * val lam).
Proof.
  intros L A W F. pose proof u_pos as U. pose proof eta_pos as N. unfold l1_threshold, exact_threshold in *. destruct w as [w|].
  - destruct (fmul_finite _ _ F) as (F1 & F2 & V). destruct (fmul_finite _ _ F1) as (F3 & F4 & V1). rewrite V, V1.
    assert (0 <= val alpha) by (apply nn_nonneg; assumption). assert (0 <= val lam) by (apply nn_nonneg; assumption).
    assert (0 <= val (nth i w fzero)) by (apply nn_nonneg; [apply Forall_nn; apply W|exact F4]).
    split; [|apply product_error; assumption]. repeat apply Rmult_le_pos; assumption.
  - destruct (fmul_finite _ _ F) as (F1 & F2 & V). rewrite V.
    assert (0 <= val alpha) by (apply nn_nonneg; assumption). assert (0 <= val lam) by (apply nn_nonneg; assumption).
    assert (P : 0 <= val alpha * val lam) by (apply Rmult_le_pos; assumption). split; [exact P|].
    eapply Rle_trans; [apply rnd_error|]. rewrite Rabs_right by lra.
    assert (0 <= unit_roundoff * (val alpha * val lam)) by (apply Rmult_le_pos; lra).
    assert (0 <= unit_roundoff ^ 2 * (val alpha * val lam)) by (apply Rmult_le_pos; [apply pow_le|]; lra).
    assert (0 <= underflow_error * ((1 + unit_roundoff) * val lam)) by (repeat apply Rmult_le_pos; lra).
    lra.
Qed.
