(** Facts on the double-precision solver, and more on the operators. *)
From Coq Require Import Reals ZArith List String Lra Lia Bool.
From Flocq Require Import Core BinarySingleNaN.
From Verif.Base Require Import Py Vec.
From Verif.Model Require Import Float64 Float64Solver.
From Verif.Spec Require Import Float64Spec.
From Verif.Proofs Require Import VecFacts Float64Proofs.
Import ListNotations.
Open Scope R_scope.

(** ** operators *)
Lemma finite_abs x : finite x -> finite (fabs x).
Proof. unfold finite, fabs. rewrite is_finite_Babs. auto. Qed.
Lemma val_abs x : val (fabs x) = Rabs (val x).
Proof. apply B2R_Babs. Qed.
Lemma fle_true a b : finite a -> finite b -> val a <= val b -> fle a b = true.
Proof. intros A B H. rewrite fle_val by assumption. apply Rle_bool_true. exact H. Qed.
Lemma fle_false a b : finite a -> finite b -> val b < val a -> fle a b = false.
Proof. intros A B H. rewrite fle_val by assumption. apply Rle_bool_false. exact H. Qed.
Lemma flt_true a b : finite a -> finite b -> val a < val b -> flt a b = true.
Proof. intros A B H. rewrite flt_val by assumption. apply Rlt_bool_true. exact H. Qed.
Lemma flt_false a b : finite a -> finite b -> val b <= val a -> flt a b = false.
Proof. intros A B H. rewrite flt_val by assumption. apply Rlt_bool_false. exact H. Qed.
Lemma fadd_finite a b : finite (fadd a b) -> finite a /\ finite b /\ val (fadd a b) = rnd (val a + val b).
Proof.
  intros H. assert (F : finite a /\ finite b).
  { destruct a as [s|s| |s m e B], b as [s'|s'| |s' m' e' B']; split; try reflexivity; cbn in H; try discriminate H;
      destruct s, s'; cbn in H; discriminate H. }
  destruct F as [Fa Fb]. split; [exact Fa|]. split; [exact Fb|].
  pose proof (Bplus_correct 53 1024 _ _ mode_NE a b Fa Fb) as C. rewrite rndE in C.
  change (Bplus mode_NE a b) with (fadd a b) in C. destruct (Rlt_bool _ _) in C.
  - apply C.
  - destruct C as [C _]. destruct (fadd a b); cbn in C; try discriminate C; discriminate H.
Qed.
Lemma clip_val x : finite x -> finite (fclip x) /\ val (fclip x) = Rmax 0 (val x).
Proof.
  intros H. unfold fclip. rewrite flt_val by (exact H || reflexivity). rewrite val_zero.
  destruct (Rlt_bool_spec (val x) 0) as [L|L].
  - split; [reflexivity|]. rewrite val_zero. rewrite Rmax_left by lra. reflexivity.
  - split; [exact H|]. rewrite Rmax_right by lra. reflexivity.
Qed.
Lemma eqb_zero w : finite w -> (Beqb w fzero = true <-> val w = 0).
Proof.
  intros F. pose proof (Beqb_correct 53 1024 w fzero F eq_refl) as E. rewrite E. fold (val w). change (B2R fzero) with 0.
  destruct (Req_bool_spec (val w) 0) as [H|H]; split; intros; congruence.
Qed.
Lemma scad_nth rho sigma lam alpha ws x : length ws = length x -> exists y,
  fscad_loop rho sigma lam alpha ws x = Ok y /\ length y = length x /\
  forall i, (i < length x)%nat -> nth i y fzero = fscad_prox1 rho sigma lam (nth i ws fzero) alpha (nth i x fzero).
Proof.
  revert x. induction ws as [|w ws IH]; intros [|a x] L; try discriminate L.
  - exists []. cbn. repeat split. intros i Hi. lia.
  - cbn in L. destruct (IH x) as (y & Hy & Ly & N); [lia|]. exists (fscad_prox1 rho sigma lam w alpha a :: y).
    cbn. rewrite Hy. cbn. split; [reflexivity|]. split; [cbn; lia|]. intros [|i] Hi; [reflexivity|]. apply N. lia.
Qed.
Lemma nth_repeat_one n i : (i < n)%nat -> nth i (repeat fone n) fzero = fone.
Proof. revert i. induction n as [|n IH]; intros [|i] H; try lia; [reflexivity|]. cbn. apply IH. lia. Qed.

(** ** the prox never runs out of fuel *)
Lemma prox_comes_back r : forall x alpha, fprox r x alpha <> Err OutOfFuel.
Proof.
  induction r as [k|l w|a l w|a s l w| |c o IH|e o IH] using freg_ind'; intros x alpha; cbn; try discriminate.
  - unfold fl1_prox. destruct w; [|discriminate]. destruct (_ =? _)%nat; discriminate.
  - unfold fcad_prox. destruct w; [|discriminate]. destruct (_ =? _)%nat; discriminate.
  - unfold fscad_prox. set (ws := match w with Some w => w | None => _ end). clearbody ws. revert x.
    induction ws as [|wi ws IHw]; intros [|xi x]; cbn; try discriminate. specialize (IHw x).
    destruct (fscad_loop a s l alpha ws x) as [v|e]; cbn; [discriminate|]. congruence.
  - destruct (_ =? _)%nat; [|discriminate]. cbn. destruct o; [apply IH|discriminate].
  - destruct o; [apply IH|discriminate].
Qed.

(** ** line search *)
Lemma val_half : val fhalf = / 2.
Proof. unfold val. rewrite <- SF2R_B2SF. change (B2SF fhalf) with (SpecFloat.S754_finite false 4503599627370496 (-53)).
  unfold SF2R, F2R. cbn. lra. Qed.
Lemma threshold_above : bpow radix2 (-47) < val fls_threshold.
Proof.
  unfold val. rewrite <- SF2R_B2SF. change (B2SF fls_threshold) with (SpecFloat.S754_finite false 6338253001141147 (-99)).
  unfold SF2R, F2R. cbn. lra.
Qed.
Lemma halve x e : finite x -> 0 <= val x -> (-1074 <= e)%Z -> val x <= bpow radix2 (1 + e) ->
  finite (fmul x fhalf) /\ 0 <= val (fmul x fhalf) <= bpow radix2 e.
Proof.
  intros F P E L. rewrite bpow_plus in L. change (bpow radix2 1) with 2 in L.
  pose proof (Bmult_correct 53 1024 _ _ mode_NE x fhalf) as C. rewrite rndE in C.
  change (Bmult mode_NE x fhalf) with (fmul x fhalf) in C. fold (val x) (val fhalf) in C. rewrite val_half in C.
  assert (B : Rabs (rnd (val x * / 2)) <= val x).
  { apply rnd_abs_le; [apply fmt_val|]. rewrite Rabs_right by lra. lra. }
  rewrite Rlt_bool_true in C.
  - destruct C as (V & F' & _). unfold finite. rewrite F'. rewrite F. split; [reflexivity|]. unfold val at 1 2. rewrite V. split.
    + apply rnd_nonneg. lra.
    + rewrite <- (rnd_fmt (bpow radix2 e)).
      * apply rnd_le. lra.
      * apply generic_format_bpow. unfold FLT_exp. lia.
  - eapply Rle_lt_trans; [exact B|]. pose proof (val_lt x) as V. rewrite Rabs_right in V by lra. exact V.
Qed.

Section Solver.
Variable fdot : list f64 -> list f64 -> f64.
Variable fsquare : f64 -> f64.
Context {S : Type}.
Variable orc : foracle S.
Variable rg : freg.
Variable slv : fsolver.

Lemma accept_comes_back s x d z t : comes_back orc -> faccept fdot fsquare orc s x d z t <> Err OutOfFuel.
Proof.
  intros H. unfold faccept. destruct (H s z) as [H1 _]. destruct (fo_value orc s z) as [[fz s1]|e]; cbn; [|congruence].
  destruct (H s1 x) as [H2 _]. destruct (fo_value orc s1 x) as [[fx s2]|e]; cbn; [|congruence].
  destruct (_ =? _)%nat; discriminate.
Qed.
Lemma move_comes_back x d t : fmove x d t <> Err OutOfFuel.
Proof. unfold fmove. destruct (_ =? _)%nat; discriminate. Qed.

Lemma above_positive t : flt fls_threshold t = true -> t <> finf -> finite t /\ 0 < val t.
Proof.
  intros H N. assert (F : finite t).
  { destruct t as [s|s| |s m e B]; try reflexivity; [destruct s|]; cbn in H; try discriminate H. exfalso. apply N. reflexivity. }
  split; [exact F|]. rewrite flt_val in H by (exact F || reflexivity).
  destruct (Rlt_bool_spec (val fls_threshold) (val t)) as [L|L]; [|discriminate H].
  pose proof threshold_above. pose proof (bpow_gt_0 radix2 (-47)). lra.
Qed.
Lemma line_search_comes_back (H : comes_back orc) fuel : forall s x d t, (fuel <= 1071)%nat ->
  finite t -> 0 <= val t -> val t <= bpow radix2 (Z.of_nat fuel - 47) ->
  fline_search fdot fsquare orc rg fuel s x d t <> Err OutOfFuel.
Proof.
  induction fuel as [|fuel IH]; intros s x d t Hn F P L; cbn [fline_search].
  - rewrite flt_false; [discriminate|reflexivity|exact F|]. cbn in L. pose proof threshold_above. cbn in *. lra.
  - destruct (flt fls_threshold t); [|discriminate].
    destruct (fmove x d t) as [y|e] eqn:E1; cbn; [|intros C; eapply move_comes_back; rewrite E1; congruence].
    destruct (fprox rg y t) as [z|e] eqn:E2; cbn; [|intros C; eapply prox_comes_back; rewrite E2; congruence].
    destruct (faccept fdot fsquare orc s x d z t) as [[ok s']|e] eqn:E3; cbn; [|intros C; eapply accept_comes_back; [exact H|rewrite E3; congruence]].
    destruct ok; [discriminate|].
    destruct (halve t (Z.of_nat fuel - 47) F P) as (F' & P' & L').
    + lia.
    + replace (1 + (Z.of_nat fuel - 47))%Z with (Z.of_nat (Datatypes.S fuel) - 47)%Z by lia. exact L.
    + apply IH; try assumption. lia.
Qed.
Lemma search_comes_back (H : comes_back orc) s x d t : t <> finf ->
  fline_search fdot fsquare orc rg fls_fuel s x d t <> Err OutOfFuel.
Proof.
  intros N. destruct (flt fls_threshold t) eqn:E.
  - destruct (above_positive t E N) as [F P]. apply line_search_comes_back; try assumption; [reflexivity|lra|].
    change (Z.of_nat fls_fuel - 47)%Z with 1024%Z. pose proof (val_lt t) as L. rewrite Rabs_right in L by lra. lra.
  - unfold fls_fuel. destruct (Z.to_nat 1071); cbn [fline_search]; rewrite E; discriminate.
Qed.

Definition finite_search : Prop := fs_stepping slv <> "line-search"%string \/ fs_step_len slv <> finf.
Lemma step_comes_back (H : comes_back orc) s x : finite_search -> fpgd_step fdot fsquare orc rg slv s x <> Err OutOfFuel.
Proof.
  intros N. unfold fpgd_step. destruct (H s x) as [_ H2]. destruct (fo_grad orc s x) as [[g s1]|e]; cbn; [|congruence].
  assert (X : (if String.eqb (fs_stepping slv) "line-search" then fline_search fdot fsquare orc rg fls_fuel s1 x (map fopp g) (fs_step_len slv)
    else Ok (fs_step_len slv, s1)) <> Err OutOfFuel).
  { destruct (String.eqb_spec (fs_stepping slv) "line-search") as [E|E]; [|discriminate].
    apply search_comes_back; [exact H|]. destruct N as [N|N]; [contradiction|exact N]. }
  destruct (if String.eqb _ _ then _ else _) as [[t s2]|e]; cbn; [|congruence].
  destruct (fmove x (map fopp g) t) as [y|e] eqn:E1; cbn; [|intros C; eapply move_comes_back; rewrite E1; congruence].
  destruct (fprox rg y t) as [z|e] eqn:E2; cbn; [discriminate|intros C; eapply prox_comes_back; rewrite E2; congruence].
Qed.
Lemma loop_comes_back (H : comes_back orc) (N : finite_search) fuel : forall s x xp it,
  (fs_max_iter slv <= Z.of_nat fuel + Z.of_nat it)%Z ->
  fpgd_loop fdot fsquare orc rg slv fuel s x xp it <> Err OutOfFuel.
Proof.
  induction fuel as [|fuel IH]; intros s x xp it L; cbn [fpgd_loop]; (destruct (_ =? _)%nat; cbn; [|discriminate]).
  - replace (Z.of_nat it <? fs_max_iter slv)%Z with false by (symmetry; apply Z.ltb_ge; lia). rewrite andb_false_r. discriminate.
  - destruct (_ && _); [|discriminate]. destruct (fpgd_step fdot fsquare orc rg slv s x) as [[x' s']|e] eqn:E; cbn.
    + apply IH. lia.
    + intros C. eapply step_comes_back; [exact H|exact N|rewrite E; congruence].
Qed.
Lemma optimize_comes_back (H : comes_back orc) (N : finite_search) x0 s : fpgd_optimize fdot fsquare orc rg slv x0 s <> Err OutOfFuel.
Proof.
  unfold fpgd_optimize. pose proof (loop_comes_back H N (Z.to_nat (fs_max_iter slv)) s x0 (map (fun _ => finf) x0) 0) as L.
  destruct (fpgd_loop _ _ _ _ _ _ _ _ _ _) as [[[[x xp] it] s']|e]; cbn; [discriminate|]. intros E. apply L; [lia|congruence].
Qed.

(** ** what the loop leaves behind *)
Lemma loop_exit fuel : forall s x xp it x' xp' it' s', fpgd_loop fdot fsquare orc rg slv fuel s x xp it = Ok (x', xp', it', s') ->
  flt (fs_tol slv) (fnorm fdot (fminus x' xp')) && (Z.of_nat it' <? fs_max_iter slv)%Z = false /\ (it <= it')%nat /\
  (it = it' -> x' = x /\ xp' = xp).
Proof.
  induction fuel as [|fuel IH]; intros s x xp it x' xp' it' s' H; cbn [fpgd_loop] in H; (destruct (_ =? _)%nat; cbn in H; [|discriminate H]);
    destruct (_ && _) eqn:E.
  - discriminate H.
  - injection H as <- <- <- <-. auto.
  - destruct (fpgd_step fdot fsquare orc rg slv s x) as [[x1 s1]|e]; cbn in H; [|discriminate H].
    destruct (IH _ _ _ _ _ _ _ _ H) as (A & B & C). split; [exact A|]. split; [lia|]. intros ->. lia.
  - injection H as <- <- <- <-. auto.
Qed.

(** ** signs *)
Lemma halve_nn t : ~ negative t -> ~ negative (fmul t fhalf).
Proof. intros H. apply fmul_nn; [exact H|]. vm_compute. discriminate. Qed.
Lemma search_nn fuel : forall s x d t t' s', ~ negative t -> fline_search fdot fsquare orc rg fuel s x d t = Ok (t', s') -> ~ negative t'.
Proof.
  induction fuel as [|fuel IH]; intros s x d t t' s' N H; cbn [fline_search] in H; destruct (flt fls_threshold t).
  - discriminate H.
  - injection H as <- <-. exact N.
  - destruct (fmove x d t) as [y|e]; cbn in H; [|discriminate H]. destruct (fprox rg y t) as [z|e]; cbn in H; [|discriminate H].
    destruct (faccept fdot fsquare orc s x d z t) as [[ok s1]|e]; cbn in H; [|discriminate H].
    destruct ok; [injection H as <- <-; exact N|]. apply (IH _ _ _ _ _ _ (halve_nn t N) H).
  - injection H as <- <-. exact N.
Qed.
Variable good : list f64 -> Prop.
Hypothesis good_prox : forall y t x, ~ negative t -> fprox rg y t = Ok x -> good x.
Lemma step_good s x x' s' : ~ negative (fs_step_len slv) -> fpgd_step fdot fsquare orc rg slv s x = Ok (x', s') -> good x'.
Proof.
  intros N H. unfold fpgd_step in H. destruct (fo_grad orc s x) as [[g s1]|e]; cbn in H; [|discriminate H].
  assert (X : forall t s2, (if String.eqb (fs_stepping slv) "line-search" then fline_search fdot fsquare orc rg fls_fuel s1 x (map fopp g) (fs_step_len slv)
    else Ok (fs_step_len slv, s1)) = Ok (t, s2) -> ~ negative t).
  { intros t s2. destruct (String.eqb _ _); [apply search_nn; exact N|]. intros E. injection E as <- <-. exact N. }
  destruct (if String.eqb _ _ then _ else _) as [[t s2]|e]; cbn in H; [|discriminate H]. specialize (X t s2 eq_refl).
  destruct (fmove x (map fopp g) t) as [y|e]; cbn in H; [|discriminate H]. destruct (fprox rg y t) as [z|e] eqn:E; cbn in H; [|discriminate H].
  injection H as <- <-. apply (good_prox y t z X E).
Qed.
Lemma loop_good fuel (N : ~ negative (fs_step_len slv)) : forall s x xp it x' xp' it' s',
  fpgd_loop fdot fsquare orc rg slv fuel s x xp it = Ok (x', xp', it', s') -> ((0 < it)%nat -> good x) -> (0 < it')%nat -> good x'.
Proof.
  induction fuel as [|fuel IH]; intros s x xp it x' xp' it' s' H G P; cbn [fpgd_loop] in H; (destruct (_ =? _)%nat; cbn in H; [|discriminate H]);
    destruct (_ && _) eqn:E.
  - discriminate H.
  - injection H as <- <- <- <-. auto.
  - destruct (fpgd_step fdot fsquare orc rg slv s x) as [[x1 s1]|e] eqn:E1; cbn in H; [|discriminate H].
    apply (IH _ _ _ _ _ _ _ _ H); [|exact P]. intros _. apply (step_good _ _ _ _ N E1).
  - injection H as <- <- <- <-. auto.
Qed.
End Solver.

Lemma not_lt_le a b : flt b a = false -> is_nan a = false -> is_nan b = false -> fle a b = true.
Proof.
  unfold flt, fle, Bltb, Bleb, SpecFloat.SFltb, SpecFloat.SFleb. intros H Ha Hb.
  assert (E : SpecFloat.SFcompare (B2SF a) (B2SF b) = option_map CompOpp (SpecFloat.SFcompare (B2SF b) (B2SF a))).
  { fold (Bcompare a b). fold (Bcompare b a). rewrite (Bcompare_swap 53 1024 b a). reflexivity. }
  rewrite E. destruct (SpecFloat.SFcompare (B2SF b) (B2SF a)) as [[]|] eqn:C; cbn in *; try reflexivity; try discriminate H.
  exfalso. destruct a as [s|s| |s m e B], b as [s'|s'| |s' m' e' B']; try discriminate Ha; try discriminate Hb; cbn in C; discriminate C.
Qed.

(** the loop on one observation and one feature *)
Definition run1_step (a b x : f64) : f64 :=
  fadd x (fmul (fnat 7205759403792794 (-57)) (fopp (fadd (fmul a (fsub (fmul a x) b)) fzero))).
Fixpoint run1 (a b : f64) (fuel : nat) (x xp : f64) (it : nat) : option (f64 * f64 * nat) :=
  if flt (fnat 5902958103587057 (-69)) (fsqrt (fmul (fsub x xp) (fsub x xp))) && (Z.of_nat it <? 1000)%Z then
    match fuel with
    | O => None
    | S fuel' => run1 a b fuel' (run1_step a b x) x (S it)
    end
  else Some (x, xp, it).
Lemma run1_eq fdot fsquare (D : dot_of_one fdot) a b : exists x xp it,
  run1 a b (Z.to_nat 1000) fone finf 0 = Some (x, xp, it) /\
  flinear_fit fdot fsquare "fixed" 1 [[a]] [b] =
    Ok ({| fr_x := [x]; fr_x_prev := [xp]; fr_converged := (Z.of_nat it <? 1000)%Z; fr_iteration := it |}, tt).
Proof.
  unfold flinear_fit, fpgd_optimize. set (orc := flinear_oracle fdot fsquare [[a]] [b]). cbn [fs_max_iter].
  set (slv := {| fs_tol := _; fs_max_iter := _; fs_stepping := _; fs_step_len := _ |}).
  assert (X : forall fuel x xp it, (1000 <= Z.of_nat fuel + Z.of_nat it)%Z -> exists x' xp' it',
     run1 a b fuel x xp it = Some (x', xp', it') /\
     fpgd_loop fdot fsquare orc FDummy slv fuel tt [x] [xp] it = Ok ([x'], [xp'], it', tt)).
  { induction fuel as [|fuel IH]; intros x xp it L; cbn [run1 fpgd_loop length Nat.eqb guard rbind];
      unfold fnorm; cbn [fminus map2]; rewrite D; cbn [fs_tol fs_max_iter slv].
    - replace (Z.of_nat it <? 1000)%Z with false by (symmetry; apply Z.ltb_ge; lia). rewrite andb_false_r. eauto 6.
    - destruct (_ && _); [|eauto 6]. destruct (IH (run1_step a b x) x (S it)) as (x' & xp' & it' & E1 & E2); [lia|].
      exists x', xp', it'. split; [exact E1|]. rewrite <- E2.
      unfold fpgd_step. cbn [fo_grad orc flinear_oracle rbind length seq map nth map2 fs_stepping slv String.eqb Ascii.eqb Bool.eqb fs_step_len fmove Nat.eqb guard fprox].
      rewrite !D. reflexivity. }
  destruct (X (Z.to_nat 1000) fone finf 0%nat) as (x & xp & it & E1 & E2); [lia|]. exists x, xp, it. split; [exact E1|].
  cbn [repeat map]. rewrite E2. reflexivity.
Qed.
