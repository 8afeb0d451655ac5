(** Fits of the sample problem of Spec/PracticalSpec.v by the practical and by the standard method. *)
From Coq Require Import Lia Lra String FunctionalExtensionality.
From Verif.Base Require Import Py Vec Mat.
From Verif.Model Require Import LmeProblem Regularizers Solvers LmeInner LmeTrace LmeFit LmeBridge.
From Verif.Spec Require Import ProxSpec SolverSpec InnerSpec FitSpec PracticalSpec.
From Verif.Proofs Require Import VecFacts SolverProofs LinearProofs InnerProofs InnerIP TraceProofs FitProofs BridgeProofs LmeFitMain ColumnCases ApartProofs.
Open Scope string_scope.
Open Scope list_scope.
Open Scope R_scope.

(** ** scaling a penalty *)
Lemma scad_scale rho sigma lam a t : forall w x,
  scad_prox_loop rho sigma (a * lam) t w x = scad_prox_loop rho sigma lam (a * t) w x.
Proof.
  induction w as [|w ws IH]; intros x; [reflexivity|]. cbn [scad_prox_loop]. destruct x as [|xi x]; [reflexivity|].
  rewrite IH. replace (scad_prox1 rho sigma (a * lam) w t xi) with (scad_prox1 rho sigma lam w (a * t) xi); [reflexivity|].
  unfold scad_prox1. replace (a * t * lam * w) with (t * (a * lam) * w) by ring. reflexivity.
Qed.
Lemma prox_strengthen argsort a : forall r x t, prox argsort (strengthen a r) x t = prox argsort r x (a * t).
Proof.
  fix IH 1. intros [nnz w part|s|lam w|rho lam w|rho sigma lam w| |m [r|]|eps [r|]] x t; cbn [strengthen prox]; try reflexivity.
  - unfold l1_prox. destruct w as [w|].
    + destruct (guard _ _); [|reflexivity]. cbn [rbind]. f_equal. f_equal.
      apply functional_extensionality; intro wi. apply functional_extensionality; intro xi. f_equal. ring.
    + f_equal. f_equal. f_equal. ring.
  - unfold cad_prox. destruct w as [w|].
    + destruct (guard _ _); [|reflexivity]. cbn [rbind]. f_equal. f_equal.
      apply functional_extensionality; intro wi. apply functional_extensionality; intro xi.
      replace (wi * t * (a * lam)) with (wi * (a * t) * lam) by ring. reflexivity.
    + replace (t * (a * lam)) with (a * t * lam) by ring. reflexivity.
  - unfold scad_prox. apply scad_scale.
  - destruct m as [m|]; cbn [rbind].
    + destruct (guard _ _); cbn [rbind]; [|reflexivity]. apply IH.
    + apply IH.
  - replace (1 + t * (a * eps)) with (1 + a * t * eps) by ring. destruct (guard _ _); cbn [rbind]; [|reflexivity].
    rewrite IH. f_equal. unfold Rdiv. ring.
  - replace (1 + t * (a * eps)) with (1 + a * t * eps) by ring. reflexivity.
Qed.

(** ** one iteration on the sample problem *)
Section Apart.
Variables (cdf : R -> R) (practical : bool) (N : Z) (pr : option (vec -> R -> res vec)).
Let ss := apart_settings practical N.
Let c := problem_calls cdf apart_problem None (Some ss).
Let opts := ip_options_of ss pr.
Let l40 := {| lam_b := 40; lam_g := 40 |}.
(** the regularizer, if there is one, removes fixed effects up to 40 *)
Hypothesis Hpr : forall prx, pr = Some prx -> forall b g, Rabs b <= 40 -> 0 < g -> prx [b; g] 1 = Ok [0; g].
Notation F := (ip_F (lc_sr3 c)).
Notation body := (ip_body (lc_sr3 c) opts 1 1 list_solve no_minimizer 1).
Notation loop := (ip_loop (lc_sr3 c) opts 1 1 list_solve no_minimizer 1).
Notation cont := (ip_continue (lc_sr3 c) opts 1).

Definition at_point (s : ip_state) (v b g tb tg : R) : Prop :=
  is_x s = [v; b; g] /\ is_beta s = [b] /\ is_gamma s = [g] /\ is_tbeta s = [tb] /\ is_tgamma s = [tg] /\ is_lam s = l40.

Lemma apart_F v b g tb tg mu : 0 <= g -> exists f3, F l40 [tb] [tg] 1 [v; b; g] mu = Ok [v * g - mu; b - 42 + 40 * (b - tb); f3].
Proof.
  intros Hg. destruct (@apart_calls_gradient_gamma cdf practical N b g Hg tb tg) as [gg Hgg].
  exists (gg - v). unfold ip_F. change (ip_v 1 [v; b; g]) with [v]. change (ip_b 1 [v; b; g]) with [b]. change (ip_g 1 [v; b; g]) with [g].
  fold l40 in Hgg. pose proof (@apart_calls_gradient_beta cdf practical N b g Hg tb tg) as Hb. fold l40 in Hb.
  fold ss in Hgg, Hb. fold c in Hgg, Hb. rewrite Hb. cbn [rbind]. rewrite Hgg. reflexivity.
Qed.
Lemma apart_dF v b g : 0 <= g -> ip_dF (lc_sr3 c) l40 1 [v; b; g] = Ok [[g; 0; v]; [0; 41; 0]; [-1; 0; 40]].
Proof.
  intros Hg. unfold ip_dF. change (ip_v 1 [v; b; g]) with [v]. change (ip_b 1 [v; b; g]) with [b]. change (ip_g 1 [v; b; g]) with [g].
  pose proof (@apart_calls_hessian_beta cdf practical N b g Hg) as H1. pose proof (@apart_calls_mixed cdf practical N b g Hg) as H2.
  pose proof (@apart_calls_hessian_gamma cdf practical N b g Hg) as H3. fold l40 ss in H1, H2, H3. fold c in H1, H2, H3.
  rewrite H1. cbn [rbind]. rewrite H2. cbn [rbind]. rewrite H3. cbn. f_equal.
  repeat (f_equal; [repeat (f_equal; try ring)|]); repeat (f_equal; try ring).
Qed.

Lemma apart_body s v b g tb tg : at_point s v b g tb tg -> 0 < v -> 0 < g -> 0 <= b <= 2 -> 0 <= tb <= 1 ->
  exists s' v' g' a tb' tg', let b' := b + a * ((42 + 40 * tb) / 41 - b) in
    body s = Ok s' /\ 0 <= a <= 1 /\ 0 < v' /\ 0 < g' /\ at_point s' v' b' g' tb' tg' /\
    tb' = match pr with Some _ => 0 | None => tb end /\ is_iter s' = S (is_iter s) /\ (0 < tg -> 0 < tg').
Proof.
  intros (Hx & Hb & Hg & Htb & Htg & Hl) Pv Pg Bb Bt.
  destruct (apart_F v b g tb tg (is_mu s)) as [f3 Hf]; [lra|].
  pose proof (apart_dF v b g ltac:(lra)) as Hd.
  destruct (@apart_solve g v 40 (- (v * g - is_mu s)) (- (b - 42 + 40 * (b - tb))) (- f3) Pg Pv ltac:(lra)) as (dv & dg & Hs).
  set (db := - (b - 42 + 40 * (b - tb)) / 41) in Hs.
  set (m := max_step (ip_mask 1 [v; b; g]) [v; b; g] [dv; db; dg]).
  assert (M : 0 < m <= 1).
  { split; [|apply max_step_le1]. apply max_step_pos. unfold interior. cbn. repeat constructor; assumption. }
  set (a := 99 / 100 * m).
  set (v' := v + a * dv). set (b' := b + a * db). set (g' := g + a * dg).
  assert (I : interior (ip_mask 1 [v; b; g]) (step_to [v; b; g] [dv; db; dg] a)).
  { apply max_step_interior; [reflexivity| |unfold a; fold m; lra]. unfold interior. cbn. repeat constructor; assumption. }
  unfold interior in I. cbn in I. inversion I as [|? ? Iv I2]. inversion I2 as [|? ? Ig _]. subst. clear I I2. fold v' in Iv. fold g' in Ig.
  assert (Eb : b' = b + a * ((42 + 40 * tb) / 41 - b)) by (unfold b', db; field).
  assert (A : 0 <= a <= 1) by (unfold a; lra).
  assert (T : 0 <= (42 + 40 * tb) / 41 <= 2) by lra.
  assert (Ab : Rabs b' <= 40) by (apply Rabs_le; rewrite Eb; nra).
  assert (X : vadd [v; b; g] (vscale a [dv; db; dg]) = [v'; b'; g']) by reflexivity.
  unfold ip_body. rewrite Hx, Htb, Htg, Hl, Hf. cbn [rbind]. rewrite Hd. cbn [rbind].
  change (vneg [v * g - is_mu s; b - 42 + 40 * (b - tb); f3]) with [- (v * g - is_mu s); - (b - 42 + 40 * (b - tb)); - f3].
  rewrite Hs. unfold opts, ip_options_of, ss, apart_settings. cbn [rbind length Nat.eqb guard io_line_search]. fold m. fold a. rewrite X.
  change (ip_v 1 [v'; b'; g']) with [v']. change (ip_b 1 [v'; b'; g']) with [b']. change (ip_g 1 [v'; b'; g']) with [g'].
  cbn [io_neighbourhood io_prox io_update_every io_increase io_mu_decay io_prox_step ss_neighbourhood ss_update_every].
  replace (rltb _ _) with false.
  2:{ symmetry. apply rltb_false. unfold norm, sqnorm, vdot, vmul. cbn. replace (_ + 0) with 0 by field. rewrite sqrt_0.
      apply Rmult_le_pos; [nra|lra]. }
  cbn [negb].
  destruct pr as [prx|] eqn:Ep.
  - rewrite Z.mod_1_r. cbn [Z.ltb Z.compare Z.eqb andb]. unfold beta_gamma_to_x. cbn [app].
    rewrite (Hpr prx eq_refl b' g' Ab Ig). cbn [rbind x_to_beta_gamma firstn skipn].
    eexists. exists v', g', a, 0, g'. split; [reflexivity|]. split; [exact A|]. split; [exact Iv|]. split; [exact Ig|].
    split; [rewrite <- Eb; unfold at_point; cbn; auto 10|]. split; [reflexivity|]. split; [reflexivity|auto].
  - cbn [rbind].
    eexists. exists v', g', a, tb, tg. split; [reflexivity|]. split; [exact A|]. split; [exact Iv|]. split; [exact Ig|].
    split; [rewrite <- Eb; unfold at_point; cbn; auto 10|]. split; [reflexivity|]. split; [reflexivity|auto].
Qed.

(** ** the loop *)
Lemma apart_continue s v b g tb tg : at_point s v b g tb tg -> 0 <= g ->
  (is_prev s = None \/ exists tb' tg' b' g', is_prev s = Some ([tb'], [tg'], [b'], [g'])) -> exists t, cont s = Ok t.
Proof.
  intros (Hx & Hb & Hg & Htb & Htg & Hl) Pg Hp. unfold ip_continue. destruct (_ && _); [|eauto].
  destruct (apart_F v b g tb tg (is_mu s) Pg) as [f3 Hf]. rewrite Hl, Hx, Htb, Htg, Hf. cbn [rbind]. destruct (_ || _); [|eauto].
  rewrite Hb, Hg.
  destruct Hp as [->|(tb' & tg' & b' & g' & ->)]; cbn [option_map moved length Nat.eqb guard rbind].
  - eauto.
  - repeat (destruct (rltb _ _); cbn [orb]; [eauto|]). eauto.
Qed.
Lemma body_prev s s' : body s = Ok s' -> is_prev s' = Some (is_tbeta s, is_tgamma s, is_beta s, is_gamma s).
Proof.
  unfold ip_body. intros H. repeat (apply rbind_inv in H; destruct H as [? [_ H]]).
  destruct (rltb _ _); [injection H as <-; reflexivity|].
  apply rbind_inv in H; destruct H as [[? ?] [_ H]]. apply rbind_inv in H; destruct H as [[? ?] [_ H]]. injection H as <-. reflexivity.
Qed.

(** the states that occur: the start, and afterwards tb = 0 for the practical method *)
Definition on_way (s : ip_state) (tb : R) : Prop := exists v b g tg, at_point s v b g tb tg /\ 0 < v /\ 0 < g /\ 0 < tg /\ 0 <= b <= 2 /\
  (tb = 1 /\ b = 2 \/ tb = 0) /\
  (is_prev s = None \/ exists tb' tg' b' g', is_prev s = Some ([tb'], [tg'], [b'], [g'])).
Lemma way_step s tb : on_way s tb -> exists s', body s = Ok s' /\ on_way s' (match pr with Some _ => 0 | None => tb end) /\ is_iter s' = S (is_iter s).
Proof.
  intros (v & b & g & tg & P & Pv & Pg & Pt & Bb & Ht & _).
  destruct (apart_body s v b g tb tg P Pv Pg Bb) as (s' & v' & g' & a & tb' & tg' & E & A & Pv' & Pg' & P' & Et & Ei & Pt').
  { destruct Ht as [[-> _]| ->]; lra. }
  exists s'. split; [exact E|]. split; [|exact Ei]. subst tb'.
  exists v', (b + a * ((42 + 40 * tb) / 41 - b)), g', tg'. split; [exact P'|]. split; [exact Pv'|]. split; [exact Pg'|]. split; [exact (Pt' Pt)|].
  split; [|split].
  - destruct Ht as [[-> ->]| ->]; [|]; nra.
  - destruct pr; [right; reflexivity|]. destruct Ht as [[-> ->]| ->]; [left; split; [reflexivity|field_simplify; lra]|right; reflexivity].
  - right. rewrite (body_prev _ _ E). destruct P as (_ & -> & -> & -> & -> & _). exists tb, tg, b, g. reflexivity.
Qed.
Lemma way_loop : forall fuel s tb, on_way s tb -> (Z.to_nat N <= is_iter s + fuel)%nat ->
  exists s' tb', loop fuel s = Ok s' /\ on_way s' tb' /\ (tb' = tb \/ pr <> None /\ tb' = 0) /\
    (cont s = Ok true -> pr <> None -> tb' = 0).
Proof.
  induction fuel as [|fuel IH]; intros s tb W Hf.
  - destruct W as (v & b & g & tg & P & Pv & Pg & Pt & Bb & Ht & Hp) eqn:EW.
    destruct (apart_continue s v b g tb tg P ltac:(lra) Hp) as [t Hc]. cbn [ip_loop]. rewrite Hc. cbn [rbind].
    destruct t.
    + exfalso. apply ip_continue_iter in Hc. cbn [opts ip_options_of io_n_iter ss apart_settings ss_max_iter] in Hc. lia.
    + exists s, tb. split; [reflexivity|]. split; [exact W|]. split; [auto|]. intros E; discriminate.
  - destruct W as (v & b & g & tg & P & Pv & Pg & Pt & Bb & Ht & Hp) eqn:EW.
    destruct (apart_continue s v b g tb tg P ltac:(lra) Hp) as [t Hc]. cbn [ip_loop]. rewrite Hc. cbn [rbind].
    destruct t.
    + destruct (way_step s tb W) as (s1 & E & W1 & Ei). rewrite E. cbn [rbind].
      destruct (IH s1 _ W1 ltac:(lia)) as (s' & tb' & El & W' & Ht' & _). exists s', tb'. split; [exact El|]. split; [exact W'|].
      destruct pr; [split; [right; split; [discriminate|destruct Ht' as [H|[_ H]]; exact H]|intros _ _; destruct Ht' as [H|[_ H]]; exact H]|].
      split; [destruct Ht' as [H|[H _]]; [left; exact H|congruence]|congruence].
    + exists s, tb. split; [reflexivity|]. split; [exact W|]. split; [auto|]. intros E; discriminate.
Qed.
End Apart.

(** ** the logger of the practical method *)
Section Log.
Variable calls : sr3_calls.
Variable opts : ip_options.
Variables p q : nat.
Variable solve : mat -> vec -> res vec.
Variable ms : (R -> res R) -> R -> res R.
Lemma trace_runs n : forall fuel s tx lg s', packed n s -> ip_loop calls opts p q solve ms n fuel s = Ok s' -> logger_wf lg ->
  exists lg', ip_trace calls opts p q solve ms n fuel s tx lg = Ok (s', lg') /\ logger_wf lg' /\ lg_keys lg' = lg_keys lg /\ lg_kind lg' = lg_kind lg.
Proof.
  induction fuel as [|fuel IH]; intros s tx lg s' P H W; cbn [ip_loop] in H; cbn [ip_trace];
    apply rbind_inv in H; destruct H as [t [Ht H]]; rewrite Ht; cbn [rbind]; destruct t; try discriminate.
  - injection H as ->. eauto 6.
  - apply rbind_inv in H. destruct H as [s1 [H1 H]]. rewrite H1. cbn [rbind].
    assert (P1 : packed n s1) by (eapply ip_body_packed; eauto).
    destruct P as (v & Lv & Lg & Hx).
    destruct (ip_body_inv _ _ _ _ _ _ _ _ _ _ Lv Lg Hx H1) as (f & df & dv & db & dg & a & Ff & Fd & Fs & _).
    unfold ip_log_step. destruct (ip_off_path opts n s1); cbn [rbind].
    + apply IH; auto.
    + rewrite Ff. cbn [rbind]. rewrite Fd. cbn [rbind]. rewrite Fs. cbn [rbind].
      set (tx' := if ip_proxes opts s1 then Some (beta_gamma_to_x (is_tbeta s1) (is_tgamma s1)) else tx). destruct (0 <? length (lg_keys lg))%nat; cbn [rbind].
      * destruct (log_wf lg (ip_locals opts n s s1 f (dv ++ db ++ dg) tx') W) as (lg1 & E1 & W1). rewrite E1. cbn [rbind].
        destruct (log_keep _ _ _ E1) as [K1 K2].
        destruct (IH s1 tx' lg1 s' P1 H W1) as (lg' & A & B & C & D). exists lg'. rewrite C, D. auto.
      * apply IH; auto.
  - injection H as ->. eauto 6.
Qed.
End Log.

(** ** the fits *)
Section Fits.
Variables (argsort : vec -> list nat) (cdf : R -> R).
Definition apart_reg : reg := RPos (Some [false; true]) (Some (RElastic 0 (Some (RL1 40 (Some [1; 0]))))).
Lemma apart_prox b g t : 0 < g -> prox argsort apart_reg [b; g] t = Ok [soft (t * 40) b; g].
Proof.
  intros Hg. unfold apart_reg. cbn [prox length Nat.eqb guard rbind mask_map map2]. unfold clip0 at 1. rewrite Rmax_left by lra.
  replace (1 + t * 0) with 1 by ring. unfold nonzero. rewrite (proj2 (reqb_false 1 0)) by lra. cbn [negb guard rbind map].
  unfold l1_prox. cbn [length Nat.eqb guard rbind map2]. repeat f_equal; try field.
  replace (t / 1 * 0 * 40) with 0 by field. replace (g / 1) with g by field. apply ScalarProx.soft_zero.
Qed.
Lemma apart_removed b g : Rabs b <= 40 -> 0 < g -> prox argsort apart_reg [b; g] 1 = Ok [0; g].
Proof.
  intros Hb Hg. rewrite apart_prox by assumption. do 2 f_equal. unfold soft, clip0.
  assert (-40 <= b <= 40) by (revert Hb; unfold Rabs; destruct (Rcase_abs b); lra). rewrite !Rmax_right by lra. ring.
Qed.
Let l40 := {| lam_b := 40; lam_g := 40 |}.

(** a value-function evaluation of the standard method *)
Lemma standard_find N mem g : 0 < g -> sm_lam mem = l40 -> (sm_warm mem = None \/ exists g0, 0 < g0 /\ sm_warm mem = Some ([2], [g0])) ->
  let ss := apart_settings false N in
  let c := problem_calls cdf apart_problem None (Some ss) in
  exists g' tg', 0 < g' /\ find_ip (lc_sr3 c) (ip_options_of ss None) 1 1 list_solve no_minimizer true mem (vscale 2 [1]) (vscale 2 [g]) [1] [g] =
    Ok ([2], [g'], [1], tg', {| sm_lam := l40; sm_warm := Some ([2], [g']) |}).
Proof.
  intros Hg Hl Hw ss c. unfold find_ip. cbn [vscale map length Nat.ltb Nat.leb guard rbind].
  set (s0 := ip_start true mem [2 * 1] [2 * g] [1] [g]).
  assert (W : on_way s0 1).
  { unfold s0, ip_start. destruct Hw as [Hw|(g0 & P0 & Hw)]; rewrite Hw.
    - exists 1, (2 * 1), (2 * g), g. split; [unfold at_point; cbn; rewrite Hl; auto 10|]. cbn. split; [lra|]. split; [lra|]. split; [lra|]. split; [lra|]. split; [left; split; lra|left; reflexivity].
    - exists 1, 2, g0, g. split; [unfold at_point; cbn; rewrite Hl; auto 10|]. cbn. split; [lra|]. split; [lra|]. split; [lra|]. split; [lra|]. split; [left; split; lra|left; reflexivity]. }
  destruct (way_loop cdf false N None ltac:(discriminate) (Z.to_nat (io_n_iter (ip_options_of ss None))) s0 1 W) as (s' & tb' & E & W' & Ht & _).
  { cbn. lia. }
  destruct Ht as [->|[Ht _]]; [|congruence].
  destruct W' as (v & b & g' & tg & (_ & Hb' & Hg' & Htb & Htg & Hl') & _ & Pg & _ & _ & Hbt & _).
  destruct Hbt as [[_ ->]|Hbt]; [|lra].
  exists g', [tg]. split; [exact Pg|].
  match goal with |- rbind ?X _ = _ => replace X with (Ok s') by (symmetry; exact E) end. cbn [rbind]. rewrite Hb', Hg', Htb, Htg, Hl'. reflexivity.
Qed.

Definition good_memory (mem : sr3_memory) : Prop :=
  sm_lam mem = l40 /\ (sm_warm mem = None \/ exists g0, 0 < g0 /\ sm_warm mem = Some ([2], [g0])).
Lemma standard_grad N mem g : 0 < g -> good_memory mem ->
  let ss := apart_settings false N in
  let c := problem_calls cdf apart_problem None (Some ss) in
  exists g' mem', 0 < g' /\ good_memory mem' /\ o_grad (sr3_lme_oracle list_solve 1 1 c ss) mem [1; g] = Ok ([- 40 * (2 - 1); - 40 * (g' - g)], mem').
Proof.
  intros Hg [Hl Hw] ss c. destruct (standard_find N mem g Hg Hl Hw) as (g' & tg' & Pg & E).
  exists g', {| sm_lam := l40; sm_warm := Some ([2], [g']) |}. split; [exact Pg|].
  split; [split; [reflexivity|]; right; exists g'; auto|].
  cbn [sr3_lme_oracle o_grad]. unfold gradient_value_function. cbn [x_to_beta_gamma firstn skipn].
  change (ss_warm ss) with true. fold ss c in E. rewrite E. reflexivity.
Qed.
Lemma standard_loop N slv x0 : s_stepping slv = "fixed" -> s_step_len slv = 1 / 40 ->
  let ss := apart_settings false N in
  let c := problem_calls cdf apart_problem None (Some ss) in
  forall fuel st g, st_x st = [1; g] -> 0 < g -> good_memory (st_oracle st) -> quiet (st_logger st) ->
  (st_x_prev st = None \/ exists g1, st_x_prev st = Some [1; g1]) ->
  (Z.to_nat (s_max_iter slv) <= st_iteration st + fuel)%nat ->
  exists st' g', pgd_loop (sr3_lme_oracle list_solve 1 1 c ss) (as_regularizer argsort apart_reg) slv fuel x0 st = Ok st' /\
    st_x st' = [1; g'] /\ 0 < g' /\ st_logger st' = st_logger st.
Proof.
  intros Hs Hl ss c.
  assert (M : forall (st : @pgd_state sr3_memory) g, st_x st = [1; g] -> (st_x_prev st = None \/ exists g1, st_x_prev st = Some [1; g1]) ->
            exists b, moved (s_tol slv) (st_x st) (st_x_prev st) = Ok b).
  { intros st g -> [->|[g1 ->]]; cbn [moved length Nat.eqb guard rbind]; eauto. }
  induction fuel as [|fuel IH]; intros st g Hx Hg Hm Hq Hp Hf; destruct (M st g Hx Hp) as [b Hb].
  - exists st, g. split; [|auto]. apply (loop_full _ _ _ _ _ _ _ Hb). apply Z.ltb_ge. lia.
  - destruct (Z.of_nat (st_iteration st) <? s_max_iter slv)%Z eqn:Ei.
    2:{ exists st, g. split; [|auto]. apply (loop_full _ _ _ _ _ _ _ Hb Ei). }
    destruct b.
    2:{ exists st, g. split; [|auto]. apply (loop_ends _ _ _ _ _ _ Hb). }
    destruct (standard_grad N (st_oracle st) g Hg Hm) as (g' & mem' & Pg & Hm' & Hgr).
    destruct (quiet_step (sr3_lme_oracle list_solve 1 1 c ss) (as_regularizer argsort apart_reg) slv x0 st _ mem' [1; g'] Hq Hs
                ltac:(rewrite Hx; exact Hgr) ltac:(rewrite Hx; reflexivity)) as (st' & E & Ex & Ep & Ein & El & Eo).
    { rewrite Hx, Hl. cbn [as_regularizer r_prox vneg map vscale vadd map2].
      replace (1 + 1 / 40 * - (-40 * (2 - 1))) with 2 by field. replace (g + 1 / 40 * - (-40 * (g' - g))) with g' by field.
      rewrite apart_prox by exact Pg. do 2 f_equal. unfold soft, clip0. rewrite Rmax_left, Rmax_right by lra. lra. }
    rewrite (loop_again _ _ _ _ _ _ _ Hb Ei E).
    destruct (IH st' g') as (st2 & g2 & E2 & X2 & P2 & L2); auto.
    + rewrite Eo. exact Hm'.
    + rewrite El. exact Hq.
    + right. exists g. rewrite Ep, Hx. reflexivity.
    + lia.
    + exists st2, g2. rewrite L2, El. auto.
Qed.

Lemma apart_view : exists bm, oracle_view_of apart_problem = Ok {| ov_p := 1; ov_q := 1; ov_map := bm |}.
Proof. eexists. vm_compute. reflexivity. Qed.

(** the standard method keeps the fixed effect at 1 *)
Lemma standard_fit N K : exists co lg,
  lme_fit_problem argsort cdf (apart_model false N K) None apart_problem None None false None None = Ok (co, lg) /\ co_beta co = [1].
Proof.
  destruct apart_view as [bm Hov].
  set (m := apart_model false N K). set (ss := apart_settings false N).
  set (c := problem_calls cdf apart_problem None (Some ss)).
  assert (Es : step_length m = Ok (1 / 40)).
  { unfold step_length. cbn [m apart_model given_step mo_step_len mo_sr3 apart_settings ss_ell].
    rewrite (proj2 (reqb_false 40 0)) by lra. reflexivity. }
  set (lg0 := {| lg_kind := KTuple; lg_keys := []; lg_dict := [] |}).
  set (slv := {| s_tol := mo_tol m; s_max_iter := mo_max_iter m; s_stepping := mo_stepping m; s_step_len := 1 / 40 |}).
  destruct (standard_loop N slv [1; 1] eq_refl eq_refl (Z.to_nat K) (pgd_init [1; 1] (sr3_start ss) lg0) 1 eq_refl ltac:(lra))
    as (st' & g' & El & Ex & Pg & Elg).
  { split; [reflexivity|left; reflexivity]. }
  { reflexivity. }
  { left. reflexivity. }
  { cbn. lia. }
  destruct (@apart_calls_effects cdf false N 1 g' ltac:(lra)) as (u1 & u2 & Eu). fold ss in Eu. fold c in Eu.
  set (lg1 := {| lg_kind := KTuple; lg_keys := ["converged"; "iteration"];
     lg_dict := [("converged", LAtom (LBool (Z.of_nat (st_iteration st') <? K)%Z)); ("iteration", LAtom (LNum (INR (st_iteration st'))))] |}).
  eexists. exists lg1. split.
  - unfold lme_fit_problem. eapply (fit_problem_run argsort list_solve (problem_calls cdf) m) with (x := [1; g'])
      (g := None) (beta1 := [1]) (gamma1 := [1]) (us := [[u1]; [u2]]) (r := apart_reg) (lg0 := lg0) (lg1 := lg1); try reflexivity.
    + change (num_fixed apart_problem) with 1%nat. change (num_random apart_problem) with 1%nat.
      unfold run_solver. rewrite Es. cbn [rbind]. change (mo_sr3 m) with (Some ss). change (ss_practical ss) with false. cbn iota.
      fold slv. unfold pgd_optimize. rewrite log_state_quiet by reflexivity. cbn [rbind].
      match goal with |- context[rbind (pgd_loop ?o ?r ?s ?f ?x ?st) _] => replace (pgd_loop o r s f x st) with (Ok st') by (symmetry; exact El) end.
      cbn [rbind]. rewrite Elg, Ex. reflexivity.
    + exact Eu.
  - reflexivity.
Qed.

(** the practical method removes it *)
Lemma practical_fit N K : (0 < N)%Z -> exists co lg,
  lme_fit_problem argsort cdf (apart_model true N K) None apart_problem None None false None None = Ok (co, lg) /\ co_beta co = [0].
Proof.
  intros HN. destruct apart_view as [bm Hov].
  set (m := apart_model true N K). set (ss := apart_settings true N).
  set (c := problem_calls cdf apart_problem None (Some ss)).
  assert (Es : step_length m = Ok (1 / 40)).
  { unfold step_length. cbn [m apart_model given_step mo_step_len mo_sr3 apart_settings ss_ell].
    rewrite (proj2 (reqb_false 40 0)) by lra. reflexivity. }
  set (prx := r_prox (as_regularizer argsort apart_reg)).
  set (opts := ip_options_of ss (Some prx)).
  set (s0 := ip_start true (sr3_start ss) [2 * 1] [2 * 1] [1] [1]).
  assert (P0 : at_point s0 1 (2 * 1) (2 * 1) 1 1) by (unfold at_point; cbn; auto 10).
  assert (W : on_way s0 1).
  { exists 1, (2 * 1), (2 * 1), 1. split; [exact P0|]. cbn. split; [lra|]. split; [lra|]. split; [lra|]. split; [lra|]. split; [left; split; lra|left; reflexivity]. }
  assert (Hpr : forall p, Some prx = Some p -> forall b g, Rabs b <= 40 -> 0 < g -> p [b; g] 1 = Ok [0; g]).
  { intros p [= <-] b g Hb Hg. apply apart_removed; assumption. }
  destruct (way_loop cdf true N (Some prx) Hpr (Z.to_nat N) s0 1 W ltac:(lia)) as (s' & tb' & El & W' & _ & Ht).
  rewrite Ht in *; clear Ht.
  3: discriminate.
  2:{ unfold ip_continue. replace (nonzero (is_step s0)) with true.
      2:{ unfold nonzero. cbn. rewrite (proj2 (reqb_false 1 0)) by lra. reflexivity. }
      replace (_ <? _)%Z with true by (symmetry; apply Z.ltb_lt; cbn; lia). cbn [andb].
      destruct (apart_F cdf true N 1 (2 * 1) (2 * 1) 1 1 (is_mu s0) ltac:(lra)) as [f3 Hf].
      match goal with |- rbind ?X _ = _ => replace X with (Ok [1 * (2 * 1) - is_mu s0; 2 * 1 - 42 + 40 * (2 * 1 - 1); f3]) by (symmetry; exact Hf) end.
      cbn [rbind]. replace (rltb _ (is_mu s0)) with true.
      2:{ symmetry. apply rltb_true. cbn. lra. }
      rewrite orb_true_r. reflexivity. }
  destruct W' as (v & b & g' & tg & (Hx' & Hb' & Hg' & Htb & Htg & Hl') & _ & Pg & Pt & _ & _ & _).
  set (lg0 := {| lg_kind := KTuple; lg_keys := []; lg_dict := [] |}).
  set (lg2 := {| lg_kind := KTuple; lg_keys := ["mu_effective"; "mu"]; lg_dict := [("mu_effective", LList []); ("mu", LList [])] |}).
  assert (Wf : logger_wf lg2).
  { intros k. unfold lg2. cbn. destruct (String.eqb_spec k "mu_effective") as [->|N1]; [split; eauto|].
    destruct (String.eqb_spec k "mu") as [->|N2]; [split; eauto|].
    split; [intros [E|[E|[]]]; congruence|intros [v0 E]; discriminate]. }
  destruct (trace_runs (lc_sr3 c) opts 1 1 list_solve no_minimizer 1 (Z.to_nat N) s0 None lg2 s') as (lg3 & Et & _ & Ek & Ekd).
  { exists [1]. split; [reflexivity|]. split; reflexivity. }
  { exact El. }
  { exact Wf. }
  destruct lg3 as [kd ks d3]. cbn in Ek, Ekd. subst kd ks.
  assert (Eg : exists good, good_stop (lc_sr3 c) opts 1 s' = Ok good).
  { unfold good_stop. destruct (apart_F cdf true N v b g' 0 tg (is_mu s') ltac:(lra)) as [f3 Hf].
    eexists. rewrite Hx', Htb, Htg, Hl'.
    match goal with |- rbind ?X _ = _ => replace X with (Ok [v * g' - is_mu s'; b - 42 + 40 * (b - 0); f3]) by (symmetry; exact Hf) end.
    reflexivity. }
  destruct Eg as [good Eg].
  destruct (@apart_calls_effects cdf true N 0 tg ltac:(lra)) as (u1 & u2 & Eu). fold ss in Eu. fold c in Eu.
  set (d4 := dict_set "converged" (LAtom (LBool true)) (dict_set "iteration" (LAtom (LNum (INR (is_iter s'))))
               (dict_set "good_stopping_reason" (LAtom (LBool good)) d3))).
  set (lg1 := {| lg_kind := KTuple; lg_keys := ["mu_effective"; "mu"; "good_stopping_reason"; "iteration"; "converged"]; lg_dict := d4 |}).
  eexists. exists lg1. split.
  - unfold lme_fit_problem. eapply (fit_problem_run argsort list_solve (problem_calls cdf) m) with (x := [0; tg])
      (g := None) (beta1 := [1]) (gamma1 := [1]) (us := [[u1]; [u2]]) (r := apart_reg) (lg0 := lg0) (lg1 := lg1); try reflexivity.
    + change (num_fixed apart_problem) with 1%nat. change (num_random apart_problem) with 1%nat.
      unfold run_solver. rewrite Es. cbn [rbind]. change (mo_sr3 m) with (Some ss). change (ss_practical ss) with true. cbn iota.
      unfold fake_pgd_optimize, find_optimal_parameters_log, find_optimal_parameters, find_ip_log, find_ip.
      cbn [x_to_beta_gamma firstn skipn app vscale map length Nat.ltb Nat.leb guard rbind].
      change (add lg0 "mu_effective" (LList [])) with (Ok {| lg_kind := KTuple; lg_keys := ["mu_effective"]; lg_dict := [("mu_effective", LList [])] |}).
      cbn [rbind].
      change (add {| lg_kind := KTuple; lg_keys := ["mu_effective"]; lg_dict := [("mu_effective", LList [])] |} "mu" (LList [])) with (Ok lg2).
      cbn [rbind].
      match goal with |- context[rbind (ip_trace ?a ?b ?c ?d ?e ?f ?g ?h ?i ?j ?k) _] =>
        replace (ip_trace a b c d e f g h i j k) with (Ok (s', {| lg_kind := KTuple; lg_keys := ["mu_effective"; "mu"]; lg_dict := d3 |}))
          by (symmetry; exact Et) end.
      cbn [rbind].
      match goal with |- context[rbind (good_stop ?a ?b ?c ?d) _] => replace (good_stop a b c d) with (Ok good) by (symmetry; exact Eg) end.
      cbn [rbind add has_key existsb String.eqb lg_keys lg_kind lg_dict app].
      match goal with |- context[rbind (ip_loop ?a ?b ?c ?d ?e ?f ?g ?h ?i) _] =>
        replace (ip_loop a b c d e f g h i) with (Ok s') by (symmetry; exact El) end.
      cbn. rewrite Htb, Htg. reflexivity.
    + exact Eu.
  - reflexivity.
Qed.
End Fits.
