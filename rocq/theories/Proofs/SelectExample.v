(** A selection that runs to the end: examples for Properties/LmeSelect.v. *)
From Coq Require Import Lra Psatz String.
From Verif.Base Require Import Py Vec Mat.
From Verif.Model Require Import LmeProblem Regularizers Solvers LmeInner LmeFit LmeSelect.
From Verif.Spec Require Import ProxSpec RegSpec SolverSpec LmeSpec InnerSpec FitSpec SelectSpec.
From Verif.Proofs Require Import VecFacts RegularizerProofs SolverProofs SolversMain LinearProofs LmeProblemProofs LmeProblemMain
  MatFacts LmeDataMain FitProofs LmeFitMain SelectProofs.
Open Scope string_scope.
Open Scope list_scope.
Open Scope R_scope.

Definition sample_view : oracle_view := {| ov_p := 2; ov_q := 2; ov_map := [0; 1]%Z |}.
Definition sample_model := plain_candidate (PenL0 (Some 1%Z) (Some 1%Z)).
Definition shrink : R := 1 + 5 / 100 * (1 / 10 ^ 4).
Definition sample_reg : reg :=
  RPos (Some (gamma_mask sample_view)) (Some (RElastic (1 / 10 ^ 4) (Some (RL0LME
    {| lz_nnz_tbeta := Some 1%Z; lz_nnz_tgamma := Some 1%Z; lz_independent := false; lz_oracle := Some sample_view;
       lz_beta_weights := Some [1; 1]; lz_gamma_weights := Some [1; 1];
       lz_beta_part := Some [true; true]; lz_gamma_part := Some [true; true] |})))).

Lemma astype_ones : astype_bool [1; 1] = [true; true].
Proof.
  assert (N : nonzero 1 = true) by (unfold nonzero; apply negb_true_iff; apply reqb_false; lra).
  unfold astype_bool. cbn [map]. rewrite N. reflexivity.
Qed.
Lemma shrink_pos : 1 < shrink.
Proof. unfold shrink. cbn. lra. Qed.

Lemma sample_prox a b c d : 0 <= a -> 0 < b -> 0 <= c -> 0 < d ->
  prox in_order sample_reg [a; b; c; d] (5 / 100) = Ok [0; b / shrink; 0; d / shrink].
Proof.
  intros Ha Hb Hc Hd. pose proof shrink_pos as Hs. unfold sample_reg. cbn [prox]. unfold gamma_mask.
  cbn [sample_view ov_p ov_q repeat app length Nat.eqb guard rbind mask_map map2].
  assert (N : nonzero shrink = true) by (unfold nonzero; apply negb_true_iff; apply reqb_false; lra).
  fold shrink. rewrite N. cbn [guard rbind map].
  unfold clip0. rewrite (Rmax_left c 0), (Rmax_left d 0) by lra.
  assert (P1 : 0 < b / shrink) by (apply Rdiv_lt_0_compat; lra).
  unfold l0lme_prox, x_to_beta_gamma. cbn [lz_oracle sample_view ov_p ov_q firstn skipn].
  assert (K : forall x y, take_masked in_order [true; true] [x; y] 1 = Ok [0; y]) by reflexivity.
  unfold optimal_tbeta. cbn [lz_nnz_tbeta lz_beta_weights lz_beta_part]. rewrite K. cbn [rbind].
  assert (Z1 : reqb 0 0 = true) by (apply reqb_true; reflexivity).
  assert (Z2 : reqb (b / shrink) 0 = false) by (apply reqb_false; lra).
  unfold optimal_tgamma. cbn [lz_gamma_part lz_nnz_tgamma lz_independent lz_oracle ov_map sample_view].
  unfold hierarchy_zeros. cbn [length Nat.eqb guard rbind map]. rewrite Z1, Z2.
  set (u := b / shrink) in *. set (w := d / shrink) in *. set (c' := c / shrink).
  cbn [mask_select filter Z.leb Z.compare map Z.to_nat nth_error sequence rbind snd fst forallb length Nat.ltb Nat.leb andb guard].
  change (mapi (fun (i : nat) (g : R) => if memb i [0%nat] then 0 else g) [c'; w]) with [0; w]. rewrite K. reflexivity.
Qed.

Lemma sample_instantiated : exists r0, model_reg sample_model sample_view = Ok r0 /\
  instantiate r0 ([1; 1] ++ [1; 1]) (Some sample_view) = Ok sample_reg.
Proof.
  eexists. split; [reflexivity|]. cbn [app mk_pos mk_elastic mk_l0lme instantiate l0lme_instantiate lz_oracle x_to_beta_gamma
    sample_view ov_p ov_q firstn skipn rbind lz_nnz_tbeta lz_nnz_tgamma lz_independent].
  unfold l0lme_instantiate. cbn [lz_oracle x_to_beta_gamma ov_p ov_q firstn skipn rbind lz_nnz_tbeta lz_nnz_tgamma lz_independent].
  rewrite !astype_ones. reflexivity.
Qed.

Definition sample_lg0 : logger := match mk_logger (Some keys_of_selection) with Ok l => l | Err _ => {| lg_kind := KTuple; lg_keys := []; lg_dict := [] |} end.
Definition sample_slv : pgd_solver := {| s_tol := 1 / 10 ^ 5; s_max_iter := 10000; s_stepping := "line-search"; s_step_len := 5 / 100 |}.
Notation sorc := (lme_as_oracle 2 2 (flat_oracle (flat_problem 0 0) None None)).
Notation srg := (as_regularizer in_order sample_reg).

Lemma sample_step x0 st a b c d : 0 <= a -> 0 < b -> 0 <= c -> 0 < d -> st_x st = [a; b; c; d] -> st_logger st = sample_lg0 -> st_loss st = None ->
  exists st', pgd_step sorc srg sample_slv x0 st = Ok st' /\ st_x st' = [0; b / shrink; 0; d / shrink] /\
    st_x_prev st' = Some [a; b; c; d] /\ st_iteration st' = S (st_iteration st) /\ st_logger st' = sample_lg0 /\ st_loss st' = None.
Proof.
  intros Ha Hb Hc Hd Ex El Eo. unfold pgd_step. rewrite Ex.
  change (o_grad sorc (st_oracle st) [a; b; c; d]) with (@Ok (vec * unit) ([0; 0; 0; 0], st_oracle st)). cbn [rbind].
  change (String.eqb (s_stepping sample_slv) "line-search") with true. cbv iota.
  assert (M : move [a; b; c; d] (vneg [0; 0; 0; 0]) (5 / 100) = Ok [a; b; c; d]).
  { unfold move. cbn [vneg map length Nat.eqb guard rbind vscale vadd map2]. repeat f_equal; lra. }
  pose proof (sample_prox a b c d Ha Hb Hc Hd) as P.
  assert (L : line_search sorc srg (ls_fuel (5 / 100)) (st_oracle st) [a; b; c; d] (vneg [0; 0; 0; 0]) (5 / 100) (st_z st)
    = Ok (5 / 100, Some [0; b / shrink; 0; d / shrink], st_oracle st)).
  { unfold ls_fuel. cbn [line_search].
    assert (T : rltb ls_threshold (5 / 100) = true) by (apply rltb_true; unfold ls_threshold; lra).
    rewrite T. rewrite M. cbn [rbind]. change (r_prox srg [a; b; c; d] (5 / 100)) with (prox in_order sample_reg [a; b; c; d] (5 / 100)).
    rewrite P. cbn [rbind]. unfold ls_accept.
    change (o_value sorc (st_oracle st) [0; b / shrink; 0; d / shrink]) with (@Ok (R * unit) (0, st_oracle st)). cbn [rbind].
    change (o_value sorc (st_oracle st) [a; b; c; d]) with (@Ok (R * unit) (0, st_oracle st)). cbn [rbind length Nat.eqb guard].
    match goal with |- context [rleb ?u ?w] => assert (A : rleb u w = true) end.
    { apply rleb_true. cbn [vneg map vdot]. unfold vdot, vmul. cbn [vneg map map2 vsub vsum fold_right].
      match goal with |- context [norm ?v] => pose proof (pow2_ge_0 (norm v)) as Q end.
      assert (0 <= 1 / (2 * (5 / 100))) by lra. nra. }
    rewrite A. reflexivity. }
  change (s_step_len sample_slv) with (5 / 100). rewrite L. cbn [rbind]. rewrite M. cbn [rbind].
  change (r_prox srg [a; b; c; d] (5 / 100)) with (prox in_order sample_reg [a; b; c; d] (5 / 100)). rewrite P. cbn [rbind].
  unfold log_state. cbn [st_logger st_x st_x_prev st_iteration st_loss st_direction st_step_len st_y st_z st_oracle]. rewrite El, Eo.
  change (has_key "loss" (lg_keys sample_lg0)) with false. cbv iota. cbn [rbind].
  change (0 <? length (lg_keys sample_lg0))%nat with true. cbv iota.
  change (log sample_lg0 _) with (@Ok logger sample_lg0). cbn [rbind].
  eexists. split; [reflexivity|]. cbn [st_x st_x_prev st_iteration st_logger st_loss]. auto.
Qed.

Lemma sample_solve : exists lg, pgd_optimize sorc srg sample_slv [1; 1; 1; 1] tt sample_lg0
    = Ok ([0; 1 / shrink / shrink; 0; 1 / shrink / shrink], lg, tt) /\ lg_kind lg = KTuple /\ lg_keys lg = ["converged"; "jones_bic"; "iteration"].
Proof.
  pose proof shrink_pos as Hs.
  assert (P1 : 0 < 1 / shrink) by (apply Rdiv_lt_0_compat; lra).
  assert (P2 : 0 < 1 / shrink / shrink) by (apply Rdiv_lt_0_compat; lra).
  set (st0 := pgd_init [1; 1; 1; 1] tt sample_lg0).
  assert (L0 : log_state sorc srg [1; 1; 1; 1] st0 = Ok st0) by reflexivity.
  destruct (sample_step [1; 1; 1; 1] st0 1 1 1 1) as (st1 & E1 & X1 & V1 & I1 & G1 & O1); try lra; try reflexivity.
  destruct (sample_step [1; 1; 1; 1] st1 0 (1 / shrink) 0 (1 / shrink)) as (st2 & E2 & X2 & V2 & I2 & G2 & O2); try lra; try assumption.
  assert (F : exists k, Z.to_nat (s_max_iter sample_slv) = S (S k)).
  { exists (Z.to_nat 9998). rewrite <- !Z2Nat.inj_succ by lia. reflexivity. }
  destruct F as [k F]. unfold pgd_optimize. fold st0. rewrite L0. cbn [rbind]. rewrite F. cbn [pgd_loop].
  change (moved (s_tol sample_slv) (st_x st0) (st_x_prev st0)) with (@Ok bool true). cbn [rbind].
  change (Z.of_nat (st_iteration st0) <? s_max_iter sample_slv)%Z with true. cbn [andb]. cbv iota. rewrite E1. cbn [rbind].
  assert (M1 : moved (s_tol sample_slv) (st_x st1) (st_x_prev st1) = Ok true).
  { rewrite X1, V1. cbn [moved length Nat.eqb guard rbind]. f_equal. apply rltb_true. cbn [s_tol sample_slv].
    unfold norm, sqnorm. cbn [vsub map2].
    match goal with |- _ < sqrt ?v => assert (1 <= v) end.
    { unfold vdot, vmul. cbn [vsub map2 vsum fold_right]. pose proof (Rle_0_sqr (1 / shrink - 1)) as Q. unfold Rsqr in Q. lra. }
    assert (sqrt 1 <= sqrt (vdot [0 - 1; 1 / shrink - 1; 0 - 1; 1 / shrink - 1] [0 - 1; 1 / shrink - 1; 0 - 1; 1 / shrink - 1])).
    { apply sqrt_le_1; lra. }
    rewrite sqrt_1 in H0. cbn [pow]. lra. }
  rewrite M1. cbn [rbind]. rewrite I1. change (Z.of_nat (S (st_iteration st0)) <? s_max_iter sample_slv)%Z with true. cbn [andb].
  cbv iota. rewrite E2. cbn [rbind].
  assert (M2 : moved (s_tol sample_slv) (st_x st2) (st_x_prev st2) = Ok false).
  { rewrite X2, V2. cbn [moved length Nat.eqb guard rbind]. f_equal. apply rltb_false. cbn [s_tol sample_slv].
    unfold norm, sqnorm. cbn [vsub map2].
    assert (U : 1 / shrink - 1 / shrink / shrink <= 6 / 10 ^ 6).
    { assert (1 / shrink <= 1). { apply Rmult_le_reg_r with shrink; [lra|]. unfold Rdiv. rewrite Rmult_assoc, Rinv_l by lra. lra. }
      assert (E : 1 / shrink - 1 / shrink / shrink = 1 / shrink * (1 - 1 / shrink)) by (field; lra).
      assert (V : 1 - 1 / shrink = (shrink - 1) * (1 / shrink)) by (field; lra).
      assert (W : shrink - 1 = 5 / 10 ^ 6) by (unfold shrink; cbn; lra).
      rewrite E, V, W. cbn [pow]. nra. }
    assert (U0 : 0 <= 1 / shrink - 1 / shrink / shrink).
    { assert (E : 1 / shrink - 1 / shrink / shrink = 1 / shrink / shrink * (shrink - 1)) by (field; lra). rewrite E. apply Rmult_le_pos; lra. }
    assert (E : 1 / shrink / shrink - 1 / shrink = - (1 / shrink - 1 / shrink / shrink)) by ring. rewrite E.
    set (e := 1 / shrink - 1 / shrink / shrink) in *.
    assert (S : 0 <= e * e <= 6 / 10 ^ 6 * (6 / 10 ^ 6)).
    { split; [apply Rmult_le_pos; exact U0|apply Rmult_le_compat; assumption]. }
    assert (D : vdot [0 - 0; - e; 0 - 0; - e] [0 - 0; - e; 0 - 0; - e] = 2 * (e * e)).
    { unfold vdot, vmul. cbn [map2 vsum fold_right]. ring. }
    rewrite D. rewrite <- (sqrt_Rsqr (1 / 10 ^ 5)) by (cbn; lra). apply sqrt_le_1.
    - lra.
    - apply Rle_0_sqr.
    - unfold Rsqr. cbn [pow] in *. lra. }
  destruct k as [|k].
  { exfalso. apply (f_equal Z.of_nat) in F. rewrite Z2Nat.id in F by (cbn; lia). discriminate F. }
  cbn [pgd_loop]. rewrite M2. cbn [rbind andb]. cbv iota. cbn [rbind]. rewrite G2, I2, I1, X2.
  destruct (st_oracle st2).
  match goal with |- context [add sample_lg0 "converged" ?v] => set (b := v) end.
  match goal with |- context [LAtom (LNum ?v)] => set (n := LAtom (LNum v)) end.
  destruct (add_tuple sample_lg0 "converged" b eq_refl) as [lg1 A1]. rewrite A1. cbn [rbind].
  destruct (add_lookup _ _ _ _ A1) as (_ & K1 & N1).
  destruct (add_tuple lg1 "iteration" n) as [lg2 A2]; [rewrite K1; reflexivity|]. rewrite A2. cbn [rbind].
  destruct (add_lookup _ _ _ _ A2) as (_ & K2 & N2).
  exists lg2. split; [reflexivity|]. split; [rewrite K2, K1; reflexivity|].
  rewrite N2, N1. reflexivity.
Qed.

Lemma sample_fit pr : num_fixed pr = 2%nat -> num_random pr = 2%nat -> oracle_view_of pr = Ok sample_view ->
  fit_weights pr None None = Ok ([1; 1], [1; 1]) ->
  exists co lg, sample_run sample_model pr = Ok (co, lg) /\ co_beta co = [0; 1 / shrink / shrink] /\ co_gamma co = [0; 1 / shrink / shrink].
Proof.
  intros H1 H2 H3 H4. destruct sample_solve as (lg1 & E & K & J). destruct sample_instantiated as (r0 & R0 & R1).
  set (c := 1 / shrink / shrink) in *.
  assert (LC : exists lg2, log_criteria sample_model (flat_oracle pr None None) [0; c] [0; c] lg1 = Ok lg2).
  { unfold log_criteria.
    assert (N : forall k v, has_key k ["converged"; "jones_bic"; "iteration"] = false -> forall lg,
       lg_keys lg = ["converged"; "jones_bic"; "iteration"] -> add_if lg k v = Ok lg).
    { intros k v Hk lg Hl. unfold add_if. rewrite Hl, Hk. reflexivity. }
    rewrite N by (try reflexivity; exact J). cbn [rbind]. rewrite N by (try reflexivity; exact J). cbn [rbind].
    unfold add_if at 1. rewrite J. change (has_key "jones_bic" _) with true. cbv iota.
    assert (T : rleb 0 (solver_tol sample_model) = true) by (apply rleb_true; cbn; lra).
    rewrite T. cbn [guard rbind lc_jones flat_oracle].
    destruct (add_tuple lg1 "jones_bic" (LAtom (LNum 7)) K) as [lg2 A2]. rewrite A2. cbn [rbind].
    destruct (add_lookup _ _ _ _ A2) as (_ & _ & N2). rewrite J in N2. change (has_key "jones_bic" _) with true in N2. cbv iota in N2.
    rewrite N by (try reflexivity; exact N2). cbn [rbind]. rewrite N by (try reflexivity; exact N2). eauto. }
  destruct LC as [lg2 LC].
  eexists. exists lg2. split; [unfold sample_run, new_fit; eapply fit_problem_run with (g := None) (beta1 := [1; 1]) (gamma1 := [1; 1])
    (us := []) (ov := sample_view) (wf := [1; 1]) (wr := [1; 1]) (r0 := r0) (r := sample_reg) (x := [0; c; 0; c]) (lg0 := sample_lg0)
    (lg1 := lg1); try reflexivity; try assumption|].
  - rewrite H1, H2. reflexivity.
  - rewrite H1, H2. unfold run_solver. change (step_length sample_model) with (@Ok R (5 / 100)). cbn [rbind].
    change (mo_sr3 sample_model) with (@None sr3_settings). cbv iota.
    change (lme_as_oracle 2 2 (flat_oracle pr None None)) with sorc. change ([1; 1] ++ [1; 1]) with [1; 1; 1; 1].
    change {| s_tol := mo_tol sample_model; s_max_iter := mo_max_iter sample_model; s_stepping := mo_stepping sample_model;
              s_step_len := 5 / 100 |} with sample_slv. rewrite E. reflexivity.
  - rewrite H1, H2. split; reflexivity.
Qed.

Lemma sample_problem fixed random : (fixed = ["a"; "b"] /\ random = ["a"; "b"]) \/ (fixed = ["intercept"; "a"] /\ random = ["intercept"; "a"]) ->
  exists pr, from_dataframe sample_frame fixed random "g" "v" "y" [] [] = Ok pr /\
    num_fixed pr = 2%nat /\ num_random pr = 2%nat /\ oracle_view_of pr = Ok sample_view /\
    fit_weights pr None None = Ok ([1; 1], [1; 1]).
Proof.
  intros HC.
  assert (HX : exists pr, from_dataframe sample_frame fixed random "g" "v" "y" [] [] = Ok pr /\
     oracle_view_of pr = Ok sample_view).
  { unfold from_dataframe. cbn [sample_frame df_cols df_n].
    destruct HC as [[-> ->]|[-> ->]].
    - change (forallb _ (["a"; "b"] ++ _)) with true. cbn [guard rbind].
      change (forallb _ []) with true. cbn [guard rbind]. change (forallb _ []) with true. cbn [guard rbind].
      change (filter _ _) with ["a"; "b"]. cbn [app map].
      change (effect_label ["a"; "b"] ["a"; "b"] "a") with "fixed+random". change (effect_label ["a"; "b"] ["a"; "b"] "b") with "fixed+random".
      change (df_col _ "g") with (@Ok vec [1; 0]). change (df_col _ "a") with (@Ok vec [5; 6]). change (df_col _ "b") with (@Ok vec [7; 8]).
      change (df_col _ "v") with (@Ok vec [1; 1]). change (df_col _ "y") with (@Ok vec [10; 20]). cbn [sequence rbind].
      match goal with |- exists pr, from_x_y ?x ?y (Some ?cs) (Some ?ls) ?ff ?fr ?mf ?mr = Ok pr /\ _ =>
        assert (W : wf_table x) by (repeat constructor);
        destruct (proj2 (from_x_y_accepts_iff_lemma x y ls ff fr W)) as [pr0 H0] end.
      + split; [split; [discriminate|reflexivity]|]. split; [|split; [reflexivity|split]].
        * split; [apply known_label_spec; reflexivity|split; reflexivity].
        * repeat constructor; unfold variance_of; simpl; lra.
        * constructor; [exists 1%Z; reflexivity|constructor; [exists 0%Z; reflexivity|constructor]].
      + match goal with |- exists pr, from_x_y ?x ?y (Some ?cs) (Some ?ls) ?ff ?fr ?mf ?mr = Ok pr /\ _ =>
          assert (Q : exists pr, from_x_y x y (Some cs) (Some ls) ff fr mf mr = Ok pr) end.
        { eapply from_x_y_accepts_names_lemma; [exact H0|reflexivity|right; left; reflexivity]. }
        destruct Q as [pr Q]. exists pr. split; [exact Q|]. apply from_x_y_inv in Q.
        destruct Q as [g0 [v0 [gl [fec [rec [wf [wr [A1 [A2 [A3 [A4 [A5 [A6 [A7 [V1 [V2 [_ [_ [A8 E]]]]]]]]]]]]]]]]]]]. subst pr. reflexivity.
    - change (forallb _ (["intercept"; "a"] ++ _)) with true. cbn [guard rbind].
      change (forallb _ []) with true. cbn [guard rbind]. change (forallb _ []) with true. cbn [guard rbind].
      change (filter _ _) with ["a"]. cbn [app map].
      change (effect_label ["intercept"; "a"] ["intercept"; "a"] "a") with "fixed+random".
      change (df_col _ "g") with (@Ok vec [1; 0]). change (df_col _ "a") with (@Ok vec [5; 6]).
      change (df_col _ "v") with (@Ok vec [1; 1]). change (df_col _ "y") with (@Ok vec [10; 20]). cbn [sequence rbind].
      match goal with |- exists pr, from_x_y ?x ?y (Some ?cs) (Some ?ls) ?ff ?fr ?mf ?mr = Ok pr /\ _ =>
        assert (W : wf_table x) by (repeat constructor);
        destruct (proj2 (from_x_y_accepts_iff_lemma x y ls ff fr W)) as [pr0 H0] end.
      + split; [split; [discriminate|reflexivity]|]. split; [|split; [reflexivity|split]].
        * split; [apply known_label_spec; reflexivity|split; reflexivity].
        * repeat constructor; unfold variance_of; simpl; lra.
        * constructor; [exists 1%Z; reflexivity|constructor; [exists 0%Z; reflexivity|constructor]].
      + match goal with |- exists pr, from_x_y ?x ?y (Some ?cs) (Some ?ls) ?ff ?fr ?mf ?mr = Ok pr /\ _ =>
          assert (Q : exists pr, from_x_y x y (Some cs) (Some ls) ff fr mf mr = Ok pr) end.
        { eapply from_x_y_accepts_names_lemma; [exact H0|reflexivity|right; left; reflexivity]. }
        destruct Q as [pr Q]. exists pr. split; [exact Q|]. apply from_x_y_inv in Q.
        destruct Q as [g0 [v0 [gl [fec [rec [wf [wr [A1 [A2 [A3 [A4 [A5 [A6 [A7 [V1 [V2 [_ [_ [A8 E]]]]]]]]]]]]]]]]]]]. subst pr. reflexivity. }
  destruct HX as (pr & H & HV). exists pr. split; [exact H|].
  destruct (oracle_viewE _ _ HV) as [E1 E2]. cbn [sample_view ov_p ov_q] in E1, E2.
  split; [congruence|]. split; [congruence|]. split; [exact HV|].
  destruct (from_dataframe_weights _ _ _ _ _ _ _ _ _ H) as (W1 & _ & W2 & _).
  unfold fit_weights, default_weights. rewrite W1, W2 by auto. cbn [rbind].
  destruct HC as [[-> ->]|[-> ->]]; reflexivity.
Qed.

Lemma set_as_is sl l : enumerates sl -> forall a, In a (sl (l ++ [])) <-> In a l.
Proof. intros HE a. rewrite (proj2 (HE _)), app_nil_r. reflexivity. Qed.

(** the sample selection: the last coefficient of both parts is kept *)
Lemma sample_selection fixed random sl : enumerates sl ->
  (fixed = ["a"; "b"] /\ random = ["a"; "b"]) \/ (fixed = ["intercept"; "a"] /\ random = ["intercept"; "a"]) ->
  fst (fst (sample_select fixed random sl)) =
  Ok (reported (named_effects sample_frame fixed) [0; 1], reported (named_effects sample_frame random) [0; 1]).
Proof.
  intros HE HC. destruct (sample_problem _ _ HC) as (pr & H & N1 & N2 & HV & HW).
  destruct (sample_fit pr N1 N2 HV HW) as (co & lg & Hr & B1 & B2).
  unfold sample_select. rewrite select_eq; [|right; split; eexists; reflexivity|left; reflexivity].
  change (given_names (sample_covs fixed random) "fixed_effects") with fixed.
  change (given_names (sample_covs fixed random) "random_effects") with random.
  change (given_names None "fixed_effects") with (@nil string). change (given_names None "random_effects") with (@nil string).
  unfold select_lists. rewrite (from_dataframe_set _ _ fixed _ random _ _ _ _ _ (set_as_is sl fixed HE) (set_as_is sl random HE)).
  rewrite H. cbn [rbind].
  assert (G : forallb (fun c => has_key c (map fst (df_cols sample_frame))) ("y" :: "v" :: "g" :: sl (fixed ++ []) ++ sl (random ++ [])) = true).
  { apply forallb_forall. intros a Ha. cbn [In] in Ha. rewrite in_app_iff, !(set_as_is sl _ HE) in Ha.
    destruct HC as [[-> ->]|[-> ->]]; cbn [In] in Ha;
    repeat match goal with H : _ \/ _ |- _ => destruct H end; try contradiction; subst a; reflexivity. }
  rewrite G. cbn [guard rbind]. unfold get_model. cbv zeta. change (String.eqb "L0" "L0") with true. cbv iota. rewrite N1, N2.
  change (l0_grid 2 2) with [(1%nat, 1%nat)]. cbn [map fst snd rbind]. change (plain_candidate (PenL0 (Some (Z.of_nat 1)) (Some (Z.of_nat 1)))) with sample_model.
  cbn [search]. rewrite Hr. cbn [rbind].
  assert (HG : grid_model sample_model) by (apply plain_grid; exact I).
  destruct (grid_score _ _ _ _ _ _ _ HG Hr) as (s & _ & Eg). rewrite Eg. cbn [rbind score_of lnum below].
  destruct (from_dataframe_selects_lemma _ _ _ _ _ _ _ _ _ H) as (E1 & E2 & _). rewrite E1, E2. cbn [selected rbind].
  rewrite !selected_reported, B1, B2.
  assert (RR : forall ns, reported ns [0; 1 / shrink / shrink] = reported ns [0; 1]).
  { assert (A : Rle_dec (1 / 100) (Rabs (1 / shrink / shrink)) = Rle_dec (1 / 100) (Rabs (1 / shrink / shrink))) by reflexivity.
    assert (B : 1 / 100 <= Rabs (1 / shrink / shrink)).
    { pose proof shrink_pos. assert (shrink < 2) by (unfold shrink; cbn; lra).
      rewrite Rabs_right.
      - replace (1 / shrink / shrink) with (/ (shrink * shrink)) by (field; lra). replace (1 / 100) with (/ 100) by lra.
        apply Rinv_le_contravar; [apply Rmult_lt_0_compat; lra|]. assert (shrink * shrink <= 2 * 2) by (apply Rmult_le_compat; lra). lra.
      - left. apply Rdiv_lt_0_compat; [apply Rdiv_lt_0_compat|]; lra. }
    assert (C : 1 / 100 <= Rabs 1) by (rewrite Rabs_R1; lra).
    intros [|n [|n' ns]]; try reflexivity; cbn [reported].
    destruct (Rle_dec (1 / 100) (Rabs (1 / shrink / shrink))); [|contradiction]. destruct (Rle_dec (1 / 100) (Rabs 1)); [|contradiction]. reflexivity. }
  rewrite !RR. reflexivity.
Qed.
