(** A mixed model that starts from its default parameters on features whose signs do not matter. *)
From Coq Require Import Lra Psatz String.
From Verif.Base Require Import Py Vec Mat.
From Verif.Model Require Import LmeProblem Regularizers Solvers Linear LmeInner LmeFit LmePredict LmeUse LmeBridge.
From Verif.Spec Require Import ProxSpec RegSpec SolverSpec LinearSpec LmeSpec InnerSpec FitSpec ColumnSpec FeatureTableSpec FlipSpec.
From Verif.Proofs Require Import VecFacts SolverProofs LinearProofs InnerProofs FitProofs BridgeProofs LmeFitMain LmeProblemProofs LmeProblemMain FeatureTwin.
Open Scope list_scope.
Open Scope R_scope.

Lemma twin_default argsort cdf : exists co lg,
  lme_fit argsort cdf (flat_model PenNone None 0 0) None twin_table [0] (Some twin_labels) None None false false false None None
  = Ok (co, lg) /\ co_beta co = [1; 1].
Proof.
  assert (F : lme_fit argsort cdf (flat_model PenNone None 0 0) None twin_table [0] (Some twin_labels) None None false false false None None
    = lme_fit_problem argsort cdf (flat_model PenNone None 0 0) None (flat_problem 2 1) None None false None None).
  { unfold lme_fit, fit. change (check_X_y twin_table [0]) with (@Ok unit tt). cbn [rbind].
    exact (f_equal (fun r => rbind r (fun pr => lme_fit_problem argsort cdf (flat_model PenNone None 0 0) None pr None None false None None)) twin_problem). }
  rewrite F.
  assert (E : lc_random_effects (problem_calls cdf (flat_problem 2 1) None None) [1; 1] [1] = Ok [zeros 1])
    by (apply (@flat_calls_effects 2 1 cdf None [1; 1] [1]); reflexivity).
  eexists. eexists. split; [unfold lme_fit_problem; eapply fit_problem_run with (g := None) (beta1 := [1; 1]) (gamma1 := [1]) (us := [zeros 1]); try reflexivity|].
  - exact E.
  - reflexivity.
Qed.

(** the signs of the columns, and the table and answers that do not change with them *)
Lemma twin_signs : column_signs twin_labels [1; -1; 1; 1; 1].
Proof.
  unfold column_signs, twin_labels. repeat (apply Forall2_cons || apply Forall2_nil); try (left; reflexivity).
  right. split; [reflexivity|split; discriminate].
Qed.
Lemma more_signs : column_signs twin_labels [1; -1; 1; -1; 1].
Proof.
  unfold column_signs, twin_labels. repeat (apply Forall2_cons || apply Forall2_nil); try (left; reflexivity);
    right; (split; [reflexivity|split; discriminate]).
Qed.
Lemma signs_prediction : predict (Some (predictor signs_coef)) signs_row (Some twin_labels) false false = Ok [41].
Proof.
  assert (i0 : is_int 0 = true) by (apply is_int_true; exists 0%Z; reflexivity).
  assert (n1 : nonzero 1 = true) by (apply nonzero_true; lra).
  assert (r0 : reqb 0 0 = true) by apply reqb_refl.
  assert (g0 : in_group 0 0 [0; 1; 2; 4; 1] = true) by exact r0.
  unfold predict, from_x_y, signs_row, twin_labels. cbn. unfold column. cbn. rewrite n1. cbn.
  unfold unique_labels. cbn. rewrite i0. cbn. rewrite !g0. cbn.
  unfold predict_problem, predict_group, where_. cbn. rewrite r0. cbn. f_equal. f_equal. unfold vdot, vmul, vsum. cbn. ring.
Qed.
Lemma twin_flipped : flip_table [1; -1; 1; 1; 1] twin_table = twin_table.
Proof. unfold flip_table, twin_table, flip_columns, flip, vmul. cbn. repeat f_equal; ring. Qed.
Lemma twin_answers e : vscale e [0] = [0].
Proof. unfold vscale. cbn. f_equal. ring. Qed.
Lemma twin_roles : role_signs is_fixed false twin_labels [1; -1; 1; 1; 1] = [-1; 1] /\
  role_signs is_random false twin_labels [1; -1; 1; 1; 1] = [1].
Proof. split; reflexivity. Qed.
Lemma twin_flip_refuted argsort cdf :
  lme_fit argsort cdf (flat_model PenNone None 0 0) None (flip_table [1; -1; 1; 1; 1] twin_table) (vscale 1 [0]) (Some twin_labels)
    None None false false false None None
  <> rmap (flip_lme_fit 1 1 [-1; 1] [1] [1; -1; 1; 1; 1])
       (lme_fit argsort cdf (flat_model PenNone None 0 0) None twin_table [0] (Some twin_labels) None None false false false None None).
Proof.
  rewrite twin_flipped, twin_answers. destruct (twin_default argsort cdf) as (co & lg & F & B). rewrite F. cbn [rmap].
  unfold flip_lme_fit. cbn [fst snd]. intros K. apply Ok_inj in K. apply (f_equal (fun r => nth 0 (co_beta (fst r)) 0)) in K.
  cbn [fst co_beta] in K. rewrite B in K. unfold flip, vscale, vmul in K. cbn in K. lra.
Qed.

(** the same for a relaxed model *)
Lemma relaxed_start argsort cdf ss a b d : ss_practical ss = false -> exists co lg,
  lme_fit argsort cdf (flat_model PenNone (Some ss) 0 0) None twin_table [0] (Some twin_labels) (Some [a; b]) (Some [d]) false false false None None
  = Ok (co, lg) /\ co_beta co = [a; b].
Proof.
  intros Hp. destruct ss as [el pr ue mi tl wm po ex nb]. cbn [ss_practical] in Hp. subst pr.
  set (ss := {| ss_ell := el |}).
  assert (F : lme_fit argsort cdf (flat_model PenNone (Some ss) 0 0) None twin_table [0] (Some twin_labels) (Some [a; b]) (Some [d]) false false false None None
    = lme_fit_problem argsort cdf (flat_model PenNone (Some ss) 0 0) None (flat_problem 2 1) (Some [a; b]) (Some [d]) false None None).
  { unfold lme_fit, fit. change (check_X_y twin_table [0]) with (@Ok unit tt). cbn [rbind].
    exact (f_equal (fun r => rbind r (fun pr => lme_fit_problem argsort cdf (flat_model PenNone (Some ss) 0 0) None pr (Some [a; b]) (Some [d]) false None None)) twin_problem). }
  rewrite F.
  assert (E : lc_random_effects (problem_calls cdf (flat_problem 2 1) None (Some ss)) [a; b] [d] = Ok [zeros 1])
    by (apply (@flat_calls_effects 2 1 cdf (Some ss) [a; b] [d]); reflexivity).
  eexists. eexists. split; [unfold lme_fit_problem; eapply fit_problem_run with (g := None) (beta1 := [a; b]) (gamma1 := [d]) (us := [zeros 1]); try reflexivity|].
  - exact E.
  - reflexivity.
Qed.
