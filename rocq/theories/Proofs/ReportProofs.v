(** Facts about problems made of tables, used for reports about fitted models. *)
From Coq Require Import Lia Lra.
From Verif.Base Require Import Py Vec Mat.
From Verif.Model Require Import LmeProblem.
From Verif.Spec Require Import LmeSpec.
From Verif.Proofs Require Import VecFacts LmeProblemProofs LmeProblemMain.
Open Scope R_scope.

Lemma from_x_y_shape x y columns labels ff fr mf mr pr :
  from_x_y x (Some y) columns labels ff fr mf mr = Ok pr ->
  pr_random_0d pr = false /\ (exists ys, pr_answers pr = Some ys) /\
  num_fixed pr = (countb is_fixed (fst (default_labels x labels)) + b2n ff)%nat /\
  num_random pr = (countb is_random (fst (default_labels x labels)) + b2n fr)%nat.
Proof.
  intros H. destruct (from_x_y_inv _ _ _ _ _ _ _ _ _ H) as
    (g & v & gl & fec & rec & wf & wr & _ & _ & _ & _ & _ & _ & _ & _ & _ & _ & _ & _ & ->).
  split; [reflexivity|]. split; [eexists; reflexivity|].
  unfold num_fixed, num_random, built. cbn [pr_labels pr_intercept].
  destruct ff, fr; split; reflexivity.
Qed.
Lemma from_x_y_vars x y columns labels ff fr mf mr pr :
  from_x_y x y columns labels ff fr mf mr = Ok pr ->
  exists v, where_ (String.eqb VARIANCE) (fst (default_labels x labels)) = [v] /\
  forall j i, (i < length (nth j (pr_fixed pr) []))%nat ->
    exists row, In row (t_rows (snd (default_labels x labels))) /\ nth i (nth j (pr_obs_vars pr) []) 0 = nth v row 0.
Proof.
  intros H. destruct (from_x_y_inv _ _ _ _ _ _ _ _ _ H) as
    (g & v & gl & fec & rec & wf & wr & _ & _ & _ & _ & Ev & _ & _ & _ & _ & _ & _ & _ & ->).
  exists v. split; [exact Ev|]. unfold built. cbn [pr_fixed pr_obs_vars]. intros j.
  set (rows := fun label => filter (in_group g label) (t_rows (snd (default_labels x labels)))).
  destruct (Nat.lt_ge_cases j (length gl)) as [L|L].
  2:{ rewrite (nth_overflow (map _ gl)) by (rewrite map_length; exact L). intros i Hi. cbn [length] in Hi. lia. }
  destruct (nth_error gl j) as [l|] eqn:E; [|apply nth_error_None in E; lia].
  assert (N : forall A (f : R -> list A), nth j (map f gl) [] = f l)
    by (intros A f; apply nth_error_nth; apply map_nth_error; exact E).
  intros i Hi. rewrite (N vec) in Hi. rewrite (N R). rewrite map_length in Hi. exists (nth i (rows l) []). split.
  - apply (proj1 (proj1 (filter_In _ _ _) (nth_In _ _ Hi))).
  - unfold column. fold (rows l). rewrite (nth_indep _ 0 (nth v [] 0)) by (rewrite map_length; exact Hi).
    apply (map_nth (fun row => nth v row 0)).
Qed.
