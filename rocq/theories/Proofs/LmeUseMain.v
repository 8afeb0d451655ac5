(*HEAD
(** Property C77: predict on the training table after fit (src/pysr3/lme/models.py). *)
From Verif.Base Require Import Py Vec Mat RMx.
From Verif.Model Require Import LmeProblem LmePredict Regularizers Solvers LmeInner LmeFit LmeUse.
From Verif.Spec Require Import LmeSpec FitSpec.
From mathcomp Require Import ssreflect ssrfun ssrbool eqtype ssrnat choice seq fintype
  finfun bigop finset ssralg matrix mxalgebra.
From Verif.Model Require Import LmeOracle LmeBridge.
From Verif.Spec Require Import MxSpec UseSpec.
HEAD*)
From Verif.Base Require Import Py Vec Mat RMx.
From Verif.Model Require Import LmeProblem LmePredict Regularizers Solvers LmeInner LmeFit LmeUse.
From Verif.Spec Require Import LmeSpec FitSpec.
From Verif.Proofs Require Import VecFacts LmeProblemProofs LmeProblemMain LmePredictMain LmeDataMain LmeInnerMain FitProofs ReportProofs FitPredictProofs.
From Coq Require Import Lra Lia.
From mathcomp Require Import ssreflect ssrfun ssrbool eqtype ssrnat choice seq fintype
  finfun bigop finset ssralg zmodp matrix mxalgebra.
From Verif.Model Require Import LmeOracle LmeBridge.
From Verif.Spec Require Import MxSpec UseSpec.
From Verif.Proofs Require Import MxFacts LmeOracleProofs LmeEstimates LmeBlup LmeCriteria LmeOracleMain LmeEstimateMain
  BridgeProofs LmeFitMain LmeReportMain.
(*OPEN
Set Implicit Arguments.
Unset Strict Implicit.
Unset Printing Implicit Defensive.
Delimit Scope R_scope with coqR.
Local Open Scope ring_scope.
OPEN*)
Set Implicit Arguments.
Unset Strict Implicit.
Unset Printing Implicit Defensive.
Delimit Scope R_scope with coqR.
Import GRing.Theory.
Local Open Scope ring_scope.

(** ** arrays *)
Lemma vdot_big (n : nat) (a b : vec) : length a = n -> length b = n ->
  vdot a b = \sum_(i < n) (List.nth i a 0%coqR * List.nth i b 0%coqR).
Proof.
  elim: n a b => [|n IH] [|x a] [|y b] //=; first by rewrite big_ord0.
  move=> [la] [lb]; rewrite big_ord_recl /=.
  have <- : vdot a b = \sum_(i < n) (List.nth i a 0%coqR * List.nth i b 0%coqR) by exact: IH.
  by [].
Qed.
Lemma map_enum_nth (A : Type) (n : nat) (f : nat -> A) : List.map (fun i : 'I_n => f i) (enum 'I_n) = List.map f (List.seq 0 n).
Proof.
  have e : List.map (fun i : 'I_n => f i) (enum 'I_n) = map f (map val (enum 'I_n)).
    by rewrite -map_comp; elim: (enum 'I_n) => //= a l ->.
  rewrite e val_enum_ord.
  have g : forall k m, List.map f (List.seq m k) = map f (iota m k) by elim=> [|k IH] m //=; rewrite IH.
  by rewrite g.
Qed.
Lemma map_as_seq (A B : Type) (f : A -> B) l d : List.map f l = List.map (fun i => f (List.nth i l d)) (List.seq 0 (length l)).
Proof. by rewrite -{1}[l](map_nth_seq l d) List.map_map. Qed.
Lemma vec_of_map2 (n : nat) (c d : 'cV[R]_n) : vec_of (c + d) = vadd (vec_of c) (vec_of d).
Proof.
  rewrite /vec_of /vadd; elim: (enum 'I_n) => //= i l ->.
  by rewrite mxE.
Qed.
Lemma col_ofK n (c : 'cV[R]_n) : col_of n (vec_of c) = c.
Proof. by apply/matrixP => i j; rewrite mxE nth_vec_of [j]ord1. Qed.
Lemma vec_of_mv (n m : nat) (x : mat) (b : vec) : length x = n -> length b = m -> (forall r, List.In r x -> length r = m) ->
  vec_of (mx_of n m x *m col_of m b) = mv x b.
Proof.
  move=> <- lb hx; rewrite /vec_of /mv (map_as_seq _ _ [::]) -map_enum_nth.
  apply: List.map_ext => i; rewrite mxE.
  rewrite (@vdot_big m) //; last by apply: hx; apply: List.nth_In; exact/ltP/ltn_ord.
  by apply: eq_bigr => k _; rewrite !mxE.
Qed.

Lemma sequence_inv_map (A B : Type) (f : A -> res B) (g : A -> B) l bs : (forall a, List.In a l -> f a = Ok (g a)) ->
  sequence (List.map f l) = Ok bs -> bs = List.map g l.
Proof.
  elim: l bs => [|a l IH] bs h /=; first by case.
  rewrite h; last by left.
  cbn [rbind]; case e: (sequence _) => [bs'|] //= [<-].
  by congr (_ :: _); apply: IH => // a' h'; apply: h; right.
Qed.

(** the training residual of a group *)
Lemma fitted_values (p q : nat) (beta : 'cV[R]_p) (gamma : 'cV[R]_q) (g : group p q) : pd (Omega gamma g) ->
  fitted beta gamma g = g_y g - diag_mx (g_v g)^T *m invmx (Omega gamma g) *m resid beta g.
Proof.
  move=> hp.
  have e : g_z g *m blup beta gamma g = (Omega gamma g - diag_mx (g_v g)^T) *m invmx (Omega gamma g) *m resid beta g.
    by rewrite /blup /Omega addrK !mulmxA.
  rewrite /fitted e !mulmxBl mulmxV ?mul1mx; last exact: pd_unit hp.
  by rewrite {1}/resid addrA [g_x g *m beta + _]addrC subrK.
Qed.

Lemma nonneg_of_blup q (gamma : 'cV[R]_q) : blup_variances gamma -> nonnegative gamma.
Proof.
  move=> h j; case: (h j) => [->|h']; first by toR; lra.
  apply: Rle_trans (Rlt_le _ _ h'); apply: Rlt_le; apply: Rdiv_lt_0_compat; first lra.
  by apply: pow_lt; lra.
Qed.

Lemma effects_help (p q : nat) (beta : 'cV[R]_p) (gamma : 'cV[R]_q) (g : group p q) :
  blup_variances gamma -> positive_variances [:: g] ->
  (weighted_ss (g_y g - fitted beta gamma g) <= weighted_ss (resid beta g))%coqR.
Proof.
  move=> hg hv.
  have [_ /(_ g (or_introl erefl)) [su mi]] := random_effects_are_blup_lemma beta hg hv.
  have s0 : supported gamma (0 : 'cV[R]_q) by move=> j _; rewrite mxE.
  have -> : g_y g - fitted beta gamma g = resid beta g - g_z g *m blup beta gamma g by rewrite /fitted /resid opprD addrA.
  have e0 : penalised beta gamma g 0 = (/ 2 * weighted_ss (resid beta g))%coqR.
    rewrite /penalised /weighted_ss mulmx0 subr0.
    set z := \sum_(j | rltb 0 (gamma j ord0)) _.
    have -> : z = 0 by apply: big1 => j _; rewrite mxE; change ((0 ^ 2 * / gamma j ord0)%coqR = 0%coqR); ring.
    by toR; ring.
  have pos : (0 <= \sum_(j | rltb 0 (gamma j ord0)) (blup beta gamma g j ord0 ^ 2 / gamma j ord0)%coqR)%coqR.
    apply: (big_ind (fun a => (0 <= a)%coqR)) => [|a b ha hb|j hj]; first by toR; lra.
      by toR; lra.
    have h := proj1 (rltb_true _ _) hj.
    by apply: Rmult_le_pos; [exact: pow2_ge_0 | apply: Rlt_le; exact: Rinv_0_lt_compat].
  have le : (penalised beta gamma g (blup beta gamma g) <= penalised beta gamma g 0)%coqR.
    case: (boolP (blup beta gamma g == 0)) => [/eqP ->|/eqP ne]; first exact: Rle_refl.
    by apply: Rlt_le; apply: mi => // e; apply: ne.
  move: le; rewrite e0 /penalised -/(weighted_ss (resid beta g - g_z g *m blup beta gamma g)).
  set a := weighted_ss _; set b := \sum_(j | rltb 0 (gamma j ord0)) _ in pos *; set c := weighted_ss _.
  by move: a b c pos => a b c; lra.
Qed.

Lemma fit_inv argsort cdf m coef x y labels beta0 gamma0 warm ff fr fe re co lg :
  lme_fit argsort cdf m coef x y labels beta0 gamma0 warm ff fr fe re = Ok (co, lg) ->
  exists pr, from_x_y x (Some y) None labels ff fr None None = Ok pr /\
    lme_fit_problem argsort cdf m coef pr beta0 gamma0 warm fe re = Ok (co, lg).
Proof.
  rewrite /lme_fit /fit; case: (check_X_y _ _) => //= _; case: (from_x_y _ _ _ _ _ _ _ _) => //= pr h.
  by exists pr.
Qed.

Lemma from_x_y_rows x y labels ff fr pr : from_x_y x (Some y) None (Some labels) ff fr None None = Ok pr ->
  length (pr_fixed pr) = length (pr_group_labels pr) /\ length (pr_random pr) = length (pr_group_labels pr) /\
  forall j, length (List.nth j (pr_fixed pr) [::]) = length (List.nth j (pr_random pr) [::]) /\
    (forall r, List.In r (List.nth j (pr_fixed pr) [::]) -> length r = num_fixed pr) /\
    (forall r, List.In r (List.nth j (pr_random pr) [::]) -> length r = num_random pr).
Proof.
  move=> H; destruct (from_x_y_inv _ _ _ _ _ _ _ _ _ H) as
    (g & v & gl & fec & rec & wf & wr & _ & _ & _ & _ & _ & _ & _ & _ & _ & _ & _ & _ & ->).
  cbn [default_labels fst snd built pr_fixed pr_random pr_group_labels].
  rewrite !List.map_length; split=> //; split=> // j.
  have nm (f : R -> mat) : List.nth j (List.map f gl) [::] = [::] \/ exists l, List.nth j (List.map f gl) [::] = f l.
    by elim: gl j {H} => [|l gl IH] [|j] /=; [left|left|right; exists l|exact: IH].
  have nl (f h : R -> mat) : (forall l, length (f l) = length (h l)) ->
    length (List.nth j (List.map f gl) [::]) = length (List.nth j (List.map h gl) [::]).
    by move=> e; elim: gl j {H nm} => [|l gl IH] [|j] //=.
  split; first by apply: nl => l; rewrite !List.map_length.
  split=> r.
    case: (nm (fun label => List.map (feature_row ff (where_ is_fixed labels)) (List.filter (in_group g label) (t_rows x)))) => [->//|[l ->]].
    move/List.in_map_iff => [row [<- _]]; rewrite feature_row_length where_length.
    by rewrite /num_fixed /=; case: ff {H nm nl}; case: fr.
  case: (nm (fun label => List.map (feature_row fr (where_ is_random labels)) (List.filter (in_group g label) (t_rows x)))) => [->//|[l ->]].
  move/List.in_map_iff => [row [<- _]]; rewrite feature_row_length where_length.
  by rewrite /num_random /=; case: ff {H nm nl}; case: fr.
Qed.

Lemma map2_seq (A B C : Type) (f : A -> B -> C) xs ys a b : length xs = length ys ->
  map2 f xs ys = List.map (fun i => f (List.nth i xs a) (List.nth i ys b)) (List.seq 0 (length ys)).
Proof.
  elim: xs ys => [|x xs IH] [|y ys] //= [e]; congr (_ :: _).
  by rewrite -List.seq_shift List.map_map IH.
Qed.

(*@ C77.  After a successful fit, predict on the training table succeeds and returns, group after group, X beta + Z u
    with the best prediction u of the random effects of the group - provided that the stored variances are 0 or above
    the threshold 1e-10 and the observation variances are positive.  In every group this is the target minus
    Lambda Omega^-1 (y - X beta), and its weighted sum of squared errors is at most that of the fixed effects alone. *)
Lemma fit_then_predict_lemma :
  forall argsort cdf m coef x y labels beta0 gamma0 warm ff fr fe re co lg, wf_table x ->
  lme_fit argsort cdf m coef x y (Some labels) beta0 gamma0 warm ff fr fe re = Ok (co, lg) ->
  exists pr gs, from_x_y x (Some y) None (Some labels) ff fr None None = Ok pr /\
    groups_of (num_fixed pr) (num_random pr) pr = Ok gs /\
    let beta := col_of (num_fixed pr) (co_beta co) in
    let gamma := col_of (num_random pr) (co_gamma co) in
    (blup_variances gamma -> positive_variances gs ->
     predict (Some (predictor co)) x (Some labels) ff fr = Ok (concat (List.map (fun g => vec_of (fitted beta gamma g)) gs)) /\
     forall g, List.In g gs ->
       fitted beta gamma g = g_y g - diag_mx (g_v g)^T *m invmx (Omega gamma g) *m resid beta g /\
       (weighted_ss (g_y g - fitted beta gamma g) <= weighted_ss (resid beta g))%coqR).
Proof.
  move=> argsort cdf m coef x y labels beta0 gamma0 warm ff fr fe re co lg wx /fit_inv [pr [hp hf]].
  have [lb [lgm [el [_ [gs [hgs heff]]]]]] := fitted_effects_are_blup_lemma hf.
  exists pr, gs; split=> //; split=> // beta gamma hv hp'.
  have {}heff := heff hv hp'.
  have hn := nonneg_of_blup hv.
  split; last first.
    move=> g hin; split.
      by apply: fitted_values; have ha : admissible gs gamma := admissible_nonneg hn hp'; exact: ha.
    by apply: effects_help => // g' [<-|[]]; exact: hp'.
  have [rl [rr rw]] := from_x_y_rows hp.
  have [h0 [[ys hy] _]] := from_x_y_shape _ _ _ _ _ _ _ _ _ hp.
  pose G j := let n := length (List.nth j (pr_fixed pr) [::]) in
    @Group (num_fixed pr) (num_random pr) n (mx_of n (num_fixed pr) (List.nth j (pr_fixed pr) [::]))
      (col_of n (List.nth j ys [::])) (mx_of n (num_random pr) (List.nth j (pr_random pr) [::]))
      (col_of n (List.nth j (pr_obs_vars pr) [::])).
  have egs : gs = List.map G (List.seq 0 (length (pr_fixed pr))).
    move: hgs; rewrite /groups_of h0 /=; apply: sequence_inv_map => j _.
    by rewrite /group_at hy.
  have lu : length (co_effects co) = length (pr_group_labels pr).
    by rewrite heff List.map_length egs List.map_length List.seq_length.
  have ss := predict_training _ _ _ _ _ _ (predictor co) wx hp el lu lb.
  rewrite ss /=; last first.
    rewrite /= heff; apply/List.Forall_forall => u /List.in_map_iff [g [<- _]].
    exact: length_vec_of.
  congr (Ok (concat _)).
  have lc : length (List.combine (pr_fixed pr) (pr_random pr)) = length (pr_fixed pr).
    by rewrite List.combine_length rl rr Nat.min_id.
  rewrite /= (map2_seq _ (@nil R) (@nil (list R), @nil (list R))); last by rewrite lu lc.
  rewrite lc egs List.map_map; apply: List.map_ext_in => j /List.in_seq [_ hj].
  rewrite List.combine_nth ?rl ?rr //.
  have -> : List.nth j (co_effects co) [::] = vec_of (blup beta gamma (G j)).
    rewrite heff egs List.map_map.
    rewrite (List.nth_indep _ _ (vec_of (blup beta gamma (G 0%N)))); last by rewrite List.map_length List.seq_length.
    rewrite (List.map_nth (fun j => vec_of (blup beta gamma (G j))) _ 0%N) List.seq_nth //.
  have [lj [lf lr]] := rw j.
  rewrite /fitted vec_of_map2; congr vadd.
    by rewrite vec_of_mv.
  rewrite -{2}(col_ofK (blup beta gamma (G j))) /= vec_of_mv //.
  exact: length_vec_of.
Qed.

Lemma flat_table_problem : from_x_y flat_table (Some [:: 0%coqR]) None (Some flat_labels) false false None None = Ok (flat_problem 1 1).
Proof.
  have i0 : is_int 0%coqR = true by apply/is_int_true; exists Z0.
  have n1 : nonzero 1%coqR = true by apply/nonzero_true; lra.
  have r0 : reqb 0%coqR 0%coqR = true by exact: reqb_refl.
  rewrite /from_x_y /flat_table /flat_labels /=.
  rewrite /column /= n1 /=. rewrite /unique_labels /= i0 /=.
  have g0 : in_group 0 0 [:: 0; 0; 0; 1]%coqR = true by exact: r0.
  by rewrite /where_ /= !g0.
Qed.

(*@ a fit and a prediction covered by the theorem: one observation of 0 with features 0 *)
Lemma ex_fit_then_predict_lemma : wf_table flat_table /\
  exists co lg gs, lme_fit (fun _ => [::]) (fun x => x) (flat_model PenNone None 0 0%coqR) None flat_table [:: 0%coqR]
    (Some flat_labels) None None false false false None None = Ok (co, lg) /\
  groups_of 1 1 (flat_problem 1 1) = Ok gs /\ positive_variances gs /\ blup_variances (col_of 1 (co_gamma co)).
Proof.
  split; first by constructor.
  have [co [lg [gs [h e]]]] := ex_fitted_effects_lemma.
  exists co, lg, gs; split=> //.
  by rewrite /lme_fit /fit /= flat_table_problem.
Qed.
