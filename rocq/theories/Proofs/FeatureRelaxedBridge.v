(** The evaluations of the relaxed oracle on a problem with reordered features, and fits. *)
From Coq Require Import Permutation Lia Lra.
From Verif.Base Require Import Py Vec Mat RMx.
From Verif.Model Require Import LmeProblem Regularizers LmeInner LmeFit.
From Verif.Spec Require Import LmeSpec ColumnSpec InnerSpec FeatureTableSpec FeatureLogSpec.
From Verif.Proofs Require Import VecFacts ColumnCases FeatureTable FeatureFit FeatureCoefs FeatureInner FeatureRelaxed.
From mathcomp Require Import ssreflect ssrfun ssrbool eqtype ssrnat choice seq fintype
  finfun bigop finset fingroup perm ssralg zmodp matrix mxalgebra.
From Verif.Model Require Import LmeOracle LmeBridge.
From Verif.Spec Require Import MxSpec FeatureSpec.
From Verif.Proofs Require Import MxFacts FeatureProofs BridgeProofs LmeUseMain FeatureBridge.
From Verif.Proofs Require FlipRelaxedBridge.
Set Implicit Arguments.
Unset Strict Implicit.
Unset Printing Implicit Defensive.
Delimit Scope R_scope with coqR.
Local Open Scope res_scope.
Import GRing.Theory.

Section One.
Variables (n : nat) (o : list nat) (s : 'S_n).
Hypothesis ho : is_order n o.
Hypothesis hs : forall i : 'I_n, nat_of_ord (s i) = List.nth i o 0%N.
Lemma nth_enum (A : Type) (F : 'I_n -> A) (i : 'I_n) d : List.nth i (List.map F (enum 'I_n)) d = F i.
Proof.
  have e (l : seq 'I_n) k : List.nth k (List.map F l) d = nth d (map F l) k by elim: l k => [|a l IH] [|k] //=.
  by rewrite e (nth_map i) ?size_enum_ord // nth_ord_enum.
Qed.
Lemma rows_enum (A : Type) (F : 'I_n -> A) d :
  List.map (fun i => F (s i)) (enum 'I_n) = re_rows o d (List.map F (enum 'I_n)).
Proof.
  rewrite /re_rows -[in RHS](map_nth_self o 0%N) (order_len _ _ ho) List.map_map.
  rewrite -(map_enum_nth n (fun j => List.nth (List.nth j o 0%N) (List.map F (enum 'I_n)) d)).
  by apply: List.map_ext => i; rewrite -hs nth_enum.
Qed.
Lemma mx_re a : mx_of n n (re_mx o o a) = ((pm s)^T *m mx_of n n a *m pm s)%R.
Proof.
  rewrite -col_pm -row_pm; apply/matrixP=> i j; rewrite !mxE.
  have hi : (i < length o)%coq_nat by rewrite (order_len _ _ ho); apply/ltP.
  rewrite /re_mx /re_rows List.map_map (@nth_map_in _ _ _ 0%N [::] o i hi) (FeatureBridge.nth_permute ho hs) -hs //.
Qed.
Lemma list_solve_re a b : is_shape n n a -> length b = n ->
  list_solve (re_mx o o a) (permute o b) = rmap (permute o) (list_solve a b).
Proof.
  move=> sa lb; have [la wa] := sa; rewrite /list_solve.
  have ok (x : mat) : wf_mat n x -> List.forallb (fun row => Nat.eqb (length row) n) x = true.
    by move=> /List.Forall_forall w; apply/List.forallb_forall => r hr; rewrite (w _ hr) PeanoNat.Nat.eqb_refl.
  rewrite (@re_mx_len n o o a ho) la lb (permute_len _ _ ho) PeanoNat.Nat.eqb_refl !ok //; last exact: (@re_mx_wf n o o a ho).
  cbn [guard rbind]; rewrite mx_re (col_permute ho hs) row_pm solve_orth ?pmTp ?ppmT //.
  case: (np_solve _ _) => [x|//]; cbn [rmap rbind]; congr Ok; rewrite -row_pm; exact: (vec_permute ho hs).
Qed.
End One.

Section Relaxed.
Variables (p q : nat) (o1 o2 : list nat) (s : 'S_p) (t : 'S_q).
Hypothesis h1 : is_order p o1.
Hypothesis h2 : is_order q o2.
Hypothesis hs : forall i : 'I_p, nat_of_ord (s i) = List.nth i o1 0%N.
Hypothesis ht : forall i : 'I_q, nat_of_ord (t i) = List.nth i o2 0%N.
Notation S := (pm s).
Notation T := (pm t).
Notation rfs := (List.map (reorder_features s t)).
Notation rp := (reorder_prior s t LNone).
Implicit Types (gg : seq (group p q)) (x : 'cV[R]_p) (y : 'cV[R]_q).

Lemma ridge_re n (u : 'S_n) (c : R) (h : 'M[R]_n) : ((pm u)^T *m h *m pm u + c *: 1%:M = (pm u)^T *m (h + c *: 1%:M) *m pm u)%R.
Proof. by rewrite mulmxDr mulmxDl -scalemxAr -scalemxAl mulmx1 pmTp. Qed.
Lemma pull_re n (u : 'S_n) (c : R) (d a b : 'cV[R]_n) :
  (row_perm u d + c *: (row_perm u a - row_perm u b) = row_perm u (d + c *: (a - b)))%R.
Proof. by apply/matrixP=> i j; rewrite !mxE. Qed.
Lemma sumsq_re n (u : 'S_n) (a b : 'cV[R]_n) : sumsq (row_perm u a - row_perm u b)%R = sumsq (a - b)%R.
Proof.
  rewrite /sumsq [RHS](reindex_inj (@perm_inj _ u)); apply: eq_bigr => i _; by rewrite !mxE.
Qed.
Lemma relaxed_hessian lb gg y : sr3_hessian_beta lb (rfs gg) rp (row_perm t y) = rmap (fun h => S^T *m h *m S)%R (sr3_hessian_beta lb gg LNone y).
Proof.
  rewrite /sr3_hessian_beta lme_hessian_beta_re; case: (lme_hessian_beta _ _ _) => [h|//]; cbn [rmap rbind]; congr Ok; exact: ridge_re.
Qed.
Lemma relaxed_gradient_beta lb gg x y tb :
  sr3_gradient_beta lb (rfs gg) rp (row_perm s x) (row_perm t y) (row_perm s tb) = rmap (row_perm s) (sr3_gradient_beta lb gg LNone x y tb).
Proof.
  rewrite /sr3_gradient_beta lme_gradient_beta_re; case: (lme_gradient_beta _ _ _ _) => [d|//]; cbn [rmap rbind]; congr Ok; exact: pull_re.
Qed.
Lemma relaxed_gradient_gamma lg gg x y tg :
  sr3_gradient_gamma lg (rfs gg) rp (row_perm s x) (row_perm t y) (row_perm t tg) = rmap (row_perm t) (sr3_gradient_gamma lg gg LNone x y tg).
Proof.
  rewrite /sr3_gradient_gamma lme_gradient_gamma_re; case: (lme_gradient_gamma _ _ _ _) => [d|//]; cbn [rmap rbind]; congr Ok; exact: pull_re.
Qed.
Lemma relaxed_hessian_gamma lg gg a b x y :
  sr3_hessian_gamma lg (rfs gg) rp a b (row_perm s x) (row_perm t y) = rmap (fun h => T^T *m h *m T)%R (sr3_hessian_gamma lg gg LNone a b x y).
Proof.
  rewrite /sr3_hessian_gamma lme_hessian_gamma_re; case: (lme_hessian_gamma _ _ _ _ _ _) => [h|//]; cbn [rmap rbind]; congr Ok; exact: ridge_re.
Qed.
Lemma relaxed_loss lb lg gg x y tb tg :
  sr3_loss lb lg (rfs gg) rp (row_perm s x) (row_perm t y) (row_perm s tb) (row_perm t tg) = sr3_loss lb lg gg LNone x y tb tg.
Proof. by rewrite /sr3_loss lme_loss_re !sumsq_re. Qed.
Lemma mat_re (n m : nat) (u1 u2 : list nat) (s' : 'S_n) (t' : 'S_m) (h : 'M[R]_(n, m)) : is_order n u1 -> is_order m u2 ->
  (forall i : 'I_n, nat_of_ord (s' i) = List.nth i u1 0%N) -> (forall i : 'I_m, nat_of_ord (t' i) = List.nth i u2 0%N) ->
  mat_of ((pm s')^T *m h *m pm t')%R = re_mx u1 u2 (mat_of h).
Proof.
  move=> k1 k2 e1 e2; rewrite -col_pm -row_pm /re_mx /mat_of -(@rows_enum n u1 s' k1 e1) [RHS]List.map_map; apply: List.map_ext => i.
  rewrite -[permute u2 _]/(re_rows u2 0%coqR _) -(@rows_enum m u2 t' k2 e2); apply: List.map_ext => j; by rewrite !mxE.
Qed.

Variable cdf : R -> R.
Lemma relaxed_probabilities lb gg x y :
  sr3_flip_probabilities cdf lb (rfs gg) rp (row_perm s x) (row_perm t y) = rmap (permute o1) (sr3_flip_probabilities cdf lb gg LNone x y).
Proof.
  rewrite /sr3_flip_probabilities relaxed_hessian; case: (sr3_hessian_beta lb gg LNone y) => [h|//]; cbn [rmap rbind].
  rewrite inv_orth ?pmTp //; case: (np_inv h) => [cov|//]; cbn [rmap rbind]; exact: (flips_re h1 hs).
Qed.

(** ** as the fit sees them *)
Variables (gs : res (seq (group p q))) (ss : sr3_settings).
Notation gs' := (rmap (List.map (reorder_features s t)) gs).
Notation c := (list_calls gs (Ok LNone) cdf (Some ss)).
Notation c' := (list_calls gs' (Ok LNone) cdf (Some ss)).
Lemma relaxed_calls_re : calls_sim p q o1 o2 c c'.
Proof.
  have [a1 a2 a3 a4 a5 a6 a7 a8 a9 a10 a11 a12 _ _] := calls_re h1 h2 hs ht gs cdf.
  split=> //; cbn [lc_flip list_calls].
  - move=> b g lb lg; apply: (with_re h1 h2 hs ht) => // gg x y; exact: relaxed_probabilities.
  - move=> b g v; rewrite /= /with_prior /at_params; case: gs => [gg|//]; cbn [rbind]; case: (sized p b) => [x|//]; cbn [rbind].
    case: (sized q g) => [y|//]; cbn [rbind]; rewrite /sr3_flip_probabilities.
    case: (sr3_hessian_beta _ _ _ _) => [h|//]; cbn [rbind]; case: (np_inv h) => [cov|//]; cbn [rbind].
    move/LinearProofs.sequence_length => ->; rewrite List.map_length; exact: size_enum_ord.
Qed.
Lemma relaxed_sr3_re : sr3_sim p q o1 o2 (lc_sr3 c) (lc_sr3 c').
Proof.
  have l1 z : length (permute o1 z) = p by exact: (permute_len _ _ h1).
  have l2 z : length (permute o2 z) = q by exact: (permute_len _ _ h2).
  split; cbn [lc_sr3 list_calls list_sr3_calls sc_gradient_beta sc_gradient_gamma sc_hessian_beta sc_hessian_beta_gamma sc_hessian_gamma sc_optimal_beta sc_loss].
  - move=> l b g tb tg lb lg ltb ltg; rewrite -(vec_re1 h1 hs); congr to_vec; rewrite !sized_ok //.
    cbn [rbind]; rewrite (col_permute h1 hs); apply: (with_re h1 h2 hs ht) => // gg x y; exact: relaxed_gradient_beta.
  - move=> l b g tb tg v; exact: to_vec_len.
  - move=> l b g tb tg lb lg ltb ltg; rewrite -(vec_re2 h2 ht); congr to_vec; rewrite !sized_ok //.
    cbn [rbind]; rewrite (col_permute h2 ht); apply: (with_re h1 h2 hs ht) => // gg x y; exact: relaxed_gradient_gamma.
  - move=> l b g tb tg v; exact: to_vec_len.
  - move=> l b g lb lg.
    rewrite (@with_re p q o1 o2 s t h1 h2 hs ht gs _ _ (fun h => S^T *m h *m S)%R b g (fun gs pr b g => sr3_hessian_beta (lam_b l) gs pr g)) // => [|gg x y]; last exact: relaxed_hessian.
    by case: (with_prior _ _ _ _ _) => [h|//]; cbn [rmap to_mat]; congr Ok; exact: mat_re.
  - move=> l b g h; exact: FlipRelaxedBridge.to_mat_shape.
  - move=> b g lb lg.
    rewrite (@at_re p q o1 o2 s t h1 h2 hs ht gs _ _ (fun h => S^T *m h *m T)%R b g (@lme_hessian_beta_gamma p q)) // => [|gg x y]; last exact: lme_hessian_mixed_re.
    by case: (at_params _ _ _ _) => [h|//]; cbn [rmap to_mat]; congr Ok; exact: mat_re.
  - move=> b g h; exact: FlipRelaxedBridge.to_mat_shape.
  - move=> l b g lb lg.
    rewrite (@with_re p q o1 o2 s t h1 h2 hs ht gs _ _ (fun h => T^T *m h *m T)%R b g (fun gs pr b g => sr3_hessian_gamma (lam_g l) gs pr (ss_positive ss) (ss_expected ss) b g)) // => [|gg x y]; last exact: relaxed_hessian_gamma.
    by case: (with_prior _ _ _ _ _) => [h|//]; cbn [rmap to_mat]; congr Ok; exact: mat_re.
  - move=> l b g h; exact: FlipRelaxedBridge.to_mat_shape.
  - move=> l g tb lg ltb; rewrite -(vec_re1 h1 hs); congr to_vec; case: gs => [gg|//]; cbn [rmap rbind].
    rewrite !sized_ok //.
    by cbn [rbind]; rewrite (col_permute h1 hs) (col_permute h2 ht) sr3_optimal_beta_re.
  - move=> l g tb v; exact: to_vec_len.
  - move=> l b g tb tg lb lg ltb ltg; rewrite !sized_ok //.
    cbn [rbind]; rewrite (col_permute h1 hs) (col_permute h2 ht).
    rewrite (@with_re p q o1 o2 s t h1 h2 hs ht gs _ _ (fun a => a) b g (fun gs pr b g => sr3_loss (lam_b l) (lam_g l) gs pr b g (col_of p tb) (col_of q tg))) ?rmap_id // => gg x y.
    by rewrite rmap_id relaxed_loss.
Qed.
End Relaxed.

(** ** fits *)
Lemma relaxed_fit_features argsort cdf m ss coef x y ls order beta0 gamma0 warm ff fr fe re :
  mo_sr3 m = Some ss -> mo_prior m = None -> without_l0 m -> (ss_practical ss = true -> logs_no_variances m) ->
  wf_table x -> t_cols x = length ls -> is_order (length ls) order ->
  let p := (countb is_fixed ls + b2n ff)%coq_nat in
  let q := (countb is_random ls + b2n fr)%coq_nat in
  let o1 := role_order is_fixed ff ls order in
  let o2 := role_order is_random fr ls order in
  (forall v, beta0 = Some v -> length v = p) -> (forall v, gamma0 = Some v -> length v = q) ->
  (forall v, fe = Some v -> length v = p) -> (forall v, re = Some v -> length v = q) ->
  lme_fit argsort cdf m coef (reorder_table order x) y (Some (reorder_labels order ls))
    (option_map (permute o1) beta0) (option_map (permute o2) gamma0) warm ff fr (option_map (permute o1) fe) (option_map (permute o2) re)
  = rmap (reorder_fit p o1 o2 order) (lme_fit argsort cdf m coef x y (Some ls) beta0 gamma0 warm ff fr fe re).
Proof.
  move=> hm1 hm2 hm3 hm4 wx hx ho p q o1 o2 hb hg hf hr; rewrite /lme_fit /fit.
  have -> : check_X_y (reorder_table order x) y = check_X_y x y.
    by rewrite /check_X_y /reorder_table /permute_columns /= List.map_length.
  case: (check_X_y x y) => [u|//]; cbn [rbind].
  have := @from_x_y_reorder order ls ff fr ho x (Some y) wx hx.
  case: (from_x_y x _ _ _ _ _ _ _) => [pr|e]; case: (from_x_y _ _ _ _ _ _ _ _) => [pr'|e'] //; last by move=> ->.
  move=> T; cbn [rbind].
  have hof : is_order p o1 by exact: role_is_order.
  have hog : is_order q o2 by exact: role_is_order.
  have [ep ep'] := ts_p _ _ _ _ ho _ _ T; have [eq eq'] := ts_q _ _ _ _ ho _ _ T.
  have [ov [e1 [e2 e3]]] := view_total pr; have [ov' [e1' [e2' e3']]] := view_total pr'.
  have [wf [wr [ew ew']]] := weights_sim _ _ _ _ ho _ _ T fe re hf hr.
  have [s hs] := order_perm hof; have [t ht] := order_perm hog.
  have hgs : groups_of p q pr' = rmap (List.map (reorder_features s t)) (groups_of p q pr).
    apply: (@groups_permute p q o1 o2 s t hof hog hs ht pr pr' (ts_fixed _ _ _ _ _ _ T) (ts_random _ _ _ _ _ _ T) (ts_answers _ _ _ _ _ _ T) (ts_vars _ _ _ _ _ _ T)).
    by rewrite (ts_0d _ _ _ _ _ _ T) (ts_0d' _ _ _ _ _ _ T).
  apply: (@relaxed_problem_sim p q o1 o2 order hof hog argsort list_solve (problem_calls cdf) pr pr' fe re ov ov' wf wr ss) => //.
  - move=> n o a b hoo ha hbb; have [w hw] := order_perm hoo; exact: (@list_solve_re n o w hoo hw a b ha hbb).
  - exact: FlipRelaxedBridge.list_solve_len.
  - by rewrite /num_groups /groups_sizes (ts_fixed _ _ _ _ _ _ T) !List.map_length.
  - exact: (ts_groups _ _ _ _ _ _ T).
  - by rewrite e2 e3.
  - by rewrite e2' e3'.
  - by rewrite /problem_calls ep ep' eq eq' -/p -/q hgs; exact: relaxed_calls_re.
  - by rewrite /problem_calls ep ep' eq eq' -/p -/q hgs; exact: relaxed_sr3_re.
  - move=> b us lb lu; rewrite (ts_labels _ _ _ _ _ _ T) (ts_labels' _ _ _ _ _ _ T) (ts_intercept _ _ _ _ _ _ T) (ts_intercept' _ _ _ _ _ _ T); exact: per_group_reorder.
Qed.
