(** The evaluations on a problem with reordered features, and fits. *)
From Coq Require Import Permutation Lia Lra.
From Verif.Base Require Import Py Vec Mat RMx.
From Verif.Model Require Import LmeProblem Regularizers LmeInner LmeFit.
From Verif.Spec Require Import LmeSpec ColumnSpec InnerSpec FeatureTableSpec.
From Verif.Proofs Require Import VecFacts ColumnCases FeatureTable FeatureFit FeatureCoefs.
From mathcomp Require Import ssreflect ssrfun ssrbool eqtype ssrnat choice seq fintype
  finfun bigop finset fingroup perm ssralg zmodp matrix mxalgebra.
From Verif.Model Require Import LmeOracle LmeBridge.
From Verif.Spec Require Import MxSpec FeatureSpec.
From Verif.Proofs Require Import MxFacts FeatureProofs BridgeProofs LmeUseMain.
Set Implicit Arguments.
Unset Strict Implicit.
Unset Printing Implicit Defensive.
Delimit Scope R_scope with coqR.
Local Open Scope res_scope.

(** ** a list of positions as a permutation *)
Lemma order_perm n o : is_order n o -> exists s : 'S_n, forall i : 'I_n, nat_of_ord (s i) = List.nth i o 0%N.
Proof.
  move=> ho; have hl : length o = n := order_len _ _ ho.
  have lt (i : 'I_n) : (List.nth i o 0%N < n)%N.
    by apply/ltP; apply: (order_in _ _ ho); apply: List.nth_In; rewrite hl; apply/ltP.
  have nd : List.NoDup o by apply: (Permutation_NoDup (Permutation_sym ho)); exact: List.seq_NoDup.
  have inj : injective (fun i : 'I_n => Ordinal (lt i)).
    move=> i j [] h; apply: val_inj; move: h; apply: (proj1 (List.NoDup_nth o 0%N) nd); rewrite hl; exact/ltP.
  by exists (perm inj) => i; rewrite permE.
Qed.

Section One.
Variables (n : nat) (o : list nat) (s : 'S_n).
Hypothesis ho : is_order n o.
Hypothesis hs : forall i : 'I_n, nat_of_ord (s i) = List.nth i o 0%N.
Lemma nth_permute x (i : 'I_n) : List.nth i (permute o x) 0%coqR = List.nth (s i) x 0%coqR.
Proof.
  rewrite hs /permute; apply: (@LmeProblemProofs.nth_map_lt _ _ (fun j => List.nth j x 0%coqR)).
  by rewrite (order_len _ _ ho); apply/ltP.
Qed.
Lemma col_permute x : col_of n (permute o x) = row_perm s (col_of n x).
Proof. by apply/matrixP=> i j; rewrite !mxE nth_permute. Qed.
Lemma vec_permute (c : 'cV[R]_n) : vec_of (row_perm s c) = permute o (vec_of c).
Proof.
  rewrite /permute -[in RHS](map_nth_self o 0%N) (order_len _ _ ho) List.map_map.
  rewrite -(map_enum_nth n (fun j => List.nth (List.nth j o 0%N) (vec_of c) 0%coqR)).
  by apply: List.map_ext => i; rewrite -hs nth_vec_of mxE.
Qed.
Lemma mx_permute m a : mx_of m n (permute_columns o a) = col_perm s (mx_of m n a).
Proof.
  apply/matrixP=> i j; rewrite !mxE.
  case: (Compare_dec.le_lt_dec (length a) i) => h.
    rewrite !(@List.nth_overflow vec) ?List.map_length //; first by case: (nat_of_ord j); case: (nat_of_ord (s j)).
  rewrite (@LmeProblemProofs.nth_map_lt _ _ (permute o) a i [::] [::]) //; exact: nth_permute.
Qed.
End One.

Section Bridge.
Variables (p q : nat) (o1 o2 : list nat) (s : 'S_p) (t : 'S_q).
Hypothesis h1 : is_order p o1.
Hypothesis h2 : is_order q o2.
Hypothesis hs : forall i : 'I_p, nat_of_ord (s i) = List.nth i o1 0%N.
Hypothesis ht : forall i : 'I_q, nat_of_ord (t i) = List.nth i o2 0%N.

Lemma groups_permute pr pr' : pr_fixed pr' = List.map (permute_columns o1) (pr_fixed pr) ->
  pr_random pr' = List.map (permute_columns o2) (pr_random pr) -> pr_answers pr' = pr_answers pr ->
  pr_obs_vars pr' = pr_obs_vars pr -> pr_random_0d pr' = pr_random_0d pr ->
  groups_of p q pr' = rmap (List.map (reorder_features s t)) (groups_of p q pr).
Proof.
  move=> e1 e2 e3 e4 e5.
  have eg j : LmeBridge.group_of p q (group_at pr' j) = rmap (reorder_features s t) (LmeBridge.group_of p q (group_at pr j)).
    rewrite /group_at e1 e2 e3 e4.
    have en o (l : list mat) : List.nth j (List.map (permute_columns o) l) [::] = permute_columns o (List.nth j l [::]).
      exact: (List.map_nth (permute_columns o) l [::] j).
    rewrite !en /LmeBridge.group_of; case: (option_map _ _) => [y|//]; cbn [rmap]; congr Ok.
    rewrite (_ : length (permute_columns o1 (List.nth j (pr_fixed pr) [::])) = length (List.nth j (pr_fixed pr) [::])); last exact: List.map_length.
    by rewrite /reorder_features /= (mx_permute h1 hs) (mx_permute h2 ht).
  rewrite /groups_of e5; case: (guard _ _) => [u|//]; cbn [rbind]; rewrite e1 List.map_length.
  rewrite (List.map_ext _ _ eg).
  elim: (List.seq 0 (length (pr_fixed pr))) => [//|j l IH]; cbn [List.map sequence]; rewrite IH.
  by case: (LmeBridge.group_of p q (group_at pr j)) => [g|//]; cbn [rmap rbind]; case: (sequence _).
Qed.

Variables (gs : res (seq (group p q))) (cdf : R -> R).
Notation gs' := (rmap (List.map (reorder_features s t)) gs).
Notation c := (list_calls gs (Ok LNone) cdf None).
Notation c' := (list_calls gs' (Ok LNone) cdf None).

Lemma at_re (A B : Type) (h : A -> B) b g (k : seq (group p q) -> 'cV[R]_p -> 'cV[R]_q -> res A) (k' : _ -> _ -> _ -> res B) :
  length b = p -> length g = q ->
  (forall gg x y, k' (List.map (reorder_features s t) gg) (row_perm s x) (row_perm t y) = rmap h (k gg x y)) ->
  at_params gs' (permute o1 b) (permute o2 g) k' = rmap h (at_params gs b g k).
Proof.
  move=> lb lg hk; rewrite /at_params; case: gs => [gg|//]; cbn [rmap rbind].
  rewrite !sized_ok ?(permute_len _ _ h1) ?(permute_len _ _ h2) //; cbn [rbind].
  by rewrite (col_permute h1 hs) (col_permute h2 ht) hk.
Qed.
Lemma with_re (A B : Type) (h : A -> B) b g (k : seq (group p q) -> lme_prior p q -> 'cV[R]_p -> 'cV[R]_q -> res A)
    (k' : _ -> _ -> _ -> _ -> res B) : length b = p -> length g = q ->
  (forall gg x y, k' (List.map (reorder_features s t) gg) (reorder_prior s t LNone) (row_perm s x) (row_perm t y) = rmap h (k gg LNone x y)) ->
  with_prior gs' (Ok LNone) (permute o1 b) (permute o2 g) k' = rmap h (with_prior gs (Ok LNone) b g k).
Proof. by move=> lb lg hk; rewrite /with_prior; apply: at_re => // gg x y; cbn [rbind]; exact: hk. Qed.
Lemma rmap_id (A : Type) (r : res A) : rmap (fun a => a) r = r.
Proof. by case: r. Qed.
Lemma vec_re1 (r : res 'cV[R]_p) : to_vec (rmap (row_perm s) r) = rmap (permute o1) (to_vec r).
Proof. by case: r => //= x; rewrite (vec_permute h1 hs). Qed.
Lemma vec_re2 (r : res 'cV[R]_q) : to_vec (rmap (row_perm t) r) = rmap (permute o2) (to_vec r).
Proof. by case: r => //= x; rewrite (vec_permute h2 ht). Qed.

(** the loop of flip_probabilities_beta *)
Definition flip_one (m sd : R) : res R :=
  if rltb 0 m then let! _ := guard (nonzero sd) NotFinite in Ok (cdf ((0 - m) / sd))%coqR
  else if rltb m 0 then let! _ := guard (nonzero sd) NotFinite in Ok (1 - cdf ((0 - m) / sd))%coqR
  else Ok (/ 2)%coqR.
Lemma flip_one_err m sd e : flip_one m sd = Err e -> e = NotFinite.
Proof.
  rewrite /flip_one; case: (rltb 0 m); first by case: (nonzero sd) => //= [[]].
  by case: (rltb m 0) => //; case: (nonzero sd) => //= [[]].
Qed.
Lemma flips_re (x : 'cV[R]_p) (cov : 'M[R]_p) :
  sequence (List.map (fun j => flip_one (row_perm s x j ord0) (sqrt (((pm s)^T *m cov *m pm s)%R j j))) (enum 'I_p))
  = rmap (permute o1) (sequence (List.map (fun j => flip_one (x j ord0) (sqrt (cov j j))) (enum 'I_p))).
Proof.
  pose d : vec := vec_of (\col_i cov i i); pose f i := flip_one (List.nth i (vec_of x) 0%coqR) (sqrt (List.nth i d 0%coqR)).
  have ef (j : 'I_p) : flip_one (x j ord0) (sqrt (cov j j)) = f j by rewrite /f /d !nth_vec_of mxE.
  have -> : List.map (fun j => flip_one (x j ord0) (sqrt (cov j j))) (enum 'I_p) = List.map f (List.seq 0 p).
    by rewrite -map_enum_nth; apply: List.map_ext => j; rewrite ef.
  rewrite -(@sequence_permute p o1 h1 f NotFinite); last by move=> i e; exact: flip_one_err.
  congr sequence; rewrite -[in RHS](map_nth_self o1 0%N) (order_len _ _ h1) List.map_map.
  rewrite -(map_enum_nth p (fun j => f (List.nth j o1 0%N))); apply: List.map_ext => j.
  by rewrite -hs -ef -col_pm -row_pm !mxE.
Qed.
Lemma flip_re gg x y : lme_flip_probabilities cdf (List.map (reorder_features s t) gg) (reorder_prior s t LNone) (row_perm s x) (row_perm t y)
  = rmap (permute o1) (lme_flip_probabilities cdf gg LNone x y).
Proof.
  rewrite /lme_flip_probabilities lme_hessian_beta_re; case: (lme_hessian_beta gg LNone y) => [h|//]; cbn [rmap rbind].
  rewrite inv_orth ?pmTp //; case: (np_inv h) => [cov|//]; cbn [rmap rbind]; exact: flips_re.
Qed.
Lemma flip_length (gg : seq (group p q)) pr x y v : lme_flip_probabilities cdf gg pr x y = Ok v -> length v = p.
Proof.
  rewrite /lme_flip_probabilities; case: (lme_hessian_beta _ _ _) => [h|//]; cbn [rbind]; case: (np_inv h) => [cov|//]; cbn [rbind].
  move/LinearProofs.sequence_length => ->; rewrite List.map_length; exact: size_enum_ord.
Qed.

Lemma calls_re : calls_sim p q o1 o2 c c'.
Proof.
  split; cbn [lc_loss lc_gradient_beta lc_gradient_gamma lc_optimal_beta lc_random_effects lc_vaida lc_jones lc_muller lc_flip list_calls].
  - move=> b g lb lg; rewrite /list_loss (@with_re _ _ (fun a => a) b g (@lme_loss p q)) ?rmap_id // => gg x y.
    by rewrite rmap_id lme_loss_re.
  - move=> b g lb lg; rewrite /list_gradient_beta -vec_re1; congr to_vec; apply: with_re => // gg x y; exact: lme_gradient_beta_re.
  - move=> b g v; exact: to_vec_len.
  - move=> b g lb lg; rewrite /list_gradient_gamma -vec_re2; congr to_vec; apply: with_re => // gg x y; exact: lme_gradient_gamma_re.
  - move=> b g v; exact: to_vec_len.
  - move=> g lg; rewrite /list_optimal_beta -vec_re1; congr to_vec; case: gs => [gg|//]; cbn [rmap rbind].
    by rewrite !sized_ok ?(permute_len _ _ h2) //; cbn [rbind]; rewrite (col_permute h2 ht) lme_optimal_beta_re.
  - move=> g v; exact: to_vec_len.
  - move=> b g lb lg; rewrite /list_random_effects (@at_re _ _ (List.map (row_perm t)) b g (@lme_random_effects p q)) //.
      case: (at_params _ _ _ _) => [us|//]; cbn [rmap]; congr Ok; rewrite !List.map_map; apply: List.map_ext => u.
      exact: (vec_permute h2 ht).
    move=> gg x y; exact: lme_random_effects_re.
  - move=> b g us; rewrite /list_random_effects; case: (at_params _ _ _ _) => [vs|//] [<-].
    by apply/List.Forall_forall => u /List.in_map_iff [w [<- _]]; exact: length_vec_of.
  - move=> mg tol b g lb lg; rewrite (@with_re _ _ (fun a => a) b g (fun gs pr b g => lme_vaida_aic gs pr tol mg b g)) ?rmap_id // => gg x y.
    by rewrite rmap_id lme_vaida_re.
  - move=> tol b g lb lg; rewrite (@with_re _ _ (fun a => a) b g (fun gs pr b g => lme_jones_bic gs pr tol b g)) ?rmap_id // => gg x y.
    by rewrite rmap_id lme_jones_re.
  - move=> tol b g lb lg; rewrite (@with_re _ _ (fun a => a) b g (fun gs pr b g => lme_muller_ic gs pr tol b g)) ?rmap_id // => gg x y.
    by rewrite rmap_id lme_muller_re.
  - move=> b g lb lg; apply: with_re => // gg x y; exact: flip_re.
  - move=> b g v; rewrite /with_prior /at_params; case: gs => [gg|//]; cbn [rbind]; case: (sized p b) => [x|//]; cbn [rbind].
    case: (sized q g) => [y|//]; cbn [rbind]; exact: flip_length.
Qed.
End Bridge.

(** ** fits *)
Lemma fit_features argsort cdf m coef x y ls order beta0 gamma0 warm ff fr fe re :
  plain_coefficientwise m -> wf_table x -> t_cols x = length ls -> is_order (length ls) order ->
  let p := (countb is_fixed ls + b2n ff)%coq_nat in
  let q := (countb is_random ls + b2n fr)%coq_nat in
  let o1 := role_order is_fixed ff ls order in
  let o2 := role_order is_random fr ls order in
  (forall v, beta0 = Some v -> length v = p) -> (forall v, gamma0 = Some v -> length v = q) ->
  (forall v, fe = Some v -> length v = p) -> (forall v, re = Some v -> length v = q) ->
  lme_fit argsort cdf m coef (reorder_table order x) y (Some (reorder_labels order ls))
    (option_map (permute o1) beta0) (option_map (permute o2) gamma0) warm ff fr (option_map (permute o1) fe) (option_map (permute o2) re)
  = rmap (reorder_fit p o1 o2 order) (lme_fit argsort cdf m coef x y (Some ls) beta0 gamma0 warm ff fr fe re).
Proof.
  move=> hm wx hx ho p q o1 o2 hb hg hf hr; rewrite /lme_fit /fit.
  have -> : check_X_y (reorder_table order x) y = check_X_y x y.
    by rewrite /check_X_y /reorder_table /permute_columns /= List.map_length.
  case: (check_X_y x y) => [u|//]; cbn [rbind].
  have := @from_x_y_reorder order ls ff fr ho x (Some y) wx hx.
  case: (from_x_y x _ _ _ _ _ _ _) => [pr|e]; case: (from_x_y _ _ _ _ _ _ _ _) => [pr'|e'] //; last by move=> ->.
  move=> T; cbn [rbind].
  have hof : is_order p o1 by exact: role_is_order.
  have hog : is_order q o2 by exact: role_is_order.
  have [ep ep'] := ts_p _ _ _ _ ho _ _ T; have [eq eq'] := ts_q _ _ _ _ ho _ _ T.
  have [ov [e1 [e2 e3]]] := view_total pr; have [ov' [e1' [e2' e3']]] := view_total pr'.
  have [wf [wr [ew ew']]] := weights_sim _ _ _ _ ho _ _ T fe re hf hr.
  apply: (@fit_problem_sim p q o1 o2 order hof hog argsort list_solve (problem_calls cdf) pr pr' fe re ov ov' wf wr) => //.
  - by rewrite /num_groups /groups_sizes (ts_fixed _ _ _ _ _ _ T) !List.map_length.
  - exact: (ts_groups _ _ _ _ _ _ T).
  - by rewrite e2 e3.
  - by rewrite e2' e3'.
  - have [s hs] := order_perm hof; have [t ht] := order_perm hog.
    rewrite /problem_calls ep ep' eq eq' -/p -/q.
    rewrite (@groups_permute p q o1 o2 s t hof hog hs ht pr pr' (ts_fixed _ _ _ _ _ _ T) (ts_random _ _ _ _ _ _ T) (ts_answers _ _ _ _ _ _ T) (ts_vars _ _ _ _ _ _ T)).
      exact: calls_re.
    by rewrite (ts_0d _ _ _ _ _ _ T) (ts_0d' _ _ _ _ _ _ T).
  - move=> b us lb lu; rewrite (ts_labels _ _ _ _ _ _ T) (ts_labels' _ _ _ _ _ _ T) (ts_intercept _ _ _ _ _ _ T) (ts_intercept' _ _ _ _ _ _ T); exact: per_group_reorder.
Qed.
