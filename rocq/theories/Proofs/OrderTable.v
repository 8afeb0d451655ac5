(** Tables with their rows in another order: the problems made of them, and fits. *)
From Coq Require Import Sorted Permutation Lia Lra FunctionalExtensionality.
From Verif.Base Require Import Py Vec Mat RMx.
From Verif.Model Require Import LmeProblem LmeInner LmeFit.
From Verif.Proofs Require Import VecFacts LmeProblemProofs.
From mathcomp Require Import ssreflect ssrfun ssrbool eqtype ssrnat choice seq fintype
  finfun bigop finset fingroup perm ssralg zmodp matrix mxalgebra.
From Verif.Model Require Import LmeOracle LmeBridge.
From Verif.Spec Require Import MxSpec OrderSpec.
From Verif.Proofs Require Import MxFacts OrderProofs.
Set Implicit Arguments.
Unset Strict Implicit.
Unset Printing Implicit Defensive.
Delimit Scope R_scope with coqR.
Local Open Scope res_scope.

(** ** lists *)
Lemma perm_forallb (A : Type) (f : A -> bool) l l' : Permutation l l' -> List.forallb f l = List.forallb f l'.
Proof.
  elim=> {l l'} [//|a l l' _ /= -> //|a b l /=|l1 l2 l3 _ -> _ //].
  by case: (f a); case: (f b).
Qed.
Lemma perm_filter (A : Type) (f : A -> bool) l l' :
  Permutation l l' -> Permutation (List.filter f l) (List.filter f l').
Proof.
  elim=> {l l'} [|a l l' _ IH|a b l|l1 l2 l3 _ h1 _ h2] /=; first by constructor.
  - by case: (f a) => //; constructor.
  - by case: (f a); case: (f b); try constructor; exact: Permutation_refl.
  - exact: Permutation_trans h1 h2.
Qed.
Lemma filter_map (A B : Type) (h : A -> B) (f : B -> bool) l :
  List.filter f (List.map h l) = List.map h (List.filter (fun a => f (h a)) l).
Proof. by elim: l => [//|a l /= ->]; case: (f (h a)). Qed.
Lemma mask_select_pairs (A B : Type) (f : A -> bool) (d : list (A * B)) :
  mask_select (List.map f (List.map fst d)) (List.map snd d) = List.map snd (List.filter (fun e => f (fst e)) d).
Proof. by elim: d => [//|[a b] d /= IH]; case: (f a); rewrite /= IH. Qed.
Lemma sorted_unique (l l' : list R) : StronglySorted Rlt l -> StronglySorted Rlt l' ->
  (forall a, List.In a l <-> List.In a l') -> l = l'.
Proof.
  move=> hs; elim: hs l' => {l} [|a l _ IH fa] [|b l'] hs' h.
  - by [].
  - by case: (proj2 (h b) (or_introl erefl)).
  - by case: (proj1 (h a) (or_introl erefl)).
  - inversion hs' as [|? ? hs2 fb]; subst.
    rewrite -> List.Forall_forall in fa, fb.
    have eab : a = b.
      case: (proj1 (h a) (or_introl erefl)) => [//|ha].
      case: (proj2 (h b) (or_introl erefl)) => [//|hb].
      by have := fa _ hb; have := fb _ ha; lra.
    subst b; congr cons; apply: IH => // c; split=> hc.
    + case: (proj1 (h c) (or_intror hc)) => // e; subst c; have := fa _ hc; lra.
    + case: (proj2 (h c) (or_intror hc)) => // e; subst c; have := fb _ hc; lra.
Qed.
Lemma unique_labels_perm l l' : Permutation l l' -> unique_labels l = unique_labels l'.
Proof.
  move=> hp; case e : (unique_labels l) => [r|x]; case e' : (unique_labels l') => [r'|x'].
  - have [s1 [m1 _]] := unique_labels_spec l r e; have [s2 [m2 _]] := unique_labels_spec l' r' e'.
    congr Ok; apply: sorted_unique => // a; rewrite m1 m2; split; apply: Permutation_in => //.
    exact: Permutation_sym.
  - by move: e e'; rewrite /unique_labels (perm_forallb _ hp); case: (List.forallb _ _).
  - by move: e e'; rewrite /unique_labels (perm_forallb _ hp); case: (List.forallb _ _).
  - by move: e e'; rewrite /unique_labels (perm_forallb _ hp); case: (List.forallb _ _) => //= [[<-]] [<-].
Qed.
Lemma nth_map_lt (A B : Type) (f : A -> B) l k d d' : (k < length l)%coq_nat ->
  List.nth k (List.map f l) d = f (List.nth k l d').
Proof. by elim: l k => [|a l IH] [|k] //= h; try lia; apply: IH; lia. Qed.

(** ** one group *)
Section OneGroup.
Variables (p q : nat) (D : Type) (fx : D -> vec) (fy : D -> R) (fz : D -> vec) (fv : D -> R).
Definition grp (n : nat) (d : list D) : group p q :=
  @Group p q n (mx_of n p (List.map fx d)) (col_of n (List.map fy d)) (mx_of n q (List.map fz d))
    (col_of n (List.map fv d)).
Lemma grp_perm_from (d0 : D) d d' : Permutation d d' -> same_rows (grp (length d) d) (grp (length d') d').
Proof.
  move=> hp; rewrite -(Permutation_length hp); set n := length d.
  have [_ [f [bf' [bi e]]]] := proj1 (Permutation_nth d d' d0) hp.
  have lt (i : 'I_n) : (f i < n)%N by apply/ltP; apply: bf'; apply/ltP.
  have inj : injective (fun i : 'I_n => Ordinal (lt i)).
    move=> i j [] /(bi i j) h; apply: val_inj; apply: h; exact/ltP.
  exists (perm inj); rewrite /reorder /grp /=.
  have hl : length d' = n by rewrite -(Permutation_length hp).
  have g (B : Type) (h : D -> B) (b : B) (i : 'I_n) :
    List.nth i (List.map h d') b = List.nth (perm inj i) (List.map h d) b.
    have hi : (i < length d)%coq_nat by exact/ltP.
    have hfi : (f i < length d)%coq_nat by exact: bf'.
    rewrite permE /= (nth_map_lt h b d0 hfi) (nth_map_lt h b d0) ?hl //.
    by rewrite e.
  congr Group; apply/matrixP => i j; rewrite !mxE; by rewrite g.
Qed.
Lemma grp_perm d d' : Permutation d d' -> same_rows (grp (length d) d) (grp (length d') d').
Proof.
  case: d => [|d0 d]; last exact: grp_perm_from.
  by move=> /Permutation_nil ->; exists 1%g; rewrite /reorder /= /grp !row_perm1.
Qed.
End OneGroup.

(** ** problems *)
Definition same_problem (pr pr' : lme_problem) : Prop :=
  [/\ pr_labels pr' = pr_labels pr, pr_intercept pr' = pr_intercept pr, pr_group_labels pr' = pr_group_labels pr
    & length (pr_fixed pr') = length (pr_fixed pr)] /\
  [/\ pr_fe_columns pr' = pr_fe_columns pr, pr_re_columns pr' = pr_re_columns pr,
      pr_fe_weights pr' = pr_fe_weights pr & pr_re_weights pr' = pr_re_weights pr] /\
  forall p q, exists gs gs', [/\ groups_of p q pr = Ok gs, groups_of p q pr' = Ok gs'
    & List.Forall2 (@same_rows p q) gs gs'].
Definition same_result (r r' : res lme_problem) : Prop :=
  match r, r' with Ok pr, Ok pr' => same_problem pr pr' | Err e, Err e' => e = e' | _, _ => False end.

Lemma sequence_all (A B : Type) (f : A -> res B) (h : A -> B) l :
  (forall a, List.In a l -> f a = Ok (h a)) -> sequence (List.map f l) = Ok (List.map h l).
Proof. exact: LmeCriteria.sequence_map_In. Qed.

Lemma map_nth_seq (A : Type) (l : list A) d : List.map (fun j => List.nth j l d) (List.seq 0 (length l)) = l.
Proof. by elim: l => [//|a l IH] /=; rewrite -List.seq_shift List.map_map /= IH. Qed.

(** the groups of a problem given by a list of pairs of row and target *)
Section Built.
Variables (p q : nat) (fx : vec -> vec) (fz : vec -> vec) (fv : vec -> R) (sel : R -> vec -> bool).
Variables (pr : lme_problem) (d : list (vec * R)) (ls : list R).
Definition part (l : R) : list (vec * R) := List.filter (fun e => sel l (fst e)) d.
Hypothesis e1 : pr_fixed pr = List.map (fun l => List.map fx (List.map fst (part l))) ls.
Hypothesis e2 : pr_random pr = List.map (fun l => List.map fz (List.map fst (part l))) ls.
Hypothesis e3 : pr_answers pr = Some (List.map (fun l => List.map snd (part l)) ls).
Hypothesis e4 : pr_obs_vars pr = List.map (fun l => List.map fv (List.map fst (part l))) ls.
Hypothesis e5 : pr_random_0d pr = false.
Definition grp_of (e : list (vec * R)) : group p q :=
  grp p q (fun a => fx (fst a)) snd (fun a => fz (fst a)) (fun a => fv (fst a)) (length e) e.
Lemma groups_built : groups_of p q pr = Ok (List.map (fun l => grp_of (part l)) ls).
Proof.
  rewrite /groups_of e5 /= e1 List.map_length.
  have -> : List.map (fun l => grp_of (part l)) ls
      = List.map (fun j => grp_of (part (List.nth j ls 0%coqR))) (List.seq 0 (length ls)).
    by rewrite -[in LHS](map_nth_seq ls 0%coqR) List.map_map.
  apply: sequence_all => j /List.in_seq hj.
  have hl : (j < length ls)%coq_nat by lia.
  rewrite /group_at ?e1 e2 e3 e4 /= !(nth_map_lt _ _ 0%coqR hl) /LmeBridge.group_of.
  rewrite !List.map_map; rewrite /grp_of /grp; congr Ok.
  by rewrite List.map_length.
Qed.
End Built.

Lemma from_x_y_shuffled x y x' y' columns labels ff fr mf mr : shuffled x y x' y' ->
  same_result (from_x_y x (Some y) columns labels ff fr mf mr) (from_x_y x' (Some y') columns labels ff fr mf mr).
Proof.
  move=> sh; rewrite /from_x_y.
  have : (default_labels x labels).1 = (default_labels x' labels).1 /\
         shuffled (default_labels x labels).2 y (default_labels x' labels).2 y'.
    case: labels => [ls|] //=; case: sh => ec [d [d' [hp [[er ->] [er' ->]]]]]; rewrite ec; split=> //.
    split=> //=; exists (List.map (fun e => (0%coqR :: fst e ++ [:: 1%coqR], snd e)) d).
    exists (List.map (fun e => (0%coqR :: fst e ++ [:: 1%coqR], snd e)) d').
    split; first exact: Permutation_map.
    by rewrite er er' !List.map_map.
  case: (default_labels x labels) => ls X; case: (default_labels x' labels) => ls' X' /= [<-] {sh x x' labels}.
  case=> ec [d [d' [hp [[er ->] [er' ->]]]]]; rewrite /check_X_y er er' -ec !List.map_length.
  rewrite -(Permutation_length hp).
  case: (guard _ _) => //= _; case: (guard _ _) => //= _; case: (guard _ _) => //= _.
  case: (where_ _ _) => [//|g [|//]]; case: (where_ _ _) => [//|v [|//]].
  have hcol k : Permutation (column (List.map fst d) k) (column (List.map fst d') k).
    by rewrite /column; do 2 apply: Permutation_map.
  rewrite (perm_forallb nonzero (hcol v)) (unique_labels_perm (hcol g)).
  case: (guard _ _) => //= _; case: (unique_labels _) => //= gl.
  case: (match columns with None => _ | Some _ => _ end) => //= _.
  case: (match mf with None => _ | Some _ => _ end) => //= _.
  case: (reg_weights _ _ _ _ _) => //= wf; case: (reg_weights _ _ _ _ _) => //= wr.
  case: (names_of _ _) => //= fe; case: (names_of _ _) => //= re.
  split; last split; first by split; rewrite //= !List.map_length.
    by split.
  move=> p q.
  have er1 dd l : List.filter (LmeProblem.in_group g l) (List.map fst dd)
      = List.map fst (part (fun l => LmeProblem.in_group g l) dd l) by rewrite filter_map.
  eexists; eexists; split.
  - apply: (@groups_built p q (feature_row ff (where_ is_fixed ls)) (feature_row fr (where_ is_random ls))
      (fun row => List.nth v row 0%coqR) (LmeProblem.in_group g) _ d gl) => //=.
    + by apply: List.map_ext => l; rewrite er1.
    + by apply: List.map_ext => l; rewrite er1.
    + by congr Some; apply: List.map_ext => l; rewrite mask_select_pairs.
    + by apply: List.map_ext => l; rewrite er1.
  - apply: (@groups_built p q (feature_row ff (where_ is_fixed ls)) (feature_row fr (where_ is_random ls))
      (fun row => List.nth v row 0%coqR) (LmeProblem.in_group g) _ d' gl) => //=.
    + by apply: List.map_ext => l; rewrite er1.
    + by apply: List.map_ext => l; rewrite er1.
    + by congr Some; apply: List.map_ext => l; rewrite mask_select_pairs.
    + by apply: List.map_ext => l; rewrite er1.
  - elim: gl => [|l gl IH] /=; constructor=> //.
    by apply: grp_perm; exact: perm_filter.
Qed.

(** ** fits *)
Lemma fit_problem_same argsort cdf m coef pr pr' beta0 gamma0 warm fe re : same_problem pr pr' ->
  lme_fit_problem argsort cdf m coef pr' beta0 gamma0 warm fe re
  = lme_fit_problem argsort cdf m coef pr beta0 gamma0 warm fe re.
Proof.
  move=> [[e1 e2 e3 e4] [[e5 e6 e7 e8] hg]].
  have ep : num_fixed pr' = num_fixed pr by rewrite /num_fixed e1 e2.
  have eq : num_random pr' = num_random pr by rewrite /num_random e1 e2.
  have en : num_groups pr' = num_groups pr by rewrite /num_groups /groups_sizes !List.map_length.
  have eo : oracle_view_of pr' = oracle_view_of pr.
    by rewrite /oracle_view_of /beta_to_gamma_map /all_labels e1 e2 ep eq.
  have epr : prior_of m pr' = prior_of m pr by rewrite /prior_of e5 e6.
  have ew : fit_weights pr' fe re = fit_weights pr fe re by rewrite /fit_weights e2 e7 e8 ep eq.
  have ec : problem_calls cdf pr' = problem_calls cdf pr.
    apply: functional_extensionality => g; apply: functional_extensionality => ss.
    rewrite /problem_calls ep eq; have [gs [gs' [-> -> h]]] := hg (num_fixed pr) (num_random pr).
    exact: same_calls.
  by rewrite /lme_fit_problem /fit_problem ep eq en eo epr ew ec e1 e2 e3.
Qed.

Lemma fit_shuffled argsort cdf m coef x y x' y' labels beta0 gamma0 warm ff fr fe re : shuffled x y x' y' ->
  lme_fit argsort cdf m coef x' y' labels beta0 gamma0 warm ff fr fe re
  = lme_fit argsort cdf m coef x y labels beta0 gamma0 warm ff fr fe re.
Proof.
  move=> sh; rewrite /lme_fit /fit.
  have -> : check_X_y x' y' = check_X_y x y.
    case: (sh) => ec [d [d' [hp [[er ->] [er' ->]]]]]; rewrite /check_X_y er er' ec !List.map_length.
    by rewrite (Permutation_length hp).
  case: (check_X_y x y) => //= _.
  have := from_x_y_shuffled None labels ff fr None None sh; rewrite /same_result.
  case: (from_x_y x _ _ _ _ _ _ _) => [pr|e]; case: (from_x_y x' _ _ _ _ _ _ _) => [pr'|e'] //=.
    exact: fit_problem_same.
  by move=> ->.
Qed.

Lemma criterion_shuffled cdf m coef x y x' y' labels ic : shuffled x y x' y' ->
  get_information_criterion cdf m coef x' y' labels ic = get_information_criterion cdf m coef x y labels ic.
Proof.
  move=> sh; rewrite /get_information_criterion; case: coef => // co.
  have := from_x_y_shuffled None labels false false None None sh; rewrite /same_result.
  case: (from_x_y x _ _ _ _ _ _ _) => [pr|e]; case: (from_x_y x' _ _ _ _ _ _ _) => [pr'|e'] //; last by move=> ->.
  move=> [[e1 e2 e3 e4] [[e5 e6 e7 e8] hg]].
  have ep : num_fixed pr' = num_fixed pr by rewrite /num_fixed e1 e2.
  have eq : num_random pr' = num_random pr by rewrite /num_random e1 e2.
  cbn [rbind]; have -> : oracle_view_of pr' = oracle_view_of pr.
    by rewrite /oracle_view_of /beta_to_gamma_map /all_labels e1 e2 ep eq.
  cbn [rbind]; have -> : problem_calls cdf pr' None (mo_sr3 m) = problem_calls cdf pr None (mo_sr3 m).
    rewrite /problem_calls ep eq; have [gs [gs' [-> -> h]]] := hg (num_fixed pr) (num_random pr).
    exact: same_calls.
  by [].
Qed.
