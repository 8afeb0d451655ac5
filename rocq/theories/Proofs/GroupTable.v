(** Tables with other names of the groups: the problems made of them, and fits. *)
From Coq Require Import Sorted Permutation Lia Lra FunctionalExtensionality.
From Verif.Base Require Import Py Vec Mat RMx.
From Verif.Model Require Import Logger Priors LmeProblem Regularizers Solvers LmeInner LmeFit.
From Verif.Spec Require Import GroupSpec.
From Verif.Proofs Require Import VecFacts LmeProblemProofs LmeProblemMain.
From mathcomp Require Import ssreflect ssrfun ssrbool eqtype ssrnat choice seq fintype
  finfun bigop finset ssralg zmodp matrix mxalgebra.
From Verif.Model Require Import LmeOracle LmeBridge.
From Verif.Spec Require Import MxSpec.
From Verif.Proofs Require Import MxFacts UnitsProofs OrderTable GroupProofs.
Set Implicit Arguments.
Unset Strict Implicit.
Unset Printing Implicit Defensive.
Delimit Scope R_scope with coqR.
Local Open Scope res_scope.

(** ** names *)
Lemma int_integer a : is_int a = true <-> integer a.
Proof. by rewrite is_int_true; split=> -[z h]; exists z; rewrite ?h. Qed.
Lemma unique_renamed f l : new_names f l ->
  match unique_labels l, unique_labels (List.map f l) with
  | Ok r, Ok r' => Permutation r' (List.map f r) /\ forall a, List.In a r -> List.In a l
  | Err e, Err e' => e' = e
  | _, _ => False
  end.
Proof.
  move=> [inj int].
  have hi : List.forallb is_int (List.map f l) = List.forallb is_int l.
    have {}int a : List.In a l -> is_int (f a) = is_int a.
      move=> /int h; apply/idP/idP => /int_integer h'; apply/int_integer; by [apply/h|apply/h].
    elim: l {inj} int => [//|a l IH] int /=; rewrite IH ?int //; first by left.
    by move=> b hb; apply: int; right.
  case e : (unique_labels l) => [r|x]; case e' : (unique_labels (List.map f l)) => [r'|x'].
  - have [s1 [m1 _]] := unique_labels_spec l r e; have [s2 [m2 _]] := unique_labels_spec _ r' e'.
    split; last by move=> a /m1.
    apply: NoDup_Permutation.
    + exact: sorted_Rlt_NoDup.
    + have nd := sorted_Rlt_NoDup _ s1.
      have {m1} m1 a : List.In a r -> List.In a l by move/m1.
      elim: r nd m1 {e s1} => [|a r IH] nd m1 /=; first by constructor.
      inversion nd as [|? ? na nr]; subst; constructor; last by apply: IH => // b hb; apply: m1; right.
      move=> /List.in_map_iff [b [eb hb]]; apply: na.
      have -> : a = b by apply: inj => //; [apply: m1; left | apply: m1; right].
      exact: hb.
    + move=> a; rewrite m2 !List.in_map_iff; split=> -[b [<- hb]]; exists b; split=> //; exact/m1.
  - by move: e e'; rewrite /unique_labels hi; case: (List.forallb _ _).
  - by move: e e'; rewrite /unique_labels hi; case: (List.forallb _ _).
  - by move: e e'; rewrite /unique_labels hi; case: (List.forallb _ _) => //= [[<-]] [<-].
Qed.

(** ** problems *)
Definition regrouped (f : R -> R) (pr pr' : lme_problem) : Prop :=
  [/\ pr_labels pr' = pr_labels pr, pr_intercept pr' = pr_intercept pr,
      length (pr_fixed pr) = length (pr_group_labels pr) & length (pr_fixed pr') = length (pr_group_labels pr')] /\
  [/\ pr_fe_columns pr' = pr_fe_columns pr, pr_re_columns pr' = pr_re_columns pr,
      pr_fe_weights pr' = pr_fe_weights pr & pr_re_weights pr' = pr_re_weights pr] /\
  Permutation (pr_group_labels pr') (List.map f (pr_group_labels pr)) /\
  forall p q, exists G G' : R -> group p q,
    [/\ groups_of p q pr = Ok (List.map G (pr_group_labels pr)),
        groups_of p q pr' = Ok (List.map G' (pr_group_labels pr'))
      & forall l, List.In l (pr_group_labels pr) -> G' (f l) = G l].
Definition regrouped_result f (r r' : res lme_problem) : Prop :=
  match r, r' with Ok pr, Ok pr' => regrouped f pr pr' | Err e, Err e' => e' = e | _, _ => False end.

Lemma Forall2_map_eq (A B : Type) (P : A -> A -> Prop) (h : A -> B) l l' :
  (forall a a', P a a' -> h a' = h a) -> List.Forall2 P l l' -> List.map h l' = List.map h l.
Proof. by move=> hh; elim=> [//|a a' m m' /hh e _ /= ->]; rewrite e. Qed.

Lemma renamed_pairs (P : vec -> vec -> Prop) l l' (y : vec) : List.Forall2 P l l' ->
  List.Forall2 (fun a a' => P (fst a) (fst a') /\ snd a' = snd a /\ List.In (fst a) l) (List.combine l y) (List.combine l' y).
Proof.
  have h m : (forall r, List.In r l -> List.In r m) -> List.Forall2 P l l' ->
    List.Forall2 (fun a a' => P (fst a) (fst a') /\ snd a' = snd a /\ List.In (fst a) m) (List.combine l y) (List.combine l' y).
    move=> hm hl; elim: hl y hm => [|r r' k k' hr _ IH] [|b bs] hm /=; try by constructor.
    constructor; first by split=> //; split=> //; apply: hm; left.
    by apply: IH => a ha; apply: hm; right.
  exact: h.
Qed.
Lemma from_x_y_renamed f g x x' y columns ls ff fr mf mr : List.nth_error ls g = Some GROUP -> renamed f g x x' ->
  regrouped_result f (from_x_y x (Some y) columns (Some ls) ff fr mf mr)
    (from_x_y x' (Some y) columns (Some ls) ff fr mf mr).
Proof.
  move=> hg [ec [er nn]]; rewrite /from_x_y /= /check_X_y ec (Forall2_len er).
  case e0 : (guard _ _) => [u|//=]; cbn [rbind]; case: (guard _ AssertionError) => //= _; case: (guard _ _) => //= _.
  case eg : (where_ _ _) => [//|g' [|//]].
  have {eg} eg' : g' = g.
    have h : List.In g (where_ (String.eqb GROUP) ls).
      apply/(where_In _ _ _ EmptyString); split.
        by apply/List.nth_error_Some; rewrite hg.
      by rewrite (List.nth_error_nth _ _ _ hg).
    by move: h; rewrite eg => -[].
  subst g'; case ev : (where_ _ _) => [//|v [|//]].
  have ne (P : string -> bool) i : P GROUP = false -> List.In i (where_ P ls) -> i <> g.
    move=> hP /(where_In _ _ _ EmptyString) [_ hi] ei; move: hi; rewrite ei (List.nth_error_nth _ _ _ hg) hP //.
  have nv : v <> g by apply: (ne (String.eqb VARIANCE)) => //; rewrite ev; left.
  have ecol i : i <> g -> column (t_rows x') i = column (t_rows x) i.
    by move=> hi; apply: Forall2_map_eq er => r r' [_ [_ h]]; exact: h.
  have ecolg : column (t_rows x') g = List.map f (column (t_rows x) g).
    rewrite /column List.map_map; elim: er => [//|r r' l l' [_ [h _]] _ IH] /=; by rewrite IH h.
  rewrite ecol // ecolg.
  case: (guard _ _) => //= _; have := unique_renamed nn.
  case: (unique_labels _) => [gl|e1]; case: (unique_labels _) => [gl'|e2] //.
  move=> [hp hin]; cbn [rbind].
  case: (match columns with None => _ | Some _ => _ end) => //= _.
  case: (match mf with None => _ | Some _ => _ end) => //= _.
  case: (reg_weights _ _ _ _ _) => //= wf; case: (reg_weights _ _ _ _ _) => //= wr.
  case: (names_of _ _) => //= fe; case: (names_of _ _) => //= re.
  split; first by split; rewrite //= List.map_length.
  split; first by split.
  split; first by [].
  move=> p q.
  pose d := List.combine (t_rows x) y; pose d' := List.combine (t_rows x') y.
  have ly : length y = length (t_rows x).
    move: e0; rewrite /guard; case: ifP => // /andP [_ /Nat.eqb_eq //].
  have d1 : t_rows x = List.map fst d by rewrite /d combine_fst.
  have d2 : y = List.map snd d by rewrite /d combine_snd.
  have ly' : length y = length (t_rows x') by rewrite (Forall2_len er).
  have d1' : t_rows x' = List.map fst d' by rewrite /d' combine_fst.
  have d2' : y = List.map snd d' by rewrite /d' combine_snd.
  have hd : List.Forall2 (fun a a' => renamed_row f g (fst a) (fst a') /\ snd a' = snd a /\ List.In (fst a) (t_rows x)) d d'.
    exact: renamed_pairs.
  have er1 (k : nat) (dd : list (vec * R)) l : List.filter (LmeProblem.in_group k l) (List.map fst dd)
      = List.map fst (part (fun l => LmeProblem.in_group k l) dd l) by rewrite filter_map.
  pose F := fun dd l => grp_of p q (feature_row ff (where_ is_fixed ls)) (feature_row fr (where_ is_random ls))
      (fun row => List.nth v row 0%coqR) (part (LmeProblem.in_group g) dd l).
  exists (F d), (F d'); split.
  - apply: (@groups_built p q (feature_row ff (where_ is_fixed ls)) (feature_row fr (where_ is_random ls))
      (fun row => List.nth v row 0%coqR) (LmeProblem.in_group g) _ d gl) => //=.
    + by apply: List.map_ext => l; rewrite d1 er1.
    + by apply: List.map_ext => l; rewrite d1 er1.
    + by congr Some; apply: List.map_ext => l; rewrite {1}d1 {1}d2 mask_select_pairs.
    + by apply: List.map_ext => l; rewrite d1 er1.
  - apply: (@groups_built p q (feature_row ff (where_ is_fixed ls)) (feature_row fr (where_ is_random ls))
      (fun row => List.nth v row 0%coqR) (LmeProblem.in_group g) _ d' gl') => //=.
    + by apply: List.map_ext => l; rewrite d1' er1.
    + by apply: List.map_ext => l; rewrite d1' er1.
    + by congr Some; apply: List.map_ext => l; rewrite {1}d1' {1}d2' mask_select_pairs.
    + by apply: List.map_ext => l; rewrite d1' er1.
  - move=> l /= /hin hl; rewrite /F /grp_of /grp.
    have hpart : List.Forall2 (fun a a' => renamed_row f g (fst a) (fst a') /\ snd a' = snd a)
        (part (LmeProblem.in_group g) d l) (part (LmeProblem.in_group g) d' (f l)).
      rewrite /part; elim: hd => [|a a' m m' [h1 [h2 h3]] _ IH] /=; first by constructor.
      have -> : LmeProblem.in_group g (f l) (fst a') = LmeProblem.in_group g l (fst a).
        rewrite /LmeProblem.in_group; case: (h1) => _ [-> _].
        apply/idP/idP => /reqb_true h; apply/reqb_true; last by rewrite h.
        by case: nn => inj _; apply: inj => //; apply/List.in_map_iff; exists (fst a).
      by case: (LmeProblem.in_group g l (fst a)) => //; constructor.
    move: hpart; move: (part _ d l) (part _ d' (f l)) => a a' hpart.
    have en : length a' = length a := Forall2_len hpart; rewrite en.
    have e1 : List.map (fun e => feature_row ff (where_ is_fixed ls) (fst e)) a' = List.map (fun e => feature_row ff (where_ is_fixed ls) (fst e)) a.
      apply: Forall2_map_eq hpart => b b' [[_ [_ h]] _].
      have e : LmeProblem.pick (where_ is_fixed ls) (fst b') = LmeProblem.pick (where_ is_fixed ls) (fst b).
        by apply: List.map_ext_in => i hi; apply: h; exact: (ne is_fixed i erefl hi).
      by rewrite /feature_row e.
    have e2 : List.map (fun e => feature_row fr (where_ is_random ls) (fst e)) a' = List.map (fun e => feature_row fr (where_ is_random ls) (fst e)) a.
      apply: Forall2_map_eq hpart => b b' [[_ [_ h]] _].
      have e : LmeProblem.pick (where_ is_random ls) (fst b') = LmeProblem.pick (where_ is_random ls) (fst b).
        by apply: List.map_ext_in => i hi; apply: h; exact: (ne is_random i erefl hi).
      by rewrite /feature_row e.
    have e3 : List.map (fun e : vec * R => List.nth v (fst e) 0%coqR) a' = List.map (fun e => List.nth v (fst e) 0%coqR) a.
      by apply: Forall2_map_eq hpart => b b' [[_ [_ h]] _]; apply: h.
    have e4 : List.map snd a' = List.map snd a by apply: Forall2_map_eq hpart => b b' [_ h].
    by rewrite e1 e2 e3 e4.
Qed.

(** ** fits *)
Lemma get_err (v : vec) i x : match List.nth_error v i with Some a => Ok a | None => Err IndexError end = Err x -> x = IndexError.
Proof. by case: (List.nth_error v i) => [//|[<-]]. Qed.
Lemma rbind_err (A B : Type) (a : res A) (k : A -> res B) x e :
  (forall y, a = Err y -> y = e) -> (forall b y, k b = Err y -> y = e) -> rbind a k = Err x -> x = e.
Proof. by case: a => [b _ h /h|y h _ [<-]] //; exact: h. Qed.
Lemma group_coefficients_err labels beta u fc rc x : group_coefficients labels beta u fc rc = Err x -> x = IndexError.
Proof.
  elim: labels fc rc x => [//|l labels IH] fc rc x; cbn [group_coefficients].
  case: (match l with Some s => String.eqb s FIXED | None => false end).
    by apply: rbind_err => [y|b y]; [exact: get_err | apply: rbind_err => [z|//]; exact: IH].
  case: (match l with Some s => String.eqb s RANDOM | None => false end).
    by apply: rbind_err => [y|b y]; [exact: get_err | apply: rbind_err => [z|//]; exact: IH].
  case: (match l with Some s => String.eqb s FIXED_RANDOM | None => false end).
    by apply: rbind_err => [y|b y]; [exact: get_err | apply: rbind_err => [z|c z];
      [exact: get_err | apply: rbind_err => [t|//]; exact: IH]].
  by apply: rbind_err => [y|//]; exact: IH.
Qed.
Lemma vadd_swap a b c : vadd a (vadd b c) = vadd b (vadd a c).
Proof.
  rewrite /vadd; elim: a b c => [|x a IH] [|y b] [|z c] //=; rewrite IH; congr cons; ring.
Qed.
Lemma mean_squares_perm q us us' n : Permutation us us' -> mean_squares q us n = mean_squares q us' n.
Proof.
  move=> hp; rewrite /mean_squares; case: (guard _ _) => //= _; congr (Ok (List.map _ _)).
  elim: hp => [//|a l l' _ /= -> //|a b l /=|l1 l2 l3 _ -> _ -> //]; exact: vadd_swap.
Qed.

Section Fit.
Variables (f : R -> R) (pr pr' : lme_problem).
Hypothesis same : regrouped f pr pr'.
Let ls := pr_group_labels pr.
Let ls' := pr_group_labels pr'.

Lemma effects_renamed cdf g ss beta gamma :
  perm_results (List.map f ls) ls' (lc_random_effects (problem_calls cdf pr g ss) beta gamma)
    (lc_random_effects (problem_calls cdf pr' g ss) beta gamma) /\
  exists h, problem_calls cdf pr' g ss = with_effects (problem_calls cdf pr g ss) h.
Proof.
  have [[e1 e2 e3 e4] [[e5 e6 e7 e8] [hp hg]]] := same.
  have ep : num_fixed pr' = num_fixed pr by rewrite /num_fixed e1 e2.
  have eq : num_random pr' = num_random pr by rewrite /num_random e1 e2.
  rewrite /problem_calls ep eq; have [G [G' [-> -> hG]]] := hg (num_fixed pr) (num_random pr).
  rewrite -/ls -/ls' in hG *.
  have eG : List.map G ls = List.map G' (List.map f ls).
    by rewrite List.map_map; apply: List.map_ext_in => l /hG.
  have hgp : Permutation (List.map G ls) (List.map G' ls') by rewrite eG; apply: Permutation_map; exact: Permutation_sym.
  split; last by eexists; apply: gperm_calls.
  have -> : forall gs : seq (group (num_fixed pr) (num_random pr)),
    lc_random_effects (list_calls (Ok gs) (prior_mx (num_fixed pr) (num_random pr) g) cdf ss) beta gamma
    = list_random_effects (Ok gs) beta gamma by [].
  have -> : forall gs : seq (group (num_fixed pr) (num_random pr)),
    lc_random_effects (list_calls (Ok gs) (prior_mx (num_fixed pr) (num_random pr) g) cdf ss) beta gamma
    = list_random_effects (Ok gs) beta gamma by [].
  rewrite /list_random_effects /at_params; cbn [rbind].
  case: (sized _ beta) => [b|//]; cbn [rbind]; case: (sized _ gamma) => [c|//]; cbn [rbind].
  rewrite /lme_random_effects; case: (Classical_Prop.classic (admissible (List.map G ls) c)) => ha; last first.
    by rewrite !LmeOracleProofs.recalculate_err // => /(gperm_admissible hgp).
  rewrite !LmeOracleProofs.recalculate_ok //; last exact/(gperm_admissible hgp).
  cbn [rbind]; rewrite eG !List.map_map.
  have := @seq_perm R 'cV[R]_(num_random pr) (fun l => group_effects b c (G' l)) LinAlgError (List.map f ls) ls'
    (fun l x => @effects_err _ _ b c (G' l) x) (Permutation_sym hp).
  rewrite List.map_map; case: (sequence _) => [us|x]; case: (sequence _) => [us'|x'] //=.
  move=> [h1 h2 h3]; split; rewrite ?List.map_length //; first by rewrite h1 List.map_length.
  have hm (A : Type) (l : list A) (v : list 'cV[R]_(num_random pr)) :
    List.combine l (List.map (@vec_of _) v) = List.map (fun e => (fst e, vec_of (snd e))) (List.combine l v).
    by elim: l v => [|a l IH] [|w v] //=; rewrite IH.
  by rewrite !hm; exact: Permutation_map.
Qed.
Lemma fit_problem_renamed argsort cdf m coef beta0 gamma0 warm fe re :
  renamed_fit f (lme_fit_problem argsort cdf m coef pr beta0 gamma0 warm fe re)
    (lme_fit_problem argsort cdf m coef pr' beta0 gamma0 warm fe re).
Proof.
  have [[e1 e2 e3 e4] [[e5 e6 e7 e8] [hp _]]] := same.
  have ep : num_fixed pr' = num_fixed pr by rewrite /num_fixed e1 e2.
  have eq : num_random pr' = num_random pr by rewrite /num_random e1 e2.
  have en : num_groups pr' = num_groups pr.
    by rewrite /num_groups /groups_sizes !List.map_length e3 e4 (Permutation_length hp) List.map_length.
  have eo : oracle_view_of pr' = oracle_view_of pr.
    by rewrite /oracle_view_of /beta_to_gamma_map /all_labels e1 e2 ep eq.
  have epr : prior_of m pr' = prior_of m pr by rewrite /prior_of e5 e6.
  have ew : fit_weights pr' fe re = fit_weights pr fe re by rewrite /fit_weights e2 e7 e8 ep eq.
  rewrite /lme_fit_problem /fit_problem ep eq en eo epr ew.
  case: (step_length m) => [st|//]; cbn [rbind].
  case: (match mo_penalty m with PenSCAD _ _ _ => _ | _ => _ end) => [?|//]; cbn [rbind].
  case: (oracle_view_of pr) => [ov|//]; cbn [rbind].
  case: (prior_of m pr) => [g|//]; cbn [rbind].
  case: (fit_weights pr fe re) => [[wf wr]|//]; cbn [rbind].
  case: (model_reg m ov) => [r0|//]; cbn [rbind].
  case: (instantiate _ _ _) => [r|//]; cbn [rbind].
  case: (start_point _ _ _ _ _ _) => [bg0|//]; cbn [rbind].
  have [h eh] := proj2 (@effects_renamed cdf g (mo_sr3 m) nil nil).
  have {}hh b c : perm_results (List.map f ls) ls' (lc_random_effects (problem_calls cdf pr g (mo_sr3 m)) b c) (h b c).
    by have := proj1 (@effects_renamed cdf g (mo_sr3 m) b c); rewrite eh.
  rewrite eh; move: (problem_calls cdf pr g (mo_sr3 m)) hh => c hh {eh}.
  have -> : initialize m (num_random pr) (num_groups pr) (with_effects c h) bg0 = initialize m (num_random pr) (num_groups pr) c bg0.
    rewrite /initialize; case: (String.eqb _ _) => //=.
    case: (match mo_sr3 m with None => _ | Some _ => _ end) => [b|//]; cbn [rbind].
    have := hh b (snd bg0); case: (lc_random_effects c b (snd bg0)) => [us|e]; case: (h b (snd bg0)) => [us'|e'] //=.
      by move=> /perm_results_perm hu; rewrite (mean_squares_perm _ _ hu).
    by move=> ->.
  case: (initialize _ _ _ _ _) => [[beta1 gamma1]|//]; cbn [rbind].
  case: (mk_logger _) => [lg|//]; cbn [rbind].
  have -> : forall rg xs, run_solver list_solve m (num_fixed pr) (num_random pr) (with_effects c h) rg xs lg
    = run_solver list_solve m (num_fixed pr) (num_random pr) c rg xs lg by [].
  case: (run_solver _ _ _ _ _ _ _ _) => [[z lg1]|//]; cbn [rbind].
  case: (x_to_beta_gamma _ _ _) => beta gamma.
  have -> : lc_random_effects (with_effects c h) = h by [].
  have := hh beta gamma; case: (lc_random_effects c beta gamma) => [us|e]; case: (h beta gamma) => [us'|e'] //.
  cbn [rbind]; move=> [l1 l2 hc]; rewrite e1 e2 /per_group_coefficients.
  set gc := fun u => _.
  have := @seq_perm (R * vec) vec (fun e => gc (snd e)) IndexError _ _
    (fun l x => @group_coefficients_err _ _ _ _ _ x) hc.
  rewrite -(List.map_map snd gc) combine_snd // -(List.map_map snd gc) combine_snd //.
  case: (sequence _) => [pg|e]; case: (sequence _) => [pg'|e'] //.
  cbn [rbind]; move=> [l3 l4 hc2].
  have -> : log_criteria m (with_effects c h) beta gamma lg1 = log_criteria m c beta gamma lg1 by [].
  case: (log_criteria _ _ _ _ _) => [lg2|//]; cbn [rbind]; rewrite /renamed_fit /complete /by_group /=.
  move: l1 l2 l3 l4; rewrite !List.combine_length List.map_length => l1 l2 l3 l4.
  have a1 : length us = length ls by [].
  split=> //; split=> //; split=> //; split; first by split=> //; rewrite l3 a1 Nat.min_id.
  split; first by split=> //; rewrite l4 l2 Nat.min_id.
  have assoc (A B C : Type) (u : list A) (v : list B) (w : list C) :
    List.combine u (List.combine v w) = List.map (fun e => (fst (fst e), (snd (fst e), snd e))) (List.combine (List.combine u v) w).
    by elim: u v w => [|a u IH] [|b v] [|d w] //=; rewrite IH.
  have hmap (A : Type) (u : list R) (v : list A) :
    List.combine (List.map f u) v = List.map (fun e => (f (fst e), snd e)) (List.combine u v).
    by elim: u v => [|a u IH] [|b v] //=; rewrite IH.
  by rewrite -hmap !assoc; apply: Permutation_map; exact: Permutation_sym.
Qed.
End Fit.

Lemma fit_renamed f g argsort cdf m coef x x' y ls beta0 gamma0 warm ff fr fe re :
  List.nth_error ls g = Some GROUP -> renamed f g x x' ->
  renamed_fit f (lme_fit argsort cdf m coef x y (Some ls) beta0 gamma0 warm ff fr fe re)
    (lme_fit argsort cdf m coef x' y (Some ls) beta0 gamma0 warm ff fr fe re).
Proof.
  move=> hg hr; rewrite /lme_fit /fit.
  have -> : check_X_y x' y = check_X_y x y.
    by case: hr => ec [er _]; rewrite /check_X_y ec (Forall2_len er).
  case: (check_X_y x y) => //= _.
  have := from_x_y_renamed y None ff fr None None hg hr; rewrite /regrouped_result.
  case: (from_x_y x _ _ _ _ _ _ _) => [pr|e]; case: (from_x_y x' _ _ _ _ _ _ _) => [pr'|e'] //.
  by move=> h; cbn [rbind]; exact: fit_problem_renamed.
Qed.
Lemma criterion_renamed f g cdf m coef x x' y ls ic :
  List.nth_error ls g = Some GROUP -> renamed f g x x' ->
  get_information_criterion cdf m coef x' y (Some ls) ic = get_information_criterion cdf m coef x y (Some ls) ic.
Proof.
  move=> hg hr; rewrite /get_information_criterion; case: coef => // co.
  have := from_x_y_renamed y None false false None None hg hr; rewrite /regrouped_result.
  case: (from_x_y x _ _ _ _ _ _ _) => [pr|e]; case: (from_x_y x' _ _ _ _ _ _ _) => [pr'|e'] //; last by move=> ->.
  move=> h; have [[e1 e2 e3 e4] [[e5 e6 e7 e8] _]] := h.
  have ep : num_fixed pr' = num_fixed pr by rewrite /num_fixed e1 e2.
  have eq : num_random pr' = num_random pr by rewrite /num_random e1 e2.
  cbn [rbind]; have -> : oracle_view_of pr' = oracle_view_of pr.
    by rewrite /oracle_view_of /beta_to_gamma_map /all_labels e1 e2 ep eq.
  by have [k ->] := proj2 (effects_renamed h cdf None (mo_sr3 m) nil nil).
Qed.
