(** The evaluations on a problem with changed signs, and fits. *)
From Coq Require Import Lia Lra.
From Verif.Base Require Import Py Vec Mat RMx.
From Verif.Model Require Import LmeProblem Regularizers LmeInner LmeFit.
From Verif.Spec Require Import LmeSpec ColumnSpec InnerSpec FlipSpec.
From Verif.Proofs Require Import VecFacts ColumnCases FeatureCoefs FlipTable FlipFit.
From mathcomp Require Import ssreflect ssrfun ssrbool eqtype ssrnat choice seq fintype
  finfun bigop finset ssralg zmodp matrix mxalgebra.
From Verif.Model Require Import LmeOracle LmeBridge.
From Verif.Spec Require Import MxSpec UnitsSpec.
From Verif.Proofs Require Import MxFacts UnitsProofs BridgeProofs LmeUseMain LmeUnitsMain FeatureBridge.
Set Implicit Arguments.
Unset Strict Implicit.
Unset Printing Implicit Defensive.
Delimit Scope R_scope with coqR.
Local Open Scope res_scope.
Import GRing.Theory.

Definition signed (x : R) : Prop := x = 1%coqR \/ x = (-1)%coqR.
Lemma signed_sq x : signed x -> (x * x = 1)%coqR.
Proof. case=> ->; ring. Qed.
Lemma signed_neq x : signed x -> x <> 0%coqR.
Proof. case=> ->; lra. Qed.
Lemma signed_inv x : signed x -> (/ x = x)%coqR.
Proof. case=> ->; lra. Qed.
Lemma signed_abs x y : signed x -> Rabs (x * y) = Rabs y.
Proof. by case=> ->; rewrite Rabs_mult ?Rabs_Ropp Rabs_R1 Rmult_1_l. Qed.
Lemma signs_nth n s (j : 'I_n) : is_signs n s -> signed (List.nth j s 0%coqR).
Proof.
  case=> l /List.Forall_forall h; apply: h; apply: List.nth_In; rewrite l; exact/ltP.
Qed.

Section Vectors.
Variables (n : nat) (e : R) (s : vec).
Hypothesis he : signed e.
Hypothesis hs : is_signs n s.
Definition flipc (x : 'cV[R]_n) : 'cV[R]_n := \col_j (e * List.nth j s 0 * x j ord0)%coqR.
Lemma len_scaled : length (vscale e s) = n.
Proof. by rewrite /vscale List.map_length; case: hs. Qed.
Lemma col_flip x : length x = n -> col_of n (flip (vscale e s) x) = flipc (col_of n x).
Proof.
  move=> l; apply/matrixP => i j; rewrite !mxE /flip nth_vmul ?nth_vscale //.
  by rewrite l; exact: len_scaled.
Qed.
Lemma vec_flip x : vec_of (flipc x) = flip (vscale e s) (vec_of x).
Proof.
  have lf : length (flip (vscale e s) (vec_of x)) = n.
    rewrite /flip /vmul map2_length len_scaled (length_vec_of x); exact: PeanoNat.Nat.min_id.
  apply: (List.nth_ext _ _ 0%coqR 0%coqR); first by rewrite length_vec_of lf.
  move=> i; rewrite length_vec_of => /ltP hi.
  rewrite -[i]/(nat_of_ord (Ordinal hi)) nth_vec_of mxE /flip nth_vmul; last by rewrite len_scaled length_vec_of.
  by rewrite nth_vscale nth_vec_of.
Qed.
Lemma flipcE x : flipc x = (e *: (diagv (col_of n s) *m x))%R.
Proof. by apply/matrixP => i j; rewrite (ord1 j) [RHS]mxE mul_diagv !mxE; exact: Rmult_assoc. Qed.
Lemma diag_sq : (diagv (col_of n s) *m diagv (col_of n s) = 1%:M)%R.
Proof.
  apply/matrixP => i j; rewrite mul_diagv !mxE; case: eqP => [->|_]; last by rewrite !mulr0n mulr0.
  rewrite !mulr1n; apply: signed_sq; exact: signs_nth.
Qed.
Lemma diag_unit : diagv (col_of n s) \in unitmx. Proof. by case: (mulmx1_unit diag_sq). Qed.
Lemma diag_inv : invmx (diagv (col_of n s)) = diagv (col_of n s).
Proof. by rewrite -[LHS]mulmx1 -diag_sq mulmxA mulVmx ?mul1mx //; exact: diag_unit. Qed.
Lemma mx_flip m a : wf_mat n a -> mx_of m n (flip_columns s a) = (mx_of m n a *m diagv (col_of n s))%R.
Proof.
  move=> /List.Forall_forall w; apply/matrixP => i j; rewrite mulmx_diagv !mxE.
  case: (Compare_dec.le_lt_dec (length a) i) => h.
    rewrite !(@List.nth_overflow vec) ?List.map_length //; case: (nat_of_ord j) => [|k]; rewrite /=; exact: esym (mul0r _).
  rewrite (@LmeProblemProofs.nth_map_lt _ _ (flip s) a i [::] [::]) // /flip nth_vmul; first exact: Rmult_comm.
  by case: hs => -> _; rewrite (w _ (List.nth_In _ _ h)).
Qed.
Lemma count_flip tol x : count_ge tol (flipc x) = count_ge tol x.
Proof.
  rewrite /count_ge; congr #|pred_of_set _|; apply/setP => j; rewrite !inE mxE Rmult_assoc signed_abs //.
  rewrite signed_abs //; exact: signs_nth.
Qed.
End Vectors.

Section Bridge.
Variables (p q : nat) (e : R) (s1 s2 : vec).
Hypothesis he : signed e.
Hypothesis h1 : is_signs p s1.
Hypothesis h2 : is_signs q s2.
Definition sign_units : units p q := Units e 0%R (diagv (col_of p s1)) (col_of q s2).
Notation U := sign_units.
Lemma sensible_signs : sensible U.
Proof.
  split; first exact: signed_neq. split; first exact: (diag_unit h1).
  by move=> j; rewrite /= mxE; apply: signed_neq; exact: signs_nth.
Qed.
Lemma beta_signs x : convert_beta U x = flipc e s1 x.
Proof. by rewrite /convert_beta /= addr0 flipcE (diag_inv h1). Qed.
Lemma gamma_signs x : convert_gamma U x = x.
Proof.
  apply/matrixP => j k; rewrite (ord1 k) mxE /= mxE.
  have := signed_sq he; have := signed_sq (signs_nth j h2); have := signed_neq (signs_nth j h2).
  set s := List.nth _ _ _ => n0 ss ee.
  by rewrite !Rmult_1_r ss ee /Rdiv Rinv_1 Rmult_1_l Rmult_1_r.
Qed.
Lemma effects_signs u : convert_effects U u = flipc e s2 u.
Proof.
  apply/matrixP => j k; rewrite (ord1 k) !mxE /=.
  rewrite /Rdiv (signed_inv (signs_nth j h2)); ring.
Qed.
Lemma scale_signs : (u_scale U ^ 2 = 1)%coqR.
Proof. by rewrite /= Rmult_1_r; exact: signed_sq. Qed.
Lemma ln_signs : ln (Rabs (u_scale U)) = 0%coqR.
Proof. by rewrite /= -[e]Rmult_1_r signed_abs // Rabs_R1 ln_1. Qed.

Lemma groups_flip pr pr' : pr_fixed pr' = List.map (flip_columns s1) (pr_fixed pr) ->
  pr_random pr' = List.map (flip_columns s2) (pr_random pr) -> pr_answers pr' = option_map (List.map (vscale e)) (pr_answers pr) ->
  pr_obs_vars pr' = pr_obs_vars pr -> pr_random_0d pr' = pr_random_0d pr ->
  List.Forall (wf_mat p) (pr_fixed pr) -> List.Forall (wf_mat q) (pr_random pr) ->
  groups_of p q pr' = rmap (List.map (convert U)) (groups_of p q pr).
Proof.
  move=> e1 e2 e3 e4 e5 w1 w2.
  have wn r (l : list mat) j : List.Forall (wf_mat r) l -> wf_mat r (List.nth j l [::]).
    move=> /List.Forall_forall w; case: (Compare_dec.le_lt_dec (length l) j) => h.
      by rewrite List.nth_overflow //; constructor.
    by apply: w; exact: List.nth_In.
  have eg j : LmeBridge.group_of p q (group_at pr' j) = rmap (convert U) (LmeBridge.group_of p q (group_at pr j)).
    rewrite /group_at e1 e2 e3 e4.
    have en o (l : list mat) : List.nth j (List.map (flip_columns o) l) [::] = flip_columns o (List.nth j l [::]).
      exact: (List.map_nth (flip_columns o) l [::] j).
    rewrite !en /LmeBridge.group_of; case: (pr_answers pr) => [ys|//]; cbn [option_map rmap].
    rewrite (_ : List.nth j (List.map (vscale e) ys) [::] = vscale e (List.nth j ys [::])); last exact: (List.map_nth (vscale e) ys [::] j).
    rewrite (_ : length (flip_columns s1 (List.nth j (pr_fixed pr) [::])) = length (List.nth j (pr_fixed pr) [::])); last exact: List.map_length.
    rewrite /convert; cbn [g_n g_x g_y g_z g_v]; rewrite scale_signs scale1r mulmx0 addr0.
    rewrite (mx_flip h1) ?(mx_flip h2); [|exact: wn|exact: wn].
    congr Ok; congr Group; by apply/matrixP => i k; rewrite !mxE nth_vscale.
  rewrite /groups_of e5; case: (guard _ _) => [u|//]; cbn [rbind]; rewrite e1 List.map_length.
  rewrite (List.map_ext _ _ eg).
  elim: (List.seq 0 (length (pr_fixed pr))) => [//|j l IH]; cbn [List.map sequence]; rewrite IH.
  by case: (LmeBridge.group_of p q (group_at pr j)) => [g|//]; cbn [rmap rbind]; case: (sequence _).
Qed.

(** ** evaluations *)
Notation f1 := (flipc e s1 : 'cV[R]_p -> 'cV[R]_p).
Notation f2 := (flipc e s2 : 'cV[R]_q -> 'cV[R]_q).
Notation cgs := (List.map (convert U)).
Implicit Types (gg : seq (group p q)) (x : 'cV[R]_p) (y : 'cV[R]_q).
Lemma rmap_self (A : Type) (f : A -> A) (r : res A) : (forall a, f a = a) -> rmap f r = r.
Proof. by move=> h; case: r => //= a; rewrite h. Qed.
Lemma rmap_eq (A B : Type) (f g : A -> B) (r : res A) : (forall a, f a = g a) -> rmap f r = rmap g r.
Proof. by move=> h; case: r => //= a; rewrite h. Qed.
Lemma loss_flip gg x y : lme_loss (cgs gg) LNone (f1 x) y = lme_loss gg LNone x y.
Proof.
  have := lme_loss_convert sensible_signs gg x y; rewrite beta_signs gamma_signs => ->; apply: rmap_self => a.
  by rewrite ln_signs Rmult_0_r Rplus_0_r.
Qed.
Lemma gradient_beta_flip gg x y : lme_gradient_beta (cgs gg) LNone (f1 x) y = rmap f1 (lme_gradient_beta gg LNone x y).
Proof.
  have := lme_gradient_beta_convert sensible_signs gg x y; rewrite beta_signs gamma_signs => ->; apply: rmap_eq => a.
  by rewrite /= diagv_tr signed_inv // flipcE.
Qed.
Lemma gradient_gamma_flip gg x y : lme_gradient_gamma (cgs gg) LNone (f1 x) y = lme_gradient_gamma gg LNone x y.
Proof.
  have := lme_gradient_gamma_convert sensible_signs gg x y; rewrite beta_signs gamma_signs => ->; apply: rmap_self => a.
  apply/matrixP => j k; rewrite (ord1 k) !mxE scale_signs /=; have := signed_sq (signs_nth j h2).
  by rewrite !Rmult_1_r => ->; rewrite /Rdiv Rinv_1 !Rmult_1_l.
Qed.
Lemma hessian_flip gg y : lme_hessian_beta (cgs gg) LNone y =
  rmap (fun h => diagv (col_of p s1) *m h *m diagv (col_of p s1))%R (lme_hessian_beta gg LNone y).
Proof.
  have := lme_hessian_beta_convert sensible_signs gg y; rewrite gamma_signs => ->; apply: rmap_eq => a.
  by rewrite scale_signs /= diagv_tr Rinv_1 scale1r.
Qed.
Lemma optimal_flip gg y : lme_optimal_beta (cgs gg) y = rmap f1 (lme_optimal_beta gg y).
Proof.
  have := lme_optimal_beta_convert sensible_signs gg y; rewrite gamma_signs => ->; apply: rmap_eq => a; exact: beta_signs.
Qed.
Lemma same_signs y : re_mask (convert_gamma U y) = re_mask y.
Proof. by rewrite gamma_signs. Qed.
Lemma effects_flip gg x y : lme_random_effects (cgs gg) (f1 x) y = rmap (List.map f2) (lme_random_effects gg x y).
Proof.
  have := lme_random_effects_convert sensible_signs gg x (same_signs y); rewrite beta_signs gamma_signs => ->; apply: rmap_eq => a.
  apply: List.map_ext => u; exact: effects_signs.
Qed.
Lemma conditional_flip g x u : group_conditional (f1 x) (convert U g, f2 u) = group_conditional x (g, u).
Proof.
  rewrite /group_conditional; cbn [g_n g_x g_y g_z g_v convert]; rewrite scale_signs scale1r mulmx0 addr0.
  have -> : (u_scale U *: g_y g - g_x g *m u_fixed U *m f1 x - g_z g *m diagv (u_random U) *m f2 u)%R
      = (e *: (g_y g - g_x g *m x - g_z g *m u))%R.
    rewrite /= !flipcE -!scalemxAr !scalerBr; congr (_ - _ - _)%R; congr (_ *: _)%R.
      by rewrite -mulmxA [(diagv _ *m (diagv _ *m _))%R]mulmxA (diag_sq h1) mul1mx.
    by rewrite -mulmxA [(diagv _ *m (diagv _ *m _))%R]mulmxA (diag_sq h2) mul1mx.
  congr (_ + _)%coqR; congr (_ * _)%coqR.
  apply: eq_bigr => i _; rewrite [fun_of_matrix (_ *: _)%R _ _]mxE; congr (_ / _)%coqR.
  by rewrite RmulE /= !Rmult_1_r; case: he => ->; ring.
Qed.
Lemma demarginalized_flip gg x y : lme_demarginalized_loss (cgs gg) LNone (f1 x) y = lme_demarginalized_loss gg LNone x y.
Proof.
  rewrite /lme_demarginalized_loss effects_flip; case: (lme_random_effects gg x y) => [us|//]; cbn [rmap rbind].
  congr Ok; congr (_ + _)%coqR.
  elim: gg us => [|g l IH] [|u us] /=; rewrite ?big_nil // !big_cons IH; congr (_ + _)%R; exact: conditional_flip.
Qed.
Lemma total_flip gg : total_obs (cgs gg) = total_obs gg.
Proof. by rewrite /total_obs; elim: gg => [|g l IH] /=; rewrite ?big_nil // !big_cons IH. Qed.
Lemma size_flip gg : size (cgs gg) = size gg.
Proof. by elim: gg => //= g l ->. Qed.
Lemma vaida_flip gg tol mg x y : lme_vaida_aic (cgs gg) LNone tol mg (f1 x) y = lme_vaida_aic gg LNone tol mg x y.
Proof.
  rewrite /lme_vaida_aic loss_flip demarginalized_flip total_flip (count_flip he h1).
  have := lme_ddf_convert sensible_signs gg (same_signs y); rewrite gamma_signs => ->; by case: mg.
Qed.
Lemma jones_flip gg tol x y : lme_jones_bic (cgs gg) LNone tol (f1 x) y = lme_jones_bic gg LNone tol x y.
Proof.
  have cb : count_ge tol (convert_beta U x) = count_ge tol x by rewrite beta_signs (count_flip he h1).
  have cg : count_ge tol (convert_gamma U y) = count_ge tol y by rewrite gamma_signs.
  have [+ _] := @criteria_follow_units_partial_lemma p q U sensible_signs gg tol x y cb cg.
  rewrite beta_signs gamma_signs => ->; apply: rmap_self => a.
  by rewrite ln_signs Rmult_0_r Rplus_0_r.
Qed.
Lemma muller_flip gg tol x y : lme_muller_ic (cgs gg) LNone tol (f1 x) y = lme_muller_ic gg LNone tol x y.
Proof. by rewrite /lme_muller_ic loss_flip total_flip size_flip (count_flip he h1). Qed.

Variable cdf : R -> R.
Hypothesis hcdf : symmetric_cdf cdf.
Lemma flip_one_sign t m sd : signed t -> flip_one cdf (t * m) sd = flip_one cdf m sd.
Proof.
  case=> ->; first by rewrite Rmult_1_l.
  have -> : (-1 * m = - m)%coqR by ring.
  rewrite /flip_one.
  have -> : rltb 0 (- m) = rltb m 0 by apply/rltbP/rltbP; lra.
  have -> : rltb (- m) 0 = rltb 0 m by apply/rltbP/rltbP; lra.
  have k : ((0 - - m) / sd = - ((0 - m) / sd))%coqR by rewrite /Rdiv; ring.
  case a : (rltb m 0); case b : (rltb 0 m) => //.
  - by move/rltbP: a; move/rltbP: b; lra.
  - by case: (guard _ _) => //= _; rewrite k hcdf.
  - by case: (guard _ _) => //= _; rewrite k hcdf; congr Ok; ring.
Qed.
Lemma probabilities_flip gg x y : lme_flip_probabilities cdf (cgs gg) LNone (f1 x) y = lme_flip_probabilities cdf gg LNone x y.
Proof.
  rewrite /lme_flip_probabilities hessian_flip; case: (lme_hessian_beta gg LNone y) => [h|//]; cbn [rmap rbind].
  have := @np_inv_conj p 1%coqR h (diagv (col_of p s1)) R1_neq_R0 (diag_unit h1).
  rewrite scale1r => ->; case: (np_inv h) => [cov|//]; cbn [rmap rbind].
  rewrite (diag_inv h1) Rinv_1 scale1r; congr sequence; apply: List.map_ext => j.
  rewrite -[LHS]/(flip_one cdf (f1 x j ord0) (sqrt ((diagv (col_of p s1) *m cov *m diagv (col_of p s1))%R j j))).
  have -> : ((diagv (col_of p s1) *m cov *m diagv (col_of p s1))%R j j = cov j j).
    rewrite mulmx_diagv mul_diagv !mxE; have := signed_sq (signs_nth j h1); set t := List.nth _ _ _ => tt.
    by rewrite mulrAC [(t * t)%R]tt mul1r.
  rewrite mxE flip_one_sign //; have := signs_nth j h1; case: he => -> [] ->; [left|right|right|left]; ring.
Qed.

(** ** as the fit sees them *)
Variable gs : res (seq (group p q)).
Notation gs' := (rmap (List.map (convert U)) gs).
Notation c := (list_calls gs (Ok LNone) cdf None).
Notation c' := (list_calls gs' (Ok LNone) cdf None).
Lemma flip_size b : length b = p -> length (flip (vscale e s1) b) = p.
Proof. by move=> lb; rewrite /flip /vmul map2_length (len_scaled e h1) lb PeanoNat.Nat.min_id. Qed.
Lemma at_flip (A B : Type) (h : A -> B) b g (k : seq (group p q) -> 'cV[R]_p -> 'cV[R]_q -> res A) (k' : _ -> _ -> _ -> res B) :
  length b = p -> length g = q -> (forall gg x y, k' (cgs gg) (f1 x) y = rmap h (k gg x y)) ->
  at_params gs' (flip (vscale e s1) b) g k' = rmap h (at_params gs b g k).
Proof.
  move=> lb lg hk; rewrite /at_params; case: gs => [gg|//]; cbn [rmap rbind].
  rewrite !sized_ok //; last exact: flip_size.
  by cbn [rbind]; rewrite (col_flip e h1 lb) hk.
Qed.
Lemma with_flip (A B : Type) (h : A -> B) b g (k : seq (group p q) -> lme_prior p q -> 'cV[R]_p -> 'cV[R]_q -> res A)
    (k' : _ -> _ -> _ -> _ -> res B) : length b = p -> length g = q ->
  (forall gg x y, k' (cgs gg) LNone (f1 x) y = rmap h (k gg LNone x y)) ->
  with_prior gs' (Ok LNone) (flip (vscale e s1) b) g k' = rmap h (with_prior gs (Ok LNone) b g k).
Proof. by move=> lb lg hk; rewrite /with_prior; apply: at_flip => // gg x y; cbn [rbind]; exact: hk. Qed.
Lemma vec_flip1 (r : res 'cV[R]_p) : to_vec (rmap f1 r) = rmap (flip (vscale e s1)) (to_vec r).
Proof. by case: r => //= x; rewrite (vec_flip e h1). Qed.
Lemma calls_flip : calls_sim p q (vscale e s1) (vscale e s2) c c'.
Proof.
  split; cbn [lc_loss lc_gradient_beta lc_gradient_gamma lc_optimal_beta lc_random_effects lc_vaida lc_jones lc_muller lc_flip list_calls].
  - move=> b g lb lg; rewrite /list_loss (@with_flip _ _ (fun a => a) b g (@lme_loss p q)) ?rmap_id // => gg x y.
    by rewrite rmap_id loss_flip.
  - move=> b g lb lg; rewrite /list_gradient_beta -vec_flip1; congr to_vec; apply: with_flip => // gg x y; exact: gradient_beta_flip.
  - move=> b g v; exact: to_vec_len.
  - move=> b g lb lg; rewrite /list_gradient_gamma (@with_flip _ _ (fun a => a) b g (@lme_gradient_gamma p q)) ?rmap_id // => gg x y.
    by rewrite rmap_id gradient_gamma_flip.
  - move=> b g v; exact: to_vec_len.
  - move=> g lg; rewrite /list_optimal_beta -vec_flip1; congr to_vec; case: gs => [gg|//]; cbn [rmap rbind].
    by rewrite !sized_ok //; cbn [rbind]; rewrite optimal_flip.
  - move=> g v; exact: to_vec_len.
  - move=> b g lb lg; rewrite /list_random_effects (@at_flip _ _ (List.map f2) b g (@lme_random_effects p q)) //.
      case: (at_params _ _ _ _) => [us|//]; cbn [rmap]; congr Ok; rewrite !List.map_map; apply: List.map_ext => u.
      exact: (vec_flip e h2).
    move=> gg x y; exact: effects_flip.
  - move=> b g us; rewrite /list_random_effects; case: (at_params _ _ _ _) => [vs|//] [<-].
    by apply/List.Forall_forall => u /List.in_map_iff [w [<- _]]; exact: length_vec_of.
  - move=> mg tol b g lb lg; rewrite (@with_flip _ _ (fun a => a) b g (fun gs pr b g => lme_vaida_aic gs pr tol mg b g)) ?rmap_id // => gg x y.
    by rewrite rmap_id vaida_flip.
  - move=> tol b g lb lg; rewrite (@with_flip _ _ (fun a => a) b g (fun gs pr b g => lme_jones_bic gs pr tol b g)) ?rmap_id // => gg x y.
    by rewrite rmap_id jones_flip.
  - move=> tol b g lb lg; rewrite (@with_flip _ _ (fun a => a) b g (fun gs pr b g => lme_muller_ic gs pr tol b g)) ?rmap_id // => gg x y.
    by rewrite rmap_id muller_flip.
  - move=> b g lb lg; rewrite (@with_flip _ _ (fun a => a) b g (fun gs pr b g => lme_flip_probabilities cdf gs pr b g)) ?rmap_id // => gg x y.
    by rewrite rmap_id probabilities_flip.
  - move=> b g v; rewrite /with_prior /at_params; case: gs => [gg|//]; cbn [rbind]; case: (sized p b) => [x|//]; cbn [rbind].
    case: (sized q g) => [y|//]; cbn [rbind]; exact: flip_length.
Qed.
End Bridge.

(** ** fits *)
Lemma fit_flips argsort cdf m coef x y labels cs e beta0 gamma0 warm ff fr fe re :
  plain_model_of m -> symmetric_cdf cdf -> wf_table x -> t_cols x = length labels -> column_signs labels cs ->
  (e = 1 \/ e = -1)%coqR ->
  let p := (countb is_fixed labels + b2n ff)%coq_nat in
  let q := (countb is_random labels + b2n fr)%coq_nat in
  let s1 := role_signs is_fixed ff labels cs in
  let s2 := role_signs is_random fr labels cs in
  (0 < q)%coq_nat -> (beta0 <> None \/ mo_initializer m = "EM"%string) ->
  (forall v, beta0 = Some v -> length v = p) -> (forall v, gamma0 = Some v -> length v = q) ->
  (forall v, fe = Some v -> length v = p) -> (forall v, re = Some v -> length v = q) ->
  lme_fit argsort cdf m coef (flip_table cs x) (vscale e y) (Some labels)
    (option_map (flip (vscale e s1)) beta0) gamma0 warm ff fr fe re
  = rmap (flip_lme_fit q e s1 s2 cs) (lme_fit argsort cdf m coef x y (Some labels) beta0 gamma0 warm ff fr fe re).
Proof.
  move=> hm hcdf wx hx hcs he p q s1 s2 q0 hs hb hg hf hr; rewrite /lme_fit /fit.
  have -> : check_X_y (flip_table cs x) (vscale e y) = check_X_y x y.
    by rewrite /check_X_y /flip_table /flip_columns /vscale /= !List.map_length.
  case: (check_X_y x y) => [u|//]; cbn [rbind].
  have := @from_x_y_flip cs labels ff fr e hcs x (Some y) wx hx.
  case: (from_x_y x _ _ _ _ _ _ _) => [pr|er]; case: (from_x_y _ _ _ _ _ _ _ _) => [pr'|er'] //; last by move=> ->.
  move=> T; cbn [rbind].
  have [ep ep'] := fs_p _ _ _ _ _ _ _ T; have [eq eq'] := fs_q _ _ _ _ _ _ _ T.
  have [ov [e1 [e2 e3]]] := view_total pr.
  have [wf [wr [ew ew']]] := fs_weights _ _ _ _ _ _ _ T fe re hf hr.
  have hd1 := scaled_signs cs labels e hcs he is_fixed ff; have hd2 := scaled_signs cs labels e hcs he is_random fr.
  have hp1 := plain_signs cs labels e hcs he is_fixed ff; have hp2 := plain_signs cs labels e hcs he is_random fr.
  apply: (@fit_problem_sim p q e s1 s2 cs q0 hd1 hd2 argsort list_solve (problem_calls cdf) pr pr' fe re ov wf wr) => //.
  - by rewrite /num_groups /groups_sizes (fs_fixed _ _ _ _ _ _ _ T) !List.map_length.
  - exact: (fs_groups _ _ _ _ _ _ _ T).
  - by rewrite e2 e3.
  - by rewrite (fs_view _ _ _ _ _ _ _ T).
  - rewrite /problem_calls ep ep' eq eq' -/p -/q.
    rewrite (@groups_flip p q e s1 s2 he hp1 hp2 pr pr' (fs_fixed _ _ _ _ _ _ _ T) (fs_random _ _ _ _ _ _ _ T)
      (fs_answers _ _ _ _ _ _ _ T) (fs_vars _ _ _ _ _ _ _ T)).
    all: try exact: (fs_0d _ _ _ _ _ _ _ T); try exact: (fs_flen _ _ _ _ _ _ _ T); try exact: (fs_rlen _ _ _ _ _ _ _ T).
    exact: calls_flip.
  - move=> b us lb lu; rewrite (fs_labels _ _ _ _ _ _ _ T) (fs_labels' _ _ _ _ _ _ _ T) (fs_intercept _ _ _ _ _ _ _ T) (fs_intercept' _ _ _ _ _ _ _ T); exact: per_group_flip.
Qed.
