(** The evaluations of the relaxed oracle on a problem with changed signs, and fits. *)
From Coq Require Import Lia Lra.
From Verif.Base Require Import Py Vec Mat RMx.
From Verif.Model Require Import LmeProblem Regularizers LmeInner LmeFit.
From Verif.Spec Require Import LmeSpec ColumnSpec InnerSpec FlipSpec.
From Verif.Proofs Require Import VecFacts ColumnCases FeatureCoefs FlipTable FlipFit FlipInner FlipRelaxed.
From mathcomp Require Import ssreflect ssrfun ssrbool eqtype ssrnat choice seq fintype
  finfun bigop finset ssralg zmodp matrix mxalgebra.
From Verif.Model Require Import LmeOracle LmeBridge.
From Verif.Spec Require Import MxSpec UnitsSpec.
From Verif.Proofs Require Import MxFacts UnitsProofs BridgeProofs LmeUseMain LmeUnitsMain FeatureBridge FlipBridge.
Set Implicit Arguments.
Unset Strict Implicit.
Unset Printing Implicit Defensive.
Delimit Scope R_scope with coqR.
Local Open Scope res_scope.
Import GRing.Theory.

Section Matrices.
Variables (n : nat) (s : vec).
Hypothesis hs : is_signs n s.
Notation D := (diagv (col_of n s)).
Lemma map2_same_map (A B C T : Type) (f : A -> B -> C) (g : T -> A) (h : T -> B) l :
  map2 f (List.map g l) (List.map h l) = List.map (fun x => f (g x) (h x)) l.
Proof. by elim: l => //= a l ->. Qed.
Lemma signs_map : s = List.map (fun i : 'I_n => List.nth i s 0%coqR) (enum 'I_n).
Proof.
  apply: (List.nth_ext _ _ 0%coqR 0%coqR).
    have := length_vec_of (col_of n s); rewrite /vec_of !List.map_length => ->; by case: hs.
  case: hs => l _; move=> i; rewrite l => /ltP hi.
  have := nth_vec_of (col_of n s) (Ordinal hi) 0%coqR; rewrite mxE /= => <-.
  congr List.nth; apply: List.map_ext => j; by rewrite mxE.
Qed.
Lemma flip_map_enum (F : 'I_n -> R) : flip s (List.map F (enum 'I_n)) = List.map (fun i : 'I_n => (List.nth i s 0 * F i)%coqR) (enum 'I_n).
Proof. by rewrite {1}signs_map /flip /vmul map2_same_map. Qed.
Lemma mat_rows m (h : 'M[R]_(n, m)) : mat_of (D *m h)%R = flip_rows s (mat_of h).
Proof.
  rewrite {2}signs_map /flip_rows /mat_of map2_same_map; apply: List.map_ext => i.
  rewrite /vscale List.map_map; apply: List.map_ext => j; by rewrite mul_diagv mxE.
Qed.
Lemma mat_sandwich (h : 'M[R]_n) : mat_of (D *m h *m D)%R = flip_mx s s (mat_of h).
Proof.
  rewrite /flip_mx {4}signs_map /mat_of map2_same_map; apply: List.map_ext => i.
  rewrite flip_map_enum /vscale List.map_map; apply: List.map_ext => j.
  rewrite mulmx_diagv mul_diagv !mxE; toR; ring.
Qed.
Lemma mx_sandwich a : is_shape n n a -> mx_of n n (flip_mx s s a) = (D *m mx_of n n a *m D)%R.
Proof.
  case=> la /List.Forall_forall wa; apply/matrixP => i j; rewrite mulmx_diagv mul_diagv !mxE.
  have hi : (i < length a)%coq_nat by rewrite la; exact/ltP.
  have hl : (i < length s)%coq_nat by case: hs => -> _; exact/ltP.
  rewrite /flip_mx (@map2_nth _ _ _ _ s a i 0%coqR [::] [::]) //; last first.
  rewrite nth_vscale /flip nth_vmul; first by toR; ring.
  by case: hs => -> _; rewrite (wa _ (List.nth_In _ _ hi)).
Qed.
Lemma list_solve_flip a b : is_shape n n a -> length b = n ->
  list_solve (flip_mx s s a) (flip s b) = rmap (flip s) (list_solve a b).
Proof.
  move=> sa lb; have [la wa] := sa; rewrite /list_solve.
  have lf : length (flip_mx s s a) = n.
    by rewrite /flip_mx map2_length la; case: hs => -> _; exact: PeanoNat.Nat.min_id.
  have lfb : length (flip s b) = n by rewrite /flip /vmul map2_length lb; case: hs => -> _; exact: PeanoNat.Nat.min_id.
  have ok (x : mat) : wf_mat n x -> List.forallb (fun row => Nat.eqb (length row) n) x = true.
    by move=> /List.Forall_forall w; apply/List.forallb_forall => r hr; rewrite (w _ hr) PeanoNat.Nat.eqb_refl.
  rewrite lf la lb lfb PeanoNat.Nat.eqb_refl !ok //; last first.
    exact: (@flip_mx_wf n s hs s a wa).
  cbn [guard rbind]. rewrite mx_sandwich //.
  have e1 : vscale 1%coqR s = s by exact: vscale_one.
  have := @col_flip n 1%coqR s hs b lb; rewrite e1 => ->.
  rewrite flipcE scale1r np_solve_conj; last exact: diag_unit.
  case: (np_solve _ _) => [x|//]; cbn [rmap rbind]; congr Ok; rewrite diag_inv //.
  have := @vec_flip n 1%coqR s hs x; rewrite e1 flipcE scale1r; exact.
Qed.
End Matrices.
Lemma list_solve_len a b x : list_solve a b = Ok x -> length x = length b.
Proof.
  rewrite /list_solve; case: (guard _ _) => [u|//]; cbn [rbind]; case h : (Nat.eqb _ _) => //; cbn [guard rbind].
  case: (np_solve _ _) => [y|//] [<-]; rewrite length_vec_of; by move/PeanoNat.Nat.eqb_eq: h => ->.
Qed.
Lemma mat_shape n m (h : 'M[R]_(n, m)) : is_shape n m (mat_of h).
Proof.
  split; first by rewrite /mat_of List.map_length; have := length_vec_of (0%R : 'cV[R]_n); rewrite /vec_of List.map_length.
  apply/List.Forall_forall => r /List.in_map_iff [i [<- _]].
  by rewrite List.map_length; have := length_vec_of (0%R : 'cV[R]_m); rewrite /vec_of List.map_length.
Qed.
Lemma to_mat_shape n m (r : res 'M[R]_(n, m)) h : to_mat r = Ok h -> is_shape n m h.
Proof. case: r => [x|//] [<-]; exact: mat_shape. Qed.

Section Relaxed.
Variables (p q : nat) (e : R) (s1 s2 : vec).
Hypothesis he : signed e.
Hypothesis h1 : is_signs p s1.
Hypothesis h2 : is_signs q s2.
Hypothesis hd : is_signs p (vscale e s1).
Notation U := (sign_units p q e s1 s2).
Notation f1 := (flipc e s1 : 'cV[R]_p -> 'cV[R]_p).
Notation cgs := (List.map (convert U)).
Notation D := (diagv (col_of p (vscale e s1))).
Implicit Types (gg : seq (group p q)) (x : 'cV[R]_p) (y : 'cV[R]_q).
Lemma scaled_diag : D = (e *: diagv (col_of p s1))%R.
Proof.
  apply/matrixP => i j; rewrite !mxE nth_vscale; case: eqP => _; first by rewrite !mulr1n.
  by rewrite !mulr0n mulr0.
Qed.
Lemma flip_diag x : f1 x = (D *m x)%R.
Proof. by rewrite flipcE scaled_diag scalemxAl. Qed.
Lemma sandwich_diag (h : 'M[R]_p) : (diagv (col_of p s1) *m h *m diagv (col_of p s1) = D *m h *m D)%R.
Proof.
  rewrite scaled_diag -!scalemxAl -scalemxAr scalerA.
  have -> : (e * e)%R = 1%R by exact: signed_sq.
  by rewrite scale1r.
Qed.
Lemma hessian_diag gg y : lme_hessian_beta (cgs gg) LNone y = rmap (fun h => D *m h *m D)%R (lme_hessian_beta gg LNone y).
Proof. rewrite (hessian_flip he h1 h2); apply: rmap_eq => h; exact: sandwich_diag. Qed.
Lemma relaxed_hessian lb gg y : sr3_hessian_beta lb (cgs gg) LNone y = rmap (fun h => D *m h *m D)%R (sr3_hessian_beta lb gg LNone y).
Proof.
  rewrite /sr3_hessian_beta hessian_diag; case: (lme_hessian_beta _ _ _) => [h|//]; cbn [rmap rbind]; congr Ok.
  by rewrite mulmxDr mulmxDl -scalemxAr -scalemxAl mulmx1 (diag_sq hd).
Qed.
Lemma relaxed_gradient_beta lb gg x y tb :
  sr3_gradient_beta lb (cgs gg) LNone (f1 x) y (f1 tb) = rmap f1 (sr3_gradient_beta lb gg LNone x y tb).
Proof.
  rewrite /sr3_gradient_beta (gradient_beta_flip he h1 h2); case: (lme_gradient_beta _ _ _ _) => [d|//]; cbn [rmap rbind]; congr Ok.
  by rewrite !flip_diag mulmxDr -scalemxAr mulmxBr.
Qed.
Lemma relaxed_gradient_gamma lg gg x y tg :
  sr3_gradient_gamma lg (cgs gg) LNone (f1 x) y tg = sr3_gradient_gamma lg gg LNone x y tg.
Proof. by rewrite /sr3_gradient_gamma (gradient_gamma_flip he h1 h2). Qed.
Lemma mixed_flip gg x y : lme_hessian_beta_gamma (cgs gg) (f1 x) y = rmap (fun h => D *m h)%R (lme_hessian_beta_gamma gg x y).
Proof.
  have := lme_hessian_mixed_convert (sensible_signs he h1 h2) gg x y; rewrite (@beta_signs p q e s1 s2 h1) (@gamma_signs p q e s1 s2 he h2) => ->.
  apply: rmap_eq => h; rewrite /= diagv_tr scaled_diag -scalemxAl.
  have -> : diagv (\col_j ((col_of q s2) j ord0 * ((col_of q s2) j ord0 * 1))%coqR) = 1%:M%R :> 'M[R]_q.
    apply/matrixP => i j; rewrite !mxE; case: eqP => [->|_]; last by rewrite !mulr0n.
    rewrite !mulr1n Rmult_1_r; apply: signed_sq; exact: signs_nth.
  rewrite mulmx1; congr (_ *: _)%R; case: he => ->; lra.
Qed.
Lemma relaxed_hessian_gamma lg gg a b x y :
  sr3_hessian_gamma lg (cgs gg) LNone a b (f1 x) y = sr3_hessian_gamma lg gg LNone a b x y.
Proof.
  rewrite /sr3_hessian_gamma.
  have := lme_hessian_gamma_convert (sensible_signs he h1 h2) gg a b x y; rewrite (@beta_signs p q e s1 s2 h1) (@gamma_signs p q e s1 s2 he h2) => ->.
  rewrite (@rmap_self _ _ (lme_hessian_gamma gg LNone a b x y)) // => h; apply/matrixP => i j; rewrite !mxE.
  have := signed_sq (signs_nth i h2); have := signed_sq (signs_nth j h2); have := signed_sq he.
  rewrite /=; set u := List.nth i _ _; set v := List.nth j _ _ => ee vv uu.
  have -> : (e * (e * (e * (e * 1))) = (e * e) * (e * e))%coqR by ring.
  by rewrite ee !Rmult_1_r uu vv /Rdiv Rmult_1_l Rinv_1 !Rmult_1_l.
Qed.
Lemma relaxed_optimal lb gg y tb : sr3_optimal_beta lb (cgs gg) y (f1 tb) = rmap f1 (sr3_optimal_beta lb gg y tb).
Proof.
  rewrite /sr3_optimal_beta.
  have := kernel_tail_convert (sensible_signs he h1 h2) gg y; rewrite (@gamma_signs p q e s1 s2 he h2) => ->.
  case: (kernel_tail gg y) => [[K t]|//]; cbn [rmap rbind fst snd].
  rewrite (@scale_signs p q e s1 s2 he) Rinv_1 scale1r /= diagv_tr mulmx0 addr0 signed_inv // sandwich_diag.
  have -> : (e *: (diagv (col_of p s1) *m t) = D *m t)%R by rewrite scaled_diag scalemxAl.
  have -> : (lb *: 1%:M + D *m K *m D = D *m (lb *: 1%:M + K) *m D)%R.
    by rewrite mulmxDr mulmxDl -scalemxAr -scalemxAl mulmx1 (diag_sq hd).
  have -> : (lb *: f1 tb + D *m t = D *m (lb *: tb + t))%R by rewrite flip_diag mulmxDr -scalemxAr.
  rewrite np_solve_conj; last exact: diag_unit.
  by apply: rmap_eq => z; rewrite diag_inv // flip_diag.
Qed.
Lemma sumsq_flip x tb : sumsq (f1 x - f1 tb)%R = sumsq (x - tb)%R.
Proof.
  rewrite /sumsq; apply: eq_bigr => i _; rewrite !mxE.
  have := signed_sq (signs_nth i h1); have := signed_sq he; set s := List.nth _ _ _ => ee ss.
  set a := x i ord0; set b := tb i ord0.
  have -> : ((e * s * a - e * s * b) ^ 2 = (e * e) * (s * s) * (a - b) ^ 2)%coqR by ring.
  by rewrite ee ss !Rmult_1_l.
Qed.
Lemma relaxed_loss lb lg gg x y tb tg : sr3_loss lb lg (cgs gg) LNone (f1 x) y (f1 tb) tg = sr3_loss lb lg gg LNone x y tb tg.
Proof. by rewrite /sr3_loss (loss_flip he h1 h2) sumsq_flip. Qed.

Variable cdf : R -> R.
Hypothesis hcdf : symmetric_cdf cdf.
Lemma relaxed_probabilities lb gg x y :
  sr3_flip_probabilities cdf lb (cgs gg) LNone (f1 x) y = sr3_flip_probabilities cdf lb gg LNone x y.
Proof.
  rewrite /sr3_flip_probabilities relaxed_hessian; case: (sr3_hessian_beta lb gg LNone y) => [h|//]; cbn [rmap rbind].
  have := @np_inv_conj p 1%coqR h D R1_neq_R0 (diag_unit hd).
  rewrite scale1r => ->; case: (np_inv h) => [cov|//]; cbn [rmap rbind].
  rewrite (diag_inv hd) Rinv_1 scale1r; congr sequence; apply: List.map_ext => j.
  rewrite -[LHS]/(flip_one cdf (f1 x j ord0) (sqrt ((D *m cov *m D)%R j j))).
  have -> : ((D *m cov *m D)%R j j = cov j j).
    rewrite mulmx_diagv mul_diagv mxE; have := signed_sq (signs_nth j hd); set t := List.nth _ _ _ => tt.
    by rewrite mulrAC [(t * t)%R]tt mul1r.
  rewrite mxE (flip_one_sign hcdf) //; have := signs_nth j h1; case: he => -> [] ->; [left|right|right|left]; ring.
Qed.

(** ** as the fit sees them *)
Variables (gs : res (seq (group p q))) (ss : sr3_settings).
Notation gs' := (rmap (List.map (convert U)) gs).
Notation c := (list_calls gs (Ok LNone) cdf (Some ss)).
Notation c' := (list_calls gs' (Ok LNone) cdf (Some ss)).
Lemma relaxed_calls_flip : calls_sim p q (vscale e s1) (vscale e s2) c c'.
Proof.
  have [a1 a2 a3 a4 a5 a6 a7 a8 a9 a10 a11 a12 _ _] := calls_flip he h1 h2 hcdf gs.
  split=> //; cbn [lc_flip list_calls].
  - move=> b g lb lg; rewrite (@with_flip p q e s1 s2 h1 gs _ _ (fun a => a) b g (fun gs pr b g => sr3_flip_probabilities cdf (ss_ell ss) gs pr b g)) ?rmap_id // => gg x y.
    by rewrite rmap_id relaxed_probabilities.
  - move=> b g v; rewrite /= /with_prior /at_params; case: gs => [gg|//]; cbn [rbind]; case: (sized p b) => [x|//]; cbn [rbind].
    case: (sized q g) => [y|//]; cbn [rbind]; rewrite /sr3_flip_probabilities.
    case: (sr3_hessian_beta _ _ _ _) => [h|//]; cbn [rbind]; case: (np_inv h) => [cov|//]; cbn [rbind].
    move/LinearProofs.sequence_length => ->; rewrite List.map_length; exact: size_enum_ord.
Qed.
Lemma relaxed_sr3_flip : sr3_sim p q (vscale e s1) (lc_sr3 c) (lc_sr3 c').
Proof.
  split; cbn [lc_sr3 list_calls list_sr3_calls sc_gradient_beta sc_gradient_gamma sc_hessian_beta sc_hessian_beta_gamma sc_hessian_gamma sc_optimal_beta sc_loss].
  - move=> l b g tb tg lb lg ltb ltg; rewrite -(vec_flip1 e h1); congr to_vec; rewrite !sized_ok //; last exact: flip_size.
    cbn [rbind]; rewrite (col_flip e h1 ltb); apply: (with_flip h1) => // gg x y; exact: relaxed_gradient_beta.
  - move=> l b g tb tg v; exact: to_vec_len.
  - move=> l b g tb tg lb lg ltb ltg; rewrite !sized_ok //; cbn [rbind].
    rewrite (@with_flip p q e s1 s2 h1 gs _ _ (fun a => a) b g (fun gs pr b g => sr3_gradient_gamma (lam_g l) gs pr b g (col_of q tg))) ?rmap_id // => gg x y.
    by rewrite rmap_id relaxed_gradient_gamma.
  - move=> l b g tb tg v; exact: to_vec_len.
  - move=> l b g lb lg.
    rewrite (@with_flip p q e s1 s2 h1 gs _ _ (fun h => D *m h *m D)%R b g (fun gs pr b g => sr3_hessian_beta (lam_b l) gs pr g)) // => [|gg x y]; last exact: relaxed_hessian.
    by case: (with_prior _ _ _ _ _) => [h|//]; cbn [rmap to_mat]; congr Ok; exact: mat_sandwich.
  - move=> l b g h; exact: to_mat_shape.
  - move=> b g lb lg.
    rewrite (@at_flip p q e s1 s2 h1 gs _ _ (fun h => D *m h)%R b g (@lme_hessian_beta_gamma p q)) // => [|gg x y]; last exact: mixed_flip.
    by case: (at_params _ _ _ _) => [h|//]; cbn [rmap to_mat]; congr Ok; exact: mat_rows.
  - move=> b g h; exact: to_mat_shape.
  - move=> l b g lb lg.
    rewrite (@with_flip p q e s1 s2 h1 gs _ _ (fun a => a) b g (fun gs pr b g => sr3_hessian_gamma (lam_g l) gs pr (ss_positive ss) (ss_expected ss) b g)) ?rmap_id // => gg x y.
    by rewrite rmap_id relaxed_hessian_gamma.
  - move=> l b g h; exact: to_mat_shape.
  - move=> l g tb lg ltb; rewrite -(vec_flip1 e h1); congr to_vec; case: gs => [gg|//]; cbn [rmap rbind].
    rewrite !sized_ok //; last exact: flip_size.
    by cbn [rbind]; rewrite (col_flip e h1 ltb) relaxed_optimal.
  - move=> l g tb v; exact: to_vec_len.
  - move=> l b g tb tg lb lg ltb ltg; rewrite !sized_ok //; last exact: flip_size.
    cbn [rbind]; rewrite (col_flip e h1 ltb).
    rewrite (@with_flip p q e s1 s2 h1 gs _ _ (fun a => a) b g (fun gs pr b g => sr3_loss (lam_b l) (lam_g l) gs pr b g (col_of p tb) (col_of q tg))) ?rmap_id // => gg x y.
    by rewrite rmap_id relaxed_loss.
Qed.
End Relaxed.

(** ** fits *)
Lemma relaxed_fit_flips argsort cdf m ss coef x y labels cs e b0 gamma0 warm ff fr fe re :
  mo_sr3 m = Some ss -> mo_prior m = None -> (ss_practical ss = true -> logs_no_coefficients m) ->
  symmetric_cdf cdf -> wf_table x -> t_cols x = length labels -> column_signs labels cs ->
  (e = 1 \/ e = -1)%coqR ->
  let p := (countb is_fixed labels + b2n ff)%coq_nat in
  let q := (countb is_random labels + b2n fr)%coq_nat in
  let s1 := role_signs is_fixed ff labels cs in
  let s2 := role_signs is_random fr labels cs in
  (0 < q)%coq_nat -> length b0 = p -> (forall v, gamma0 = Some v -> length v = q) ->
  (forall v, fe = Some v -> length v = p) -> (forall v, re = Some v -> length v = q) ->
  lme_fit argsort cdf m coef (flip_table cs x) (vscale e y) (Some labels)
    (Some (flip (vscale e s1) b0)) gamma0 warm ff fr fe re
  = rmap (flip_lme_fit q e s1 s2 cs) (lme_fit argsort cdf m coef x y (Some labels) (Some b0) gamma0 warm ff fr fe re).
Proof.
  move=> hm1 hm2 hm3 hcdf wx hx hcs he p q s1 s2 q0 hb hg hf hr; rewrite /lme_fit /fit.
  have -> : check_X_y (flip_table cs x) (vscale e y) = check_X_y x y.
    by rewrite /check_X_y /flip_table /flip_columns /vscale /= !List.map_length.
  case: (check_X_y x y) => [u|//]; cbn [rbind].
  have := @from_x_y_flip cs labels ff fr e hcs x (Some y) wx hx.
  case: (from_x_y x _ _ _ _ _ _ _) => [pr|er]; case: (from_x_y _ _ _ _ _ _ _ _) => [pr'|er'] //; last by move=> ->.
  move=> T; cbn [rbind].
  have [ep ep'] := fs_p _ _ _ _ _ _ _ T; have [eq eq'] := fs_q _ _ _ _ _ _ _ T.
  have [ov [e1 [e2 e3]]] := view_total pr.
  have [wf [wr [ew ew']]] := fs_weights _ _ _ _ _ _ _ T fe re hf hr.
  have hd1 := scaled_signs cs labels e hcs he is_fixed ff; have hd2 := scaled_signs cs labels e hcs he is_random fr.
  have hp1 := plain_signs cs labels e hcs he is_fixed ff; have hp2 := plain_signs cs labels e hcs he is_random fr.
  have hgs := @groups_flip p q e s1 s2 he hp1 hp2 pr pr' (fs_fixed _ _ _ _ _ _ _ T) (fs_random _ _ _ _ _ _ _ T)
      (fs_answers _ _ _ _ _ _ _ T) (fs_vars _ _ _ _ _ _ _ T) (fs_0d _ _ _ _ _ _ _ T) (fs_flen _ _ _ _ _ _ _ T) (fs_rlen _ _ _ _ _ _ _ T).
  apply: (@relaxed_problem_sim p q e s1 s2 cs q0 hd1 hd2 argsort list_solve (problem_calls cdf) pr pr' fe re ov wf wr ss) => //.
  - move=> n sg a b hsg ha hbb; exact: (@list_solve_flip n sg hsg a b ha hbb).
  - exact: list_solve_len.
  - by rewrite /num_groups /groups_sizes (fs_fixed _ _ _ _ _ _ _ T) !List.map_length.
  - exact: (fs_groups _ _ _ _ _ _ _ T).
  - by rewrite e2 e3.
  - by rewrite (fs_view _ _ _ _ _ _ _ T).
  - by rewrite /problem_calls ep ep' eq eq' -/p -/q hgs; exact: relaxed_calls_flip.
  - by rewrite /problem_calls ep ep' eq eq' -/p -/q hgs; exact: relaxed_sr3_flip.
  - move=> b us lb lu; rewrite (fs_labels _ _ _ _ _ _ _ T) (fs_labels' _ _ _ _ _ _ _ T) (fs_intercept _ _ _ _ _ _ _ T) (fs_intercept' _ _ _ _ _ _ _ T); exact: per_group_flip.
Qed.
