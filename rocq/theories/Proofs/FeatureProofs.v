(** The evaluations of the oracle when the features are listed in another order. *)
From Verif.Base Require Import Py Vec RMx.
From Coq Require Import Lra FunctionalExtensionality.
From mathcomp Require Import ssreflect ssrfun ssrbool eqtype ssrnat choice seq fintype
  finfun bigop finset fingroup perm ssralg zmodp matrix mxalgebra.
From Verif.Model Require Import LmeOracle.
From Verif.Spec Require Import MxSpec FeatureSpec.
From Verif.Proofs Require Import MxFacts LmeBlup.
Set Implicit Arguments.
Unset Strict Implicit.
Unset Printing Implicit Defensive.
Delimit Scope R_scope with coqR.
Import GRing.Theory.
Local Open Scope ring_scope.
Local Open Scope res_scope.

(** ** permutation matrices *)
Section Perm.
Variables (n : nat) (s : 'S_n).
Definition pm : 'M[R]_n := col_perm s 1%:M.
Lemma pmE i j : pm i j = (i == s j)%:R.
Proof. by rewrite !mxE. Qed.
Lemma col_pm m (A : 'M[R]_(m, n)) : col_perm s A = A *m pm.
Proof.
  apply/matrixP=> i j; rewrite !mxE (bigD1 (s j)) //= !mxE eqxx mulr1 big1 ?addr0 // => k /negbTE h.
  by rewrite !mxE h mulr0.
Qed.
Lemma row_pm m (A : 'M[R]_(n, m)) : row_perm s A = pm^T *m A.
Proof.
  apply/matrixP=> i j; rewrite !mxE (bigD1 (s i)) //= !mxE eqxx mul1r big1 ?addr0 // => k /negbTE h.
  by rewrite !mxE h mul0r.
Qed.
Lemma pmTp : pm^T *m pm = 1%:M.
Proof.
  rewrite -row_pm; apply/matrixP=> i j; rewrite !mxE (inj_eq perm_inj) //.
Qed.
Lemma ppmT : pm *m pm^T = 1%:M.
Proof. exact: mulmx1C pmTp. Qed.
Lemma pm_mul m k (A : 'M[R]_(m, n)) (B : 'M[R]_(n, k)) : (A *m pm) *m (pm^T *m B) = A *m B.
Proof. by rewrite !mulmxA -(mulmxA A) ppmT mulmx1. Qed.
Lemma diag_pm (v : 'cV[R]_n) : diagv (pm^T *m v) = pm^T *m diagv v *m pm.
Proof.
  rewrite -row_pm -col_pm -row_pm; apply/matrixP=> i j; rewrite !mxE (inj_eq perm_inj) //.
Qed.
End Perm.

(** solving in other coordinates *)
Lemma inv_orth n (K Q : 'M[R]_n) : Q^T *m Q = 1%:M ->
  np_inv (Q^T *m K *m Q) = rmap (fun k => Q^T *m k *m Q) (np_inv K).
Proof.
  move=> h; have h' : Q *m Q^T = 1%:M by exact: mulmx1C h.
  rewrite /np_inv !unitmx_mul unitmx_tr.
  have uQ : Q \in unitmx by case: (mulmx1_unit h').
  rewrite uQ /= andbT; case: ifP => //= uK; congr Ok.
  have e : (Q^T *m invmx K *m Q) *m (Q^T *m K *m Q) = 1%:M.
    by rewrite !mulmxA -(mulmxA _ Q) h' mulmx1 -(mulmxA _ _ K) mulVmx // mulmx1.
  have u : Q^T *m K *m Q \in unitmx by rewrite !unitmx_mul unitmx_tr uQ uK.
  by rewrite -[RHS]mulmx1 -(mulmxV u) mulmxA e mul1mx.
Qed.
Lemma solve_orth n m k (e : n = m) (K : 'M[R]_n) (Q : 'M[R]_(n, m)) (b : 'M[R]_(n, k)) : Q^T *m Q = 1%:M -> Q *m Q^T = 1%:M ->
  np_solve (Q^T *m K *m Q) (Q^T *m b) = rmap (fun x => Q^T *m x) (np_solve K b).
Proof.
  move: Q; case: _ / e => Q h h'; rewrite /np_solve.
  have := inv_orth K h; rewrite /np_inv.
  case: ifP => u; case: ifP => u' //= [->]; congr Ok.
  by rewrite !mulmxA -(mulmxA _ Q) h' mulmx1.
Qed.
Lemma inv_orth_rect n m (e : n = m) (K : 'M[R]_n) (Q : 'M[R]_(n, m)) : Q^T *m Q = 1%:M ->
  np_inv (Q^T *m K *m Q) = rmap (fun k => Q^T *m k *m Q) (np_inv K).
Proof. by move: Q; case: _ / e => Q; exact: inv_orth. Qed.

Section Features.
Variables (p q : nat) (s : 'S_p) (t : 'S_q).
Implicit Types (g : group p q) (beta : 'cV[R]_p) (gamma : 'cV[R]_q) (gs : seq (group p q)).
Notation S := (pm s). Notation T := (pm t).
Notation rf := (reorder_features s t).
Notation rb := (row_perm s). Notation rg := (row_perm t).

Definition lift (f : fgroup p q) : fgroup p q := @Factored p q (rf (f_g f)) (f_el f) (f_inv f).
Lemma omega_re gamma g : omega_of (rg gamma) (rf g) = omega_of gamma g.
Proof.
  rewrite /omega_of; case: ifP => // _; cbn [reorder_features g_z g_v g_n]; congr (_ + _).
  rewrite col_pm row_pm diag_pm trmx_mul.
  by rewrite !mulmxA -(mulmxA (g_z g)) ppmT mulmx1 -(mulmxA _ T) ppmT mulmx1.
Qed.
Lemma factor_re gamma g : factor (rg gamma) (rf g) = rmap lift (factor gamma g).
Proof.
  rewrite /factor omega_re; case: (cholesky (omega_of gamma g)) => //=.
Qed.
Lemma recalculate_re gs gamma : recalculate (List.map rf gs) (rg gamma) = rmap (List.map lift) (recalculate gs gamma).
Proof.
  rewrite /recalculate; elim: gs => [//|g gs IH] /=; rewrite factor_re.
  by case: (factor gamma g) => //= f; rewrite IH; case: (sequence _).
Qed.
Lemma residual_re beta g : residual (rf g) (rb beta) = residual g beta.
Proof. by rewrite /residual /= col_pm row_pm pm_mul. Qed.
Lemma sum_re (V : zmodType) (F G : fgroup p q -> V) (h : V -> V) fs : h 0 = 0 ->
  (forall a b, h (a + b) = h a + h b) -> (forall f, F (lift f) = h (G f)) ->
  \sum_(f <- List.map lift fs) F f = h (\sum_(f <- fs) G f).
Proof.
  move=> h0 hD e; elim: fs => [|f fs IH]; first by rewrite !big_nil h0.
  by rewrite /= !big_cons IH e hD.
Qed.
Lemma row0 n m (u : 'S_n) : row_perm u (0 : 'M[R]_(n, m)) = 0.
Proof. by apply/matrixP=> i j; rewrite !mxE. Qed.
Lemma rowD n m (u : 'S_n) (A B : 'M[R]_(n, m)) : row_perm u (A + B) = row_perm u A + row_perm u B.
Proof. by apply/matrixP=> i j; rewrite !mxE. Qed.
Lemma conj0 n m k l (A : 'M[R]_(n, m)) (B : 'M[R]_(k, l)) : A *m 0 *m B = 0.
Proof. by rewrite mulmx0 mul0mx. Qed.
Lemma conjD n m k l (A : 'M[R]_(n, m)) (B : 'M[R]_(k, l)) x y : A *m (x + y) *m B = A *m x *m B + A *m y *m B.
Proof. by rewrite mulmxDr mulmxDl. Qed.
Lemma loss_re beta f : group_loss (rb beta) (lift f) = group_loss beta f.
Proof. by rewrite /group_loss /= residual_re. Qed.
Lemma gradient_gamma_re beta f : group_gradient_gamma (rb beta) (lift f) = rg (group_gradient_gamma beta f).
Proof.
  rewrite /group_gradient_gamma /= residual_re.
  set E := f_inv f *m g_z (f_g f); set xi := f_inv f *m residual _ _.
  have eE : f_inv f *m col_perm t (g_z (f_g f)) = col_perm t E by rewrite !col_pm mulmxA.
  have ew : (col_perm t E)^T *m xi = row_perm t (E^T *m xi) by rewrite col_pm row_pm trmx_mul !mulmxA.
  rewrite eE ew; apply/matrixP=> i j; rewrite [RHS]mxE [LHS]mxE [RHS]mxE.
  rewrite [row_perm t (E^T *m xi) i ord0]mxE; congr (_ * _ - _)%coqR.
  by apply: eq_bigr=> k _; rewrite [col_perm t E k i]mxE.
Qed.
Lemma hessian_gamma_re a b beta f : group_hessian_gamma a b (rb beta) (lift f) = T^T *m group_hessian_gamma a b beta f *m T.
Proof.
  rewrite -col_pm -row_pm /group_hessian_gamma /= residual_re.
  set E := f_inv f *m g_z (f_g f); set xi := f_inv f *m residual _ _.
  have eE : f_inv f *m col_perm t (g_z (f_g f)) = E *m T by rewrite col_pm mulmxA.
  have em : (E *m T)^T *m (E *m T) = col_perm t (row_perm t (E^T *m E)) by rewrite col_pm row_pm trmx_mul !mulmxA.
  have ew : (E *m T)^T *m xi *m xi^T *m (E *m T) = col_perm t (row_perm t (E^T *m xi *m xi^T *m E)).
    by rewrite col_pm row_pm trmx_mul !mulmxA.
  rewrite eE em ew; case: a; last case: b; by apply/matrixP=> i j; rewrite !mxE.
Qed.
Lemma gradient_beta_re beta f : group_gradient_beta (rb beta) (lift f) = rb (group_gradient_beta beta f).
Proof. by rewrite /group_gradient_beta /= residual_re row_pm col_pm !trmx_mul mulmxN !mulmxA. Qed.
Lemma kernel_re f : group_kernel (lift f) = S^T *m group_kernel f *m S.
Proof. by rewrite /group_kernel /= col_pm !trmx_mul !mulmxA. Qed.
Lemma tail_re f : group_tail (lift f) = rb (group_tail f).
Proof. by rewrite /group_tail /= row_pm col_pm !trmx_mul !mulmxA. Qed.
Lemma mixed_re beta f : group_hessian_mixed (rb beta) (lift f) = T^T *m group_hessian_mixed beta f *m S.
Proof.
  rewrite /group_hessian_mixed /= residual_re !col_pm !mulmxA !trmx_mul -!mulmxA diag_pm -!mulmxA.
  by congr (_ *m (_ *m _)); rewrite mulmxA ppmT mul1mx.
Qed.

(** ** priors *)
Lemma gauss_part_re n (u : 'S_n) (c : gauss_cols n) x :
  gauss_part (means_of (reorder_gauss u c)) (stds_of (reorder_gauss u c)) (weights_of (reorder_gauss u c)) (row_perm u x)
  = gauss_part (means_of c) (stds_of c) (weights_of c) x.
Proof.
  rewrite /gauss_part [RHS](reindex_inj (@perm_inj _ u)); apply: eq_bigr => i _.
  by case: c => [m d w|m d w]; rewrite /= !mxE.
Qed.
Lemma gauss_grad_re n (u : 'S_n) (c : gauss_cols n) x :
  gauss_grad (means_of (reorder_gauss u c)) (stds_of (reorder_gauss u c)) (weights_of (reorder_gauss u c)) (row_perm u x)
  = row_perm u (gauss_grad (means_of c) (stds_of c) (weights_of c) x).
Proof. by apply/matrixP=> i j; case: c => [m d w|m d w]; rewrite /= !mxE. Qed.
Lemma gauss_hess_re n (u : 'S_n) (c : gauss_cols n) :
  gauss_hess (reorder_gauss u c) = (pm u)^T *m gauss_hess c *m pm u.
Proof.
  case: c => [m d w|m d w] /=; last by rewrite -row_pm -col_pm; apply/matrixP=> i j; rewrite !mxE.
  by rewrite -diag_pm -row_pm; congr diagv; apply/matrixP=> i j; rewrite !mxE.
Qed.
Lemma prior_loss_re pr beta gamma : prior_loss (reorder_prior s t pr) (rb beta) (rg gamma) = prior_loss pr beta gamma.
Proof. by case: pr => [//|b g] /=; rewrite !gauss_part_re. Qed.
Lemma prior_gradient_beta_re pr beta : prior_gradient_beta (reorder_prior s t pr) (rb beta) = rb (prior_gradient_beta pr beta).
Proof. by case: pr => [|b g] /=; rewrite ?gauss_grad_re ?row0. Qed.
Lemma prior_gradient_gamma_re pr gamma : prior_gradient_gamma (reorder_prior s t pr) (rg gamma) = rg (prior_gradient_gamma pr gamma).
Proof. by case: pr => [|b g] /=; rewrite ?gauss_grad_re ?row0. Qed.
Lemma prior_hessian_beta_re pr : prior_hessian_beta (reorder_prior s t pr) = S^T *m prior_hessian_beta pr *m S.
Proof. by case: pr => [|b g] /=; rewrite ?gauss_hess_re ?conj0. Qed.
Lemma prior_hessian_gamma_re pr : prior_hessian_gamma (reorder_prior s t pr) = T^T *m prior_hessian_gamma pr *m T.
Proof. by case: pr => [|b g] /=; rewrite ?gauss_hess_re ?conj0. Qed.

(** ** the evaluations *)
Notation rfs := (List.map rf). Notation rp := (reorder_prior s t).
Lemma eval_re (A B : Type) (h : A -> B) (k : seq (fgroup p q) -> res A) (k' : seq (fgroup p q) -> res B) gs gamma :
  (forall fs, recalculate gs gamma = Ok fs -> k' (List.map lift fs) = rmap h (k fs)) ->
  (let! fs := recalculate (rfs gs) (rg gamma) in k' fs) = rmap h (let! fs := recalculate gs gamma in k fs).
Proof. by move=> e; rewrite recalculate_re; move: e; case: (recalculate gs gamma) => //= fs; exact. Qed.
Lemma lme_loss_re gs pr beta gamma : lme_loss (rfs gs) (rp pr) (rb beta) (rg gamma) = lme_loss gs pr beta gamma.
Proof.
  rewrite /lme_loss prior_loss_re recalculate_re; case: (recalculate gs gamma) => //= fs; congr (Ok (_ + _)%coqR).
  by rewrite (@sum_re _ _ (group_loss beta) id) // => f; exact: loss_re.
Qed.
Lemma lme_gradient_gamma_re gs pr beta gamma :
  lme_gradient_gamma (rfs gs) (rp pr) (rb beta) (rg gamma) = rmap rg (lme_gradient_gamma gs pr beta gamma).
Proof.
  apply: eval_re => fs _; rewrite /= prior_gradient_gamma_re rowD; congr (Ok (_ + _)).
  by apply: sum_re; [exact: row0 | exact: rowD | move=> f; exact: gradient_gamma_re].
Qed.
Lemma lme_gradient_beta_re gs pr beta gamma :
  lme_gradient_beta (rfs gs) (rp pr) (rb beta) (rg gamma) = rmap rb (lme_gradient_beta gs pr beta gamma).
Proof.
  apply: eval_re => fs _; rewrite /= prior_gradient_beta_re rowD; congr (Ok (_ + _)).
  by apply: sum_re; [exact: row0 | exact: rowD | move=> f; exact: gradient_beta_re].
Qed.
Lemma lme_hessian_gamma_re gs pr a b beta gamma :
  lme_hessian_gamma (rfs gs) (rp pr) a b (rb beta) (rg gamma) = rmap (fun h => T^T *m h *m T) (lme_hessian_gamma gs pr a b beta gamma).
Proof.
  apply: eval_re => fs _; rewrite /= prior_hessian_gamma_re conjD -scalemxAr -scalemxAl; congr (Ok (_ *: _ + _)).
  by apply: (@sum_re _ _ _ (fun h => T^T *m h *m T)); [exact: conj0 | exact: conjD | move=> f; exact: hessian_gamma_re].
Qed.
Lemma kernels_re fs : \sum_(f <- List.map lift fs) group_kernel f = S^T *m (\sum_(f <- fs) group_kernel f) *m S.
Proof. by apply: (@sum_re _ _ _ (fun h => S^T *m h *m S)); [exact: conj0 | exact: conjD | move=> f; exact: kernel_re]. Qed.
Lemma lme_hessian_beta_re gs pr gamma :
  lme_hessian_beta (rfs gs) (rp pr) (rg gamma) = rmap (fun h => S^T *m h *m S) (lme_hessian_beta gs pr gamma).
Proof. by apply: eval_re => fs _; rewrite /= prior_hessian_beta_re conjD kernels_re. Qed.
Lemma lme_hessian_mixed_re gs beta gamma :
  lme_hessian_beta_gamma (rfs gs) (rb beta) (rg gamma) = rmap (fun h => S^T *m h *m T) (lme_hessian_beta_gamma gs beta gamma).
Proof.
  apply: eval_re => fs _ /=.
  have -> : \sum_(f <- List.map lift fs) group_hessian_mixed (rb beta) f
    = T^T *m (\sum_(f <- fs) group_hessian_mixed beta f) *m S.
    elim: fs => [|f fs IH]; first by rewrite !big_nil conj0.
    by rewrite /= !big_cons IH mixed_re conjD.
  by rewrite !trmx_mul trmxK mulmxA.
Qed.
Lemma kernel_tail_re gs gamma : kernel_tail (rfs gs) (rg gamma) =
  rmap (fun kt => (S^T *m kt.1 *m S, rb kt.2)) (kernel_tail gs gamma).
Proof.
  apply: eval_re => fs _; rewrite /= kernels_re; congr (Ok (_, _)).
  by apply: sum_re; [exact: row0 | exact: rowD | move=> f; exact: tail_re].
Qed.
Lemma lme_optimal_beta_re gs gamma : lme_optimal_beta (rfs gs) (rg gamma) = rmap rb (lme_optimal_beta gs gamma).
Proof.
  rewrite /lme_optimal_beta kernel_tail_re; case: (kernel_tail gs gamma) => //= kt.
  rewrite row_pm solve_orth ?pmTp ?ppmT //; case: (np_solve _ _) => //= x; by rewrite row_pm.
Qed.
Lemma sr3_optimal_beta_re lb gs gamma tb :
  sr3_optimal_beta lb (rfs gs) (rg gamma) (rb tb) = rmap rb (sr3_optimal_beta lb gs gamma tb).
Proof.
  rewrite /sr3_optimal_beta kernel_tail_re; case: (kernel_tail gs gamma) => //= kt.
  have -> : lb *: 1%:M + S^T *m kt.1 *m S = S^T *m (lb *: 1%:M + kt.1) *m S.
    by rewrite conjD -scalemxAr -scalemxAl mulmx1 pmTp.
  have -> : lb *: rb tb + rb kt.2 = S^T *m (lb *: tb + kt.2) by rewrite !row_pm mulmxDr scalemxAr.
  rewrite solve_orth ?pmTp ?ppmT //; case: (np_solve _ _) => //= x; by rewrite row_pm.
Qed.
Lemma lme_covariance_beta_re gs pr gamma :
  lme_covariance_beta (rfs gs) (rp pr) (rg gamma) = rmap (fun c => S^T *m c *m S) (lme_covariance_beta gs pr gamma).
Proof.
  rewrite /lme_covariance_beta lme_hessian_beta_re; case: (lme_hessian_beta gs pr gamma) => //= h.
  by rewrite inv_orth ?pmTp.
Qed.

(** ** random effects *)
Section Masks.
Variable gamma : 'cV[R]_q.
Notation m := (re_mask gamma). Notation m' := (re_mask (rg gamma)).
Lemma mask_re j : (j \in m') = (t j \in m).
Proof. by rewrite !inE !mxE. Qed.
Lemma mask_card : #|m| = #|m'|.
Proof.
  rewrite -(card_imset m' (@perm_inj _ t)); apply: eq_card => j; apply/idP/imsetP.
    by move=> h; exists ((t^-1)%g j); rewrite ?mask_re permKV.
  by case=> i hi ->; rewrite -mask_re.
Qed.
Lemma sel_sel k (A : 'M[R]_(q, k)) : (select m')^T *m (select m' *m ((select m')^T *m A)) = (select m')^T *m A.
Proof. by apply/matrixP=> i j; rewrite sel_tr sel_on. Qed.
Definition Q : 'M[R]_(#|m|, #|m'|) := (select m)^T *m T *m select m'.
Lemma selE i (j : 'I_#|m|) : select m i j = (i == enum_val j)%:R.
Proof. by rewrite mxE. Qed.
Lemma TselE : T *m select m' = select m *m Q.
Proof.
  rewrite /Q -mulmxA sel_id // => i j hi; rewrite mxE big1 // => k _; rewrite pmE mxE.
  case: eqP => [e|]; last by rewrite mul0r.
  case: eqP => [e'|]; last by rewrite mulr0.
  by move: hi; rewrite e -mask_re e' enum_valP.
Qed.
Lemma TselE' : T^T *m select m = select m' *m Q^T.
Proof.
  rewrite /Q !trmx_mul trmxK sel_id // => i j hi; rewrite mxE big1 // => k _; rewrite mxE pmE mxE.
  case: eqP => [e|]; last by rewrite mul0r.
  case: eqP => [e'|]; last by rewrite mulr0.
  by move: hi; rewrite mask_re -e e' enum_valP.
Qed.
Lemma selTs (mm : {set 'I_q}) : (select mm)^T *m select mm = 1%:M.
Proof. by apply/matrixP=> i j; rewrite sel_tr !mxE (inj_eq enum_val_inj). Qed.
Lemma QTQ : Q^T *m Q = 1%:M.
Proof.
  rewrite {1}/Q !trmx_mul trmxK -!mulmxA -TselE (mulmxA T^T) pmTp mul1mx; exact: selTs.
Qed.
Lemma QQT : Q *m Q^T = 1%:M.
Proof.
  rewrite {1}/Q -!mulmxA -TselE' (mulmxA T) ppmT mul1mx; exact: selTs.
Qed.
Lemma diag_sel (mm : {set 'I_q}) (v : 'cV[R]_q) : diagv (vinv ((select mm)^T *m v)) = (select mm)^T *m diagv (vinv v) *m select mm.
Proof.
  rewrite -mulmxA; apply/matrixP=> i j; rewrite sel_tr mul_diagv diagvE [vinv _ _ _]mxE [vinv _ _ _]mxE sel_tr mxE.
  by rewrite (inj_eq enum_val_inj); case: (i == j); rewrite ?mulr1 ?mulr0.
Qed.
Lemma vinv_re (v : 'cV[R]_q) : vinv (rg v) = rg (vinv v).
Proof. by apply/matrixP=> i j; rewrite !mxE. Qed.
Lemma zm_re g : g_z (rf g) *m select m' = g_z g *m select m *m Q.
Proof. by rewrite /= col_pm -mulmxA TselE mulmxA. Qed.
Lemma blup_re g : blup_kernel (rg gamma) (rf g) = Q^T *m blup_kernel gamma g *m Q.
Proof.
  rewrite /blup_kernel conjD zm_re trmx_mul; cbn [reorder_features g_v g_n]; congr (_ + _); last by rewrite !mulmxA.
  rewrite !diag_sel vinv_re (row_pm t (vinv gamma)) diag_pm.
  have -> : (select m')^T *m (T^T *m diagv (vinv gamma) *m T) *m select m'
    = (T *m select m')^T *m diagv (vinv gamma) *m (T *m select m') by rewrite trmx_mul !mulmxA.
  by rewrite TselE trmx_mul !mulmxA.
Qed.
Lemma effects_re beta g : group_effects (rb beta) (rg gamma) (rf g) = rmap rg (group_effects beta gamma g).
Proof.
  rewrite /group_effects blup_re residual_re zm_re (trmx_mul (g_z g *m select m) Q); cbn [reorder_features g_v g_n].
  have -> : Q^T *m (g_z g *m select m)^T *m diagv (vinv (g_v g)) *m residual g beta
    = Q^T *m ((g_z g *m select m)^T *m diagv (vinv (g_v g)) *m residual g beta) by rewrite !mulmxA.
  rewrite solve_orth ?QTQ ?QQT //; last exact: mask_card.
  case: (np_solve _ _) => //= u; congr Ok.
  by rewrite (row_pm t (select m *m u)) mulmxA -TselE' mulmxA.
Qed.
Lemma hat_re g : hat_diagonal (rg gamma) (rf g) = hat_diagonal gamma g.
Proof.
  rewrite /hat_diagonal blup_re zm_re inv_orth_rect ?QTQ //; last exact: mask_card.
  case: (np_inv _) => //= k; congr Ok.
  have := TselE; have := QQT; move: (Q) => Q0 hQ eT.
  rewrite (col_pm t (g_z g)) (trmx_mul (g_z g *m select m) Q0).
  rewrite mulmxA -(mulmxA (g_z g)) eT !mulmxA -(mulmxA _ Q0 Q0^T) hQ mulmx1.
  by rewrite -(mulmxA _ Q0 Q0^T) hQ mulmx1.
Qed.
End Masks.

Lemma lme_random_effects_re gs beta gamma :
  lme_random_effects (rfs gs) (rb beta) (rg gamma) = rmap (List.map rg) (lme_random_effects gs beta gamma).
Proof.
  rewrite /lme_random_effects recalculate_re; case: (recalculate gs gamma) => //= _.
  elim: gs => [//|g gs IH] /=; rewrite effects_re; case: (group_effects _ _ _) => //= u.
  by rewrite IH; case: (sequence _).
Qed.
Lemma conditional_re beta g u : group_conditional (rb beta) (rf g, rg u) = group_conditional beta (g, u).
Proof. by rewrite /group_conditional /= !col_pm !row_pm !pm_mul. Qed.
Lemma lme_demarginalized_re gs pr beta gamma :
  lme_demarginalized_loss (rfs gs) (rp pr) (rb beta) (rg gamma) = lme_demarginalized_loss gs pr beta gamma.
Proof.
  rewrite /lme_demarginalized_loss lme_random_effects_re prior_loss_re.
  case: (lme_random_effects gs beta gamma) => //= us; congr (Ok (_ + _)%coqR).
  elim: gs us => [|g gs IH] [|u us]; rewrite /= ?big_nil // !big_cons IH; congr (_ + _).
  exact: conditional_re.
Qed.
Lemma n_eff_re fs : n_eff (List.map lift fs) = n_eff fs.
Proof. by rewrite /n_eff List.map_map. Qed.
Lemma count_re n (u : 'S_n) tol (x : 'cV[R]_n) : count_ge tol (row_perm u x) = count_ge tol x.
Proof.
  rewrite /count_ge -(card_imset _ (@perm_inj _ u)); apply: eq_card => j; apply/imsetP/idP.
    by case=> i; rewrite !inE mxE => h ->.
  by move=> h; exists ((u^-1)%g j); rewrite ?inE ?mxE permKV //; move: h; rewrite inE.
Qed.
Lemma total_re gs : total_obs (rfs gs) = total_obs gs.
Proof. by rewrite /total_obs; elim: gs => [|g gs IH]; rewrite ?big_nil //= !big_cons IH. Qed.
Lemma size_re gs : size (rfs gs) = size gs.
Proof. by elim: gs => [//|g gs /= ->]. Qed.
Lemma lme_jones_re gs pr tol beta gamma :
  lme_jones_bic (rfs gs) (rp pr) tol (rb beta) (rg gamma) = lme_jones_bic gs pr tol beta gamma.
Proof.
  rewrite /lme_jones_bic lme_loss_re !count_re recalculate_re; case: (recalculate gs gamma) => //= fs.
  by case: (lme_loss _ _ _ _) => //= l; rewrite n_eff_re.
Qed.
Lemma lme_muller_re gs pr tol beta gamma :
  lme_muller_ic (rfs gs) (rp pr) tol (rb beta) (rg gamma) = lme_muller_ic gs pr tol beta gamma.
Proof. by rewrite /lme_muller_ic lme_loss_re !count_re total_re size_re. Qed.
Definition lift_row (r : hat_row p q) : hat_row p q := @HatRow p q (lift (hr_f r)) (hr_diagonal r).
Lemma hat_rows_re gs gamma : hat_rows (rfs gs) (rg gamma) =
  rmap (fun kr => (S^T *m kr.1 *m S, List.map lift_row kr.2)) (hat_rows gs gamma).
Proof.
  apply: eval_re => fs _; rewrite kernels_re inv_orth ?pmTp //; case: (np_inv _) => //= ki.
  have -> : sequence (List.map (fun f => let! d := hat_diagonal (rg gamma) (f_g f) in Ok (@HatRow p q f d)) (List.map lift fs))
    = rmap (List.map lift_row) (sequence (List.map (fun f => let! d := hat_diagonal gamma (f_g f) in Ok (@HatRow p q f d)) fs)).
    elim: fs => [//|f fs IH] /=; rewrite hat_re; case: (hat_diagonal gamma (f_g f)) => //= d.
    by rewrite IH; case: (sequence _).
  by case: (sequence _).
Qed.
Lemma block_re ki r f : hat_block (S^T *m ki *m S) (lift_row r) (lift f) = hat_block ki r f.
Proof.
  have e fi fj : hat_h_beta (S^T *m ki *m S) (lift fi) (lift fj) = hat_h_beta ki fi fj.
    rewrite /hat_h_beta /= !col_pm !trmx_mul !mulmxA.
    by rewrite -(mulmxA (g_x (f_g fi))) ppmT mulmx1 -(mulmxA _ S) ppmT mulmx1.
  by rewrite /hat_block /= e.
Qed.
Lemma lme_ddf_re gs gamma : lme_ddf (rfs gs) (rg gamma) = lme_ddf gs gamma.
Proof.
  rewrite /lme_ddf hat_rows_re; case: (hat_rows gs gamma) => //= kr; congr Ok.
  case: kr => ki rows /=; elim: rows => [|r rows IH]; first by rewrite !big_nil.
  by rewrite /= !big_cons IH block_re.
Qed.
Lemma lme_vaida_re gs pr tol marg beta gamma :
  lme_vaida_aic (rfs gs) (rp pr) tol marg (rb beta) (rg gamma) = lme_vaida_aic gs pr tol marg beta gamma.
Proof. by rewrite /lme_vaida_aic lme_loss_re !count_re total_re lme_ddf_re lme_demarginalized_re. Qed.
Lemma covariance_u_re cov gamma f :
  group_covariance_u (S^T *m cov *m S) (rg gamma) (lift f) = T^T *m group_covariance_u cov gamma f *m T.
Proof.
  rewrite /group_covariance_u /= !col_pm row_pm diag_pm !trmx_mul.
  have -> : f_inv f *m (g_x (f_g f) *m S) *m (S^T *m cov *m S) *m (S^T *m (g_x (f_g f))^T) *m f_inv f
    = f_inv f *m g_x (f_g f) *m cov *m (g_x (f_g f))^T *m f_inv f.
    rewrite !mulmxA -(mulmxA _ S S^T) ppmT mulmx1 -(mulmxA _ S S^T) ppmT mulmx1 //.
  set core := (f_inv f - _).
  rewrite !mulmxA -(mulmxA _ T T^T) ppmT mulmx1 -(mulmxA _ T T^T) ppmT mulmx1 //.
Qed.
Lemma lme_covariance_re_re gs pr gamma : lme_covariance_random_effects (rfs gs) (rp pr) (rg gamma)
  = rmap (List.map (fun c => T^T *m c *m T)) (lme_covariance_random_effects gs pr gamma).
Proof.
  rewrite /lme_covariance_random_effects lme_covariance_beta_re; case: (lme_covariance_beta gs pr gamma) => //= cov.
  apply: eval_re => fs _ /=; congr Ok; rewrite !List.map_map; apply: List.map_ext => f; exact: covariance_u_re.
Qed.
Lemma covariance_y_re cov cu g :
  group_covariance_y (S^T *m cov *m S) (rf g) (T^T *m cu *m T) = group_covariance_y cov g cu.
Proof.
  rewrite /group_covariance_y /= !col_pm !trmx_mul !mulmxA.
  rewrite -(mulmxA (g_x g)) ppmT mulmx1 -(mulmxA _ S S^T) ppmT mulmx1.
  by rewrite -(mulmxA (g_z g)) ppmT mulmx1 -(mulmxA _ T T^T) ppmT mulmx1.
Qed.
Lemma lme_covariance_y_re gs pr gamma : lme_covariance_y (rfs gs) (rp pr) (rg gamma) = lme_covariance_y gs pr gamma.
Proof.
  rewrite /lme_covariance_y lme_covariance_beta_re; case: (lme_covariance_beta gs pr gamma) => //= cov.
  rewrite recalculate_re; case: (recalculate gs gamma) => //= fs; congr Ok; rewrite !List.map_map.
  apply: List.map_ext => f /=; congr existT; rewrite covariance_u_re; exact: covariance_y_re.
Qed.
End Features.
