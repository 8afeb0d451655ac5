(** The evaluations of the oracle on data in other units. *)
From Verif.Base Require Import Py Vec RMx.
From Coq Require Import Lra Classical.
From mathcomp Require Import ssreflect ssrfun ssrbool eqtype ssrnat choice seq fintype
  finfun bigop finset ssralg zmodp matrix mxalgebra.
From Verif.Model Require Import LmeOracle.
From Verif.Spec Require Import MxSpec UnitsSpec.
From Verif.Proofs Require Import MxFacts LmeOracleProofs LmeEstimates LmeBlup LmeCriteria OrderProofs.
Set Implicit Arguments.
Unset Strict Implicit.
Unset Printing Implicit Defensive.
Delimit Scope R_scope with coqR.
Import GRing.Theory.
Local Open Scope ring_scope.
Local Open Scope res_scope.

Lemma sequence_len (T : Type) (l : list (res T)) us : sequence l = Ok us -> length us = length l.
Proof.
  elim: l us => [|m l IH] us /=; first by case=> <-.
  by case: m => //= x; case e : (sequence l) => [y|] //= [<-] /=; rewrite (IH _ e).
Qed.
Lemma conj_cancel n p (c : R) (X : 'M[R]_(n, p)) (A ki : 'M[R]_p) (W : 'M[R]_n) : c <> 0%coqR -> A \in unitmx ->
  X *m A *m ((c *: (invmx A *m ki *m (invmx A)^T)) *m ((X *m A)^T *m ((/ c)%coqR *: W))) = X *m (ki *m (X^T *m W)).
Proof.
  move=> c0 uA; rewrite trmx_mul -!scalemxAr -!scalemxAl -!scalemxAr scalerA.
  have -> : ((/ c)%coqR * c)%R = 1%R by toR; field.
  rewrite scale1r; have e : (invmx A)^T *m A^T = 1%:M by rewrite -trmx_mul mulmxV // trmx1.
  by rewrite !mulmxA -(mulmxA X A) mulmxV // mulmx1 -(mulmxA _ (invmx A)^T) e mulmx1.
Qed.
(** the degrees of freedom, taken apart *)
Definition ddf_of n (H : 'M[R]_n) (d : res 'M[R]_n) : res R :=
  rmap (fun d : 'M[R]_n => (\tr (H - d *m H) + \tr d)%coqR) d.
Lemma row_ddfE p q (gamma : 'cV[R]_q) (ki : 'M[R]_p) (g : group p q) :
  row_ddf gamma ki g = ddf_of (hat_h_beta ki (fac gamma g) (fac gamma g)) (hat_diagonal gamma g).
Proof. by rewrite /row_ddf /ddf_of; case: (hat_diagonal gamma g). Qed.
Lemma lme_ddfE p q (l : seq (group p q)) gm : lme_ddf l gm = (let! fs := recalculate l gm in
      let! ki := np_inv (\sum_(f <- fs) group_kernel f) in
      let! rows := sequence (List.map (fun f => let! d := hat_diagonal gm (f_g f) in Ok (@HatRow p q f d)) fs) in
      Ok (\sum_(r <- rows) (\tr (hat_block ki r (hr_f r)) + \tr (hr_diagonal r))%coqR)).
Proof.
  rewrite /lme_ddf /hat_rows; case: (recalculate _ _) => //= fs; case: (np_inv _) => //= ki.
  by case: (sequence _).
Qed.
Lemma unitmxZR n (k : R) (A : 'M[R]_n) : k <> 0%coqR -> (k *: A \in unitmx) = (A \in unitmx).
Proof. by move=> h; apply: unitmxZ; rewrite unitfE; apply/eqP. Qed.
Lemma invmxZR n (k : R) (A : 'M[R]_n) : k <> 0%coqR -> A \in unitmx -> invmx (k *: A) = (/ k)%coqR *: invmx A.
Proof.
  move=> h u.
  have e : (k *: A) *m ((/ k)%coqR *: invmx A) = 1%:M.
    rewrite -scalemxAl -scalemxAr scalerA mulmxV //.
    have -> : k * (/ k)%coqR = 1 by toR; field.
    by rewrite scale1r.
  by rewrite -[LHS]mulmx1 -e mulmxA mulVmx ?unitmxZR // mul1mx.
Qed.
Lemma invmx_mulR n (A B : 'M[R]_n) : A \in unitmx -> B \in unitmx -> invmx (A *m B) = invmx B *m invmx A.
Proof.
  move=> uA uB; have e : (A *m B) *m (invmx B *m invmx A) = 1%:M by rewrite mulmxA mulmxK // mulmxV.
  by rewrite -[LHS]mulmx1 -e mulmxA mulVmx ?unitmx_mul ?uA ?uB // mul1mx.
Qed.
Lemma np_inv_sandwich n (c : R) (A K : 'M[R]_n) : c <> 0%coqR -> A \in unitmx ->
  np_inv ((/ c)%coqR *: (A^T *m K *m A)) = rmap (fun ki : 'M[R]_n => c *: (invmx A *m ki *m (invmx A)^T)) (np_inv K).
Proof.
  move=> c0 uA; have ic0 : (/ c)%coqR <> 0%coqR by exact: Rinv_neq_0_compat.
  rewrite /np_inv unitmxZR // !unitmx_mul unitmx_tr uA andbT /=; case: ifP => //= uK.
  rewrite invmxZR ?unitmx_mul ?unitmx_tr ?uA ?uK // Rinv_inv.
  by rewrite !invmx_mulR ?unitmx_mul ?unitmx_tr ?uA ?uK // mulmxA -trmx_inv.
Qed.
Lemma np_solveZ n m (k l : R) (A : 'M[R]_n) (b : 'M[R]_(n, m)) : k <> 0%coqR ->
  np_solve (k *: A) (l *: b) = rmap (fun x => (l / k)%coqR *: x) (np_solve A b).
Proof.
  move=> h; rewrite /np_solve unitmxZR //; case: ifP => // u; rewrite /= invmxZR //.
  by rewrite -scalemxAl -scalemxAr scalerA; congr (Ok (_ *: _)); toR; field.
Qed.

Lemma ln_powR (x : R) n : (0 < x)%coqR -> ln (x ^ n)%coqR = (INR n * ln x)%coqR.
Proof.
  move=> h; elim: n => [|n IH]; first by rewrite /= ln_1; ring.
  by rewrite S_INR /= ln_mult //; [rewrite IH; ring | exact: pow_lt].
Qed.

Lemma natR n : (n%:R : R) = INR n.
Proof. by elim: n => [//|n IH]; rewrite S_INR -addn1 natrD IH. Qed.

Section Group.
Variables (p q : nat) (U : units p q).
Hypothesis ok : sensible U.
Implicit Types (g : group p q) (beta : 'cV[R]_p) (gamma : 'cV[R]_q).
Notation c := (u_scale U).
Notation A := (u_fixed U).
Notation s := (u_random U).
Let c0 : c <> 0%coqR. Proof. by case: ok. Qed.
Let c20 : (c ^ 2 <> 0)%coqR. Proof. by apply: pow_nonzero. Qed.
Let c2p : (0 < c ^ 2)%coqR. Proof. by rewrite -Rsqr_pow2; exact: Rsqr_pos_lt. Qed.
Let uA : A \in unitmx. Proof. by case: ok => _ []. Qed.
Let s0 j : s j ord0 <> 0%coqR. Proof. by case: ok => _ [_]. Qed.

Lemma Omega_convert gamma g : Omega (convert_gamma U gamma) (convert U g) = (c ^ 2)%coqR *: Omega gamma g.
Proof.
  rewrite /Omega /= scalerDr; congr (_ + _); last by rewrite linearZ /= linearZ.
  rewrite -!/(diagv _) trmx_mul diagv_tr !mulmxA scalemxAl; congr (_ *m _).
  apply/matrixP => i j; rewrite [RHS]mxE !mulmx_diagv [X in _ * X * _]mxE; toR; field; exact: s0.
Qed.
Lemma resid_convert beta g : resid (convert_beta U beta) (convert U g) = c *: resid beta g.
Proof.
  rewrite /resid /convert_beta /= -scalemxAr -scalerBr; congr (_ *: _).
  rewrite !mulmxA -[g_x g *m A *m _]mulmxA mulmxV // mulmx1 mulmxDr.
  by rewrite opprD addrACA subrr addr0.
Qed.
Lemma pdZ n (B : 'M[R]_n) k : (0 < k)%coqR -> pd B -> pd (k *: B).
Proof.
  move=> hk [t h]; split; first by rewrite linearZ /= t.
  by move=> x x0; rewrite qfZ; apply: Rmult_lt_0_compat => //; exact: h.
Qed.
Lemma convert_pd gamma g : pd (Omega (convert_gamma U gamma) (convert U g)) <-> pd (Omega gamma g).
Proof.
  rewrite Omega_convert; split; last exact: pdZ.
  move=> h; have := pdZ (k := / c ^ 2) _ h; rewrite scalerA.
  have -> : (/ c ^ 2)%coqR * (c ^ 2)%coqR = 1 by toR; field.
  by rewrite scale1r; apply; apply: Rinv_0_lt_compat.
Qed.

Section Eval.
Variables (beta : 'cV[R]_p) (gamma : 'cV[R]_q) (g : group p q).
Hypothesis h : pd (Omega gamma g).
Notation g' := (convert U g).
Notation beta' := (convert_beta U beta).
Notation gamma' := (convert_gamma U gamma).
Let h' : pd (Omega gamma' g').
Proof. exact/convert_pd. Qed.
Notation inv := (invmx (Omega gamma g)).
Let einv : invmx (Omega gamma' g') = (/ c ^ 2)%coqR *: inv.
Proof. by rewrite Omega_convert invmxZR //; exact: pd_unit. Qed.
Let zcE j : zc g' j = s j ord0 *: zc g j.
Proof. by apply/matrixP => i k; rewrite /zc [LHS]mxE [RHS]mxE mulmx_diagv ![col _ _ _ _]mxE; exact: mulrC. Qed.
Lemma bfZ n k (B : 'M[R]_n) a b : bf (k *: B) a b = (k * bf B a b)%coqR.
Proof. by rewrite /bf -scalemxAr -scalemxAl scZ. Qed.
Lemma bfZl n k (B : 'M[R]_n) a b : bf B (k *: a) b = (k * bf B a b)%coqR.
Proof. by rewrite /bf linearZ /= -!scalemxAl scZ. Qed.
Lemma bfZr n k (B : 'M[R]_n) a b : bf B a (k *: b) = (k * bf B a b)%coqR.
Proof. by rewrite /bf -scalemxAr scZ. Qed.

Lemma loss_convert : group_loss beta' (fac gamma' g') = (group_loss beta (fac gamma g) + INR (g_n g) * ln (Rabs c))%coqR.
Proof.
  rewrite !group_loss_fac // /nll einv resid_convert Omega_convert detZ.
  rewrite -/(bf _ _ _) bfZ bfZl bfZr -/(bf inv _ _).
  have hd : (0 < \det (Omega gamma g))%coqR by case: (fac_logdet h).
  have ha : (0 < Rabs c)%coqR by exact: Rabs_pos_lt.
  have -> : ((c ^ 2)%coqR ^+ g_n g)%R = ((Rabs c ^ 2) ^ g_n g)%coqR.
    rewrite pow2_abs; elim: (g_n g) => [//|n IH]; by rewrite exprS IH.
  rewrite RmulE ln_mult //; last by apply: pow_lt; apply: pow_lt.
  rewrite ln_powR; last by apply: pow_lt.
  rewrite ln_powR //; toR.
  have -> : INR 2 = 2%coqR by rewrite /=; ring.
  set l := ln (Rabs c); set d := ln _; set b := bf inv _ _; set n := INR (g_n g).
  have e : (/ c ^ 2 * (c * (c * b)) = b)%coqR by field.
  by rewrite e; lra.
Qed.
Lemma gradient_gamma_convert :
  group_gradient_gamma beta' (fac gamma' g') =
  \col_j (s j ord0 ^ 2 / c ^ 2 * group_gradient_gamma beta (fac gamma g) j ord0)%coqR.
Proof.
  apply/matrixP => j k; rewrite (ord1 k) [RHS]mxE !gradient_gamma_fac // einv resid_convert zcE.
  rewrite !bfZ !bfZl !bfZr; toR.
  set a := bf inv (zc g j) (zc g j); set b := bf inv (zc g j) (resid beta g); set t := s j ord0.
  by field.
Qed.
Lemma hessian_gamma_convert a b :
  group_hessian_gamma a b beta' (fac gamma' g') =
  \matrix_(i, j) (s i ord0 ^ 2 * s j ord0 ^ 2 / c ^ 4 * group_hessian_gamma a b beta (fac gamma g) i j)%coqR.
Proof.
  apply/matrixP => i j; rewrite [RHS]mxE !hessian_gamma_fac // einv resid_convert !zcE.
  rewrite !bfZ !bfZl !bfZr; set m := bf inv (zc g i) (zc g j).
  set wi := bf inv (zc g i) (resid beta g); set wj := bf inv (zc g j) (resid beta g).
  set t := s i ord0; set r := s j ord0.
  move: m wi wj t r => m wi wj t r; cbv zeta.
  by case: a b => [] []; toR; field.
Qed.
Lemma gradient_betaE gm b (gg : group p q) : pd (Omega gm gg) ->
  group_gradient_beta b (fac gm gg) = - ((g_x gg)^T *m invmx (Omega gm gg) *m resid b gg) :> 'cV[R]_p.
Proof. by move=> hg; rewrite /group_gradient_beta gram_mid fac_gram. Qed.
Lemma gradient_beta_convert :
  group_gradient_beta beta' (fac gamma' g') = (/ c)%coqR *: (A^T *m group_gradient_beta beta (fac gamma g)).
Proof.
  rewrite !gradient_betaE // einv resid_convert /= trmx_mul !mulmxN scalerN; congr (- _).
  rewrite -?scalemxAr -?scalemxAl -?scalemxAr -?scalemxAl !scalerA !mulmxA; congr (_ *: _); toR; field; exact: c0.
Qed.
Lemma kernel_convert : group_kernel (fac gamma' g') = (/ c ^ 2)%coqR *: (A^T *m group_kernel (fac gamma g) *m A).
Proof.
  rewrite !kernel_fac // einv /= trmx_mul -?scalemxAr -?scalemxAl -?scalemxAr -?scalemxAl !mulmxA; by [].
Qed.
Lemma tail_convert : group_tail (fac gamma' g') =
  (/ c)%coqR *: (A^T *m (group_tail (fac gamma g) + group_kernel (fac gamma g) *m u_shift U)).
Proof.
  rewrite !tail_fac // !kernel_fac // einv /= trmx_mul -?scalemxAr -?scalemxAl -?scalemxAr -?scalemxAl scalerA.
  rewrite !mulmxDr !mulmxA; congr (_ *: _); toR; field; exact: c0.
Qed.
Lemma mixed_convert :
  group_hessian_mixed beta' (fac gamma' g') =
  (/ c ^ 3)%coqR *: (diagv (\col_j (s j ord0 ^ 2)%coqR) *m group_hessian_mixed beta (fac gamma g) *m A).
Proof.
  have e gm b (gg : group p q) (hg : pd (Omega gm gg)) :
      group_hessian_mixed b (fac gm gg) =
      diagv ((g_z gg)^T *m invmx (Omega gm gg) *m resid b gg) *m ((g_z gg)^T *m invmx (Omega gm gg) *m g_x gg) :> 'M[R]_(q, p).
    by rewrite /group_hessian_mixed !gram_mid fac_gram.
  rewrite !e // einv resid_convert /= trmx_mul diagv_tr.
  set w := (g_z g)^T *m inv *m resid beta g; set P := (g_z g)^T *m inv *m g_x g *m A.
  have -> : diagv s *m (g_z g)^T *m ((/ c ^ 2)%coqR *: inv) *m (c *: resid beta g) = (/ c)%coqR *: (diagv s *m w).
    rewrite -?scalemxAr -?scalemxAl -?scalemxAr -?scalemxAl scalerA /w !mulmxA; congr (_ *: _); toR; field; exact: c0.
  have -> : diagv s *m (g_z g)^T *m ((/ c ^ 2)%coqR *: inv) *m (g_x g *m A) = (/ c ^ 2)%coqR *: (diagv s *m P).
    by rewrite -?scalemxAr -?scalemxAl -?scalemxAr -?scalemxAl /P !mulmxA.
  have -> : diagv (\col_j (s j ord0 ^ 2)%coqR) *m (diagv w *m ((g_z g)^T *m inv *m g_x g)) *m A =
      diagv (\col_j (s j ord0 ^ 2)%coqR) *m (diagv w *m P) by rewrite /P !mulmxA.
  apply/matrixP => i j; rewrite mul_diagv ![fun_of_matrix (_ *: _) _ _]mxE !mul_diagv [fun_of_matrix (\col__ _) _ _]mxE.
  set t := s i ord0; set a := w i ord0; set b := P i j; toR; field; exact: c0.
Qed.
Lemma n_eff_convert : group_n_eff (fac gamma' g') = group_n_eff (fac gamma g).
Proof.
  rewrite !group_n_eff_ok //; congr Ok.
  suff -> : correlations (Omega gamma' g') = correlations (Omega gamma g) by [].
  apply/matrixP => i j; rewrite [LHS]mxE [RHS]mxE Omega_convert ![fun_of_matrix (_ *: _) _ _]mxE; toR.
  rewrite !(sqrt_mult_alt (c ^ 2)); try lra.
  have -> : sqrt (c ^ 2) = Rabs c by rewrite -Rsqr_pow2; exact: sqrt_Rsqr_abs.
  have pi k : (0 < sqrt (Omega gamma g k k))%coqR by apply: sqrt_lt_R0; exact: pd_diag.
  have ai : (0 < Rabs c)%coqR by exact: Rabs_pos_lt.
  have := pi i; have := pi j; set a := sqrt _; set b := sqrt _; set o := Omega gamma g i j => ha hb.
  rewrite -pow2_abs; field; lra.
Qed.
End Eval.

(** ** random effects *)
Lemma vinvZ n (k : R) (v : 'cV[R]_n) : vinv (k *: v) = (/ k)%coqR *: vinv v.
Proof. by apply/matrixP => i j; rewrite !mxE; exact: Rinv_mult. Qed.
Lemma diagvZ n (k : R) (v : 'cV[R]_n) : diagv (k *: v) = k *: diagv v.
Proof. by rewrite /diagv linearZ /= linearZ. Qed.
Lemma diagv_select (v : 'cV[R]_q) (m : {set 'I_q}) : diagv v *m select m = select m *m diagv ((select m)^T *m v).
Proof.
  apply/matrixP => j k; rewrite mul_diagv mulmx_diagv sel_tr !mxE.
  by case: eqP => [->|_]; rewrite ?mulr1 ?mul1r ?mulr0 ?mul0r.
Qed.
Section Mask.
Variables (beta : 'cV[R]_p) (gamma : 'cV[R]_q) (g : group p q) (m : {set 'I_q}).
Notation D := (diagv ((select m)^T *m s)).
Notation Di := (diagv ((select m)^T *m vinv s)).
Notation zm := (g_z g *m select m).
Definition kern_of (gm : 'cV[R]_q) (gg : group p q) : 'M[R]_#|m| :=
  diagv (vinv ((select m)^T *m gm)) + (g_z gg *m select m)^T *m diagv (vinv (g_v gg)) *m (g_z gg *m select m).
Lemma DDi : D *m Di = 1%:M.
Proof.
  apply/matrixP => i j; rewrite mul_diagv diagvE !sel_tr !mxE; case: eqP => _; rewrite ?mulr0 //.
  by toR; apply: Rinv_r; exact: s0.
Qed.
Lemma uD : D \in unitmx. Proof. by case: (mulmx1_unit DDi). Qed.
Lemma invD : invmx D = Di.
Proof. by rewrite -[LHS]mulmx1 -DDi mulmxA mulVmx ?mul1mx //; exact: uD. Qed.
Lemma zm_convert : g_z (convert U g) *m select m = zm *m D.
Proof. by rewrite /= -mulmxA diagv_select mulmxA. Qed.
Lemma kern_convert : kern_of (convert_gamma U gamma) (convert U g) = (/ c ^ 2)%coqR *: (D *m kern_of gamma g *m D).
Proof.
  rewrite /kern_of mulmxDr mulmxDl scalerDr; congr (_ + _).
    apply/matrixP => i j; rewrite [RHS]mxE mulmx_diagv mul_diagv !diagvE ![fun_of_matrix (vinv _) _ _]mxE !sel_tr.
    rewrite ![fun_of_matrix (\col__ _) _ _]mxE; case: eqP => [->|_]; last by rewrite mulr0 mul0r mulr0.
    rewrite !mulr1n; set t := s _ _; have : t <> 0%coqR by exact: s0.
    set a := gamma _ _ => ht; toR; rewrite /Rdiv !Rinv_mult !Rinv_inv !Rinv_1; ring.
  rewrite zm_convert /= vinvZ diagvZ trmx_mul diagv_tr -?scalemxAr -?scalemxAl -?scalemxAr -?scalemxAl !mulmxA.
  by [].
Qed.
Definition eff_of (b : 'cV[R]_p) (gm : 'cV[R]_q) (gg : group p q) : res 'cV[R]_q :=
  let! u := np_solve (kern_of gm gg) ((g_z gg *m select m)^T *m diagv (vinv (g_v gg)) *m residual gg b) in
  Ok (select m *m u).
Lemma np_solve_conj n k (K : 'M[R]_n) (E : 'M[R]_n) (b : 'M[R]_(n, k)) : E \in unitmx ->
  np_solve (E *m K *m E) (E *m b) = rmap (fun x => invmx E *m x) (np_solve K b).
Proof.
  move=> uE; rewrite /np_solve !unitmx_mul uE andbT /=; case: ifP => // uK; rewrite /= !invmx_mulR ?unitmx_mul ?uE ?uK //.
  by congr Ok; rewrite -!mulmxA (mulmxA (invmx E) E) mulVmx // mul1mx.
Qed.
Lemma eff_convert : eff_of (convert_beta U beta) (convert_gamma U gamma) (convert U g) =
  rmap (convert_effects U) (eff_of beta gamma g).
Proof.
  rewrite /eff_of kern_convert zm_convert.
  have -> : (zm *m D)^T *m diagv (vinv (g_v (convert U g))) *m residual (convert U g) (convert_beta U beta) =
      (/ c)%coqR *: (D *m (zm^T *m diagv (vinv (g_v g)) *m residual g beta)).
    rewrite -[residual _ _]/(resid (convert_beta U beta) (convert U g)) resid_convert /= vinvZ diagvZ trmx_mul diagv_tr.
    rewrite -?scalemxAr -?scalemxAl -?scalemxAr -?scalemxAl scalerA !mulmxA; congr (_ *: _); toR; field; exact: c0.
  rewrite np_solveZ; last by apply: Rinv_neq_0_compat.
  rewrite np_solve_conj; last exact: uD.
  case: (np_solve _ _) => [u|e] //=; congr Ok.
  rewrite invD -scalemxAr mulmxA -diagv_select -mulmxA.
  apply/matrixP => j k; rewrite (ord1 k) ![fun_of_matrix (_ *: _) _ _]mxE mul_diagv [RHS]mxE [vinv _ _ _]mxE.
  have : s j ord0 <> 0%coqR by exact: s0.
  set t := s j ord0; set a := (select m *m u) j ord0 => ht.
  by toR; field.
Qed.
Definition hat_of (gm : 'cV[R]_q) (gg : group p q) : res 'M[R]_(g_n gg) :=
  let! k := np_inv (kern_of gm gg) in
  Ok (g_z gg *m (select m *m (k *m ((g_z gg *m select m)^T *m diagv (vinv (g_v gg)))))).
Lemma np_invE n (B : 'M[R]_n) : np_inv B = np_solve B 1%:M.
Proof. by rewrite /np_inv /np_solve mulmx1. Qed.
Lemma np_inv_conj n (l : R) (K : 'M[R]_n) (E : 'M[R]_n) : l <> 0%coqR -> E \in unitmx ->
  np_inv (l *: (E *m K *m E)) = rmap (fun x => (/ l)%coqR *: (invmx E *m x *m invmx E)) (np_inv K).
Proof.
  move=> hl uE; rewrite /np_inv unitmxZR // !unitmx_mul uE andbT /=; case: ifP => // uK.
  by rewrite /= invmxZR ?unitmx_mul ?uE ?uK // !invmx_mulR ?unitmx_mul ?uE ?uK // mulmxA.
Qed.
Lemma hat_convert : hat_of (convert_gamma U gamma) (convert U g) = hat_of gamma g.
Proof.
  rewrite /hat_of kern_convert np_inv_conj; [|by apply: Rinv_neq_0_compat|exact: uD].
  case: (np_inv _) => [k|e] //=; congr Ok.
  have -> : (g_z g *m diagv s *m select m)^T = D *m zm^T by rewrite -mulmxA diagv_select mulmxA trmx_mul diagv_tr.
  rewrite vinvZ diagvZ -?scalemxAr -?scalemxAl -?scalemxAr -?scalemxAl ?scalerA.
  have -> : forall B : 'M[R]_(g_n g), ((/ (c * (c * 1))) * (/ / (c * (c * 1))))%coqR *: B = B.
    move=> B; have -> : ((/ (c * (c * 1))) * (/ / (c * (c * 1))))%coqR = 1 by toR; field.
    by rewrite scale1r.
  rewrite invD !mulmxA -(mulmxA _ Di D).
  have -> : Di *m D = 1%:M by rewrite -invD mulVmx //; exact: uD.
  rewrite mulmx1 -(mulmxA _ (diagv s)) diagv_select !mulmxA -(mulmxA _ D Di) DDi mulmx1.
  by [].
Qed.
End Mask.
End Group.

(** ** all groups *)
Section Groups.
Variables (p q : nat) (U : units p q).
Hypothesis ok : sensible U.
Implicit Types (gs : seq (group p q)) (beta : 'cV[R]_p) (gamma : 'cV[R]_q).
Notation c := (u_scale U).
Notation A := (u_fixed U).
Notation s := (u_random U).
Notation cb := (convert_beta U).
Notation cg := (convert_gamma U).
Notation cgs := (List.map (convert U)).
Let c0 : c <> 0%coqR. Proof. by case: ok. Qed.
Let c20 : (c ^ 2 <> 0)%coqR. Proof. by apply: pow_nonzero. Qed.
Let c2p : (0 < c ^ 2)%coqR. Proof. by rewrite -Rsqr_pow2; exact: Rsqr_pos_lt. Qed.
Let uA : A \in unitmx. Proof. by case: ok => _ []. Qed.

Lemma convert_admissible gs gamma : admissible (cgs gs) (cg gamma) <-> admissible gs gamma.
Proof.
  rewrite /admissible; split=> h g hin.
    by apply/(convert_pd ok); apply: h; exact: List.in_map.
  by have [g0 [<- h0]] := proj1 (List.in_map_iff _ _ _) hin; apply/(convert_pd ok); exact: h.
Qed.
Lemma eval_convert (T T' : Type) (f : T -> T') (k : seq (fgroup p q) -> res T) k' gs gamma :
  (admissible gs gamma -> k' (List.map (fac (cg gamma)) (cgs gs)) = rmap f (k (List.map (fac gamma) gs))) ->
  (let! fs := recalculate (cgs gs) (cg gamma) in k' fs) = rmap f (let! fs := recalculate gs gamma in k fs).
Proof.
  move=> h; case: (classic (admissible gs gamma)) => ha.
    by rewrite !recalculate_ok /= ?h //; apply/convert_admissible.
  by rewrite !recalculate_err // => /convert_admissible.
Qed.
Lemma sum_convert (V : zmodType) (F G : fgroup p q -> V) gs gamma : admissible gs gamma ->
  (forall g, pd (Omega gamma g) -> F (fac (cg gamma) (convert U g)) = G (fac gamma g)) ->
  \sum_(f <- List.map (fac (cg gamma)) (cgs gs)) F f = \sum_(f <- List.map (fac gamma) gs) G f.
Proof.
  move=> ha hF; rewrite !big_lmap; apply: eq_big_In => g hin; apply: hF; exact: ha.
Qed.

Lemma lme_loss_convert gs beta gamma :
  lme_loss (cgs gs) LNone (cb beta) (cg gamma) =
  rmap (fun l => l + INR (total_obs gs) * ln (Rabs c))%coqR (lme_loss gs LNone beta gamma).
Proof.
  apply: eval_convert => ha /=; congr Ok.
  rewrite (sum_convert (G := fun f => group_loss beta f + INR (g_n (f_g f)) * ln (Rabs c))) //; last first.
    by move=> g hg; exact: loss_convert.
  rewrite big_split /= -big_distrl /=.
  have -> : \sum_(i <- List.map (fac gamma) gs) INR (g_n (f_g i)) = INR (total_obs gs).
    rewrite big_lmap /total_obs /=; elim: gs {ha} => [|g l IH]; rewrite ?big_nil // !big_cons IH.
    by rewrite -plusE plus_INR.
  by toR; ring.
Qed.
Lemma lme_gradient_gamma_convert gs beta gamma :
  lme_gradient_gamma (cgs gs) LNone (cb beta) (cg gamma) =
  rmap (fun d : 'cV[R]_q => \col_j (s j ord0 ^ 2 / c ^ 2 * d j ord0)%coqR) (lme_gradient_gamma gs LNone beta gamma).
Proof.
  apply: eval_convert => ha /=; congr Ok; rewrite !addr0.
  apply/matrixP => j k; rewrite (ord1 k) [RHS]mxE !summxE.
  rewrite (sum_convert (G := fun f => (s j ord0 ^ 2 / c ^ 2)%coqR * group_gradient_gamma beta f j ord0)) //.
    by rewrite -big_distrr.
  by move=> g hg; rewrite gradient_gamma_convert // [LHS]mxE.
Qed.
Lemma lme_gradient_beta_convert gs beta gamma :
  lme_gradient_beta (cgs gs) LNone (cb beta) (cg gamma) =
  rmap (fun d => (/ c)%coqR *: (A^T *m d)) (lme_gradient_beta gs LNone beta gamma).
Proof.
  apply: eval_convert => ha /=; congr Ok; rewrite !addr0 mulmx_sumr scaler_sumr.
  by apply: sum_convert => // g hg; rewrite gradient_beta_convert.
Qed.
Lemma lme_hessian_beta_convert gs gamma :
  lme_hessian_beta (cgs gs) LNone (cg gamma) =
  rmap (fun h => (/ c ^ 2)%coqR *: (A^T *m h *m A)) (lme_hessian_beta gs LNone gamma).
Proof.
  apply: eval_convert => ha /=; congr Ok; rewrite !addr0 mulmx_sumr mulmx_suml scaler_sumr.
  by apply: sum_convert => // g hg; rewrite kernel_convert.
Qed.
Lemma lme_hessian_gamma_convert gs a b beta gamma :
  lme_hessian_gamma (cgs gs) LNone a b (cb beta) (cg gamma) =
  rmap (fun h : 'M[R]_q => \matrix_(i, j) (s i ord0 ^ 2 * s j ord0 ^ 2 / c ^ 4 * h i j)%coqR)
    (lme_hessian_gamma gs LNone a b beta gamma).
Proof.
  apply: eval_convert => ha /=; congr Ok; rewrite !addr0.
  apply/matrixP => i j; rewrite [RHS]mxE ![fun_of_matrix (_ *: _) _ _]mxE !summxE.
  rewrite (sum_convert (G := fun f => (s i ord0 ^ 2 * s j ord0 ^ 2 / c ^ 4)%coqR * group_hessian_gamma a b beta f i j)) //.
    by rewrite -big_distrr /=; toR; ring.
  by move=> g hg; rewrite hessian_gamma_convert // [LHS]mxE.
Qed.
Lemma lme_hessian_mixed_convert gs beta gamma :
  lme_hessian_beta_gamma (cgs gs) (cb beta) (cg gamma) =
  rmap (fun h => (/ c ^ 3)%coqR *: (A^T *m h *m diagv (\col_j (s j ord0 ^ 2)%coqR))) (lme_hessian_beta_gamma gs beta gamma).
Proof.
  apply: eval_convert => ha /=; congr Ok.
  rewrite (sum_convert (G := fun f => (/ c ^ 3)%coqR *: (diagv (\col_j (s j ord0 ^ 2)%coqR) *m group_hessian_mixed beta f *m A))) //.
    rewrite -scaler_sumr -mulmx_suml -mulmx_sumr linearZ /= !trmx_mul diagv_tr mulmxA; by [].
  by move=> g hg; rewrite mixed_convert.
Qed.
Lemma kernel_tail_convert gs gamma :
  kernel_tail (cgs gs) (cg gamma) =
  rmap (fun kt => ((/ c ^ 2)%coqR *: (A^T *m kt.1 *m A), (/ c)%coqR *: (A^T *m (kt.2 + kt.1 *m u_shift U))))
    (kernel_tail gs gamma).
Proof.
  apply: eval_convert => ha /=; congr (Ok (_, _)).
    rewrite mulmx_sumr mulmx_suml scaler_sumr; by apply: sum_convert => // g hg; rewrite kernel_convert.
  rewrite mulmx_suml -big_split /= mulmx_sumr scaler_sumr; by apply: sum_convert => // g hg; rewrite tail_convert.
Qed.
Lemma lme_optimal_beta_convert gs gamma :
  lme_optimal_beta (cgs gs) (cg gamma) = rmap cb (lme_optimal_beta gs gamma).
Proof.
  rewrite /lme_optimal_beta kernel_tail_convert; case: (kernel_tail gs gamma) => [[K t]|e] //=.
  rewrite np_solveZ; last by apply: Rinv_neq_0_compat.
  rewrite /np_solve !unitmx_mul unitmx_tr uA andbT /=; case: ifP => // uK; rewrite /=; congr Ok.
  rewrite !invmx_mulR ?unitmx_mul ?unitmx_tr ?uA ?uK // /convert_beta.
  have -> : (/ c / / c ^ 2)%coqR = c by field.
  congr (_ *: _); rewrite -!mulmxA (mulmxA (invmx A^T)) mulVmx ?unitmx_tr // mul1mx mulmxDr mulKmx //.
Qed.

Section Same.
Variables (gs : seq (group p q)) (beta : 'cV[R]_p) (gamma : 'cV[R]_q).
Hypothesis same : re_mask (cg gamma) = re_mask gamma.
Lemma sequence_rmap (X Y Z : Type) (f : X -> res Y) (h : X -> res Z) (k : Y -> Z) (l : list X) :
  (forall x, List.In x l -> h x = rmap k (f x)) ->
  sequence (List.map h l) = rmap (List.map k) (sequence (List.map f l)).
Proof.
  elim: l => //= x l IH e; rewrite e; last by left.
  case: (f x) => //= y; rewrite IH; last by move=> z hz; apply: e; right.
  by case: (sequence _).
Qed.
Lemma group_effects_convert (g : group p q) : group_effects (cb beta) (cg gamma) (convert U g) = rmap (convert_effects U) (group_effects beta gamma g).
Proof.
  rewrite -[LHS]/(eff_of (re_mask (cg gamma)) (cb beta) (cg gamma) (convert U g)) same.
  exact: eff_convert.
Qed.
Lemma lme_random_effects_convert :
  lme_random_effects (cgs gs) (cb beta) (cg gamma) = rmap (List.map (convert_effects U)) (lme_random_effects gs beta gamma).
Proof.
  apply: eval_convert => ha; rewrite List.map_map; apply: sequence_rmap => g _; exact: group_effects_convert.
Qed.
Lemma conditional_convert (g : group p q) u : (forall i, 0 < g_v g i ord0)%coqR ->
  group_conditional (cb beta) (convert U g, convert_effects U u) =
  (group_conditional beta (g, u) + INR (g_n g) * ln (Rabs c))%coqR.
Proof.
  move=> hv; rewrite /group_conditional /convert; cbn [g_n g_x g_y g_z g_v].
  have ha : (0 < Rabs c)%coqR by exact: Rabs_pos_lt.
  have -> : c *: (g_y g + g_x g *m u_shift U) - g_x g *m A *m cb beta - g_z g *m diagv s *m convert_effects U u
      = c *: (g_y g - g_x g *m beta - g_z g *m u).
    have := resid_convert ok beta g; rewrite /resid /= => ->; rewrite [RHS]scalerBr; congr (_ + - _).
    have -> : g_z g *m diagv s *m convert_effects U u = g_z g *m (c *: u); last by rewrite -scalemxAr.
    rewrite -mulmxA; congr (_ *m _); apply/matrixP => j k; rewrite (ord1 k) mul_diagv !mxE.
    have : s j ord0 <> 0%coqR by case: ok => _ [_]; apply.
    by set t := s j ord0; set a := u j ord0 => ht; toR; field.
  have -> : \sum_i ln (((c ^ 2)%coqR *: g_v g) i ord0) = (\sum_i ln (g_v g i ord0) + INR (g_n g) * (2 * ln (Rabs c)))%coqR.
    transitivity (\sum_(i < g_n g) (ln (g_v g i ord0) + 2 * ln (Rabs c))%coqR).
      apply: eq_bigr => i _; rewrite mxE RmulE ln_mult //.
      rewrite -pow2_abs ln_powR //; have -> : INR 2 = 2%coqR by rewrite /=; ring.
      exact: Rplus_comm.
    rewrite big_split /= sumr_const card_ord -mulr_natl; congr (_ + _ * _).
    by rewrite natR.
  set r := (g_y g - g_x g *m beta - g_z g *m u)%R.
  have -> : \sum_i ((c *: r) i ord0 ^ 2 / ((c ^ 2)%coqR *: g_v g) i ord0)%coqR = \sum_i (r i ord0 ^ 2 / g_v g i ord0)%coqR.
    apply: eq_bigr => i _; rewrite ![fun_of_matrix (_ *: _) _ _]mxE.
    have := hv i; set t := r i ord0; set v := g_v g i ord0 => h0; toR; field; split; lra || exact: c0.
  by toR; lra.
Qed.
Lemma lme_demarginalized_convert : positive_variances gs ->
  lme_demarginalized_loss (cgs gs) LNone (cb beta) (cg gamma) =
  rmap (fun l => l + INR (total_obs gs) * ln (Rabs c))%coqR (lme_demarginalized_loss gs LNone beta gamma).
Proof.
  move=> hv; rewrite /lme_demarginalized_loss lme_random_effects_convert.
  case e : (lme_random_effects gs beta gamma) => [us|] //=; congr Ok.
  have : length us = length gs.
    move: e; rewrite /lme_random_effects; case: (recalculate _ _) => //= _ e.
    by rewrite (sequence_len e) List.map_length.
  rewrite /total_obs; move: hv; elim: gs us {e} => [|g l IH] [|u us] //= hv el; rewrite ?big_nil.
    by toR; rewrite /=; ring.
  rewrite !big_cons; move: el => [el].
  rewrite conditional_convert; last by apply: hv; left.
  have := IH us (fun g hin => hv g (or_intror hin)) el; toR; rewrite -plusE plus_INR.
  set a := group_conditional _ _; set b := bigop _ _ _; set d := bigop _ _ _; set n := INR _; set k := INR _; lra.
Qed.
Lemma n_eff_convert_all : admissible gs gamma ->
  n_eff (List.map (fac (cg gamma)) (cgs gs)) = n_eff (List.map (fac gamma) gs).
Proof.
  move=> ha; rewrite /n_eff !List.map_map.
  suff -> : List.map (fun g => group_n_eff (fac (cg gamma) (convert U g))) gs = List.map (fun g => group_n_eff (fac gamma g)) gs by [].
  by apply: List.map_ext_in => g hin; apply: n_eff_convert => //; exact: ha.
Qed.
Lemma h_beta_convert ki (g : group p q) : pd (Omega gamma g) ->
  hat_h_beta ((c ^ 2)%coqR *: (invmx A *m ki *m (invmx A)^T)) (fac (cg gamma) (convert U g)) (fac (cg gamma) (convert U g))
  = hat_h_beta ki (fac gamma g) (fac gamma g).
Proof.
  move=> hg; have hg' : pd (Omega (cg gamma) (convert U g)) by apply/(convert_pd ok).
  rewrite (h_beta_fac _ _ hg') (h_beta_fac _ _ hg) Omega_convert // invmxZR //; last exact: pd_unit.
  exact: conj_cancel.
Qed.
Lemma row_ddf_convert ki (g : group p q) : pd (Omega gamma g) ->
  row_ddf (cg gamma) ((c ^ 2)%coqR *: (invmx A *m ki *m (invmx A)^T)) (convert U g) = row_ddf gamma ki g.
Proof.
  move=> hg; have hh := h_beta_convert ki hg.
  have hd : hat_diagonal (cg gamma) (convert U g) = hat_diagonal gamma g.
    by rewrite -[LHS]/(hat_of (re_mask (cg gamma)) (cg gamma) (convert U g)) same hat_convert.
  by rewrite !row_ddfE; exact: (f_equal2 (@ddf_of (g_n g)) hh hd).
Qed.
Lemma lme_ddf_convert : lme_ddf (cgs gs) (cg gamma) = lme_ddf gs gamma.
Proof.
  have rid (r : res R) : rmap id r = r by case: r.
  rewrite !lme_ddfE -[RHS]rid; apply: eval_convert => ha; rewrite rid.
  rewrite (sum_convert (G := fun f => (/ c ^ 2)%coqR *: (A^T *m group_kernel f *m A))) //; last first.
    by move=> g hg; rewrite kernel_convert.
  rewrite -scaler_sumr -mulmx_suml -mulmx_sumr; move: (bigop _ _ _) => K.
  rewrite np_inv_sandwich //; case: (np_inv K) => [ki|e]; last by [].
  have E : List.map (row_ddf (cg gamma) ((c ^ 2)%coqR *: (invmx A *m ki *m (invmx A)^T))) (cgs gs) = List.map (row_ddf gamma ki) gs.
    refine (eq_trans (List.map_map _ _ _) _); apply: List.map_ext_in => g hin.
    by apply: row_ddf_convert; exact: ha.
  cbn [rbind rmap]; refine (eq_trans (ddf_rows (cg gamma) (cgs gs) _) (eq_trans _ (esym (ddf_rows gamma gs ki)))).
  exact: (f_equal (fun l => let! ds := sequence l in Ok (\sum_(d <- ds) d)) E).
Qed.
End Same.
End Groups.
