(** The EM step decreases the marginal negative log-likelihood. *)
From Verif.Base Require Import Py Vec RMx.
From Coq Require Import Lra.
From mathcomp Require Import ssreflect ssrfun ssrbool eqtype ssrnat choice seq fintype
  finfun bigop finset ssralg zmodp matrix mxalgebra.
From Verif.Model Require Import LmeOracle.
From Verif.Spec Require Import MxSpec BoundSpec EmSpec.
From Verif.Proofs Require Import MxFacts LmeOracleProofs LmeEstimates LmeBlup BoundProofs.
Set Implicit Arguments.
Unset Strict Implicit.
Unset Printing Implicit Defensive.
Delimit Scope R_scope with coqR.
Import GRing.Theory.
Local Open Scope ring_scope.

(** ** determinants *)
Lemma det_schur n m (A : 'M[R]_n) (B : 'M[R]_(n, m)) (C : 'M[R]_(m, n)) (D : 'M[R]_m) : A \in unitmx ->
  \det (block_mx A B C D) = \det A * \det (D - C *m invmx A *m B).
Proof.
  move=> uA.
  have -> : block_mx A B C D = block_mx 1%:M 0 (C *m invmx A) 1%:M *m block_mx A B 0 (D - C *m invmx A *m B).
    rewrite mulmx_block !mul1mx !mul0mx ?mulmx0 !addr0 mulmxKV //; congr (block_mx _ _ _ _).
    by rewrite addrC subrK.
  by rewrite det_mulmx det_lblock det_ublock !det1 !mul1r.
Qed.
Lemma det_schur' n m (A : 'M[R]_n) (B : 'M[R]_(n, m)) (C : 'M[R]_(m, n)) (D : 'M[R]_m) : D \in unitmx ->
  \det (block_mx A B C D) = \det D * \det (A - B *m invmx D *m C).
Proof.
  move=> uD.
  have -> : block_mx A B C D = block_mx 1%:M (B *m invmx D) 0 1%:M *m block_mx (A - B *m invmx D *m C) 0 C D.
    rewrite mulmx_block !mul1mx !mul0mx ?mulmx0 !add0r mulmxKV //; congr (block_mx _ _ _ _).
    by rewrite subrK.
  by rewrite det_mulmx det_lblock det_ublock !det1 !mul1r mulrC.
Qed.
Lemma det_swap n m (A : 'M[R]_n) (B : 'M[R]_(n, m)) (C : 'M[R]_(m, n)) (D : 'M[R]_m) :
  A \in unitmx -> D \in unitmx ->
  \det A * \det (D + C *m invmx A *m B) = \det D * \det (A + B *m invmx D *m C).
Proof.
  move=> uA uD; have := det_schur (- B) C D uA; rewrite det_schur' // !mulmxN opprK => <-.
  by rewrite !mulNmx opprK.
Qed.

Lemma pd_det n (M : 'M[R]_n) : pd M -> (0 < \det M)%coqR.
Proof.
  move=> h; have [_ e t pos] := chol_spec h; rewrite -e det_mulmx det_tr.
  rewrite (det_trig t); have [hp _] := ln_prod pos; exact: Rmult_lt_0_compat.
Qed.
Lemma logdet_trace n (M : 'M[R]_n) : pd M -> (ln (\det M) <= \tr M - INR n)%coqR.
Proof.
  move=> h; have [_ e t pos] := chol_spec h; set L := chol_or0 M in e t pos.
  have -> : \det M = \prod_i (L i i * L i i)%coqR.
    by rewrite -e det_mulmx det_tr (det_trig t) -big_split.
  have pos2 i : (0 < L i i * L i i)%coqR by apply: Rmult_lt_0_compat; exact: pos.
  have [_ ->] := ln_prod pos2.
  have -> : \tr M = \sum_i \sum_j (L i j ^ 2)%coqR.
    rewrite -e /mxtrace; apply: eq_bigr => i _; rewrite mxE; apply: eq_bigr => j _; rewrite mxE; toR; ring.
  have -> : INR n = \sum_(i < n) (1%coqR : R).
    elim: n {M h L e t pos pos2} => [|n IH]; first by rewrite big_ord0.
    by rewrite S_INR IH big_ord_recr.
  apply: (Rle_trans _ (\sum_i ((\sum_j (L i j ^ 2)%coqR) - 1)%coqR)); last first.
    by right; rewrite -RsubE -sumrB.
  apply: sum_le => i _.
  have hl : (ln (L i i * L i i) <= L i i * L i i - 1)%coqR by have := exp_ineq1_le (ln (L i i * L i i)); rewrite exp_ln //; lra.
  have : (L i i ^ 2 <= \sum_j (L i j ^ 2)%coqR)%coqR.
    rewrite (bigD1 i) //=; set s := \sum_(_ | _) _.
    have : (0 <= s)%coqR by apply: sum_ge0 => j _; exact: pow2_ge_0.
    by rewrite RaddE; lra.
  by move: (\sum_j _) => s; lra.
Qed.
(** for symmetric positive definite A, B *)
Lemma logdet_product n (A B : 'M[R]_n) : pd A -> pd B -> (ln (\det A) + ln (\det B) <= \tr (A *m B) - INR n)%coqR.
Proof.
  move=> hA hB; have [_ e t pos] := chol_spec hA; have uL := chol_unit hA; set L := chol_or0 A in e t pos uL.
  have [sB qB] := hB.
  have hM : pd (L^T *m B *m L).
    split; first by rewrite !trmx_mul trmxK sB mulmxA.
    move=> x nx; have -> : qf (L^T *m B *m L) x = qf B (L *m x) by rewrite /qf trmx_mul !mulmxA.
    by apply: qB => e0; apply: nx; rewrite -(mulKmx uL x) e0 mulmx0.
  have := logdet_trace hM.
  have -> : \tr (L^T *m B *m L) = \tr (A *m B) by rewrite -e mxtrace_mulC mulmxA.
  rewrite !det_mulmx.
  have -> : \det L^T * \det B * \det L = (\det A * \det B)%coqR.
    by rewrite -RmulE -e det_mulmx det_tr mulrAC.
  by rewrite ln_mult //; exact: pd_det.
Qed.

Lemma pen_expand n m (V : 'M[R]_n) (W : 'M[R]_m) (Z : 'M[R]_(n, m)) r u : V^T = V ->
  (/ 2 * qf V (r - Z *m u) + / 2 * qf W u =
   / 2 * qf (W + Z^T *m V *m Z) u - sc ((Z^T *m V *m r)^T *m u) + / 2 * qf V r)%coqR.
Proof.
  move=> sV; rewrite qfD (qf_bf V (r - _)) bfBr !bfBl -(qf_bf V r) [bf V r (Z *m u)]bfC //.
  have -> : qf (Z^T *m V *m Z) u = bf V (Z *m u) (Z *m u) by rewrite /qf /bf (trmx_mul Z u) !mulmxA.
  have -> : sc ((Z^T *m V *m r)^T *m u) = bf V (Z *m u) r by rewrite sc_dotC /bf (trmx_mul Z u) !mulmxA.
  have gen (a b c d : R) : (/ 2 * (a - b - (b - c)) + / 2 * d = / 2 * (d + c) - b + / 2 * a)%coqR by lra.
  exact: gen.
Qed.

Section Em.
Variables p q : nat.
Implicit Types (gs : seq (group p q)) (g : group p q) (beta : 'cV[R]_p) (gamma u : 'cV[R]_q).

(** the precision of the effects given the observations *)
Definition precision gamma g : 'M[R]_q := diagv (vinv gamma) + (g_z g)^T *m diagv (vinv (g_v g)) *m g_z g.

Section Group.
Variables (g : group p q).
Hypothesis hv : forall i, (0 < g_v g i ord0)%coqR.

Lemma inv_v : invmx (diagv (g_v g)) = diagv (vinv (g_v g)).
Proof. exact: invmx_diagv. Qed.
Lemma unit_v : diagv (g_v g) \in unitmx.
Proof. by apply: pd_unit; exact: pd_diagv. Qed.

Section Gamma.
Variable gamma : 'cV[R]_q.
Hypothesis hg : positive gamma.
Let nn : nonnegative gamma.
Proof. by move=> j; have := hg j; lra. Qed.
Let pO : pd (Omega gamma g).
Proof. exact: Omega_pd. Qed.
Lemma precision_pd : pd (precision gamma g).
Proof.
  apply: pd_add; first by apply: pd_diagv => j; rewrite mxE; apply: Rinv_0_lt_compat; exact: hg.
  have h : psd (diagv (vinv (g_v g))).
    by apply: psd_diagv => i; rewrite mxE; have := Rinv_0_lt_compat _ (hv i); lra.
  by have := psd_congr ((g_z g)^T) h; rewrite trmxK.
Qed.
Lemma posterior_precision : posterior_cov gamma g *m precision gamma g = 1%:M.
Proof.
  rewrite /posterior_cov /precision -/(diagv gamma).
  have n0 : forall j, gamma j ord0 <> 0%coqR by move=> j; have := hg j; lra.
  have n1 : forall i, g_v g i ord0 <> 0%coqR by move=> i; have := hv i; lra.
  have uO := pd_unit pO.
  have eO : g_z g *m diagv gamma *m (g_z g)^T = Omega gamma g - diagv (g_v g) by rewrite /Omega addrK.
  rewrite mulmxDr !mulmxBl diagv_vinv //.
  rewrite -(mulmxA _ (diagv gamma) (diagv (vinv gamma))) diagv_vinv // mulmx1.
  set D := diagv gamma; set Z := g_z g; set V := diagv (vinv (g_v g)); set O := Omega gamma g.
  have -> : D *m Z^T *m invmx O *m Z *m D *m (Z^T *m V *m Z) = D *m Z^T *m invmx O *m (Z *m D *m Z^T) *m V *m Z.
    by rewrite !mulmxA.
  rewrite eO mulmxBr mulmxKV // !mulmxBl.
  rewrite -(mulmxA _ (diagv (g_v g)) V) diagv_vinv // mulmx1 !mulmxA.
  by rewrite opprB [X in _ + X]addrC subrK subrK.
Qed.
Lemma posteriorE : posterior_cov gamma g = invmx (precision gamma g).
Proof.
  have u := pd_unit precision_pd.
  by rewrite -[RHS]mul1mx -posterior_precision mulmxK.
Qed.
Lemma posterior_pd : pd (posterior_cov gamma g).
Proof. by rewrite posteriorE; apply: pd_inv; exact: precision_pd. Qed.
Lemma logdet_Omega : ln (\det (Omega gamma g)) =
  (ln (\det (diagv (g_v g))) + ln (\det (diagv gamma)) + ln (\det (precision gamma g)))%coqR.
Proof.
  have pV : pd (diagv (g_v g)) by exact: pd_diagv.
  have pG : pd (diagv gamma) by exact: pd_diagv.
  have pW : pd (diagv (vinv gamma)) by apply: pd_diagv => j; rewrite mxE; apply: Rinv_0_lt_compat; exact: hg.
  have n0 : forall j, gamma j ord0 <> 0%coqR by move=> j; have := hg j; lra.
  have := det_swap (g_z g) (g_z g)^T unit_v (pd_unit pW); rewrite inv_v -/(precision gamma g).
  have iW : invmx (diagv (vinv gamma)) = diagv gamma.
    by rewrite -[RHS]mulmx1 -(mulmxV (pd_unit pW)) mulmxA diagv_vinv // mul1mx.
  rewrite iW [diagv (g_v g) + _]addrC -/(Omega gamma g) => e.
  have e2 : \det (diagv gamma) * \det (diagv (vinv gamma)) = 1 by rewrite -det_mulmx diagv_vinv // det1.
  have -> : \det (Omega gamma g) = (\det (diagv (g_v g)) * \det (diagv gamma) * \det (precision gamma g))%coqR.
    rewrite -!RmulE -[LHS]mul1r -e2 -mulrA -e; toR; ring.
  have := pd_det pV; have := pd_det pG; have := pd_det precision_pd => h1 h2 h3.
  rewrite ln_mult //; last exact: Rmult_lt_0_compat.
  by rewrite ln_mult.
Qed.
End Gamma.

Lemma trace_posterior gamma gamma' : positive gamma -> positive gamma' ->
  \tr (posterior_cov gamma g *m precision gamma' g) =
  (INR q + \sum_j (posterior_cov gamma g j j * (/ gamma' j ord0 - / gamma j ord0)))%coqR.
Proof.
  move=> hg hg'.
  have -> : precision gamma' g = precision gamma g + diagv (vinv gamma' - vinv gamma).
    rewrite /precision [RHS]addrAC; congr (_ + _).
    by apply/matrixP => i j; rewrite !mxE; case: (i == j); rewrite ?mulr1n ?mulr0n; toR; ring.
  rewrite mulmxDr posterior_precision // mxtraceD mxtrace1.
  have -> : (q%:R : R) = INR q.
    by elim: q => // n IH; rewrite -addn1 natrD IH addn1 S_INR.
  congr (_ + _)%coqR; rewrite /mxtrace; apply: eq_bigr => j _; rewrite mulmx_diagv !mxE; toR; ring.
Qed.

Lemma logdet_majorised gamma gamma' : positive gamma -> positive gamma' ->
  (ln (\det (Omega gamma' g)) - ln (\det (Omega gamma g)) <=
   (\sum_j (posterior_cov gamma g j j * (/ gamma' j ord0 - / gamma j ord0)))
   + ln (\det (diagv gamma')) - ln (\det (diagv gamma)))%coqR.
Proof.
  move=> hg hg'; rewrite !logdet_Omega //.
  have := logdet_product (posterior_pd hg) (precision_pd hg'); rewrite trace_posterior //.
  have -> : ln (\det (posterior_cov gamma g)) = (- ln (\det (precision gamma g)))%coqR.
    rewrite posteriorE // det_inv RinvE ln_Rinv //; exact: pd_det (precision_pd hg).
  by move: (\sum_j _) => s; lra.
Qed.

(** ** the quadratic part *)
Lemma positive_blup_pen gamma beta u : positive gamma ->
  penalised beta gamma g u = (/ 2 * qf (diagv (vinv (g_v g))) (resid beta g - g_z g *m u)
    + / 2 * qf (diagv (vinv gamma)) u)%coqR.
Proof.
  move=> hg; rewrite /penalised !qf_diagv; congr (/ 2 * _ + / 2 * _)%coqR.
    by apply: eq_bigr => i _; rewrite [vinv _ _ _]mxE; rewrite /Rdiv Rmult_comm.
  rewrite (eq_bigl predT) => [|j]; last by case: rltbP => // h; case: h; exact: hg.
  by apply: eq_bigr => j _; rewrite [vinv _ _ _]mxE; rewrite /Rdiv Rmult_comm.
Qed.

Section Quadratic.
Variables (gamma : 'cV[R]_q) (beta : 'cV[R]_p).
Hypothesis hg : positive gamma.
Let r := resid beta g.
Let V := diagv (vinv (g_v g)).
Let Z := g_z g.
Let c := Z^T *m V *m r.
Lemma pen_quad u : penalised beta gamma g u =
  (/ 2 * qf (precision gamma g) u - sc (c^T *m u) + / 2 * qf V r)%coqR.
Proof.
  rewrite positive_blup_pen //; apply: pen_expand; exact: diagv_tr.
Qed.
Let pO : pd (Omega gamma g).
Proof. by apply: Omega_pd => // j; have := hg j; lra. Qed.
Let n0 : forall j, gamma j ord0 <> 0%coqR.
Proof. by move=> j; have := hg j; lra. Qed.
Let n1 : forall i, g_v g i ord0 <> 0%coqR.
Proof. by move=> i; have := hv i; lra. Qed.
Let eO : Z *m diagv gamma *m Z^T = Omega gamma g - diagv (g_v g).
Proof. by rewrite /Omega addrK. Qed.
Lemma precision_blup : precision gamma g *m blup beta gamma g = c.
Proof.
  have uO := pd_unit pO.
  rewrite /precision /blup -/(diagv gamma) -/Z -/V -/r mulmxDl.
  have -> : diagv (vinv gamma) *m (diagv gamma *m Z^T *m invmx (Omega gamma g) *m r) = Z^T *m invmx (Omega gamma g) *m r.
    by rewrite !mulmxA vinv_diagv // mul1mx.
  have -> : Z^T *m V *m Z *m (diagv gamma *m Z^T *m invmx (Omega gamma g) *m r)
          = Z^T *m V *m (Z *m diagv gamma *m Z^T) *m invmx (Omega gamma g) *m r by rewrite !mulmxA.
  rewrite eO [_ *m (Omega gamma g - _)]mulmxBr -(mulmxA _ V (diagv _)) vinv_diagv // mulmx1 !mulmxBl mulmxK //.
  by rewrite addrC subrK.
Qed.
Lemma pen_blup : penalised beta gamma g (blup beta gamma g) = (/ 2 * qf (invmx (Omega gamma g)) r)%coqR.
Proof.
  have uO := pd_unit pO; have sV : V^T = V by exact: diagv_tr.
  rewrite pen_quad.
  have -> : qf (precision gamma g) (blup beta gamma g) = sc (c^T *m blup beta gamma g).
    by rewrite /qf -mulmxA precision_blup sc_dotC.
  have -> : sc (c^T *m blup beta gamma g) = (qf V r - qf (invmx (Omega gamma g)) r)%coqR.
    rewrite /qf -scB /c !trmx_mul trmxK sV /blup -/(diagv gamma) -/Z -/r; congr sc.
    have -> : r^T *m (V *m Z) *m (diagv gamma *m Z^T *m invmx (Omega gamma g) *m r)
            = r^T *m V *m (Z *m diagv gamma *m Z^T) *m invmx (Omega gamma g) *m r by rewrite !mulmxA.
    rewrite eO [_ *m (Omega gamma g - _)]mulmxBr -(mulmxA _ V (diagv _)) vinv_diagv // mulmx1 !mulmxBl mulmxK //.
  by move: (qf _ _) (qf _ _) => a b; lra.
Qed.
Lemma pen_ge u : (/ 2 * qf (invmx (Omega gamma g)) r <= penalised beta gamma g u)%coqR.
Proof.
  rewrite -pen_blup !pen_quad.
  have [sK _] := precision_pd hg; have [_ hK] := pd_psd (precision_pd hg).
  have gen (a b d e : R) : (0 <= a -> b = d + / 2 * a -> d + e <= b + e)%coqR by lra.
  exact: (gen _ _ _ _ (hK (u - blup beta gamma g)) (quad_min u sK precision_blup)).
Qed.
End Quadratic.

Lemma logdet_diag gamma : positive gamma -> ln (\det (diagv gamma)) = \sum_j ln (gamma j ord0).
Proof. by move=> hg; rewrite det_diagv; have [_ ->] := ln_prod hg. Qed.

Lemma nll_majorised beta gamma gamma' : positive gamma -> positive gamma' ->
  (nll beta gamma' g - nll beta gamma g <=
   effects_nll (expected_square beta gamma g) gamma' - effects_nll (expected_square beta gamma g) gamma)%coqR.
Proof.
  move=> hg hg'; rewrite /nll -!/(qf _ _).
  have h1 := pen_ge beta hg' (blup beta gamma g); have h2 := pen_blup beta hg.
  have h3 := logdet_majorised hg hg'; rewrite !logdet_diag // in h3.
  have e : (penalised beta gamma' g (blup beta gamma g) - penalised beta gamma g (blup beta gamma g)
    = / 2 * \sum_j (blup beta gamma g j ord0 ^ 2 * (/ gamma' j ord0 - / gamma j ord0)))%coqR.
    rewrite !positive_blup_pen //; move: (/ 2 * qf (diagv (vinv (g_v g))) _)%coqR => a; rewrite !qf_diagv.
    have -> (x y : R) : (a + / 2 * x - (a + / 2 * y) = / 2 * (x - y))%coqR by ring.
    congr (/ 2 * _)%coqR; rewrite -RsubE -sumrB; apply: eq_bigr => j _; rewrite !mxE; toR; ring.
  have e2 : (effects_nll (expected_square beta gamma g) gamma' - effects_nll (expected_square beta gamma g) gamma
    = / 2 * (\sum_j (blup beta gamma g j ord0 ^ 2 * (/ gamma' j ord0 - / gamma j ord0))%coqR)
      + / 2 * ((\sum_j (posterior_cov gamma g j j * (/ gamma' j ord0 - / gamma j ord0))%coqR)
      + (\sum_j ln (gamma' j ord0)) - \sum_j ln (gamma j ord0)))%coqR.
    rewrite /effects_nll -[(_ - _)%coqR]RsubE -sumrB -!RaddE -!RmulE -[(_ - _)%coqR]RsubE.
    rewrite -big_split -sumrB !mulr_sumr -big_split; apply: eq_bigr => j _.
    rewrite /expected_square; move: (blup _ _ _ _ _) (posterior_cov _ _ _ _) (gamma j ord0) (gamma' j ord0) => a b c d.
    move: (ln c) (ln d) => lc ld; rewrite /=; toR; rewrite /Rdiv; ring.
  rewrite e2; move: e h1 h2 h3; move: (penalised _ _ _ _) (penalised _ _ _ _) => a b.
  move: (\sum_j _) (\sum_j _) (\sum_j _) (\sum_j _) (qf _ _) (qf _ _) (ln _) (ln _) => s1 s2 s3 s4 x y z w.
  rewrite -?RsubE -?RaddE -?RmulE; toR; lra.
Qed.
End Group.

Lemma diag_pos n (M : 'M[R]_n) i : pd M -> (0 < M i i)%coqR.
Proof.
  move=> [_ h]; have -> : M i i = qf M (delta_mx i ord0).
    by rewrite /qf /sc trmx_delta -rowE -colE !mxE.
  apply: h => e; have := congr1 (fun x : 'cV[R]_n => x i ord0) e; rewrite !mxE !eqxx /=.
  by move/eqP; rewrite oner_eq0.
Qed.

Definition average_nll (n : R) (s : 'I_q -> R) gamma : R :=
  \sum_j (/ 2 * (s j / gamma j ord0) + / 2 * (n * ln (gamma j ord0)))%coqR.
Lemma sum_effects gs (v : group p q -> 'I_q -> R) gamma :
  \sum_(g <- gs) effects_nll (v g) gamma = average_nll (INR (size gs)) (fun j => \sum_(g <- gs) v g j) gamma.
Proof.
  rewrite /effects_nll /average_nll exchange_big; apply: eq_bigr => j _ /=.
  elim: gs => [|g gs IH]; first by rewrite !big_nil /=; toR; rewrite /Rdiv; ring.
  rewrite !big_cons IH (_ : size (g :: gs) = (size gs).+1) // S_INR.
  move: (\sum_(_ <- gs) _) (v g j) (gamma j ord0) => s a c; move: (INR _) (ln c) => n lc.
  by rewrite /=; toR; rewrite /Rdiv; ring.
Qed.
Lemma average_min (n : R) (s : 'I_q -> R) gamma gamma' : (0 < n)%coqR -> positive gamma' ->
  (forall j, gamma j ord0 = (s j / n)%coqR) -> positive gamma ->
  (average_nll n s gamma <= average_nll n s gamma')%coqR.
Proof.
  move=> hn hg' e hg; apply: sum_le => j _.
  have sj : s j = (n * gamma j ord0)%coqR by rewrite e; field; lra.
  rewrite sj; move: (hg j) (hg' j); move: (gamma j ord0) (gamma' j ord0) => a b ha hb.
  have hab : (0 < a / b)%coqR by apply: Rdiv_lt_0_compat.
  have h := exp_ineq1_le (ln (a / b)); rewrite exp_ln // in h.
  have e1 : ln (a / b) = (ln a - ln b)%coqR by rewrite /Rdiv ln_mult ?ln_Rinv //; exact: Rinv_0_lt_compat.
  have -> : (n * a / a = n * 1)%coqR by field; lra.
  have -> : (n * a / b = n * (a / b))%coqR by field; lra.
  have : (n * (1 + ln a) <= n * (a / b + ln b))%coqR by apply: Rmult_le_compat_l; lra.
  by lra.
Qed.

Section Groups.
Variables (gs : seq (group p q)).
Hypothesis hv : positive_variances gs.
Hypothesis hn : (0 < size gs)%N.
Let hN : (0 < INR (size gs))%coqR.
Proof. by apply: lt_0_INR; apply/ltP. Qed.

Lemma sum_pos (F : group p q -> R) (l : seq (group p q)) : (0 < size l)%N -> (forall g, List.In g l -> (0 < F g)%coqR) ->
  (0 < \sum_(g <- l) F g)%coqR.
Proof.
  elim: l => // g l IH _ h; rewrite big_cons.
  have h1 : (0 < F g)%coqR by apply: h; left.
  case: l IH h => [|g' l] IH h; first by rewrite big_nil RaddE R0E; lra.
  by have := IH isT (fun g0 hg0 => h g0 (or_intror hg0)); rewrite RaddE; lra.
Qed.
Lemma sum_le_in (F G : group p q -> R) (l : seq (group p q)) : (forall g, List.In g l -> (F g <= G g)%coqR) ->
  (\sum_(g <- l) F g <= \sum_(g <- l) G g)%coqR.
Proof.
  elim: l => [|g l IH] h; first by rewrite !big_nil; exact: Rle_refl.
  rewrite !big_cons; have := IH (fun g0 hg0 => h g0 (or_intror hg0)); have := h g (or_introl erefl).
  by rewrite !RaddE; lra.
Qed.

Lemma left_variance_pos gamma j : positive gamma -> (0 < left_variance gamma gs j)%coqR.
Proof.
  move=> hg; apply: Rdiv_lt_0_compat => //; apply: sum_pos => // g hi.
  by apply: diag_pos; apply: posterior_pd => //; exact: hv.
Qed.
Lemma em_split beta gamma j : em_variances beta gamma gs j ord0 =
  (mode_variances beta gamma gs j ord0 + left_variance gamma gs j)%coqR.
Proof.
  rewrite !mxE /left_variance /expected_square; set n := INR _.
  rewrite (_ : \sum_(g <- gs) _ = (\sum_(g <- gs) (blup beta gamma g j ord0 ^ 2)%coqR) + (\sum_(g <- gs) posterior_cov gamma g j j)).
    by toR; rewrite /Rdiv; ring.
  by rewrite -big_split.
Qed.
Lemma mode_nonneg beta gamma j : (0 <= mode_variances beta gamma gs j ord0)%coqR.
Proof.
  rewrite mxE; apply: Rmult_le_pos; last by left; apply: Rinv_0_lt_compat.
  by apply: sum_ge0 => g _; exact: pow2_ge_0.
Qed.
Lemma em_positive beta gamma : positive gamma -> positive (em_variances beta gamma gs).
Proof. by move=> hg j; rewrite em_split; have := left_variance_pos j hg; have := mode_nonneg beta gamma j; lra. Qed.

Lemma em_minimises beta gamma gamma' : positive gamma -> positive gamma' ->
  (expected_nll beta gamma gs (em_variances beta gamma gs) <= expected_nll beta gamma gs gamma')%coqR.
Proof.
  move=> hg hg'; rewrite /expected_nll !sum_effects; apply: average_min => //; last exact: em_positive.
  by move=> j; rewrite mxE.
Qed.
Lemma marginal_majorised beta gamma gamma' : positive gamma -> positive gamma' ->
  (marginal gs beta gamma' - marginal gs beta gamma <= expected_nll beta gamma gs gamma' - expected_nll beta gamma gs gamma)%coqR.
Proof.
  move=> hg hg'; rewrite /marginal /expected_nll -!RsubE -!sumrB; apply: sum_le_in => g hi.
  by apply: nll_majorised => //; exact: hv.
Qed.
Lemma em_descends beta gamma : positive gamma ->
  (marginal gs beta (em_variances beta gamma gs) <= marginal gs beta gamma)%coqR.
Proof.
  move=> hg; have he := em_positive beta hg.
  by have := marginal_majorised beta hg he; have := em_minimises beta hg hg; lra.
Qed.

(** ** the step of the code *)
Lemma zip_map (f : group p q -> 'cV[R]_q) (l : seq (group p q)) : zip l (List.map f l) = [seq (g, f g) | g <- l].
Proof. by elim: l => //= g l ->. Qed.
Lemma joint_effects beta gamma g u : positive gamma ->
  joint_nll beta gamma (g, u) = (/ 2 * qf (diagv (vinv (g_v g))) (resid beta g - g_z g *m u)
    + effects_nll (fun j => (u j ord0 ^ 2)%coqR) gamma)%coqR.
Proof.
  move=> hg; rewrite /joint_nll positive_blup_pen //= Rplus_assoc; congr (_ + _)%coqR.
  rewrite qf_diagv /effects_nll -!RaddE -!RmulE !mulr_sumr -big_split; apply: eq_bigr => j _.
  rewrite [vinv _ _ _]mxE; move: (u j ord0) (gamma j ord0) => a c; move: (ln c) => l.
  by rewrite /=; toR; rewrite /Rdiv; ring.
Qed.
Lemma joint_blup beta gamma g : positive gamma -> (forall i, (0 < g_v g i ord0)%coqR) ->
  joint_nll beta gamma (g, blup beta gamma g) = (nll beta gamma g - / 2 * ln (\det (Omega gamma g)) + / 2 * (\sum_j ln (gamma j ord0)))%coqR.
Proof. by move=> hg hi; rewrite /joint_nll /= pen_blup // /nll -/(qf _ _); ring. Qed.
Lemma joint_low beta gamma g u : positive gamma -> (forall i, (0 < g_v g i ord0)%coqR) ->
  (nll beta gamma g - / 2 * ln (\det (Omega gamma g)) + / 2 * (\sum_j ln (gamma j ord0)) <= joint_nll beta gamma (g, u))%coqR.
Proof. by move=> hg hi; rewrite -joint_blup // /joint_nll /= pen_blup //; have := pen_ge hi beta hg u; lra. Qed.

Lemma mode_descends beta beta1 gamma us : positive gamma -> positive (mode_variances beta1 gamma gs) ->
  (marginal gs beta1 gamma <= marginal gs beta gamma)%coqR -> size us = size gs ->
  (joint_total gs beta1 (mode_variances beta1 gamma gs) (List.map (blup beta1 gamma) gs) <= joint_total gs beta gamma us)%coqR.
Proof.
  move=> hg hm hb hs; set g1 := mode_variances _ _ _.
  have e gamma' : positive gamma' -> joint_total gs beta1 gamma' (List.map (blup beta1 gamma) gs) =
    ((\sum_(g <- gs) (/ 2 * qf (diagv (vinv (g_v g))) (resid beta1 g - g_z g *m blup beta1 gamma g)))
     + average_nll (INR (size gs)) (fun j => \sum_(g <- gs) (blup beta1 gamma g j ord0 ^ 2)%coqR) gamma')%coqR.
    move=> hg'; rewrite /joint_total zip_map big_map -sum_effects -RaddE -big_split; apply: eq_bigr => g _.
    by rewrite joint_effects.
  apply: (Rle_trans _ (joint_total gs beta1 gamma (List.map (blup beta1 gamma) gs))).
    rewrite !e //; apply: Rplus_le_compat_l; apply: average_min => // j; by rewrite mxE.
  rewrite /joint_total zip_map big_map.
  pose k g := (- (/ 2 * ln (\det (Omega gamma g))) + / 2 * (\sum_j ln (gamma j ord0)))%coqR.
  apply: (Rle_trans _ (\sum_(g <- gs) (nll beta1 gamma g + k g)%coqR)).
    apply: sum_le_in => g hi; rewrite joint_blup //; last exact: hv.
    by rewrite /k; move: (nll _ _ _) (ln _) (\sum_j _) => a b c; toR; lra.
  apply: (Rle_trans _ (\sum_(g <- gs) (nll beta gamma g + k g)%coqR)).
    have spl b : \sum_(g <- gs) (nll b gamma g + k g)%coqR = (marginal gs b gamma + \sum_(g <- gs) k g)%coqR.
      by rewrite -RaddE -big_split.
    by rewrite !spl; lra.
  have : forall g, List.In g gs -> forall i, (0 < g_v g i ord0)%coqR by exact: hv.
  elim: (gs) us hs {e hb hm g1} => [|g l IH] [|u us] //= hs hi; first by rewrite !big_nil; exact: Rle_refl.
  rewrite !big_cons; apply: Rplus_le_compat; last by apply: IH => [|g' hg']; [case: hs | apply: hi; right].
  apply: Rle_trans; last by apply: (@joint_low beta gamma g u hg); apply: hi; left.
  by rewrite /k; move: (nll _ _ _) (ln _) (\sum_j _) => a b c; toR; lra.
Qed.
End Groups.
End Em.
