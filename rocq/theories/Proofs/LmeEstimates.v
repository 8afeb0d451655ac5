(** Facts on the estimates of the mixed-model oracle: optimal fixed effects, random effects,
    hat matrix, effective number of observations. *)
From Verif.Base Require Import Py Vec RMx.
From Coq Require Import Lra.
From mathcomp Require Import ssreflect ssrfun ssrbool eqtype ssrnat choice seq fintype
  finfun bigop finset ssralg zmodp matrix mxalgebra.
From Verif.Model Require Import LmeOracle.
From Verif.Spec Require Import MxSpec.
From Verif.Proofs Require Import MxFacts LmeOracleProofs.
Set Implicit Arguments.
Unset Strict Implicit.
Unset Printing Implicit Defensive.
Delimit Scope R_scope with coqR.
Import GRing.Theory.
Local Open Scope ring_scope.

(** ** quadratic functions *)
Lemma bfDr n (A : 'M[R]_n) a b c : bf A a (b + c) = (bf A a b + bf A a c)%coqR.
Proof. by rewrite /bf mulmxDr scD. Qed.
Lemma bfDl n (A : 'M[R]_n) a b c : bf A (a + b) c = (bf A a c + bf A b c)%coqR.
Proof. by rewrite /bf linearD /= !mulmxDl scD. Qed.

Lemma psd_qf0 n (A : 'M[R]_n) x : psd A -> qf A x = 0%coqR -> A *m x = 0.
Proof.
  move=> [sA h] e; apply: sumsq_eq0.
  set s := sumsq _; set c := qf A (A *m x).
  have c0 : (0 <= c)%coqR := h _.
  have s0 : (0 <= s)%coqR := sumsq_ge0 _.
  have es : bf A (A *m x) x = s by rewrite /bf /s sumsqE mulmxA.
  have := h (x + (- s / (c + 1))%coqR *: (A *m x)).
  rewrite (qf_bf A (_ + _)) bfDr !bfDl !bfZr !bfZl -(qf_bf A x) e -(qf_bf A (A *m x)) -/c.
  rewrite [bf A x _]bfC // es => hh.
  have : (0 <= s ^ 2 * (c - 2 * (c + 1)) / (c + 1) ^ 2)%coqR.
    apply: (Rle_trans _ _ _ hh); apply: Req_le; field; lra.
  move=> h1; have h2 : (0 <= s ^ 2 * (c - 2 * (c + 1)))%coqR.
    have e2 : (s ^ 2 * (c - 2 * (c + 1)) = s ^ 2 * (c - 2 * (c + 1)) / (c + 1) ^ 2 * (c + 1) ^ 2)%coqR.
      by field; lra.
    rewrite e2; apply: Rmult_le_pos => //; exact: pow2_ge_0.
  have h3 : (s * s <= 0)%coqR by nra.
  by toR; nra.
Qed.

Lemma psd_unit_pd n (A : 'M[R]_n) : psd A -> A \in unitmx -> pd A.
Proof.
  move=> hA u; split; first by case: hA.
  move=> x hx; have := hA.2 x; case=> // e; case: hx.
  by rewrite -(mulKmx u x) (psd_qf0 hA) ?mulmx0.
Qed.

Lemma quad_min n (A : 'M[R]_n) (c b x : 'cV[R]_n) : A^T = A -> A *m b = c ->
  (/ 2 * qf A x - sc (c^T *m x) = / 2 * qf A b - sc (c^T *m b) + / 2 * qf A (x - b))%coqR.
Proof.
  move=> sA e; rewrite (qf_bf A (x - b)) bfBr !bfBl -!qf_bf [bf A x b]bfC //.
  have e1 y : bf A b y = sc (c^T *m y) by rewrite /bf -e trmx_mul sA.
  rewrite e1 (qf_bf A b) e1; lra.
Qed.

Section Estimates.
Variables p q : nat.
Implicit Types (gs : seq (group p q)) (g : group p q) (pr : lme_prior p q).
Implicit Types (beta : 'cV[R]_p) (gamma : 'cV[R]_q).

Notation kern := normal_matrix.
Definition tail gs gamma : 'cV[R]_p := \sum_(g <- gs) (g_x g)^T *m invmx (Omega gamma g) *m g_y g.

Lemma kernel_tail_ok gs gamma : admissible gs gamma ->
  kernel_tail gs gamma = Ok (kern gs gamma, tail gs gamma).
Proof.
  move=> h; rewrite /kernel_tail recalculate_ok //=; congr (Ok (_, _)); rewrite big_lmap.
  - by apply: eq_big_In => g /h hg; rewrite kernel_fac.
  - by apply: eq_big_In => g /h hg; rewrite tail_fac.
Qed.

Lemma sum_psd (I : Type) (r : seq I) n (F : I -> 'M[R]_n) :
  (forall i, List.In i r -> psd (F i)) -> psd (\sum_(i <- r) F i).
Proof.
  elim: r => [|i r IH] h; first by rewrite big_nil; exact: psd0.
  rewrite big_cons; apply: psd_add; first by apply: h; left.
  by apply: IH => k hk; apply: h; right.
Qed.
Lemma kern_psd gs gamma : admissible gs gamma -> psd (kern gs gamma).
Proof.
  move=> h; apply: sum_psd => g /h hg.
  by have := psd_congr (g_x g)^T (pd_psd (pd_inv hg)); rewrite trmxK.
Qed.

Lemma nll_quad beta gamma g : nll beta gamma g =
  (/ 2 * qf ((g_x g)^T *m invmx (Omega gamma g) *m g_x g) beta
   - sc (((g_x g)^T *m invmx (Omega gamma g) *m g_y g)^T *m beta)
   + nll 0 gamma g)%coqR.
Proof.
  have sP : (invmx (Omega gamma g))^T = invmx (Omega gamma g) by rewrite trmx_inv Omega_tr.
  rewrite /nll -!/(bf _ _ _) /resid mulmx0 subr0; move: (invmx _) sP => P sP.
  rewrite bfBr !bfBl [bf P (g_y g) (_ *m _)]bfC //.
  have -> : qf ((g_x g)^T *m P *m g_x g) beta = bf P (g_x g *m beta) (g_x g *m beta).
    by rewrite /qf /bf trmx_mul !mulmxA.
  have -> : sc (((g_x g)^T *m P *m g_y g)^T *m beta) = bf P (g_x g *m beta) (g_y g).
    by rewrite sc_dotC /bf trmx_mul !mulmxA.
  lra.
Qed.
Lemma qf_sum (I : Type) (r : seq I) n (F : I -> 'M[R]_n) x :
  qf (\sum_(i <- r) F i) x = \sum_(i <- r) qf (F i) x.
Proof.
  elim: r => [|i r IH]; last by rewrite !big_cons qfD IH.
  by rewrite !big_nil /qf mulmx0 mul0mx sc0.
Qed.
Lemma sc_sum_dot (I : Type) (r : seq I) n (F : I -> 'cV[R]_n) x :
  sc ((\sum_(i <- r) F i)^T *m x) = \sum_(i <- r) sc ((F i)^T *m x).
Proof.
  elim: r => [|i r IH]; last by rewrite !big_cons linearD /= mulmxDl scD IH.
  by rewrite !big_nil trmx0 mul0mx sc0.
Qed.
Lemma nlls_quad gs gamma beta : \sum_(g <- gs) nll beta gamma g =
  (/ 2 * qf (kern gs gamma) beta - sc ((tail gs gamma)^T *m beta) + \sum_(g <- gs) nll 0 gamma g)%coqR.
Proof.
  rewrite qf_sum sc_sum_dot; elim: gs => [|g gs IH]; first by rewrite !big_nil; toR; lra.
  rewrite !big_cons IH nll_quad; toR; lra.
Qed.

Lemma no_beta_prior_loss pr beta beta' gamma : no_beta_prior pr ->
  prior_loss pr beta gamma = prior_loss pr beta' gamma.
Proof.
  case: pr => [//|b g /= ->]; congr (_ + _)%coqR.
  by apply: eq_bigr => i _; rewrite mxE; toR; rewrite !Rmult_0_l.
Qed.

Lemma sumsq_quad n (x t : 'cV[R]_n) lb :
  (lb / 2 * sumsq (x - t) = / 2 * qf (lb *: 1%:M) x - sc ((lb *: t)^T *m x) + lb / 2 * sumsq t)%coqR.
Proof.
  rewrite qfZ !sumsqE /qf mulmx1 [(x - t)^T]linearB /= mulmxBl !mulmxBr !scB [sc (x^T *m t)]sc_dotC.
  by rewrite [(lb *: t)^T]linearZ /= -scalemxAl scZ; lra.
Qed.

(** ** optimal fixed effects *)
Lemma quad_lt (k1 t1 n0 pl l1 s1 c g k2 t2 l2 s2 Q : R) :
  (/ 2 * (l1 + k1) - (s1 + t1) = / 2 * (l2 + k2) - (s2 + t2) + / 2 * Q -> 0 < Q ->
  / 2 * k2 - t2 + n0 + pl + (/ 2 * l2 - s2 + c) + g < / 2 * k1 - t1 + n0 + pl + (/ 2 * l1 - s1 + c) + g)%coqR.
Proof. by move=> e h; lra. Qed.
Lemma sr3_optimal_beta_min gs pr gamma (lb lg : R) tbeta tgamma : admissible gs gamma -> no_beta_prior pr ->
  lb *: 1%:M + kern gs gamma \in unitmx -> (0 <= lb)%coqR ->
  exists b v, sr3_optimal_beta lb gs gamma tbeta = Ok b
  /\ sr3_loss lb lg gs pr b gamma tbeta tgamma = Ok v
  /\ forall beta, beta <> b -> exists w, sr3_loss lb lg gs pr beta gamma tbeta tgamma = Ok w /\ (v < w)%coqR.
Proof.
  move=> h hp u hl; set A := lb *: 1%:M + kern gs gamma in u *.
  have pA : pd A.
    apply: psd_unit_pd => //; apply: psd_add; last exact: kern_psd.
    split; first by rewrite linearZ /= trmx1.
    by move=> x; rewrite qfZ /qf mulmx1 -sumsqE; apply: Rmult_le_pos => //; exact: sumsq_ge0.
  have [sA hA] := pA.
  pose c := lb *: tbeta + tail gs gamma; pose b := invmx A *m c.
  have eb : A *m b = c by rewrite /b mulKVmx.
  exists b; rewrite /sr3_optimal_beta kernel_tail_ok //= /np_solve -/A u /sr3_loss lme_loss_ok //=.
  eexists; split; first by []. split; first by [].
  move=> beta hb; rewrite lme_loss_ok //=; eexists; split; first by [].
  rewrite (no_beta_prior_loss b beta gamma hp) (nlls_quad gs gamma b) (nlls_quad gs gamma beta) (sumsq_quad b) (sumsq_quad beta).
  have hq := hA (beta - b) _.
  have : (0 < qf A (beta - b))%coqR by apply: hq => e; apply: hb; apply/eqP; rewrite -subr_eq0 e.
  have := quad_min beta sA eb; rewrite [c^T]linearD /= !mulmxDl !scD.
  move: (qf A (beta - b)) => Q; rewrite /A !qfD => e hpos.
  exact: quad_lt e hpos.
Qed.

Lemma lme_optimal_beta_min gs pr gamma : admissible gs gamma -> no_beta_prior pr ->
  kern gs gamma \in unitmx ->
  exists b v, lme_optimal_beta gs gamma = Ok b
  /\ lme_loss gs pr b gamma = Ok v
  /\ forall beta, beta <> b -> exists w, lme_loss gs pr beta gamma = Ok w /\ (v < w)%coqR.
Proof.
  move=> h hp u.
  have [||b [v]] := @sr3_optimal_beta_min gs pr gamma 0 0 0 0 h hp.
  - by rewrite scale0r add0r.
  - exact: Rle_refl.
  rewrite /sr3_optimal_beta /lme_optimal_beta kernel_tail_ok //= !scale0r !add0r => -[e1 [e2 e3]].
  have e beta : sr3_loss 0 0 gs pr beta gamma 0 0 = lme_loss gs pr beta gamma.
    rewrite /sr3_loss lme_loss_ok //=; congr Ok; rewrite /Rdiv !Rmult_0_l !Rplus_0_r //.
  exists b, v; rewrite -e; do 2!split=> //.
  by move=> beta /e3; rewrite e.
Qed.

Lemma lme_optimal_beta_singular gs gamma : admissible gs gamma -> kern gs gamma \notin unitmx ->
  lme_optimal_beta gs gamma = Err LinAlgError.
Proof. by move=> h /negbTE u; rewrite /lme_optimal_beta kernel_tail_ok //= /np_solve u. Qed.

Lemma lb_kern_unit gs gamma lb : admissible gs gamma -> (0 < lb)%coqR ->
  lb *: 1%:M + kern gs gamma \in unitmx.
Proof.
  move=> h hl; apply: pd_unit; apply: pd_add; last exact: kern_psd.
  split; first by rewrite linearZ /= trmx1.
  by move=> x hx; rewrite qfZ /qf mulmx1 -sumsqE; apply: Rmult_lt_0_compat => //; exact: sumsq_gt0.
Qed.
End Estimates.
