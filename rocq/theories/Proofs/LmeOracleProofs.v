(** The evaluations of the mixed-model oracle in terms of the marginal covariances, and
    their derivatives. *)
From Verif.Base Require Import Py Vec RMx.
From Coq Require Import Lra.
From Coquelicot Require Import Coquelicot.
From mathcomp Require Import ssreflect ssrfun ssrbool eqtype ssrnat choice seq fintype
  finfun bigop finset ssralg zmodp matrix mxalgebra.
From Verif.Model Require Import LmeOracle.
From Verif.Spec Require Import MxSpec.
From Verif.Proofs Require Import MxFacts.
Set Implicit Arguments.
Unset Strict Implicit.
Unset Printing Implicit Defensive.
Delimit Scope R_scope with coqR.
Import GRing.Theory.
Local Open Scope ring_scope.

Section Facts.
Variables p q : nat.
Implicit Types (gs : seq (group p q)) (g : group p q) (pr : lme_prior p q).
Implicit Types (beta : 'cV[R]_p) (gamma : 'cV[R]_q).

Lemma omega_ofE gamma g : omega_of gamma g = Omega gamma g.
Proof.
  rewrite /omega_of /Omega; case: (posnP q) => [q0|_]; last by rewrite addrC.
  rewrite -/(diagv (g_v g)).
  suff -> : g_z g *m diag_mx gamma^T *m (g_z g)^T = 0 by rewrite add0r.
  by apply/matrixP => i j; rewrite !mxE big1 // => k; have := ltn_ord k; rewrite [X in (_ < X)%N]q0.
Qed.

Lemma Omega_tr gamma g : (Omega gamma g)^T = Omega gamma g.
Proof. by rewrite /Omega linearD /= !trmx_mul trmxK !tr_diag_mx mulmxA. Qed.

Lemma Omega_pd gamma g : nonnegative gamma -> (forall i, (0 < g_v g i ord0)%coqR) -> pd (Omega gamma g).
Proof.
  move=> hg hv; rewrite /Omega addrC; apply: pd_add; first exact: pd_diagv hv.
  by apply: psd_congr; exact: psd_diagv hg.
Qed.
Lemma admissible_nonneg gs gamma : nonnegative gamma -> positive_variances gs -> admissible gs gamma.
Proof. by move=> hg hv g hin; apply: Omega_pd => //; exact: hv. Qed.

(** the factor computed for a positive definite covariance *)
Definition chol_or0 n (A : 'M[R]_n) : 'M[R]_n := match cholesky A with Ok L => L | Err _ => 0 end.
Definition fac gamma g : fgroup p q :=
  let el := chol_or0 (Omega gamma g) in @Factored _ _ g el (invmx el^T)^T.

Lemma chol_spec n (A : 'M[R]_n) : pd A ->
  [/\ cholesky A = Ok (chol_or0 A), chol_or0 A *m (chol_or0 A)^T = A, is_trig_mx (chol_or0 A)
    & forall i, (0 < chol_or0 A i i)%coqR].
Proof.
  move=> h; have [L e] := cholesky_pd h; rewrite /chol_or0 e.
  by have [e1 e2 e3] := cholesky_trig h.1 e.
Qed.

Lemma recalculate_ok gs gamma : admissible gs gamma ->
  recalculate gs gamma = Ok (List.map (fac gamma) gs).
Proof.
  rewrite /recalculate; elim: gs => //= g gs IH h.
  have hg : pd (Omega gamma g) by apply: h; left.
  rewrite IH; last by move=> g' hin; apply: h; right.
  by rewrite {1}/factor omega_ofE; have [-> _ _ _] := chol_spec hg.
Qed.

Lemma cholesky_err n (A : 'M[R]_n) x : cholesky A = Err x -> x = LinAlgError.
Proof.
  elim: n A => [|n IH] A //=; case: rltbP => _; last by case.
  by case e : (cholesky _) => [L|y] //= [ey]; move: e; rewrite ey; exact: IH.
Qed.

Lemma recalculate_err gs gamma : ~ admissible gs gamma -> recalculate gs gamma = Err LinAlgError.
Proof.
  rewrite /recalculate; elim: gs => [|g gs IH] h /=; first by case: h.
  rewrite {1}/factor omega_ofE.
  case e : (cholesky (Omega gamma g)) => [L|x] /=.
    rewrite IH //= => h'; apply: h => g' [<-|]; last exact: h'.
    have [e1 tL pL] := cholesky_trig (Omega_tr gamma g) e.
    split; first exact: Omega_tr.
    move=> x hx; rewrite /qf -e1.
    have -> : x^T *m (L *m L^T) *m x = (L^T *m x)^T *m (L^T *m x) by rewrite trmx_mul trmxK !mulmxA.
    rewrite -sumsqE; apply: sumsq_gt0 => e0; apply: hx.
    have u : L^T \in unitmx by rewrite unitmx_tr; exact: trig_inv.
    by rewrite -(mulKmx u x) e0 mulmx0.
  by rewrite (cholesky_err e).
Qed.

Lemma chol_unit n (A : 'M[R]_n) : pd A -> chol_or0 A \in unitmx.
Proof. by move=> h; have [_ _ tL pL] := chol_spec h; exact: trig_inv. Qed.

Lemma fac_inv gamma g : f_inv (fac gamma g) = invmx (chol_or0 (Omega gamma g)).
Proof. by rewrite /= trmx_inv trmxK. Qed.

Lemma fac_gram gamma g : pd (Omega gamma g) ->
  (f_inv (fac gamma g))^T *m f_inv (fac gamma g) = invmx (Omega gamma g).
Proof.
  move=> h; have [_ e _ _] := chol_spec h; have u := chol_unit h.
  rewrite fac_inv trmx_inv.
  have u' : (chol_or0 (Omega gamma g))^T \in unitmx by rewrite unitmx_tr.
  set L := chol_or0 _ in e u u' *.
  have e1 : invmx L^T *m invmx L *m Omega gamma g = 1%:M.
    by rewrite -[X in _ *m X = _]e -!mulmxA (mulmxA (invmx L)) mulVmx // mul1mx mulVmx.
  by rewrite -[LHS](mulmxK (pd_unit h)) e1 mul1mx.
Qed.

Lemma fac_logdet gamma g : pd (Omega gamma g) ->
  \sum_i ln (f_inv (fac gamma g) i i) = (- (/ 2 * ln (\det (Omega gamma g))))%coqR
  /\ (0 < \det (Omega gamma g))%coqR.
Proof.
  move=> h; have [_ e tL pL] := chol_spec h.
  have [dp dl] := ln_prod pL.
  have ed : \det (Omega gamma g) = (\prod_i chol_or0 (Omega gamma g) i i * \prod_i chol_or0 (Omega gamma g) i i)%coqR.
    by rewrite -[in LHS]e det_mulmx det_tr !det_trig.
  split; last by rewrite ed; exact: Rmult_lt_0_compat.
  rewrite ed ln_mult // dl.
  have -> : \sum_i ln (f_inv (fac gamma g) i i) = - \sum_i ln (chol_or0 (Omega gamma g) i i).
    rewrite -sumrN; apply: eq_bigr => i _; rewrite fac_inv invmx_trig_diag // ln_Rinv //.
  toR; lra.
Qed.

Lemma sumsq_gram n (K : 'M[R]_n) (x : 'cV[R]_n) : sumsq (K *m x) = qf (K^T *m K) x.
Proof. by rewrite sumsqE /qf trmx_mul !mulmxA. Qed.

Lemma group_loss_fac beta gamma g : pd (Omega gamma g) -> group_loss beta (fac gamma g) = nll beta gamma g.
Proof.
  move=> h; rewrite /group_loss /nll sumsq_gram fac_gram //.
  by rewrite (fac_logdet h).1 /qf /residual /resid /=; toR; lra.
Qed.

Lemma lme_loss_ok gs pr beta gamma : admissible gs gamma ->
  lme_loss gs pr beta gamma = Ok (\sum_(g <- gs) nll beta gamma g + prior_loss pr beta gamma)%coqR.
Proof.
  move=> h; rewrite /lme_loss recalculate_ok //=; congr (Ok (_ + _)%coqR).
  elim: gs h => [|g gs IH] h /=; first by rewrite !big_nil.
  rewrite !big_cons IH; last by move=> g' hin; apply: h; right.
  by rewrite group_loss_fac //; apply: h; left.
Qed.

(** ** bilinear forms *)
Definition bf n (A : 'M[R]_n) (a b : 'cV[R]_n) : R := sc (a^T *m A *m b).
Lemma qf_bf n (A : 'M[R]_n) x : qf A x = bf A x x.
Proof. by []. Qed.
Lemma bfC n (A : 'M[R]_n) a b : A^T = A -> bf A a b = bf A b a.
Proof. by move=> h; rewrite /bf -sc_tr !trmx_mul trmxK h mulmxA. Qed.
Lemma bfBr n (A : 'M[R]_n) a b c : bf A a (b - c) = (bf A a b - bf A a c)%coqR.
Proof. by rewrite /bf mulmxBr scB. Qed.
Lemma bfBl n (A : 'M[R]_n) a b c : bf A (a - b) c = (bf A a c - bf A b c)%coqR.
Proof. by rewrite /bf linearB /= !mulmxBl scB. Qed.
Lemma bfZr n (A : 'M[R]_n) t a b : bf A a (t *: b) = (t * bf A a b)%coqR.
Proof. by rewrite /bf -scalemxAr scZ. Qed.
Lemma bfZl n (A : 'M[R]_n) t a b : bf A (t *: a) b = (t * bf A a b)%coqR.
Proof. by rewrite /bf linearZ /= -!scalemxAl scZ. Qed.
Lemma bf_col n k l (A : 'M[R]_n) (B : 'M[R]_(n, k)) (C : 'M[R]_(n, l)) i j :
  bf A (col i B) (col j C) = (B^T *m A *m C) i j.
Proof. by rewrite /bf /sc tr_col -row_mul [LHS]mxE [RHS]mxE; apply: eq_bigr => m _; rewrite !mxE. Qed.

Definition zc g (j : 'I_q) : 'cV[R]_(g_n g) := col j (g_z g).
Definition xc g (j : 'I_p) : 'cV[R]_(g_n g) := col j (g_x g).

Lemma Omega_along gamma j t g : Omega (along gamma j t) g = Omega gamma g + t *: (zc g j *m (zc g j)^T).
Proof.
  rewrite /Omega [RHS]addrAC; congr (_ + _); apply/matrixP => a b; rewrite !mxE big_ord1.
  have -> : \sum_j0 (g_z g *m diag_mx (along gamma j t)^T) a j0 * (g_z g)^T j0 b
    = \sum_l (g_z g a l * gamma l ord0 * g_z g b l + t * (l == j)%:R * (g_z g a l * g_z g b l)).
    apply: eq_bigr => l _; rewrite mul_mx_diag /along !mxE eqxx andbT.
    by rewrite mulrDr mulrDl [_ * (t * _)]mulrC !mulrA.
  have -> : \sum_j0 (g_z g *m diag_mx gamma^T) a j0 * (g_z g)^T j0 b
    = \sum_l (g_z g a l * gamma l ord0 * g_z g b l).
    by apply: eq_bigr => l _; rewrite mul_mx_diag !mxE.
  rewrite big_split /=; congr (_ + _).
  rewrite (bigD1 j) //= eqxx big1 ?addr0 => [|l /negbTE ->]; last by rewrite mulr0 mul0r.
  by rewrite mulr1 !mxE.
Qed.

Lemma resid_along beta j t g : resid (along beta j t) g = resid beta g - t *: xc g j.
Proof.
  rewrite /resid /along mulmxDr opprD addrA; congr (_ - _).
  rewrite -scalemxAr; congr (_ *: _); apply/colP => a; rewrite !mxE (bigD1 j) //= big1 => [|l lj].
    by rewrite !mxE !eqxx mulr1 addr0.
  by rewrite !mxE (negbTE lj) mulr0.
Qed.

Lemma pd_cauchy n (A : 'M[R]_n) (z x : 'cV[R]_n) : pd A ->
  (sc (z^T *m x) ^ 2 <= bf (invmx A) z z * qf A x)%coqR.
Proof.
  move=> hA; have [sP hP] := pd_inv hA; have u := pd_unit hA.
  have s0 := (pd_psd (pd_inv hA)).2 z.
  case: (z =P 0) => [->|hz].
    by rewrite trmx0 mul0mx sc0 /bf mulmx0 sc0; lra.
  have hs : (0 < bf (invmx A) z z)%coqR := hP z hz.
  set s := bf _ z z in hs *; set c := sc (z^T *m x).
  have := (pd_psd hA).2 (x - (c / s)%coqR *: (invmx A *m z)).
  have -> : qf A (x - (c / s)%coqR *: (invmx A *m z)) = (qf A x - c ^ 2 / s)%coqR.
    rewrite (qf_bf A (x - _)) bfBr !bfBl !bfZr !bfZl.
    have e1 : bf A x (invmx A *m z) = c by rewrite /bf -mulmxA mulKVmx // sc_dotC.
    have e2 : bf A (invmx A *m z) x = c by rewrite bfC ?e1 //; case: hA.
    have e3 : bf A (invmx A *m z) (invmx A *m z) = s.
      by rewrite /bf -mulmxA mulKVmx // trmx_mul sP.
    rewrite e1 e2 e3 (qf_bf A x); field; lra.
  move=> h; have h2 : (c ^ 2 / s <= qf A x)%coqR by lra.
  have -> : (c ^ 2 = s * (c ^ 2 / s))%coqR by field; lra.
  by apply: Rmult_le_compat_l; lra.
Qed.

Lemma pd_rank1 n (A : 'M[R]_n) (z : 'cV[R]_n) t : pd A -> (Rabs t * bf (invmx A) z z < 1)%coqR ->
  pd (A + t *: (z *m z^T)) /\ (0 < 1 + t * bf (invmx A) z z)%coqR.
Proof.
  move=> hA ht; have [sA h] := hA.
  have s0 : (0 <= bf (invmx A) z z)%coqR := (pd_psd (pd_inv hA)).2 z.
  have ta : (- Rabs t <= t)%coqR by have := Rle_abs (- t); rewrite Rabs_Ropp; lra.
  split; last by have := Rmult_le_compat_r _ _ _ s0 ta; lra.
  split; first by rewrite linearD /= linearZ /= trmx_mul trmxK sA.
  move=> x hx; rewrite qfD qfZ.
  have -> : qf (z *m z^T) x = (sc (z^T *m x) ^ 2)%coqR.
    by rewrite /qf mulmxA -mulmxA sc_mul sc_dotC; ring.
  have h1 := h x hx; have h2 := pd_cauchy z x hA.
  set c := (sc _ ^ 2)%coqR in h2 *; have c0 : (0 <= c)%coqR by exact: pow2_ge_0.
  have h3 : (- Rabs t * c <= t * c)%coqR by apply: Rmult_le_compat_r.
  have h4 : (Rabs t * c <= Rabs t * (bf (invmx A) z z * qf A x))%coqR.
    by apply: Rmult_le_compat_l => //; exact: Rabs_pos.
  have h5 : (0 < (1 - Rabs t * bf (invmx A) z z) * qf A x)%coqR by apply: Rmult_lt_0_compat; lra.
  lra.
Qed.

Lemma locally_admissible gs gamma j : admissible gs gamma ->
  exists eps, (0 < eps)%coqR /\ forall t, (Rabs t < eps)%coqR ->
  admissible gs (along gamma j t) /\
  forall g, List.In g gs -> (0 < 1 + t * bf (invmx (Omega gamma g)) (zc g j) (zc g j))%coqR.
Proof.
  elim: gs => [|g gs IH] h; first by exists 1%coqR; split; [lra | split].
  have [|eps [e0 He]] := IH; first by move=> g' hin; apply: h; right.
  have hg : pd (Omega gamma g) by apply: h; left.
  set s := bf (invmx (Omega gamma g)) (zc g j) (zc g j).
  have s0 : (0 <= s)%coqR := (pd_psd (pd_inv hg)).2 _.
  have d0 : (0 < / (1 + s))%coqR by apply: Rinv_0_lt_compat; lra.
  exists (Rmin eps (/ (1 + s))); split; first exact: Rmin_glb_lt.
  move=> t ht; have [|h1 h2] := He t; first by have := Rmin_l eps (/ (1 + s)); lra.
  have ts : (Rabs t * s < 1)%coqR.
    have ht2 : (Rabs t < / (1 + s))%coqR by have := Rmin_r eps (/ (1 + s)); lra.
    have : (Rabs t * (1 + s) < / (1 + s) * (1 + s))%coqR by apply: Rmult_lt_compat_r; lra.
    rewrite Rinv_l; last lra.
    by have := Rabs_pos t; lra.
  have [k1 k2] := pd_rank1 hg ts.
  split=> g' [<-|hin]; [by rewrite Omega_along | exact: h1 | exact: k2 | exact: h2].
Qed.

Lemma bf_along gamma j t g a b : pd (Omega gamma g) ->
  (0 < 1 + t * bf (invmx (Omega gamma g)) (zc g j) (zc g j))%coqR ->
  bf (invmx (Omega (along gamma j t) g)) a b =
  (bf (invmx (Omega gamma g)) a b
   - t / (1 + t * bf (invmx (Omega gamma g)) (zc g j) (zc g j))
     * (bf (invmx (Omega gamma g)) a (zc g j) * bf (invmx (Omega gamma g)) (zc g j) b))%coqR.
Proof.
  move=> h hs; rewrite Omega_along; have [|_ ->] := inv_rank1 (pd_unit h) (u := zc g j) (v := zc g j) (t := t).
    by move: hs; rewrite /bf; lra.
  rewrite {1}/bf mulmxBr mulmxBl scB -scalemxAr -scalemxAl scZ.
  set P := invmx (Omega gamma g); set z := zc g j.
  have -> : a^T *m (P *m z *m (z^T *m P)) *m b = (a^T *m P *m z) *m (z^T *m P *m b) by rewrite !mulmxA.
  by rewrite sc_mul.
Qed.

Lemma logdet_along gamma j t g : pd (Omega gamma g) ->
  (0 < 1 + t * bf (invmx (Omega gamma g)) (zc g j) (zc g j))%coqR ->
  ln (\det (Omega (along gamma j t) g)) =
  (ln (\det (Omega gamma g)) + ln (1 + t * bf (invmx (Omega gamma g)) (zc g j) (zc g j)))%coqR.
Proof.
  move=> h hs; rewrite Omega_along scalemxAl det_rank1; last exact: pd_unit.
  have e : sc ((zc g j)^T *m invmx (Omega gamma g) *m (t *: zc g j)) =
           (t * bf (invmx (Omega gamma g)) (zc g j) (zc g j))%coqR by rewrite -scalemxAr scZ.
  by rewrite e ln_mult //; have [] := fac_logdet h.
Qed.

(** ** derivatives *)
Lemma derive_local (f h : R -> R) l : (exists eps, 0 < eps /\ forall t, Rabs t < eps -> f t = h t)%coqR ->
  derivable_pt_lim h 0 l -> derivable_pt_lim f 0 l.
Proof.
  move=> [eps [e0 He]] H d d0; have [[del p0] Hd] := H d d0.
  have m0 : (0 < Rmin eps del)%coqR by exact: Rmin_glb_lt.
  exists (mkposreal _ m0) => t t0 /= ht.
  rewrite !He; [apply: Hd => //= | by rewrite Rabs_R0; lra |].
  - by have := Rmin_r eps del; lra.
  - by rewrite Rplus_0_l; have := Rmin_l eps del; lra.
Qed.

Lemma derive_sum (I : Type) (r : seq I) (F : I -> R -> R) (D : I -> R) :
  (forall i, List.In i r -> derivable_pt_lim (F i) 0 (D i)) ->
  derivable_pt_lim (fun t => \sum_(i <- r) F i t) 0 (\sum_(i <- r) D i).
Proof.
  elim: r => [|i r IH] h.
    rewrite big_nil; apply: (derive_local (h := fun _ => 0%coqR)); last exact: derivable_pt_lim_const.
    by exists 1%coqR; split; [lra | move=> t _; rewrite big_nil].
  rewrite big_cons.
  apply: (derive_local (h := (F i + (fun t => \sum_(k <- r) F k t))%F)).
    by exists 1%coqR; split; [lra | move=> t _; rewrite big_cons].
  apply: derivable_pt_lim_plus; first by apply: h; left.
  by apply: IH => k hk; apply: h; right.
Qed.

(** ** the entries of gradients and Hessians *)
Lemma big_lmap (A B : Type) (V : zmodType) (h : A -> B) (F : B -> V) (l : seq A) :
  \sum_(b <- List.map h l) F b = \sum_(a <- l) F (h a).
Proof. by elim: l => [|a l IH] /=; rewrite ?big_nil // !big_cons IH. Qed.
Lemma eq_big_In (A : Type) (V : zmodType) (F G : A -> V) (l : seq A) :
  (forall a, List.In a l -> F a = G a) -> \sum_(a <- l) F a = \sum_(a <- l) G a.
Proof.
  elim: l => [|a l IH] h; rewrite ?big_nil // !big_cons h; last by left.
  by rewrite IH // => b hb; apply: h; right.
Qed.
Lemma bf_colv n k (A : 'M[R]_n) (B : 'M[R]_(n, k)) (c : 'cV[R]_n) i :
  bf A (col i B) c = (B^T *m A *m c) i ord0.
Proof. by rewrite /bf /sc tr_col -row_mul [LHS]mxE [RHS]mxE; apply: eq_bigr => m _; rewrite !mxE. Qed.

Lemma gram_mid n k l (K : 'M[R]_n) (B : 'M[R]_(n, k)) (C : 'M[R]_(n, l)) :
  (K *m B)^T *m (K *m C) = B^T *m (K^T *m K) *m C.
Proof. by rewrite trmx_mul !mulmxA. Qed.

Lemma gradient_gamma_fac beta gamma g j : pd (Omega gamma g) ->
  group_gradient_gamma beta (fac gamma g) j ord0 =
  (/ 2 * bf (invmx (Omega gamma g)) (zc g j) (zc g j)
   - / 2 * bf (invmx (Omega gamma g)) (zc g j) (resid beta g) ^ 2)%coqR.
Proof.
  move=> h; rewrite /group_gradient_gamma mxE; congr (_ * _ - _ * _ ^ 2)%coqR.
  - rewrite /zc bf_col -fac_gram // -gram_mid mxE; apply: eq_bigr => i _.
    have sq (x : R) : (x ^ 2 = x * x)%coqR by ring.
    by rewrite sq [X in _ = X * _]mxE.
  - by rewrite /zc bf_colv gram_mid fac_gram.
Qed.

Lemma hessian_gamma_fac b1 b2 beta gamma g i j : pd (Omega gamma g) ->
  group_hessian_gamma b1 b2 beta (fac gamma g) i j =
  (let m := bf (invmx (Omega gamma g)) (zc g i) (zc g j) in
   let w := bf (invmx (Omega gamma g)) (zc g i) (resid beta g)
            * bf (invmx (Omega gamma g)) (zc g j) (resid beta g) in
   if b1 then 2 * w * m else if b2 then m ^ 2 else (- m + 2 * w) * m)%coqR.
Proof.
  move=> h; rewrite /group_hessian_gamma.
  set m := (f_inv _ *m g_z _)^T *m (f_inv _ *m g_z _); set w := (_ *m _ *m _ *m _).
  have em : m i j = bf (invmx (Omega gamma g)) (zc g i) (zc g j).
    by rewrite /m gram_mid fac_gram // -bf_col.
  have ew : w i j = (bf (invmx (Omega gamma g)) (zc g i) (resid beta g)
            * bf (invmx (Omega gamma g)) (zc g j) (resid beta g))%coqR.
    rewrite /w; set K := f_inv _; set r := residual _ _.
    have gen n (a : 'M[R]_(n, q)) (b : 'cV[R]_n) : a^T *m b *m b^T *m a = (a^T *m b) *m (a^T *m b)^T.
      by rewrite trmx_mul trmxK !mulmxA.
    rewrite gen.
    rewrite mxE big_ord1 [X in _ * X]mxE gram_mid fac_gram //.
    by rewrite /zc !bf_colv.
  by rewrite /=; case: b1 => /=; [|case: b2 => /=]; rewrite mxE em ?ew.
Qed.

Lemma gradient_beta_fac beta gamma g i : pd (Omega gamma g) ->
  group_gradient_beta beta (fac gamma g) i ord0 =
  (- bf (invmx (Omega gamma g)) (xc g i) (resid beta g))%coqR.
Proof. by move=> h; rewrite /group_gradient_beta mxE gram_mid fac_gram // /xc bf_colv. Qed.

Lemma kernel_fac gamma g : pd (Omega gamma g) ->
  group_kernel (fac gamma g) = (g_x g)^T *m invmx (Omega gamma g) *m g_x g.
Proof. by move=> h; rewrite /group_kernel gram_mid fac_gram. Qed.
Lemma tail_fac gamma g : pd (Omega gamma g) ->
  group_tail (fac gamma g) = (g_x g)^T *m invmx (Omega gamma g) *m g_y g.
Proof. by move=> h; rewrite /group_tail gram_mid fac_gram. Qed.

Lemma mixed_fac beta gamma g i j : pd (Omega gamma g) ->
  group_hessian_mixed beta (fac gamma g) j i =
  (bf (invmx (Omega gamma g)) (zc g j) (resid beta g) * bf (invmx (Omega gamma g)) (xc g i) (zc g j))%coqR.
Proof.
  move=> h; rewrite /group_hessian_mixed mul_diagv !gram_mid fac_gram //.
  rewrite -/(resid beta g) -bf_colv -bf_col; congr (_ * _).
  by rewrite bfC // trmx_inv Omega_tr.
Qed.

Section Entries.
Variables (gs : seq (group p q)) (pr : lme_prior p q).
Lemma sum_fac (n m : nat) (F : fgroup p q -> 'M[R]_(n, m)) (G : group p q -> R) gamma i j : admissible gs gamma ->
  (forall g, pd (Omega gamma g) -> F (fac gamma g) i j = G g) ->
  (\sum_(f <- List.map (fac gamma) gs) F f) i j = \sum_(g <- gs) G g.
Proof.
  move=> h e; rewrite big_lmap summxE; apply: eq_big_In => g hin; apply: e; exact: h.
Qed.

Lemma gradient_gamma_ok beta gamma j : admissible gs gamma ->
  entry (lme_gradient_gamma gs pr beta gamma) j =
  (\sum_(g <- gs) (/ 2 * bf (invmx (Omega gamma g)) (zc g j) (zc g j)
                   - / 2 * bf (invmx (Omega gamma g)) (zc g j) (resid beta g) ^ 2)%coqR
   + prior_gradient_gamma pr gamma j ord0)%coqR.
Proof.
  move=> h; rewrite /lme_gradient_gamma recalculate_ok //= mxE; congr (_ + _)%coqR.
  by apply: (sum_fac h) => g hg; exact: gradient_gamma_fac.
Qed.
Lemma gradient_beta_ok beta gamma i : admissible gs gamma ->
  entry (lme_gradient_beta gs pr beta gamma) i =
  (\sum_(g <- gs) (- bf (invmx (Omega gamma g)) (xc g i) (resid beta g))%coqR
   + prior_gradient_beta pr beta i ord0)%coqR.
Proof.
  move=> h; rewrite /lme_gradient_beta recalculate_ok //= mxE; congr (_ + _)%coqR.
  by apply: (sum_fac h) => g hg; exact: gradient_beta_fac.
Qed.
Lemma hessian_gamma_ok b1 b2 beta gamma : admissible gs gamma ->
  exists H, lme_hessian_gamma gs pr b1 b2 beta gamma = Ok H /\
  forall i j, H i j = (/ 2 * (\sum_(g <- gs)
    (let m := bf (invmx (Omega gamma g)) (zc g i) (zc g j) in
     let w := bf (invmx (Omega gamma g)) (zc g i) (resid beta g)
              * bf (invmx (Omega gamma g)) (zc g j) (resid beta g) in
     if b1 then 2 * w * m else if b2 then m ^ 2 else (- m + 2 * w) * m)%coqR)
    + prior_hessian_gamma pr i j)%coqR.
Proof.
  move=> h; rewrite /lme_hessian_gamma recalculate_ok //=; eexists; split; first by [].
  move=> i j; rewrite !mxE; congr (_ * _ + _)%coqR.
  by apply: (sum_fac h) => g hg; exact: hessian_gamma_fac.
Qed.
Lemma hessian_beta_ok gamma : admissible gs gamma ->
  exists H, lme_hessian_beta gs pr gamma = Ok H /\
  forall i j, H i j = (\sum_(g <- gs) bf (invmx (Omega gamma g)) (xc g i) (xc g j)
    + prior_hessian_beta pr i j)%coqR.
Proof.
  move=> h; rewrite /lme_hessian_beta recalculate_ok //=; eexists; split; first by [].
  move=> i j; rewrite !mxE; congr (_ + _)%coqR.
  by apply: (sum_fac h) => g hg; rewrite kernel_fac // -bf_col.
Qed.
Lemma hessian_mixed_ok beta gamma : admissible gs gamma ->
  exists H, lme_hessian_beta_gamma gs beta gamma = Ok H /\
  forall i j, H i j = \sum_(g <- gs) (bf (invmx (Omega gamma g)) (zc g j) (resid beta g)
                                      * bf (invmx (Omega gamma g)) (xc g i) (zc g j))%coqR.
Proof.
  move=> h; rewrite /lme_hessian_beta_gamma recalculate_ok //=; eexists; split; first by [].
  move=> i j; rewrite mxE.
  by apply: (sum_fac h) => g hg; exact: mixed_fac.
Qed.
End Entries.

(** ** the prior *)
Lemma along_entry n (x : 'cV[R]_n) j t i : along x j t i ord0 = (x i ord0 + t * (if i == j then 1 else 0))%coqR.
Proof. by rewrite /along !mxE eqxx andbT; case: (i == j). Qed.
Lemma derive_ord n (F : 'I_n -> R -> R) (D : 'I_n -> R) :
  (forall i, derivable_pt_lim (F i) 0 (D i)) ->
  derivable_pt_lim (fun t => \sum_i F i t) 0 (\sum_i D i).
Proof. by move=> h; apply: derive_sum => i _; exact: h. Qed.
Lemma derive_gauss n (m s w x : 'cV[R]_n) j : (forall i, s i ord0 <> 0%coqR) ->
  derivable_pt_lim (fun t => gauss_part m s w (along x j t)) 0 (gauss_grad m s w x j ord0).
Proof.
  move=> hs.
  have -> : gauss_grad m s w x j ord0
    = \sum_i ((if i == j then 1 else 0) * (w i ord0 * / s i ord0 * (x i ord0 - m i ord0)))%coqR.
    rewrite (bigD1 j) //= eqxx big1 ?mxE; first by toR; ring.
    by move=> i /negbTE ->; toR; ring.
  apply: derive_ord => i; apply/is_derive_Reals.
  apply: (is_derive_ext (fun t => (w i ord0 * / (2 * s i ord0)
     * (x i ord0 + t * (if i == j then 1 else 0) - m i ord0) ^ 2)%coqR)).
    by move=> t; rewrite along_entry.
  auto_derive => //.
  by have := hs i; case: (i == j) => h; toR; field.
Qed.
Lemma derive_gauss_grad n (m s w x : 'cV[R]_n) i j :
  derivable_pt_lim (fun t => gauss_grad m s w (along x j t) i ord0) 0 (gauss_hess (Each m s w) i j).
Proof.
  apply/is_derive_Reals.
  apply: (is_derive_ext (fun t => (w i ord0 * / s i ord0
     * (x i ord0 + t * (if i == j then 1 else 0) - m i ord0))%coqR)).
    by move=> t; rewrite mxE along_entry.
  auto_derive => //; rewrite /gauss_hess diagvE mxE; case: (i == j); rewrite ?mulr1n ?mulr0n; toR; ring.
Qed.
Lemma derive_const0 : derivable_pt_lim (fun _ => 0%coqR) 0 0.
Proof. exact: derivable_pt_lim_const. Qed.
Lemma derive_prior_gamma pr beta gamma j : prior_stds_nonzero pr ->
  derivable_pt_lim (fun t => prior_loss pr beta (along gamma j t)) 0 (prior_gradient_gamma pr gamma j ord0).
Proof.
  case: pr => [_|b g [hb hg]] /=; first by rewrite mxE; exact: derive_const0.
  rewrite -[X in derivable_pt_lim _ _ X]Rplus_0_l.
  apply: derivable_pt_lim_plus; first exact: derivable_pt_lim_const.
  exact: derive_gauss.
Qed.
Lemma derive_prior_beta pr beta gamma j : prior_stds_nonzero pr ->
  derivable_pt_lim (fun t => prior_loss pr (along beta j t) gamma) 0 (prior_gradient_beta pr beta j ord0).
Proof.
  case: pr => [_|b g [hb hg]] /=; first by rewrite mxE; exact: derive_const0.
  rewrite -[X in derivable_pt_lim _ _ X]Rplus_0_r.
  apply: derivable_pt_lim_plus; last exact: derivable_pt_lim_const.
  exact: derive_gauss.
Qed.
Lemma derive_prior_gradient_gamma pr gamma i j : each_column pr ->
  derivable_pt_lim (fun t => prior_gradient_gamma pr (along gamma j t) i ord0) 0 (prior_hessian_gamma pr i j).
Proof.
  case: pr => [_|[mb sb wb|//] [mg sg wg|//] _] /=; last exact: derive_gauss_grad.
  by rewrite !mxE; exact: derive_const0.
Qed.
Lemma derive_prior_gradient_beta pr beta i j : each_column pr ->
  derivable_pt_lim (fun t => prior_gradient_beta pr (along beta j t) i ord0) 0 (prior_hessian_beta pr i j).
Proof.
  case: pr => [_|[mb sb wb|//] [mg sg wg|//] _] /=; last exact: derive_gauss_grad.
  by rewrite !mxE; exact: derive_const0.
Qed.
End Facts.
