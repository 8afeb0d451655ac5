(** Facts about real matrices: quadratic forms, Cholesky factors, rank-one updates. *)
From Verif.Base Require Import Py Vec RMx.
From Coq Require Import Lra.
From mathcomp Require Import ssreflect ssrfun ssrbool eqtype ssrnat choice seq fintype
  finfun bigop finset ssralg zmodp matrix mxalgebra.
From Verif.Model Require Import LmeOracle.
From Verif.Spec Require Import MxSpec.
Set Implicit Arguments.
Unset Strict Implicit.
Unset Printing Implicit Defensive.
Delimit Scope R_scope with coqR.
Import GRing.Theory.
Local Open Scope ring_scope.

(** ** mathcomp's operations on R are those of the standard library *)
Lemma RaddE (a b : R) : a + b = (a + b)%coqR. Proof. by []. Qed.
Lemma RmulE (a b : R) : a * b = (a * b)%coqR. Proof. by []. Qed.
Lemma RoppE (a : R) : - a = (- a)%coqR. Proof. by []. Qed.
Lemma RsubE (a b : R) : a - b = (a - b)%coqR. Proof. by []. Qed.
Lemma RinvE (a : R) : a^-1 = (/ a)%coqR. Proof. by []. Qed.
Lemma R0E : (0 : R) = 0%coqR. Proof. by []. Qed.
Lemma R1E : (1 : R) = 1%coqR. Proof. by []. Qed.
Ltac toR := try (lazymatch goal with |- @eq ?T ?a ?b => change (@eq R a b) end);
  rewrite ?(RaddE, RmulE, RoppE, RsubE, RinvE, R0E, R1E);
  change (GRing.Zmodule.sort R_zmodType) with R;
  change (GRing.Ring.sort R_ringType) with R;
  change (GRing.ComRing.sort R_comRingType) with R;
  change (GRing.UnitRing.sort R_unitRing) with R;
  change (GRing.ComUnitRing.sort R_comUnitRingType) with R;
  change (GRing.Field.sort R_fieldType) with R;
  change (GRing.IntegralDomain.sort R_idomainType) with R.

Lemma rltbP (a b : R) : reflect (a < b)%coqR (rltb a b).
Proof. by rewrite /rltb; case: Rlt_dec => h; constructor. Qed.
Lemma rlebP (a b : R) : reflect (a <= b)%coqR (rleb a b).
Proof. by rewrite /rleb; case: Rle_dec => h; constructor. Qed.

(** ** sums *)
Lemma sum_ge0 (I : Type) (r : seq I) (P : pred I) (F : I -> R) :
  (forall i, P i -> 0 <= F i)%coqR -> (0 <= \sum_(i <- r | P i) F i)%coqR.
Proof.
  move=> h; elim/big_ind: _ => //; first by toR; lra.
  by move=> a b ha hb; toR; lra.
Qed.
Lemma sum_eq0 (I : finType) (F : I -> R) :
  (forall i, 0 <= F i)%coqR -> \sum_i F i = 0%coqR -> forall i, F i = 0%coqR.
Proof.
  move=> h e i; move: e; rewrite (bigD1 i) //=; toR.
  have := h i; have := @sum_ge0 _ (index_enum I) (fun j => j != i) F (fun j _ => h j).
  by toR; lra.
Qed.
Lemma sum_le (I : Type) (r : seq I) (P : pred I) (F G : I -> R) :
  (forall i, P i -> F i <= G i)%coqR -> (\sum_(i <- r | P i) F i <= \sum_(i <- r | P i) G i)%coqR.
Proof.
  move=> h; elim/big_ind2: _ => //; first by toR; lra.
  by move=> a b c d ha hb; toR; lra.
Qed.

(** ** the entry of a 1x1 matrix; quadratic forms *)
Lemma sc_mx (A : 'M[R]_1) : A = (sc A)%:M.
Proof. by rewrite [LHS]mx11_scalar. Qed.
Lemma scD A B : sc (A + B) = (sc A + sc B)%coqR. Proof. by rewrite /sc mxE. Qed.
Lemma scB A B : sc (A - B) = (sc A - sc B)%coqR. Proof. by rewrite /sc !mxE. Qed.
Lemma scN A : sc (- A) = (- sc A)%coqR. Proof. by rewrite /sc !mxE. Qed.
Lemma scZ a A : sc (a *: A) = (a * sc A)%coqR. Proof. by rewrite /sc !mxE. Qed.
Lemma sc0 : sc 0 = 0%coqR. Proof. by rewrite /sc !mxE. Qed.
Lemma sc_scalar a : sc a%:M = a. Proof. by rewrite /sc mxE eqxx. Qed.
Lemma sc_mul A B : sc (A *m B) = (sc A * sc B)%coqR.
Proof. by rewrite /sc mxE big_ord1. Qed.
Lemma sc_tr A : sc A^T = sc A. Proof. by rewrite /sc mxE. Qed.
Lemma sc_inj A B : sc A = sc B -> A = B.
Proof. by move=> h; rewrite [A]sc_mx [B]sc_mx h. Qed.
Definition scE := (scD, scB, scN, scZ, sc0, sc_scalar).

Lemma sumsqE n (x : 'cV[R]_n) : sumsq x = sc (x^T *m x).
Proof.
  rewrite /sumsq /sc mxE; apply: eq_bigr => i _; rewrite mxE; toR; ring.
Qed.
Lemma sumsq_ge0 n (x : 'cV[R]_n) : (0 <= sumsq x)%coqR.
Proof. by apply: sum_ge0 => i _; exact: pow2_ge_0. Qed.
Lemma sumsq_eq0 n (x : 'cV[R]_n) : sumsq x = 0%coqR -> x = 0.
Proof.
  move=> h; apply/colP => i; rewrite !mxE.
  have := sum_eq0 (fun i => pow2_ge_0 (x i ord0)) h i.
  by move=> e; apply: Rsqr_0_uniq; rewrite Rsqr_pow2.
Qed.
Lemma sumsq_gt0 n (x : 'cV[R]_n) : x <> 0 -> (0 < sumsq x)%coqR.
Proof.
  move=> h; have := sumsq_ge0 x; case; first by [].
  by move=> e; case: h; exact: sumsq_eq0.
Qed.
Lemma sc_dotC n (x y : 'cV[R]_n) : sc (x^T *m y) = sc (y^T *m x).
Proof. by rewrite -sc_tr trmx_mul trmxK. Qed.

Lemma qfD n (A B : 'M[R]_n) x : qf (A + B) x = (qf A x + qf B x)%coqR.
Proof. by rewrite /qf mulmxDr mulmxDl scD. Qed.
Lemma qfZ n a (A : 'M[R]_n) x : qf (a *: A) x = (a * qf A x)%coqR.
Proof. by rewrite /qf -scalemxAr -scalemxAl scZ. Qed.
Lemma qf0 n (A : 'M[R]_n) : qf A 0 = 0%coqR.
Proof. by rewrite /qf mulmx0 sc0. Qed.

Lemma pd_psd n (A : 'M[R]_n) : pd A -> psd A.
Proof.
  case=> s h; split=> // x; case: (x =P 0) => [->|/eqP]; first by rewrite qf0; lra.
  by move/eqP=> /h; lra.
Qed.
Lemma pd_add n (A B : 'M[R]_n) : pd A -> psd B -> pd (A + B).
Proof.
  move=> [sa ha] [sb hb]; split; first by rewrite linearD /= sa sb.
  by move=> x hx; rewrite qfD; have := ha x hx; have := hb x; lra.
Qed.
Lemma psd_add n (A B : 'M[R]_n) : psd A -> psd B -> psd (A + B).
Proof.
  move=> [sa ha] [sb hb]; split; first by rewrite linearD /= sa sb.
  by move=> x; rewrite qfD; have := ha x; have := hb x; lra.
Qed.
Lemma psd0 n : psd (0 : 'M[R]_n).
Proof. by split; [rewrite trmx0 | move=> x; rewrite /qf mulmx0 mul0mx sc0; lra]. Qed.
Lemma psd_gram n m (A : 'M[R]_(m, n)) : psd (A^T *m A).
Proof.
  split; first by rewrite trmx_mul trmxK.
  move=> x; rewrite /qf.
  have -> : x^T *m (A^T *m A) *m x = (A *m x)^T *m (A *m x) by rewrite trmx_mul !mulmxA.
  by rewrite -sumsqE; exact: sumsq_ge0.
Qed.

Lemma diagvE n (v : 'cV[R]_n) i j : diagv v i j = (v i ord0 *+ (i == j)).
Proof. by rewrite /diagv !mxE. Qed.
Lemma diagv_tr n (v : 'cV[R]_n) : (diagv v)^T = diagv v.
Proof. by rewrite /diagv tr_diag_mx. Qed.
Lemma mul_diagv n m (v : 'cV[R]_n) (A : 'M[R]_(n, m)) i j : (diagv v *m A) i j = v i ord0 * A i j.
Proof. by rewrite /diagv mul_diag_mx !mxE. Qed.
Lemma mulmx_diagv n m (v : 'cV[R]_n) (A : 'M[R]_(m, n)) i j : (A *m diagv v) i j = A i j * v j ord0.
Proof. by rewrite /diagv mul_mx_diag !mxE. Qed.
Lemma qf_diagv n (v : 'cV[R]_n) x : qf (diagv v) x = \sum_i (v i ord0 * x i ord0 ^ 2)%coqR.
Proof.
  rewrite /qf /sc -mulmxA mxE; apply: eq_bigr => i _; rewrite mul_diagv mxE; toR; ring.
Qed.
Lemma psd_diagv n (v : 'cV[R]_n) : (forall i, 0 <= v i ord0)%coqR -> psd (diagv v).
Proof.
  move=> h; split; first exact: diagv_tr.
  move=> x; rewrite qf_diagv; apply: sum_ge0 => i _.
  by apply: Rmult_le_pos; [exact: h | exact: pow2_ge_0].
Qed.
Lemma pd_diagv n (v : 'cV[R]_n) : (forall i, 0 < v i ord0)%coqR -> pd (diagv v).
Proof.
  move=> h; split; first exact: diagv_tr.
  have h' : forall i, (0 <= v i ord0)%coqR by move=> i; have := h i; lra.
  move=> x hx; have := (psd_diagv h').2 x; case=> // e; case: hx; apply/colP => i.
  rewrite mxE; move: (esym e); rewrite qf_diagv => e'.
  have := sum_eq0 (fun i => Rmult_le_pos _ _ (h' i) (pow2_ge_0 (x i ord0))) e' i.
  move=> /Rmult_integral [e0|e0]; first by have := h i; lra.
  by apply: Rsqr_0_uniq; rewrite Rsqr_pow2.
Qed.
Lemma psd_congr n m (A : 'M[R]_n) (B : 'M[R]_(m, n)) : psd A -> psd (B *m A *m B^T).
Proof.
  move=> [s h]; split; first by rewrite !trmx_mul trmxK s mulmxA.
  move=> x; rewrite /qf.
  have -> : x^T *m (B *m A *m B^T) *m x = (B^T *m x)^T *m A *m (B^T *m x)
    by rewrite trmx_mul trmxK !mulmxA.
  exact: h.
Qed.

(** a matrix with trivial kernel is invertible *)
Lemma unitmx_ker n (A : 'M[R]_n) : (forall x : 'cV_n, A *m x = 0 -> x = 0) -> A \in unitmx.
Proof.
  move=> h; rewrite -unitmx_tr -row_free_unit -kermx_eq0; apply/eqP/row_matrixP => i.
  rewrite row0; apply: trmx_inj; rewrite trmx0; apply: h.
  apply: trmx_inj; rewrite trmx_mul trmxK trmx0 -row_mul mulmx_ker row0 //.
Qed.
Lemma pd_unit n (A : 'M[R]_n) : pd A -> A \in unitmx.
Proof.
  move=> [_ h]; apply: unitmx_ker => x e; case: (x =P 0) => // hx.
  by have := h x hx; rewrite /qf -mulmxA e mulmx0 sc0; lra.
Qed.
Lemma pd_inv n (A : 'M[R]_n) : pd A -> pd (invmx A).
Proof.
  move=> hA; have u := pd_unit hA; have [s h] := hA; split; first by rewrite trmx_inv s.
  move=> x hx; have e : qf (invmx A) x = qf A (invmx A *m x).
    by rewrite /qf trmx_mul trmx_inv s -!mulmxA (mulmxA (invmx A) A) mulVmx // mul1mx.
  rewrite e; apply: h => e0; apply: hx.
  by rewrite -(mulKVmx u x) e0 mulmx0.
Qed.

(** ** Cholesky *)
Lemma choleskyS n (A : 'M[R]_(1 + n)) : @cholesky (1 + n) A =
  (if rltb 0 (ulsubmx A ord0 ord0) then
     let! L := cholesky (drsubmx A - (ulsubmx A ord0 ord0)^-1 *: (dlsubmx A *m (dlsubmx A)^T)) in
     Ok (block_mx (sqrt (ulsubmx A ord0 ord0))%:M 0 ((sqrt (ulsubmx A ord0 ord0))^-1 *: dlsubmx A) L)
   else Err LinAlgError).
Proof. by []. Qed.
Lemma cholesky_trig n (A L : 'M[R]_n) : A^T = A -> cholesky A = Ok L ->
  [/\ L *m L^T = A, is_trig_mx L & forall i, (0 < L i i)%coqR].
Proof.
  elim: n A L => [|n IH] A L sA.
    move=> /= [<-]; split; [by apply/matrixP => -[] | exact: mx0_is_trig | by case].
  move: A L sA; rewrite -[n.+1]/(1 + n)%N => A L sA.
  rewrite choleskyS; set a := ulsubmx _ _ _; set v := dlsubmx _.
  case: rltbP => // ha.
  case e : (cholesky _) => [L'|] //= [<-].
  have sB : (drsubmx A)^T = drsubmx A by rewrite -[in RHS]sA -trmx_drsub.
  have sv : ursubmx A = v^T by rewrite /v -[in LHS]sA -trmx_dlsub.
  have [|hL tL pL] := IH _ _ _ e.
    by rewrite linearB /= linearZ /= trmx_mul trmxK sB.
  have hs : (0 < sqrt a)%coqR by exact: sqrt_lt_R0.
  have hss : (sqrt a * sqrt a = a)%coqR by apply: sqrt_sqrt; lra.
  split.
  - rewrite -[in RHS](submxK A).
    rewrite tr_block_mx mulmx_block trmx0 !mul0mx !mulmx0 !addr0.
    congr (block_mx _ _ _ _).
    + rewrite tr_scalar_mx -scalar_mxM [RHS]mx11_scalar; congr (_%:M); exact: hss.
    + rewrite sv linearZ /= -scalemxAr mul_scalar_mx scalerA; toR.
      by rewrite Rinv_l; [rewrite scale1r | lra].
    + rewrite tr_scalar_mx mul_mx_scalar scalerA; toR.
      by rewrite Rinv_r; [rewrite scale1r | lra].
    + rewrite hL linearZ /= -scalemxAl -scalemxAr scalerA.
      have -> : (sqrt a)^-1 * (sqrt a)^-1 = a^-1 by toR; rewrite -[in RHS]hss Rinv_mult.
      by rewrite addrC subrK.
  - by rewrite is_trig_block_mx // eqxx scalar_mx_is_trig tL.
  - move=> i; case: (split_ordP i) => j ->.
    + by rewrite block_mxEul mxE eqxx.
    + by rewrite block_mxEdr.
Qed.

Lemma sc_block (n : nat) (a : 'M[R]_1) (b : 'rV[R]_n) (c : 'cV[R]_n) (d : 'M[R]_n) (s : 'M[R]_1) (x : 'cV[R]_n) :
  qf (block_mx a b c d) (col_mx s x)
  = (sc (s^T *m a *m s) + sc (s^T *m b *m x) + sc (x^T *m c *m s) + sc (x^T *m d *m x))%coqR.
Proof.
  rewrite /qf tr_col_mx -mulmxA mul_block_col mul_row_col !mulmxDr !scD !mulmxA; toR; ring.
Qed.

Lemma pd_schur n (A : 'M[R]_(1 + n)) : pd A ->
  (0 < ulsubmx A ord0 ord0)%coqR /\
  pd (drsubmx A - (ulsubmx A ord0 ord0)^-1 *: (dlsubmx A *m (dlsubmx A)^T)).
Proof.
  move=> [sA h]; set a := ulsubmx _ _ _; set v := dlsubmx _.
  have sB : (drsubmx A)^T = drsubmx A by rewrite -[in RHS]sA -trmx_drsub.
  have sv : ursubmx A = v^T by rewrite /v -[in LHS]sA -trmx_dlsub.
  have eA : A = block_mx a%:M v^T v (drsubmx A).
    by rewrite -[LHS]submxK sv; congr (block_mx _ _ _ _); rewrite [LHS]mx11_scalar.
  have ha : (0 < a)%coqR.
    have := h (col_mx 1%:M 0); rewrite [in X in (0 < X)%coqR]eA sc_block !mulmx0 trmx0 !mul0mx.
    rewrite !sc0 trmx1 mul1mx mulmx1 sc_scalar => H.
    have : (0 < a + 0 + 0 + 0)%coqR; last lra.
    apply: H => /(congr1 usubmx); rewrite col_mxKu linear0 => /(congr1 sc).
    by rewrite sc_scalar sc0; exact: R1_neq_R0.
  split=> //; split.
    by rewrite linearB /= linearZ /= trmx_mul trmxK sB.
  move=> x hx.
  pose s : 'M[R]_1 := - (a^-1 *: (v^T *m x)).
  have := h (col_mx s x); rewrite [in X in (0 < X)%coqR]eA sc_block => H.
  have {H} := H _; have hs : sc s = (- (/ a * sc (v^T *m x)))%coqR by rewrite /s scN scZ.
  have e1 : sc (x^T *m v) = sc (v^T *m x) by exact: sc_dotC.
  have e2 : sc (s^T *m a%:M *m s) = (sc s * a * sc s)%coqR by rewrite !sc_mul sc_tr sc_scalar.
  have e3 : sc (s^T *m v^T *m x) = (sc s * sc (v^T *m x))%coqR by rewrite -mulmxA sc_mul sc_tr.
  have e4 : sc (x^T *m v *m s) = (sc s * sc (v^T *m x))%coqR by rewrite sc_mul e1 Rmult_comm.
  have e5 : qf (drsubmx A - a^-1 *: (v *m v^T)) x
            = (sc (x^T *m drsubmx A *m x) - / a * (sc (v^T *m x) * sc (v^T *m x)))%coqR.
    rewrite /qf mulmxBr mulmxBl scB -scalemxAr -scalemxAl scZ; congr (_ - _ * _)%coqR.
    by rewrite !mulmxA -[_ *m v^T *m x]mulmxA sc_mul e1.
  rewrite e2 e3 e4 e5 hs => H.
  have {H} := H _; set t := sc (v^T *m x); set d := sc (x^T *m _ *m x) => H.
  have : (0 < - (/ a * t) * a * - (/ a * t) + - (/ a * t) * t + - (/ a * t) * t + d)%coqR.
    apply: H => /(congr1 dsubmx); rewrite col_mxKd linear0; exact: hx.
  have -> : (- (/ a * t) * a * - (/ a * t) + - (/ a * t) * t + - (/ a * t) * t + d
             = d - / a * (t * t))%coqR by field; lra.
  by [].
Qed.

Lemma cholesky_pd n (A : 'M[R]_n) : pd A -> exists L, cholesky A = Ok L.
Proof.
  elim: n A => [|n IH] A hA; first by exists 0.
  move: A hA; rewrite -[n.+1]/(1 + n)%N => A hA.
  have [ha hS] := pd_schur hA.
  have [L e] := IH _ hS.
  rewrite choleskyS e; case: rltbP => [_ | //]; by eexists.
Qed.

Lemma trig_inv n (L : 'M[R]_n) : is_trig_mx L -> (forall i, (0 < L i i)%coqR) ->
  L \in unitmx.
Proof.
  move=> tL pL; rewrite unitmxE det_trig // unitfE.
  apply/prodf_neq0 => i _; apply/eqP => e; have := pL i; rewrite e; exact: Rlt_irrefl.
Qed.

Lemma invmx_trig n (L : 'M[R]_n) : is_trig_mx L -> (forall i, (0 < L i i)%coqR) ->
  forall i j : 'I_n, (i < j)%N -> invmx L i j = 0.
Proof.
  move=> tL pL; have u := trig_inv tL pL; have tP := is_trig_mxP tL.
  suff H : forall m (i j : 'I_n), (i < m)%N -> (i < j)%N -> invmx L i j = 0.
    by move=> i j; exact: (H i.+1).
  elim=> // m IH i j im ij.
  have := congr1 (fun M : 'M_n => M i j) (mulmxV u).
  rewrite !mxE (bigD1 i) //= big1 ?addr0.
    have -> : (i == j) = false by apply/negP => /eqP e; rewrite e ltnn in ij.
    move=> /eqP; rewrite mulf_eq0 => /orP [/eqP e|/eqP //].
    by have := pL i; rewrite e => /Rlt_irrefl.
  move=> k ki; case: (ltngtP k i) => [lt|gt|e].
  - by rewrite (IH k j) ?mulr0 //; [exact: leq_trans lt im | exact: ltn_trans ij].
  - by rewrite tP // mul0r.
  - by case/eqP: ki; exact: val_inj.
Qed.

Lemma invmx_trig_diag n (L : 'M[R]_n) : is_trig_mx L -> (forall i, (0 < L i i)%coqR) ->
  forall i, invmx L i i = (/ L i i)%coqR.
Proof.
  move=> tL pL i; have u := trig_inv tL pL; have tP := is_trig_mxP tL.
  have := congr1 (fun M : 'M_n => M i i) (mulmxV u).
  rewrite !mxE (bigD1 i) //= big1 ?addr0 ?eqxx.
    rewrite RmulE R1E => e; have := pL i => h.
    by apply: (Rmult_eq_reg_l (L i i)); rewrite ?e ?Rinv_r //; lra.
  move=> k ki; case: (ltngtP k i) => [lt|gt|e].
  - by rewrite invmx_trig ?mulr0.
  - by rewrite tP // mul0r.
  - by case/eqP: ki; exact: val_inj.
Qed.

Lemma ln_prod n (F : 'I_n -> R) : (forall i, (0 < F i)%coqR) ->
  (0 < \prod_i F i)%coqR /\ ln (\prod_i F i) = \sum_i ln (F i).
Proof.
  move=> h; elim/big_ind2: _.
  - by rewrite R0E; split; [rewrite R1E; lra | exact: ln_1].
  - by move=> a b c d [ha <-] [hb <-]; split; [exact: Rmult_lt_0_compat | exact: ln_mult].
  - by move=> i _; split.
Qed.

(** ** rank-one updates *)
Lemma det_1_uv n (u v : 'cV[R]_n) : \det (1%:M + u *m v^T) = (1 + sc (v^T *m u))%coqR.
Proof.
  pose A := block_mx (1%:M : 'M[R]_n) 0 v^T (1%:M : 'M[R]_1).
  pose B := block_mx (1%:M + u *m v^T) u 0 (1%:M : 'M[R]_1).
  pose C := block_mx (1%:M : 'M[R]_n) 0 (- v^T) (1%:M : 'M[R]_1).
  have e : A *m B *m C = block_mx (1%:M : 'M[R]_n) u 0 (1%:M + v^T *m u).
    rewrite /A /B /C !mulmx_block !mul1mx !mul0mx !mulmx0 !mulmx1 !addr0 !add0r.
    congr (block_mx _ _ _ _).
    - by rewrite mulmxN addrK.
    - rewrite mulmxDr mulmx1 mulmxDl mul1mx !mulmxN mulmxA; apply/eqP.
      by rewrite addrA addrK subrr.
    - by rewrite addrC.
  have := congr1 determinant e.
  rewrite !det_mulmx /A /B /C !det_lblock !det_ublock !det1 !mul1r !mulr1 => ->.
  by rewrite [1%:M + _]sc_mx det_scalar1 scD sc_scalar.
Qed.

Lemma det_rank1 n (A : 'M[R]_n) (u v : 'cV[R]_n) : A \in unitmx ->
  \det (A + u *m v^T) = (\det A * (1 + sc (v^T *m invmx A *m u)))%coqR.
Proof.
  move=> hA.
  have -> : A + u *m v^T = A *m (1%:M + (invmx A *m u) *m v^T).
    by rewrite mulmxDr mulmx1 !mulmxA mulmxV // mul1mx.
  by rewrite det_mulmx det_1_uv mulmxA.
Qed.

(** Sherman-Morrison *)
Lemma inv_rank1 n (A : 'M[R]_n) (u v : 'cV[R]_n) (t : R) : A \in unitmx ->
  (1 + t * sc (v^T *m invmx A *m u) <> 0)%coqR ->
  A + t *: (u *m v^T) \in unitmx /\
  invmx (A + t *: (u *m v^T)) =
  invmx A - (t / (1 + t * sc (v^T *m invmx A *m u)))%coqR *: (invmx A *m u *m (v^T *m invmx A)).
Proof.
  move=> hA; set s := sc _ => hs.
  have eu : A + t *: (u *m v^T) = A + (t *: u) *m v^T by rewrite -scalemxAl.
  have hd : A + t *: (u *m v^T) \in unitmx.
    rewrite unitmxE eu det_rank1 // unitfE; apply/eqP; rewrite -scalemxAr scZ -/s R0E.
    move=> /Rmult_integral [e|//].
    by move: hA; rewrite unitmxE unitfE e R0E eqxx.
  split=> //; set c := (t / _)%coqR.
  rewrite -[LHS]mulmx1 -[1%:M in LHS](_ : (A + t *: (u *m v^T)) *m (invmx A - c *: (invmx A *m u *m (v^T *m invmx A))) = _).
    by rewrite mulKmx.
  rewrite mulmxDl !mulmxBr mulmxV // -!scalemxAr -!scalemxAl !mulmxA mulmxV // mul1mx.
  have -> : u *m v^T *m invmx A *m u *m v^T *m invmx A = s *: (u *m v^T *m invmx A).
    rewrite -[u *m v^T *m invmx A *m u]mulmxA -[u *m v^T *m (invmx A *m u)]mulmxA.
    by rewrite (mulmxA v^T) [v^T *m _ *m u]sc_mx -/s mul_mx_scalar -!scalemxAl.
  rewrite scalerA scalerA -[in LHS]addrA -[RHS]addr0; congr (_ + _).
  rewrite -scalerBl -scaleNr -scalerDl.
  have -> : - c + (t - c * t * s) = 0.
    by toR; rewrite /c; field.
  by rewrite scale0r.
Qed.
