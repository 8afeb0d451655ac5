(** Random effects, hat matrix, degrees of freedom, effective sample size and
    semidefinite Hessians of the mixed-model oracle. *)
From Verif.Base Require Import Py Vec RMx.
From Coq Require Import Lra.
From mathcomp Require Import ssreflect ssrfun ssrbool eqtype ssrnat choice seq fintype
  finfun bigop finset ssralg zmodp matrix mxalgebra.
From Verif.Model Require Import LmeOracle.
From Verif.Spec Require Import MxSpec.
From Verif.Proofs Require Import MxFacts LmeOracleProofs LmeEstimates.
Set Implicit Arguments.
Unset Strict Implicit.
Unset Printing Implicit Defensive.
Delimit Scope R_scope with coqR.
Import GRing.Theory.
Local Open Scope ring_scope.

(** ** selecting rows *)
Section Select.
Variables (q : nat) (m : {set 'I_q}).
Lemma sel_tr k (v : 'M[R]_(q, k)) i j : ((select m)^T *m v) i j = v (enum_val i) j.
Proof.
  rewrite mxE (bigD1 (enum_val i)) //= !mxE eqxx mul1r big1 ?addr0 // => l hl.
  by rewrite !mxE (negbTE hl) mul0r.
Qed.
Lemma sel_on k (w : 'M[R]_(#|m|, k)) i j : (select m *m w) (enum_val i) j = w i j.
Proof.
  rewrite mxE (bigD1 i) //= !mxE eqxx mul1r big1 ?addr0 // => l hl.
  by rewrite !mxE (inj_eq enum_val_inj) eq_sym (negbTE hl) mul0r.
Qed.
Lemma sel_off k (w : 'M[R]_(#|m|, k)) i j : i \notin m -> (select m *m w) i j = 0.
Proof.
  move=> h; rewrite mxE big1 // => l _; rewrite !mxE; case: eqP => [e|]; last by rewrite mul0r.
  by move: h; rewrite e enum_valP.
Qed.
Lemma sel_ex i : i \in m -> exists k : 'I_#|m|, i = enum_val k.
Proof. by move=> h; exists (enum_rank_in h i); rewrite enum_rankK_in. Qed.
Lemma sel_id k (v : 'M[R]_(q, k)) : (forall i j, i \notin m -> v i j = 0) -> select m *m ((select m)^T *m v) = v.
Proof.
  move=> h; apply/matrixP => i j; case: (boolP (i \in m)) => hi; last by rewrite sel_off // h.
  by have [l ->] := sel_ex hi; rewrite sel_on sel_tr.
Qed.
Lemma sel_diag (v : 'cV[R]_q) : (forall i, i \notin m -> v i ord0 = 0) ->
  select m *m diagv ((select m)^T *m v) *m (select m)^T = diagv v.
Proof.
  move=> h; rewrite -mulmxA; apply/matrixP => i j.
  case: (boolP (i \in m)) => hi; last by rewrite sel_off // diagvE h // mul0rn.
  have [l ->] := sel_ex hi; rewrite sel_on mul_diagv sel_tr diagvE !mxE.
  by rewrite eq_sym; case: (_ == _); rewrite ?mulr1 ?mulr0.
Qed.
End Select.

Lemma diagv_vinv n (v : 'cV[R]_n) : (forall i, v i ord0 <> 0%coqR) -> diagv v *m diagv (vinv v) = 1%:M.
Proof.
  move=> h; apply/matrixP => i j; rewrite mul_diagv diagvE !mxE.
  by case: (i == j); rewrite ?mulr0n ?mulr0 // !mulr1n; toR; rewrite Rinv_r.
Qed.
Lemma vinv_diagv n (v : 'cV[R]_n) : (forall i, v i ord0 <> 0%coqR) -> diagv (vinv v) *m diagv v = 1%:M.
Proof. by move=> h; apply: mulmx1C; exact: diagv_vinv. Qed.

Section Blup.
Variables p q : nat.
Implicit Types (gs : seq (group p q)) (g : group p q) (pr : lme_prior p q).
Implicit Types (beta : 'cV[R]_p) (gamma : 'cV[R]_q).

Lemma thr_pos : (0 < 1 / 10 ^ 10)%coqR.
Proof. by apply: Rdiv_lt_0_compat; [lra | apply: pow_lt; lra]. Qed.
Lemma re_mask_pos gamma j : blup_variances gamma -> (j \in re_mask gamma) = rltb 0 (gamma j ord0).
Proof.
  move=> h; rewrite inE; have := thr_pos; case: (h j) => [->|hj] hp.
    by rewrite Rabs_R0; case: rltbP => [|_]; [lra | case: rltbP => //; lra].
  rewrite Rabs_pos_eq; last lra.
  by case: rltbP => [_|]; [case: rltbP => //; lra | lra].
Qed.
Lemma re_mask_off gamma j : blup_variances gamma -> j \notin re_mask gamma -> gamma j ord0 = 0%coqR.
Proof.
  move=> h; rewrite re_mask_pos //; case: (h j) => // hj.
  by case: rltbP => //; have := thr_pos; lra.
Qed.
Lemma blup_nonneg gamma : blup_variances gamma -> nonnegative gamma.
Proof. by move=> h j; case: (h j) => [->|]; have := thr_pos; lra. Qed.
Lemma re_mask_on gamma (k : 'I_#|re_mask gamma|) : blup_variances gamma ->
  (0 < ((select (re_mask gamma))^T *m gamma) k ord0)%coqR.
Proof.
  move=> h; rewrite sel_tr; have := enum_valP k; rewrite re_mask_pos //.
  by move/rltbP.
Qed.

Section Group.
Variables (gamma : 'cV[R]_q) (g : group p q).
Hypothesis hg : blup_variances gamma.
Hypothesis hv : forall i, (0 < g_v g i ord0)%coqR.
Let S := select (re_mask gamma).
Let zm := g_z g *m S.
Let gm := S^T *m gamma.

Lemma kernel_pd : pd (blup_kernel gamma g).
Proof.
  rewrite /blup_kernel; apply: pd_add.
    apply: pd_diagv => i; rewrite mxE; apply: Rinv_0_lt_compat; exact: re_mask_on.
  have h : psd (diagv (vinv (g_v g))).
    by apply: psd_diagv => i; rewrite mxE; have := Rinv_0_lt_compat _ (hv i); lra.
  by have := psd_congr (zm^T) h; rewrite trmxK.
Qed.

Lemma Omega_sel : Omega gamma g = zm *m diagv gm *m zm^T + diagv (g_v g).
Proof.
  rewrite /Omega -/(diagv gamma) -/(diagv (g_v g)); congr (_ + _).
  rewrite -[X in _ *m X *m _](@sel_diag _ (re_mask gamma)) => [|i hi]; last exact: re_mask_off.
  by rewrite /zm trmx_mul !mulmxA.
Qed.

Lemma pdO : pd (Omega gamma g).
Proof. by apply: Omega_pd => //; exact: blup_nonneg. Qed.

(** S (Gm^-1 + Zm' L^-1 Zm)^-1 Zm' L^-1 = Gamma Z' Omega^-1 *)
Lemma effects_matrix :
  S *m (invmx (blup_kernel gamma g) *m (zm^T *m diagv (vinv (g_v g))))
  = diagv gamma *m (g_z g)^T *m invmx (Omega gamma g).
Proof.
  have uk := pd_unit kernel_pd; have uO := pd_unit pdO.
  have e : blup_kernel gamma g *m (diagv gm *m zm^T *m invmx (Omega gamma g))
           = zm^T *m diagv (vinv (g_v g)).
    have -> : zm^T *m diagv (vinv (g_v g)) = zm^T *m diagv (vinv (g_v g)) *m Omega gamma g *m invmx (Omega gamma g).
      by rewrite mulmxK.
    rewrite !mulmxA; congr (_ *m _); rewrite /blup_kernel -/S -/zm -/gm Omega_sel.
    rewrite mulmxDr !mulmxDl vinv_diagv; last by move=> k; apply: Rgt_not_eq; exact: re_mask_on.
    rewrite mul1mx -(mulmxA zm^T _ (diagv (g_v g))) vinv_diagv; last by move=> i; apply: Rgt_not_eq; exact: hv.
    by rewrite mulmx1 addrC !mulmxA.
  rewrite -e mulKmx // !mulmxA; congr (_ *m _).
  rewrite /zm trmx_mul !mulmxA; congr (_ *m _).
  by apply: sel_diag => i hi; exact: re_mask_off.
Qed.

Lemma group_effects_ok beta : group_effects beta gamma g = Ok (blup beta gamma g).
Proof.
  rewrite /group_effects /np_solve (pd_unit kernel_pd) /=; congr Ok.
  rewrite -/S -/zm /blup -/(diagv gamma) -effects_matrix /resid /residual.
  by rewrite !mulmxA.
Qed.
Lemma hat_diagonal_ok : hat_diagonal gamma g = Ok (g_z g *m (diagv gamma *m (g_z g)^T *m invmx (Omega gamma g))).
Proof.
  by rewrite /hat_diagonal /np_inv (pd_unit kernel_pd) /= -/S -/zm effects_matrix.
Qed.

Lemma supported_sel u : supported gamma u -> S *m (S^T *m u) = u.
Proof. by move=> h; apply: sel_id => i j hi; rewrite ord1; apply: h; exact: re_mask_off. Qed.
Lemma blup_supported beta : supported gamma (blup beta gamma g).
Proof. by move=> j h; rewrite /blup -!mulmxA -/(diagv gamma) mul_diagv h mul0r. Qed.

Lemma penalised_quad beta w : penalised beta gamma g (S *m w) =
  (/ 2 * qf (blup_kernel gamma g) w - sc ((zm^T *m diagv (vinv (g_v g)) *m resid beta g)^T *m w)
   + / 2 * qf (diagv (vinv (g_v g))) (resid beta g))%coqR.
Proof.
  rewrite /penalised /=.
  have -> : \sum_i ((resid beta g - g_z g *m (S *m w))%R i ord0 ^ 2 / g_v g i ord0)%coqR
    = qf (diagv (vinv (g_v g))) (resid beta g - zm *m w).
    rewrite qf_diagv; apply: eq_bigr => i _; rewrite [vinv _ _ _]mxE /zm mulmxA.
    by toR; rewrite /Rdiv Rmult_comm.
  have -> : \sum_(j | rltb 0 (gamma j ord0)) ((S *m w) j ord0 ^ 2 / gamma j ord0)%coqR
    = qf (diagv (vinv gm)) w.
    rewrite qf_diagv (eq_bigl (fun j => j \in re_mask gamma)) => [|j]; last by rewrite re_mask_pos.
    rewrite big_enum_val /=; apply: eq_bigr => k _.
    by rewrite /S sel_on [vinv _ _ _]mxE /gm /S sel_tr; toR; rewrite /Rdiv Rmult_comm.
  rewrite /blup_kernel -/S -/zm -/gm qfD.
  set L := diagv (vinv (g_v g)); set r := resid beta g.
  have sL : L^T = L by exact: diagv_tr.
  clearbody r; rewrite (qf_bf L (r - _)) bfBr !bfBl -(qf_bf L r) [bf L r (zm *m w)]bfC //.
  have -> : qf (zm^T *m L *m zm) w = bf L (zm *m w) (zm *m w) by rewrite /qf /bf (trmx_mul zm w) !mulmxA.
  have -> : sc ((zm^T *m L *m r)^T *m w) = bf L (zm *m w) r by rewrite sc_dotC /bf (trmx_mul zm w) !mulmxA.
  have gen (a b c d : R) : (/ 2 * (a - b - (b - c)) + / 2 * d = / 2 * (d + c) - b + / 2 * a)%coqR by lra.
  exact: gen.
Qed.

Lemma blup_minimises beta w : supported gamma w -> w <> blup beta gamma g ->
  (penalised beta gamma g (blup beta gamma g) < penalised beta gamma g w)%coqR.
Proof.
  move=> sw nw; set u := blup beta gamma g in nw *.
  have su := blup_supported beta; rewrite -/u in su.
  rewrite -(supported_sel sw) -(supported_sel su) !penalised_quad.
  have [sK hK] := kernel_pd.
  have e : blup_kernel gamma g *m (S^T *m u) = zm^T *m diagv (vinv (g_v g)) *m resid beta g.
    have -> : S^T *m u = invmx (blup_kernel gamma g) *m (zm^T *m diagv (vinv (g_v g)) *m resid beta g).
      rewrite /u /blup -/(diagv gamma) -effects_matrix !mulmxA.
      have -> : S^T *m S = 1%:M.
        by apply/matrixP => i j; rewrite sel_tr !mxE (inj_eq enum_val_inj).
      by rewrite mul1mx.
    by rewrite mulKVmx //; exact: pd_unit kernel_pd.
  have eq := quad_min (S^T *m w) sK e.
  have : (0 < qf (blup_kernel gamma g) (S^T *m w - S^T *m u))%coqR.
    apply: hK => e0; apply: nw; apply/eqP; rewrite -subr_eq0 -(supported_sel sw) -(supported_sel su).
    by rewrite -mulmxBr e0 mulmx0.
  move: eq; set c := sc _; set c' := sc _; set a := qf _ _; set a' := qf _ _; set b := qf _ (_ - _).
  by move: c c' a a' b (qf _ _) => c c' a a' b d; lra.
Qed.
End Group.
End Blup.
