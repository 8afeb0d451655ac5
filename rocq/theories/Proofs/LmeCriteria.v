(** Hat matrix, degrees of freedom, effective sample size, semidefinite Hessians and
    sign-flip probabilities of the mixed-model oracle. *)
From Verif.Base Require Import Py Vec RMx.
From Coq Require Import Lra.
From mathcomp Require Import ssreflect ssrfun ssrbool eqtype ssrnat choice seq fintype
  finfun bigop finset ssralg zmodp matrix mxalgebra.
From Verif.Model Require Import LmeOracle.
From Verif.Spec Require Import MxSpec.
From Verif.Proofs Require Import MxFacts LmeOracleProofs LmeEstimates LmeBlup.
Set Implicit Arguments.
Unset Strict Implicit.
Unset Printing Implicit Defensive.
Delimit Scope R_scope with coqR.
Import GRing.Theory.
Local Open Scope ring_scope.

Lemma natR n : (n%:R : R) = INR n.
Proof. by elim: n => [//|n IH]; rewrite S_INR mulrSr IH. Qed.

Section Criteria.
Variables p q : nat.
Implicit Types (gs : seq (group p q)) (g : group p q) (pr : lme_prior p q).
Implicit Types (beta : 'cV[R]_p) (gamma : 'cV[R]_q).

Lemma sequence_map_In (A B : Type) (f : A -> res B) (h : A -> B) (l : seq A) :
  (forall a, List.In a l -> f a = Ok (h a)) -> sequence (List.map f l) = Ok (List.map h l).
Proof.
  elim: l => [//|a l IH] e /=; rewrite e; last by left.
  by rewrite /= IH //= => b hb; apply: e; right.
Qed.

(** ** the random effects of all groups *)
Section Effects.
Variables (gs : seq (group p q)) (gamma : 'cV[R]_q).
Hypothesis hg : blup_variances gamma.
Hypothesis hv : positive_variances gs.
Lemma adm : admissible gs gamma.
Proof. by apply: admissible_nonneg => //; exact: blup_nonneg. Qed.

Lemma random_effects_ok beta : lme_random_effects gs beta gamma = Ok (List.map (blup beta gamma) gs).
Proof.
  rewrite /lme_random_effects recalculate_ok /=; last exact: adm.
  apply: sequence_map_In => g hin; apply: group_effects_ok => //; exact: hv.
Qed.

(** ** hat matrix *)
Definition hrow g : hat_row p q :=
  @HatRow _ _ (fac gamma g) (g_z g *m (diagv gamma *m (g_z g)^T *m invmx (Omega gamma g))).
Lemma hat_rows_ok : normal_matrix gs gamma \in unitmx ->
  hat_rows gs gamma = Ok (invmx (normal_matrix gs gamma), List.map hrow gs).
Proof.
  move=> u; rewrite /hat_rows recalculate_ok /=; last exact: adm.
  have -> : \sum_(f <- List.map (fac gamma) gs) group_kernel f = normal_matrix gs gamma.
    by rewrite big_lmap; apply: eq_big_In => g /adm h; rewrite kernel_fac.
  rewrite /np_inv u /= List.map_map (sequence_map_In (h := hrow)) // => g hin /=.
  by rewrite hat_diagonal_ok //; exact: hv.
Qed.

Lemma h_beta_fac (ki : 'M[R]_p) g g' : pd (Omega gamma g') ->
  hat_h_beta ki (fac gamma g) (fac gamma g') = g_x g *m (ki *m ((g_x g')^T *m invmx (Omega gamma g'))).
Proof.
  move=> h; rewrite /hat_h_beta; congr (_ *m (_ *m _)); rewrite -(fac_gram h).
  by rewrite trmx_mul mulmxA.
Qed.

Lemma h_beta_sum (ki : 'M[R]_p) g :
  \sum_(g' <- gs) hat_h_beta ki (fac gamma g) (fac gamma g') *m g_y g' = g_x g *m (ki *m tail gs gamma).
Proof.
  rewrite /tail !mulmx_sumr; apply: eq_big_In => g' /adm h.
  by rewrite h_beta_fac // !mulmxA.
Qed.

Lemma hat_times_ok g : normal_matrix gs gamma \in unitmx ->
  let b := invmx (normal_matrix gs gamma) *m tail gs gamma in
  hat_times (invmx (normal_matrix gs gamma)) (List.map hrow gs) (fun f => g_y (f_g f)) (hrow g)
  = g_x g *m b + g_z g *m blup b gamma g.
Proof.
  move=> u b; rewrite /hat_times big_lmap /hat_block /=.
  set ki := invmx _; set H := g_z g *m _.
  have -> : \sum_(g0 <- gs) (hat_h_beta ki (fac gamma g) (fac gamma g0)
             - H *m hat_h_beta ki (fac gamma g) (fac gamma g0)) *m g_y g0
    = g_x g *m b - H *m (g_x g *m b).
    rewrite (eq_bigr (fun g0 => hat_h_beta ki (fac gamma g) (fac gamma g0) *m g_y g0
       - H *m (hat_h_beta ki (fac gamma g) (fac gamma g0) *m g_y g0))); last first.
      by move=> g0 _; rewrite mulmxBl -(mulmxA H).
    by rewrite sumrB -mulmx_sumr h_beta_sum.
  rewrite /blup /resid /H -addrA; congr (_ + _).
  by rewrite -/(diagv gamma) !mulmxBr -!mulmxA addrC.
Qed.

(** without random effects the degrees of freedom are the number of fixed effects *)
Lemma ddf_zero : gamma = 0 -> normal_matrix gs gamma \in unitmx -> lme_ddf gs gamma = Ok (INR p).
Proof.
  move=> g0 u; rewrite /lme_ddf hat_rows_ok //=; congr Ok; rewrite big_lmap.
  have d0 : diagv gamma = 0 by rewrite g0 /diagv; apply/matrixP => i j; rewrite !mxE mul0rn.
  rewrite (eq_big_In (G := fun g => \tr (invmx (normal_matrix gs gamma) *m ((g_x g)^T *m invmx (Omega gamma g) *m g_x g)))).
    rewrite -raddf_sum /= -mulmx_sumr -/(normal_matrix gs gamma) mulVmx // mxtrace1.
    exact: natR.
  move=> g /adm h; rewrite /hat_block /= d0 !mul0mx !mulmx0 mul0mx subr0.
  by rewrite [X in (_ + X)%coqR]raddf0 h_beta_fac // mxtrace_mulC !mulmxA Rplus_0_r.
Qed.
End Effects.

(** ** effective sample size *)
Notation corr := correlations (only parsing).
Lemma qf_delta n (A : 'M[R]_n) i : qf A (delta_mx i ord0) = A i i.
Proof.
  rewrite /qf /sc; have -> : (delta_mx i ord0 : 'cV[R]_n)^T = delta_mx ord0 i by exact: trmx_delta.
  by rewrite -rowE -colE !mxE.
Qed.
Lemma pd_diag n (A : 'M[R]_n) i : pd A -> (0 < A i i)%coqR.
Proof.
  move=> [_ h]; have := h (delta_mx i ord0) _; rewrite qf_delta.
  apply=> e; have : (delta_mx i ord0 : 'cV[R]_n) i ord0 = 0 by rewrite e mxE.
  by rewrite mxE !eqxx => /eqP; rewrite oner_eq0.
Qed.
Lemma corr_pd n (A : 'M[R]_n) : pd A -> pd (corr A).
Proof.
  move=> h; pose d : 'cV[R]_n := \col_i (/ sqrt (A i i))%coqR.
  have d0 i : (0 < sqrt (A i i))%coqR by apply: sqrt_lt_R0; exact: pd_diag.
  have e : corr A = diagv d *m A *m diagv d.
    apply/matrixP => i j; rewrite mulmx_diagv mul_diagv !mxE; toR; field.
    by have := d0 i; have := d0 j; lra.
  apply: psd_unit_pd.
    by rewrite e -{2}(diagv_tr d); apply: psd_congr; exact: pd_psd.
  have ud : diagv d \in unitmx.
    by apply: pd_unit; apply: pd_diagv => i; rewrite mxE; exact: Rinv_0_lt_compat.
  by rewrite e !unitmx_mul ud pd_unit.
Qed.
Lemma corr_diag n (A : 'M[R]_n) i : pd A -> corr A i i = 1%coqR.
Proof.
  move=> h; rewrite mxE; have := pd_diag i h => h0.
  rewrite sqrt_sqrt; last lra.
  by rewrite /Rdiv Rinv_r //; lra.
Qed.
Lemma sum_entries n (A : 'M[R]_n) : \sum_i \sum_j A i j = qf A (const_mx 1).
Proof.
  rewrite /qf /sc -mulmxA mxE; apply: eq_bigr => i _.
  by rewrite !mxE mul1r; apply: eq_bigr => j _; rewrite mxE mulr1.
Qed.

Lemma demarginalized_ok (gs : seq (group p q)) pr beta gamma : blup_variances gamma -> positive_variances gs ->
  lme_demarginalized_loss gs pr beta gamma =
    Ok (\sum_(g <- gs) conditional_nll beta (blup beta gamma g) g + prior_loss pr beta gamma)%coqR.
Proof.
  move=> hg hv; rewrite /lme_demarginalized_loss random_effects_ok //=; congr (Ok (_ + _)%coqR).
  elim: gs {hv} => [|g gs IH]; first by rewrite !big_nil.
  rewrite /= !big_cons IH; congr (_ + _).
  by rewrite /group_conditional /conditional_nll /resid big_split /= -!big_distrr.
Qed.
Lemma group_n_eff_ok gamma g : pd (Omega gamma g) ->
  group_n_eff (fac gamma g) = Ok (qf (invmx (corr (Omega gamma g))) (const_mx 1%coqR)).
Proof.
  move=> h; rewrite /group_n_eff; have [_ e _ _] := chol_spec h.
  have -> : f_el (fac gamma g) *m (f_el (fac gamma g))^T = Omega gamma g by exact: e.
  by rewrite -/(correlations _) /np_inv (pd_unit (corr_pd h)) /= sum_entries.
Qed.
Lemma group_n_eff_ge gamma g : pd (Omega gamma g) -> (0 < g_n g)%N ->
  (1 <= qf (invmx (corr (Omega gamma g))) (const_mx 1%coqR))%coqR.
Proof.
  move=> h n0; have i : 'I_(g_n g) by exact: (Ordinal n0).
  have := pd_cauchy (const_mx 1%coqR) (delta_mx i ord0) (corr_pd h).
  have -> : qf (corr (Omega gamma g)) (delta_mx i ord0) = 1%coqR.
    by rewrite qf_delta; exact: corr_diag.
  have -> : sc ((const_mx 1%coqR)^T *m delta_mx i ord0) = 1%coqR.
    by rewrite /sc -colE !mxE.
  by rewrite -qf_bf; lra.
Qed.
Lemma n_eff_ok gs gamma : admissible gs gamma ->
  n_eff (List.map (fac gamma) gs) = Ok (effective_obs gs gamma).
Proof.
  move=> h; rewrite /n_eff List.map_map.
  rewrite (sequence_map_In (h := fun g => qf (invmx (corr (Omega gamma g))) (const_mx 1%coqR))) /=.
    by rewrite /effective_obs big_lmap.
  by move=> g hin; apply: group_n_eff_ok; exact: h.
Qed.
Lemma effective_ge gs gamma : admissible gs gamma -> (forall g, List.In g gs -> (0 < g_n g)%N) ->
  (INR (size gs) <= effective_obs gs gamma)%coqR.
Proof.
  rewrite /effective_obs; elim: gs => [|g gs IH] h n0.
    by rewrite big_nil; exact: Rle_refl.
  rewrite big_cons -/(INR (size gs).+1) S_INR.
  have gen (a b c : R) : (a <= b -> 1 <= c -> a + 1 <= c + b)%coqR by lra.
  apply: gen; first by apply: IH => g' hin; [apply: h | apply: n0]; right.
  by apply: group_n_eff_ge; [apply: h | apply: n0]; left.
Qed.
Lemma n_eff_zero gs gamma : gamma = 0 -> positive_variances gs ->
  n_eff (List.map (fac gamma) gs) = Ok (INR (total_obs gs)).
Proof.
  move=> g0 hv.
  have h : admissible gs gamma.
    by apply: admissible_nonneg => // j; rewrite g0 mxE; exact: Rle_refl.
  rewrite /n_eff List.map_map (sequence_map_In (h := fun g => INR (g_n g))) /=.
    congr Ok; rewrite big_lmap /total_obs; elim: {h hv} gs => [|g gs IH]; first by rewrite !big_nil.
    by rewrite !big_cons IH plus_INR.
  move=> g hin; rewrite /group_n_eff; have hg := h g hin; have [_ e _ _] := chol_spec hg.
  have -> : f_el (fac gamma g) *m (f_el (fac gamma g))^T = Omega gamma g by exact: e.
  rewrite -/(correlations _).
  have -> : corr (Omega gamma g) = 1%:M.
    have eO : Omega gamma g = diagv (g_v g).
      rewrite /Omega -/(diagv gamma) -/(diagv (g_v g)).
      have -> : diagv gamma = 0 by rewrite g0 /diagv; apply/matrixP => i j; rewrite !mxE mul0rn.
      by rewrite mulmx0 mul0mx add0r.
    apply/matrixP => i j; case: (i =P j) => [->|ij]; first by rewrite corr_diag // mxE eqxx.
    rewrite [LHS]mxE [in RHS]mxE eO !diagvE; move/eqP/negbTE: ij => ->.
    by rewrite /= /Rdiv Rmult_0_l.
  rewrite /np_inv unitmx1 invmx1 /=; congr Ok.
  rewrite (eq_bigr (fun=> 1)); last first.
    move=> i _; rewrite (bigD1 i) //= !mxE eqxx big1 ?addr0 // => j /negbTE.
    by rewrite !mxE eq_sym => ->.
  by rewrite sumr_const card_ord; exact: natR.
Qed.

(** ** semidefinite Hessians *)
Lemma psdZ n a (A : 'M[R]_n) : (0 <= a)%coqR -> psd A -> psd (a *: A).
Proof.
  move=> ha [s h]; split; first by rewrite linearZ /= s.
  by move=> x; rewrite qfZ; apply: Rmult_le_pos.
Qed.
Lemma gauss_hess_psd n (c : gauss_cols n) : (forall i, 0 < stds_of c i ord0 /\ 0 <= weights_of c i ord0)%coqR -> psd (gauss_hess c).
Proof.
  case: c => [m s w|m s w] /= h; last first.
    case: n h => [|n] h; first by split=> [|x]; [apply/matrixP => -[] | rewrite /qf !flatmx0 trmx0 !mul0mx; rewrite /sc mxE; exact: Rle_refl].
    have [h1 h2] := h ord0; rewrite !mxE in h1 h2.
    have -> : (const_mx (w * / s)%coqR : 'M[R]_n.+1) = (w * / s)%coqR *: ((const_mx 1 : 'rV[R]_n.+1)^T *m (const_mx 1 : 'rV[R]_n.+1)).
      by apply/matrixP => i j; rewrite !mxE big_ord1 !mxE; toR; ring.
    apply: psdZ; last exact: psd_gram.
    by apply: Rmult_le_pos => //; have := Rinv_0_lt_compat _ h1; lra.
  apply: psd_diagv => i; rewrite mxE; have [h1 h2] := h i.
  by apply: Rmult_le_pos => //; have := Rinv_0_lt_compat _ h1; lra.
Qed.
Lemma group_hessian_psd positive expected beta (f : fgroup p q) : positive || expected ->
  psd (group_hessian_gamma positive expected beta f).
Proof.
  rewrite /group_hessian_gamma; set B := f_inv f *m g_z _; set r := f_inv f *m residual _ _.
  have gm : psd (B^T *m B) by exact: psd_gram.
  case: positive => /=.
    move=> _; pose w : 'cV[R]_q := B^T *m r.
    have -> : \matrix_(i, j) (2 * (B^T *m r *m r^T *m B) i j * (B^T *m B) i j)%coqR
      = (1 + 1)%coqR *: (diagv w *m (B^T *m B) *m (diagv w)^T).
      apply/matrixP => i j; rewrite [LHS]mxE [RHS]mxE diagv_tr mulmx_diagv mul_diagv.
      have -> : B^T *m r *m r^T *m B = w *m w^T by rewrite /w (trmx_mul B^T r) trmxK !mulmxA.
      rewrite [(w *m w^T) i j]mxE big_ord1 [w^T _ _]mxE.
      move: (w i ord0) (w j ord0) ((B^T *m B) i j) => a b c.
      by toR; ring.
    by apply: psdZ; [lra | exact: psd_congr].
  move=> ->.
  have -> : \matrix_(i, j) ((B^T *m B) i j ^ 2)%coqR
    = \sum_k (diagv (row k B)^T *m (B^T *m B) *m (diagv (row k B)^T)^T).
    apply/matrixP => i j; rewrite [LHS]mxE summxE.
    rewrite (eq_bigr (fun k => (B^T *m B) i j * (B^T i k * B k j))); last first.
      move=> k _; rewrite diagv_tr mulmx_diagv mul_diagv !mxE; toR; ring.
    rewrite -mulr_sumr; have -> : \sum_k B^T i k * B k j = (B^T *m B) i j by rewrite [RHS]mxE.
    by toR; ring.
  by apply: sum_psd => k _; exact: psd_congr.
Qed.
Lemma hessian_gamma_psd gs pr positive expected beta gamma : admissible gs gamma -> positive || expected ->
  convex_prior pr -> exists H, lme_hessian_gamma gs pr positive expected beta gamma = Ok H /\ psd H.
Proof.
  move=> h hb hp; rewrite /lme_hessian_gamma recalculate_ok //=; eexists; split; first by [].
  apply: psd_add.
    by apply: psdZ; [lra | apply: sum_psd => f _; exact: group_hessian_psd].
  case: pr hp => [_|b g [_ hg]] /=; [exact: psd0 | exact: gauss_hess_psd].
Qed.
Lemma hessian_beta_psd gs pr gamma : admissible gs gamma -> convex_prior pr ->
  exists H, lme_hessian_beta gs pr gamma = Ok H /\ psd H.
Proof.
  move=> h hp; rewrite /lme_hessian_beta recalculate_ok //=; eexists; split; first by [].
  apply: psd_add; first by apply: sum_psd => f _; exact: psd_gram.
  case: pr hp => [_|b g [hb _]] /=; [exact: psd0 | exact: gauss_hess_psd].
Qed.

(** ** covariance of the fixed effects and sign flips *)
Lemma covariance_beta_ok gs pr gamma H : admissible gs gamma -> convex_prior pr ->
  lme_hessian_beta gs pr gamma = Ok H -> H \in unitmx ->
  lme_covariance_beta gs pr gamma = Ok (invmx H) /\ pd (invmx H).
Proof.
  move=> h hp e u; rewrite /lme_covariance_beta e /= /np_inv u; split=> //.
  apply: pd_inv; apply: psd_unit_pd => //.
  by have [H' [e' h']] := hessian_beta_psd h hp; move: e'; rewrite e => -[->].
Qed.
End Criteria.
