(*HEAD
(** Property C38: what the mixed-model oracle keeps between evaluations (src/pysr3/lme/oracles.py). *)
From Verif.Base Require Import Py Vec RMx.
From mathcomp Require Import ssreflect ssrfun ssrbool eqtype ssrnat choice seq fintype
  finfun bigop finset ssralg matrix mxalgebra.
From Verif.Model Require Import LmeOracle LmeCache.
From Verif.Spec Require Import MxSpec CacheSpec.
HEAD*)
From Coq Require Import Reals Lra.
From Verif.Base Require Import Py Vec RMx.
From Verif.Proofs Require Import VecFacts.
From mathcomp Require Import ssreflect ssrfun ssrbool eqtype ssrnat choice seq fintype
  finfun bigop finset ssralg matrix mxalgebra.
From Verif.Model Require Import LmeOracle LmeCache.
From Verif.Spec Require Import MxSpec CacheSpec.
From Verif.Proofs Require Import MxFacts LmeOracleProofs LmeOracleMain CacheProofs.
Set Implicit Arguments.
Unset Strict Implicit.
Unset Printing Implicit Defensive.
Import GRing.Theory.
(*OPEN
Set Implicit Arguments.
Unset Strict Implicit.
Unset Printing Implicit Defensive.
Local Open Scope ring_scope.
OPEN*)
Local Open Scope ring_scope.
Local Open Scope res_scope.

(*@ C38 (partial).  After an orderly history every evaluation, successful or not, is what factorising afresh
    gives; whatever the loop over the groups computes from the factors. *)
Lemma cache_orderly_partial_lemma :
  forall A pr0 m es m' c' l pr (body : forall pr : attached, seq (fgroup (at_p pr) (at_q pr)) -> res A),
  orderly m pr0 [::] es -> after m (new_oracle pr0) es = (m', c') ->
  c_problem c' = Some pr -> length (m' l) = at_q pr ->
  (evaluate m' c' l body).2 = evaluated_afresh pr (m' l) body.
Proof.
  move=> A pr0 m es m' c' l pr body ho ha hp hl; apply: evaluate_sound => //.
  have e : c_problem (new_oracle pr0) = pr0 by case: (pr0).
  have e' : c_gamma (new_oracle pr0) = None by case: (pr0).
  apply: (@orderly_sound es m (new_oracle pr0) [::]) ha => //; first by rewrite e.
  - by rewrite /sound e'.
  - by rewrite e'.
Qed.

Lemma sequence_groups p q gamma (gs : seq (group p q)) fs (A : Type) (k : group p q -> res A) :
  recalculate gs gamma = Ok fs -> sequence (List.map (fun f => k (f_g f)) fs) = sequence (List.map k gs).
Proof.
  rewrite /recalculate; elim: gs fs => [|g gs IH] fs /=; first by move=> [<-].
  case E: (factor gamma g) => [f|e] //=; case E': (sequence _) => [fs'|e] //= [<-] /=.
  by rewrite (factor_group E) (IH _ E').
Qed.

(*@ C38 (partial).  So the loss, the gradients, the optimal coefficients and the random effects are those of the
    problem and the variances at hand. *)
Lemma cached_evaluations_partial_lemma :
  forall (prior : forall pr : attached, lme_prior (at_p pr) (at_q pr)) (beta : forall pr : attached, 'cV[R]_(at_p pr))
    pr0 m es m' c' l pr,
  orderly m pr0 [::] es -> after m (new_oracle pr0) es = (m', c') ->
  c_problem c' = Some pr -> length (m' l) = at_q pr ->
  let gs := at_groups pr in let gamma := variances pr (m' l) in
  (cached_loss prior beta m' c' l).2 = lme_loss gs (prior pr) (beta pr) gamma /\
  (cached_gradient_gamma prior beta m' c' l).2 =
    rmap (existT (fun q => 'cV[R]_q) (at_q pr)) (lme_gradient_gamma gs (prior pr) (beta pr) gamma) /\
  (cached_gradient_beta prior beta m' c' l).2 =
    rmap (existT (fun p => 'cV[R]_p) (at_p pr)) (lme_gradient_beta gs (prior pr) (beta pr) gamma) /\
  (cached_optimal_beta m' c' l).2 =
    rmap (existT (fun p => 'cV[R]_p) (at_p pr)) (lme_optimal_beta gs gamma) /\
  (cached_random_effects beta m' c' l).2 =
    rmap (existT (fun q => seq 'cV[R]_q) (at_q pr)) (lme_random_effects gs (beta pr) gamma).
Proof.
  move=> prior beta pr0 m es m' c' l pr ho ha hp hl gs gamma.
  do 4?split; rewrite (cache_orderly_partial_lemma _ ho ha hp hl) /evaluated_afresh -/gs -/gamma.
  - by [].
  - by rewrite /lme_gradient_gamma; case: (recalculate _ _).
  - by rewrite /lme_gradient_beta; case: (recalculate _ _).
  - by rewrite /lme_optimal_beta /kernel_tail; case: (recalculate _ _).
  - rewrite /lme_random_effects; case E: (recalculate _ _) => [fs|e] //=.
    by rewrite (sequence_groups (group_effects (beta pr) gamma) E).
Qed.

(*@ C38 (partial).  After any history at all, an evaluation is right when its array does not hold the same
    values as the array of the last factorisation, or when there are no random effects; and also after forget
    followed by instantiate. *)
Lemma cache_repaired_partial_lemma :
  (forall A m c es m' c' l pr (body : forall pr : attached, seq (fgroup (at_p pr) (at_q pr)) -> res A),
   after m c es = (m', c') -> c_problem c' = Some pr -> length (m' l) = at_q pr ->
   (forall h, c_gamma c' = Some h -> length (m' h) = at_q pr /\ (at_q pr = 0%N \/ m' h <> m' l)) ->
   (evaluate m' c' l body).2 = evaluated_afresh pr (m' l) body) /\
  (forall A m c es pr m' c' l (body : forall pr : attached, seq (fgroup (at_p pr) (at_q pr)) -> res A),
   after m c (es ++ [:: Forget; Instantiate pr]) = (m', c') -> length (m' l) = at_q pr ->
   c' = new_oracle (Some pr) /\ (evaluate m' c' l body).2 = evaluated_afresh pr (m' l) body).
Proof.
  split.
  - move=> A m c es m' c' l pr body _ hp hl hh; apply: evaluate_new => //.
      by move=> h /hh [].
    case: (Nat.eq_dec (at_q pr) 0) => [e|n]; first by left; rewrite hl.
    by right=> h /hh [_ [|]].
  - move=> A m c es pr m' c' l body; rewrite /after List.fold_left_app /=.
    case: (List.fold_left _ _ _) => [m1 c1] /= [<- <-] hl; split=> //.
    by apply: evaluate_new => //; right.
Qed.

Lemma at_one_1 : at_one sample_one = 1%coqR%:M /\ at_one sample_other = 1%coqR%:M /\ at_one sample_two = 1%coqR%:M.
Proof. by repeat split; apply/matrixP => i j; rewrite !mxE !ord1 eqxx. Qed.
Lemma variance_1 (a : R) : \col_(i < 1) List.nth i [:: a] 0%coqR = a%:M.
Proof. by apply/matrixP => i j; rewrite !mxE !ord1 eqxx. Qed.


Lemma exact_loss (z c : R) : (0 < z * c * z + 1)%coqR ->
  group_loss (1%coqR%:M : 'cV[R]_1) (fac (c%:M : 'cV[R]_1) (one_obs 1 1 z 1)) = (/ 2 * ln (z * c * z + 1))%coqR.
Proof.
  move=> h; rewrite group_loss_fac; last by rewrite Omega_one; exact: scalar_pos.
  by rewrite nll_one //; toR; field; lra.
Qed.
Lemma one_adm (z c : R) gs : (0 < z * c * z + 1)%coqR -> admissible gs (c%:M : 'cV[R]_1) ->
  admissible (one_obs 1 1 z 1 :: gs) (c%:M : 'cV[R]_1).
Proof. by move=> h ha g [<-|/ha] //; rewrite Omega_one; exact: scalar_pos. Qed.
Lemma none_adm (c : R) : admissible ([::] : seq (group 1 1)) (c%:M : 'cV[R]_1).
Proof. by []. Qed.

Lemma first_refresh m pr l : length (m l) = at_q pr -> admissible (at_groups pr) (variances pr (m l)) ->
  refresh m (new_oracle (Some pr)) l =
  (Cache (Some pr) (Some l) (map (@to_kept _ _) (List.map (fac (variances pr (m l))) (at_groups pr))), Ok tt).
Proof.
  move=> hl ha; have := @refresh_new m (new_oracle (Some pr)) l pr erefl hl.
  by rewrite (recalculate_ok ha); apply=> //; right.
Qed.
Lemma same_refresh m c l h : c_gamma c = Some h -> m h = m l -> length (m l) <> 0%N -> refresh m c l = (c, Ok tt).
Proof.
  move=> hg e hn; rewrite /refresh hg; cbn [option_map]; have [d [Hd1 Hd2]] := @any_differs_same (m h) (m l) (f_equal _ e).
  rewrite Hd1 (proj2 Hd2 e) /=; case E: (Nat.eqb _ _) => //.
  by move/Nat.eqb_eq: E.
Qed.
Lemma stale_loss (z z' c : R) : (0 < z * c * z + 1)%coqR ->
  (let! fs := zip_kept [:: one_obs 1 1 z' 1] [:: to_kept (fac (c%:M : 'cV[R]_1) (one_obs 1 1 z 1))] in
   Ok (\sum_(f <- fs) group_loss (1%coqR%:M : 'cV[R]_1) f + 0)%coqR) = Ok (/ 2 * ln (z * c * z + 1))%coqR.
Proof.
  move=> h; rewrite -(exact_loss h) /= /pair_up /=; case: eqP => // e /=; rewrite !castmx_id big_cons big_nil.
  by congr Ok; rewrite -[RHS]Rplus_0_r; congr (_ + _)%coqR; rewrite -[RHS]addr0.
Qed.

(*@ C38 (refuted).  A failed evaluation leaves the factors of the groups before the failure: evaluating again at
    the array used before it counts only these groups.  After instantiate on another problem, and after a store
    to the array, the old factors are used. *)
Lemma cache_refuted_lemma :
  (let s := after sample_memory (new_oracle (Some sample_two)) [:: Evaluate 0; Evaluate 1] in
   (cached_loss no_prior at_one s.1 s.2 0).2 = Ok 0%coqR /\
   lme_loss (at_groups sample_two) LNone (at_one sample_two) (variances sample_two (s.1 0%N)) = Ok (/ 2 * ln 2)%coqR) /\
  (let s := after sample_memory (new_oracle (Some sample_one)) [:: Evaluate 0; Instantiate sample_other] in
   (cached_loss no_prior at_one s.1 s.2 0).2 = Ok (/ 2 * ln 2)%coqR /\
   lme_loss (at_groups sample_other) LNone (at_one sample_other) (variances sample_other (s.1 0%N)) = Ok (/ 2 * ln 5)%coqR) /\
  (let s := after sample_memory (new_oracle (Some sample_one)) [:: Evaluate 0; Store 0 [:: 3%coqR]] in
   (cached_loss no_prior at_one s.1 s.2 0).2 = Ok (/ 2 * ln 2)%coqR /\
   lme_loss (at_groups sample_one) LNone (at_one sample_one) (variances sample_one (s.1 0%N)) = Ok (/ 2 * ln 4)%coqR) /\
  (0 < / 2 * ln 2 < / 2 * ln 4)%coqR /\ (/ 2 * ln 4 < / 2 * ln 5)%coqR.
Proof.
  have l2 : (0 < ln 2)%coqR by rewrite -ln_1; apply: ln_increasing; lra.
  have l4 : (ln 2 < ln 4)%coqR by apply: ln_increasing; lra.
  have l5 : (ln 4 < ln 5)%coqR by apply: ln_increasing; lra.
  have [b1 [b2 b3]] := at_one_1.
  have h0 : (0 < 0 * 1 * 0 + 1)%coqR by lra.
  have h1 : (0 < 1 * 1 * 1 + 1)%coqR by lra.
  have h2 : (0 < 2 * 1 * 2 + 1)%coqR by lra.
  have h3 : (0 < 1 * 3 * 1 + 1)%coqR by lra.
  have e0 : (0 * 1 * 0 + 1 = 1)%coqR by lra.
  have e1 : (1 * 1 * 1 + 1 = 2)%coqR by lra.
  have e2 : (2 * 1 * 2 + 1 = 5)%coqR by lra.
  have e3 : (1 * 3 * 1 + 1 = 4)%coqR by lra.
  have fresh z c (h : (0 < z * c * z + 1)%coqR) :
    lme_loss [:: one_obs 1 1 z 1] LNone (1%coqR%:M : 'cV[R]_1) (c%:M : 'cV[R]_1) = Ok (/ 2 * ln (z * c * z + 1))%coqR.
  { rewrite /lme_loss (recalculate_ok (one_adm h (@none_adm c))) /= big_cons big_nil exact_loss //.
    by congr Ok; toR; ring. }
  split; last split; last split; last by lra.
  - have ha : admissible (at_groups sample_two) (variances sample_two (sample_memory 0%N)).
      by rewrite /variances variance_1; do 2!apply: one_adm => //.
    have R1 := @first_refresh sample_memory sample_two 0 erefl ha.
    rewrite /after; cbn [List.fold_left happen]; rewrite R1; cbn [fst].
    set c1 := Cache _ _ _.
    have D : forall h, c_gamma c1 = Some h -> sample_memory h <> sample_memory 1%N.
      by move=> h [<-] [e]; lra.
    have K0 : keep [:: (-5)%coqR] (one_obs 1 1 0 1) = Ok (to_kept (fac ((-5)%coqR%:M : 'cV[R]_1) (one_obs 1 1 0 1))).
    { rewrite keep_factor // variance_1.
      have hp : pd (Omega ((-5)%coqR%:M : 'cV[R]_1) (one_obs 1 1 0 1)) by rewrite Omega_one; apply: scalar_pos; lra.
      by rewrite /factor omega_ofE; have [-> _ _ _] := chol_spec hp. }
    have K1 : keep [:: (-5)%coqR] (one_obs 1 1 1 1) = Err LinAlgError.
    { rewrite keep_factor // variance_1 /factor omega_ofE Omega_one.
      cbn [cholesky g_n one_obs]; case: rltbP => //.
      rewrite !mxE /= => h; exfalso; move: h; rewrite mulr1n; lra. }
    have KA : keep_all (sample_memory 1%N) (at_groups sample_two) =
      ([:: to_kept (fac ((-5)%coqR%:M : 'cV[R]_1) (one_obs 1 1 0 1))], Err LinAlgError).
      by cbn [keep_all at_groups sample_two sample_memory at_p at_q]; rewrite K0 K1.
    have R2 : refresh sample_memory c1 1 =
      (Cache (Some sample_two) (Some 0%N) [:: to_kept (fac ((-5)%coqR%:M : 'cV[R]_1) (one_obs 1 1 0 1))], Err LinAlgError).
    { have [d [Hd1 Hd2]] := @any_differs_same (sample_memory 0%N) (sample_memory 1%N) erefl.
      rewrite /refresh /c1; cbn [c_gamma option_map c_problem]; rewrite Hd1.
      have -> : d = true by case: (d) Hd2 => // Hd2; case: (D 0%N erefl); exact/Hd2.
      by cbn [orb]; rewrite KA. }
    rewrite R2; cbn [fst]; split.
    + rewrite /cached_loss /evaluate (@same_refresh _ _ 0 0) //.
      cbn [c_problem c_kept at_groups sample_two snd].
      have h5 : (0 < 0 * -5 * 0 + 1)%coqR by lra.
      have e5 : (/ 2 * ln (0 * -5 * 0 + 1) = 0)%coqR.
      { have -> : (0 * -5 * 0 + 1 = 1)%coqR by lra.
        by rewrite ln_1; lra. }
      by rewrite b3; have := @stale_loss 0 0 (-5) h5; rewrite e5.
    + rewrite b3 /variances variance_1.
      rewrite /lme_loss (recalculate_ok (one_adm h0 (one_adm h1 (@none_adm 1)))) /= !big_cons big_nil !exact_loss // e0 e1 ln_1.
      by congr Ok; toR; ring.
  - have ha : admissible (at_groups sample_one) (variances sample_one (sample_memory 0%N)).
      by rewrite /variances variance_1; apply: one_adm => //.
    have R1 := @first_refresh sample_memory sample_one 0 erefl ha.
    rewrite /after; cbn [List.fold_left happen]; rewrite R1; cbn [fst]; split.
    + rewrite /cached_loss /evaluate (@same_refresh _ _ 0 0) //.
      cbn [attach c_problem c_kept at_groups sample_other sample_one snd List.map map].
      by rewrite /variances variance_1 b2; have := @stale_loss 1 2 1 h1; rewrite e1.
    + by rewrite b2 /variances variance_1; have := fresh _ _ h2; rewrite e2.
  - have ha : admissible (at_groups sample_one) (variances sample_one (sample_memory 0%N)).
      by rewrite /variances variance_1; apply: one_adm => //.
    have R1 := @first_refresh sample_memory sample_one 0 erefl ha.
    rewrite /after; cbn [List.fold_left happen]; rewrite R1; cbn [fst]; split.
    + rewrite /cached_loss /evaluate (@same_refresh _ _ 0 0) //.
      cbn [attach c_problem c_kept at_groups sample_one snd List.map map].
      by rewrite /variances variance_1 b1; have := @stale_loss 1 1 1 h1; rewrite e1.
    + by rewrite b1 /variances /store /= variance_1; have := fresh _ _ h3; rewrite e3.
Qed.

(*@ an orderly history that evaluates twice, writes to an unused array, forgets and attaches another problem *)
Lemma ex_cache_orderly_lemma :
  orderly sample_memory (Some sample_one) [::]
    [:: Evaluate 0; Store 5 [:: 7%coqR]; Evaluate 2; Forget; Store 0 [:: 2%coqR]; Instantiate sample_two; Evaluate 0].
Proof.
  have pos1 c : (0 < c)%coqR -> admissible [:: one_obs 1 1 1 1] (c%:M : 'cV[R]_1).
    by move=> h; apply: one_adm => //; lra.
  cbn [orderly]; split; [|split; [|split; [|split; [|split; [|split]]]]].
  - by exists sample_one; split=> //; split=> //; rewrite /variances variance_1; apply: pos1; lra.
  - by case.
  - by exists sample_one; split=> //; split=> //; rewrite /variances variance_1; apply: pos1; lra.
  - by case.
  - by [].
  - exists sample_two; split=> //; split=> //; rewrite /variances /store /= variance_1.
    by apply: one_adm; [lra|apply: pos1; lra].
  - by [].
Qed.
