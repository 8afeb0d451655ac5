(** Property C38: what the mixed-model oracle keeps between evaluations (src/pysr3/lme/oracles.py). *)
From Verif.Base Require Import Py Vec RMx.
From mathcomp Require Import ssreflect ssrfun ssrbool eqtype ssrnat choice seq fintype
  finfun bigop finset ssralg matrix mxalgebra.
From Verif.Model Require Import LmeOracle LmeCache.
From Verif.Spec Require Import MxSpec CacheSpec.
From Verif.Proofs Require Import LmeCacheMain.

Set Implicit Arguments.
Unset Strict Implicit.
Unset Printing Implicit Defensive.
Local Open Scope ring_scope.

(** C38 (partial).  After an orderly history every evaluation, successful or not, is what factorising afresh
    gives; whatever the loop over the groups computes from the factors. *)
Theorem cache_orderly_partial :
  forall A pr0 m es m' c' l pr (body : forall pr : attached, seq (fgroup (at_p pr) (at_q pr)) -> res A),
  orderly m pr0 [::] es -> after m (new_oracle pr0) es = (m', c') ->
  c_problem c' = Some pr -> length (m' l) = at_q pr ->
  (evaluate m' c' l body).2 = evaluated_afresh pr (m' l) body.
Proof. exact cache_orderly_partial_lemma. Qed.
Print Assumptions cache_orderly_partial.

(** C38 (partial).  So the loss, the gradients, the optimal coefficients and the random effects are those of the
    problem and the variances at hand. *)
Theorem cached_evaluations_partial :
  forall (prior : forall pr : attached, lme_prior (at_p pr) (at_q pr)) (beta : forall pr : attached, 'cV[R]_(at_p pr))
    pr0 m es m' c' l pr,
  orderly m pr0 [::] es -> after m (new_oracle pr0) es = (m', c') ->
  c_problem c' = Some pr -> length (m' l) = at_q pr ->
  let gs := at_groups pr in let gamma := variances pr (m' l) in
  (cached_loss prior beta m' c' l).2 = lme_loss gs (prior pr) (beta pr) gamma /\
  (cached_gradient_gamma prior beta m' c' l).2 =
    rmap (existT (fun q => 'cV[R]_q) (at_q pr)) (lme_gradient_gamma gs (prior pr) (beta pr) gamma) /\
  (cached_gradient_beta prior beta m' c' l).2 =
    rmap (existT (fun p => 'cV[R]_p) (at_p pr)) (lme_gradient_beta gs (prior pr) (beta pr) gamma) /\
  (cached_optimal_beta m' c' l).2 =
    rmap (existT (fun p => 'cV[R]_p) (at_p pr)) (lme_optimal_beta gs gamma) /\
  (cached_random_effects beta m' c' l).2 =
    rmap (existT (fun q => seq 'cV[R]_q) (at_q pr)) (lme_random_effects gs (beta pr) gamma).
Proof. exact cached_evaluations_partial_lemma. Qed.
Print Assumptions cached_evaluations_partial.

(** C38 (partial).  After any history at all, an evaluation is right when its array does not hold the same
    values as the array of the last factorisation, or when there are no random effects; and also after forget
    followed by instantiate. *)
Theorem cache_repaired_partial :
  (forall A m c es m' c' l pr (body : forall pr : attached, seq (fgroup (at_p pr) (at_q pr)) -> res A),
   after m c es = (m', c') -> c_problem c' = Some pr -> length (m' l) = at_q pr ->
   (forall h, c_gamma c' = Some h -> length (m' h) = at_q pr /\ (at_q pr = 0%N \/ m' h <> m' l)) ->
   (evaluate m' c' l body).2 = evaluated_afresh pr (m' l) body) /\
  (forall A m c es pr m' c' l (body : forall pr : attached, seq (fgroup (at_p pr) (at_q pr)) -> res A),
   after m c (es ++ [:: Forget; Instantiate pr]) = (m', c') -> length (m' l) = at_q pr ->
   c' = new_oracle (Some pr) /\ (evaluate m' c' l body).2 = evaluated_afresh pr (m' l) body).
Proof. exact cache_repaired_partial_lemma. Qed.
Print Assumptions cache_repaired_partial.

(** C38 (refuted).  A failed evaluation leaves the factors of the groups before the failure: evaluating again at
    the array used before it counts only these groups.  After instantiate on another problem, and after a store
    to the array, the old factors are used. *)
Theorem cache_refuted :
  (let s := after sample_memory (new_oracle (Some sample_two)) [:: Evaluate 0; Evaluate 1] in
   (cached_loss no_prior at_one s.1 s.2 0).2 = Ok 0%coqR /\
   lme_loss (at_groups sample_two) LNone (at_one sample_two) (variances sample_two (s.1 0%N)) = Ok (/ 2 * ln 2)%coqR) /\
  (let s := after sample_memory (new_oracle (Some sample_one)) [:: Evaluate 0; Instantiate sample_other] in
   (cached_loss no_prior at_one s.1 s.2 0).2 = Ok (/ 2 * ln 2)%coqR /\
   lme_loss (at_groups sample_other) LNone (at_one sample_other) (variances sample_other (s.1 0%N)) = Ok (/ 2 * ln 5)%coqR) /\
  (let s := after sample_memory (new_oracle (Some sample_one)) [:: Evaluate 0; Store 0 [:: 3%coqR]] in
   (cached_loss no_prior at_one s.1 s.2 0).2 = Ok (/ 2 * ln 2)%coqR /\
   lme_loss (at_groups sample_one) LNone (at_one sample_one) (variances sample_one (s.1 0%N)) = Ok (/ 2 * ln 4)%coqR) /\
  (0 < / 2 * ln 2 < / 2 * ln 4)%coqR /\ (/ 2 * ln 4 < / 2 * ln 5)%coqR.
Proof. exact cache_refuted_lemma. Qed.
Print Assumptions cache_refuted.

(** an orderly history that evaluates twice, writes to an unused array, forgets and attaches another problem *)
Example ex_cache_orderly :
  orderly sample_memory (Some sample_one) [::]
    [:: Evaluate 0; Store 5 [:: 7%coqR]; Evaluate 2; Forget; Store 0 [:: 2%coqR]; Instantiate sample_two; Evaluate 0].
Proof. exact ex_cache_orderly_lemma. Qed.
