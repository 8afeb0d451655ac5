(** The evaluations of the oracle when the groups are listed in another order. *)
From Verif.Base Require Import Py Vec Mat RMx.
From Verif.Model Require Import LmeProblem LmeInner LmeFit.
From Coq Require Import Lra FunctionalExtensionality Classical Permutation.
From mathcomp Require Import ssreflect ssrfun ssrbool eqtype ssrnat choice seq fintype
  finfun bigop finset ssralg zmodp matrix mxalgebra.
From Verif.Model Require Import LmeOracle LmeBridge.
From Verif.Spec Require Import MxSpec.
From Verif.Proofs Require Import MxFacts LmeOracleProofs LmeEstimates LmeBlup LmeCriteria OrderProofs UnitsProofs.
Set Implicit Arguments.
Unset Strict Implicit.
Unset Printing Implicit Defensive.
Delimit Scope R_scope with coqR.
Import GRing.Theory.
Local Open Scope ring_scope.
Local Open Scope res_scope.

(** ** lists *)
Lemma perm_sum (A : Type) (V : zmodType) (F : A -> V) l l' : Permutation l l' ->
  \sum_(x <- l) F x = \sum_(x <- l') F x.
Proof.
  elim=> {l l'} [//|a l l' _ IH|a b l|l1 l2 l3 _ -> _ -> //]; rewrite !big_cons ?IH //.
  exact: addrCA.
Qed.
Lemma seq_Forall2 (A B : Type) (f : A -> res B) l us :
  sequence (List.map f l) = Ok us <-> List.Forall2 (fun a b => f a = Ok b) l us.
Proof.
  split.
    elim: l us => [|a l IH] us /=; first by case=> <-; constructor.
    case e : (f a) => [b|] //=; case e' : (sequence _) => [bs|] //= [<-].
    by constructor=> //; exact: IH.
  by elim=> {l us} [//|a b l us /= -> _ ->].
Qed.
Lemma Forall2_len (A B : Type) (P : A -> B -> Prop) l us : List.Forall2 P l us -> length us = length l.
Proof. by elim=> {l us} [//|a b l us _ _ /= ->]. Qed.
Lemma Forall2_perm (A B : Type) (P : A -> B -> Prop) l l' us : Permutation l l' -> List.Forall2 P l us ->
  exists us', List.Forall2 P l' us' /\ Permutation (List.combine l us) (List.combine l' us').
Proof.
  move=> hp; elim: hp us => {l l'} [|a l l' _ IH|a b l|l1 l2 l3 _ h1 _ h2] us h.
  - by exists us; split=> //; inversion h; subst; constructor.
  - inversion h as [|? u ? us0 hu hus]; subst; have [us' [h' hc]] := IH _ hus.
    by exists (u :: us'); split; constructor.
  - inversion h as [|? u ? us0 hu hus]; subst; inversion hus as [|? v ? us1 hv hvs]; subst.
    by exists (v :: u :: us1); split; [do 2 constructor=> // | exact: perm_swap].
  - have [us2 [e2 c2]] := h1 _ h; have [us3 [e3 c3]] := h2 _ e2.
    by exists us3; split=> //; exact: Permutation_trans c2 c3.
Qed.
(** results that are lists in another order *)
Definition perm_results (A B : Type) (l l' : list A) (r r' : res (list B)) : Prop :=
  match r, r' with
  | Ok us, Ok us' => [/\ length us = length l, length us' = length l'
                       & Permutation (List.combine l us) (List.combine l' us')]
  | Err e, Err e' => e = e'
  | _, _ => False
  end.
Lemma seq_err (A B : Type) (f : A -> res B) l x : sequence (List.map f l) = Err x -> exists a, List.In a l /\ f a = Err x.
Proof.
  elim: l => [//|a l IH] /=; case e : (f a) => [b|y] /=; last by case=> <-; exists a; split=> //; left.
  case e' : (sequence _) => [bs|y] //= [ey]; rewrite ey in e'.
  by have [c [h1 h2]] := IH e'; exists c; split=> //; right.
Qed.
Lemma seq_perm (A B : Type) (f : A -> res B) e l l' : (forall a x, f a = Err x -> x = e) -> Permutation l l' ->
  perm_results l l' (sequence (List.map f l)) (sequence (List.map f l')).
Proof.
  move=> hf hp; rewrite /perm_results.
  case E : (sequence (List.map f l)) => [us|x].
    have h := proj1 (seq_Forall2 _ _ _) E; have [us' [h' hc]] := Forall2_perm hp h.
    by rewrite (proj2 (seq_Forall2 _ _ _) h') (Forall2_len h) (Forall2_len h').
  case E' : (sequence (List.map f l')) => [us'|x'].
    have [us [/seq_Forall2 h _]] := Forall2_perm (Permutation_sym hp) (proj1 (seq_Forall2 _ _ _) E').
    by rewrite h in E.
  have [a [_ ha]] := seq_err E; have [b [_ hb]] := seq_err E'.
  by rewrite (hf _ _ ha) (hf _ _ hb).
Qed.
Lemma combine_snd (A B : Type) (l : list A) (us : list B) : length us = length l -> List.map snd (List.combine l us) = us.
Proof. by elim: l us => [|a l IH] [|u us] //= [h]; rewrite IH. Qed.
Lemma combine_fst (A B : Type) (l : list A) (us : list B) : length us = length l -> List.map fst (List.combine l us) = l.
Proof. by elim: l us => [|a l IH] [|u us] //= [h]; rewrite IH. Qed.
Lemma perm_results_perm (A B : Type) (l l' : list A) (us us' : list B) :
  perm_results l l' (Ok us) (Ok us') -> Permutation us us'.
Proof.
  move=> [h1 h2 hc]; rewrite -(combine_snd h1) -(combine_snd h2); exact: Permutation_map.
Qed.
Lemma seq_perm_sum (A : Type) (f : A -> res R) e l l' : (forall a x, f a = Err x -> x = e) -> Permutation l l' ->
  (let! ds := sequence (List.map f l) in Ok (\sum_(d <- ds) d)) =
  (let! ds := sequence (List.map f l') in Ok (\sum_(d <- ds) d)).
Proof.
  move=> hf hp; have := seq_perm hf hp.
  case: (sequence _) => [us|x]; case: (sequence _) => [us'|x'] //=.
    by move=> /perm_results_perm h; rewrite (perm_sum id h).
  by move=> ->.
Qed.

Section Groups.
Variables (p q : nat) (gs gs' : seq (group p q)).
Hypothesis same : Permutation gs gs'.
Implicit Types (beta : 'cV[R]_p) (gamma : 'cV[R]_q).

Lemma gperm_size : size gs' = size gs.
Proof. by have := Permutation_length same. Qed.
Lemma gperm_total : total_obs gs' = total_obs gs.
Proof.
  rewrite /total_obs; elim: same => [//|a l l' _ IH|a b l|l1 l2 l3 _ h1 _ h2].
  - by rewrite !big_cons IH.
  - by rewrite !big_cons addnCA.
  - by rewrite h2.
Qed.
Lemma gperm_admissible gamma : admissible gs' gamma <-> admissible gs gamma.
Proof.
  rewrite /admissible; split=> h g hin; apply: h.
    exact: Permutation_in same hin.
  exact: Permutation_in (Permutation_sym same) hin.
Qed.
Lemma gperm_eval (A : Type) (k k' : seq (fgroup p q) -> res A) gamma :
  (admissible gs gamma -> k' (List.map (fac gamma) gs') = k (List.map (fac gamma) gs)) ->
  (let! fs := recalculate gs' gamma in k' fs) = (let! fs := recalculate gs gamma in k fs).
Proof.
  move=> h; case: (classic (admissible gs gamma)) => ha.
    by rewrite !recalculate_ok /= ?h //; apply/gperm_admissible.
  by rewrite !recalculate_err // => /gperm_admissible.
Qed.
Lemma gperm_sum (V : zmodType) (F : fgroup p q -> V) gamma :
  \sum_(f <- List.map (fac gamma) gs') F f = \sum_(f <- List.map (fac gamma) gs) F f.
Proof. by apply: perm_sum; apply: Permutation_map; exact: Permutation_sym. Qed.

Lemma gperm_loss : lme_loss gs' = lme_loss gs.
Proof.
  apply: functional_extensionality => pr; apply: functional_extensionality => beta.
  apply: functional_extensionality => gamma.
  by apply: gperm_eval => ha; rewrite gperm_sum.
Qed.
Lemma gperm_gradient_gamma : lme_gradient_gamma gs' = lme_gradient_gamma gs.
Proof.
  apply: functional_extensionality => pr; apply: functional_extensionality => beta.
  apply: functional_extensionality => gamma.
  by apply: gperm_eval => ha; rewrite gperm_sum.
Qed.
Lemma gperm_hessian_gamma : lme_hessian_gamma gs' = lme_hessian_gamma gs.
Proof.
  apply: functional_extensionality => pr; apply: functional_extensionality => a.
  apply: functional_extensionality => b; apply: functional_extensionality => beta.
  apply: functional_extensionality => gamma.
  by apply: gperm_eval => ha; rewrite gperm_sum.
Qed.
Lemma gperm_gradient_beta : lme_gradient_beta gs' = lme_gradient_beta gs.
Proof.
  apply: functional_extensionality => pr; apply: functional_extensionality => beta.
  apply: functional_extensionality => gamma.
  by apply: gperm_eval => ha; rewrite gperm_sum.
Qed.
Lemma gperm_hessian_beta : lme_hessian_beta gs' = lme_hessian_beta gs.
Proof.
  apply: functional_extensionality => pr; apply: functional_extensionality => gamma.
  by apply: gperm_eval => ha; rewrite gperm_sum.
Qed.
Lemma gperm_hessian_mixed : lme_hessian_beta_gamma gs' = lme_hessian_beta_gamma gs.
Proof.
  apply: functional_extensionality => beta; apply: functional_extensionality => gamma.
  by apply: gperm_eval => ha; rewrite gperm_sum.
Qed.
Lemma gperm_kernel_tail : kernel_tail gs' = kernel_tail gs.
Proof.
  apply: functional_extensionality => gamma.
  by apply: gperm_eval => ha; rewrite !gperm_sum.
Qed.
Lemma gperm_optimal_beta : lme_optimal_beta gs' = lme_optimal_beta gs.
Proof. by rewrite /lme_optimal_beta gperm_kernel_tail. Qed.
Lemma effects_err beta gamma (g : group p q) x : group_effects beta gamma g = Err x -> x = LinAlgError.
Proof. by rewrite /group_effects /np_solve; case: ifP => //= _ [<-]. Qed.
Lemma gperm_random_effects beta gamma :
  perm_results gs gs' (lme_random_effects gs beta gamma) (lme_random_effects gs' beta gamma).
Proof.
  rewrite /lme_random_effects; case: (classic (admissible gs gamma)) => ha; last first.
    by rewrite !recalculate_err // => /gperm_admissible.
  rewrite !recalculate_ok //; last exact/gperm_admissible.
  by cbn [rbind]; apply: seq_perm same => g x; exact: effects_err.
Qed.
Lemma gperm_demarginalized : lme_demarginalized_loss gs' = lme_demarginalized_loss gs.
Proof.
  apply: functional_extensionality => pr; apply: functional_extensionality => beta.
  apply: functional_extensionality => gamma.
  rewrite /lme_demarginalized_loss; have := gperm_random_effects beta gamma.
  case: (lme_random_effects gs _ _) => [us|x]; case: (lme_random_effects gs' _ _) => [us'|x'] //=; last by move=> ->.
  move=> [_ _ h]; congr (Ok (_ + _)%coqR).
  have zc (l : seq (group p q)) (v : seq 'cV[R]_q) : zip l v = List.combine l v.
    by elim: l v => [|a l IH] [|b v] //=; rewrite IH.
  by rewrite !zc (perm_sum _ h).
Qed.
Lemma n_eff_err gamma (g : group p q) x : group_n_eff (fac gamma g) = Err x -> x = LinAlgError.
Proof. by rewrite /group_n_eff /np_inv; case: ifP => //= _ [<-]. Qed.
Lemma gperm_n_eff gamma : n_eff (List.map (fac gamma) gs') = n_eff (List.map (fac gamma) gs).
Proof.
  rewrite /n_eff !List.map_map; apply: (@seq_perm_sum _ _ LinAlgError); last exact: Permutation_sym.
  by move=> g x; exact: n_eff_err.
Qed.
Lemma gperm_jones : lme_jones_bic gs' = lme_jones_bic gs.
Proof.
  apply: functional_extensionality => pr; apply: functional_extensionality => tol.
  apply: functional_extensionality => beta; apply: functional_extensionality => gamma.
  by apply: gperm_eval => ha; rewrite gperm_loss gperm_n_eff.
Qed.
Lemma gperm_muller : lme_muller_ic gs' = lme_muller_ic gs.
Proof. by rewrite /lme_muller_ic gperm_loss gperm_total gperm_size. Qed.
Lemma row_ddf_err gamma ki (g : group p q) x : row_ddf gamma ki g = Err x -> x = LinAlgError.
Proof.
  rewrite row_ddfE /ddf_of /hat_diagonal /np_inv; case: ifP => //= _ [<-] //.
Qed.
Lemma gperm_ddf : lme_ddf gs' = lme_ddf gs.
Proof.
  apply: functional_extensionality => gamma; rewrite !lme_ddfE.
  apply: gperm_eval => ha; rewrite gperm_sum; case: (np_inv _) => [ki|//]; cbn [rbind].
  refine (eq_trans (ddf_rows gamma gs' ki) (eq_trans _ (esym (ddf_rows gamma gs ki)))).
  by apply: (@seq_perm_sum _ _ LinAlgError); [move=> g x; exact: row_ddf_err | exact: Permutation_sym].
Qed.
Lemma gperm_vaida : lme_vaida_aic gs' = lme_vaida_aic gs.
Proof. by rewrite /lme_vaida_aic gperm_total gperm_loss gperm_ddf gperm_demarginalized. Qed.
Lemma gperm_sr3_jones : sr3_jones_bic gs' = sr3_jones_bic gs.
Proof. exact: gperm_jones. Qed.
Lemma gperm_sr3_muller : sr3_muller_ic gs' = sr3_muller_ic gs.
Proof. exact: gperm_muller. Qed.
Lemma gperm_sr3_vaida : sr3_vaida_aic gs' = sr3_vaida_aic gs.
Proof. exact: gperm_vaida. Qed.

(** every evaluation but the random effects is the same *)
Definition with_effects (c : lme_calls) f : lme_calls :=
  {| lc_loss := lc_loss c; lc_gradient_beta := lc_gradient_beta c; lc_gradient_gamma := lc_gradient_gamma c;
     lc_optimal_beta := lc_optimal_beta c; lc_random_effects := f; lc_vaida := lc_vaida c; lc_jones := lc_jones c;
     lc_muller := lc_muller c; lc_flip := lc_flip c; lc_sr3 := lc_sr3 c |}.
Lemma gperm_calls pri cdf ss : list_calls (Ok gs') pri cdf ss =
  with_effects (list_calls (Ok gs) pri cdf ss) (list_random_effects (Ok gs')).
Proof.
  have esr3 a b : list_sr3_calls (Ok gs') pri a b = list_sr3_calls (Ok gs) pri a b.
    rewrite /list_sr3_calls /with_prior /at_params /= /sr3_gradient_beta /sr3_gradient_gamma /sr3_hessian_beta
      /sr3_hessian_gamma /sr3_optimal_beta /sr3_loss.
    rewrite gperm_loss gperm_gradient_beta gperm_gradient_gamma gperm_hessian_beta gperm_hessian_gamma
      gperm_hessian_mixed gperm_kernel_tail.
    reflexivity.
  rewrite /list_calls /with_effects; case: ss => [ss|]; rewrite !esr3 /list_loss /list_gradient_beta /list_gradient_gamma
    /list_optimal_beta /with_prior /at_params /= /lme_flip_probabilities /sr3_flip_probabilities /sr3_hessian_beta.
  - by rewrite gperm_loss gperm_gradient_beta gperm_gradient_gamma gperm_optimal_beta
      gperm_sr3_vaida gperm_sr3_jones gperm_sr3_muller gperm_hessian_beta.
  - by rewrite gperm_loss gperm_gradient_beta gperm_gradient_gamma gperm_optimal_beta gperm_vaida
      gperm_jones gperm_muller gperm_hessian_beta.
Qed.
End Groups.
