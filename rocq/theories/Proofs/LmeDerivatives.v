(** Derivatives of the mixed-model loss and of its gradients along coordinates. *)
From Verif.Base Require Import Py Vec RMx.
From Coq Require Import Lra.
From Coquelicot Require Import Coquelicot.
From mathcomp Require Import ssreflect ssrfun ssrbool eqtype ssrnat choice seq fintype
  finfun bigop finset ssralg zmodp matrix mxalgebra.
From Verif.Model Require Import LmeOracle.
From Verif.Spec Require Import MxSpec.
From Verif.Proofs Require Import MxFacts LmeOracleProofs.
Set Implicit Arguments.
Unset Strict Implicit.
Unset Printing Implicit Defensive.
Delimit Scope R_scope with coqR.
Import GRing.Theory.
Local Open Scope ring_scope.

Section Derivatives.
Variables p q : nat.
Implicit Types (gs : seq (group p q)) (g : group p q) (pr : lme_prior p q).
Implicit Types (beta : 'cV[R]_p) (gamma : 'cV[R]_q).

Lemma near_group gamma j g : pd (Omega gamma g) ->
  exists eps, (0 < eps)%coqR /\ forall t, (Rabs t < eps)%coqR ->
  (0 < 1 + t * bf (invmx (Omega gamma g)) (zc g j) (zc g j))%coqR.
Proof.
  move=> h; have [|eps [e0 He]] := @locally_admissible p q [:: g] gamma j.
    by move=> g' [<-|[]].
  exists eps; split=> // t /He [_ ht]; apply: ht; by left.
Qed.

Lemma Pinv_tr gamma g : (invmx (Omega gamma g))^T = invmx (Omega gamma g).
Proof. by rewrite trmx_inv Omega_tr. Qed.

Lemma derive_nll_gamma beta gamma j g : pd (Omega gamma g) ->
  derivable_pt_lim (fun t => nll beta (along gamma j t) g) 0
    (/ 2 * bf (invmx (Omega gamma g)) (zc g j) (zc g j)
     - / 2 * bf (invmx (Omega gamma g)) (zc g j) (resid beta g) ^ 2)%coqR.
Proof.
  move=> h; have [eps [e0 He]] := near_group j h.
  set P := invmx (Omega gamma g) in He *; set z := zc g j in He *; set r := resid beta g.
  apply: (derive_local (h := fun t =>
    (/ 2 * (bf P r r - t / (1 + t * bf P z z) * (bf P z r) ^ 2)
     + / 2 * (ln (\det (Omega gamma g)) + ln (1 + t * bf P z z)))%coqR)).
    exists eps; split=> // t ht; rewrite /nll -/(bf _ _ _) bf_along //; last exact: He.
    rewrite logdet_along //; last exact: He.
    rewrite -/P -/z -/r [bf P r z]bfC; last exact: Pinv_tr.
    by congr (_ * (_ - _) + _)%coqR; ring.
  apply/is_derive_Reals; auto_derive; first by rewrite Rmult_0_l Rplus_0_r; split=> //; lra.
  by toR; field; lra.
Qed.

Lemma derive_gradient_gamma beta gamma i j g : pd (Omega gamma g) ->
  derivable_pt_lim (fun t => / 2 * bf (invmx (Omega (along gamma j t) g)) (zc g i) (zc g i)
     - / 2 * bf (invmx (Omega (along gamma j t) g)) (zc g i) (resid beta g) ^ 2)%coqR 0
    (/ 2 * (let m := bf (invmx (Omega gamma g)) (zc g i) (zc g j) in
            let w := bf (invmx (Omega gamma g)) (zc g i) (resid beta g)
                     * bf (invmx (Omega gamma g)) (zc g j) (resid beta g) in
            (- m + 2 * w) * m))%coqR.
Proof.
  move=> h; have [eps [e0 He]] := near_group j h.
  set P := invmx (Omega gamma g) in He *; set z := zc g j in He *; set r := resid beta g.
  set y := zc g i.
  apply: (derive_local (h := fun t =>
    (/ 2 * (bf P y y - t / (1 + t * bf P z z) * (bf P y z) ^ 2)
     - / 2 * (bf P y r - t / (1 + t * bf P z z) * (bf P y z * bf P z r)) ^ 2)%coqR)).
    exists eps; split=> // t ht; have E a b := bf_along a b h (He t ht).
    rewrite !E -/P -/z -/r [bf P z y]bfC; last exact: Pinv_tr.
    by congr (_ * (_ - _) - _)%coqR; ring.
  apply/is_derive_Reals; auto_derive; first by rewrite Rmult_0_l Rplus_0_r; do !split=> //; lra.
  by toR; cbv zeta; field; lra.
Qed.

Lemma derive_gradient_beta_gamma beta gamma i j g : pd (Omega gamma g) ->
  derivable_pt_lim (fun t => - bf (invmx (Omega (along gamma j t) g)) (xc g i) (resid beta g))%coqR 0
    (bf (invmx (Omega gamma g)) (zc g j) (resid beta g) * bf (invmx (Omega gamma g)) (xc g i) (zc g j))%coqR.
Proof.
  move=> h; have [eps [e0 He]] := near_group j h.
  set P := invmx (Omega gamma g) in He *; set z := zc g j in He *; set r := resid beta g.
  apply: (derive_local (h := fun t =>
    (- (bf P (xc g i) r - t / (1 + t * bf P z z) * (bf P (xc g i) z * bf P z r)))%coqR)).
    by exists eps; split=> // t ht; rewrite (bf_along _ _ h (He t ht)).
  apply/is_derive_Reals; auto_derive; first by rewrite Rmult_0_l Rplus_0_r; lra.
  by toR; field; lra.
Qed.

Lemma derive_nll_beta beta gamma j g : 
  derivable_pt_lim (fun t => nll (along beta j t) gamma g) 0
    (- bf (invmx (Omega gamma g)) (xc g j) (resid beta g))%coqR.
Proof.
  set P := invmx (Omega gamma g); set r := resid beta g; set x := xc g j.
  apply: (derive_local (h := fun t =>
    (/ 2 * (bf P r r - 2 * t * bf P x r + t ^ 2 * bf P x x) + / 2 * ln (\det (Omega gamma g)))%coqR)).
    exists 1%coqR; split=> [|t _]; first lra.
    rewrite /nll -/(bf _ _ _) resid_along -/P -/r -/x; clearbody r.
    rewrite bfBr !bfBl !bfZr !bfZl [bf P r x]bfC; last exact: Pinv_tr.
    by congr (_ * _ + _)%coqR; ring.
  apply/is_derive_Reals; auto_derive => //.
  by toR; field.
Qed.

Lemma derive_gradient_beta beta gamma i j g : 
  derivable_pt_lim (fun t => - bf (invmx (Omega gamma g)) (xc g i) (resid (along beta j t) g))%coqR 0
    (bf (invmx (Omega gamma g)) (xc g i) (xc g j)).
Proof.
  set P := invmx (Omega gamma g); set r := resid beta g; set x := xc g j.
  apply: (derive_local (h := fun t => (- (bf P (xc g i) r - t * bf P (xc g i) x))%coqR)).
    exists 1%coqR; split=> [|t _]; first lra.
    by rewrite resid_along bfBr bfZr.
  apply/is_derive_Reals; auto_derive => //.
  by toR; ring.
Qed.

Lemma derive_gradient_gamma_beta beta gamma i j g :
  derivable_pt_lim (fun t => / 2 * bf (invmx (Omega gamma g)) (zc g i) (zc g i)
     - / 2 * bf (invmx (Omega gamma g)) (zc g i) (resid (along beta j t) g) ^ 2)%coqR 0
    (bf (invmx (Omega gamma g)) (zc g i) (resid beta g) * bf (invmx (Omega gamma g)) (xc g j) (zc g i))%coqR.
Proof.
  set P := invmx (Omega gamma g); set r := resid beta g; set x := xc g j; set z := zc g i.
  apply: (derive_local (h := fun t => (/ 2 * bf P z z - / 2 * (bf P z r - t * bf P x z) ^ 2)%coqR)).
    exists 1%coqR; split=> [|t _]; first lra.
    by rewrite resid_along bfBr bfZr [bf P x z]bfC //; exact: Pinv_tr.
  apply/is_derive_Reals; auto_derive => //.
  by toR; field.
Qed.

(** ** the oracle *)
Section Oracle.
Variables (gs : seq (group p q)) (pr : lme_prior p q) (beta : 'cV[R]_p) (gamma : 'cV[R]_q).
Hypothesis adm : admissible gs gamma.

Lemma locally_along (A : Type) (f h : 'cV[R]_q -> A) j :
  (forall gamma', admissible gs gamma' -> f gamma' = h gamma') ->
  exists eps, (0 < eps)%coqR /\ forall t, (Rabs t < eps)%coqR -> f (along gamma j t) = h (along gamma j t).
Proof.
  move=> e; have [eps [e0 He]] := locally_admissible j adm.
  by exists eps; split=> // t ht; apply: e; have [] := He t ht.
Qed.

Lemma gradient_gamma_derives j : prior_stds_nonzero pr ->
  derivable_pt_lim (fun t => value (lme_loss gs pr beta (along gamma j t))) 0
    (entry (lme_gradient_gamma gs pr beta gamma) j).
Proof.
  move=> hp; rewrite gradient_gamma_ok //.
  apply: (derive_local (h := fun t => (\sum_(g <- gs) nll beta (along gamma j t) g
                                       + prior_loss pr beta (along gamma j t))%coqR)).
    refine (@locally_along _ (fun gamma' => value (lme_loss gs pr beta gamma'))
              (fun gamma' => (\sum_(g <- gs) nll beta gamma' g + prior_loss pr beta gamma')%coqR) j _).
    by move=> gamma' hg; rewrite lme_loss_ok.
  apply: derivable_pt_lim_plus; last exact: derive_prior_gamma.
  by apply: derive_sum => g hin; apply: derive_nll_gamma; exact: adm.
Qed.

Lemma gradient_beta_derives j : prior_stds_nonzero pr ->
  derivable_pt_lim (fun t => value (lme_loss gs pr (along beta j t) gamma)) 0
    (entry (lme_gradient_beta gs pr beta gamma) j).
Proof.
  move=> hp; rewrite gradient_beta_ok //.
  apply: (derive_local (h := fun t => (\sum_(g <- gs) nll (along beta j t) gamma g
                                       + prior_loss pr (along beta j t) gamma)%coqR)).
    by exists 1%coqR; split=> [|t _]; [lra | rewrite lme_loss_ok].
  apply: derivable_pt_lim_plus; last exact: derive_prior_beta.
  by apply: derive_sum => g hin; exact: derive_nll_beta.
Qed.

Lemma hessian_gamma_derives i j H : each_column pr -> lme_hessian_gamma gs pr false false beta gamma = Ok H ->
  derivable_pt_lim (fun t => entry (lme_gradient_gamma gs pr beta (along gamma j t)) i) 0 (H i j).
Proof.
  move=> hec; have [H' [-> e]] := hessian_gamma_ok pr false false beta adm; case=> <-; rewrite e.
  rewrite [X in (_ * X)%coqR](eq_bigr (fun g => (let m := bf (invmx (Omega gamma g)) (zc g i) (zc g j) in
     let w := bf (invmx (Omega gamma g)) (zc g i) (resid beta g)
              * bf (invmx (Omega gamma g)) (zc g j) (resid beta g) in
     (- m + 2 * w) * m)%coqR)) //.
  apply: (derive_local (h := fun t => (\sum_(g <- gs)
     (/ 2 * bf (invmx (Omega (along gamma j t) g)) (zc g i) (zc g i)
      - / 2 * bf (invmx (Omega (along gamma j t) g)) (zc g i) (resid beta g) ^ 2)
     + prior_gradient_gamma pr (along gamma j t) i ord0)%coqR)).
    refine (@locally_along _ (fun gamma' => entry (lme_gradient_gamma gs pr beta gamma') i)
      (fun gamma' => (\sum_(g <- gs) (/ 2 * bf (invmx (Omega gamma' g)) (zc g i) (zc g i)
      - / 2 * bf (invmx (Omega gamma' g)) (zc g i) (resid beta g) ^ 2)
     + prior_gradient_gamma pr gamma' i ord0)%coqR) j _).
    by move=> gamma' hg; rewrite gradient_gamma_ok.
  apply: derivable_pt_lim_plus; last exact: derive_prior_gradient_gamma.
  have -> : (/ 2 * \sum_(g <- gs) (let m := bf (invmx (Omega gamma g)) (zc g i) (zc g j) in
     let w := bf (invmx (Omega gamma g)) (zc g i) (resid beta g)
              * bf (invmx (Omega gamma g)) (zc g j) (resid beta g) in
     (- m + 2 * w) * m))%coqR = \sum_(g <- gs) (/ 2 * (let m := bf (invmx (Omega gamma g)) (zc g i) (zc g j) in
     let w := bf (invmx (Omega gamma g)) (zc g i) (resid beta g)
              * bf (invmx (Omega gamma g)) (zc g j) (resid beta g) in
     (- m + 2 * w) * m))%coqR by exact: mulr_sumr.
  by apply: derive_sum => g hin; apply: derive_gradient_gamma; exact: adm.
Qed.

Lemma hessian_beta_derives i j H : each_column pr -> lme_hessian_beta gs pr gamma = Ok H ->
  derivable_pt_lim (fun t => entry (lme_gradient_beta gs pr (along beta j t) gamma) i) 0 (H i j).
Proof.
  move=> hec; have [H' [-> e]] := hessian_beta_ok pr adm; case=> <-; rewrite e.
  apply: (derive_local (h := fun t => (\sum_(g <- gs)
     (- bf (invmx (Omega gamma g)) (xc g i) (resid (along beta j t) g))
     + prior_gradient_beta pr (along beta j t) i ord0)%coqR)).
    by exists 1%coqR; split=> [|t _]; [lra | rewrite gradient_beta_ok].
  apply: derivable_pt_lim_plus; last exact: derive_prior_gradient_beta.
  by apply: derive_sum => g hin; exact: derive_gradient_beta.
Qed.

Lemma hessian_mixed_derives i j H : lme_hessian_beta_gamma gs beta gamma = Ok H ->
  derivable_pt_lim (fun t => entry (lme_gradient_beta gs pr beta (along gamma j t)) i) 0 (H i j)
  /\ derivable_pt_lim (fun t => entry (lme_gradient_gamma gs pr (along beta i t) gamma) j) 0 (H i j).
Proof.
  have [H' [-> e]] := hessian_mixed_ok beta adm; case=> <-; rewrite e; split.
  - rewrite -[X in derivable_pt_lim _ _ X]Rplus_0_r.
    apply: (derive_local (h := fun t => (\sum_(g <- gs)
       (- bf (invmx (Omega (along gamma j t) g)) (xc g i) (resid beta g))
       + prior_gradient_beta pr beta i ord0)%coqR)).
      refine (@locally_along _ (fun gamma' => entry (lme_gradient_beta gs pr beta gamma') i)
        (fun gamma' => (\sum_(g <- gs) (- bf (invmx (Omega gamma' g)) (xc g i) (resid beta g))
       + prior_gradient_beta pr beta i ord0)%coqR) j _).
      by move=> gamma' hg; rewrite gradient_beta_ok.
    apply: derivable_pt_lim_plus; last exact: derivable_pt_lim_const.
    by apply: derive_sum => g hin; apply: derive_gradient_beta_gamma; exact: adm.
  - rewrite -[X in derivable_pt_lim _ _ X]Rplus_0_r.
    apply: (derive_local (h := fun t => (\sum_(g <- gs)
       (/ 2 * bf (invmx (Omega gamma g)) (zc g j) (zc g j)
        - / 2 * bf (invmx (Omega gamma g)) (zc g j) (resid (along beta i t) g) ^ 2)
       + prior_gradient_gamma pr gamma j ord0)%coqR)).
      by exists 1%coqR; split=> [|t _]; [lra | rewrite gradient_gamma_ok].
    apply: derivable_pt_lim_plus; last exact: derivable_pt_lim_const.
    by apply: derive_sum => g hin; exact: derive_gradient_gamma_beta.
Qed.
End Oracle.
End Derivatives.
