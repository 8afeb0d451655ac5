(** A mixed model with zero variances on the data of a linear problem. *)
From Coq Require Import Lra.
From Verif.Base Require Import Py Vec Mat RMx.
From Verif.Model Require Linear.
From Verif.Spec Require LinearSpec.
From Verif.Proofs Require Import VecFacts.
From mathcomp Require Import ssreflect ssrfun ssrbool eqtype ssrnat choice seq fintype
  finfun bigop finset ssralg zmodp matrix mxalgebra.
From Verif.Model Require Import LmeOracle LmeBridge.
From Verif.Spec Require Import MxSpec ZeroSpec ZeroLinearSpec.
From Verif.Proofs Require Import MxFacts LmeOracleProofs BridgeProofs LmeUseMain ZeroProofs.
Set Implicit Arguments.
Unset Strict Implicit.
Unset Printing Implicit Defensive.
Delimit Scope R_scope with coqR.
Local Open Scope ring_scope.
Import GRing.Theory.
Import Linear.

Lemma vec_sub (n : nat) (c d : 'cV[R]_n) : vec_of (c - d) = vsub (vec_of c) (vec_of d).
Proof. by rewrite /vec_of /vsub; elim: (enum 'I_n) => //= i l ->; rewrite !mxE. Qed.
Lemma sqnorm_vec (n : nat) (c : 'cV[R]_n) : sqnorm (vec_of c) = \sum_i (c i ord0 * c i ord0)%coqR.
Proof.
  rewrite /sqnorm (@vdot_big n) ?length_vec_of //; apply: eq_bigr => i _; by rewrite nth_vec_of.
Qed.
Lemma vec_of_col (n : nat) (x : vec) : length x = n -> vec_of (col_of n x) = x.
Proof.
  move=> lx; rewrite /vec_of -[RHS](List.map_id x) (map_as_seq _ x 0%coqR) lx -map_enum_nth.
  by apply: List.map_ext => i; rewrite mxE.
Qed.
Section Linear.
Variables (q : nat) (pr : linear_problem) (z : 'M[R]_(lp_n pr, q)).
Hypothesis wf : LinearSpec.wf_linear pr.
Notation gs := [:: linear_group z].
Lemma linear_positive : positive_variances gs.
Proof. by move=> g [<-|[]] i; rewrite /= mxE; lra. Qed.
Lemma linear_logs : log_variances gs = 0.
Proof.
  rewrite /log_variances big_cons big_nil addr0 big1 // => i _; rewrite /= mxE ln_1; toR; ring.
Qed.
Lemma linear_squares x : length x = lp_p pr -> weighted_squares gs (col_of _ x) = LinearSpec.least_squares pr x.
Proof.
  move=> lx; have [[la wa] [lb _]] := wf; move/List.Forall_forall: wa => wa.
  rewrite /weighted_squares big_cons big_nil addr0 /LinearSpec.least_squares.
  rewrite -(vec_of_mv la lx wa) -{1}(vec_of_col lb) -vec_sub sqnorm_vec.
  set c := (_ - col_of _ _)%R; transitivity (\sum_i ((/ 2)%coqR * (c i ord0 * c i ord0)%coqR)%R); last by rewrite -big_distrr.
  by apply: eq_bigr => i _; rewrite /c /resid /= !mxE; toR; field.
Qed.
Lemma linear_loss x : length x = lp_p pr ->
  lme_loss gs LNone (col_of _ x) 0 = lin_loss {| lo_problem := Some pr; lo_prior := Priors.PNone |} x.
Proof.
  move=> lx; rewrite (loss_zero LNone _ linear_positive) linear_logs linear_squares //.
  have [_ [lb _]] := wf; rewrite /lin_loss /= /residual lx lb !PeanoNat.Nat.eqb_refl /=; congr Ok.
  by rewrite /LinearSpec.least_squares -norm_sq /=; toR; field.
Qed.
Lemma linear_best b : lme_optimal_beta gs 0 = Ok b -> forall x, length x = lp_p pr -> x <> vec_of b ->
  (LinearSpec.least_squares pr (vec_of b) < LinearSpec.least_squares pr x)%coqR.
Proof.
  move=> e x lx nx; have := best_zero linear_positive e (beta := col_of _ x).
  rewrite linear_squares // -{2}(col_ofK b) linear_squares ?length_vec_of //; apply=> ex; apply: nx.
  by rewrite -ex vec_of_col.
Qed.
End Linear.
