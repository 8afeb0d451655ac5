(** Facts about the evaluations of a problem (Model/LmeBridge.v). *)
From Verif.Base Require Import Py Vec Mat RMx.
From Verif.Model Require Import LmeProblem Regularizers Solvers LmeInner LmeFit.
From Verif.Spec Require Import FitSpec.
From Verif.Proofs Require Import FitProofs.
From Coq Require Import Lra.
From mathcomp Require Import ssreflect ssrfun ssrbool eqtype ssrnat choice seq fintype
  finfun bigop finset ssralg zmodp matrix mxalgebra.
From Verif.Model Require Import LmeOracle LmeBridge.
From Verif.Spec Require Import MxSpec.
From Verif.Proofs Require Import MxFacts LmeOracleProofs LmeEstimates LmeBlup.
Set Implicit Arguments.
Unset Strict Implicit.
Unset Printing Implicit Defensive.
Delimit Scope R_scope with coqR.
Import GRing.Theory.
Local Open Scope ring_scope.

Lemma length_vec_of n (c : 'cV[R]_n) : length (vec_of c) = n.
Proof. by rewrite /vec_of List.map_length; exact: size_enum_ord. Qed.
Lemma nth_lmap (A B : Type) (F : A -> B) x0 l k d : (k < size l)%N -> List.nth k (List.map F l) d = F (nth x0 l k).
Proof. by elim: l k => [|a l IH] [|k] //=; exact: IH. Qed.
Lemma nth_vec_of n (c : 'cV[R]_n) (i : 'I_n) d : List.nth i (vec_of c) d = c i ord0.
Proof. by rewrite /vec_of (@nth_lmap _ _ _ i) ?size_enum_ord // nth_ord_enum. Qed.
Lemma to_vec_len n (r : res 'cV[R]_n) x : to_vec r = Ok x -> length x = n.
Proof. by case: r => //= c [<-]; exact: length_vec_of. Qed.
Lemma sized_inv n x c : sized n x = Ok c -> length x = n /\ c = col_of n x.
Proof. by rewrite /sized; case: PeanoNat.Nat.eqb_spec => //= e [<-]. Qed.
Lemma sized_ok n x : length x = n -> sized n x = Ok (col_of n x).
Proof. by rewrite /sized => ->; rewrite PeanoNat.Nat.eqb_refl. Qed.

Lemma problem_calls_sized cdf pr g ss : well_sized (num_fixed pr) (num_random pr) (problem_calls cdf pr g ss).
Proof.
  split; last split.
  - move=> gm b; exact: to_vec_len.
  - move=> l gm t b; rewrite /problem_calls /list_calls /=; case: ss => [s|] /=; exact: to_vec_len.
  - move=> b gm us; rewrite /= /list_random_effects /at_params.
    case: (groups_of _ _ _) => //= gs.
    case e1: (sized (num_fixed pr) b) => [c|] //=; case e2: (sized (num_random pr) gm) => [d|] //=.
    by case: (sized_inv e1) => -> _; case: (sized_inv e2) => -> _.
Qed.

Lemma problem_calls_gradient_length cdf pr g ss l b gm tb tg r :
  sc_gradient_gamma (lc_sr3 (problem_calls cdf pr g ss)) l b gm tb tg = Ok r -> length r = length gm.
Proof.
  have e : to_vec (let! tg := sized (num_random pr) tg in
     with_prior (groups_of (num_fixed pr) (num_random pr) pr) (prior_mx (num_fixed pr) (num_random pr) g) b gm (fun gs pr0 b g => sr3_gradient_gamma (lam_g l) gs pr0 b g tg)) = Ok r ->
     length r = length gm.
    move=> h; rewrite (to_vec_len h); move: h; case: (sized _ tg) => //= t.
    rewrite /with_prior /at_params; case: (groups_of _ _ _) => //= gs; case: (sized _ b) => //= bb.
    by case e2: (sized _ gm) => [d|] //= _; case: (sized_inv e2) => ->.
  by rewrite /problem_calls /list_calls /=; case: ss => [s|] /=; exact: e.
Qed.

(** ** the sample problem *)
Section Flat.
Variables p q : nat.
Definition flat_group : group p q := @Group p q 1 0 0 0 (const_mx 1).

Lemma nth_zeros n i : List.nth i (zeros n) 0%coqR = 0%coqR.
Proof. by elim: n i => [|n IH] [|i] //=; exact: IH. Qed.
Lemma flat_mx n : mx_of 1 n [:: zeros n] = 0.
Proof. by apply/matrixP => i j; rewrite !mxE (ord1 i) /= nth_zeros. Qed.
Lemma flat_col : col_of 1 [:: 0%coqR] = 0.
Proof. by apply/matrixP => i j; rewrite !mxE (ord1 i). Qed.
Lemma flat_groups : groups_of p q (flat_problem p q) = Ok [:: flat_group].
Proof.
  rewrite /groups_of /= /flat_group !flat_mx flat_col.
  do 3 f_equal. by apply/matrixP => i j; rewrite !mxE (ord1 i).
Qed.
Lemma flat_Omega gamma : Omega gamma flat_group = 1%:M.
Proof.
  rewrite /Omega /= mul0mx mul0mx add0r; apply/matrixP => i j.
  by rewrite !mxE (ord1 i) (ord1 j) eqxx !mulr1n.
Qed.
Lemma flat_admissible gamma : admissible [:: flat_group] gamma.
Proof.
  move=> g [<-|//]; rewrite flat_Omega.
  have -> : 1%:M = diagv (const_mx 1 : 'cV[R]_1).
    by apply/matrixP => i j; rewrite diagvE !mxE.
  by apply: pd_diagv => i; rewrite mxE; toR; lra.
Qed.
Lemma flat_kernel gamma : blup_kernel gamma flat_group \in unitmx.
Proof.
  rewrite /blup_kernel /= mul0mx trmx0 !mul0mx addr0.
  set gm := _ *m gamma.
  have h i : gm i ord0 <> 0%coqR.
    rewrite /gm sel_tr; have := enum_valP i; rewrite inE => /rltbP.
    have := thr_pos; move: (gamma _ _) => x h1 h2 e; move: h2; rewrite e Rabs_R0; lra.
  by have [] := mulmx1_unit (vinv_diagv h).
Qed.
Lemma vec_of0 n : vec_of (0 : 'cV[R]_n) = zeros n.
Proof.
  rewrite /vec_of; have -> : zeros n = zeros (size (enum 'I_n)) by rewrite size_enum_ord.
  by elim: (enum 'I_n) => //= a l ->; rewrite mxE.
Qed.
Lemma flat_effects beta gamma : lme_random_effects [:: flat_group] beta gamma = Ok [:: 0].
Proof.
  rewrite /lme_random_effects (recalculate_ok (@flat_admissible gamma)); cbn [rbind List.map sequence].
  rewrite /group_effects /np_solve flat_kernel; cbn [rbind].
  by rewrite /= mul0mx trmx0 !mul0mx mulmx0 mulmx0.
Qed.
Lemma flat_loss beta gamma : lme_loss [:: flat_group] LNone beta gamma = Ok 0%coqR.
Proof.
  rewrite (lme_loss_ok _ _ (@flat_admissible gamma)) big_cons big_nil /nll flat_Omega det1 /resid /= mul0mx subr0 trmx0 !mul0mx.
  by congr Ok; rewrite /sc mxE ln_1; toR; ring.
Qed.
Lemma flat_gradient_beta beta gamma : lme_gradient_beta [:: flat_group] LNone beta gamma = Ok 0.
Proof.
  rewrite /lme_gradient_beta (recalculate_ok (@flat_admissible gamma)); cbn [rbind List.map].
  by rewrite big_cons big_nil addr0 /= addr0 /group_gradient_beta /= mulmx0 trmx0 mul0mx oppr0.
Qed.
Lemma flat_gradient_gamma beta gamma : lme_gradient_gamma [:: flat_group] LNone beta gamma = Ok 0.
Proof.
  rewrite /lme_gradient_gamma (recalculate_ok (@flat_admissible gamma)); cbn [rbind List.map].
  rewrite big_cons big_nil addr0 /= addr0 /group_gradient_gamma /= mulmx0 trmx0 mul0mx.
  congr Ok; apply/matrixP => i j; rewrite !mxE big1 => [|k _]; last by rewrite !mxE; toR; ring.
  by toR; ring.
Qed.
Lemma flat_optimal_beta lb gamma tb : (0 < lb)%coqR -> exists b, sr3_optimal_beta lb [:: flat_group] gamma tb = Ok b.
Proof.
  move=> h; rewrite /sr3_optimal_beta /kernel_tail (recalculate_ok (@flat_admissible gamma)); cbn [rbind List.map].
  rewrite big_cons big_nil addr0 /group_kernel /= mulmx0 trmx0 mul0mx addr0 scalemx1 /np_solve.
  have -> : (lb%:M : 'M[R]_p) \in unitmx by rewrite unitmxE det_scalar unitrX // unitfE; apply/eqP; toR; lra.
  by eexists.
Qed.

Section Calls.
Variables (cdf : R -> R) (ss : option sr3_settings).
Let c := list_calls (groups_of p q (flat_problem p q)) (prior_mx p q None) cdf ss.
Variables (b g : vec).
Hypotheses (hb : length b = p) (hg : length g = q).
Lemma flat_calls_effects : lc_random_effects c b g = Ok [:: zeros q].
Proof.
  by rewrite /c /= /list_random_effects /at_params flat_groups; cbn [rbind];
     rewrite (sized_ok hb) (sized_ok hg); cbn [rbind]; rewrite flat_effects /= vec_of0.
Qed.
Lemma flat_calls_loss : lc_loss c b g = Ok 0%coqR.
Proof.
  by rewrite /c flat_groups; cbn [lc_loss list_calls]; rewrite /list_loss /with_prior /at_params; cbn [rbind];
     rewrite (sized_ok hb) (sized_ok hg); cbn [rbind prior_mx]; rewrite flat_loss.
Qed.
Lemma flat_calls_gradient_beta : lc_gradient_beta c b g = Ok (zeros p).
Proof.
  by rewrite /c /= /list_gradient_beta /with_prior /at_params flat_groups; cbn [rbind];
     rewrite (sized_ok hb) (sized_ok hg); cbn [rbind prior_mx]; rewrite flat_gradient_beta /= vec_of0.
Qed.
Lemma flat_calls_gradient_gamma : lc_gradient_gamma c b g = Ok (zeros q).
Proof.
  by rewrite /c /= /list_gradient_gamma /with_prior /at_params flat_groups; cbn [rbind];
     rewrite (sized_ok hb) (sized_ok hg); cbn [rbind prior_mx]; rewrite flat_gradient_gamma /= vec_of0.
Qed.
Lemma flat_calls_optimal_beta l : (0 < lam_b l)%coqR ->
  exists b', sc_optimal_beta (lc_sr3 c) l g b = Ok b'.
Proof.
  move=> h. case: (@flat_optimal_beta (lam_b l) (col_of q g) (col_of p b) h) => b' e.
  exists (vec_of b'). rewrite /c flat_groups.
  by case: ss => [s|]; cbn -[sized sr3_optimal_beta]; rewrite (sized_ok hb) (sized_ok hg); cbn [rbind]; rewrite e.
Qed.
Lemma flat_calls_sr3_gradients l :
  sc_gradient_beta (lc_sr3 c) l b g b g = Ok (zeros p) /\ sc_gradient_gamma (lc_sr3 c) l b g b g = Ok (zeros q).
Proof.
  rewrite /c flat_groups.
  by case: ss => [s|]; cbn -[sized sr3_gradient_beta sr3_gradient_gamma]; rewrite /with_prior /at_params (sized_ok hb) (sized_ok hg);
     cbn [rbind prior_mx]; rewrite /sr3_gradient_beta /sr3_gradient_gamma flat_gradient_beta flat_gradient_gamma; cbn [rbind];
     rewrite /to_vec !subrr !scaler0 !addr0; cbn [rmap]; rewrite !vec_of0.
Qed.
End Calls.
End Flat.
