(** Final lemmas about the priors of mixed models, restated as theorems in Properties/LmePrior.v. *)
(*HEAD
(** Property C118: Gaussian priors of mixed models (src/pysr3/lme/priors.py, oracles.py, problems.py), and C41 with a prior
    that is broadcast. *)
From Verif.Base Require Import Py Vec Mat RMx.
From Verif.Model Require Import Priors LmeProblem Solvers LmeInner LmeFit.
From Verif.Spec Require Import LinearSpec LmeSpec FitSpec PriorSpec.
From mathcomp Require Import ssreflect ssrfun ssrbool eqtype ssrnat choice seq fintype
  finfun bigop finset ssralg matrix mxalgebra.
From Verif.Model Require Import LmeOracle LmeBridge.
From Verif.Spec Require Import MxSpec.
HEAD*)
From Verif.Base Require Import Py Vec Mat RMx.
From Verif.Model Require Import Priors LmeProblem Solvers LmeInner LmeFit.
From Verif.Spec Require Import LinearSpec LmeSpec FitSpec PriorSpec.
From Verif.Proofs Require Import VecFacts SolverProofs LinearProofs LmeProblemProofs LmeProblemMain PriorProofs.
From Coq Require Import Lra Lia.
From mathcomp Require Import ssreflect ssrfun ssrbool eqtype ssrnat choice seq fintype
  finfun bigop finset ssralg zmodp matrix mxalgebra.
From Verif.Model Require Import LmeOracle LmeBridge.
From Verif.Spec Require Import MxSpec.
From Verif.Proofs Require Import MxFacts LmeOracleProofs LmeDerivatives LmeOracleMain BridgeProofs LmeUseMain.
(*OPEN
Set Implicit Arguments.
Unset Strict Implicit.
Unset Printing Implicit Defensive.
Delimit Scope R_scope with coqR.
Local Open Scope ring_scope.
OPEN*)
Set Implicit Arguments.
Unset Strict Implicit.
Unset Printing Implicit Defensive.
Delimit Scope R_scope with coqR.
Import GRing.Theory.
Local Open Scope ring_scope.

(** ** list and matrix form *)
Lemma part_list n (m s w x : vec) : length m = n -> length s = n -> length w = n -> length x = n ->
  gauss_part (col_of n m) (col_of n s) (col_of n w) (col_of n x) =
  vsum (vmul (vmul w (List.map (fun s => 1 / (2 * s))%coqR s)) (List.map (fun d => d ^ 2)%coqR (vsub x m))).
Proof.
  elim: n m s w x => [|n IH] [|m0 m] [|s0 s] [|w0 w] [|x0 x] //.
    by move=> _ _ _ _; rewrite /gauss_part big_ord0.
  move=> [h1] [h2] [h3] [h4]; rewrite /gauss_part big_ord_recl !mxE /= -(IH m s w x) // /gauss_part.
  rewrite /vsum /=; congr (_ + _)%coqR; last by apply: eq_bigr => i _; rewrite !mxE.
  by rewrite /Rdiv Rmult_1_l.
Qed.
Lemma grad_list n (m s w x : vec) : length m = n -> length s = n -> length w = n -> length x = n ->
  col_of n (vmul (vmul w (List.map (fun s => 1 / s)%coqR s)) (vsub x m)) =
  gauss_grad (col_of n m) (col_of n s) (col_of n w) (col_of n x).
Proof.
  move=> h1 h2 h3 h4; apply/matrixP => i k; rewrite !mxE.
  have hm : length (List.map (fun s => 1 / s)%coqR s) = n by rewrite List.map_length.
  have hs : length (vsub x m) = n by exact: vsub_len.
  have hv : length (vmul w (List.map (fun s => 1 / s)%coqR s)) = n by rewrite vmul_length // h3 hm.
  rewrite nth_vmul ?hv // nth_vmul ?h3 ?hm // nth_vsub ?h4 // nth_map_lt; last by rewrite h2; exact/ltP.
  by rewrite /Rdiv Rmult_1_l.
Qed.
Lemma hess_list n (m s w : vec) : length s = n -> length w = n ->
  mx_of n n (diag (vmul w (List.map (fun s => 1 / s)%coqR s))) = gauss_hess (Each (col_of n m) (col_of n s) (col_of n w)).
Proof.
  move=> h2 h3; apply/matrixP => i k; rewrite /gauss_hess diagvE !mxE.
  have hm : length (List.map (fun s => 1 / s)%coqR s) = n by rewrite List.map_length.
  have hv : length (vmul w (List.map (fun s => 1 / s)%coqR s)) = n by rewrite vmul_length // h3 hm.
  rewrite nth_diag ?hv; try exact/ltP.
  rewrite nth_vmul ?h3 ?hm // nth_map_lt; last by rewrite h2; exact/ltP.
  case: PeanoNat.Nat.eqb_spec => e.
    have -> : i == k by apply/eqP; apply: ord_inj.
    by rewrite mulr1n /Rdiv Rmult_1_l.
  have /negbTE -> : i != k by apply/eqP => ee; apply: e; rewrite ee.
  by rewrite mulr0n.
Qed.
Lemma col_repeat n (a : R) : col_of n (List.repeat a n) = const_mx a.
Proof.
  apply/matrixP => i k; rewrite !mxE; move: (ltn_ord i); move: (nat_of_ord i) => j {i}.
  by elim: n j => [|n IH] [|j] //= h; exact: IH.
Qed.

(** one part of the prior *)
Section Part.
Variables (n : nat) (g : gauss) (m s w : vec) (c : gauss_cols n).
Hypothesis hi : gp_inst g = Some (m, s, w).
Hypothesis h2 : length s = length m.
Hypothesis h3 : length w = length m.
Hypothesis hc : gauss_mx n (m, s, w) = Ok c.
Lemma part_cases : (length m = n /\ c = Each (col_of n m) (col_of n s) (col_of n w)) \/
  (length m <> n /\ exists a b d, m = [:: a] /\ s = [:: b] /\ w = [:: d] /\ c = One a b d).
Proof.
  move: hc; rewrite /gauss_mx; case: PeanoNat.Nat.eqb_spec => [h|h]; first by case=> <-; left.
  case: PeanoNat.Nat.eqb_spec => // h1 [<-]; right; split=> //.
  case: (m) h1 h2 h3 => [|a [|? ?]] // _; case: (s) => [|b [|? ?]] // _; case: (w) => [|d [|? ?]] // _.
  by exists a, b, d.
Qed.
Lemma part_value x : length x = n ->
  gauss_loss g x = Ok (gauss_part (means_of c) (stds_of c) (weights_of c) (col_of n x)) /\
  exists d, gauss_gradient g x = Ok d /\ length d = n /\
    col_of n d = gauss_grad (means_of c) (stds_of c) (weights_of c) (col_of n x).
Proof.
  move=> hx; rewrite /gauss_loss /gauss_gradient hi /gauss_match.
  case: part_cases => [[hm ->]|[hm [a [b [d [em [es [ew ->]]]]]]]] /=.
    rewrite hx hm PeanoNat.Nat.eqb_refl /=; split; first by rewrite part_list // ?h2 ?h3.
    eexists; split; first by []. split; last by apply: grad_list; rewrite ?h2 ?h3.
    have e1 : length (vmul w (List.map (fun s => 1 / s)%coqR s)) = n by rewrite vmul_length ?h3 ?List.map_length ?h2.
    by rewrite vmul_length ?e1 (vsub_len n).
  case: PeanoNat.Nat.eqb_spec => [e|_]; first by case: hm; rewrite -e.
  rewrite em es ew /= hx; split; first by rewrite -(@part_list n) ?List.repeat_length // !col_repeat.
  eexists; split; first by []. split; last by rewrite (@grad_list n) ?List.repeat_length // !col_repeat.
  have e1 : length (vmul (List.repeat d n) (List.map (fun s => 1 / s)%coqR (List.repeat b n))) = n
    by rewrite vmul_length ?List.map_length ?List.repeat_length.
  by rewrite vmul_length ?e1 (vsub_len n) ?List.repeat_length.
Qed.
Lemma part_hessian : length m = n -> exists h, gauss_hessian g = Ok h /\ mx_of n n h = gauss_hess c.
Proof.
  case: part_cases => [[hm ->]|[hm _]] // _; rewrite /gauss_hessian hi; eexists; split; first by [].
  by apply: hess_list; rewrite ?h2 ?h3.
Qed.
Lemma part_convex : Forall (fun t => 0 < t)%coqR s -> Forall (fun t => 0 <= t)%coqR w ->
  (forall i, 0 < stds_of c i ord0 /\ 0 <= weights_of c i ord0)%coqR.
Proof.
  move=> hs hw i; case: part_cases => [[hm ->]|[hm [a [b [d [em [es [ew ->]]]]]]]] /=; rewrite !mxE.
    have hi' : (i < length m)%coq_nat by rewrite hm; exact/ltP.
    split; [move/List.Forall_forall: hs; apply; apply: List.nth_In; rewrite h2 //
           |move/List.Forall_forall: hw; apply; apply: List.nth_In; rewrite h3 //].
  by move: hs hw; rewrite es ew => hs hw; split; [inversion hs | inversion hw].
Qed.
End Part.

Lemma mx_each n m s w : length m = n -> gauss_mx n (m, s, w) = Ok (Each (col_of n m) (col_of n s) (col_of n w)).
Proof. by rewrite /gauss_mx => ->; rewrite PeanoNat.Nat.eqb_refl. Qed.

(*@ C118 (partial).  A prior whose names are columns and whose deviations are not negative is accepted.  When there is one
    column for each coefficient it adds the terms of the named fixed effects and of the named variances to the loss, and
    their derivatives to gradients and Hessians.  All other dictionaries, and problems without names, are refused. *)
Lemma lme_prior_partial_lemma : forall fe re fcols rcols,
  (fcols <> [::] -> rcols <> [::] -> accepted fe fcols -> accepted re rcols ->
   exists g pri, gauss_lme_instantiate (mk_gauss_lme fe re) (Some fcols) (Some rcols) = Ok g /\
     prior_mx (length fcols) (length rcols) (Some g) = Ok pri /\ each_column pri /\ convex_prior pri /\
     forall beta gamma, length beta = length fcols -> length gamma = length rcols ->
       prior_loss pri (col_of (length fcols) beta) (col_of (length rcols) gamma) =
         (gauss_energy_coded fe fcols beta + gauss_energy_coded re rcols gamma)%coqR) /\
  (~ (fcols <> [::] /\ rcols <> [::] /\ accepted fe fcols /\ accepted re rcols) ->
   gauss_lme_instantiate (mk_gauss_lme fe re) (Some fcols) (Some rcols) = Err AssertionError) /\
  (forall cols, gauss_lme_instantiate (mk_gauss_lme fe re) None cols = Err AssertionError /\
     gauss_lme_instantiate (mk_gauss_lme fe re) cols None = Err AssertionError).
Proof.
  move=> fe re fcols rcols; split; [|split].
  - move=> nf nr af ar; have [b [r [eb [er [ei [lb lr]]]]]] := lme_instantiate_ok fe re fcols rcols nf nr af ar.
    have [mb [sb [wb [ib [hb1 [hb2 [hb3 [hb4 hb5]]]]]]]] := gauss_instantiate_full _ _ _ eb.
    have [mg [sg [wg [ig [hg1 [hg2 [hg3 [hg4 hg5]]]]]]]] := gauss_instantiate_full _ _ _ er.
    have cb := mx_each sb wb hb1; have cg := mx_each sg wg hg1.
    exists {| gl_fe := Some fe; gl_re := Some re; gl_beta := b; gl_gamma := r |}.
    exists (LGauss (Each (col_of _ mb) (col_of _ sb) (col_of _ wb)) (Each (col_of _ mg) (col_of _ sg) (col_of _ wg))); split; first by [].
    split; first by rewrite /prior_mx; cbn [gl_beta gl_gamma]; rewrite ib ig cb; cbn [rbind]; rewrite cg.
    split; first by [].
    split.
      by split; [apply: (part_convex _ _ cb hb4 hb5) | apply: (part_convex _ _ cg hg4 hg5)]; rewrite ?hb2 ?hb3 ?hg2 ?hg3 ?hb1 ?hg1.
    move=> beta gamma hx hy.
    have [||e1 _] := part_value ib _ _ cb hx; rewrite ?hb2 ?hb3 ?hb1 //.
    have [||e2 _] := part_value ig _ _ cg hy; rewrite ?hg2 ?hg3 ?hg1 //.
    by move: (lb _ hx) (lr _ hy); rewrite e1 e2 => -[e3] [e4]; rewrite -e3 -e4.
  - exact: lme_instantiate_err.
  - by move=> cols; split=> //; case: cols => [[|c cols]|].
Qed.

(*@ C118 (partial).  Whatever the columns: if the oracle accepts the prior for p fixed and q random effects, then its loss and
    its gradients are those of the oracle, and so are its Hessians when there is one column for each coefficient. *)
Lemma oracle_prior_partial_lemma : forall g0 fcols rcols g p q pri,
  gauss_lme_instantiate g0 (Some fcols) (Some rcols) = Ok g -> prior_mx p q (Some g) = Ok pri ->
  convex_prior pri /\
  (forall beta gamma, length beta = p -> length gamma = q ->
     gauss_lme_loss g beta gamma = Ok (prior_loss pri (col_of p beta) (col_of q gamma)) /\
     (exists d, gauss_lme_gradient_beta g beta = Ok d /\ length d = p /\
        col_of p d = prior_gradient_beta pri (col_of p beta)) /\
     (exists d, gauss_lme_gradient_gamma g gamma = Ok d /\ length d = q /\
        col_of q d = prior_gradient_gamma pri (col_of q gamma))) /\
  (length fcols = p -> exists h, gauss_lme_hessian_beta g = Ok h /\ mx_of p p h = prior_hessian_beta pri) /\
  (length rcols = q -> exists h, gauss_lme_hessian_gamma g = Ok h /\ mx_of q q h = prior_hessian_gamma pri).
Proof.
  move=> g0 fcols rcols g p q pri /lme_instantiate_inv [b [r [eb [er [egb egr]]]]].
  have [mb [sb [wb [ib [hb1 [hb2 [hb3 [hb4 hb5]]]]]]]] := gauss_instantiate_full _ _ _ eb.
  have [mg [sg [wg [ig [hg1 [hg2 [hg3 [hg4 hg5]]]]]]]] := gauss_instantiate_full _ _ _ er.
  rewrite /prior_mx egb egr ib ig; case cb: (gauss_mx p _) => [c|//]; cbn [rbind]; case cg: (gauss_mx q _) => [d|//].
  move=> [<-]; have kb2 : length sb = length mb by rewrite hb2.
  have kb3 : length wb = length mb by rewrite hb3.
  have kg2 : length sg = length mg by rewrite hg2.
  have kg3 : length wg = length mg by rewrite hg3.
  split; first by split; [exact: (part_convex kb2 kb3 cb) | exact: (part_convex kg2 kg3 cg)].
  split; [|split].
  - move=> beta gamma hx hy; have [e1 e2] := part_value ib kb2 kb3 cb hx; have [e3 e4] := part_value ig kg2 kg3 cg hy.
    by rewrite /gauss_lme_loss /gauss_lme_gradient_beta /gauss_lme_gradient_gamma egb egr e1 e3.
  - by move=> hl; rewrite /gauss_lme_hessian_beta egb; apply: (part_hessian ib kb2 kb3 cb); rewrite hb1.
  - by move=> hl; rewrite /gauss_lme_hessian_gamma egr; apply: (part_hessian ig kg2 kg3 cg); rewrite hg1.
Qed.

Lemma mx_err n x e : gauss_mx n x = Err e -> e = ValueError.
Proof. by case: x => -[m s] w; rewrite /gauss_mx; case: PeanoNat.Nat.eqb => //; case: PeanoNat.Nat.eqb => // -[]. Qed.
Lemma mx_names n (m s w : vec) f : n = (length m + b2n f)%coq_nat ->
  (f = false -> gauss_mx n (m, s, w) = Ok (Each (col_of n m) (col_of n s) (col_of n w))) /\
  (f = true -> length m <> 1%N -> gauss_mx n (m, s, w) = Err ValueError) /\
  (f = true -> forall c, gauss_mx n (m, s, w) = Ok c -> match c with One _ _ _ => True | _ => False end).
Proof.
  move=> hn; split; [|split].
  - by move=> hf; apply: mx_each; rewrite hn hf /b2n PeanoNat.Nat.add_0_r.
  - move=> hf h1; rewrite /gauss_mx; case: PeanoNat.Nat.eqb_spec => e; first by move: e; rewrite hn hf /b2n; lia.
    by case: PeanoNat.Nat.eqb_spec.
  - move=> hf c; rewrite /gauss_mx; case: PeanoNat.Nat.eqb_spec => e; first by exfalso; have := hn; rewrite hf /b2n e; lia.
    by case: PeanoNat.Nat.eqb_spec => // _ [<-].
Qed.
(*@ C118 (partial).  A problem made from a table has one name fewer than coefficients for each intercept.  So a prior that
    instantiate accepts has a column for each coefficient exactly when there is no intercept; with an intercept every
    evaluation raises ValueError, unless there is only one column, which numpy then uses for all coefficients. *)
Lemma table_prior_partial_lemma : forall x0 y columns labels ff fr mf mr pr fc rc g0 g,
  from_x_y x0 y columns labels ff fr mf mr = Ok pr -> pr_fe_columns pr = Some fc -> pr_re_columns pr = Some rc ->
  gauss_lme_instantiate g0 (Some fc) (Some rc) = Ok g ->
  let r := prior_mx (num_fixed pr) (num_random pr) (Some g) in
  (ff = false -> fr = false -> exists pri, r = Ok pri /\ each_column pri) /\
  (ff = true \/ fr = true -> forall pri, r = Ok pri -> ~ each_column pri) /\
  (ff = true /\ length fc <> 1%N \/ fr = true /\ length rc <> 1%N -> r = Err ValueError).
Proof.
  move=> x0 y columns labels ff fr mf mr pr fc rc g0 g hx hf hr hi.
  have [nf nr] := table_names _ _ _ _ _ _ _ _ _ _ _ hx hf hr.
  have [b [r [eb [er [egb egr]]]]] := lme_instantiate_inv _ _ _ _ hi.
  have [mb [sb [wb [ib [hb1 _]]]]] := gauss_instantiate_full _ _ _ eb.
  have [mg [sg [wg [ig [hg1 _]]]]] := gauss_instantiate_full _ _ _ er.
  have [fb1 [fb2 fb3]] := @mx_names _ mb sb wb ff (etrans nf (f_equal (fun k => (k + b2n ff)%coq_nat) (esym hb1))).
  have [fg1 [fg2 fg3]] := @mx_names _ mg sg wg fr (etrans nr (f_equal (fun k => (k + b2n fr)%coq_nat) (esym hg1))).
  rewrite /= /prior_mx egb egr ib ig; split; [|split].
  - move=> h1 h2; rewrite (fb1 h1); cbn [rbind]; rewrite (fg1 h2); cbn [rbind]; by eexists; split.
  - move=> h pri; case e1: (gauss_mx _ _) => [c|//]; cbn [rbind]; case e2: (gauss_mx _ _) => [d|//]; cbn [rbind] => -[<-].
    by case: h => h; [have := fb3 h _ e1 | have := fg3 h _ e2]; case: c {e1} => ? ? ?; case: d {e2} => ? ? ? /=; tauto.
  - rewrite -hb1 -hg1; case=> -[h1 h2]; first by rewrite (fb2 h1 h2).
    case e: (gauss_mx _ (mb, _, _)) => [c|ex]; cbn [rbind]; first by rewrite (fg2 h1 h2).
    by rewrite (mx_err e).
Qed.

(*@ the table of the example without an intercept: a prior for the fixed effect "time" and the variance "z" is accepted *)
Lemma ex_table_prior_lemma : let fe := [:: ("time"%string, (1, 1)%coqR)] in let re := [:: ("z"%string, (2, 3)%coqR)] in
  accepted fe [:: "time"%string] /\ accepted re [:: "z"%string] /\
  exists pr g, from_x_y flat_table (Some [:: 0%coqR]) (Some prior_names) (Some flat_labels) false false None None = Ok pr /\
  pr_fe_columns pr = Some [:: "time"%string] /\ pr_re_columns pr = Some [:: "z"%string] /\
  gauss_lme_instantiate (mk_gauss_lme fe re) (pr_fe_columns pr) (pr_re_columns pr) = Ok g /\
  forall b v, gauss_lme_loss g [:: b] [:: v] = Ok ((b - 1) ^ 2 / 2 + (v - 2) ^ 2 / 6)%coqR.
Proof.
  have i0 : is_int 0%coqR = true by apply/is_int_true; exists Z0.
  have n1 : nonzero 1%coqR = true by apply/nonzero_true; lra.
  have r0 : reqb 0%coqR 0%coqR = true by exact: reqb_refl.
  have g0 : in_group 0 0 [:: 0; 0; 0; 1]%coqR = true by exact: r0.
  split; first by split; repeat constructor; rewrite /=; lra.
  split; first by split; repeat constructor; rewrite /=; lra.
  do 2!eexists; split.
    rewrite /from_x_y /flat_table /flat_labels /prior_names /=.
    rewrite /column /= n1 /=. rewrite /unique_labels /= i0 /=.
    by rewrite /where_ /= !g0.
  do 2!split=> //.
  have l1 : rleb 0 1 = true by apply/rleb_true; lra.
  have l2 : rltb 0 1 = true by apply/rltb_true; lra.
  have l3 : rleb 0 3 = true by apply/rleb_true; lra.
  have l4 : rltb 0 3 = true by apply/rltb_true; lra.
  rewrite /gauss_lme_instantiate /gauss_instantiate /gauss_column /=.
  rewrite l1 l2 l3 l4 /=; split; first by [].
  move=> b v; rewrite /gauss_lme_loss /gauss_loss /=; congr Ok.
  by rewrite /vsum /=; field.
Qed.

(*@ C118 is false for the prior of the documentation: with an intercept the names of the table's fixed effects do not contain
    "intercept", so the fit raises AssertionError.  A prior for the only other column is accepted, and pulls the intercept
    to its mean as well. *)
Lemma prior_with_intercept_refuted_lemma :
  exists pr, from_x_y flat_table (Some [:: 0%coqR]) (Some prior_names) (Some flat_labels) true false None None = Ok pr /\
  num_fixed pr = 2%N /\
  (let documented := prior_model [:: ("intercept"%string, (0, 2)%coqR); ("time"%string, (1, 1)%coqR)] in
   prior_of documented pr = Err AssertionError /\
   forall argsort cdf coef beta0 gamma0 warm fe re,
     lme_fit_problem argsort cdf documented coef pr beta0 gamma0 warm fe re = Err AssertionError) /\
  exists g, prior_of (prior_model [:: ("time"%string, (1, 1)%coqR)]) pr = Ok (Some g) /\
  forall intercept time variance,
    gauss_lme_loss g [:: intercept; time] [:: variance] = Ok ((intercept - 1) ^ 2 / 2 + (time - 1) ^ 2 / 2)%coqR.
Proof.
  have i0 : is_int 0%coqR = true by apply/is_int_true; exists Z0.
  have n1 : nonzero 1%coqR = true by apply/nonzero_true; lra.
  have r0 : reqb 0%coqR 0%coqR = true by exact: reqb_refl.
  have g0 : in_group 0 0 [:: 0; 0; 0; 1]%coqR = true by exact: r0.
  eexists; split.
    rewrite /from_x_y /flat_table /flat_labels /prior_names /=.
    rewrite /column /= n1 /=. rewrite /unique_labels /= i0 /=.
    by rewrite /where_ /= !g0.
  split; first by [].
  split.
    by split.
  have l1 : rleb 0 1 = true by apply/rleb_true; lra.
  have l2 : rltb 0 1 = true by apply/rltb_true; lra.
  have l3 : rleb 0 0 = true by apply/rleb_true; lra.
  have l4 : rltb 0 0 = false by apply/rltb_false; lra.
  rewrite /prior_of /gauss_lme_instantiate /gauss_instantiate /gauss_column /=.
  rewrite l1 l2 l3 l4 /=; eexists; split; first by [].
  move=> a b v; rewrite /gauss_lme_loss /gauss_loss /=; congr Ok.
  by rewrite /vsum /=; field.
Qed.

(*@ C41 is false for a prior with one column that numpy uses for more coefficients: its variance is added to all entries of
    the Hessian, while the derivative only has it on the diagonal. *)
Lemma hessians_are_derivatives_refuted_lemma : forall (p q : nat) (gs : seq (group p q)) m s w (g : gauss_cols q) beta gamma i j,
  i != j -> admissible gs gamma -> (w / s <> 0)%coqR ->
  exists hb, lme_hessian_beta gs (LGauss (One m s w) g) gamma = Ok hb /\
  let entry_at t := entry (lme_gradient_beta gs (LGauss (One m s w) g) (along beta j t) gamma) i in
  derivable_pt_lim entry_at 0 (hb i j - w / s)%coqR /\ ~ derivable_pt_lim entry_at 0 (hb i j).
Proof.
  move=> p q gs m s w g beta gamma i j hij ha hw.
  have [hb [eb vb]] := hessian_beta_ok (LGauss (One m s w) g) ha.
  pose cm (x : R) : 'cV[R]_p := const_mx x.
  pose pr' : lme_prior p q := LGauss (Each (cm m) (cm s) (cm w)) (Each 0 0 0).
  have [h' [eb' vb']] := hessian_beta_ok pr' ha.
  have d := @hessian_beta_derives p q gs pr' beta gamma ha i j h' I eb'.
  have e : h' i j = (hb i j - w / s)%coqR.
    rewrite vb vb' /= !mxE (negbTE hij) mulr0n; toR; rewrite /Rdiv; ring.
  exists hb; split=> //= ; rewrite -e; split; first exact: d.
  by move=> d2; have := uniqueness_limite _ _ _ _ d d2; lra.
Qed.

(*@ there are such data: one observation, two fixed effects, one random effect *)
Lemma ex_hessians_refuted_lemma : exists (gs : seq (group 2 1)), groups_of 2 1 (flat_problem 2 1) = Ok gs /\
  admissible gs (0 : 'cV[R]_1) /\ (ord0 : 'I_2) != ord_max /\ (1 / 1 <> 0)%coqR.
Proof.
  exists [:: flat_group 2 1]; split; first exact: flat_groups.
  split; first exact: flat_admissible.
  by split=> //; lra.
Qed.
