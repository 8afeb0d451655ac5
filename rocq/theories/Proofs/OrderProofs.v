(** The evaluations of the oracle do not depend on the order of the observations of a group. *)
From Verif.Base Require Import Py Vec Mat RMx.
From Verif.Model Require Import LmeProblem LmeInner LmeFit.
From Coq Require Import Lra FunctionalExtensionality Classical.
From mathcomp Require Import ssreflect ssrfun ssrbool eqtype ssrnat choice seq fintype
  finfun bigop finset fingroup perm ssralg zmodp matrix mxalgebra.
From Verif.Model Require Import LmeOracle LmeBridge.
From Verif.Spec Require Import MxSpec OrderSpec.
From Verif.Proofs Require Import MxFacts LmeOracleProofs LmeEstimates LmeBlup LmeCriteria.
Set Implicit Arguments.
Unset Strict Implicit.
Unset Printing Implicit Defensive.
Delimit Scope R_scope with coqR.
Import GRing.Theory.
Local Open Scope ring_scope.
Local Open Scope res_scope.

Section Conj.
Variables (n : nat) (s : 'S_n).
Notation P := (perm_mx s : 'M[R]_n).
Definition conj (A : 'M[R]_n) : 'M[R]_n := P *m A *m P^T.
Lemma PtP : P^T *m P = 1%:M.
Proof. by rewrite tr_perm_mx -perm_mxM mulVg perm_mx1. Qed.
Lemma PPt : P *m P^T = 1%:M.
Proof. by rewrite tr_perm_mx -perm_mxM mulgV perm_mx1. Qed.
Lemma conjE A i j : conj A i j = A (s i) (s j).
Proof. by rewrite /conj tr_perm_mx -row_permE -col_permE !mxE. Qed.
Lemma conj_cancel m k (A : 'M[R]_n) (B : 'M[R]_(n, m)) (C : 'M[R]_(n, k)) :
  (row_perm s B)^T *m conj A *m row_perm s C = B^T *m A *m C.
Proof.
  rewrite !row_permE /conj trmx_mul !mulmxA -(mulmxA _ P^T P) PtP mulmx1.
  by rewrite -(mulmxA _ P^T P) PtP mulmx1.
Qed.
Lemma conj_unit A : (conj A \in unitmx) = (A \in unitmx).
Proof. by rewrite /conj !unitmx_mul unitmx_tr unitmx_perm /= andbT. Qed.
Lemma conj_inv A : invmx (conj A) = conj (invmx A).
Proof.
  case u : (A \in unitmx); last by rewrite /invmx conj_unit u.
  have e : conj A *m conj (invmx A) = 1%:M.
    rewrite /conj !mulmxA -(mulmxA _ P^T P) PtP mulmx1 -(mulmxA P) mulmxV // mulmx1.
    exact: PPt.
  by rewrite -[LHS]mulmx1 -e mulmxA mulVmx ?conj_unit // mul1mx.
Qed.
Lemma conj_det A : \det (conj A) = \det A.
Proof.
  have := congr1 determinant PPt; rewrite det_mulmx det1 => e.
  by rewrite /conj !det_mulmx mulrAC e mul1r.
Qed.
Lemma conj_tr A : \tr (conj A) = \tr A.
Proof. by rewrite /conj mxtrace_mulC mulmxA PtP mul1mx. Qed.
Lemma conj_mul A B : conj A *m conj B = conj (A *m B).
Proof. by rewrite /conj !mulmxA -(mulmxA _ P^T P) PtP mulmx1. Qed.
Lemma conj_diag (v : 'cV[R]_n) : diagv (row_perm s v) = conj (diagv v).
Proof. by apply/matrixP => i j; rewrite conjE !diagvE mxE (inj_eq perm_inj). Qed.
Lemma conj_bf A a b : bf (conj A) (row_perm s a) (row_perm s b) = bf A a b.
Proof. by rewrite /bf conj_cancel. Qed.
Lemma conj_pd A : pd A -> pd (conj A).
Proof.
  move=> [t h]; split; first by rewrite /conj !trmx_mul trmxK t mulmxA.
  move=> x x0; have -> : qf (conj A) x = qf A (P^T *m x) by rewrite /qf /conj trmx_mul trmxK !mulmxA.
  by apply: h => e; apply: x0; rewrite -(mul1mx x) -PPt -mulmxA e mulmx0.
Qed.
Lemma row_perm_vinv (v : 'cV[R]_n) : vinv (row_perm s v) = row_perm s (vinv v).
Proof. by apply/matrixP => i j; rewrite !mxE. Qed.
Lemma row_perm_sum (F : 'I_n -> R) : \sum_i F (s i) = \sum_i F i.
Proof. by rewrite [RHS](reindex_inj (@perm_inj _ s)). Qed.
End Conj.
Lemma conj_back n (s : 'S_n) A : conj s^-1 (conj s A) = A.
Proof. by apply/matrixP => i j; rewrite !conjE !permKV. Qed.
Lemma conj_pdE n (s : 'S_n) A : pd (conj s A) <-> pd A.
Proof. by split; [move=> h; rewrite -(conj_back s A); exact: conj_pd | exact: conj_pd]. Qed.
Lemma row_permM n m k (s : 'S_n) (A : 'M[R]_(n, m)) (B : 'M[R]_(m, k)) :
  row_perm s A *m B = row_perm s (A *m B).
Proof. by rewrite !row_permE mulmxA. Qed.
Lemma row_permB n m (s : 'S_n) (A B : 'M[R]_(n, m)) : row_perm s A - row_perm s B = row_perm s (A - B).
Proof. by apply/matrixP => i j; rewrite !mxE. Qed.
Lemma col_row_perm n m (s : 'S_n) (A : 'M[R]_(n, m)) j : col j (row_perm s A) = row_perm s (col j A).
Proof. by apply/matrixP => i k; rewrite !mxE. Qed.

Section Group.
Variables (p q : nat) (g : group p q) (s : 'S_(g_n g)).
Implicit Types (beta : 'cV[R]_p) (gamma : 'cV[R]_q).
Notation g' := (reorder g s).

Lemma Omega_reorder gamma : Omega gamma g' = conj s (Omega gamma g).
Proof.
  rewrite /Omega /= -!/(diagv _) conj_diag !row_permE /conj.
  by rewrite trmx_mul !mulmxA mulmxDr mulmxDl !mulmxA.
Qed.
Lemma resid_reorder beta : resid beta g' = row_perm s (resid beta g).
Proof. by rewrite /resid /= row_permM row_permB. Qed.
Lemma reorder_pd gamma : pd (Omega gamma g') <-> pd (Omega gamma g).
Proof. by rewrite Omega_reorder; exact: conj_pdE. Qed.

Section Eval.
Variables (beta : 'cV[R]_p) (gamma : 'cV[R]_q).
Hypothesis h : pd (Omega gamma g).
Let h' : pd (Omega gamma g').
Proof. exact/reorder_pd. Qed.
Notation inv := (invmx (Omega gamma g)).
Let einv : invmx (Omega gamma g') = conj s inv.
Proof. by rewrite Omega_reorder conj_inv. Qed.
Let zcE j : zc g' j = row_perm s (zc g j).
Proof. exact: col_row_perm. Qed.
Let xcE j : xc g' j = row_perm s (xc g j).
Proof. exact: col_row_perm. Qed.

Lemma loss_reorder : group_loss beta (fac gamma g') = group_loss beta (fac gamma g).
Proof.
  rewrite !group_loss_fac // /nll Omega_reorder conj_inv conj_det resid_reorder.
  by rewrite conj_cancel.
Qed.
Lemma gradient_gamma_reorder : group_gradient_gamma beta (fac gamma g') = group_gradient_gamma beta (fac gamma g).
Proof.
  apply/matrixP => j k; rewrite (ord1 k) !gradient_gamma_fac // einv resid_reorder zcE.
  by rewrite !conj_bf.
Qed.
Lemma hessian_gamma_reorder a b :
  group_hessian_gamma a b beta (fac gamma g') = group_hessian_gamma a b beta (fac gamma g).
Proof.
  by apply/matrixP => i j; rewrite !hessian_gamma_fac // einv resid_reorder !zcE !conj_bf.
Qed.
Lemma gradient_beta_reorder : group_gradient_beta beta (fac gamma g') = group_gradient_beta beta (fac gamma g).
Proof.
  by apply/matrixP => j k; rewrite (ord1 k) !gradient_beta_fac // einv resid_reorder xcE conj_bf.
Qed.
Lemma kernel_reorder : group_kernel (fac gamma g') = group_kernel (fac gamma g).
Proof. by rewrite !kernel_fac // einv /= conj_cancel. Qed.
Lemma tail_reorder : group_tail (fac gamma g') = group_tail (fac gamma g).
Proof. by rewrite !tail_fac // einv /= conj_cancel. Qed.
Lemma mixed_reorder : group_hessian_mixed beta (fac gamma g') = group_hessian_mixed beta (fac gamma g).
Proof.
  by apply/matrixP => j i; rewrite !mixed_fac // einv resid_reorder xcE !zcE !conj_bf.
Qed.
Lemma n_eff_reorder : group_n_eff (fac gamma g') = group_n_eff (fac gamma g).
Proof.
  rewrite !group_n_eff_ok //; congr Ok; rewrite Omega_reorder.
  have -> : correlations (conj s (Omega gamma g)) = conj s (correlations (Omega gamma g)).
    by apply/matrixP => i j; rewrite conjE [LHS]mxE [RHS]mxE !conjE.
  rewrite conj_inv; have -> : const_mx 1%coqR = row_perm s (const_mx 1%coqR) :> 'cV[R]_(g_n g).
    by apply/matrixP => i j; rewrite !mxE.
  by rewrite !qf_bf conj_bf; congr bf; apply/matrixP => i j; rewrite !mxE.
Qed.
End Eval.

Lemma blup_kernel_reorder gamma : blup_kernel gamma g' = blup_kernel gamma g.
Proof.
  rewrite /blup_kernel /= row_permM row_perm_vinv conj_diag.
  by rewrite conj_cancel.
Qed.
Lemma effects_reorder beta gamma : group_effects beta gamma g' = group_effects beta gamma g.
Proof.
  rewrite /group_effects blup_kernel_reorder /=; congr (rbind (np_solve _ _) _).
  rewrite -[residual g' beta]/(resid beta g') resid_reorder row_permM row_perm_vinv conj_diag.
  by rewrite conj_cancel.
Qed.
Lemma conditional_reorder beta u : group_conditional beta (g', u) = group_conditional beta (g, u).
Proof.
  rewrite /group_conditional /= !row_permM !row_permB.
  congr (_ * _ + _ * _)%coqR.
  - rewrite -[RHS](row_perm_sum s); apply: eq_bigr => i _; by rewrite !mxE.
  - rewrite -[RHS](row_perm_sum s); apply: eq_bigr => i _; by rewrite !mxE.
Qed.
Lemma hat_diagonal_reorder gamma : hat_diagonal gamma g' = rmap (conj s) (hat_diagonal gamma g).
Proof.
  rewrite /hat_diagonal blup_kernel_reorder.
  case: (np_inv _) => [k|e] //=; congr Ok.
  have e m (B : 'M[R]_(g_n g, m)) A : (row_perm s B)^T *m conj s A = B^T *m A *m (perm_mx s)^T.
    by rewrite row_permE /conj trmx_mul !mulmxA -(mulmxA _ (perm_mx s)^T (perm_mx s)) PtP mulmx1.
  rewrite (row_permM _ (g_z g) (select _)) row_perm_vinv conj_diag e.
  by rewrite row_permE /conj !mulmxA.
Qed.
End Group.

(** ** all groups *)
Section Groups.
Variables (p q : nat).
Implicit Types (gs : seq (group p q)) (beta : 'cV[R]_p) (gamma : 'cV[R]_q).

Lemma same_rows_n (g g' : group p q) : same_rows g g' -> g_n g' = g_n g.
Proof. by case=> s ->. Qed.
Variables gs gs' : seq (group p q).
Hypothesis same : List.Forall2 (@same_rows p q) gs gs'.

Lemma same_size : size gs' = size gs.
Proof. by elim: same => [//|g g' l l' _ _ /= ->]. Qed.
Lemma same_total : total_obs gs' = total_obs gs.
Proof.
  rewrite /total_obs; elim: same => [//|g g' l l' h _ IH]; rewrite ?big_nil // !big_cons IH.
  by rewrite (same_rows_n h).
Qed.
Lemma same_admissible gamma : admissible gs' gamma <-> admissible gs gamma.
Proof.
  rewrite /admissible; elim: same => [//|g g' l l' [s ->] _ IH]; split=> h a /= [<-|hin].
  - by apply/(reorder_pd s); apply: h; left.
  - by apply: (proj1 IH) hin => b hb; apply: h; right.
  - by apply/reorder_pd; apply: h; left.
  - by apply: (proj2 IH) hin => b hb; apply: h; right.
Qed.

(** an evaluation that factorises first *)
Lemma same_eval (A : Type) (k k' : seq (fgroup p q) -> res A) gamma :
  (admissible gs gamma -> k' (List.map (fac gamma) gs') = k (List.map (fac gamma) gs)) ->
  (let! fs := recalculate gs' gamma in k' fs) = (let! fs := recalculate gs gamma in k fs).
Proof.
  move=> h; case: (classic (admissible gs gamma)) => ha.
    by rewrite !recalculate_ok /= ?h //; apply/same_admissible.
  by rewrite !recalculate_err // => /same_admissible.
Qed.
Lemma same_sum (V : zmodType) (F : fgroup p q -> V) gamma : admissible gs gamma ->
  (forall (g : group p q) (s : 'S_(g_n g)), pd (Omega gamma g) -> F (fac gamma (reorder g s)) = F (fac gamma g)) ->
  \sum_(f <- List.map (fac gamma) gs') F f = \sum_(f <- List.map (fac gamma) gs) F f.
Proof.
  move=> ha hF; rewrite !big_lmap; elim: same ha => [//|g g' l l' [s ->] _ IH] ha; rewrite ?big_nil // !big_cons.
  by rewrite hF ?IH // => [a hin|]; apply: ha; [right|left].
Qed.
Lemma same_seq (A : Type) (F : group p q -> res A) :
  (forall (g : group p q) (s : 'S_(g_n g)), F (reorder g s) = F g) ->
  List.map F gs' = List.map F gs.
Proof. by move=> hF; elim: same => [//|g g' l l' [s ->] _ /= ->]; rewrite hF. Qed.

Lemma same_loss : lme_loss gs' = lme_loss gs.
Proof.
  apply: functional_extensionality => pr; apply: functional_extensionality => beta.
  apply: functional_extensionality => gamma.
  apply: same_eval => ha; congr (Ok (_ + _)%coqR).
  by apply: same_sum => // g s hg; exact: loss_reorder.
Qed.
Lemma same_gradient_gamma : lme_gradient_gamma gs' = lme_gradient_gamma gs.
Proof.
  apply: functional_extensionality => pr; apply: functional_extensionality => beta.
  apply: functional_extensionality => gamma.
  apply: same_eval => ha; congr (Ok (_ + _)).
  by apply: same_sum => // g s hg; exact: gradient_gamma_reorder.
Qed.
Lemma same_hessian_gamma : lme_hessian_gamma gs' = lme_hessian_gamma gs.
Proof.
  apply: functional_extensionality => pr; apply: functional_extensionality => a.
  apply: functional_extensionality => b; apply: functional_extensionality => beta.
  apply: functional_extensionality => gamma.
  apply: same_eval => ha; congr (Ok (_ *: _ + _)).
  by apply: same_sum => // g s hg; exact: hessian_gamma_reorder.
Qed.
Lemma same_gradient_beta : lme_gradient_beta gs' = lme_gradient_beta gs.
Proof.
  apply: functional_extensionality => pr; apply: functional_extensionality => beta.
  apply: functional_extensionality => gamma.
  apply: same_eval => ha; congr (Ok (_ + _)).
  by apply: same_sum => // g s hg; exact: gradient_beta_reorder.
Qed.
Lemma same_hessian_beta : lme_hessian_beta gs' = lme_hessian_beta gs.
Proof.
  apply: functional_extensionality => pr; apply: functional_extensionality => gamma.
  apply: same_eval => ha; congr (Ok (_ + _)).
  by apply: same_sum => // g s hg; exact: kernel_reorder.
Qed.
Lemma same_hessian_mixed : lme_hessian_beta_gamma gs' = lme_hessian_beta_gamma gs.
Proof.
  apply: functional_extensionality => beta; apply: functional_extensionality => gamma.
  apply: same_eval => ha; congr (Ok _^T).
  by apply: same_sum => // g s hg; exact: mixed_reorder.
Qed.
Lemma same_kernel_tail : kernel_tail gs' = kernel_tail gs.
Proof.
  apply: functional_extensionality => gamma.
  apply: same_eval => ha; congr (Ok (_, _)).
    by apply: same_sum => // g s hg; exact: kernel_reorder.
  by apply: same_sum => // g s hg; exact: tail_reorder.
Qed.
Lemma same_optimal_beta : lme_optimal_beta gs' = lme_optimal_beta gs.
Proof. by rewrite /lme_optimal_beta same_kernel_tail. Qed.
Lemma same_random_effects : lme_random_effects gs' = lme_random_effects gs.
Proof.
  apply: functional_extensionality => beta; apply: functional_extensionality => gamma.
  apply: same_eval => _; congr sequence; apply: same_seq => g s; exact: effects_reorder.
Qed.
Lemma same_demarginalized : lme_demarginalized_loss gs' = lme_demarginalized_loss gs.
Proof.
  apply: functional_extensionality => pr; apply: functional_extensionality => beta.
  apply: functional_extensionality => gamma.
  rewrite /lme_demarginalized_loss same_random_effects; case: (lme_random_effects _ _ _) => //= us.
  congr (Ok (_ + _)%coqR); elim: same us => [|g g' l l' [s ->] _ IH] [|u us] /=; rewrite ?big_nil // !big_cons IH.
  by rewrite conditional_reorder.
Qed.
Lemma same_n_eff gamma : admissible gs gamma ->
  n_eff (List.map (fac gamma) gs') = n_eff (List.map (fac gamma) gs).
Proof.
  move=> ha; rewrite /n_eff !List.map_map.
  suff -> : List.map (fun g => group_n_eff (fac gamma g)) gs' = List.map (fun g => group_n_eff (fac gamma g)) gs by [].
  elim: same ha => [//|g g' l l' [s ->] _ IH] ha /=.
  rewrite IH; last by move=> a hin; apply: ha; right.
  by rewrite n_eff_reorder //; apply: ha; left.
Qed.
Lemma same_jones : lme_jones_bic gs' = lme_jones_bic gs.
Proof.
  apply: functional_extensionality => pr; apply: functional_extensionality => tol.
  apply: functional_extensionality => beta; apply: functional_extensionality => gamma.
  by apply: same_eval => ha; rewrite same_loss same_n_eff.
Qed.
Lemma same_sr3_jones : sr3_jones_bic gs' = sr3_jones_bic gs.
Proof.
  apply: functional_extensionality => pr; apply: functional_extensionality => tol.
  apply: functional_extensionality => beta; apply: functional_extensionality => gamma.
  by apply: same_eval => ha; rewrite same_loss same_n_eff.
Qed.
Lemma same_muller : lme_muller_ic gs' = lme_muller_ic gs.
Proof. by rewrite /lme_muller_ic same_loss same_total same_size. Qed.
Lemma same_sr3_muller : sr3_muller_ic gs' = sr3_muller_ic gs.
Proof. by rewrite /sr3_muller_ic same_loss same_total same_size. Qed.

(** the contribution of one group to the degrees of freedom *)
Definition row_ddf gamma (ki : 'M[R]_p) (g : group p q) : res R :=
  let! d := hat_diagonal gamma g in
  let r := @HatRow _ _ (fac gamma g) d in
  Ok (\tr (hat_block ki r (hr_f r)) + \tr (hr_diagonal r))%coqR.
Lemma row_ddf_reorder gamma ki (g : group p q) (s : 'S_(g_n g)) : pd (Omega gamma g) ->
  row_ddf gamma ki (reorder g s) = row_ddf gamma ki g.
Proof.
  move=> h; have h' : pd (Omega gamma (reorder g s)) by apply/reorder_pd.
  rewrite /row_ddf hat_diagonal_reorder; case: (hat_diagonal gamma g) => [d|] //=; congr Ok.
  apply: (f_equal2 Rplus); last exact: conj_tr.
  rewrite /hat_block /= (h_beta_fac ki (reorder g s) h') (h_beta_fac ki g h).
  set A := g_x g *m _.
  have -> : g_x (reorder g s) *m (ki *m ((g_x (reorder g s))^T *m invmx (Omega gamma (reorder g s)))) = conj s A.
    rewrite Omega_reorder conj_inv /A /= row_permE /conj trmx_mul !mulmxA.
    by rewrite -(mulmxA _ (perm_mx s)^T (perm_mx s)) PtP mulmx1.
  by rewrite conj_mul !raddfB /= !conj_tr.
Qed.
Lemma ddf_rows gamma (l : seq (group p q)) ki :
  (let! rows := sequence (List.map (fun f => let! d := hat_diagonal gamma (f_g f) in Ok (@HatRow p q f d))
                            (List.map (fac gamma) l)) in
   Ok (\sum_(r <- rows) (\tr (hat_block ki r (hr_f r)) + \tr (hr_diagonal r))%coqR))
  = (let! ds := sequence (List.map (row_ddf gamma ki) l) in Ok (\sum_(d <- ds) d)).
Proof.
  elim: l => [|g l IH] /=; first by rewrite !big_nil.
  rewrite /row_ddf; case: (hat_diagonal gamma g) => [d|] //=.
  move: IH; case: (sequence _) => [rows|e] /=; case: (sequence _) => [ds|e'] //= [IH].
    by congr Ok; rewrite !big_cons IH.
Qed.
Lemma same_ddf : lme_ddf gs' = lme_ddf gs.
Proof.
  apply: functional_extensionality => gamma.
  have e (l : seq (group p q)) : lme_ddf l gamma = (let! fs := recalculate l gamma in
      let! ki := np_inv (\sum_(f <- fs) group_kernel f) in
      let! rows := sequence (List.map (fun f => let! d := hat_diagonal gamma (f_g f) in Ok (@HatRow p q f d)) fs) in
      Ok (\sum_(r <- rows) (\tr (hat_block ki r (hr_f r)) + \tr (hr_diagonal r))%coqR)).
    rewrite /lme_ddf /hat_rows; case: (recalculate _ _) => //= fs; case: (np_inv _) => //= ki.
    by case: (sequence _).
  rewrite !e; apply: same_eval => ha.
  have -> : \sum_(f <- List.map (fac gamma) gs') group_kernel f = \sum_(f <- List.map (fac gamma) gs) group_kernel f.
    by apply: same_sum => // g s hg; exact: kernel_reorder.
  case: (np_inv _) => //= ki; rewrite !ddf_rows.
  suff -> : List.map (row_ddf gamma ki) gs' = List.map (row_ddf gamma ki) gs by [].
  elim: same ha => [//|g g' l l' [s ->] _ IH] ha /=.
  rewrite IH; last by move=> a hin; apply: ha; right.
  by rewrite row_ddf_reorder //; apply: ha; left.
Qed.
Lemma same_vaida : lme_vaida_aic gs' = lme_vaida_aic gs.
Proof. by rewrite /lme_vaida_aic same_total same_loss same_ddf same_demarginalized. Qed.
Lemma same_sr3_vaida : sr3_vaida_aic gs' = sr3_vaida_aic gs.
Proof. by rewrite /sr3_vaida_aic same_total same_loss same_ddf same_demarginalized. Qed.

Lemma same_calls pri cdf ss : list_calls (Ok gs') pri cdf ss = list_calls (Ok gs) pri cdf ss.
Proof.
  have esr3 a b : list_sr3_calls (Ok gs') pri a b = list_sr3_calls (Ok gs) pri a b.
    rewrite /list_sr3_calls /with_prior /at_params /= /sr3_gradient_beta /sr3_gradient_gamma /sr3_hessian_beta
      /sr3_hessian_gamma /sr3_optimal_beta /sr3_loss.
    rewrite same_loss same_gradient_beta same_gradient_gamma same_hessian_beta same_hessian_gamma
      same_hessian_mixed same_kernel_tail.
    reflexivity.
  rewrite /list_calls; case: ss => [ss|]; rewrite !esr3 /list_loss /list_gradient_beta /list_gradient_gamma /list_optimal_beta
    /list_random_effects /with_prior /at_params /= /lme_flip_probabilities /sr3_flip_probabilities /sr3_hessian_beta.
  - by rewrite same_loss same_gradient_beta same_gradient_gamma same_optimal_beta same_random_effects
      same_sr3_vaida same_sr3_jones same_sr3_muller same_hessian_beta.
  - by rewrite same_loss same_gradient_beta same_gradient_gamma same_optimal_beta same_random_effects same_vaida
      same_jones same_muller same_hessian_beta.
Qed.
End Groups.
