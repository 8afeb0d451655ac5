(** Model of the evaluations of src/pysr3/lme/oracles.py over mathcomp matrices.
    Simplifications: exact real arithmetic; a group of the problem is a record with its
    number of observations and its matrices, one-dimensional arrays are column matrices;
    every evaluation factorises afresh (the cache is modelled in LmeCache.v); sums over
    groups are \sum; the parameters have the right lengths.  np.linalg.cholesky is the
    textbook algorithm (it reads the lower triangle only), trtri, np.linalg.inv and
    np.linalg.solve invert exactly and raise LinAlgError on singular matrices. *)
From Verif.Base Require Import Py Vec RMx.
From mathcomp Require Import ssreflect ssrfun ssrbool eqtype ssrnat choice seq fintype
  finfun bigop finset ssralg matrix mxalgebra.
Set Implicit Arguments.
Unset Strict Implicit.
Unset Printing Implicit Defensive.
Delimit Scope R_scope with coqR.
Local Open Scope ring_scope.
Local Open Scope res_scope.

(** what iterating over a problem yields for one group: x, y, z and the observation variances *)
Record group (p q : nat) := Group {
  g_n : nat;
  g_x : 'M[R]_(g_n, p);
  g_y : 'cV[R]_g_n;
  g_z : 'M[R]_(g_n, q);
  g_v : 'cV[R]_g_n
}.

(** np.linalg.cholesky *)
Fixpoint cholesky (n : nat) : 'M[R]_n -> res 'M[R]_n :=
  match n with
  | 0%N => fun _ => Ok 0
  | n'.+1 => fun (A : 'M[R]_(1 + n')) =>
      let a := ulsubmx A ord0 ord0 in
      let v := dlsubmx A in
      if rltb 0 a then
        let! L := cholesky (drsubmx A - a^-1 *: (v *m v^T)) in
        Ok (block_mx (sqrt a)%:M 0 ((sqrt a)^-1 *: v) L)
      else Err LinAlgError
  end.
(** np.linalg.inv and np.linalg.solve *)
Definition np_inv (n : nat) (A : 'M[R]_n) : res 'M[R]_n :=
  if A \in unitmx then Ok (invmx A) else Err LinAlgError.
Definition np_solve (n m : nat) (A : 'M[R]_n) (b : 'M[R]_(n, m)) : res 'M[R]_(n, m) :=
  if A \in unitmx then Ok (invmx A *m b) else Err LinAlgError.

(** np.sum(x ** 2) *)
Definition sumsq (n : nat) (x : 'cV[R]_n) : R := \sum_i (x i ord0 ^ 2)%coqR.
(** np.diag of a vector *)
Definition diagv (n : nat) (v : 'cV[R]_n) : 'M[R]_n := diag_mx v^T.
(** 1 / v *)
Definition vinv (n : nat) (v : 'cV[R]_n) : 'cV[R]_n := \col_i (/ v i ord0)%coqR.

(** lme/priors.py: the instantiated prior of the oracle, NonInformativePriorLME or
    GaussianPriorLME with means, stds and weights of both parts: for each coefficient, or for
    a single column, which numpy broadcasts over all coefficients *)
Inductive gauss_cols (n : nat) := Each (m s w : 'cV[R]_n) | One (m s w : R).
Arguments One {n}.
Definition means_of (n : nat) (c : gauss_cols n) : 'cV[R]_n := match c with Each m _ _ => m | One m _ _ => const_mx m end.
Definition stds_of (n : nat) (c : gauss_cols n) : 'cV[R]_n := match c with Each _ s _ => s | One _ s _ => const_mx s end.
Definition weights_of (n : nat) (c : gauss_cols n) : 'cV[R]_n := match c with Each _ _ w => w | One _ _ w => const_mx w end.
Inductive lme_prior (p q : nat) :=
| LNone
| LGauss (b : gauss_cols p) (g : gauss_cols q).
Arguments LNone {p q}.
Definition gauss_part (n : nat) (m s w x : 'cV[R]_n) : R :=
  \sum_i (w i ord0 * (/ (2 * s i ord0)) * (x i ord0 - m i ord0) ^ 2)%coqR.
Definition gauss_grad (n : nat) (m s w x : 'cV[R]_n) : 'cV[R]_n :=
  \col_i (w i ord0 * (/ s i ord0) * (x i ord0 - m i ord0))%coqR.
(** the sum of an n-by-n matrix and a 1-by-1 matrix adds the number to all entries *)
Definition gauss_hess (n : nat) (c : gauss_cols n) : 'M[R]_n :=
  match c with
  | Each _ s w => diagv (\col_i (w i ord0 * (/ s i ord0))%coqR)
  | One _ s w => const_mx (w * (/ s))%coqR
  end.

Section Oracle.
Variables p q : nat.
Implicit Types (gs : seq (group p q)) (g : group p q) (pr : lme_prior p q).
Implicit Types (beta tbeta : 'cV[R]_p) (gamma tgamma : 'cV[R]_q).

(** lme/priors.py:64-167 *)
Definition prior_loss pr beta gamma : R :=
  match pr with
  | LNone => 0
  | LGauss b g => (gauss_part (means_of b) (stds_of b) (weights_of b) beta
                   + gauss_part (means_of g) (stds_of g) (weights_of g) gamma)%coqR
  end.
Definition prior_gradient_beta pr beta : 'cV[R]_p :=
  match pr with LNone => 0 | LGauss b _ => gauss_grad (means_of b) (stds_of b) (weights_of b) beta end.
Definition prior_gradient_gamma pr gamma : 'cV[R]_q :=
  match pr with LNone => 0 | LGauss _ g => gauss_grad (means_of g) (stds_of g) (weights_of g) gamma end.
Definition prior_hessian_beta pr : 'M[R]_p :=
  match pr with LNone => 0 | LGauss b _ => gauss_hess b end.
Definition prior_hessian_gamma pr : 'M[R]_q :=
  match pr with LNone => 0 | LGauss _ g => gauss_hess g end.

(** oracles.py:152-164 one iteration of _recalculate_cholesky: the group with el and el_inv *)
Record fgroup := Factored {
  f_g : group p q;
  f_el : 'M[R]_(g_n f_g);
  f_inv : 'M[R]_(g_n f_g)
}.
Definition omega_of gamma g : 'M[R]_(g_n g) :=
  if (0 < q)%N then diagv (g_v g) + g_z g *m diagv gamma *m (g_z g)^T else diagv (g_v g).
Definition factor gamma g : res fgroup :=
  let! el := cholesky (omega_of gamma g) in
  Ok (@Factored g el (invmx el^T)^T).
(** oracles.py:130-164 *)
Definition recalculate gs gamma : res (seq fgroup) := sequence (List.map (factor gamma) gs).

Definition residual g beta : 'cV[R]_(g_n g) := g_y g - g_x g *m beta.

(** oracles.py:166-190 loss *)
Definition group_loss beta (f : fgroup) : R :=
  (/ 2 * sumsq (f_inv f *m residual (f_g f) beta) - \sum_i ln (f_inv f i i))%coqR.
Definition lme_loss gs pr beta gamma : res R :=
  let! fs := recalculate gs gamma in
  Ok (\sum_(f <- fs) group_loss beta f + prior_loss pr beta gamma)%coqR.

(** oracles.py:217-242 gradient_gamma *)
Definition group_gradient_gamma beta (f : fgroup) : 'cV[R]_q :=
  let el_z := f_inv f *m g_z (f_g f) in
  let w := el_z^T *m (f_inv f *m residual (f_g f) beta) in
  \col_j (/ 2 * (\sum_i (el_z i j ^ 2)%coqR) - / 2 * w j ord0 ^ 2)%coqR.
Definition lme_gradient_gamma gs pr beta gamma : res 'cV[R]_q :=
  let! fs := recalculate gs gamma in
  Ok (\sum_(f <- fs) group_gradient_gamma beta f + prior_gradient_gamma pr gamma).

(** oracles.py:244-285 hessian_gamma; the two flags choose the branch *)
Definition group_hessian_gamma (positive expected : bool) beta (f : fgroup) : 'M[R]_q :=
  let el_z := f_inv f *m g_z (f_g f) in
  let el_xi := f_inv f *m residual (f_g f) beta in
  let m := el_z^T *m el_z in
  let w := el_z^T *m el_xi *m el_xi^T *m el_z in
  if positive then \matrix_(i, j) (2 * w i j * m i j)%coqR
  else if expected then \matrix_(i, j) (m i j ^ 2)%coqR
  else \matrix_(i, j) ((- m i j + 2 * w i j) * m i j)%coqR.
Definition lme_hessian_gamma gs pr (positive expected : bool) beta gamma : res 'M[R]_q :=
  let! fs := recalculate gs gamma in
  Ok ((/ 2)%coqR *: (\sum_(f <- fs) group_hessian_gamma positive expected beta f)
      + prior_hessian_gamma pr).

(** oracles.py:435-457 gradient_beta *)
Definition group_gradient_beta beta (f : fgroup) : 'cV[R]_p :=
  - ((f_inv f *m g_x (f_g f))^T *m (f_inv f *m residual (f_g f) beta)).
Definition lme_gradient_beta gs pr beta gamma : res 'cV[R]_p :=
  let! fs := recalculate gs gamma in
  Ok (\sum_(f <- fs) group_gradient_beta beta f + prior_gradient_beta pr beta).

(** oracles.py:459-481 hessian_beta *)
Definition group_kernel (f : fgroup) : 'M[R]_p :=
  (f_inv f *m g_x (f_g f))^T *m (f_inv f *m g_x (f_g f)).
Definition lme_hessian_beta gs pr gamma : res 'M[R]_p :=
  let! fs := recalculate gs gamma in
  Ok (\sum_(f <- fs) group_kernel f + prior_hessian_beta pr).

(** oracles.py:587-612 hessian_beta_gamma; the mixed part of every prior is 0 *)
Definition group_hessian_mixed beta (f : fgroup) : 'M[R]_(q, p) :=
  let el_x := f_inv f *m g_x (f_g f) in
  let el_z := f_inv f *m g_z (f_g f) in
  let el_xi := f_inv f *m residual (f_g f) beta in
  diagv (el_z^T *m el_xi) *m (el_z^T *m el_x).
Definition lme_hessian_beta_gamma gs beta gamma : res 'M[R]_(p, q) :=
  let! fs := recalculate gs gamma in
  Ok (\sum_(f <- fs) group_hessian_mixed beta f)^T.

(** oracles.py:726-767 optimal_beta; the prior does not enter *)
Definition group_tail (f : fgroup) : 'cV[R]_p :=
  (f_inv f *m g_x (f_g f))^T *m (f_inv f *m g_y (f_g f)).
Definition kernel_tail gs gamma : res ('M[R]_p * 'cV[R]_p) :=
  let! fs := recalculate gs gamma in
  Ok (\sum_(f <- fs) group_kernel f, \sum_(f <- fs) group_tail f).
Definition lme_optimal_beta gs gamma : res 'cV[R]_p :=
  let! kt := kernel_tail gs gamma in
  np_solve kt.1 kt.2.

(** np.abs(gamma) > 1e-10, and the matrix with which z[:, mask] is z *m select and
    u[mask] = v is u = select *m v *)
Definition re_mask gamma : {set 'I_q} := [set j | rltb (1 / 10 ^ 10)%coqR (Rabs (gamma j ord0))].
Definition select (m : {set 'I_q}) : 'M[R]_(q, #|m|) := \matrix_(j, k) (j == enum_val k)%:R.

(** oracles.py:769-806 optimal_random_effects *)
Definition blup_kernel gamma g : 'M[R]_#|re_mask gamma| :=
  let zm := g_z g *m select (re_mask gamma) in
  let gm := (select (re_mask gamma))^T *m gamma in
  diagv (vinv gm) + zm^T *m diagv (vinv (g_v g)) *m zm.
Definition group_effects beta gamma g : res 'cV[R]_q :=
  let zm := g_z g *m select (re_mask gamma) in
  let! u := np_solve (blup_kernel gamma g) (zm^T *m diagv (vinv (g_v g)) *m residual g beta) in
  Ok (select (re_mask gamma) *m u).
Definition lme_random_effects gs beta gamma : res (seq 'cV[R]_q) :=
  let! _ := recalculate gs gamma in
  sequence (List.map (group_effects beta gamma) gs).

(** oracles.py:192-215 demarginalized_loss *)
Definition group_conditional beta (gu : group p q * 'cV[R]_q) : R :=
  let: (g, u) := gu in
  let r := g_y g - g_x g *m beta - g_z g *m u in
  (/ 2 * (\sum_i (r i ord0 ^ 2 / g_v g i ord0)%coqR) + / 2 * \sum_i ln (g_v g i ord0))%coqR.
Definition lme_demarginalized_loss gs pr beta gamma : res R :=
  let! us := lme_random_effects gs beta gamma in
  Ok (\sum_(gu <- zip gs us) group_conditional beta gu + prior_loss pr beta gamma)%coqR.

(** oracles.py:513-585 the covariances *)
Definition lme_covariance_beta gs pr gamma : res 'M[R]_p :=
  let! h := lme_hessian_beta gs pr gamma in np_inv h.
Definition group_covariance_u (cov : 'M[R]_p) gamma (f : fgroup) : 'M[R]_q :=
  let core := f_inv f - f_inv f *m g_x (f_g f) *m cov *m (g_x (f_g f))^T *m f_inv f in
  diagv gamma *m (g_z (f_g f))^T *m core *m g_z (f_g f) *m diagv gamma.
Definition lme_covariance_random_effects gs pr gamma : res (seq 'M[R]_q) :=
  let! cov := lme_covariance_beta gs pr gamma in
  let! fs := recalculate gs gamma in
  Ok (List.map (group_covariance_u cov gamma) fs).
(** + lam adds the vector to every row *)
Definition group_covariance_y (cov : 'M[R]_p) g (cov_u : 'M[R]_q) : 'M[R]_(g_n g) :=
  g_x g *m cov *m (g_x g)^T + g_z g *m cov_u *m (g_z g)^T + \matrix_(i, j) g_v g j ord0.
(** one entry of the list returned by covariance_y, tagged with the size of its group *)
Definition lme_covariance_y gs pr gamma : res (seq {n : nat & 'M[R]_n}) :=
  let! cov := lme_covariance_beta gs pr gamma in
  let! fs := recalculate gs gamma in
  Ok (List.map (fun f => existT (fun n => 'M[R]_n) (g_n (f_g f))
                  (group_covariance_y cov (f_g f) (group_covariance_u cov gamma f))) fs).

(** sum(np.abs(x) >= tolerance) *)
Definition count_ge (n : nat) (tol : R) (x : 'cV[R]_n) : nat := #|[set j | rleb tol (Rabs (x j ord0))]|.
Definition total_obs gs : nat := \sum_(g <- gs) g_n g.

(** oracles.py:835-854 _jones2010n_eff *)
Definition group_n_eff (f : fgroup) : res R :=
  let omega := f_el f *m (f_el f)^T in
  let c := \matrix_(i, j) (omega i j / (sqrt (omega i i) * sqrt (omega j j)))%coqR in
  let! ci := np_inv c in
  Ok (\sum_i \sum_j ci i j).
Definition n_eff (fs : seq fgroup) : res R :=
  let! ns := sequence (List.map group_n_eff fs) in Ok (\sum_(x <- ns) x).

(** oracles.py:856-880 jones2010bic *)
Definition lme_jones_bic gs pr tol beta gamma : res R :=
  let! fs := recalculate gs gamma in
  let! l := lme_loss gs pr beta gamma in
  let! n := n_eff fs in
  Ok (2 * l + INR (count_ge tol beta + count_ge tol gamma) * ln n)%coqR.
(** oracles.py:882-913 muller_hui_2016ic *)
Definition lme_muller_ic gs pr tol beta gamma : res R :=
  let! l := lme_loss gs pr beta gamma in
  let n := INR (total_obs gs) in
  Ok (2 / n * l + 1 / n * ln (INR (size gs)) * INR (count_ge tol beta)
      + 2 / n * INR (count_ge tol gamma))%coqR.

(** oracles.py:915-963 _hat_matrix.  The matrix over all observations is given by its blocks:
    hat_block fi fj is the part of block (i, j) common to all pairs of groups, and
    hat_diagonal the part of h_gamma added to the blocks (i, i). *)
Definition hat_h_beta (ki : 'M[R]_p) (fi fj : fgroup) : 'M[R]_(g_n (f_g fi), g_n (f_g fj)) :=
  g_x (f_g fi) *m (ki *m ((f_inv fj *m g_x (f_g fj))^T *m f_inv fj)).
Definition hat_diagonal gamma g : res 'M[R]_(g_n g) :=
  let zm := g_z g *m select (re_mask gamma) in
  let! k := np_inv (blup_kernel gamma g) in
  Ok (g_z g *m (select (re_mask gamma) *m (k *m (zm^T *m diagv (vinv (g_v g)))))).
Record hat_row := HatRow { hr_f : fgroup; hr_diagonal : 'M[R]_(g_n (f_g hr_f)) }.
Definition hat_rows gs gamma : res ('M[R]_p * seq hat_row) :=
  let! fs := recalculate gs gamma in
  let! ki := np_inv (\sum_(f <- fs) group_kernel f) in
  let! rows := sequence (List.map (fun f => let! d := hat_diagonal gamma (f_g f) in
                                            Ok (@HatRow f d)) fs) in
  Ok (ki, rows).
Definition hat_block (ki : 'M[R]_p) (r : hat_row) (f : fgroup) :=
  hat_h_beta ki (hr_f r) f - hr_diagonal r *m hat_h_beta ki (hr_f r) f.
(** the rows of group r of the hat matrix times the stacked vector y *)
Definition hat_times (ki : 'M[R]_p) (rows : seq hat_row) (y : forall f : fgroup, 'cV[R]_(g_n (f_g f)))
    (r : hat_row) : 'cV[R]_(g_n (f_g (hr_f r))) :=
  \sum_(r' <- rows) hat_block ki r (hr_f r') *m y (hr_f r') + hr_diagonal r *m y (hr_f r).
(** oracles.py:965-983 _hodges2001ddf *)
Definition lme_ddf gs gamma : res R :=
  let! kr := hat_rows gs gamma in
  Ok (\sum_(r <- kr.2) (\tr (hat_block kr.1 r (hr_f r)) + \tr (hr_diagonal r))%coqR).

(** oracles.py:985-1026 vaida2005aic; a zero divisor is NotFinite *)
Definition lme_vaida_aic gs pr tol (marginalized : bool) beta gamma : res R :=
  let n := INR (total_obs gs) in
  let P := INR (count_ge tol beta) in
  let Q := INR (count_ge tol gamma) in
  if marginalized then
    let alpha := if rltb 0 (n - P - Q - 1)%coqR then (n / (n - P - Q - 1))%coqR else 1%coqR in
    let! l := lme_loss gs pr beta gamma in
    Ok (2 * l + 2 * alpha * (P + Q))%coqR
  else
    let! rho := lme_ddf gs gamma in
    let! _ := guard (nonzero (n - P - 2)%coqR && nonzero (n - P)%coqR) NotFinite in
    let alpha := (2 * n / (n - P - 2) * (rho - (rho - P) / (n - P)))%coqR in
    let! l := lme_demarginalized_loss gs pr beta gamma in
    Ok (2 * l + alpha * (P + Q))%coqR.

(** oracles.py:483-511 flip_probabilities_beta; the standard normal cdf is an argument *)
Definition lme_flip_probabilities (cdf : R -> R) gs pr beta gamma : res (seq R) :=
  let! h := lme_hessian_beta gs pr gamma in
  let! cov := np_inv h in
  sequence (List.map (fun j =>
    let m := beta j ord0 in
    let sd := sqrt (cov j j) in
    if rltb 0 m then let! _ := guard (nonzero sd) NotFinite in Ok (cdf ((0 - m) / sd))%coqR
    else if rltb m 0 then let! _ := guard (nonzero sd) NotFinite in Ok (1 - cdf ((0 - m) / sd))%coqR
    else Ok (/ 2)%coqR) (enum 'I_p)).

(** ** LinearLMEOracleSR3 *)
Section SR3.
Variables lb lg : R.
(** oracles.py:1103-1127 loss *)
Definition sr3_loss gs pr beta gamma tbeta tgamma : res R :=
  let! l := lme_loss gs pr beta gamma in
  Ok (l + lb / 2 * sumsq (beta - tbeta) + lg / 2 * sumsq (gamma - tgamma))%coqR.
(** oracles.py:1129-1209 derivatives *)
Definition sr3_gradient_gamma gs pr beta gamma tgamma : res 'cV[R]_q :=
  let! d := lme_gradient_gamma gs pr beta gamma in Ok (d + lg *: (gamma - tgamma)).
Definition sr3_hessian_gamma gs pr positive expected beta gamma : res 'M[R]_q :=
  let! h := lme_hessian_gamma gs pr positive expected beta gamma in Ok (h + lg *: 1%:M).
Definition sr3_gradient_beta gs pr beta gamma tbeta : res 'cV[R]_p :=
  let! d := lme_gradient_beta gs pr beta gamma in Ok (d + lb *: (beta - tbeta)).
Definition sr3_hessian_beta gs pr gamma : res 'M[R]_p :=
  let! h := lme_hessian_beta gs pr gamma in Ok (h + lb *: 1%:M).
(** oracles.py:1211-1244 optimal_beta *)
Definition sr3_optimal_beta gs gamma tbeta : res 'cV[R]_p :=
  let! kt := kernel_tail gs gamma in
  np_solve (lb *: 1%:M + kt.1) (lb *: tbeta + kt.2).
(** oracles.py:1519-1615 the information criteria, written out again over super().loss *)
Definition sr3_jones_bic gs pr tol beta gamma : res R :=
  let! fs := recalculate gs gamma in
  let! l := lme_loss gs pr beta gamma in
  let! n := n_eff fs in
  Ok (2 * l + INR (count_ge tol beta + count_ge tol gamma) * ln n)%coqR.
Definition sr3_muller_ic gs pr tol beta gamma : res R :=
  let! l := lme_loss gs pr beta gamma in
  let n := INR (total_obs gs) in
  Ok (2 / n * l + 1 / n * ln (INR (size gs)) * INR (count_ge tol beta)
      + 2 / n * INR (count_ge tol gamma))%coqR.
Definition sr3_vaida_aic gs pr tol (marginalized : bool) beta gamma : res R :=
  let n := INR (total_obs gs) in
  let P := INR (count_ge tol beta) in
  let Q := INR (count_ge tol gamma) in
  if marginalized then
    let alpha := if rltb 0 (n - P - Q - 1)%coqR then (n / (n - P - Q - 1))%coqR else 1%coqR in
    let! l := lme_loss gs pr beta gamma in
    Ok (2 * l + 2 * alpha * (P + Q))%coqR
  else
    let! rho := lme_ddf gs gamma in
    let! _ := guard (nonzero (n - P - 2)%coqR && nonzero (n - P)%coqR) NotFinite in
    let alpha := (2 * n / (n - P - 2) * (rho - (rho - P) / (n - P)))%coqR in
    let! l := lme_demarginalized_loss gs pr beta gamma in
    Ok (2 * l + alpha * (P + Q))%coqR.
End SR3.
End Oracle.
