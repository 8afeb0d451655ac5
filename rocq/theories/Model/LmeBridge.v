(** The evaluations of LmeOracle.v on the arrays of a problem, and lme/models.py on top of them.
    Simplifications: the arrays of the problem have the shapes (n_i, p), (n_i,), (n_i, q), (n_i,) which the
    constructors give them; parameters of other lengths are a ValueError, and so is a prior with two or more columns for
    one coefficient, which the constructors do not make; a problem without answers is a
    TypeError, and 0-dimensional random features (a generated problem without random effects) an IndexError,
    at the first evaluation. *)
From Verif.Base Require Import Py Vec Mat RMx.
From Verif.Model Require Import LmeProblem LmeInner LmeFit.
From mathcomp Require Import ssreflect ssrfun ssrbool eqtype ssrnat choice seq fintype
  finfun bigop finset ssralg matrix mxalgebra.
From Verif.Model Require Import LmeOracle.
Set Implicit Arguments.
Unset Strict Implicit.
Unset Printing Implicit Defensive.
Local Open Scope ring_scope.
Local Open Scope res_scope.

(** arrays as matrices and back *)
Definition col_of (n : nat) (x : vec) : 'cV[R]_n := \col_i List.nth i x 0%coqR.
Definition mx_of (n m : nat) (a : mat) : 'M[R]_(n, m) := \matrix_(i, j) List.nth j (List.nth i a [::]) 0%coqR.
Definition vec_of (n : nat) (c : 'cV[R]_n) : vec := List.map (fun i => c i ord0) (enum 'I_n).
Definition mat_of (n m : nat) (a : 'M[R]_(n, m)) : mat :=
  List.map (fun i => List.map (fun j => a i j) (enum 'I_m)) (enum 'I_n).

(** np.linalg.solve(A, b) with a vector b *)
Definition list_solve (a : mat) (b : vec) : res vec :=
  let n := length a in
  let! _ := guard (List.forallb (fun row => Nat.eqb (length row) n) a) LinAlgError in
  let! _ := guard (Nat.eqb (length b) n) ValueError in
  let! x := np_solve (mx_of n n a) (col_of n b) in
  Ok (vec_of x).

Section Problem.
Variables p q : nat.

Definition group_of (g : lme_group) : res (group p q) :=
  let: (x, y, z, v) := g in
  match y with
  | None => Err TypeError
  | Some y => let n := length x in
              Ok (@Group p q n (mx_of n p x) (col_of n y) (mx_of n q z) (col_of n v))
  end.
Definition groups_of (pr : lme_problem) : res (seq (group p q)) :=
  let! _ := guard (~~ pr_random_0d pr) IndexError in
  sequence (List.map (fun j => group_of (group_at pr j)) (List.seq 0 (length (pr_fixed pr)))).

(** the instantiated prior; means of another length than the coefficients are a ValueError, except for length 1,
    which is broadcast *)
Definition gauss_mx (n : nat) (inst : vec * vec * vec) : res (gauss_cols n) :=
  let: (m, s, w) := inst in
  if Nat.eqb (length m) n then Ok (Each (col_of n m) (col_of n s) (col_of n w))
  else if Nat.eqb (length m) 1 then Ok (One (List.hd 0%coqR m) (List.hd 0%coqR s) (List.hd 0%coqR w))
  else Err ValueError.
Definition prior_mx (g : option gauss_lme) : res (lme_prior p q) :=
  match g with
  | None => Ok LNone
  | Some g =>
      match gp_inst (gl_beta g), gp_inst (gl_gamma g) with
      | Some ib, Some ig =>
          let! b := gauss_mx p ib in
          let! g := gauss_mx q ig in
          Ok (LGauss b g)
      | _, _ => Err TypeError
      end
  end.

Definition sized (n : nat) (x : vec) : res 'cV[R]_n :=
  let! _ := guard (Nat.eqb (length x) n) ValueError in Ok (col_of n x).

Section Evaluations.
Variable gs : res (seq (group p q)).
Variable pri : res (lme_prior p q).

Definition at_params (A : Type) (beta gamma : vec)
    (k : seq (group p q) -> 'cV[R]_p -> 'cV[R]_q -> res A) : res A :=
  let! gs' := gs in
  let! b := sized p beta in
  let! g := sized q gamma in
  k gs' b g.
Definition with_prior (A : Type) (beta gamma : vec)
    (k : seq (group p q) -> lme_prior p q -> 'cV[R]_p -> 'cV[R]_q -> res A) : res A :=
  at_params beta gamma (fun gs b g => let! pr := pri in k gs pr b g).
Definition to_vec (n : nat) (r : res 'cV[R]_n) : res vec := rmap (@vec_of n) r.
Definition to_mat (n m : nat) (r : res 'M[R]_(n, m)) : res mat := rmap (@mat_of n m) r.

Definition list_loss (beta gamma : vec) : res R := with_prior beta gamma (@lme_loss p q).
Definition list_gradient_beta (beta gamma : vec) : res vec :=
  to_vec (with_prior beta gamma (@lme_gradient_beta p q)).
Definition list_gradient_gamma (beta gamma : vec) : res vec :=
  to_vec (with_prior beta gamma (@lme_gradient_gamma p q)).
Definition list_optimal_beta (gamma : vec) : res vec :=
  to_vec (let! gs' := gs in let! g := sized q gamma in lme_optimal_beta gs' g).
Definition list_random_effects (beta gamma : vec) : res (list vec) :=
  rmap (List.map (@vec_of q)) (at_params beta gamma (@lme_random_effects p q)).

(** oracles.py:483-511 on LinearLMEOracleSR3, whose hessian_beta has the relaxation *)
Definition sr3_flip_probabilities (cdf : R -> R) (lb : R) (gs : seq (group p q)) pr beta gamma : res vec :=
  let! h := sr3_hessian_beta lb gs pr gamma in
  let! cov := np_inv h in
  sequence (List.map (fun j =>
    let m := (beta : 'cV[R]_p) j ord0 in
    let sd := sqrt (cov j j) in
    if rltb 0 m then let! _ := guard (nonzero sd) NotFinite in Ok (cdf ((0 - m) / sd))%coqR
    else if rltb m 0 then let! _ := guard (nonzero sd) NotFinite in Ok (1 - cdf ((0 - m) / sd))%coqR
    else Ok (/ 2)%coqR) (enum 'I_p)).

Definition list_sr3_calls (positive expected : bool) : sr3_calls :=
  {| sc_gradient_beta := fun l beta gamma tbeta tgamma =>
       to_vec (let! tb := sized p tbeta in
               with_prior beta gamma (fun gs pr b g => sr3_gradient_beta (lam_b l) gs pr b g tb));
     sc_gradient_gamma := fun l beta gamma tbeta tgamma =>
       to_vec (let! tg := sized q tgamma in
               with_prior beta gamma (fun gs pr b g => sr3_gradient_gamma (lam_g l) gs pr b g tg));
     sc_hessian_beta := fun l beta gamma =>
       to_mat (with_prior beta gamma (fun gs pr b g => sr3_hessian_beta (lam_b l) gs pr g));
     sc_hessian_beta_gamma := fun beta gamma => to_mat (at_params beta gamma (@lme_hessian_beta_gamma p q));
     sc_hessian_gamma := fun l beta gamma =>
       to_mat (with_prior beta gamma (fun gs pr b g => sr3_hessian_gamma (lam_g l) gs pr positive expected b g));
     sc_optimal_beta := fun l gamma tbeta =>
       to_vec (let! gs' := gs in let! g := sized q gamma in let! tb := sized p tbeta in
               sr3_optimal_beta (lam_b l) gs' g tb);
     sc_loss := fun l beta gamma tbeta tgamma =>
       let! tb := sized p tbeta in
       let! tg := sized q tgamma in
       with_prior beta gamma (fun gs pr b g => sr3_loss (lam_b l) (lam_g l) gs pr b g tb tg) |}.

Variable cdf : R -> R.
Definition list_calls (ss : option sr3_settings) : lme_calls :=
  {| lc_loss := list_loss;
     lc_gradient_beta := list_gradient_beta;
     lc_gradient_gamma := list_gradient_gamma;
     lc_optimal_beta := list_optimal_beta;
     lc_random_effects := list_random_effects;
     lc_vaida := fun marg tol beta gamma =>
       match ss with
       | None => with_prior beta gamma (fun gs pr b g => lme_vaida_aic gs pr tol marg b g)
       | Some _ => with_prior beta gamma (fun gs pr b g => sr3_vaida_aic gs pr tol marg b g)
       end;
     lc_jones := fun tol beta gamma =>
       match ss with
       | None => with_prior beta gamma (fun gs pr b g => lme_jones_bic gs pr tol b g)
       | Some _ => with_prior beta gamma (fun gs pr b g => sr3_jones_bic gs pr tol b g)
       end;
     lc_muller := fun tol beta gamma =>
       match ss with
       | None => with_prior beta gamma (fun gs pr b g => lme_muller_ic gs pr tol b g)
       | Some _ => with_prior beta gamma (fun gs pr b g => sr3_muller_ic gs pr tol b g)
       end;
     lc_flip := fun beta gamma =>
       match ss with
       | None => with_prior beta gamma (fun gs pr b g => lme_flip_probabilities cdf gs pr b g)
       | Some s => with_prior beta gamma (fun gs pr b g => sr3_flip_probabilities cdf (ss_ell s) gs pr b g)
       end;
     lc_sr3 := match ss with
               | None => list_sr3_calls false false
               | Some s => list_sr3_calls (ss_positive s) (ss_expected s)
               end |}.
End Evaluations.
End Problem.

(** the evaluations of the oracle attached to a problem *)
Definition problem_calls (cdf : R -> R) (pr : lme_problem) (g : option gauss_lme) (ss : option sr3_settings)
  : lme_calls :=
  let p := num_fixed pr in
  let q := num_random pr in
  list_calls (groups_of p q pr) (prior_mx p q g) cdf ss.

(** fit_problem and fit with the oracle of LmeOracle.v *)
Definition lme_fit_problem (argsort : vec -> list nat) (cdf : R -> R) :=
  fit_problem argsort list_solve (problem_calls cdf).
Definition lme_fit (argsort : vec -> list nat) (cdf : R -> R) :=
  fit argsort list_solve (problem_calls cdf).

(** models.py:504-546, 686-728 get_information_criterion: an oracle for the data without intercepts,
    **coef_ with the default tolerance 0 *)
Definition get_information_criterion (cdf : R -> R) (m : lme_model) (coef : option lme_coef) (x : table) (y : vec)
    (labels : option (list string)) (ic : string) : res R :=
  match coef with
  | None => Err NotFittedError
  | Some co =>
      let! pr := from_x_y x (Some y) None labels false false None None in
      let! _ := oracle_view_of pr in
      let c := problem_calls cdf pr None (mo_sr3 m) in
      if String.eqb ic "muller_ic" then lc_muller c 0%coqR (co_beta co) (co_gamma co)
      else if String.eqb ic "vaida_aic" then lc_vaida c false 0%coqR (co_beta co) (co_gamma co)
      else if String.eqb ic "jones_bic" then lc_jones c 0%coqR (co_beta co) (co_gamma co)
      else Err ValueError
  end.
