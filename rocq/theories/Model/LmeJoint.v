(** Model of joint_loss and joint_gradient of LinearLMEOracleSR3 (src/pysr3/lme/oracles.py:1251-1297).
    The evaluations of the oracle are an argument, as in LmeFit.v.
    Simplification: a missing relaxed argument is a TypeError, raised after the plain gradient has been evaluated. *)
From Verif.Base Require Import Py Vec Mat.
From Verif.Model Require Import LmeProblem Regularizers Solvers LmeInner LmeFit.
Open Scope R_scope.

(** oracles.py:1251-1274; `w` is None unless it is given, and None[:p] is a TypeError *)
Definition sr3_joint_loss (p q : nat) (c : lme_calls) (l : lambdas) (x : vec) (w : option vec) : res R :=
  let '(beta, gamma) := x_to_beta_gamma p q x in
  match w with
  | None => Err TypeError
  | Some w => let '(tbeta, tgamma) := x_to_beta_gamma p q w in sc_loss (lc_sr3 c) l beta gamma tbeta tgamma
  end.

(** oracles.py:1131-1152, 1175-1194: super().gradient + lam * (beta - None) *)
Definition sr3_gradient_beta_of (c : lme_calls) (l : lambdas) (tbeta : option vec) (beta gamma : vec) : res vec :=
  match tbeta with
  | Some tb => sc_gradient_beta (lc_sr3 c) l beta gamma tb []
  | None => let! _ := lc_gradient_beta c beta gamma in Err TypeError
  end.
Definition sr3_gradient_gamma_of (c : lme_calls) (l : lambdas) (tgamma : option vec) (beta gamma : vec) : res vec :=
  match tgamma with
  | Some tg => sc_gradient_gamma (lc_sr3 c) l beta gamma [] tg
  | None => let! _ := lc_gradient_gamma c beta gamma in Err TypeError
  end.
(** oracles.py:1276-1297; the body is that of the plain oracle *)
Definition sr3_joint_gradient (p q : nat) (c : lme_calls) (l : lambdas) (x : vec) (tbeta tgamma : option vec) : res vec :=
  joint_gradient p q (sr3_gradient_beta_of c l tbeta) (sr3_gradient_gamma_of c l tgamma) x.
