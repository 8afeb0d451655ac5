(** Documented parameter ranges of the regularizer classes. *)
From Verif.Base Require Import Py Vec.
From Verif.Model Require Import Regularizers.
Open Scope R_scope.

Definition weights_nonneg (w : option vec) : Prop :=
  match w with Some l => Forall (fun a => 0 <= a) l | None => True end.

(** non-negative strengths and weights, rho > 1 and sigma > 0 for SCAD, eps >= 0 *)
Fixpoint params_ok (r : reg) : Prop :=
  match r with
  | RL0 _ _ _ | RL0LME _ | RDummy => True
  | RL1 lam w => 0 <= lam /\ weights_nonneg w
  | RCAD rho lam w => 0 <= lam /\ weights_nonneg w
  | RSCAD rho sigma lam w => 1 < rho /\ 0 < sigma /\ 0 <= lam /\ weights_nonneg w
  | RPos _ other => match other with Some r' => params_ok r' | None => True end
  | RElastic eps other => 0 <= eps /\ match other with Some r' => params_ok r' | None => True end
  end.

(** the regularizers that are not wrappers and need no oracle *)
Definition plain_reg (r : reg) : Prop :=
  match r with RL0 _ _ _ | RL1 _ _ | RCAD _ _ _ | RSCAD _ _ _ _ | RDummy => True | _ => False end.
