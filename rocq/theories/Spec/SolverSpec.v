(** What proximal gradient descent should do, independently of the solver's loop:
    a path is a sequence of (step length, next point). *)
From Verif.Base Require Import Py Vec.
From Verif.Model Require Import Solvers.
Open Scope R_scope.

(** the oracle's answers do not depend on its state, except for failures *)
Definition value_is {S : Type} (orc : oracle S) (f : vec -> R) : Prop :=
  forall s x r s', o_value orc s x = Ok (r, s') -> r = f x.
Definition grad_is {S : Type} (orc : oracle S) (g : vec -> vec) : Prop :=
  forall s x r s', o_grad orc s x = Ok (r, s') -> r = g x.

(** x' = prox(x - step * gradient(x), step), the gradient being some answer of the oracle at x *)
Definition prox_grad {S : Type} (orc : oracle S) (rg : regularizer) (x : vec) (step : R) (x' : vec) : Prop :=
  exists s g s', o_grad orc s x = Ok (g, s') /\ length g = length x /\
    r_prox rg (vsub x (vscale step g)) step = Ok x'.

Fixpoint is_path (P : vec -> R -> vec -> Prop) (x : vec) (path : list (R * vec)) : Prop :=
  match path with
  | [] => True
  | (s, x') :: rest => P x s x' /\ is_path P x' rest
  end.

Definition endpoint (x : vec) (path : list (R * vec)) : vec := last (map snd path) x.

(** the k-th halving of the initial step *)
Definition halved (step : R) (k : nat) : R := step * (1 / 2) ^ k.

(** the sufficient-decrease inequality of the line search *)
Definition sufficient (f : vec -> R) (g : vec -> vec) (x : vec) (s : R) (z : vec) : Prop :=
  f z <= f x + vdot (g x) (vsub z x) + 1 / (2 * s) * sqnorm (vsub z x).

(** the step length chosen at x: the fixed one, or the first halving which satisfies the
    sufficient-decrease inequality or falls to 1e-14 *)
Definition step_rule (f : vec -> R) (g : vec -> vec) (rg : regularizer) (slv : pgd_solver)
    (x : vec) (s : R) (x' : vec) : Prop :=
  if String.eqb (s_stepping slv) "line-search" then
    exists k, s = halved (s_step_len slv) k /\
      (forall j, (j < k)%nat -> ls_threshold < halved (s_step_len slv) j /\
         exists z, r_prox rg (vsub x (vscale (halved (s_step_len slv) j) (g x))) (halved (s_step_len slv) j) = Ok z /\
                   ~ sufficient f g x (halved (s_step_len slv) j) z) /\
      (s <= ls_threshold \/ sufficient f g x s x')
  else s = s_step_len slv.

(** f(x) + penalty, as an extended real *)
Definition objective (f : vec -> R) (rg : regularizer) (x : vec) (v : ereal) : Prop :=
  exists r, r_value rg x = Ok r /\ v = eadd (Fin (f x)) r.

Definition ele (a b : ereal) : Prop :=
  match a, b with
  | Fin x, Fin y => x <= y
  | _, PInf => True
  | PInf, Fin _ => False
  end.

(** nothing the solver calls runs out of its own fuel *)
Definition no_oof {A : Type} (m : res A) : Prop := m <> Err OutOfFuel.
Definition calls_return {S : Type} (orc : oracle S) (rg : regularizer) : Prop :=
  (forall s x, no_oof (o_value orc s x)) /\ (forall s x, no_oof (o_grad orc s x)) /\
  (forall x, no_oof (r_value rg x)) /\ (forall x a, no_oof (r_prox rg x a)).

(** loggers as they come out of the constructor and stay during a run *)
Definition logger_wf (lg : logger) : Prop :=
  forall k, In k (lg_keys lg) <-> exists v, lookup k (lg_dict lg) = Some v.

(** one iteration from x to x' with step s *)
Definition pgd_rule {S : Type} (orc : oracle S) (rg : regularizer) (slv : pgd_solver)
    (x : vec) (s : R) (x' : vec) : Prop :=
  prox_grad orc rg x s x' /\
  (if String.eqb (s_stepping slv) "line-search" then exists k, s = halved (s_step_len slv) k
   else s = s_step_len slv) /\
  (forall f g, value_is orc f -> grad_is orc g -> step_rule f g rg slv x s x').

(** the last update, from p to x, was larger than the tolerance; None: no update yet,
    only an empty vector has nothing to do *)
Definition still (slv : pgd_solver) (x : vec) (p : option vec) : Prop :=
  match p with None => x <> [] \/ s_tol slv < 0 | Some p => s_tol slv < norm (vsub x p) end.

(** ... before every iteration of the path *)
Fixpoint all_still (slv : pgd_solver) (p : option vec) (x : vec) (path : list (R * vec)) : Prop :=
  match path with
  | [] => True
  | (_, x') :: rest => still slv x p /\ all_still slv (Some x) x' rest
  end.

(** the point before the last one *)
Fixpoint last_prev (p : option vec) (x : vec) (path : list (R * vec)) : option vec :=
  match path with [] => p | (_, x') :: rest => last_prev (Some x) x' rest end.

(** Sample objects for the examples: f(x) = x.x/2 and no penalty. *)
Definition quad_oracle : oracle unit :=
  {| o_value := fun s x => Ok (/ 2 * sqnorm x, s); o_grad := fun s x => Ok (x, s) |}.
Definition free_reg : regularizer :=
  {| r_value := fun _ => Ok (Fin 0); r_prox := fun x _ => Ok x |}.
Definition sample_solver (stepping : string) (tol : R) : pgd_solver :=
  {| s_tol := tol; s_max_iter := 3; s_stepping := stepping; s_step_len := 1 |}.
