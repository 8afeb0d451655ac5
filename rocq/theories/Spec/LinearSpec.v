(** What the statements about linear models and priors mean, independently of the code. *)
From Verif.Base Require Import Py Vec Mat.
From Verif.Model Require Import Regularizers Linear.
From Verif.Spec Require Import ProxSpec.
Open Scope R_scope.

(** shapes agree *)
Definition wf_linear (pr : linear_problem) : Prop :=
  is_shape (lp_n pr) (lp_p pr) (lp_a pr) /\ length (lp_b pr) = lp_n pr /\
  is_shape (lp_p pr) (lp_p pr) (lp_c pr).

(** c = c' *)
Definition symmetric (p : nat) (c : mat) : Prop :=
  forall x y, length x = p -> length y = p -> vdot (mv c x) y = vdot x (mv c y).

(** contract of np.linalg.inv: a result is a (p x p) right inverse *)
Definition inv_ok (inv : nat -> mat -> res mat) : Prop :=
  forall p m mi, is_shape p p m -> inv p m = Ok mi ->
    is_shape p p mi /\ forall v, length v = p -> mv m (mv mi v) = v.
(** an instance of the contract, for one feature *)
Definition inv_one (p : nat) (m : mat) : res mat :=
  match m with [[v]] => if reqb v 0 then Err LinAlgError else Ok [[1 / v]] | _ => Err LinAlgError end.

(** 1/2 |a x - b|^2 *)
Definition least_squares (pr : linear_problem) (x : vec) : R :=
  / 2 * sqnorm (vsub (mv (lp_a pr) x) (lp_b pr)).
(** 1/2 |a x - b|^2 + lam/2 |c x - w|^2 *)
Definition relaxed_loss (lam : R) (pr : linear_problem) (x w : vec) : R :=
  least_squares pr x + lam / 2 * sqnorm (vsub (mv (lp_c pr) x) w).

(** [z] is optimal for the proximal problem of the penalty g on dom, whatever the point and
    the positive step length *)
Definition exact_for (rg : regularizer) (dom : vec -> Prop) (g : vec -> R) : Prop :=
  forall y t z, 0 < t -> r_prox rg y t = Ok z -> is_prox dom g t y z.

(** along the path from x the value of F never increases, from the first point in dom on *)
Fixpoint non_increasing (dom : vec -> Prop) (F : vec -> R) (x : vec) (path : list (R * vec)) : Prop :=
  match path with
  | [] => True
  | (_, x') :: rest => dom x' /\ (dom x -> F x' <= F x) /\ non_increasing dom F x' rest
  end.

(** negative log-density, up to constants, of independent Gaussians; std = 0 and missing
    names mean no information *)
Fixpoint gauss_energy (params : prior_params) (columns : list string) (x : vec) : R :=
  match columns, x with
  | c :: cs, xi :: x' =>
      (match lookup c params with
       | Some (m, s) => if Rlt_dec 0 s then (xi - m) ^ 2 / (2 * s ^ 2) else 0
       | None => 0
       end) + gauss_energy params cs x'
  | _, _ => 0
  end.
(** what the code has in its place *)
Fixpoint gauss_energy_coded (params : prior_params) (columns : list string) (x : vec) : R :=
  match columns, x with
  | c :: cs, xi :: x' =>
      (match lookup c params with
       | Some (m, s) => if Rlt_dec 0 s then (xi - m) ^ 2 / (2 * s) else 0
       | None => 0
       end) + gauss_energy_coded params cs x'
  | _, _ => 0
  end.

(** lives of a prior object *)
Inductive prior_op := OpInstantiate (columns : list string) | OpForget.
Definition gauss_op (g : gauss) (op : prior_op) : res gauss :=
  match op with OpInstantiate cols => gauss_instantiate g cols | OpForget => Ok (gauss_forget g) end.
Inductive gauss_lme_op := LInstantiate (fcols rcols : option (list string)) | LForget.
Definition gauss_lme_do (g : gauss_lme) (op : gauss_lme_op) : res gauss_lme :=
  match op with LInstantiate f r => gauss_lme_instantiate g f r | LForget => Ok (gauss_lme_forget g) end.
(** a history; an operation that raises leaves the object as it is *)
Fixpoint live {A O : Type} (step : A -> O -> res A) (a : A) (ops : list O) : A :=
  match ops with
  | [] => a
  | op :: ops' => live step (match step a op with Ok a' => a' | Err _ => a end) ops'
  end.

(** Sample objects *)
Definition sample_problem (b : R) : linear_problem :=
  {| lp_a := [[1]]; lp_b := [b]; lp_n := 1; lp_p := 1; lp_c := [[1]]; lp_weights := Some [0]; lp_obs_std := None |}.
Definition sample_linear (el : option R) (practical : bool) (r : reg) : linear_model :=
  {| lm_el := el; lm_practical := practical; lm_reg := r; lm_tol := / 10; lm_max_iter := 1;
     lm_stepping := "fixed"; lm_step_len := None; lm_prior := PNone; lm_keys := (KTuple, []) |}.
