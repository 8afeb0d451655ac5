(** What the log of the interior-point method should hold, independently of its code. *)
From Verif.Base Require Import Py Vec Mat.
From Verif.Model Require Import LmeProblem Regularizers Solvers LmeInner LmeFit.
From Verif.Spec Require Import InnerSpec.
Open Scope R_scope.

(** the states after each execution of the loop's body, and the last state *)
Inductive ip_path (calls : sr3_calls) (opts : ip_options) (p q : nat) (solve : mat -> vec -> res vec)
    (ms : (R -> res R) -> R -> res R) (n : nat) : ip_state -> list ip_state -> ip_state -> Prop :=
| path_end : forall s, ip_path calls opts p q solve ms n s [] s
| path_step : forall s s1 l s', ip_body calls opts p q solve ms n s = Ok s1 ->
    ip_path calls opts p q solve ms n s1 l s' -> ip_path calls opts p q solve ms n s (s1 :: l) s'.

(** m lists the elements of l with P, in order *)
Inductive picked {A} (P : A -> Prop) : list A -> list A -> Prop :=
| picked_nil : picked P [] []
| picked_yes : forall a l m, P a -> picked P l m -> picked P (a :: l) (a :: m)
| picked_no : forall a l m, ~ P a -> picked P l m -> picked P (a :: l) m.

Definition dual (n : nat) (s : ip_state) : vec := firstn n (is_x s).
(** the average of v_i * gamma_i: the barrier parameter the iterate belongs to *)
Definition average (n : nat) (s : ip_state) : R := vdot (dual n s) (is_gamma s) / INR n.
(** the products v_i * gamma_i are close to their average *)
Definition centred (opts : ip_options) (n : nat) (s : ip_state) : Prop :=
  norm (map (fun a => a - average n s) (vmul (dual n s) (is_gamma s))) <= io_neighbourhood opts * average n s.
Definition numbers (l : list R) : lobj := LList (map LNum l).

(** small barrier, and small residuals of the optimality conditions *)
Definition solved (calls : sr3_calls) (opts : ip_options) (n : nat) (s : ip_state) : Prop :=
  is_mu s < io_tol opts /\ exists r, kkt_residual calls s (dual n s) r /\ r < io_tol opts.
(** the log of a run along path from s0 to s *)
Definition ip_logged (calls : sr3_calls) (opts : ip_options) (n : nat) (path : list ip_state) (s : ip_state)
    (lg : logger) : Prop :=
  get lg "iteration" = Ok (LAtom (LNum (INR (length path)))) /\
  (exists steps, picked (centred opts n) path steps /\
     get lg "mu" = Ok (numbers (map is_mu steps)) /\
     get lg "mu_effective" = Ok (numbers (map (average n) steps)) /\
     Forall (fun s' => is_mu s' = io_mu_decay opts * average n s') steps) /\
  exists b, get lg "good_stopping_reason" = Ok (LAtom (LBool b)) /\ (b = true <-> solved calls opts n s).

(** each iteration of a run from s0 along path: the state before it and the state after it *)
Definition iterations_of (s0 : ip_state) (path : list ip_state) : list (ip_state * ip_state) := combine (s0 :: path) path.
(** what a requested name stands for in an iteration, given the states before and after it *)
Definition ip_recorded (opts : ip_options) (n : nat) : list (string * (ip_state -> ip_state -> lval)) :=
  [("beta", fun _ s => LVec (is_beta s)); ("gamma", fun _ s => LVec (is_gamma s));
   ("tbeta", fun _ s => LVec (is_tbeta s)); ("tgamma", fun _ s => LVec (is_tgamma s));
   ("prev_beta", fun s _ => LVec (is_beta s)); ("prev_gamma", fun s _ => LVec (is_gamma s));
   ("prev_tbeta", fun s _ => LVec (is_tbeta s)); ("prev_tgamma", fun s _ => LVec (is_tgamma s));
   ("x", fun _ s => LVec (is_x s)); ("v", fun _ s => LVec (dual n s)); ("step_len", fun _ s => LNum (is_step s));
   ("tbeta_tgamma_convergence", fun _ s => LBool (is_conv s)); ("q", fun _ _ => LNum (INR n));
   ("mu_decay", fun _ _ => LNum (io_mu_decay opts)); ("prox_step_len", fun _ _ => LNum (io_prox_step opts));
   ("update_prox_every", fun _ _ => LNum (IZR (io_update_every opts)));
   ("increase_lambdas", fun _ _ => LBool (io_increase opts)); ("line_search", fun _ _ => LBool (io_line_search opts))].

(** one derivative per variance *)
Definition variance_sized (calls : sr3_calls) (n : nat) : Prop :=
  forall l b g tb tg r, length g = n -> sc_gradient_gamma calls l b g tb tg = Ok r -> length r = n.
(** first-order optimality up to tol of (beta, gamma) for the relaxed loss with gamma >= 0 *)
Definition near_optimal (calls : sr3_calls) (s : ip_state) (tol : R) : Prop :=
  exists gb gg,
    sc_gradient_beta calls (is_lam s) (is_beta s) (is_gamma s) (is_tbeta s) (is_tgamma s) = Ok gb /\
    sc_gradient_gamma calls (is_lam s) (is_beta s) (is_gamma s) (is_tbeta s) (is_tgamma s) = Ok gg /\
    length gg = length (is_gamma s) /\
    (forall i, (i < length gb)%nat -> Rabs (nth i gb 0) < tol) /\
    forall i, (i < length gg)%nat ->
      0 <= nth i (is_gamma s) 0 /\ - tol < nth i gg 0 /\
      nth i (is_gamma s) 0 * nth i gg 0 < 2 * tol + tol * nth i (is_gamma s) 0.

(** r is the regularizer a fit of the model works with *)
Definition fitted_reg (m : lme_model) (pr : lme_problem) (fe re : option vec) (r : reg) : Prop :=
  exists ov wf wr r0, oracle_view_of pr = Ok ov /\ fit_weights pr fe re = Ok (wf, wr) /\ model_reg m ov = Ok r0 /\
    instantiate r0 (wf ++ wr) (Some ov) = Ok r.

(** the same options with another tolerance *)
Definition with_tol (o : ip_options) (tol : R) : ip_options :=
  {| io_n_iter := io_n_iter o; io_tol := tol; io_neighbourhood := io_neighbourhood o; io_mu_decay := io_mu_decay o;
     io_line_search := io_line_search o; io_prox := io_prox o; io_prox_step := io_prox_step o;
     io_update_every := io_update_every o; io_increase := io_increase o |}.
(** practical settings with a tolerance of 2 and no iterations *)
Definition loose_settings : sr3_settings :=
  {| ss_ell := 40; ss_practical := true; ss_update_every := 1; ss_max_iter := 0; ss_tol := 2;
     ss_warm := true; ss_positive := false; ss_expected := true; ss_neighbourhood := 5 / 10 |}.
Definition bowl_logger : logger := {| lg_kind := KTuple; lg_keys := []; lg_dict := [] |}.
(** a logger that was asked for one name *)
Definition asking_logger (k : string) : logger := {| lg_kind := KTuple; lg_keys := [k]; lg_dict := [(k, LList [])] |}.
