(** Model of what LinearLMEOracleSR3.find_optimal_parameters_ip writes to its logger
    (src/pysr3/lme/oracles.py:1444-1446, 1506-1515).

    The functions here run the loop of LmeInner.v once more, next to a logger.
    Simplifications: exact reals; matrices, index arrays, functions and objects among the local variables are
    opaque; tx, the result of regularizer.prox, is put together again from tbeta and tgamma. *)
From Verif.Base Require Import Py Vec Mat.
From Verif.Model Require Import LmeProblem Regularizers Solvers LmeInner.
Open Scope R_scope.

Section Trace.
Variable calls : sr3_calls.
Variable opts : ip_options.
Variables p q : nat.
Variable solve : mat -> vec -> res vec.
Variable minimize_scalar : (R -> res R) -> R -> res R.

(** oracles.py:1485: the step left the neighbourhood of the central path *)
Definition ip_off_path (n : nat) (st : ip_state) : bool :=
  let v := ip_v n (is_x st) in
  let gamma := is_gamma st in
  rltb (io_neighbourhood opts * vdot gamma v / INR n)
    (norm (map (fun a => a - vdot gamma v / INR n) (vmul gamma v))).
(** oracles.py:1495: regularizer.prox is called in this iteration *)
Definition ip_proxes (st : ip_state) : bool :=
  match io_prox opts with
  | Some _ => (0 <? io_update_every opts)%Z && (Z.of_nat (is_iter st) mod io_update_every opts =? 0)%Z
  | None => false
  end.
Definition some_vec (k : string) (v : option vec) : list (string * lval) :=
  match v with Some a => [(k, LVec a)] | None => [] end.
(** locals() at oracles.py:1507; st before and st' after the iteration, tx if it is bound *)
Definition ip_locals (n : nat) (st st' : ip_state) (f direction : vec) (tx : option vec) : list (string * lval) :=
  let v := ip_v n (is_x st') in
  [("self", LObj "oracle"); ("beta", LVec (is_beta st')); ("gamma", LVec (is_gamma st'));
   ("tbeta", LVec (is_tbeta st')); ("tgamma", LVec (is_tgamma st')); ("regularizer", LObj "regularizer");
   ("increase_lambdas", LBool (io_increase opts)); ("line_search", LBool (io_line_search opts));
   ("prox_step_len", LNum (io_prox_step opts)); ("update_prox_every", LNum (IZR (io_update_every opts)));
   ("logger", LObj "logger"); ("mu_decay", LNum (io_mu_decay opts)); ("kwargs", LObj "kwargs");
   ("losses_kkt", LObj "list"); ("q", LNum (INR n)); ("I", LObj "matrix"); ("Zb", LObj "matrix"); ("v", LVec v);
   ("x", LVec (is_x st')); ("mu", LNum (is_mu st')); ("step_len", LNum (is_step st'));
   ("iteration", LNum (INR (is_iter st'))); ("F_coord", LObj "function"); ("F", LObj "function");
   ("dF_coord", LObj "function"); ("dF", LObj "function"); ("prev_tbeta", LVec (is_tbeta st));
   ("prev_tgamma", LVec (is_tgamma st)); ("prev_beta", LVec (is_beta st)); ("prev_gamma", LVec (is_gamma st));
   ("tbeta_tgamma_convergence", LBool (is_conv st')); ("F_current", LVec f); ("dF_current", LObj "matrix");
   ("direction", LVec direction); ("ind_neg_dir", LObj "indices");
   ("max_step_len", LNum (max_step (ip_mask n (is_x st)) (is_x st) direction));
   ("mu_effective", LNum (vdot v (is_gamma st') / INR n))]
  ++ (if io_line_search opts then [("res", LObj "result")] else []) ++ some_vec "tx" tx.

(** the end of an iteration: nothing is logged after a step that left the neighbourhood *)
Definition ip_log_step (n : nat) (st st' : ip_state) (tx : option vec) (lg : logger) : res (option vec * logger) :=
  if ip_off_path n st' then Ok (tx, lg) else
  let! f := ip_F calls (is_lam st) (is_tbeta st) (is_tgamma st) n (is_x st) (is_mu st) in
  let! df := ip_dF calls (is_lam st) n (is_x st) in
  let! direction := solve df (vneg f) in
  let tx' := if ip_proxes st' then Some (beta_gamma_to_x (is_tbeta st') (is_tgamma st')) else tx in
  let! lg' := (if (0 <? length (lg_keys lg))%nat then log lg (ip_locals n st st' f direction tx') else Ok lg) in
  Ok (tx', lg').
Fixpoint ip_trace (n fuel : nat) (st : ip_state) (tx : option vec) (lg : logger) : res (ip_state * logger) :=
  let! c := ip_continue calls opts n st in
  if c then
    match fuel with
    | O => Err OutOfFuel
    | S fuel' =>
        let! st' := ip_body calls opts p q solve minimize_scalar n st in
        let! (tx', lg') := ip_log_step n st st' tx lg in
        ip_trace n fuel' st' tx' lg'
    end
  else Ok (st, lg).
(** oracles.py:1514 *)
Definition good_stop (n : nat) (st : ip_state) : res bool :=
  let! f := ip_F calls (is_lam st) (is_tbeta st) (is_tgamma st) n (is_x st) (is_mu st) in
  Ok (rltb (norm f) (io_tol opts) && rltb (is_mu st) (io_tol opts)).

Variable warm_start : bool.
(** find_optimal_parameters_ip with a logger: what becomes of the logger; nothing for an empty tgamma *)
Definition find_ip_log (mem : sr3_memory) (beta gamma tbeta tgamma : vec) (lg : logger) : res logger :=
  match tgamma with
  | [] => Ok lg
  | _ :: _ =>
      let n := length gamma in
      let! _ := guard (0 <? n)%nat ValueError in
      let! lg1 := add lg "mu_effective" (LList []) in
      let! lg2 := add lg1 "mu" (LList []) in
      let! (st, lg3) := ip_trace n (Z.to_nat (io_n_iter opts)) (ip_start warm_start mem beta gamma tbeta tgamma) None lg2 in
      let! good := good_stop n st in
      let! lg4 := add lg3 "good_stopping_reason" (LAtom (LBool good)) in
      add lg4 "iteration" (LAtom (LNum (INR (is_iter st))))
  end.
Definition find_optimal_parameters_log (mem : sr3_memory) (w : vec) (lg : logger) : res logger :=
  let '(tbeta, tgamma) := x_to_beta_gamma p q w in
  find_ip_log mem (vscale 2 tbeta) (vscale 2 tgamma) tbeta tgamma lg.
End Trace.
