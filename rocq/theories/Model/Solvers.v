(** Model of src/pysr3/solvers.py.

    The oracle is an arbitrary state machine (a plain function when the state type is
    unit), the regularizer an arbitrary pair of functions; both may raise.
    Simplifications: exact reals; numpy broadcasting of a length-1 array is not
    modelled (different lengths are a ValueError). *)
From Verif.Base Require Import Py Vec.
From Verif.Model Require Export Logger.
Open Scope R_scope.

Record oracle (S : Type) := {
  o_value : S -> vec -> res (R * S);     (* value_function *)
  o_grad : S -> vec -> res (vec * S)     (* gradient_value_function *)
}.
Arguments o_value {S} o.
Arguments o_grad {S} o.

Record regularizer := {
  r_value : vec -> res ereal;
  r_prox : vec -> R -> res vec
}.

(** solvers.py:33-52 PGDSolver.__init__ *)
Record pgd_solver := {
  s_tol : R;
  s_max_iter : Z;
  s_stepping : string;
  s_step_len : R
}.

Definition ls_threshold : R := / 100000000000000.  (* 1e-14 *)

(** y = x + step_len * direction (solvers.py:96, 109) *)
Definition move (x direction : vec) (step_len : R) : res vec :=
  let! _ := guard (length direction =? length x)%nat ValueError in
  Ok (vadd x (vscale step_len direction)).

(** np.linalg.norm(x - x_prev) > tol (solvers.py:88); x_prev = None stands for np.infty *)
Definition moved (tol : R) (x : vec) (x_prev : option vec) : res bool :=
  match x_prev with
  | None => match x with [] => Ok (rltb tol 0) | _ => Ok true end
  | Some xp => let! _ := guard (length x =? length xp)%nat ValueError in
               Ok (rltb tol (norm (vsub x xp)))
  end.

Section PGD.
Context {S : Type}.
Variable orc : oracle S.
Variable rg : regularizer.
Variable slv : pgd_solver.

(** solvers.py:98-99: the acceptance test; evaluation order: f(z), then f(x) *)
Definition ls_accept (s : S) (x direction z : vec) (step_len : R) : res (bool * S) :=
  let! (fz, s1) := o_value orc s z in
  let! (fx, s2) := o_value orc s1 x in
  let! _ := guard (length z =? length x)%nat ValueError in
  let zx := vsub z x in
  Ok (rleb fz (fx - vdot direction zx + 1 / (2 * step_len) * (norm zx) ^ 2), s2).

(** solvers.py:95-102: while step_len > 1e-14 *)
Fixpoint line_search (fuel : nat) (s : S) (x direction : vec) (step_len : R) (z : option vec)
  : res (R * option vec * S) :=
  if rltb ls_threshold step_len then
    match fuel with
    | O => Err OutOfFuel
    | Datatypes.S fuel' =>
        let! y := move x direction step_len in
        let! z' := r_prox rg y step_len in
        let! (ok, s') := ls_accept s x direction z' step_len in
        if ok then Ok (step_len, Some z', s')
        else line_search fuel' s' x direction (step_len * (1 / 2)) (Some z')
    end
  else Ok (step_len, z, s).

(** enough halvings to fall below 1e-14 *)
Definition ls_fuel (step_len : R) : nat :=
  Datatypes.S (Z.to_nat (up (step_len / ls_threshold))).

(** the local variables of optimize *)
Record pgd_state := {
  st_x : vec;
  st_x_prev : option vec;
  st_iteration : nat;
  st_loss : option ereal;
  st_direction : option vec;
  st_step_len : option R;
  st_y : option vec;
  st_z : option vec;
  st_oracle : S;
  st_logger : logger
}.

Definition opt_entry {A : Type} (k : string) (f : A -> lval) (o : option A) : list (string * lval) :=
  match o with Some a => [(k, f a)] | None => [] end.
Definition lnum_e (e : ereal) : lval := match e with Fin r => LNum r | PInf => LInf end.

(** locals(): solvers.py:86, 117 *)
Definition pgd_locals (x0 : vec) (st : pgd_state) : list (string * lval) :=
  [("self", LObj "solver"); ("x0", LVec x0); ("oracle", LObj "oracle");
   ("regularizer", LObj "regularizer"); ("logger", LObj "logger");
   ("x", LVec (st_x st));
   ("x_prev", match st_x_prev st with Some v => LVec v | None => LInf end);
   ("iteration", LNum (INR (st_iteration st)))]%string
  ++ opt_entry "loss" lnum_e (st_loss st)
  ++ opt_entry "direction" LVec (st_direction st)
  ++ opt_entry "step_len" LNum (st_step_len st)
  ++ opt_entry "y" LVec (st_y st)
  ++ opt_entry "z" LVec (st_z st).

(** solvers.py:82-86 and 113-117: compute the loss if requested, then log *)
Definition log_state (x0 : vec) (st : pgd_state) : res pgd_state :=
  let! (l, s) :=
    (if has_key "loss" (lg_keys (st_logger st)) then
       let! (f, s') := o_value orc (st_oracle st) (st_x st) in
       let! r := r_value rg (st_x st) in
       Ok (Some (eadd (Fin f) r), s')
     else Ok (st_loss st, st_oracle st)) in
  let st1 := {| st_x := st_x st; st_x_prev := st_x_prev st; st_iteration := st_iteration st;
                st_loss := l; st_direction := st_direction st; st_step_len := st_step_len st;
                st_y := st_y st; st_z := st_z st; st_oracle := s; st_logger := st_logger st |} in
  let! lg := (if (0 <? length (lg_keys (st_logger st)))%nat
              then log (st_logger st) (pgd_locals x0 st1) else Ok (st_logger st)) in
  Ok {| st_x := st_x st1; st_x_prev := st_x_prev st1; st_iteration := st_iteration st1;
        st_loss := l; st_direction := st_direction st1; st_step_len := st_step_len st1;
        st_y := st_y st1; st_z := st_z st1; st_oracle := s; st_logger := lg |}.

(** solvers.py:89-117: one iteration *)
Definition pgd_step (x0 : vec) (st : pgd_state) : res pgd_state :=
  let x := st_x st in
  let! (g, s1) := o_grad orc (st_oracle st) x in
  let direction := vneg g in
  let! (step_len, z, s2) :=
    (if String.eqb (s_stepping slv) "line-search"
     then line_search (ls_fuel (s_step_len slv)) s1 x direction (s_step_len slv) (st_z st)
     else Ok (s_step_len slv, st_z st, s1)) in
  let! y := move x direction step_len in
  let! x' := r_prox rg y step_len in
  log_state x0
    {| st_x := x'; st_x_prev := Some x; st_iteration := Datatypes.S (st_iteration st);
       st_loss := st_loss st; st_direction := Some direction; st_step_len := Some step_len;
       st_y := Some y; st_z := z; st_oracle := s2; st_logger := st_logger st |}.

(** solvers.py:88 while ... *)
Fixpoint pgd_loop (fuel : nat) (x0 : vec) (st : pgd_state) : res pgd_state :=
  let! m := moved (s_tol slv) (st_x st) (st_x_prev st) in
  if m && (Z.of_nat (st_iteration st) <? s_max_iter slv)%Z then
    match fuel with
    | O => Err OutOfFuel
    | Datatypes.S fuel' => let! st' := pgd_step x0 st in pgd_loop fuel' x0 st'
    end
  else Ok st.

Definition pgd_init (x0 : vec) (s : S) (lg : logger) : pgd_state :=
  {| st_x := x0; st_x_prev := None; st_iteration := 0; st_loss := None; st_direction := None;
     st_step_len := None; st_y := None; st_z := None; st_oracle := s; st_logger := lg |}.

(** solvers.py:54-122 PGDSolver.optimize; returns x, the logger and the oracle's state *)
Definition pgd_optimize (x0 : vec) (s : S) (lg : logger) : res (vec * logger * S) :=
  let! st0 := log_state x0 (pgd_init x0 s lg) in
  let! st := pgd_loop (Z.to_nat (s_max_iter slv)) x0 st0 in
  let! lg1 := add (st_logger st) "converged"
                  (LAtom (LBool (Z.of_nat (st_iteration st) <? s_max_iter slv)%Z)) in
  let! lg2 := add lg1 "iteration" (LAtom (LNum (INR (st_iteration st)))) in
  Ok (st_x st, lg2, st_oracle st).

End PGD.

(** solvers.py:153-194 FakePGDSolver.optimize.  [find] is oracle.find_optimal_parameters
    with its keyword arguments (tol, max_iter, prox_step_len, update_prox_every,
    regularizer, logger) applied; it may change the logger. *)
Definition fake_pgd_optimize {S : Type} (orc : oracle S) (rg : regularizer)
    (find : S -> vec -> logger -> res (vec * logger * S))
    (x0 : vec) (s : S) (lg : logger) : res (vec * logger * S) :=
  let! (x, lg1, s1) := find s x0 lg in
  let! (lg2, s2) :=
    (if has_key "loss" (lg_keys lg1) then
       let! (f, s') := o_value orc s1 x in
       let! r := r_value rg x in
       let! lg' := add lg1 "loss" (LAtom (lnum_e (eadd (Fin f) r))) in
       Ok (lg', s')
     else Ok (lg1, s1)) in
  let! lg3 := add lg2 "converged" (LAtom (LBool true)) in
  Ok (x, lg3, s2).

