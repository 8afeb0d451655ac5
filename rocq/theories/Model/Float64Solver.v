(** PGDSolver.optimize (src/pysr3/solvers.py:54-122) and LinearOracle (src/pysr3/linear/oracles.py) in double precision.
    Simplifications: nothing is logged but the convergence flag and the number of iterations; [fdot] is np.dot of two
    arrays of the same length (the order in which numpy adds is left open) and [fsquare] is ** 2 of a number;
    np.linalg.norm(v) is the square root of [fdot v v]; the prior is the non-informative one; no broadcasting. *)
From Coq Require Import ZArith List String.
From Flocq Require Import Core BinarySingleNaN.
From Verif.Base Require Import Py Vec.
From Verif.Model Require Import Float64.
Import ListNotations.
Open Scope list_scope.

Definition fnat (m e : Z) : f64 := binary_normalize 53 1024 prec_pos prec_lt mode_NE m e false.
(** 0.5, 2 and 1e-14 *)
Definition fhalf : f64 := fnat 1 (-1).
Definition ftwo : f64 := fnat 2 0.
Definition fls_threshold : f64 := fnat 6338253001141147 (-99).
Definition fsqrt (x : f64) : f64 := Bsqrt mode_NE x.
Definition finf : f64 := B754_infinity false.

(** value_function and gradient_value_function, which may change the state of the oracle or raise *)
Record foracle (S : Type) := {
  fo_value : S -> list f64 -> res (f64 * S);
  fo_grad : S -> list f64 -> res (list f64 * S)
}.
Arguments fo_value {S} f.
Arguments fo_grad {S} f.

Record fsolver := { fs_tol : f64; fs_max_iter : Z; fs_stepping : string; fs_step_len : f64 }.

Section Solver.
Variable fdot : list f64 -> list f64 -> f64.
Variable fsquare : f64 -> f64.
Context {S : Type}.
Variable orc : foracle S.
Variable rg : freg.
Variable slv : fsolver.

Definition fnorm (v : list f64) : f64 := fsqrt (fdot v v).
Definition fminus (x y : list f64) : list f64 := map2 fsub x y.
(** x + step_len * direction *)
Definition fmove (x direction : list f64) (step_len : f64) : res (list f64) :=
  let! _ := guard (length direction =? length x)%nat ValueError in
  Ok (map2 (fun xi di => fadd xi (fmul step_len di)) x direction).

(** solvers.py:98-99 *)
Definition faccept (s : S) (x direction z : list f64) (step_len : f64) : res (bool * S) :=
  let! (fz, s1) := fo_value orc s z in
  let! (fx, s2) := fo_value orc s1 x in
  let! _ := guard (length z =? length x)%nat ValueError in
  let zx := fminus z x in
  Ok (fle fz (fadd (fsub fx (fdot direction zx)) (fmul (fdiv fone (fmul ftwo step_len)) (fsquare (fnorm zx)))), s2).

(** solvers.py:93-102 *)
Fixpoint fline_search (fuel : nat) (s : S) (x direction : list f64) (step_len : f64) : res (f64 * S) :=
  if flt fls_threshold step_len then
    match fuel with
    | O => Err OutOfFuel
    | Datatypes.S fuel' =>
        let! y := fmove x direction step_len in
        let! z := fprox rg y step_len in
        let! (ok, s') := faccept s x direction z step_len in
        if ok then Ok (step_len, s') else fline_search fuel' s' x direction (fmul step_len fhalf)
    end
  else Ok (step_len, s).
(** after so many halvings a number below 2^1024 is at most 2^-47, which is below 1e-14 *)
Definition fls_fuel : nat := Z.to_nat 1071.

(** solvers.py:89-111 *)
Definition fpgd_step (s : S) (x : list f64) : res (list f64 * S) :=
  let! (g, s1) := fo_grad orc s x in
  let direction := map fopp g in
  let! (step_len, s2) :=
    (if String.eqb (fs_stepping slv) "line-search"
     then fline_search fls_fuel s1 x direction (fs_step_len slv) else Ok (fs_step_len slv, s1)) in
  let! y := fmove x direction step_len in
  let! x' := fprox rg y step_len in
  Ok (x', s2).

(** solvers.py:88: the state is x, x_prev, iteration and the oracle *)
Fixpoint fpgd_loop (fuel : nat) (s : S) (x x_prev : list f64) (iteration : nat) : res (list f64 * list f64 * nat * S) :=
  let! _ := guard (length x =? length x_prev)%nat ValueError in
  if flt (fs_tol slv) (fnorm (fminus x x_prev)) && (Z.of_nat iteration <? fs_max_iter slv)%Z then
    match fuel with
    | O => Err OutOfFuel
    | Datatypes.S fuel' => let! (x', s') := fpgd_step s x in fpgd_loop fuel' s' x' x (Datatypes.S iteration)
    end
  else Ok (x, x_prev, iteration, s).

(** what optimize leaves behind: x, x_prev, the flag "converged" and "iteration" *)
Record frun := { fr_x : list f64; fr_x_prev : list f64; fr_converged : bool; fr_iteration : nat }.
(** solvers.py:78-122; x - np.infty subtracts it from every entry *)
Definition fpgd_optimize (x0 : list f64) (s : S) : res (frun * S) :=
  let! (x, x_prev, iteration, s') := fpgd_loop (Z.to_nat (fs_max_iter slv)) s x0 (map (fun _ => finf) x0) 0 in
  Ok ({| fr_x := x; fr_x_prev := x_prev; fr_converged := (Z.of_nat iteration <? fs_max_iter slv)%Z;
         fr_iteration := iteration |}, s').
End Solver.

(** linear/oracles.py:60-92 LinearOracle.loss and gradient for the rows a and the targets b; numpy's 0 + 0 of the prior *)
Definition flinear_oracle (fdot : list f64 -> list f64 -> f64) (fsquare : f64 -> f64) (a : list (list f64)) (b : list f64)
  : foracle unit :=
  let residual x := map2 fsub (map (fun row => fdot row x) a) b in
  let col j := map (fun row => nth j row fzero) a in
  {| fo_value := fun _ x => Ok (fadd (fmul fhalf (fsquare (fnorm fdot (residual x)))) fzero, tt);
     fo_grad := fun _ x =>
       Ok (map (fun j => fadd (fdot (col j) (residual x)) fzero) (seq 0 (length x)), tt) |}.

(** linear/models.py:79-125 fit of SimpleLinearModel without options: start at ones, step 5e-2, tol 1e-5, 1000 iterations,
    no regularizer *)
Definition flinear_fit (fdot : list f64 -> list f64 -> f64) (fsquare : f64 -> f64) (stepping : string) (n : nat)
  (a : list (list f64)) (b : list f64) : res (frun * unit) :=
  fpgd_optimize fdot fsquare (flinear_oracle fdot fsquare a b) FDummy
    {| fs_tol := fnat 5902958103587057 (-69); fs_max_iter := 1000; fs_stepping := stepping;
       fs_step_len := fnat 7205759403792794 (-57) |} (repeat fone n) tt.
