(** Properties C88-C91 in double precision: what the proximal operators do to each entry, and the solver
    (src/pysr3/regularizers.py, src/pysr3/solvers.py). *)
From Coq Require Import Reals ZArith List String.
From Flocq Require Import Core BinarySingleNaN.
From Verif.Base Require Import Py Vec.
From Verif.Model Require Import Float64 Float64Solver.
From Verif.Spec Require Import Float64Spec.
From Verif.Proofs Require Import Float64SolverMain.

Import ListNotations.
Open Scope list_scope.
Open Scope R_scope.

(** C88 for a run of the solver: whatever the oracle returns (NaN, infinities, other values at every call), whatever order
    numpy adds in and whatever the start is, after at least one iteration no coordinate declared positive is negative. *)
Theorem solver_not_negative_partial : forall fdot fsquare (S : Type) (orc : foracle S) coords other slv x0 s r s' i,
  plain (FPos coords other) -> ~ negative (fs_step_len slv) ->
  fpgd_optimize fdot fsquare orc (FPos coords other) slv x0 s = Ok (r, s') ->
  (0 < fr_iteration r)%nat -> nth i coords false = true -> ~ negative (nth i (fr_x r) fzero).
Proof. exact solver_not_negative_partial_lemma. Qed.
Print Assumptions solver_not_negative_partial.

(** non-vacuous: a run whose gradient is always 1 pushes the start 1 down to 0 and stops there after 2 iterations *)
Example ex_solver_not_negative_partial :
  let fdot a b := match a, b with [x], [y] => fmul x y | _, _ => fzero end in
  let orc := {| fo_value := fun (_ : unit) _ => Ok (fzero, tt); fo_grad := fun _ _ => Ok ([fone], tt) |} in
  let slv := {| fs_tol := fzero; fs_max_iter := 5; fs_stepping := "fixed"%string; fs_step_len := fone |} in
  plain (FPos [true] None) /\ ~ negative (fs_step_len slv) /\
  match fpgd_optimize fdot (fun x => fmul x x) orc (FPos [true] None) slv [fone] tt with
  | Ok (r, _) => (0 < fr_iteration r)%nat /\ map B2SF (fr_x r) = [B2SF fzero] /\ fr_iteration r = 2%nat
  | Err _ => False
  end.
Proof. exact ex_solver_not_negative_partial_lemma. Qed.

(** C89, CAD: entries above rho in absolute value and entries of weight 0 are returned bit for bit, the others are
    soft-thresholded with one rounding. *)
Theorem cad_prox_rounded : forall rho lam w x alpha i,
  weights_fit w (length x) -> ~ negative lam -> ~ negative alpha -> (i < length x)%nat ->
  let xi := nth i x fzero in
  let wi := weight_at w i in
  let t := match w with Some _ => fmul (fmul wi alpha) lam | None => fmul alpha lam end in
  finite xi -> finite rho -> finite wi ->
  exists y, fcad_prox rho lam w x alpha = Ok y /\ length y = length x /\
    (val rho < Rabs (val xi) \/ val wi = 0 -> nth i y fzero = xi) /\
    (Rabs (val xi) <= val rho -> 0 < val wi -> finite t ->
     finite (nth i y fzero) /\ val (nth i y fzero) = rnd (soft_threshold (val t) (val xi))).
Proof. exact cad_prox_rounded_lemma. Qed.
Print Assumptions cad_prox_rounded.

(** C89, SCAD: entries of weight 0 and entries above the computed upper knot are returned bit for bit, entries below the
    computed lower knot are soft-thresholded with one rounding. *)
Theorem scad_prox_rounded : forall rho sigma lam w x alpha i,
  weights_fit w (length x) -> ~ negative lam -> ~ negative alpha -> ~ negative sigma -> (i < length x)%nat ->
  let xi := nth i x fzero in
  let wi := weight_at w i in
  let a := fmul (fmul alpha lam) wi in
  let lower := fmul sigma (fadd fone a) in
  let upper := fmul (fmax rho (fadd fone a)) sigma in
  let t := fmul sigma a in
  finite xi -> finite wi ->
  exists y, fscad_prox rho sigma lam w x alpha = Ok y /\ length y = length x /\
    (val wi = 0 -> nth i y fzero = xi) /\
    (finite upper -> val upper < Rabs (val xi) -> nth i y fzero = xi) /\
    (0 < val wi -> finite upper -> finite lower -> finite t -> Rabs (val xi) < val lower -> Rabs (val xi) <= val upper ->
     finite (nth i y fzero) /\ val (nth i y fzero) = rnd (soft_threshold (val t) (val xi))).
Proof. exact scad_prox_rounded_lemma. Qed.
Print Assumptions scad_prox_rounded.

(** C89, elastic and positive quadrant: each entry divided by the computed 1 + alpha eps, rounded once; and each entry
    declared positive replaced by max(0, x), exactly, the others returned bit for bit. *)
Theorem elastic_positive_rounded : forall eps coords x alpha i,
  ~ negative eps -> ~ negative alpha -> (i < length x)%nat -> length coords = length x ->
  let xi := nth i x fzero in
  finite xi ->
  (exists y, fprox (FElastic eps None) x alpha = Ok y /\ length y = length x /\
     (finite (fadd fone (fmul alpha eps)) -> finite (nth i y fzero) /\
        val (nth i y fzero) = rnd (val xi / rnd (1 + rnd (val alpha * val eps))))) /\
  (exists y, fprox (FPos coords None) x alpha = Ok y /\ length y = length x /\
     if nth i coords false then finite (nth i y fzero) /\ val (nth i y fzero) = Rmax 0 (val xi)
     else nth i y fzero = xi).
Proof. exact elastic_positive_rounded_lemma. Qed.
Print Assumptions elastic_positive_rounded.

(** C89 at work: CAD with rho = 2 leaves 3 alone and moves 1 to 1/2; SCAD with rho = 3, sigma = 1, lambda = 1/2 leaves 4
    alone and moves 1 to 1/2; elastic with eps = 1 and positive quadrant on -1, 3. *)
Example ex_cad_prox_rounded :
  let show r := match r with Ok y => Some (map B2SF y) | Err _ => None end in
  let h := double 1 (-1) in
  let two := double 2 0 in let three := double 3 0 in let four := double 4 0 in let neg := double (-1) 0 in
  show (fcad_prox two h (Some [fone; fone]) [three; fone] fone) = Some (map B2SF [three; h]) /\
  show (fscad_prox three fone h None [four; fone] fone) = Some (map B2SF [four; h]) /\
  show (fprox (FElastic fone None) [neg; three] fone) = Some (map B2SF [double (-1) (-1); double 3 (-1)]) /\
  show (fprox (FPos [true; false] None) [neg; neg] fone) = Some (map B2SF [fzero; neg]).
Proof. exact ex_cad_prox_rounded_lemma. Qed.

(** C90, when the initial step is not infinite: the solver comes back, whatever the oracle returns, the order numpy adds in,
    the regularizer, tolerance and start; every line search makes at most 1071 trials. *)
Theorem float_terminates_partial : forall fdot fsquare (S : Type) (orc : foracle S) rg slv x0 s,
  comes_back orc -> fs_stepping slv <> "line-search"%string \/ fs_step_len slv <> finf ->
  fpgd_optimize fdot fsquare orc rg slv x0 s <> Err OutOfFuel.
Proof. exact float_terminates_partial_lemma. Qed.
Print Assumptions float_terminates_partial.

(** C90 fails for fixed_step_len = inf: on one observation of 0 with the feature 0, halving the step never ends, however
    many trials are allowed. *)
Theorem float_terminates_refuted : forall fdot fsquare, dot_of_one fdot ->
  let orc := flinear_oracle fdot fsquare [[fzero]] [fzero] in
  exists g, fo_grad orc tt [fone] = Ok (g, tt) /\
  forall fuel, fline_search fdot fsquare orc FDummy fuel tt [fone] (map fopp g) finf = Err OutOfFuel.
Proof. exact float_terminates_refuted_lemma. Qed.
Print Assumptions float_terminates_refuted.

(** non-vacuous: the linear oracle comes back, and the default step is not infinite *)
Example ex_float_terminates_partial : forall fdot fsquare,
  comes_back (flinear_oracle fdot fsquare [[fone]] [fone]) /\ fnat 7205759403792794 (-57) <> finf.
Proof. exact ex_float_terminates_partial_lemma. Qed.

(** C91, what converged = True does mean: the last move is at most tol, if its length and tol are not NaN. *)
Theorem float_converged_partial : forall fdot fsquare (S : Type) (orc : foracle S) rg slv x0 s r s',
  fpgd_optimize fdot fsquare orc rg slv x0 s = Ok (r, s') -> fr_converged r = true ->
  let len := fnorm fdot (fminus (fr_x r) (fr_x_prev r)) in
  is_nan len = false -> is_nan (fs_tol slv) = false -> fle len (fs_tol slv) = true.
Proof. exact float_converged_partial_lemma. Qed.
Print Assumptions float_converged_partial.

(** C91 fails: LinearModel with stepping="fixed" and otherwise default options on the single observation 1 with feature 10
    overflows, stops after 511 iterations when the coefficient is NaN, and reports converged = True. *)
Theorem float_converged_refuted : forall fdot fsquare, dot_of_one fdot -> exists r,
  flinear_fit fdot fsquare "fixed" 1 [[double 10 0]] [fone] = Ok (r, tt) /\
  fr_converged r = true /\ Z.of_nat (fr_iteration r) = 511%Z /\ map is_nan (fr_x r) = [true].
Proof. exact float_converged_refuted_lemma. Qed.
Print Assumptions float_converged_refuted.

(** non-vacuous: on feature 1 and target 1 the same model stops at its start, at once, with a last move of length 0 *)
Example ex_float_converged_partial :
  let fdot a b := match a, b with [x], [y] => fmul x y | _, _ => fzero end in
  match flinear_fit fdot (fun x => fmul x x) "fixed" 1 [[fone]] [fone] with
  | Ok (r, _) => fr_converged r = true /\ map B2SF (fr_x r) = [B2SF fone] /\
                 B2SF (fnorm fdot (fminus (fr_x r) (fr_x_prev r))) = B2SF fzero
  | Err _ => False
  end.
Proof. exact ex_float_converged_partial_lemma. Qed.
