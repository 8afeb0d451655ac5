(** Properties C86-C88: the proximal operators of src/pysr3/regularizers.py in double precision. *)
From Coq Require Import Reals ZArith List.
From Flocq Require Import Core BinarySingleNaN.
From Verif.Base Require Import Py Vec.
From Verif.Model Require Import Regularizers Float64.
From Verif.Spec Require Import Float64Spec.
From Verif.Proofs Require Import Float64Main.

Import ListNotations.
Open Scope R_scope.

(** C86. In double precision the L1 prox subtracts the threshold with a single rounding: where x_i and the threshold are
    finite, the result is the soft-thresholded value rounded to nearest, and it is 0 exactly when |x_i| is at most the
    threshold (no entry is lost to underflow, and none survives by rounding). *)
Theorem l1_prox_rounded : forall lam w x alpha i,
  weights_fit w (length x) -> ~ negative lam -> ~ negative alpha -> (i < length x)%nat ->
  let t := l1_threshold lam w alpha i in
  finite (nth i x fzero) -> finite t ->
  exists y, fl1_prox lam w x alpha = Ok y /\ length y = length x /\
    finite (nth i y fzero) /\
    val (nth i y fzero) = rnd (soft_threshold (val t) (val (nth i x fzero))) /\
    (val (nth i y fzero) = 0 <-> Rabs (val (nth i x fzero)) <= val t).
Proof. exact l1_prox_rounded_lemma. Qed.
Print Assumptions l1_prox_rounded.

(** C86. A threshold that overflows removes every finite entry. *)
Theorem l1_prox_overflow : forall lam w x alpha i,
  weights_fit w (length x) -> (i < length x)%nat -> finite (nth i x fzero) ->
  l1_threshold lam w alpha i = B754_infinity false ->
  exists y, fl1_prox lam w x alpha = Ok y /\ finite (nth i y fzero) /\ val (nth i y fzero) = 0.
Proof. exact l1_prox_overflow_lemma. Qed.
Print Assumptions l1_prox_overflow.

(** C86. How far the result is from the exact model of the same operator (C04) on the same numbers: one rounding of x_i and
    two roundings of the threshold, whatever the size of the numbers. *)
Theorem l1_prox_error : forall lam w x alpha i y z,
  weights_fit w (length x) -> ~ negative lam -> ~ negative alpha -> (i < length x)%nat ->
  finite (nth i x fzero) -> finite (l1_threshold lam w alpha i) ->
  fl1_prox lam w x alpha = Ok y ->
  l1_prox (val lam) (option_map (map val) w) (map val x) (val alpha) = Ok z ->
  Rabs (val (nth i y fzero) - nth i z 0) <=
    unit_roundoff * Rabs (val (nth i x fzero)) +
    (2 * unit_roundoff + unit_roundoff ^ 2) * exact_threshold lam w alpha i +
    underflow_error * (1 + (1 + unit_roundoff) * val lam).
Proof. exact l1_prox_error_lemma. Qed.
Print Assumptions l1_prox_error.

(** Three numbers for which C86 applies: 3, -1/4 and the smallest double, with lambda = 1/2 and unit weights; the
    result is 5/2, 0 and 0. With lambda = 0 the smallest double is kept. *)
Example ex_l1_prox_rounded :
  let x := [double 3 0; double (-1) (-2); double 1 (-1074)] in
  let w := Some [fone; fone; fone] in
  let show r := match r with Ok y => Some (map B2SF y) | Err _ => None end in
  weights_fit w (length x) /\ ~ negative (double 1 (-1)) /\
  (forall i, (i < 3)%nat -> finite (nth i x fzero) /\ finite (l1_threshold (double 1 (-1)) w fone i)) /\
  show (fl1_prox (double 1 (-1)) w x fone) = Some (map B2SF [double 5 (-1); fzero; fzero]) /\
  show (fl1_prox fzero w x fone) = Some (map B2SF x).
Proof. exact ex_l1_prox_rounded_lemma. Qed.

(** and an overflowing threshold *)
Example ex_l1_prox_overflow :
  l1_threshold (double 1 1000) None (double 1 1000) 0 = B754_infinity false /\ finite (nth 0 [fone] fzero).
Proof. exact ex_l1_prox_overflow_lemma. Qed.

(** C87, for L0, L1, CAD, the empty regularizer and their elastic and positive-quadrant combinations: with no negative
    parameter, an entry of the prox of a finite number is a number between 0 and the entry, so no sign is flipped and
    nothing grows in double precision, or it is NaN. *)
Theorem prox_toward_zero_partial : forall r x alpha y i,
  plain r -> ~ negative alpha -> fprox r x alpha = Ok y -> finite (nth i x fzero) ->
  is_nan (nth i y fzero) = true \/
  (finite (nth i y fzero) /\ toward_zero (val (nth i x fzero)) (val (nth i y fzero))).
Proof. exact prox_toward_zero_partial_lemma. Qed.
Print Assumptions prox_toward_zero_partial.

(** C87 fails for SCAD: rho = 7/3, sigma = 3/10, lambda = 4/3 (so that rho - 1 = lambda up to rounding), x = 0.6999999999999998
    and step 1 give -1/2. *)
Theorem prox_toward_zero_refuted :
  exists rho sigma lam x y,
    Forall finite [rho; sigma; lam; x] /\ Forall (fun a => 0 < val a) [rho; sigma; lam; x] /\
    fprox (FSCAD rho sigma lam None) [x] fone = Ok [y] /\ finite y /\ val y < 0.
Proof. exact prox_toward_zero_refuted_lemma. Qed.
Print Assumptions prox_toward_zero_refuted.

(** The NaN of C87 is possible: alpha w overflows and lambda is 0, where exact arithmetic returns x. *)
Example ex_prox_toward_zero_partial :
  let r := FL1 fzero (Some [double 1 1000]) in
  plain r /\ ~ negative (double 1 1000) /\ finite fone /\
  let show r := match r with Ok y => Some (map B2SF y) | Err _ => None end in
  show (fprox r [fone] (double 1 1000)) = Some [SpecFloat.S754_nan] /\
  show (fprox (FL1 fzero (Some [fone])) [fone] fone) = Some (map B2SF [fone]).
Proof. exact ex_prox_toward_zero_partial_lemma. Qed.

(** C88, for every array of doubles, with infinities and NaN among them: a coordinate that is declared positive is not
    negative after the prox, when the other regularizer is one of those of C87 with no negative parameter. *)
Theorem flagged_not_negative_partial : forall coords other x alpha y i,
  plain (FPos coords other) -> ~ negative alpha -> fprox (FPos coords other) x alpha = Ok y ->
  nth i coords false = true -> ~ negative (nth i y fzero).
Proof. exact flagged_not_negative_partial_lemma. Qed.
Print Assumptions flagged_not_negative_partial.

(** C88 fails for SCAD, at the numbers of C87. *)
Theorem flagged_not_negative_refuted :
  exists rho sigma lam x y,
    Forall (fun a => finite a /\ ~ negative a) [rho; sigma; lam; x] /\
    fprox (FPos [true] (Some (FSCAD rho sigma lam None))) [x] fone = Ok [y] /\ negative y.
Proof. exact flagged_not_negative_refuted_lemma. Qed.
Print Assumptions flagged_not_negative_refuted.

(** C88 with an elastic L1 inside, on minus infinity, NaN, -2 and 2: the results are 0, NaN, 0 and 1/2. *)
Example ex_flagged_not_negative_partial :
  let r := FPos [true; true; true; true] (Some (FElastic fone (Some (FL1 fone None)))) in
  plain r /\
  match fprox r [B754_infinity true; B754_nan; double (-2) 0; double 2 0] fone with
  | Ok y => map B2SF y = [B2SF fzero; SpecFloat.S754_nan; B2SF fzero; B2SF (double 1 (-1))]
  | Err _ => False
  end.
Proof. exact ex_flagged_not_negative_partial_lemma. Qed.
