(** Vocabulary for the theorems on double precision. *)
From Coq Require Import Reals ZArith List.
From Flocq Require Import Core BinarySingleNaN.
From Verif.Base Require Import Py Vec.
From Verif.Model Require Import Float64 Float64Solver.
Import ListNotations.
Open Scope R_scope.

(** the real number a finite double stands for, and rounding to nearest even *)
Definition val (x : f64) : R := B2R x.
Definition finite (x : f64) : Prop := is_finite x = true.
Definition rnd (x : R) : R := round radix2 (FLT_exp (-1074) 53) ZnearestE x.
(** half a unit in the last place, relative *)
Definition unit_roundoff : R := / 2 ^ 53.
(** half of the smallest positive double *)
Definition underflow_error : R := bpow radix2 (-1075).

(** a number below 0 or minus infinity; neither the zeros nor NaN *)
Definition negative (x : f64) : Prop :=
  match x with
  | B754_infinity s => s = true
  | B754_finite s _ _ _ => s = true
  | _ => False
  end.

(** soft thresholding of real numbers *)
Definition soft_threshold (t x : R) : R :=
  if Rle_dec (Rabs x) t then 0 else if Rle_dec 0 x then x - t else x + t.

(** y lies between 0 and x *)
Definition toward_zero (x y : R) : Prop := (0 <= x -> 0 <= y <= x) /\ (x <= 0 -> x <= y <= 0).

(** built without SCAD, and with no negative lambda, weight or eps (zeros, infinities and NaN are allowed) *)
Fixpoint plain (r : freg) : Prop :=
  let fine lam (w : option (list f64)) :=
    ~ negative lam /\ match w with Some w => Forall (fun wi => ~ negative wi) w | None => True end in
  match r with
  | FSelect _ | FDummy => True
  | FL1 lam w | FCAD _ lam w => fine lam w
  | FSCAD _ _ _ _ => False
  | FPos _ (Some r') => plain r'
  | FPos _ None => True
  | FElastic eps (Some r') => ~ negative eps /\ plain r'
  | FElastic eps None => ~ negative eps
  end.

(** the threshold of the L1 class for coordinate i: in double precision, and from the same inputs in exact arithmetic *)
Definition l1_threshold (lam : f64) (w : option (list f64)) (alpha : f64) (i : nat) : f64 :=
  match w with Some w => fmul (fmul alpha (nth i w fzero)) lam | None => fmul alpha lam end.
Definition exact_threshold (lam : f64) (w : option (list f64)) (alpha : f64) (i : nat) : R :=
  match w with Some w => val alpha * val (nth i w fzero) * val lam | None => val alpha * val lam end.
(** one weight for each of n coordinates, none of them negative *)
Definition weights_fit (w : option (list f64)) (n : nat) : Prop :=
  match w with Some w => length w = n /\ Forall (fun wi => ~ negative wi) w | None => True end.

(** the double nearest to m 2^e *)
Definition double (m e : Z) : f64 := binary_normalize 53 1024 prec_pos prec_lt mode_NE m e false.

(** the weight of coordinate i *)
Definition weight_at (w : option (list f64)) (i : nat) : f64 := match w with Some w => nth i w fzero | None => fone end.

(** numpy's dot of two arrays with one entry has nothing to add *)
Definition dot_of_one (fdot : list f64 -> list f64 -> f64) : Prop := forall a b, fdot [a] [b] = fmul a b.
(** the functions of the oracle come back *)
Definition comes_back {S : Type} (orc : foracle S) : Prop :=
  forall s x, fo_value orc s x <> Err OutOfFuel /\ fo_grad orc s x <> Err OutOfFuel.
