(** Model of the diagnostics of LinearLMEOracle (src/pysr3/lme/oracles.py:1026-1070).
    Simplifications: as in LmeOracle.v; np.linalg.svd is a parameter that returns the
    singular values of a square matrix; the criteria are asked with their tolerance and
    marginalized arguments given. *)
From Coq Require Import String.
From Verif.Base Require Import Py Vec RMx.
From mathcomp Require Import ssreflect ssrfun ssrbool eqtype ssrnat choice seq fintype
  finfun bigop finset ssralg matrix mxalgebra.
From Verif.Model Require Import LmeOracle.
Set Implicit Arguments.
Unset Strict Implicit.
Unset Printing Implicit Defensive.
Delimit Scope R_scope with coqR.
Local Open Scope ring_scope.
Local Open Scope res_scope.

(** min(l) and max(l) of a Python list *)
Definition py_min (l : seq R) : res R :=
  match l with [::] => Err ValueError | a :: l' => Ok (foldr Rmin a l') end.
Definition py_max (l : seq R) : res R :=
  match l with [::] => Err ValueError | a :: l' => Ok (foldr Rmax a l') end.
(** list(v) *)
Definition entries (n : nat) (v : 'cV[R]_n) : seq R := [seq v i ord0 | i <- enum 'I_n].

Section Diagnostics.
Variables p q : nat.
Variable svd : forall n, 'M[R]_n -> res 'cV[R]_n.
Implicit Types (gs : seq (group p q)) (g : group p q).

(** oracles.py:1068-1069 one of the two quotients *)
Definition spread (l : seq R) : res ereal :=
  let! lo := py_min l in
  if reqb lo 0%coqR then Ok PInf else
  let! hi := py_max l in
  Ok (Fin (hi / lo)%coqR).

(** oracles.py:1062-1066 the singular values of x'x and of z'z of a group *)
Definition group_singular_values g : res (seq R * seq R) :=
  let! sx := svd ((g_x g)^T *m g_x g) in
  let! sz := svd ((g_z g)^T *m g_z g) in
  Ok (entries sx, entries sz).

(** oracles.py:1051-1069 get_condition_numbers *)
Definition get_condition_numbers gs : res (ereal * ereal) :=
  let! ss := sequence (List.map group_singular_values gs) in
  let! cx := spread (flatten [seq s.1 | s <- ss]) in
  let! cz := spread (flatten [seq s.2 | s <- ss]) in
  Ok (cx, cz).

(** oracles.py:1026-1049 get_ic *)
Definition get_ic (ic : string) gs (pr : lme_prior p q) tol (marginalized : bool) beta gamma : res R :=
  if String.eqb ic "IC_vaida2005aic" then lme_vaida_aic gs pr tol marginalized beta gamma
  else if String.eqb ic "IC_jones2010bic" then lme_jones_bic gs pr tol beta gamma
  else Err ValueError.
End Diagnostics.
