(** Specifications for the condition numbers: what a singular value decomposition of a
    positive semidefinite matrix returns, and the condition number of a linear map by the
    smallest and the largest amount by which it stretches a vector. *)
From Verif.Base Require Import Py Vec RMx.
From mathcomp Require Import ssreflect ssrfun ssrbool eqtype ssrnat choice seq fintype
  finfun bigop finset ssralg matrix mxalgebra.
From Verif.Model Require Import LmeOracle.
From Verif.Spec Require Import MxSpec.
Set Implicit Arguments.
Unset Strict Implicit.
Unset Printing Implicit Defensive.
Delimit Scope R_scope with coqR.
Local Open Scope ring_scope.

(** A = Q diag(s) Q' with an orthogonal Q and nonnegative s *)
Definition svd_ok (svd : forall n, 'M[R]_n -> res 'cV[R]_n) : Prop :=
  forall n (A : 'M[R]_n) s, psd A -> svd n A = Ok s ->
  (forall i, (0 <= s i ord0)%coqR) /\
  exists Q : 'M[R]_n, Q^T *m Q = 1%:M /\ A = Q *m diagv s *m Q^T.

(** the smallest and the largest value of f u / |u|^2 *)
Definition stretches (n : nat) (f : 'cV[R]_n -> R) (lo hi : R) : Prop :=
  (forall u, (lo * sumsq u <= f u <= hi * sumsq u)%coqR) /\
  (exists u, u <> 0 /\ f u = (lo * sumsq u)%coqR) /\
  (exists u, u <> 0 /\ f u = (hi * sumsq u)%coqR).

(** k is the condition number of the map whose squared length is f: the largest over the
    smallest |Xu| / |u| *)
Definition condition_number (n : nat) (f : 'cV[R]_n -> R) (k : ereal) : Prop :=
  exists lo hi, stretches f lo hi /\
    k = (if reqb lo 0%coqR then PInf else Fin (sqrt hi / sqrt lo)%coqR).
Definition squared_condition_number (n : nat) (f : 'cV[R]_n -> R) (k : ereal) : Prop :=
  exists lo hi, stretches f lo hi /\
    k = (if reqb lo 0%coqR then PInf else Fin (hi / lo)%coqR).

Section Data.
Variables p q : nat.
Implicit Types (gs : seq (group p q)).
(** |X u|^2 and |Z u|^2 for the matrices of all groups on top of each other *)
Definition stacked_x gs (u : 'cV[R]_p) : R := \sum_(g <- gs) sumsq (g_x g *m u).
Definition stacked_z gs (u : 'cV[R]_q) : R := \sum_(g <- gs) sumsq (g_z g *m u).
End Data.

(** a singular value decomposition of diagonal matrices, for the examples *)
Definition svd_of_diagonal n (A : 'M[R]_n) : res 'cV[R]_n :=
  let s := \col_i A i i in
  if A == diagv s then Ok s else Err LinAlgError.

(** two observations with X = Z = diag(1, 2), and one observation with a unit row *)
Definition one_two : 'cV[R]_2 := \col_i (if i == ord0 then 1 else 2)%coqR.
Definition scaled : group 2 2 := Group (diagv one_two) 0 (diagv one_two) (const_mx 1).
Definition unit_row (j : 'I_2) : group 2 2 :=
  @Group 2 2 1 (delta_mx ord0 j) 0 (delta_mx ord0 j) (const_mx 1).
