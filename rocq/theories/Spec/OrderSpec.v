(** The same data in another order. *)
From Coq Require Import Permutation.
From Verif.Base Require Import Py Vec Mat RMx.
From Verif.Model Require Import LmeProblem.
From mathcomp Require Import ssreflect ssrfun ssrbool eqtype ssrnat choice seq fintype
  finfun bigop finset fingroup perm ssralg matrix mxalgebra.
From Verif.Model Require Import LmeOracle.
Set Implicit Arguments.
Unset Strict Implicit.
Unset Printing Implicit Defensive.
Local Open Scope ring_scope.

(** a group whose observations are listed in another order *)
Definition reorder (p q : nat) (g : group p q) (s : 'S_(g_n g)) : group p q :=
  @Group p q (g_n g) (row_perm s (g_x g)) (row_perm s (g_y g)) (row_perm s (g_z g)) (row_perm s (g_v g)).
Arguments reorder {p q} g s.
Definition same_rows (p q : nat) (g g' : group p q) : Prop := exists s, g' = reorder g s.

(** two tables with the same rows, each with its target, in any order *)
Definition shuffled (x : table) (y : vec) (x' : table) (y' : vec) : Prop :=
  t_cols x = t_cols x' /\
  exists d d' : list (vec * R), Permutation d d' /\
    (t_rows x = List.map fst d /\ y = List.map snd d) /\ (t_rows x' = List.map fst d' /\ y' = List.map snd d').
