(** What the cached evaluations should return, independently of the cache. *)
From Verif.Base Require Import Py Vec RMx.
From mathcomp Require Import ssreflect ssrfun ssrbool eqtype ssrnat choice seq fintype
  finfun bigop finset ssralg matrix mxalgebra.
From Verif.Model Require Import LmeOracle LmeCache.
From Verif.Spec Require Import MxSpec.
Set Implicit Arguments.
Unset Strict Implicit.
Unset Printing Implicit Defensive.
Local Open Scope ring_scope.
Local Open Scope res_scope.

(** the values of an array as the variances of the random effects of a problem *)
Definition variances (pr : attached) (v : vec) : 'cV[R]_(at_q pr) := \col_i List.nth i v 0%coqR.

(** an evaluation that factorises for the problem and the variances it is asked for *)
Definition evaluated_afresh (A : Type) (pr : attached) (v : vec)
    (body : forall pr : attached, seq (fgroup (at_p pr) (at_q pr)) -> res A) : res A :=
  let! fs := recalculate (at_groups pr) (variances pr v) in @body pr fs.

(** there is a problem, the array has one variance per random effect and the factorisation succeeds *)
Definition factorises (pr : option attached) (v : vec) : Prop :=
  exists pr', pr = Some pr' /\ length v = at_q pr' /\ admissible (at_groups pr') (variances pr' v).

(** a history in which every evaluation succeeds, a problem is attached only where there is none, and no
    array is changed after it was passed to an evaluation, until the oracle forgets *)
Fixpoint orderly (m : memory) (pr : option attached) (used : seq nat) (es : seq event) : Prop :=
  match es with
  | [::] => True
  | Evaluate l :: es' => factorises pr (m l) /\ orderly m pr (l :: used) es'
  | Instantiate pr' :: es' => pr = None /\ orderly m (Some pr') used es'
  | Forget :: es' => orderly m None [::] es'
  | Store l v :: es' => ~ List.In l used /\ orderly (store m l v) pr used es'
  end.

(** Samples in which every observation is fitted exactly by beta = 1: one group, the same with another random
    feature, and two groups of which only the second depends on gamma *)
Definition sample_one : attached := @Attached 1 1 [:: one_obs 1 1 1 1].
Definition sample_other : attached := @Attached 1 1 [:: one_obs 1 1 2 1].
Definition sample_two : attached := @Attached 1 1 [:: one_obs 1 1 0 1; one_obs 1 1 1 1].
Definition no_prior (pr : attached) : lme_prior (at_p pr) (at_q pr) := LNone.
Definition at_one (pr : attached) : 'cV[R]_(at_p pr) := const_mx 1.
(** the arrays [1], [-5] and [3] *)
Definition sample_memory : memory := fun l => match l with 0%N => [:: 1%coqR] | 1%N => [:: (-5)%coqR] | _ => [:: 3%coqR] end.
