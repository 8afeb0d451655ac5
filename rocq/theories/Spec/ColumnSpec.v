(** The same data with the features, or the observations, in another order. *)
From Coq Require Import Permutation.
From Verif.Base Require Import Py Vec Mat.
From Verif.Model Require Import Regularizers Linear.
From Verif.Spec Require Import ProxSpec LinearSpec.
Open Scope R_scope.

(** [order] lists every one of p positions once *)
Definition is_order (p : nat) (order : list nat) : Prop := Permutation order (seq 0 p).
(** entry i of the result is entry order[i] *)
Definition permute (order : list nat) (x : vec) : vec := map (fun i => nth i x 0) order.
Definition permute_columns (order : list nat) (a : mat) : mat := map (permute order) a.

(** what a log says about the reordered data: numbers stay, vectors are reordered *)
Definition value_map (f : vec -> vec) (v : lval) : lval := match v with LVec u => LVec (f u) | _ => v end.
Definition entry_map (f : vec -> vec) (o : lobj) : lobj :=
  match o with LList l => LList (map (value_map f) l) | LAtom v => LAtom (value_map f v) end.
Definition snd_map {A B : Type} (f : A -> B) (d : list (string * A)) : list (string * B) :=
  map (fun kv => (fst kv, f (snd kv))) d.
Definition log_map (f : vec -> vec) (lg : logger) : logger :=
  {| lg_kind := lg_kind lg; lg_keys := lg_keys lg; lg_dict := snd_map (entry_map f) (lg_dict lg) |}.
Definition fit_map (f : vec -> vec) (r : vec * logger) : vec * logger := (f (fst r), log_map f (snd r)).

(** penalties that are sums of penalties of single coefficients: all but L0 *)
Fixpoint coefficientwise (r : reg) : Prop :=
  match r with
  | RL1 _ _ | RCAD _ _ _ | RSCAD _ _ _ _ | RDummy => True
  | RElastic _ (Some r') => coefficientwise r'
  | RElastic _ None => True
  | RPos _ _ | RL0 _ _ _ | RL0LME _ => False
  end.

(** np.linalg.inv raises for neither of the two matrices of an SR3 model *)
Definition invertible (inv : nat -> mat -> res mat) (el : R) (a : mat) (p : nat) (b : vec) : Prop :=
  exists pr hi, linear_from_x_y a p b None None = Ok pr /\ inv p (h_matrix el pr) = Ok hi.
Definition sr3_ready (inv : nat -> mat -> res mat) (m : linear_model) (p : nat) (b : vec) (a a' : mat) : Prop :=
  match lm_el m with
  | None => True
  | Some el => 0 < el /\ inv_ok inv /\ invertible inv el a p b /\ invertible inv el a' p b
  end.

(** the two features of one observation are equal; an L0 model may keep one of them *)
Definition twin_features : mat := [[1; 1]].
Definition keep_one : linear_model :=
  {| lm_el := None; lm_practical := false; lm_reg := mk_l0 (Some 1%Z); lm_tol := / 10; lm_max_iter := 1;
     lm_stepping := "fixed"; lm_step_len := None; lm_prior := PNone; lm_keys := (KTuple, []) |}.

(** every feature multiplied by 1 or -1 *)
Definition is_signs (p : nat) (signs : vec) : Prop := length signs = p /\ Forall (fun s => s = 1 \/ s = -1) signs.
Definition flip (signs x : vec) : vec := vmul signs x.
Definition flip_columns (signs : vec) (a : mat) : mat := map (flip signs) a.
(** penalties of a linear model: all but those that know about variances *)
Fixpoint even_penalty (r : reg) : Prop :=
  match r with
  | RL0 _ _ _ | RL1 _ _ | RCAD _ _ _ | RSCAD _ _ _ _ | RDummy => True
  | RElastic _ (Some r') => even_penalty r'
  | RElastic _ None => True
  | RPos _ _ | RL0LME _ => False
  end.
(** one observation, two features, no penalty, steps of length 1/2 *)
Definition plain_model : linear_model :=
  {| lm_el := None; lm_practical := false; lm_reg := RDummy; lm_tol := / 10; lm_max_iter := 10;
     lm_stepping := "fixed"; lm_step_len := Some (/ 2); lm_prior := PNone; lm_keys := (KTuple, []) |}.

(** two tables with the same rows, each with its target, in any order *)
Definition same_observations (a : mat) (b : vec) (a' : mat) (b' : vec) : Prop :=
  exists d d' : list (vec * R), Permutation d d' /\
    (a = map fst d /\ b = map snd d) /\ (a' = map fst d' /\ b' = map snd d').
