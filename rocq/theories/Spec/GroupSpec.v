(** Tables whose groups have other names, and fits of them. *)
From Coq Require Import Permutation.
From Verif.Base Require Import Py Vec Mat.
From Verif.Model Require Import LmeProblem LmeInner LmeFit.
Open Scope R_scope.

Definition integer (a : R) : Prop := exists z, a = IZR z.
(** another name for every group: different groups keep different names, names remain integers *)
Definition new_names (f : R -> R) (ids : list R) : Prop :=
  (forall a b, In a ids -> In b ids -> f a = f b -> a = b) /\
  (forall a, In a ids -> (integer (f a) <-> integer a)).
(** a row in which only the group, in column g, has another name *)
Definition renamed_row (f : R -> R) (g : nat) (row row' : vec) : Prop :=
  length row' = length row /\ nth g row' 0 = f (nth g row 0) /\ forall i, i <> g -> nth i row' 0 = nth i row 0.
Definition renamed (f : R -> R) (g : nat) (x x' : table) : Prop :=
  t_cols x' = t_cols x /\ Forall2 (renamed_row f g) (t_rows x) (t_rows x') /\ new_names f (column (t_rows x) g).

(** what a fit reports about each group: its name, its random effects, its coefficients *)
Definition by_group (co : lme_coef) : list (R * (vec * vec)) :=
  combine (co_labels co) (combine (co_effects co) (co_per_group co)).
Definition complete (co : lme_coef) : Prop :=
  length (co_effects co) = length (co_labels co) /\ length (co_per_group co) = length (co_labels co).
(** the same fit, with other names *)
Definition renamed_fit (f : R -> R) (r r' : res (lme_coef * logger)) : Prop :=
  match r, r' with
  | Ok (co, lg), Ok (co', lg') =>
      co_beta co' = co_beta co /\ co_gamma co' = co_gamma co /\ lg' = lg /\ complete co /\ complete co' /\
      Permutation (by_group co') (map (fun e => (f (fst e), snd e)) (by_group co))
  | Err e, Err e' => e' = e
  | _, _ => False
  end.
