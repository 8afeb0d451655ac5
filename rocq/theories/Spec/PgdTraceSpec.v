(** What the names of a log of proximal gradient descent stand for, independently of the code. *)
From Verif.Base Require Import Py Vec.
From Verif.Model Require Import Logger Solvers.
Open Scope string_scope.
Open Scope list_scope.
Open Scope R_scope.

(** f at every step of a path from x *)
Fixpoint along_path {A : Type} (f : vec -> R -> vec -> A) (x : vec) (path : list (R * vec)) : list A :=
  match path with
  | [] => []
  | (s, x') :: rest => f x s x' :: along_path f x' rest
  end.
(** the value of a name in the step of length s from x to x', for the gradient g *)
Definition pgd_recorded (g : vec -> vec) (x0 : vec) : list (string * (vec -> R -> vec -> lval)) :=
  [("x0", fun _ _ _ => LVec x0); ("x", fun _ _ x' => LVec x'); ("x_prev", fun x _ _ => LVec x);
   ("step_len", fun _ s _ => LNum s); ("direction", fun x _ _ => LVec (vneg (g x)));
   ("y", fun x s _ => LVec (vsub x (vscale s (g x))))].
(** the names with a value before the first step *)
Definition pgd_initially (x0 : vec) (k : string) : list lval :=
  if String.eqb k "x0" || String.eqb k "x" then [LVec x0] else if String.eqb k "x_prev" then [LInf] else [].

(** c is what a stored object a becomes when b is added to it *)
Inductive adds_up : lobj -> lobj -> lobj -> Prop :=
| adds_numbers : forall a b, adds_up (LAtom (LNum a)) (LAtom (LNum b)) (LAtom (LNum (a + b)))
| adds_lists : forall l m, adds_up (LList l) (LList m) (LList (l ++ m))
| adds_vectors : forall u v w, length u = length v -> length w = length v ->
    (forall i, (i < length v)%nat -> nth i w 0 = nth i u 0 + nth i v 0) ->
    adds_up (LAtom (LVec u)) (LAtom (LVec v)) (LAtom (LVec w)).
