(** Derivatives along the coordinates of a packed vector, independently of the code. *)
From Verif.Base Require Import Py Vec Mat.
Open Scope R_scope.

(** x moved by t along coordinate j *)
Fixpoint nudge (j : nat) (t : R) (x : vec) : vec :=
  match x, j with
  | [], _ => []
  | a :: x', O => (a + t) :: x'
  | a :: x', S j' => a :: nudge j' t x'
  end.
(** the number in a result, 0 for an exception *)
Definition number_of (r : res R) : R := match r with Ok a => a | Err _ => 0 end.
(** d holds the partial derivatives of f at x *)
Definition partials (f : vec -> res R) (x d : vec) : Prop :=
  length d = length x /\
  forall j, (j < length x)%nat -> derivable_pt_lim (fun t => number_of (f (nudge j t x))) 0 (nth j d 0).
