(** Python-level vocabulary shared by all model files: exceptions as values,
    lists as one-dimensional arrays, boolean-mask indexing.  Nothing here is
    specific to pysr3. *)
From Coq Require Export List Arith ZArith Lia Bool.
Export ListNotations.

(** Exceptions raised by the modelled code or by the libraries it calls.
    [NotFinite] is not a Python exception: it marks a float result that is nan or
    +-inf (division by zero), which the real-number model cannot carry on.
    [OutOfFuel] marks an exhausted recursion bound of the model; theorems exclude it. *)
Inductive exn : Type :=
| ValueError | TypeError | AssertionError | AttributeError | KeyError | IndexError
| LinAlgError | ZeroDivisionError | NotFittedError | NotImplementedError
| NotFinite | OutOfFuel.

Inductive res (A : Type) : Type := Ok (a : A) | Err (e : exn).
Arguments Ok {A} a.
Arguments Err {A} e.

Definition rbind {A B : Type} (m : res A) (f : A -> res B) : res B :=
  match m with Ok a => f a | Err e => Err e end.
Definition rmap {A B : Type} (f : A -> B) (m : res A) : res B :=
  match m with Ok a => Ok (f a) | Err e => Err e end.

Declare Scope res_scope.
Delimit Scope res_scope with res.
Notation "'let!' x := m 'in' k" := (rbind m (fun x => k))
  (at level 200, x pattern, m at level 100, k at level 200, right associativity) : res_scope.
Open Scope res_scope.

(** [guard b e]: `if not b: raise e`. *)
Definition guard (b : bool) (e : exn) : res unit := if b then Ok tt else Err e.

(** Element-wise combination of two lists (numpy broadcasting of equal shapes;
    the callers guard the lengths). *)
Fixpoint map2 {A B C : Type} (f : A -> B -> C) (xs : list A) (ys : list B) : list C :=
  match xs, ys with
  | x :: xs', y :: ys' => f x y :: map2 f xs' ys'
  | _, _ => []
  end.

(** x[mask] for a boolean mask. *)
Fixpoint mask_select {A : Type} (m : list bool) (x : list A) : list A :=
  match m, x with
  | b :: m', a :: x' => if b then a :: mask_select m' x' else mask_select m' x'
  | _, _ => []
  end.

(** x[mask] = vals for a boolean mask. *)
Fixpoint mask_assign {A : Type} (m : list bool) (vals x : list A) : list A :=
  match m, x with
  | b :: m', a :: x' =>
      if b then match vals with
                | v :: vals' => v :: mask_assign m' vals' x'
                | [] => a :: mask_assign m' [] x'
                end
      else a :: mask_assign m' vals x'
  | _, _ => x
  end.

(** x[mask] = f(x[mask]) element by element, with one constant function. *)
Fixpoint mask_map {A : Type} (m : list bool) (f : A -> A) (x : list A) : list A :=
  match m, x with
  | b :: m', a :: x' => (if b then f a else a) :: mask_map m' f x'
  | _, _ => x
  end.

(** number of elements satisfying a boolean predicate *)
Definition countb {A : Type} (f : A -> bool) (x : list A) : nat := length (filter f x).

Fixpoint mapi_from {A B : Type} (i : nat) (f : nat -> A -> B) (x : list A) : list B :=
  match x with
  | [] => []
  | a :: x' => f i a :: mapi_from (S i) f x'
  end.
Definition mapi {A B : Type} (f : nat -> A -> B) (x : list A) : list B := mapi_from 0 f x.

Definition memb (i : nat) (l : list nat) : bool := existsb (Nat.eqb i) l.

(** all elements Ok, or the first error: a loop body that may raise *)
Fixpoint sequence {A : Type} (l : list (res A)) : res (list A) :=
  match l with
  | [] => Ok []
  | m :: l' => let! a := m in let! r := sequence l' in Ok (a :: r)
  end.
