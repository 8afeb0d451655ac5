(** Vectors over the reals as lists: the part of numpy used by the modelled code.
    float64 is modelled by exact real arithmetic. *)
From Coq Require Export Reals.
From Verif.Base Require Export Py.
Open Scope R_scope.

Definition rltb (a b : R) : bool := if Rlt_dec a b then true else false.
Definition rleb (a b : R) : bool := if Rle_dec a b then true else false.
Definition reqb (a b : R) : bool := if Req_EM_T a b then true else false.

Definition vec := list R.

Definition vadd (x y : vec) : vec := map2 Rplus x y.
Definition vsub (x y : vec) : vec := map2 Rminus x y.
Definition vmul (x y : vec) : vec := map2 Rmult x y.
Definition vscale (c : R) (x : vec) : vec := map (Rmult c) x.
Definition vneg (x : vec) : vec := map Ropp x.
Definition vabs (x : vec) : vec := map Rabs x.
Definition vsum (x : vec) : R := fold_right Rplus 0 x.
Definition vdot (x y : vec) : R := vsum (vmul x y).
Definition sqnorm (x : vec) : R := vdot x x.
(** np.linalg.norm *)
Definition norm (x : vec) : R := sqrt (sqnorm x).
Definition zeros (n : nat) : vec := repeat 0 n.
Definition ones (n : nat) : vec := repeat 1 n.
(** .clip(0, None) *)
Definition clip0 (r : R) : R := Rmax r 0.
Definition nonzero (r : R) : bool := negb (reqb r 0).
(** sum(x != 0) *)
Definition nnz_count (x : vec) : nat := countb nonzero x.

(** matrices as lists of rows *)
Definition mat := list (list R).
(** a.dot(x) *)
Definition mv (a : mat) (x : vec) : vec := map (fun row => vdot row x) a.
(** a.T.dot(r) for an (n x p) matrix [a] *)
Fixpoint tmv (p : nat) (a : mat) (r : vec) : vec :=
  match a, r with
  | row :: a', c :: r' => vadd (vscale c row) (tmv p a' r')
  | _, _ => zeros p
  end.

(** extended real values of a regularizer: np.infty is explicit *)
Inductive ereal := Fin (r : R) | PInf.
Definition eadd (a b : ereal) : ereal :=
  match a, b with Fin x, Fin y => Fin (x + y) | _, _ => PInf end.
