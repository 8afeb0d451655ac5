(** Matrices as lists of rows: the part of numpy.linalg used by the linear models.
    The number of columns is passed explicitly where a matrix may have no rows. *)
From Verif.Base Require Export Vec.
Open Scope R_scope.

(** all rows have p entries *)
Definition wf_mat (p : nat) (a : mat) : Prop := Forall (fun row => length row = p) a.
(** [a] is (n x p) *)
Definition is_shape (n p : nat) (a : mat) : Prop := length a = n /\ wf_mat p a.
Definition shape_b (n p : nat) (a : mat) : bool :=
  (length a =? n)%nat && forallb (fun row => length row =? p)%nat a.

(** np.eye(n)[i] *)
Definition unit_row (n i : nat) : vec := map (fun j => if (i =? j)%nat then 1 else 0) (seq 0 n).
Definition eye (n : nat) : mat := map (unit_row n) (seq 0 n).
(** a.T of an (n x p) matrix *)
Definition tr (p : nat) (a : mat) : mat := map (fun j => map (fun row => nth j row 0) a) (seq 0 p).
(** a.dot(b) for a matrix [b] with p columns *)
Definition mm (p : nat) (a b : mat) : mat := map (fun row => tmv p b row) a.
Definition madd (a b : mat) : mat := map2 vadd a b.
Definition msub (a b : mat) : mat := map2 vsub a b.
Definition mscale (c : R) (a : mat) : mat := map (vscale c) a.
(** np.diag(v) *)
Definition diag (v : vec) : mat := mapi (fun i c => vscale c (unit_row (length v) i)) v.
(** squared Frobenius norm *)
Definition frob (a : mat) : R := vsum (map sqnorm a).
