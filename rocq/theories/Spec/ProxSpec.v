(** Specifications used in the statements about regularizers and solvers.  They
    mention only vectors, sums of squares and the observable [value] of an object. *)
From Verif.Base Require Import Py Vec.
Open Scope R_scope.

(** 1/2 ||z - x||^2 + alpha * penalty *)
Definition prox_cost (alpha : R) (x z : vec) (penalty : R) : R :=
  / 2 * sqnorm (vsub z x) + alpha * penalty.

(** [z] minimises 1/2||z-x||^2 + alpha*g(z) among vectors of the right length in [dom]. *)
Definition is_prox (dom : vec -> Prop) (g : vec -> R) (alpha : R) (x z : vec) : Prop :=
  length z = length x /\ dom z /\
  forall z', length z' = length x -> dom z' ->
    prox_cost alpha x z (g z) <= prox_cost alpha x z' (g z').

(** ... and is the only minimiser *)
Definition is_unique_prox (dom : vec -> Prop) (g : vec -> R) (alpha : R) (x z : vec) : Prop :=
  length z = length x /\ dom z /\
  forall z', length z' = length x -> dom z' -> z' <> z ->
    prox_cost alpha x z (g z) < prox_cost alpha x z' (g z').

(** The same, for the penalty that an object reports through its [value] method
    (+infinity excludes a point). *)
Definition is_prox_of_value (value : vec -> res ereal) (alpha : R) (x z : vec) : Prop :=
  length z = length x /\
  exists v, value z = Ok (Fin v) /\
  forall z' v', length z' = length x -> value z' = Ok (Fin v') ->
    prox_cost alpha x z v <= prox_cost alpha x z' v'.

(** number of non-zero entries *)
Fixpoint nonzeros (z : vec) : nat :=
  match z with
  | [] => 0
  | a :: z' => if Req_EM_T a 0 then nonzeros z' else S (nonzeros z')
  end.

Definition sparse (k : Z) (z : vec) : Prop := (Z.of_nat (nonzeros z) <= Z.max 0 k)%Z.

(** no constraint *)
Definition all_vecs (_ : vec) : Prop := True.

(** every coordinate of z is that of x or zero *)
Definition kept_or_zeroed (x z : vec) : Prop := Forall2 (fun xi zi => zi = xi \/ zi = 0) x z.

(** number of coordinates of weight zero *)
Definition zero_count (w : vec) : nat := (length w - nonzeros w)%nat.

(** number of non-zero coordinates of z whose weight is not zero *)
Fixpoint penalised_nonzeros (w z : vec) : nat :=
  match w, z with
  | wi :: w', zi :: z' =>
      if Req_EM_T wi 0 then penalised_nonzeros w' z'
      else if Req_EM_T zi 0 then penalised_nonzeros w' z' else S (penalised_nonzeros w' z')
  | _, _ => 0%nat
  end.

(** at most k non-zeros, the coordinates of weight zero being counted first *)
Definition within_budget (k : Z) (w z : vec) : Prop :=
  (Z.of_nat (penalised_nonzeros w z) <= Z.max 0 (k - Z.of_nat (zero_count w)))%Z.

(** a penalised random effect is present only if its fixed effect is; bmap sends a
    fixed effect to the position of its random effect, or to -1 *)
Definition hierarchical (bmap : list Z) (gw tb tg : vec) : Prop :=
  forall i j, (i < length tb)%nat -> nth i bmap (-1)%Z = Z.of_nat j ->
    nth i tb 0 = 0 -> nth j gw 0 <> 0 -> nth j tg 0 = 0.

(** the coordinates selected by a mask are non-negative *)
Definition nonneg_on (m : list bool) (z : vec) : Prop := Forall (fun t => 0 <= t) (mask_select m z).

(** x and x' agree wherever the weight is not zero *)
Definition agree_on_penalised (w x x' : vec) : Prop :=
  length x = length w /\ length x' = length w /\
  forall k, (k < length w)%nat -> nth k w 0 <> 0 -> nth k x 0 = nth k x' 0.

(** sum_i w_i |z_i| *)
Fixpoint weighted_l1 (w z : vec) : R :=
  match w, z with
  | wi :: w', zi :: z' => wi * Rabs zi + weighted_l1 w' z'
  | _, _ => 0
  end.

(** sum_i w_i p(z_i) for a scalar penalty p *)
Fixpoint separable (p : R -> R -> R) (w z : vec) : R :=
  match w, z with
  | wi :: w', zi :: z' => p wi zi + separable p w' z'
  | _, _ => 0
  end.

(** clipped absolute deviation and smoothly clipped absolute deviation penalties *)
Definition cad_penalty (rho z : R) : R := Rmin (Rabs z) rho.
Definition scad_penalty (rho sigma z : R) : R :=
  if Rlt_dec (Rabs z) sigma then sigma * Rabs z
  else if Rle_dec (Rabs z) (rho * sigma)
       then (2 * rho * sigma * Rabs z - z ^ 2 - sigma ^ 2) / (2 * (rho - 1))
       else sigma ^ 2 * (rho + 1) / 2.

(** where the threshold rule "soft-threshold below rho, identity above" is optimal for
    the clipped penalty c*min(|z|,rho) *)
Definition cad_exact_region (rho c x : R) : Prop :=
  Rabs x <= rho \/
  (c <= Rabs x /\ rho + c / 2 <= Rabs x) \/
  (Rabs x <= c /\ 2 * c * rho <= x ^ 2).

(** where soft-thresholding by c, respectively doing nothing, minimises 1/2 (z-x)^2 + c*min(|z|,r);
    the latter for x other than 0 *)
Definition soft_best (r c x : R) : Prop :=
  c = 0 \/ (c <= Rabs x /\ Rabs x <= r + c / 2) \/ (Rabs x <= c /\ x ^ 2 <= 2 * c * r).
Definition identity_best (r c x : R) : Prop :=
  c = 0 \/ (c <= Rabs x /\ r + c / 2 <= Rabs x) \/ (Rabs x <= c /\ 2 * c * r <= x ^ 2).
(** where the same threshold rule is optimal for c*min(w|z|,rho): the penalty is clipped at rho/w, the rule
    switches at rho *)
Definition cad_weighted_region (rho c w x : R) : Prop :=
  0 < w -> (Rabs x <= rho -> soft_best (rho / w) (c * w) x) /\
           (rho < Rabs x -> identity_best (rho / w) (c * w) x).

(** no opposite sign and no larger magnitude *)
Definition shrunk (x z : R) : Prop := (0 <= x -> 0 <= z <= x) /\ (x <= 0 -> x <= z <= 0).

(** contract of numpy's argsort: a permutation of the indices that lists the values
    in non-decreasing order; nothing is said about ties *)
Definition argsort_ok (argsort : vec -> list nat) : Prop :=
  forall x,
    (forall i, In i (argsort x) <-> (i < length x)%nat) /\
    NoDup (argsort x) /\
    (forall a b, (a < b)%nat -> (b < length (argsort x))%nat ->
       nth (nth a (argsort x) 0%nat) x 0 <= nth (nth b (argsort x) 0%nat) x 0).
