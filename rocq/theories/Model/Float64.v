(** The proximal operators of src/pysr3/regularizers.py in double precision: IEEE-754 binary64 with rounding to
    nearest even, infinities, signed zeros and NaN, as numpy evaluates them.
    Simplifications: there is one NaN; which entries the L0 classes keep is an arbitrary function of the array
    (they copy those and set the others to 0); a division by zero gives IEEE's result, also where Python's own
    float would raise; broadcasting is as in Regularizers.v. *)
From Coq Require Import ZArith List.
From Flocq Require Import Core BinarySingleNaN.
From Verif.Base Require Import Py Vec.
Import ListNotations.
Open Scope list_scope.

Definition f64 := binary_float 53 1024.
Definition prec_pos : Prec_gt_0 53 := eq_refl.
Definition prec_lt : Prec_lt_emax 53 1024 := eq_refl.
#[global] Existing Instance prec_pos.
#[global] Existing Instance prec_lt.

Definition fadd (x y : f64) : f64 := Bplus mode_NE x y.
Definition fsub (x y : f64) : f64 := Bminus mode_NE x y.
Definition fmul (x y : f64) : f64 := Bmult mode_NE x y.
Definition fdiv (x y : f64) : f64 := Bdiv mode_NE x y.
Definition fopp (x : f64) : f64 := Bopp x.
Definition fabs (x : f64) : f64 := Babs x.
Definition fzero : f64 := B754_zero false.
Definition fone : f64 := Bone.
(** comparisons are false on NaN *)
Definition flt (x y : f64) : bool := Bltb x y.
Definition fle (x y : f64) : bool := Bleb x y.

(** x.clip(0, None) *)
Definition fclip (x : f64) : f64 := if flt x fzero then fzero else x.
(** max(a, b) of Python *)
Definition fmax (a b : f64) : f64 := if flt a b then b else a.
(** np.sign *)
Definition fsign (x : f64) : f64 :=
  if flt fzero x then fone else if flt x fzero then fopp fone else if is_nan x then x else fzero.

(** (x - t).clip(0, None) - (-x - t).clip(0, None): regularizers.py:455-458 etc. *)
Definition fsoft (t x : f64) : f64 := fsub (fclip (fsub x t)) (fclip (fsub (fopp x) t)).

(** regularizers.py:439-458 L1Regularizer.prox *)
Definition fl1_prox (lam : f64) (weights : option (list f64)) (x : list f64) (alpha : f64) : res (list f64) :=
  match weights with
  | Some w =>
      let! _ := guard (length w =? length x)%nat ValueError in
      Ok (map2 (fun wi xi => fsoft (fmul (fmul alpha wi) lam) xi) w x)
  | None => Ok (map (fsoft (fmul alpha lam)) x)
  end.

(** regularizers.py:523-548 CADRegularizer.prox *)
Definition fcad_prox (rho lam : f64) (weights : option (list f64)) (x : list f64) (alpha : f64) : res (list f64) :=
  match weights with
  | Some w =>
      let! _ := guard (length w =? length x)%nat ValueError in
      Ok (map2 (fun wi xi => if fle (fabs xi) rho && flt fzero wi
                             then fsoft (fmul (fmul wi alpha) lam) xi else xi) w x)
  | None => Ok (map (fun xi => if fle (fabs xi) rho then fsoft (fmul alpha lam) xi else xi) x)
  end.

(** regularizers.py:643-652: one iteration of the loop of SCADRegularizer.prox *)
Definition fscad_prox1 (rho sigma lam w alpha x : f64) : f64 :=
  let alpha_eff := fmul (fmul alpha lam) w in
  let upper := fmul (fmax rho (fadd fone alpha_eff)) sigma in
  if Beqb w fzero then x
  else if flt upper (fabs x) then x
  else if fle (fmul sigma (fadd fone alpha_eff)) (fabs x) && fle (fabs x) upper then
    fdiv (fsub (fmul (fsub rho fone) x) (fmul (fmul (fmul (fsign x) rho) sigma) alpha_eff))
         (fsub (fsub rho fone) alpha_eff)
  else fsoft (fmul sigma alpha_eff) x.
(** regularizers.py:640-653 *)
Fixpoint fscad_loop (rho sigma lam alpha : f64) (ws x : list f64) : res (list f64) :=
  match ws, x with
  | [], _ => Ok (repeat fzero (length x))
  | _ :: _, [] => Err IndexError
  | w :: ws', xi :: x' =>
      let! v' := fscad_loop rho sigma lam alpha ws' x' in
      Ok (fscad_prox1 rho sigma lam w alpha xi :: v')
  end.
Definition fscad_prox (rho sigma lam : f64) (weights : option (list f64)) (x : list f64) (alpha : f64)
  : res (list f64) :=
  fscad_loop rho sigma lam alpha (match weights with Some w => w | None => repeat fone (length x) end) x.

(** the regularizers once they are instantiated *)
Inductive freg : Type :=
| FSelect (keep : list f64 -> list bool)
| FL1 (lam : f64) (weights : option (list f64))
| FCAD (rho lam : f64) (weights : option (list f64))
| FSCAD (rho sigma lam : f64) (weights : option (list f64))
| FDummy
| FPos (coords : list bool) (other : option freg)
| FElastic (eps : f64) (other : option freg).

(** prox(x, alpha): regularizers.py:89-110, 159-187, 340-358, 439-458, 523-548, 625-653, 676-691, 713-719, 739-743 *)
Fixpoint fprox (r : freg) (x : list f64) (alpha : f64) : res (list f64) :=
  match r with
  | FSelect keep => Ok (map2 (fun (b : bool) xi => if b then xi else fzero) (keep x) x)
  | FL1 lam w => fl1_prox lam w x alpha
  | FCAD rho lam w => fcad_prox rho lam w x alpha
  | FSCAD rho sigma lam w => fscad_prox rho sigma lam w x alpha
  | FDummy => Ok x
  | FPos coords other =>
      let! _ := guard (length coords =? length x)%nat IndexError in
      let y := map2 (fun (b : bool) xi => if b then fclip xi else xi) coords x in
      match other with None => Ok y | Some r' => fprox r' y alpha end
  | FElastic eps other =>
      let d := fadd fone (fmul alpha eps) in
      let y := map (fun xi => fdiv xi d) x in
      match other with None => Ok y | Some r' => fprox r' y (fdiv alpha d) end
  end.
