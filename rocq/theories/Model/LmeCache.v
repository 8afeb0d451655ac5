(** Model of the factors that LinearLMEOracle keeps between evaluations (src/pysr3/lme/oracles.py).
    Arrays that hold gammas live in a memory and are passed by address: the oracle keeps the address, not
    a copy, of the last one it factorised for.
    Simplifications: omega_cholesky and omega_cholesky_inv, which are always changed together, are one
    list; the state of the prior is not part of it (C28 is about that); comparing arrays of lengths that
    do not broadcast is a ValueError (before numpy 1.25 an AttributeError). *)
From Verif.Base Require Import Py Vec RMx.
From mathcomp Require Import ssreflect ssrfun ssrbool eqtype ssrnat choice seq fintype
  finfun bigop finset ssralg matrix mxalgebra.
From Verif.Model Require Import LmeOracle.
Set Implicit Arguments.
Unset Strict Implicit.
Unset Printing Implicit Defensive.
Local Open Scope ring_scope.
Local Open Scope res_scope.

(** addresses and what is stored there *)
Definition memory := nat -> vec.
Definition store (m : memory) (l : nat) (v : vec) : memory := fun l' => if Nat.eqb l' l then v else m l'.

(** a problem with its numbers of fixed and random effects *)
Record attached := Attached { at_p : nat; at_q : nat; at_groups : seq (group at_p at_q) }.

(** one element of omega_cholesky and of omega_cholesky_inv *)
Record kept := Kept { k_n : nat; k_el : 'M[R]_k_n; k_inv : 'M[R]_k_n }.

Record cache := Cache {
  c_problem : option attached;   (* self.problem *)
  c_gamma : option nat;          (* self.gamma: None or an address *)
  c_kept : seq kept              (* self.omega_cholesky, self.omega_cholesky_inv *)
}.

(** (self.gamma != gamma).any(), oracles.py:150; None differs from every element, and arrays of
    length 1 are broadcast *)
Definition any_differs (old : option vec) (new : vec) : res bool :=
  match old with
  | None => Ok (negb (Nat.eqb (length new) 0))
  | Some old =>
      if Nat.eqb (length old) (length new) then Ok (List.existsb (fun d => d) (map2 (fun a b => negb (reqb a b)) old new))
      else match old, new with
           | [:: a], _ => Ok (List.existsb (fun b => negb (reqb a b)) new)
           | _, [:: b] => Ok (List.existsb (fun a => negb (reqb a b)) old)
           | _, _ => Err ValueError
           end
  end.

(** oracles.py:155-162 one group; np.diag(gamma) has the wrong shape for another number of random effects,
    but an empty gamma is not looked at *)
Definition keep (p q : nat) (gamma : vec) (g : group p q) : res kept :=
  let! omega := (if Nat.eqb (length gamma) 0 then Ok (diagv (g_v g))
                 else if Nat.eqb (length gamma) q then Ok (omega_of (\col_i List.nth i gamma 0%coqR) g)
                 else Err ValueError) in
  let! el := cholesky omega in
  Ok (@Kept (g_n g) el (invmx el^T)^T).

(** oracles.py:155-162 the loop: what was appended before the end or the exception *)
Fixpoint keep_all (p q : nat) (gamma : vec) (gs : seq (group p q)) : seq kept * res unit :=
  match gs with
  | [::] => ([::], Ok tt)
  | g :: gs' => match keep gamma g with
                | Err e => ([::], Err e)
                | Ok k => let: (ks, r) := keep_all gamma gs' in (k :: ks, r)
                end
  end.

(** oracles.py:130-164 _recalculate_cholesky *)
Definition refresh (m : memory) (c : cache) (l : nat) : cache * res unit :=
  match any_differs (option_map m (c_gamma c)) (m l) with
  | Err e => (c, Err e)
  | Ok b =>
      if b || Nat.eqb (length (m l)) 0 then
        match c_problem c with
        | None => (Cache None (c_gamma c) [::], Err TypeError)
        | Some pr =>
            match keep_all (m l) (at_groups pr) with
            | (ks, Ok _) => (Cache (Some pr) (Some l) ks, Ok tt)
            | (ks, Err e) => (Cache (Some pr) (c_gamma c) ks, Err e)
            end
        end
      else (c, Ok tt)
  end.

(** zip(self.problem, self.omega_cholesky_inv): stops at the end of the shorter one; factors of another
    size do not fit the data of the group *)
Definition pair_up (p q : nat) (g : group p q) (k : kept) : res (fgroup p q) :=
  match @eqP _ (k_n k) (g_n g) with
  | ReflectT e => Ok (Factored (castmx (e, e) (k_el k)) (castmx (e, e) (k_inv k)))
  | ReflectF _ => Err ValueError
  end.
Fixpoint zip_kept (p q : nat) (gs : seq (group p q)) (ks : seq kept) : res (seq (fgroup p q)) :=
  match gs, ks with
  | g :: gs', k :: ks' => let! f := pair_up g k in let! fs := zip_kept gs' ks' in Ok (f :: fs)
  | _, _ => Ok [::]
  end.

(** an evaluation at the array with address l: refresh, then a loop over zip *)
Definition evaluate (A : Type) (m : memory) (c : cache) (l : nat)
    (body : forall pr : attached, seq (fgroup (at_p pr) (at_q pr)) -> res A) : cache * res A :=
  match refresh m c l with
  | (c', Err e) => (c', Err e)
  | (c', Ok _) =>
      (c', match c_problem c' with
           | None => Err TypeError
           | Some pr => let! fs := zip_kept (at_groups pr) (c_kept c') in @body pr fs
           end)
  end.

(** oracles.py:166-190, 217-242, 435-457, 726-767, 769-806 as they are written; the prior and beta for the
    problem in question *)
Section Evaluations.
Variable prior : forall pr : attached, lme_prior (at_p pr) (at_q pr).
Variable beta : forall pr : attached, 'cV[R]_(at_p pr).
Variables (m : memory) (c : cache) (l : nat).
Definition gamma_of (pr : attached) : 'cV[R]_(at_q pr) := \col_i List.nth i (m l) 0%coqR.

Definition cached_loss : cache * res R :=
  evaluate m c l (fun pr fs =>
    Ok (\sum_(f <- fs) group_loss (beta pr) f + prior_loss (prior pr) (beta pr) (gamma_of pr))%coqR).
Definition cached_gradient_gamma : cache * res {q : nat & 'cV[R]_q} :=
  evaluate m c l (fun pr fs =>
    Ok (existT (fun q => 'cV[R]_q) (at_q pr)
          (\sum_(f <- fs) group_gradient_gamma (beta pr) f + prior_gradient_gamma (prior pr) (gamma_of pr)))).
Definition cached_gradient_beta : cache * res {p : nat & 'cV[R]_p} :=
  evaluate m c l (fun pr fs =>
    Ok (existT (fun p => 'cV[R]_p) (at_p pr)
          (\sum_(f <- fs) group_gradient_beta (beta pr) f + prior_gradient_beta (prior pr) (beta pr)))).
Definition cached_optimal_beta : cache * res {p : nat & 'cV[R]_p} :=
  evaluate m c l (fun pr fs =>
    rmap (existT (fun p => 'cV[R]_p) (at_p pr))
      (np_solve (\sum_(f <- fs) group_kernel f) (\sum_(f <- fs) group_tail f))).
Definition cached_random_effects : cache * res {q : nat & seq 'cV[R]_q} :=
  evaluate m c l (fun pr fs =>
    rmap (existT (fun q => seq 'cV[R]_q) (at_q pr))
      (sequence (List.map (fun f => group_effects (beta pr) (gamma_of pr) (f_g f)) fs))).
End Evaluations.

(** oracles.py:81-113 instantiate replaces the problem only; oracles.py:115-128 forget; a new oracle *)
Definition attach (c : cache) (pr : attached) : cache := Cache (Some pr) (c_gamma c) (c_kept c).
Definition detach : cache := Cache None None [::].
Definition new_oracle (pr : option attached) : cache :=
  match pr with Some pr => attach detach pr | None => detach end.

(** what can happen to an oracle and to the arrays: an evaluation at an address, instantiate, forget, and
    a store by anybody *)
Inductive event := Evaluate (l : nat) | Instantiate (pr : attached) | Forget | Store (l : nat) (v : vec).
Definition happen (s : memory * cache) (e : event) : memory * cache :=
  let: (m, c) := s in
  match e with
  | Evaluate l => (m, (refresh m c l).1)
  | Instantiate pr => (m, attach c pr)
  | Forget => (m, detach)
  | Store l v => (store m l v, c)
  end.
Definition after (m : memory) (c : cache) (es : seq event) : memory * cache := List.fold_left happen es (m, c).
