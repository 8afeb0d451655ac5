(** Model of src/pysr3/regularizers.py.

    Simplifications: exact reals instead of float64; a nan/inf result is the error
    value [NotFinite]; arrays are lists; numpy's broadcasting of length-1 arrays
    against longer ones is not modelled (a length mismatch is the ValueError or
    IndexError numpy raises otherwise). *)
From Verif.Base Require Import Py Vec.
Open Scope R_scope.

(** What L0RegularizerLME and PositiveQuadrantRegularizer read from the oracle
    (lme/oracles.py:95-112, 627-628): the feature counts of the attached problem and
    beta_to_gamma_map. *)
Record oracle_view := { ov_p : nat; ov_q : nat; ov_map : list Z }.

(** lme/oracles.py:614-629 x_to_beta_gamma *)
Definition x_to_beta_gamma {A : Type} (p q : nat) (x : list A) : list A * list A :=
  (firstn p x, firstn q (skipn p x)).
(** lme/oracles.py:631-647 beta_gamma_to_x *)
Definition beta_gamma_to_x {A : Type} (beta gamma : list A) : list A := beta ++ gamma.

(** Objects of the regularizer classes.  Optional fields are attributes that start
    as None.  [participation_in_selection] is stored separately from the weights
    exactly as in the code, since forget() resets only the weights
    (regularizers.py:128-130, 146-147, 157, 234-241, 257-278). *)
Record l0lme := {
  lz_nnz_tbeta : option Z;
  lz_nnz_tgamma : option Z;
  lz_independent : bool;
  lz_oracle : option oracle_view;
  lz_beta_weights : option vec;
  lz_gamma_weights : option vec;
  lz_beta_part : option (list bool);
  lz_gamma_part : option (list bool)
}.

Inductive reg : Type :=
| RL0 (nnz : option Z) (weights : option vec) (part : option (list bool))
| RL0LME (s : l0lme)
| RL1 (lam : R) (weights : option vec)
| RCAD (rho lam : R) (weights : option vec)
| RSCAD (rho sigma lam : R) (weights : option vec)
| RDummy
| RPos (coords : option (list bool)) (other : option reg)
| RElastic (eps : R) (other : option reg).

(** constructors: regularizers.py:118-130, 214-241, 385-395, 466-479, 556-573, 696-698, 724-726 *)
Definition mk_l0 (nnz : option Z) : reg := RL0 nnz None None.
Definition mk_l0lme (nb ng : option Z) (indep : bool) (o : option oracle_view) : reg :=
  RL0LME {| lz_nnz_tbeta := nb; lz_nnz_tgamma := ng; lz_independent := indep;
            lz_oracle := o; lz_beta_weights := None; lz_gamma_weights := None;
            lz_beta_part := None; lz_gamma_part := None |}.
Definition mk_l1 (lam : R) : reg := RL1 lam None.
Definition mk_cad (rho lam : R) : reg := RCAD rho lam None.
(** regularizers.py:569 [assert rho > 1] *)
Definition mk_scad (rho sigma lam : R) : res reg :=
  let! _ := guard (rltb 1 rho) AssertionError in Ok (RSCAD rho sigma lam None).
Definition mk_pos (other : option reg) : reg := RPos None other.
Definition mk_elastic (eps : R) (other : option reg) : reg := RElastic eps other.

(** weights.astype(bool) *)
Definition astype_bool (w : vec) : list bool := map nonzero w.

(** regularizers.py:243-265 L0RegularizerLME.instantiate *)
Definition l0lme_instantiate (s : l0lme) (weights : vec) : res l0lme :=
  match lz_oracle s with
  | None => Err AttributeError
  | Some o =>
      let '(bw, gw) := x_to_beta_gamma (ov_p o) (ov_q o) weights in
      Ok {| lz_nnz_tbeta := match lz_nnz_tbeta s with
                            | None => Some (Z.of_nat (length bw)) | n => n end;
            lz_nnz_tgamma := match lz_nnz_tgamma s with
                             | None => Some (Z.of_nat (length gw)) | n => n end;
            lz_independent := lz_independent s;
            lz_oracle := lz_oracle s;
            lz_beta_weights := Some bw;
            lz_gamma_weights := Some gw;
            lz_beta_part := Some (astype_bool bw);
            lz_gamma_part := Some (astype_bool gw) |}
  end.

(** instantiate(weights, oracle): regularizers.py:31-44, 132-147, 243-265, 397-410,
    481-494, 575-589, 700-704, 728-730.  [oracle] is the keyword consumed by
    PositiveQuadrantRegularizer and not passed on. *)
Fixpoint instantiate (r : reg) (weights : vec) (oracle : option oracle_view) : res reg :=
  match r with
  | RL0 nnz _ _ => Ok (RL0 nnz (Some weights) (Some (astype_bool weights)))
  | RL0LME s => let! s' := l0lme_instantiate s weights in Ok (RL0LME s')
  | RL1 lam _ => Ok (RL1 lam (Some weights))
  | RCAD rho lam _ => Ok (RCAD rho lam (Some weights))
  | RSCAD rho sigma lam _ => Ok (RSCAD rho sigma lam (Some weights))
  | RDummy => Ok RDummy
  | RPos _ other =>
      match oracle with
      | None => Err AttributeError
      | Some o =>
          let coords := repeat false (ov_p o) ++ repeat true (ov_q o) in
          match other with
          | None => Ok (RPos (Some coords) None)
          | Some r' => let! r'' := instantiate r' weights None in
                       Ok (RPos (Some coords) (Some r''))
          end
      end
  | RElastic eps other =>
      match other with
      | None => Ok (RElastic eps None)
      | Some r' => let! r'' := instantiate r' weights oracle in
                   Ok (RElastic eps (Some r''))
      end
  end.

(** forget(): regularizers.py:46-54, 149-157, 267-278, 412-420, 496-504, 591-599.
    PositiveQuadrant, Elastic and Dummy inherit the empty method. *)
Definition forget (r : reg) : reg :=
  match r with
  | RL0 nnz _ part => RL0 nnz None part
  | RL0LME s =>
      RL0LME {| lz_nnz_tbeta := lz_nnz_tbeta s; lz_nnz_tgamma := lz_nnz_tgamma s;
                lz_independent := lz_independent s; lz_oracle := lz_oracle s;
                lz_beta_weights := None; lz_gamma_weights := None;
                lz_beta_part := None; lz_gamma_part := None |}
  | RL1 lam _ => RL1 lam None
  | RCAD rho lam _ => RCAD rho lam None
  | RSCAD rho sigma lam _ => RSCAD rho sigma lam None
  | RDummy => RDummy
  | RPos c o => RPos c o
  | RElastic e o => RElastic e o
  end.

Section Prox.

(** np.ndarray.argsort: any function returning indices in increasing order of the
    values; the order among equal values is unspecified (quicksort is not stable). *)
Variable argsort : vec -> list nat.

(** l[-k:] for k > 0 *)
Definition last_k {A : Type} (k : Z) (l : list A) : list A :=
  skipn (length l - Z.to_nat k) l.

(** regularizers.py:89-110 _take_only_k_max *)
Definition take_only_k_max (x : vec) (k : Z) : vec :=
  if (0 <? k)%Z then
    let idx_k_max := last_k k (argsort (vabs x)) in
    mapi (fun i a => if memb i idx_k_max then a else 0) x
  else zeros (length x).

(** result = copy(x); result[part] = _take_only_k_max(x[part], nnz - sum(~part)):
    regularizers.py:179-185, 298-304, 335-337 *)
Definition take_masked (part : list bool) (x : vec) (nnz : Z) : res vec :=
  let! _ := guard (length part =? length x)%nat IndexError in
  Ok (mask_assign part
        (take_only_k_max (mask_select part x)
                         (nnz - Z.of_nat (countb negb part))) x).

(** regularizers.py:159-187 L0Regularizer.prox *)
Definition l0_prox (nnz : option Z) (weights : option vec) (part : option (list bool))
           (x : vec) : res vec :=
  let nnz' := match nnz with None => Z.of_nat (length x) | Some n => n end in
  match weights with
  | Some _ => match part with
              | Some p => take_masked p x nnz'
              | None => Err TypeError
              end
  | None => Ok (take_only_k_max x nnz')
  end.

(** regularizers.py:280-306 optimal_tbeta *)
Definition optimal_tbeta (s : l0lme) (beta : vec) : res vec :=
  match lz_nnz_tbeta s with
  | None => Err TypeError
  | Some nb =>
      match lz_beta_weights s with
      | Some _ => match lz_beta_part s with
                  | Some p => take_masked p beta nb
                  | None => Err TypeError
                  end
      | None => Ok (take_only_k_max beta nb)
      end
  end.

(** regularizers.py:330-333: positions of gamma switched off because their fixed
    effect is zero: indices map[i] >= 0 over tbeta[i] == 0, kept only if
    gamma_participation[map[i]]. *)
Definition hierarchy_zeros (bmap : list Z) (gpart : list bool) (tbeta : vec) : res (list nat) :=
  let! _ := guard (length bmap =? length tbeta)%nat IndexError in
  let cand := filter (fun j => (0 <=? j)%Z)
                     (mask_select (map (fun b => reqb b 0) tbeta) bmap) in
  let! kept := sequence
      (map (fun j => match nth_error gpart (Z.to_nat j) with
                     | Some b => Ok (Z.to_nat j, b)
                     | None => Err IndexError
                     end) cand) in
  Ok (map fst (filter snd kept)).

(** regularizers.py:308-338 optimal_tgamma *)
Definition optimal_tgamma (s : l0lme) (tbeta gamma : vec) : res vec :=
  match lz_gamma_part s, lz_nnz_tgamma s with
  | Some gpart, Some ng =>
      let! tgamma :=
        (if lz_independent s then Ok gamma
         else match lz_oracle s with
              | None => Err AttributeError
              | Some o =>
                  let! idx := hierarchy_zeros (ov_map o) gpart tbeta in
                  let! _ := guard (forallb (fun i => i <? length gamma)%nat idx) IndexError in
                  Ok (mapi (fun i g => if memb i idx then 0 else g) gamma)
              end) in
      take_masked gpart tgamma ng
  | _, _ => Err TypeError
  end.

(** regularizers.py:340-358 L0RegularizerLME.prox *)
Definition l0lme_prox (s : l0lme) (x : vec) : res vec :=
  match lz_oracle s with
  | None => Err AttributeError
  | Some o =>
      let '(beta, gamma) := x_to_beta_gamma (ov_p o) (ov_q o) x in
      let! tbeta := optimal_tbeta s beta in
      let! tgamma := optimal_tgamma s tbeta gamma in
      Ok (beta_gamma_to_x tbeta tgamma)
  end.

(** (x - t).clip(0, None) - (-x - t).clip(0, None) : regularizers.py:455-458 etc. *)
Definition soft (t x : R) : R := clip0 (x - t) - clip0 (- x - t).

(** regularizers.py:439-458 L1Regularizer.prox *)
Definition l1_prox (lam : R) (weights : option vec) (x : vec) (alpha : R) : res vec :=
  match weights with
  | Some w =>
      let! _ := guard (length w =? length x)%nat ValueError in
      Ok (map2 (fun wi xi => soft (alpha * wi * lam) xi) w x)
  | None => Ok (map (soft (alpha * lam)) x)
  end.

(** regularizers.py:523-548 CADRegularizer.prox *)
Definition cad_prox (rho lam : R) (weights : option vec) (x : vec) (alpha : R) : res vec :=
  match weights with
  | Some w =>
      let! _ := guard (length w =? length x)%nat ValueError in
      Ok (map2 (fun wi xi => if rleb (Rabs xi) rho && rltb 0 wi
                             then soft (wi * alpha * lam) xi else xi) w x)
  | None => Ok (map (fun xi => if rleb (Rabs xi) rho then soft (alpha * lam) xi else xi) x)
  end.

(** np.sign *)
Definition rsign (x : R) : R := if rltb 0 x then 1 else if rltb x 0 then -1 else 0.

(** regularizers.py:643-652: one iteration of the loop of SCADRegularizer.prox.
    Division by zero (nan or inf in numpy) is [NotFinite]. *)
Definition scad_prox1 (rho sigma lam w alpha x : R) : res R :=
  let alpha_eff := alpha * lam * w in
  if reqb w 0 then Ok x
  else if rltb (Rmax rho (1 + alpha_eff) * sigma) (Rabs x) then Ok x
  else if rleb (sigma * (1 + alpha_eff)) (Rabs x)
          && rleb (Rabs x) (Rmax rho (1 + alpha_eff) * sigma) then
    if reqb (rho - 1 - alpha_eff) 0 then Err NotFinite
    else Ok (((rho - 1) * x - rsign x * rho * sigma * alpha_eff) / (rho - 1 - alpha_eff))
  else Ok (soft (sigma * alpha_eff) x).

(** regularizers.py:640-653: the loop enumerates the weights and indexes x; extra
    weights raise IndexError, missing ones leave the initial zeros. *)
Fixpoint scad_prox_loop (rho sigma lam alpha : R) (ws x : vec) : res vec :=
  match ws, x with
  | [], _ => Ok (zeros (length x))
  | _ :: _, [] => Err IndexError
  | w :: ws', xi :: x' =>
      let! v := scad_prox1 rho sigma lam w alpha xi in
      let! v' := scad_prox_loop rho sigma lam alpha ws' x' in
      Ok (v :: v')
  end.
Definition scad_prox (rho sigma lam : R) (weights : option vec) (x : vec) (alpha : R) : res vec :=
  scad_prox_loop rho sigma lam alpha
    (match weights with Some w => w | None => ones (length x) end) x.

(** prox(x, alpha) of every class.
    regularizers.py:676-691 Dummy, 713-719 PositiveQuadrant (x[None] with
    positive_coordinates None addresses the whole array), 739-743 Elastic. *)
Fixpoint prox (r : reg) (x : vec) (alpha : R) : res vec :=
  match r with
  | RL0 nnz w part => l0_prox nnz w part x
  | RL0LME s => l0lme_prox s x
  | RL1 lam w => l1_prox lam w x alpha
  | RCAD rho lam w => cad_prox rho lam w x alpha
  | RSCAD rho sigma lam w => scad_prox rho sigma lam w x alpha
  | RDummy => Ok x
  | RPos coords other =>
      let! y := match coords with
                | None => Ok (map clip0 x)
                | Some m => let! _ := guard (length m =? length x)%nat IndexError in
                            Ok (mask_map m clip0 x)
                end in
      match other with None => Ok y | Some r' => prox r' y alpha end
  | RElastic eps other =>
      let d := 1 + alpha * eps in
      let! _ := guard (nonzero d) NotFinite in
      let y := map (fun xi => xi / d) x in
      match other with None => Ok y | Some r' => prox r' y (alpha / d) end
  end.

End Prox.

(** regularizers.py:614-623: one summand of SCADRegularizer.value *)
Definition scad_value1 (rho sigma w x : R) : R :=
  if rltb (Rabs x) sigma then w * sigma * Rabs x
  else if rleb sigma (Rabs x) && rleb (Rabs x) (rho * sigma) then
    w * (- (x ^ 2) + 2 * rho * sigma * Rabs x - sigma ^ 2) / (2 * (rho - 1))
  else w * sigma ^ 2 * (rho + 1) / 2.

(** value(x): regularizers.py:189-205, 360-376, 422-437, 506-521, 601-623, 661-674,
    706-711, 732-737.  np.infty is [PInf]. *)
Fixpoint value (r : reg) (x : vec) : res ereal :=
  match r with
  | RL0 nnz _ _ =>
      match nnz with
      | None => Err TypeError
      | Some n => Ok (if (n <? Z.of_nat (nnz_count x))%Z then PInf else Fin 0)
      end
  | RL0LME s =>
      match lz_nnz_tbeta s, lz_nnz_tgamma s with
      | Some nb, Some ng =>
          Ok (if (nb + ng <? Z.of_nat (nnz_count x))%Z then PInf else Fin 0)
      | _, _ => Err TypeError
      end
  | RL1 lam w =>
      match w with
      | Some w => let! _ := guard (length w =? length x)%nat ValueError in
                  Ok (Fin (vdot w (vabs x)))
      | None => Ok (Fin (lam * vsum (vabs x)))
      end
  | RCAD rho lam w =>
      match w with
      | Some w => let! _ := guard (length w =? length x)%nat ValueError in
                  Ok (Fin (lam * vsum (map2 (fun wi xi => Rmin (wi * Rabs xi) rho) w x)))
      | None => Ok (Fin (lam * vsum (map (fun xi => Rmin (Rabs xi) rho) x)))
      end
  | RSCAD rho sigma lam w =>
      let ws := match w with Some w => w | None => ones (length x) end in
      Ok (Fin (lam * vsum (map2 (scad_value1 rho sigma) ws x)))
  | RDummy => Ok (Fin 0)
  | RPos coords other =>
      let! y := match coords with
                | Some m => let! _ := guard (length m =? length x)%nat IndexError in
                            Ok (if existsb (fun xi => rltb xi 0) (mask_select m x)
                                then PInf else Fin 0)
                | None => match x with
                          | [] => Ok (Fin 0)
                          | [xi] => Ok (if rltb xi 0 then PInf else Fin 0)
                          | _ => Err ValueError
                          end
                end in
      match other with
      | None => Ok y
      | Some r' => let! v := value r' x in Ok (eadd y v)
      end
  | RElastic eps other =>
      let y := Fin (eps / 2 * (norm x) ^ 2) in
      match other with
      | None => Ok y
      | Some r' => let! v := value r' x in Ok (eadd y v)
      end
  end.
