(** Model of src/pysr3/lme/model_selectors.py.
    Simplifications: exact reals; the order in which Python lists a set of strings is an argument
    ([set_list]); creating the output folder is an argument ([folder]), and the dictionary written to the file
    is the result; covs and pre_sel_covs are different objects. *)
From Verif.Base Require Import Py Vec Mat.
From Verif.Model Require Import LmeProblem Regularizers Solvers LmeInner LmeFit.
Open Scope string_scope.
Open Scope list_scope.
Open Scope R_scope.

(** ** dictionaries of lists of names *)
Record covs_dict := {
  cd_default : bool;                            (* a defaultdict(list) *)
  cd_items : list (string * list string)
}.
Definition empty_covs : covs_dict := {| cd_default := true; cd_items := [] |}.
(** d[k]: a defaultdict stores what it returns for a missing key *)
Definition getitem (d : covs_dict) (k : string) : res (list string * covs_dict) :=
  match lookup k (cd_items d) with
  | Some l => Ok (l, d)
  | None => if cd_default d
            then Ok ([], {| cd_default := true; cd_items := dict_set k [] (cd_items d) |})
            else Err KeyError
  end.
Definition setitem (d : covs_dict) (k : string) (l : list string) : covs_dict :=
  {| cd_default := cd_default d; cd_items := dict_set k l (cd_items d) |}.
(** d.get(k, []) *)
Definition get_or_empty (d : covs_dict) (k : string) : list string :=
  match lookup k (cd_items d) with Some l => l | None => [] end.

(** ** candidate models: model_selectors.py:109-152 get_model *)
Definition keys_of_selection : kind * list string := (KTuple, ["converged"; "jones_bic"]).
(** models.py:736-756, 936-955, 1111-1132, 1294-1317: the plain models with their defaults *)
Definition plain_candidate (pen : lme_penalty) : lme_model :=
  {| mo_penalty := pen; mo_sr3 := None; mo_tol := 1 / 10 ^ 5; mo_max_iter := 10000; mo_stepping := "line-search";
     mo_step_len := None; mo_eps := 1 / 10 ^ 4; mo_initializer := "None"; mo_keys := keys_of_selection;
     mo_prior := None |}.
(** models.py:828-863, 1009-1043, 1188-1224, 1375-1413: the SR3 ones; L0LmeModelSR3 has a smaller limit *)
Definition sr3_candidate (pen : lme_penalty) (limit : Z) : lme_model :=
  {| mo_penalty := pen;
     mo_sr3 := Some {| ss_ell := 40; ss_practical := false; ss_update_every := 1; ss_max_iter := limit;
                       ss_tol := 1 / 10 ^ 5; ss_warm := true; ss_positive := true; ss_expected := false;
                       ss_neighbourhood := 5 / 10 |};
     mo_tol := 1 / 10 ^ 5; mo_max_iter := limit; mo_stepping := "fixed";
     mo_step_len := None; mo_eps := 1 / 10 ^ 4; mo_initializer := "None"; mo_keys := keys_of_selection;
     mo_prior := None |}.
(** [(p, q) for p in range(1, P) for q in range(1, Q) if p >= q] *)
Definition range1 (n : nat) : list nat := seq 1 (n - 1).
Definition l0_grid (P Q : nat) : list (nat * nat) :=
  flat_map (fun p => map (pair p) (filter (fun q => q <=? p)%nat (range1 Q))) (range1 P).
(** np.logspace(start=-4, stop=5, num=100) *)
Definition lam_grid : list R := map (fun i => Rpower 10 (-4 + 9 / 99 * INR i)) (seq 0 100).

Definition get_model (name : string) (pr : lme_problem) : res (list lme_model) :=
  let l0 (pq : nat * nat) := PenL0 (Some (Z.of_nat (fst pq))) (Some (Z.of_nat (snd pq))) in
  let pairs := l0_grid (num_fixed pr) (num_random pr) in
  if String.eqb name "L0" then Ok (map (fun pq => plain_candidate (l0 pq)) pairs)
  else if String.eqb name "L0_SR3" then Ok (map (fun pq => sr3_candidate (l0 pq) 1000) pairs)
  else if String.eqb name "L1" then Ok (map (fun lam => plain_candidate (PenL1 lam)) lam_grid)
  else if String.eqb name "L1_SR3" then Ok (map (fun lam => sr3_candidate (PenL1 lam) 10000) lam_grid)
  else if String.eqb name "CAD" then Ok (map (fun lam => plain_candidate (PenCAD lam (3 / 10))) lam_grid)
  else if String.eqb name "CAD_SR3" then Ok (map (fun lam => sr3_candidate (PenCAD lam (3 / 10)) 10000) lam_grid)
  else if String.eqb name "SCAD" then Ok (map (fun lam => plain_candidate (PenSCAD lam (37 / 10) (5 / 10))) lam_grid)
  else if String.eqb name "SCAD_SR3"
       then Ok (map (fun lam => sr3_candidate (PenSCAD lam (37 / 10) (5 / 10)) 10000) lam_grid)
  else Err ValueError.

(** the number compared with best_score; None is infinity *)
Definition score_of (v : lobj) : res (option R) :=
  match v with
  | LAtom LInf => Ok None
  | LAtom (LVec _) => Err ValueError
  | LAtom a => match lnum a with Some r => Ok (Some r) | None => Err TypeError end
  | LList _ => Err TypeError
  end.
(** score < best_score *)
Definition below (s best : option R) : bool :=
  match s, best with
  | Some a, Some b => rltb a b
  | Some _, None => true
  | None, _ => false
  end.

(** model.fit_problem(problem) of a new model *)
Definition new_fit (argsort : vec -> list nat) (solve : mat -> vec -> res vec)
    (calls_of : lme_problem -> option gauss_lme -> option sr3_settings -> lme_calls)
    (m : lme_model) (pr : lme_problem) : res (lme_coef * logger) :=
  fit_problem argsort solve calls_of m None pr None None false None None.

Section Select.
(** fit_problem of a new model *)
Variable run : lme_model -> lme_problem -> res (lme_coef * logger).

(** model_selectors.py:83-93 *)
Fixpoint search (pr : lme_problem) (models : list lme_model) (best : option lme_coef) (score : option R)
  : res (option lme_coef) :=
  match models with
  | [] => Ok best
  | m :: models' =>
      let! (co, lg) := run m pr in
      let! v := get lg "jones_bic" in
      let! s := score_of v in
      if below s score then search pr models' (Some co) s else search pr models' best score
  end.

(** [label for label, coef in zip(names, coefs) if abs(coef) >= 1e-2] *)
Definition large (c : R) : bool := rleb (1 / 100) (Rabs c).
Definition selected (names : option (list string)) (coefs : vec) : res (list string) :=
  match names with
  | None => Err TypeError
  | Some ns => Ok (map fst (filter (fun nc => large (snd nc)) (combine ns coefs)))
  end.

Variable set_list : list string -> list string.

(** model_selectors.py:61-64: the loop over the keys, with the dictionaries it leaves *)
Fixpoint merge_keys (keys : list string) (covs pre : covs_dict) : covs_dict * covs_dict * res unit :=
  match keys with
  | [] => (covs, pre, Ok tt)
  | k :: keys' =>
      match getitem covs k with
      | Err e => (covs, pre, Err e)
      | Ok (a, covs1) =>
          match getitem pre k with
          | Err e => (covs1, pre, Err e)
          | Ok (b, pre1) => merge_keys keys' (setitem covs1 k (set_list (a ++ b))) pre1
          end
      end
  end.
Definition or_empty (d : option covs_dict) : covs_dict := match d with Some d => d | None => empty_covs end.

(** model_selectors.py:66-105: after the dictionaries have been merged *)
Definition select_merged (d : dataframe) (target variance group : string) (covs pre : covs_dict)
    (folder : res unit) (name : string) : res (list string * list string) :=
  let! (fe, covs1) := getitem covs "fixed_effects" in
  let! (re, covs2) := getitem covs1 "random_effects" in
  let names := map fst (df_cols d) in
  let! _ := guard (forallb (fun c => has_key c names) (target :: variance :: group :: fe ++ re)) ValueError in
  let! _ := folder in
  let! pr := from_dataframe d (get_or_empty covs2 "fixed_effects") (get_or_empty covs2 "random_effects")
               group variance target
               (get_or_empty pre "fixed_effects") (get_or_empty pre "random_effects") in
  let! models := get_model name pr in
  let! best := search pr models None None in
  match best with
  | None => Err AttributeError
  | Some co =>
      let! sf := selected (pr_fe_columns pr) (co_beta co) in
      let! sr := selected (pr_re_columns pr) (co_gamma co) in
      Ok (sf, sr)
  end.

(** model_selectors.py:19-106 select_covariates: the selection, and the dictionaries of the caller afterwards *)
Definition select_covariates (d : dataframe) (target variance group : string) (covs pre : option covs_dict)
    (folder : res unit) (name : string) : res (list string * list string) * covs_dict * covs_dict :=
  let '(covs1, pre1, r) := merge_keys ["fixed_effects"; "random_effects"] (or_empty covs) (or_empty pre) in
  (rbind r (fun _ => select_merged d target variance group covs1 pre1 folder name), covs1, pre1).
End Select.
