(** What it means that the options given to a model are used: where the settings of the solver, the oracle and the
    regularizer should show each option. *)
From Coq Require Import String.
From Verif.Base Require Import Py Vec Mat.
From Verif.Model Require Import Logger Regularizers Solvers Priors Linear LmeInner LmeFit Options.
Open Scope string_scope.
Open Scope list_scope.
Open Scope R_scope.

Definition pick (n : string) (table : list (string * pval)) : list pval :=
  map snd (filter (fun e => String.eqb n (fst e)) table).
Definition solver_settings (s : solver_part) : list (string * pval) :=
  match s with
  | PartPGD tol n st step =>
      [("tol_solver", tol); ("max_iter_solver", n); ("stepping", st); ("fixed_step_len", step)]
  | PartFake tol n step every =>
      [("tol_solver", tol); ("max_iter_solver", n); ("fixed_step_len", step); ("update_prox_every", every)]
  end.
Definition oracle_settings (o : oracle_part) : list (string * pval) :=
  match o with
  | PartLme prior | PartLinear prior => [("prior", prior)]
  | PartLmeSR3 lb lg tol n warm positive expected prior nb =>
      [("ell", lb); ("ell", lg); ("tol_oracle", tol); ("max_iter_oracle", n); ("warm_start_oracle", warm);
       ("take_only_positive_part", positive); ("take_expected_value", expected); ("prior", prior);
       ("central_path_neighbourhood_target", nb)]
  | PartLinearSR3 lam prior => [("el", lam); ("prior", prior)]
  end.
Fixpoint regularizer_settings (r : reg_part) : list (string * pval) :=
  match r with
  | PartDummy => []
  | PartL0 nnz => [("nnz", nnz)]
  | PartL0Lme nb ng => [("nnz_tbeta", nb); ("nnz_tgamma", ng)]
  | PartL1 lam => [("lam", lam)]
  | PartCAD rho lam => [("lam", lam); ("rho", rho)]
  | PartSCAD rho sigma lam => [("lam", lam); ("rho", rho); ("sigma", sigma)]
  | PartElastic eps r' => ("elastic_eps", eps) :: regularizer_settings r'
  | PartPositive r' => regularizer_settings r'
  end.
(** the settings that belong to an option *)
Definition settings (p : parts) (n : string) : list pval :=
  pick n (solver_settings (pt_solver p) ++ oracle_settings (pt_oracle p) ++ regularizer_settings (pt_reg p)).
(** the option is used: there is such a setting, and each has the value given *)
Definition honoured (p : parts) (n : string) (v : pval) : Prop :=
  settings p n <> [] /\ Forall (eq v) (settings p n).
(** the practical solver was chosen *)
Definition practical_solver (p : parts) : bool :=
  match pt_solver p with PartFake _ _ _ _ => true | PartPGD _ _ _ _ => false end.

Definition concrete (c : py_class) : Prop := c <> LmeRoot /\ c <> LinearRoot.
Definition is_lme (c : py_class) : bool :=
  match c with LmeRoot | LmeSimple _ | LmePenalised _ _ => true | _ => false end.
Definition option_of (c : py_class) (n : string) : Prop := In n (map fst (signature c)).
(** the value of an option *)
Definition given (c : py_class) (kw : dict) (n : string) : option pval :=
  match lookup n kw with Some v => Some v | None => lookup n (signature c) end.

(** options that are not settings of a part: fit itself reads the first two, the third chooses the solver *)
Definition of_the_fit (n : string) : Prop := In n ["logger_keys"; "initializer"; "practical"].
(** options without an effect, with p the parts *)
Definition without_effect (c : py_class) (p : parts) (n : string) (v : pval) : Prop :=
  n = "fixed_step_len" /\ truthy v = false \/
  n = "update_prox_every" /\ practical_solver p = false \/
  n = "stepping" /\ practical_solver p = true \/
  is_lme c = true /\ practical_solver p = true /\ In n ["tol_solver"; "max_iter_solver"; "fixed_step_len"].

(** the settings of the parts are those from which LmeFit.v fits *)
Definition lme_agrees (p : parts) (m : lme_model) : Prop :=
  match pt_solver p with
  | PartPGD tol n st step =>
      as_num tol = Ok (mo_tol m) /\ as_int n = Ok (mo_max_iter m) /\ as_str st = Ok (mo_stepping m) /\
      step_length m = as_num step /\ solver_tol m = mo_tol m
  | PartFake tol n step every =>
      as_num tol = Ok (solver_tol m) /\ as_int n = Ok 1000%Z /\ as_num step = Ok 1 /\
      exists ss, mo_sr3 m = Some ss /\ ss_practical ss = true /\ as_int every = Ok (ss_update_every ss)
  end /\
  match pt_oracle p, mo_sr3 m with
  | PartLme prior, None => as_lme_prior prior = Ok (mo_prior m)
  | PartLmeSR3 lb lg tol n warm positive expected prior nb, Some ss =>
      as_num lb = Ok (ss_ell ss) /\ as_num lg = Ok (ss_ell ss) /\ as_num tol = Ok (ss_tol ss) /\
      as_int n = Ok (ss_max_iter ss) /\ truthy warm = ss_warm ss /\ truthy positive = ss_positive ss /\
      truthy expected = ss_expected ss /\ as_lme_prior prior = Ok (mo_prior m) /\ as_num nb = Ok (ss_neighbourhood ss)
  | _, _ => False
  end /\
  exists eps r, pt_reg p = PartPositive (PartElastic eps r) /\ as_num eps = Ok (mo_eps m) /\
  match r, mo_penalty m with
  | PartDummy, PenNone => True
  | PartL0Lme nb ng, PenL0 kb kg => as_option as_int nb = Ok kb /\ as_option as_int ng = Ok kg
  | PartL1 lam, PenL1 l => as_num lam = Ok l
  | PartCAD rho lam, PenCAD l r => as_num lam = Ok l /\ as_num rho = Ok r
  | PartSCAD rho sigma lam, PenSCAD l r s => as_num lam = Ok l /\ as_num rho = Ok r /\ as_num sigma = Ok s
  | _, _ => False
  end.
(** the settings of the parts are those from which Linear.v fits *)
Definition linear_agrees (p : parts) (m : linear_model) : Prop :=
  match pt_solver p with
  | PartPGD tol n st step =>
      lm_practical m = false /\ as_num tol = Ok (lm_tol m) /\ as_int n = Ok (lm_max_iter m) /\
      as_str st = Ok (lm_stepping m) /\ as_num step = Ok (effective_step m)
  | PartFake tol n step every =>
      lm_practical m = true /\ as_num tol = Ok (lm_tol m) /\ as_int n = Ok (lm_max_iter m) /\
      as_num step = Ok (effective_step m) /\ every = VInt 1
  end /\
  match pt_oracle p, lm_el m with
  | PartLinear prior, None => as_prior prior = Ok (lm_prior m)
  | PartLinearSR3 lam prior, Some el => as_num lam = Ok el /\ as_prior prior = Ok (lm_prior m)
  | _, _ => False
  end /\
  match pt_reg p, lm_reg m with
  | PartDummy, RDummy => True
  | PartL0 nnz, RL0 k None None => as_option as_int nnz = Ok k
  | PartL1 lam, RL1 l None => as_num lam = Ok l
  | PartCAD rho lam, RCAD r l None => as_num lam = Ok l /\ as_num rho = Ok r
  | PartSCAD rho sigma lam, RSCAD r s l None => as_num lam = Ok l /\ as_num rho = Ok r /\ as_num sigma = Ok s
  | _, _ => False
  end.

(** an object of the class: the constructor returned it, and set_params may have changed it since *)
Inductive object_of (c : py_class) : dict -> Prop :=
| ObjectBuilt kw a : construct c kw = Ok a -> object_of c a
| ObjectSet a ps : object_of c a -> object_of c (fst (set_params c a ps)).
(** the model with other options for the solver *)
Definition with_solver_options (m : lme_model) (tol : R) (max_iter : Z) (stepping : string) (step : option R) : lme_model :=
  {| mo_penalty := mo_penalty m; mo_sr3 := mo_sr3 m; mo_tol := tol; mo_max_iter := max_iter; mo_stepping := stepping;
     mo_step_len := step; mo_eps := mo_eps m; mo_initializer := mo_initializer m; mo_keys := mo_keys m;
     mo_prior := mo_prior m |}.
