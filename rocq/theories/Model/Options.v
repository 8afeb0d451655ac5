(** Model of the constructors of the twenty-two model classes of src/pysr3/lme/models.py and
    src/pysr3/linear/models.py, of their methods instantiate(), and of get_params, set_params and clone of
    sklearn.base.BaseEstimator, which they inherit.  Values are dynamically typed as in Python.
    Simplifications: options are given by keyword; an instantiated part is the list of its settings; clone copies
    values, which copy.deepcopy does; names with "__", by which set_params reaches the options of options, are
    unknown names here. *)
From Coq Require Import String.
From Verif.Base Require Import Py Vec Mat.
From Verif.Model Require Import Logger Regularizers Solvers Priors Linear LmeInner LmeFit.
Open Scope string_scope.
Open Scope list_scope.
Open Scope R_scope.

(** what an option can be *)
Inductive pval :=
| VNone
| VBool (b : bool)
| VInt (z : Z)
| VReal (r : R)
| VStr (s : string)
| VKeys (k : kind) (ks : list string)     (* a tuple, set or list of strings *)
| VPrior (g : gauss)                      (* an instance of GaussianPrior *)
| VLmePrior (g : gauss_lme).              (* an instance of GaussianPriorLME *)
Definition truthy (v : pval) : bool :=
  match v with
  | VNone => false
  | VBool b => b
  | VInt z => negb (z =? 0)%Z
  | VReal r => nonzero r
  | VStr s => negb (String.eqb s "")
  | VKeys _ ks => match ks with [] => false | _ => true end
  | VPrior _ | VLmePrior _ => true
  end.
(** arithmetic on a value *)
Definition as_num (v : pval) : res R :=
  match v with
  | VBool b => Ok (if b then 1 else 0)
  | VInt z => Ok (IZR z)
  | VReal r => Ok r
  | _ => Err TypeError
  end.
(** v == 0 *)
Definition is_zero (v : pval) : bool := match as_num v with Ok r => reqb r 0 | Err _ => false end.

Inductive pen_kind := KL0 | KL1 | KCAD | KSCAD.
(** LMEModel, SimpleLMEModel(SR3), L0LmeModel(SR3), ...; the boolean says SR3 *)
Inductive py_class :=
| LmeRoot
| LmeSimple (sr3 : bool)
| LmePenalised (k : pen_kind) (sr3 : bool)
| LinearRoot
| LinearSimple (sr3 : bool)
| LinearPenalised (k : pen_kind) (sr3 : bool).
Definition parent (c : py_class) : option py_class :=
  match c with
  | LmeRoot | LinearRoot => None
  | LmeSimple _ => Some LmeRoot
  | LmePenalised _ s => Some (LmeSimple s)
  | LinearSimple _ => Some LinearRoot
  | LinearPenalised _ s => Some (LinearSimple s)
  end.

(** the parameters of __init__ with their defaults *)
Definition signature (c : py_class) : list (string * pval) :=
  match c with
  | LmeRoot =>  (* lme/models.py:57 LMEModel *)
      [("logger_keys", VKeys KTuple ["converged"; "iteration"]); ("initializer", VStr "None")]
  | LmeSimple false =>  (* lme/models.py:440 SimpleLMEModel *)
      [("tol_solver", VReal (1 / 100000)); ("initializer", VStr "None"); ("max_iter_solver", VInt 1000);
       ("stepping", VStr "line-search"); ("elastic_eps", VReal (1 / 10000));
       ("logger_keys", VKeys KTuple ["converged"]); ("fixed_step_len", VNone); ("prior", VNone)]
  | LmePenalised KL0 false =>  (* lme/models.py:736 L0LmeModel *)
      [("tol_solver", VReal (1 / 100000)); ("initializer", VStr "None"); ("max_iter_solver", VInt 10000);
       ("stepping", VStr "line-search"); ("nnz_tbeta", VNone); ("nnz_tgamma", VNone);
       ("elastic_eps", VReal (1 / 10000)); ("logger_keys", VKeys KTuple ["converged"]); ("fixed_step_len", VNone);
       ("prior", VNone)]
  | LmePenalised KL1 false =>  (* lme/models.py:936 L1LmeModel *)
      [("tol_solver", VReal (1 / 100000)); ("initializer", VStr "None"); ("max_iter_solver", VInt 10000);
       ("stepping", VStr "line-search"); ("lam", VInt 0); ("elastic_eps", VReal (1 / 10000));
       ("logger_keys", VKeys KTuple ["converged"]); ("fixed_step_len", VNone); ("prior", VNone)]
  | LmePenalised KCAD false =>  (* lme/models.py:1111 CADLmeModel *)
      [("tol_solver", VReal (1 / 100000)); ("initializer", VStr "None"); ("max_iter_solver", VInt 10000);
       ("stepping", VStr "line-search"); ("rho", VReal (3 / 10)); ("lam", VReal 1);
       ("elastic_eps", VReal (1 / 10000)); ("logger_keys", VKeys KTuple ["converged"]); ("fixed_step_len", VNone);
       ("prior", VNone)]
  | LmePenalised KSCAD false =>  (* lme/models.py:1294 SCADLmeModel *)
      [("tol_solver", VReal (1 / 100000)); ("initializer", VStr "None"); ("max_iter_solver", VInt 10000);
       ("stepping", VStr "line-search"); ("rho", VReal (37 / 10)); ("sigma", VReal (5 / 10)); ("lam", VReal 1);
       ("elastic_eps", VReal (1 / 10000)); ("logger_keys", VKeys KTuple ["converged"]); ("fixed_step_len", VNone);
       ("prior", VNone)]
  | LmeSimple true =>  (* lme/models.py:576 SimpleLMEModelSR3 *)
      [("tol_oracle", VReal (1 / 100000)); ("tol_solver", VReal (1 / 100000)); ("initializer", VStr "None");
       ("max_iter_oracle", VInt 10000); ("max_iter_solver", VInt 10000); ("stepping", VStr "fixed");
       ("ell", VInt 40); ("elastic_eps", VReal (1 / 10000)); ("central_path_neighbourhood_target", VReal (5 / 10));
       ("logger_keys", VKeys KTuple ["converged"]); ("warm_start_oracle", VBool true); ("practical", VBool false);
       ("update_prox_every", VInt 1); ("fixed_step_len", VNone); ("take_only_positive_part", VBool true);
       ("take_expected_value", VBool false); ("prior", VNone)]
  | LmePenalised KL0 true =>  (* lme/models.py:828 L0LmeModelSR3 *)
      [("tol_oracle", VReal (1 / 100000)); ("tol_solver", VReal (1 / 100000)); ("initializer", VStr "None");
       ("max_iter_oracle", VInt 1000); ("max_iter_solver", VInt 1000); ("stepping", VStr "fixed"); ("ell", VInt 40);
       ("elastic_eps", VReal (1 / 10000)); ("central_path_neighbourhood_target", VReal (5 / 10));
       ("nnz_tbeta", VInt 1); ("nnz_tgamma", VInt 1); ("logger_keys", VKeys KTuple ["converged"]);
       ("warm_start_oracle", VBool true); ("practical", VBool false); ("take_only_positive_part", VBool true);
       ("take_expected_value", VBool false); ("update_prox_every", VInt 1); ("fixed_step_len", VNone);
       ("prior", VNone)]
  | LmePenalised KL1 true =>  (* lme/models.py:1009 L1LmeModelSR3 *)
      [("tol_oracle", VReal (1 / 100000)); ("tol_solver", VReal (1 / 100000)); ("initializer", VStr "None");
       ("max_iter_oracle", VInt 10000); ("max_iter_solver", VInt 10000); ("stepping", VStr "fixed");
       ("ell", VInt 40); ("elastic_eps", VReal (1 / 10000)); ("lam", VInt 1);
       ("logger_keys", VKeys KTuple ["converged"]); ("warm_start_oracle", VBool true); ("practical", VBool false);
       ("take_only_positive_part", VBool true); ("take_expected_value", VBool false); ("update_prox_every", VInt 1);
       ("central_path_neighbourhood_target", VReal (5 / 10)); ("fixed_step_len", VNone); ("prior", VNone)]
  | LmePenalised KCAD true =>  (* lme/models.py:1188 CADLmeModelSR3 *)
      [("tol_oracle", VReal (1 / 100000)); ("tol_solver", VReal (1 / 100000)); ("initializer", VStr "None");
       ("max_iter_oracle", VInt 10000); ("max_iter_solver", VInt 10000); ("stepping", VStr "fixed");
       ("ell", VReal 40); ("rho", VReal (3 / 10)); ("lam", VReal 1); ("elastic_eps", VReal (1 / 10000));
       ("central_path_neighbourhood_target", VReal (5 / 10)); ("logger_keys", VKeys KTuple ["converged"]);
       ("warm_start_oracle", VBool true); ("practical", VBool false); ("take_only_positive_part", VBool true);
       ("take_expected_value", VBool false); ("update_prox_every", VInt 1); ("fixed_step_len", VNone);
       ("prior", VNone)]
  | LmePenalised KSCAD true =>  (* lme/models.py:1375 SCADLmeModelSR3 *)
      [("tol_oracle", VReal (1 / 100000)); ("tol_solver", VReal (1 / 100000)); ("initializer", VStr "None");
       ("max_iter_oracle", VInt 10000); ("max_iter_solver", VInt 10000); ("stepping", VStr "fixed");
       ("ell", VReal 40); ("rho", VReal (37 / 10)); ("sigma", VReal (5 / 10)); ("lam", VReal 1);
       ("elastic_eps", VReal (1 / 10000)); ("central_path_neighbourhood_target", VReal (5 / 10));
       ("logger_keys", VKeys KTuple ["converged"]); ("warm_start_oracle", VBool true); ("practical", VBool false);
       ("take_only_positive_part", VBool true); ("take_expected_value", VBool false); ("update_prox_every", VInt 1);
       ("fixed_step_len", VNone); ("prior", VNone)]
  | LinearRoot =>  (* linear/models.py:18 LinearModel *)
      [("logger_keys", VNone)]
  | LinearSimple false =>  (* linear/models.py:209 SimpleLinearModel *)
      [("tol_solver", VReal (1 / 100000)); ("max_iter_solver", VInt 1000); ("stepping", VStr "line-search");
       ("logger_keys", VKeys KTuple ["converged"]); ("fixed_step_len", VNone); ("prior", VNone)]
  | LinearPenalised KL0 false =>  (* linear/models.py:349 LinearL0Model *)
      [("nnz", VNone); ("tol_solver", VReal (1 / 100000)); ("max_iter_solver", VInt 1000);
       ("stepping", VStr "line-search"); ("logger_keys", VKeys KTuple ["converged"]); ("fixed_step_len", VNone);
       ("prior", VNone)]
  | LinearPenalised KL1 false =>  (* linear/models.py:398 LinearL1Model *)
      [("lam", VInt 0); ("tol_solver", VReal (1 / 100000)); ("max_iter_solver", VInt 1000);
       ("stepping", VStr "line-search"); ("logger_keys", VKeys KTuple ["converged"]); ("fixed_step_len", VNone);
       ("prior", VNone)]
  | LinearPenalised KCAD false =>  (* linear/models.py:447 LinearCADModel *)
      [("lam", VReal 0); ("rho", VReal 1); ("tol_solver", VReal (1 / 100000)); ("max_iter_solver", VInt 1000);
       ("stepping", VStr "line-search"); ("logger_keys", VKeys KTuple ["converged"]); ("fixed_step_len", VNone);
       ("prior", VNone)]
  | LinearPenalised KSCAD false =>  (* linear/models.py:500 LinearSCADModel *)
      [("lam", VReal 0); ("rho", VReal (37 / 10)); ("sigma", VReal 1); ("tol_solver", VReal (1 / 100000));
       ("max_iter_solver", VInt 1000); ("stepping", VStr "line-search");
       ("logger_keys", VKeys KTuple ["converged"]); ("fixed_step_len", VNone); ("prior", VNone)]
  | LinearSimple true =>  (* linear/models.py:271 SimpleLinearModelSR3 *)
      [("el", VReal 1); ("tol_solver", VReal (1 / 100000)); ("max_iter_solver", VInt 1000);
       ("stepping", VStr "line-search"); ("logger_keys", VKeys KTuple ["converged"]); ("fixed_step_len", VNone);
       ("prior", VNone); ("practical", VBool false)]
  | LinearPenalised KL0 true =>  (* linear/models.py:557 LinearL0ModelSR3 *)
      [("nnz", VNone); ("el", VReal 1); ("tol_solver", VReal (1 / 100000)); ("max_iter_solver", VInt 1000);
       ("stepping", VStr "line-search"); ("logger_keys", VKeys KTuple ["converged"]); ("fixed_step_len", VNone);
       ("prior", VNone); ("practical", VBool false)]
  | LinearPenalised KL1 true =>  (* linear/models.py:612 LinearL1ModelSR3 *)
      [("lam", VReal 0); ("el", VReal 1); ("tol_solver", VReal (1 / 100000)); ("max_iter_solver", VInt 1000);
       ("stepping", VStr "line-search"); ("logger_keys", VKeys KTuple ["converged"]); ("fixed_step_len", VNone);
       ("prior", VNone); ("practical", VBool false)]
  | LinearPenalised KCAD true =>  (* linear/models.py:667 LinearCADModelSR3 *)
      [("lam", VReal 0); ("rho", VReal 1); ("el", VReal 1); ("tol_solver", VReal (1 / 100000));
       ("max_iter_solver", VInt 1000); ("stepping", VStr "line-search");
       ("logger_keys", VKeys KTuple ["converged"]); ("fixed_step_len", VNone); ("prior", VNone);
       ("practical", VBool false)]
  | LinearPenalised KSCAD true =>  (* linear/models.py:726 LinearSCADModelSR3 *)
      [("lam", VReal 0); ("rho", VReal 2); ("sigma", VReal 1); ("el", VReal 1); ("tol_solver", VReal (1 / 100000));
       ("max_iter_solver", VInt 1000); ("stepping", VStr "line-search");
       ("logger_keys", VKeys KTuple ["converged"]); ("fixed_step_len", VNone); ("prior", VNone);
       ("practical", VBool false)]
  end.

(** the arguments of super().__init__, each the parameter of the same name *)
Definition passed (c : py_class) : list string :=
  match c with
  | LmeRoot =>  (* lme/models.py:57 LMEModel *)
      []
  | LmeSimple false =>  (* lme/models.py:440 SimpleLMEModel *)
      ["initializer"; "logger_keys"]
  | LmePenalised KL0 false =>  (* lme/models.py:736 L0LmeModel *)
      ["tol_solver"; "initializer"; "max_iter_solver"; "stepping"; "elastic_eps"; "logger_keys"; "fixed_step_len";
       "prior"]
  | LmePenalised KL1 false =>  (* lme/models.py:936 L1LmeModel *)
      ["tol_solver"; "initializer"; "max_iter_solver"; "stepping"; "logger_keys"; "fixed_step_len"; "elastic_eps";
       "prior"]
  | LmePenalised KCAD false =>  (* lme/models.py:1111 CADLmeModel *)
      ["tol_solver"; "initializer"; "max_iter_solver"; "stepping"; "logger_keys"; "fixed_step_len"; "elastic_eps";
       "prior"]
  | LmePenalised KSCAD false =>  (* lme/models.py:1294 SCADLmeModel *)
      ["tol_solver"; "initializer"; "max_iter_solver"; "stepping"; "logger_keys"; "fixed_step_len"; "elastic_eps";
       "prior"]
  | LmeSimple true =>  (* lme/models.py:576 SimpleLMEModelSR3 *)
      ["initializer"; "logger_keys"]
  | LmePenalised KL0 true =>  (* lme/models.py:828 L0LmeModelSR3 *)
      ["tol_oracle"; "tol_solver"; "initializer"; "max_iter_oracle"; "max_iter_solver"; "stepping";
       "warm_start_oracle"; "practical"; "take_only_positive_part"; "take_expected_value"; "update_prox_every";
       "logger_keys"; "fixed_step_len"; "ell"; "elastic_eps"; "central_path_neighbourhood_target"; "prior"]
  | LmePenalised KL1 true =>  (* lme/models.py:1009 L1LmeModelSR3 *)
      ["tol_oracle"; "tol_solver"; "initializer"; "max_iter_oracle"; "max_iter_solver"; "stepping";
       "warm_start_oracle"; "practical"; "take_only_positive_part"; "central_path_neighbourhood_target";
       "take_expected_value"; "update_prox_every"; "logger_keys"; "fixed_step_len"; "ell"; "elastic_eps"; "prior"]
  | LmePenalised KCAD true =>  (* lme/models.py:1188 CADLmeModelSR3 *)
      ["tol_oracle"; "tol_solver"; "initializer"; "max_iter_oracle"; "max_iter_solver"; "stepping";
       "warm_start_oracle"; "practical"; "take_only_positive_part"; "take_expected_value"; "update_prox_every";
       "logger_keys"; "fixed_step_len"; "ell"; "elastic_eps"; "central_path_neighbourhood_target"; "prior"]
  | LmePenalised KSCAD true =>  (* lme/models.py:1375 SCADLmeModelSR3 *)
      ["tol_oracle"; "tol_solver"; "initializer"; "max_iter_oracle"; "max_iter_solver"; "stepping";
       "warm_start_oracle"; "practical"; "take_only_positive_part"; "take_expected_value"; "update_prox_every";
       "logger_keys"; "fixed_step_len"; "ell"; "elastic_eps"; "central_path_neighbourhood_target"; "prior"]
  | LinearRoot =>  (* linear/models.py:18 LinearModel *)
      []
  | LinearSimple false =>  (* linear/models.py:209 SimpleLinearModel *)
      []
  | LinearPenalised KL0 false =>  (* linear/models.py:349 LinearL0Model *)
      ["tol_solver"; "max_iter_solver"; "stepping"; "logger_keys"; "fixed_step_len"; "prior"]
  | LinearPenalised KL1 false =>  (* linear/models.py:398 LinearL1Model *)
      ["tol_solver"; "max_iter_solver"; "stepping"; "logger_keys"; "fixed_step_len"; "prior"]
  | LinearPenalised KCAD false =>  (* linear/models.py:447 LinearCADModel *)
      ["tol_solver"; "max_iter_solver"; "stepping"; "logger_keys"; "fixed_step_len"; "prior"]
  | LinearPenalised KSCAD false =>  (* linear/models.py:500 LinearSCADModel *)
      ["tol_solver"; "max_iter_solver"; "stepping"; "logger_keys"; "fixed_step_len"; "prior"]
  | LinearSimple true =>  (* linear/models.py:271 SimpleLinearModelSR3 *)
      []
  | LinearPenalised KL0 true =>  (* linear/models.py:557 LinearL0ModelSR3 *)
      ["el"; "tol_solver"; "max_iter_solver"; "stepping"; "logger_keys"; "fixed_step_len"; "prior"; "practical"]
  | LinearPenalised KL1 true =>  (* linear/models.py:612 LinearL1ModelSR3 *)
      ["el"; "tol_solver"; "max_iter_solver"; "stepping"; "logger_keys"; "fixed_step_len"; "prior"; "practical"]
  | LinearPenalised KCAD true =>  (* linear/models.py:667 LinearCADModelSR3 *)
      ["el"; "tol_solver"; "max_iter_solver"; "stepping"; "logger_keys"; "fixed_step_len"; "prior"; "practical"]
  | LinearPenalised KSCAD true =>  (* linear/models.py:726 LinearSCADModelSR3 *)
      ["el"; "tol_solver"; "max_iter_solver"; "stepping"; "logger_keys"; "fixed_step_len"; "prior"; "practical"]
  end.

(** the attributes __init__ assigns after that, each the parameter of the same name *)
Definition assigned (c : py_class) : list string :=
  match c with
  | LmeRoot =>  (* lme/models.py:57 LMEModel *)
      ["logger_keys"; "initializer"]
  | LmeSimple false =>  (* lme/models.py:440 SimpleLMEModel *)
      ["tol_solver"; "max_iter_solver"; "stepping"; "logger_keys"; "fixed_step_len"; "prior"; "elastic_eps"]
  | LmePenalised KL0 false =>  (* lme/models.py:736 L0LmeModel *)
      ["nnz_tbeta"; "nnz_tgamma"]
  | LmePenalised KL1 false =>  (* lme/models.py:936 L1LmeModel *)
      ["lam"]
  | LmePenalised KCAD false =>  (* lme/models.py:1111 CADLmeModel *)
      ["lam"; "rho"]
  | LmePenalised KSCAD false =>  (* lme/models.py:1294 SCADLmeModel *)
      ["lam"; "rho"; "sigma"]
  | LmeSimple true =>  (* lme/models.py:576 SimpleLMEModelSR3 *)
      ["tol_oracle"; "tol_solver"; "max_iter_oracle"; "max_iter_solver"; "stepping"; "logger_keys";
       "fixed_step_len"; "warm_start_oracle"; "prior"; "ell"; "elastic_eps"; "practical"; "take_only_positive_part";
       "take_expected_value"; "update_prox_every"; "central_path_neighbourhood_target"]
  | LmePenalised KL0 true =>  (* lme/models.py:828 L0LmeModelSR3 *)
      ["nnz_tbeta"; "nnz_tgamma"]
  | LmePenalised KL1 true =>  (* lme/models.py:1009 L1LmeModelSR3 *)
      ["lam"]
  | LmePenalised KCAD true =>  (* lme/models.py:1188 CADLmeModelSR3 *)
      ["lam"; "rho"]
  | LmePenalised KSCAD true =>  (* lme/models.py:1375 SCADLmeModelSR3 *)
      ["lam"; "rho"; "sigma"]
  | LinearRoot =>  (* linear/models.py:18 LinearModel *)
      ["logger_keys"]
  | LinearSimple false =>  (* linear/models.py:209 SimpleLinearModel *)
      ["tol_solver"; "max_iter_solver"; "stepping"; "logger_keys"; "fixed_step_len"; "prior"]
  | LinearPenalised KL0 false =>  (* linear/models.py:349 LinearL0Model *)
      ["nnz"]
  | LinearPenalised KL1 false =>  (* linear/models.py:398 LinearL1Model *)
      ["lam"]
  | LinearPenalised KCAD false =>  (* linear/models.py:447 LinearCADModel *)
      ["lam"; "rho"]
  | LinearPenalised KSCAD false =>  (* linear/models.py:500 LinearSCADModel *)
      ["lam"; "rho"; "sigma"]
  | LinearSimple true =>  (* linear/models.py:271 SimpleLinearModelSR3 *)
      ["el"; "tol_solver"; "max_iter_solver"; "stepping"; "logger_keys"; "fixed_step_len"; "practical"; "prior"]
  | LinearPenalised KL0 true =>  (* linear/models.py:557 LinearL0ModelSR3 *)
      ["nnz"]
  | LinearPenalised KL1 true =>  (* linear/models.py:612 LinearL1ModelSR3 *)
      ["lam"]
  | LinearPenalised KCAD true =>  (* linear/models.py:667 LinearCADModelSR3 *)
      ["lam"; "rho"]
  | LinearPenalised KSCAD true =>  (* linear/models.py:726 LinearSCADModelSR3 *)
      ["lam"; "rho"; "sigma"]
  end.


(** whether __init__ has a parameter **kwargs, which takes every other keyword *)
Definition takes_anything (c : py_class) : bool :=
  match c with LmeRoot | LinearRoot => false | _ => true end.

Definition dict := list (string * pval).
Definition names (d : dict) : list string := map fst d.
(** the parameters when __init__ runs *)
Definition bind (c : py_class) (kw : dict) : res dict :=
  let! _ := guard (takes_anything c || forallb (fun n => has_key n (names (signature c))) (names kw)) TypeError in
  Ok (map (fun nd => (fst nd, match lookup (fst nd) kw with Some v => v | None => snd nd end)) (signature c)).
(** reading a variable *)
Definition read (n : string) (d : dict) : res pval :=
  match lookup n d with Some v => Ok v | None => Err AttributeError end.
(** self.n = n for each of the names *)
Fixpoint assign (ns : list string) (env attrs : dict) : res dict :=
  match ns with
  | [] => Ok attrs
  | n :: ns' => let! v := read n env in assign ns' env (dict_set n v attrs)
  end.
(** n=n for each of the names *)
Definition arguments (ns : list string) (env : dict) : res dict :=
  sequence (map (fun n => let! v := read n env in Ok (n, v)) ns).
(** __init__ of the class given that of the class above *)
Definition init_level (c : py_class) (above : dict -> res dict) (kw : dict) : res dict :=
  let! env := bind c kw in
  let! args := arguments (passed c) env in
  let! attrs := above args in
  assign (assigned c) env attrs.
(** the attributes of the object cls( **kw ) *)
Definition construct (c : py_class) (kw : dict) : res dict :=
  let object (_ : dict) := Ok [] in
  match parent c with
  | None => init_level c object kw
  | Some d =>
      match parent d with
      | None => init_level c (init_level d object) kw
      | Some e => init_level c (init_level d (init_level e object)) kw
      end
  end.

(** ** instantiate() *)
Inductive solver_part :=
| PartPGD (tol max_iter stepping step : pval)
| PartFake (tol max_iter step update_every : pval).
Inductive oracle_part :=
| PartLme (prior : pval)
| PartLmeSR3 (lb lg tol_inner n_iter_inner warm positive expected prior neighbourhood : pval)
| PartLinear (prior : pval)
| PartLinearSR3 (lam prior : pval).
Inductive reg_part :=
| PartDummy
| PartL0 (nnz : pval)
| PartL0Lme (nnz_tbeta nnz_tgamma : pval)
| PartL1 (lam : pval)
| PartCAD (rho lam : pval)
| PartSCAD (rho sigma lam : pval)
| PartElastic (eps : pval) (other : reg_part)
| PartPositive (other : reg_part).
Record parts := { pt_oracle : oracle_part; pt_reg : reg_part; pt_solver : solver_part }.

(** `default if not self.fixed_step_len else self.fixed_step_len` *)
Definition choose_step (a : dict) (default : res pval) : res pval :=
  let! s := read "fixed_step_len" a in if truthy s then Ok s else default.
(** 1 if ell == 0 else 1 / ell *)
Definition relaxed_step (ell : pval) : res pval :=
  if is_zero ell then Ok (VInt 1) else let! e := as_num ell in Ok (VReal (1 / e)).
(** 1 / (self.lam + 1) *)
Definition penalised_step (lam : pval) : res pval :=
  let! l := as_num lam in
  let! _ := guard (nonzero (l + 1)) ZeroDivisionError in Ok (VReal (1 / (l + 1))).
Definition pgd_part (a : dict) (step : pval) : res solver_part :=
  let! tol := read "tol_solver" a in
  let! n := read "max_iter_solver" a in
  let! st := read "stepping" a in
  Ok (PartPGD tol n st step).
(** SCADRegularizer.__init__ asserts rho > 1, regularizers.py:569 *)
Definition penalty_part (k : pen_kind) (l0 : res reg_part) (a : dict) : res reg_part :=
  match k with
  | KL0 => l0
  | KL1 => let! lam := read "lam" a in Ok (PartL1 lam)
  | KCAD => let! lam := read "lam" a in let! rho := read "rho" a in Ok (PartCAD rho lam)
  | KSCAD =>
      let! lam := read "lam" a in let! rho := read "rho" a in let! sigma := read "sigma" a in
      let! r := as_num rho in
      let! _ := guard (rltb 1 r) AssertionError in Ok (PartSCAD rho sigma lam)
  end.
(** the two wrappers of every mixed model *)
Definition wrap (a : dict) (r : reg_part) : res reg_part :=
  let! eps := read "elastic_eps" a in Ok (PartPositive (PartElastic eps r)).

(** lme/models.py:486-502 *)
Definition lme_simple (a : dict) : res parts :=
  let! prior := read "prior" a in
  let! r := wrap a PartDummy in
  let! step := choose_step a (Ok (VReal (5 / 100))) in
  let! s := pgd_part a step in
  Ok {| pt_oracle := PartLme prior; pt_reg := r; pt_solver := s |}.
(** lme/models.py:655-684 *)
Definition lme_simple_sr3 (a : dict) : res parts :=
  let! ell := read "ell" a in
  let! step := choose_step a (relaxed_step ell) in
  let! practical := read "practical" a in
  let! s := (if truthy practical
             then let! every := read "update_prox_every" a in
                  (* FakePGDSolver.__init__, solvers.py:133: tol=1e-4, max_iter=1000, fixed_step_len=1 *)
                  Ok (PartFake (VReal (1 / 10000)) (VInt 1000) (VInt 1) every)
             else pgd_part a step) in
  let! tol := read "tol_oracle" a in
  let! n := read "max_iter_oracle" a in
  let! warm := read "warm_start_oracle" a in
  let! positive := read "take_only_positive_part" a in
  let! expected := read "take_expected_value" a in
  let! prior := read "prior" a in
  let! nb := read "central_path_neighbourhood_target" a in
  let! r := wrap a PartDummy in
  Ok {| pt_oracle := PartLmeSR3 ell ell tol n warm positive expected prior nb; pt_reg := r; pt_solver := s |}.
(** lme/models.py:790-797, 914-921, 986-1001, 1091-1097, 1165-1180, 1274-1280, 1352-1367, 1465-1472 *)
Definition lme_penalised (k : pen_kind) (sr3 : bool) (a : dict) : res parts :=
  let! p := (if sr3 then lme_simple_sr3 a else lme_simple a) in
  let! s := (match k, sr3 with
             | KL0, _ | _, true => Ok (pt_solver p)
             | _, false => let! lam := read "lam" a in
                           let! step := choose_step a (penalised_step lam) in pgd_part a step
             end) in
  let! r0 := penalty_part k (let! nb := read "nnz_tbeta" a in
                             let! ng := read "nnz_tgamma" a in Ok (PartL0Lme nb ng)) a in
  let! r := wrap a r0 in
  Ok {| pt_oracle := pt_oracle p; pt_reg := r; pt_solver := s |}.
(** linear/models.py:248-255 *)
Definition linear_simple (a : dict) : res parts :=
  let! prior := read "prior" a in
  let! step := choose_step a (Ok (VReal (5 / 100))) in
  let! s := pgd_part a step in
  Ok {| pt_oracle := PartLinear prior; pt_reg := PartDummy; pt_solver := s |}.
(** linear/models.py:318-333; linear/oracles.py:202 asserts that there is no prior *)
Definition linear_simple_sr3 (a : dict) : res parts :=
  let! el := read "el" a in
  let! step := choose_step a (relaxed_step el) in
  let! practical := read "practical" a in
  let! s := (if truthy practical
             then let! tol := read "tol_solver" a in
                  let! n := read "max_iter_solver" a in
                  Ok (PartFake tol n step (VInt 1))
             else pgd_part a step) in
  let! prior := read "prior" a in
  let! _ := guard (negb (truthy prior)) AssertionError in
  Ok {| pt_oracle := PartLinearSR3 el prior; pt_reg := PartDummy; pt_solver := s |}.
(** linear/models.py:391-395, 440-444, 493-497, 550-554, 605-609, 660-664, 719-723, 782-786 *)
Definition linear_penalised (k : pen_kind) (sr3 : bool) (a : dict) : res parts :=
  let! p := (if sr3 then linear_simple_sr3 a else linear_simple a) in
  let! r := penalty_part k (let! nnz := read "nnz" a in Ok (PartL0 nnz)) a in
  Ok {| pt_oracle := pt_oracle p; pt_reg := r; pt_solver := pt_solver p |}.
Definition instantiate_parts (c : py_class) (a : dict) : res parts :=
  match c with
  | LmeRoot | LinearRoot => Err NotImplementedError       (* lme/models.py:71-75, linear/models.py:29-30 *)
  | LmeSimple false => lme_simple a
  | LmeSimple true => lme_simple_sr3 a
  | LmePenalised k s => lme_penalised k s a
  | LinearSimple false => linear_simple a
  | LinearSimple true => linear_simple_sr3 a
  | LinearPenalised k s => linear_penalised k s a
  end.

(** ** the same attributes as the records from which LmeFit.v and Linear.v fit; a value of another type than the
    one these records have room for is Err TypeError *)
Definition as_real (v : pval) : res R := as_num v.
Definition as_int (v : pval) : res Z :=
  match v with VInt z => Ok z | _ => Err TypeError end.
Definition as_bool (v : pval) : res bool := Ok (truthy v).
Definition as_str (v : pval) : res string :=
  match v with VStr s => Ok s | _ => Err TypeError end.
Definition as_keys (v : pval) : res (kind * list string) :=
  match v with VKeys k ks => Ok (k, ks) | _ => Err TypeError end.
Definition as_option {A : Type} (f : pval -> res A) (v : pval) : res (option A) :=
  match v with VNone => Ok None | _ => let! a := f v in Ok (Some a) end.
Definition as_lme_prior (v : pval) : res (option gauss_lme) :=
  match v with VNone => Ok None | VLmePrior g => Ok (Some g) | _ => Err TypeError end.
Definition as_prior (v : pval) : res prior :=
  match v with VNone => Ok PNone | VPrior g => Ok (PGauss g) | _ => Err TypeError end.
Definition get {A : Type} (f : pval -> res A) (n : string) (a : dict) : res A :=
  let! v := read n a in f v.

Definition lme_settings (a : dict) : res sr3_settings :=
  let! ell := get as_real "ell" a in
  let! practical := get as_bool "practical" a in
  let! every := get as_int "update_prox_every" a in
  let! n := get as_int "max_iter_oracle" a in
  let! tol := get as_real "tol_oracle" a in
  let! warm := get as_bool "warm_start_oracle" a in
  let! positive := get as_bool "take_only_positive_part" a in
  let! expected := get as_bool "take_expected_value" a in
  let! nb := get as_real "central_path_neighbourhood_target" a in
  Ok {| ss_ell := ell; ss_practical := practical; ss_update_every := every; ss_max_iter := n; ss_tol := tol;
        ss_warm := warm; ss_positive := positive; ss_expected := expected; ss_neighbourhood := nb |}.
Definition lme_record (pen : res lme_penalty) (sr3 : bool) (a : dict) : res lme_model :=
  let! p := pen in
  let! ss := (if sr3 then let! s := lme_settings a in Ok (Some s) else Ok None) in
  let! tol := get as_real "tol_solver" a in
  let! n := get as_int "max_iter_solver" a in
  let! st := get as_str "stepping" a in
  let! step := get (as_option as_real) "fixed_step_len" a in
  let! eps := get as_real "elastic_eps" a in
  let! init := get as_str "initializer" a in
  let! keys := get as_keys "logger_keys" a in
  let! pr := get as_lme_prior "prior" a in
  Ok {| mo_penalty := p; mo_sr3 := ss; mo_tol := tol; mo_max_iter := n; mo_stepping := st; mo_step_len := step;
        mo_eps := eps; mo_initializer := init; mo_keys := keys; mo_prior := pr |}.
Definition lme_model_of (c : py_class) (a : dict) : res lme_model :=
  match c with
  | LmeSimple s => lme_record (Ok PenNone) s a
  | LmePenalised k s =>
      lme_record
        (match k with
         | KL0 => let! nb := get (as_option as_int) "nnz_tbeta" a in
                  let! ng := get (as_option as_int) "nnz_tgamma" a in Ok (PenL0 nb ng)
         | KL1 => let! lam := get as_real "lam" a in Ok (PenL1 lam)
         | KCAD => let! lam := get as_real "lam" a in let! rho := get as_real "rho" a in Ok (PenCAD lam rho)
         | KSCAD => let! lam := get as_real "lam" a in let! rho := get as_real "rho" a in
                    let! sigma := get as_real "sigma" a in Ok (PenSCAD lam rho sigma)
         end) s a
  | _ => Err NotImplementedError
  end.
Definition linear_record (r : res reg) (sr3 : bool) (a : dict) : res linear_model :=
  let! el := (if sr3 then let! e := get as_real "el" a in Ok (Some e) else Ok None) in
  let! practical := (if sr3 then get as_bool "practical" a else Ok false) in
  let! rg := r in
  let! tol := get as_real "tol_solver" a in
  let! n := get as_int "max_iter_solver" a in
  let! st := get as_str "stepping" a in
  let! step := get (as_option as_real) "fixed_step_len" a in
  let! pr := get as_prior "prior" a in
  let! keys := get as_keys "logger_keys" a in
  Ok {| lm_el := el; lm_practical := practical; lm_reg := rg; lm_tol := tol; lm_max_iter := n; lm_stepping := st;
        lm_step_len := step; lm_prior := pr; lm_keys := keys |}.
Definition linear_model_of (c : py_class) (a : dict) : res linear_model :=
  match c with
  | LinearSimple s => linear_record (Ok RDummy) s a
  | LinearPenalised k s =>
      linear_record
        (match k with
         | KL0 => let! nnz := get (as_option as_int) "nnz" a in Ok (mk_l0 nnz)
         | KL1 => let! lam := get as_real "lam" a in Ok (mk_l1 lam)
         | KCAD => let! lam := get as_real "lam" a in let! rho := get as_real "rho" a in Ok (mk_cad rho lam)
         | KSCAD => let! lam := get as_real "lam" a in let! rho := get as_real "rho" a in
                    let! sigma := get as_real "sigma" a in mk_scad rho sigma lam
         end) s a
  | _ => Err NotImplementedError
  end.

(** ** sklearn.base.BaseEstimator: get_params reads the attributes named by the signature of __init__ without
    **kwargs, sorted by name (the order is not modelled); set_params checks every name before it sets it *)
Definition get_params (c : py_class) (a : dict) : res dict :=
  sequence (map (fun n => let! v := read n a in Ok (n, v)) (names (signature c))).
(** the attributes afterwards and whether a name was rejected: what was set before stays set *)
Fixpoint set_params (c : py_class) (a : dict) (params : dict) : dict * res unit :=
  match params with
  | [] => (a, Ok tt)
  | (n, v) :: params' =>
      if has_key n (names (signature c)) then set_params c (dict_set n v a) params' else (a, Err ValueError)
  end.
(** clone: a new object of the class from get_params *)
Definition clone (c : py_class) (a : dict) : res dict := let! ps := get_params c a in construct c ps.
