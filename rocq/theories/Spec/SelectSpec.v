(** Vocabulary for the theorems on lme/model_selectors.py. *)
From Verif.Base Require Import Py Vec Mat.
From Verif.Model Require Import LmeProblem Regularizers Solvers LmeInner LmeFit LmeSelect.
From Verif.Spec Require Import LmeSpec FitSpec.
Open Scope string_scope.
Open Scope list_scope.
Open Scope R_scope.

(** the names whose coefficients are at least 1/100 in absolute value *)
Fixpoint reported (names : list string) (coefs : vec) : list string :=
  match names, coefs with
  | n :: ns, c :: cs => if Rle_dec (1 / 100) (Rabs c) then n :: reported ns cs else reported ns cs
  | _, _ => []
  end.

(** a way of listing a set: every element once *)
Definition enumerates (set_list : list string -> list string) : Prop :=
  forall l, NoDup (set_list l) /\ forall a, In a (set_list l) <-> In a l.

(** the dictionary has, or makes, both lists *)
Definition lists_given (d : covs_dict) : Prop :=
  cd_default d = true \/
  ((exists l, lookup "fixed_effects" (cd_items d) = Some l) /\
   (exists l, lookup "random_effects" (cd_items d) = Some l)).
(** the names given for one kind of effects, in covs or in pre_sel_covs *)
Definition given_names (d : option covs_dict) (k : string) : list string := get_or_empty (or_empty d) k.
Definition candidate (covs pre : option covs_dict) (k a : string) : Prop :=
  In a (given_names covs k) \/ In a (given_names pre k).

(** the outcome of one candidate model: its coefficients, and the Jones criterion at them for the tolerance
    sqrt(1e-5) *)
Definition scored (run : lme_model -> lme_problem -> res (lme_coef * logger))
    (calls_of : lme_problem -> option gauss_lme -> option sr3_settings -> lme_calls)
    (pr : lme_problem) (m : lme_model) (co : lme_coef) (s : R) : Prop :=
  (exists lg, run m pr = Ok (co, lg)) /\
  lc_jones (calls_of pr None (mo_sr3 m)) (sqrt (1 / 10 ^ 5)) (co_beta co) (co_gamma co) = Ok s.
(** the outcome co, s is that of the first best model of the list *)
Definition first_best (scored : lme_model -> lme_coef -> R -> Prop) (models : list lme_model) (co : lme_coef) : Prop :=
  exists i m s, nth_error models i = Some m /\ scored m co s /\
  forall j m', nth_error models j = Some m' ->
    exists co' s', scored m' co' s' /\ s <= s' /\ ((j < i)%nat -> s < s').

(** ** a sample selection: an oracle whose loss is 0 everywhere, an argsort that leaves the order *)
Definition flat_sr3_calls : sr3_calls :=
  {| sc_gradient_beta := fun _ _ _ _ _ => Err NotImplementedError; sc_gradient_gamma := fun _ _ _ _ _ => Err NotImplementedError;
     sc_hessian_beta := fun _ _ _ => Err NotImplementedError; sc_hessian_beta_gamma := fun _ _ => Err NotImplementedError;
     sc_hessian_gamma := fun _ _ _ => Err NotImplementedError; sc_optimal_beta := fun _ _ _ => Err NotImplementedError;
     sc_loss := fun _ _ _ _ _ => Err NotImplementedError |}.
Definition flat_oracle (pr : lme_problem) (g : option gauss_lme) (ss : option sr3_settings) : lme_calls :=
  {| lc_loss := fun _ _ => Ok 0; lc_gradient_beta := fun b _ => Ok (zeros (length b));
     lc_gradient_gamma := fun _ g => Ok (zeros (length g)); lc_optimal_beta := fun _ => Err NotImplementedError;
     lc_random_effects := fun _ _ => Ok []; lc_vaida := fun _ _ _ _ => Err NotImplementedError;
     lc_jones := fun _ _ _ => Ok 7; lc_muller := fun _ _ _ => Err NotImplementedError;
     lc_flip := fun _ _ => Err NotImplementedError; lc_sr3 := flat_sr3_calls |}.
Definition in_order (v : vec) : list nat := seq 0 (length v).
Definition no_solve (A : mat) (b : vec) : res vec := Err NotImplementedError.
Definition sample_frame : dataframe :=
  {| df_n := 2; df_cols := [("g", [1; 0]); ("a", [5; 6]); ("b", [7; 8]); ("intercept", [1; 1]); ("v", [1; 1]); ("y", [10; 20])] |}.
Definition sample_covs (fixed random : list string) : option covs_dict :=
  Some {| cd_default := false; cd_items := [("fixed_effects", fixed); ("random_effects", random)] |}.
Definition sample_run := new_fit in_order no_solve flat_oracle.
Definition sample_select (fixed random : list string) (set_list : list string -> list string) :=
  select_covariates sample_run set_list sample_frame "y" "v" "g" (sample_covs fixed random) None (Ok tt) "L0".
