(** Vocabulary for the theorems on lme/models.py. *)
From Verif.Base Require Import Py Vec Mat.
From Verif.Model Require Import LmeProblem Regularizers Solvers LmeInner LmeFit.
From Verif.Spec Require Import ProxSpec InnerSpec.
Open Scope R_scope.

(** penalty parameters in their ranges *)
Definition penalty_ok (pen : lme_penalty) : Prop :=
  match pen with
  | PenNone | PenL0 _ _ => True
  | PenL1 lam | PenCAD lam _ => 0 <= lam
  | PenSCAD lam rho sigma => 0 <= lam /\ 0 < sigma
  end.
(** settings in their ranges: penalty, elastic term, relaxation and step length *)
Definition sensible (m : lme_model) : Prop :=
  penalty_ok (mo_penalty m) /\ 0 <= mo_eps m /\
  (forall s, mo_step_len m = Some s -> 0 <= s) /\
  (forall ss, mo_sr3 m = Some ss -> 0 <= ss_ell ss).
Definition opt_all (P : vec -> Prop) (x : option vec) : Prop := forall v, x = Some v -> P v.

(** a model with PGDSolver rather than FakePGDSolver *)
Definition uses_pgd (m : lme_model) : Prop := forall ss, mo_sr3 m = Some ss -> ss_practical ss = false.
(** some iterations were made, as the logger reports *)
Definition iterated (lg : logger) : Prop :=
  exists n, (0 < n)%nat /\ get lg "iteration" = Ok (LAtom (LNum (INR n))).

(** the number of coefficients an L0 model may keep *)
Definition requested (k : option Z) (n : nat) : Z := match k with Some k => k | None => Z.of_nat n end.
(** both budgets and the hierarchy of an L0 model, for the weights of both parts *)
Definition l0_respected (pr : lme_problem) (nb ng : option Z) (wf wr beta gamma : vec) : Prop :=
  within_budget (requested nb (num_fixed pr)) wf beta /\
  within_budget (requested ng (num_random pr)) wr gamma /\
  (Z.of_nat (nonzeros beta) <= Z.max (requested nb (num_fixed pr)) (Z.of_nat (zero_count wf)))%Z /\
  (Z.of_nat (nonzeros gamma) <= Z.max (requested ng (num_random pr)) (Z.of_nat (zero_count wr)))%Z /\
  exists bmap, beta_to_gamma_map pr = Ok bmap /\ hierarchical bmap wr beta gamma.

(** ** a sample problem: one observation of 0 with variance 1, all features 0 *)
Definition flat_problem (p q : nat) : lme_problem :=
  {| pr_fixed := [[zeros p]]; pr_random := [[zeros q]]; pr_random_0d := false;
     pr_answers := Some [[0]]; pr_obs_vars := [[1]]; pr_group_labels := [0];
     pr_intercept := None; pr_labels := GROUP :: repeat FIXED p ++ repeat RANDOM q ++ [VARIANCE];
     pr_order := [0%nat]; pr_fe_columns := None; pr_re_columns := None;
     pr_fe_weights := Some (ones p); pr_re_weights := Some (ones q) |}.
Definition flat_model (pen : lme_penalty) (sr3 : option sr3_settings) (max_iter : Z) (eps : R) : lme_model :=
  {| mo_penalty := pen; mo_sr3 := sr3; mo_tol := 0; mo_max_iter := max_iter; mo_stepping := "fixed";
     mo_step_len := None; mo_eps := eps; mo_initializer := "None"; mo_keys := (KTuple, []); mo_prior := None |}.
Definition searching (m : lme_model) : lme_model :=
  {| mo_penalty := mo_penalty m; mo_sr3 := mo_sr3 m; mo_tol := mo_tol m; mo_max_iter := mo_max_iter m;
     mo_stepping := "line-search"; mo_step_len := mo_step_len m; mo_eps := mo_eps m;
     mo_initializer := mo_initializer m; mo_keys := mo_keys m; mo_prior := mo_prior m |}.
Definition practical_settings (max_iter : Z) : sr3_settings :=
  {| ss_ell := 40; ss_practical := true; ss_update_every := 1; ss_max_iter := max_iter; ss_tol := 1 / 1000;
     ss_warm := true; ss_positive := false; ss_expected := true; ss_neighbourhood := 5 / 10 |}.

(** ** penalised loss *)
(** eps/2 |x|^2 and the weighted L1 penalty of a model *)
Definition convex_penalty (m : lme_model) (w : vec) : option (vec -> R) :=
  match mo_penalty m with
  | PenNone => Some (fun x => mo_eps m / 2 * sqnorm x)
  | PenL1 lam => Some (fun x => mo_eps m / 2 * sqnorm x + lam * weighted_l1 w x)
  | _ => None
  end.
(** a table of which it is made, for one fixed and one random effect *)
Definition flat_labels : list string := ["group"; "fixed"; "random"; "variance"]%string.
Definition flat_table : table := {| t_cols := 4; t_rows := [[0; 0; 0; 1]] |}.
