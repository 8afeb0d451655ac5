(** Model of src/pysr3/linear/{problems,oracles,models}.py.
    Simplifications: exact reals; a 2-d array is a list of rows together with its number
    of columns; numpy broadcasting of length-1 arrays is a ValueError; a 1-by-1 matrix c
    is only modelled for one feature; np.linalg.inv is the parameter [inv];
    np.log is [ln]. *)
From Verif.Base Require Import Py Vec Mat.
From Verif.Model Require Import Regularizers.
From Verif.Model Require Export Logger Solvers Priors.
Open Scope R_scope.

(** ** linear/problems.py *)
(** obs_std: the name of a column (the type of the argument of from_dataframe), a number or an array *)
Inductive obs_noise := StdColumn (name : string) | StdAll (v : R) | StdEach (v : vec).
Record linear_problem := {
  lp_a : mat;
  lp_b : vec;
  lp_n : nat;               (* num_objects *)
  lp_p : nat;               (* num_features *)
  lp_c : mat;
  lp_weights : option vec;  (* regularization_weights *)
  lp_obs_std : option obs_noise
}.

(** bool(c) of a numpy array: problems.py:38 `c if c else np.eye` *)
Definition array_truth (c : mat) : res bool :=
  match concat c with
  | [] => Ok false
  | [v] => Ok (nonzero v)
  | _ => Err ValueError
  end.

(** problems.py:14-40 __init__ for an (n x p) array a *)
Definition mk_linear_problem (a : mat) (p : nat) (b : vec) (c : option mat) (obs_std : option obs_noise) (weights : option vec)
  : res linear_problem :=
  let! c' := match c with
             | None => Ok (eye p)
             | Some c0 => let! t := array_truth c0 in Ok (if t then c0 else eye p)
             end in
  Ok {| lp_a := a; lp_b := b; lp_n := length a; lp_p := p; lp_c := c'; lp_weights := weights;
        lp_obs_std := obs_std |}.

(** problems.py:75-96 from_x_y *)
Definition linear_from_x_y (x : mat) (p : nat) (y : vec) (c : option mat) (weights : option vec) :=
  mk_linear_problem x p y c None weights.

(** problems.py:98-109 to_x_y *)
Definition linear_to_x_y (pr : linear_problem) : mat * vec := (lp_a pr, lp_b pr).

(** problems.py:43-73 generate for a scalar obs_std; the draws a0 (n x p) and noise are arguments *)
Definition linear_generate (p : nat) (a0 : mat) (true_x : vec) (obs_std : R) (noise : vec) : res linear_problem :=
  let! _ := guard (negb (p =? 0)%nat) IndexError in
  let a := map (fun row => 1 :: tl row) a0 in
  let! _ := guard (length true_x =? p)%nat ValueError in
  mk_linear_problem a p (vadd (mv a true_x) (vscale obs_std noise)) None None (Some (ones p)).

(** a dataframe of n rows: named columns of numbers *)
Record dataframe := { df_n : nat; df_cols : list (string * vec) }.
(** data[name] *)
Definition df_col (d : dataframe) (name : string) : res vec :=
  match lookup name (df_cols d) with Some v => Ok v | None => Err KeyError end.

(** problems.py:145-147 *)
Definition must_include_weights (features : list string) (must : option (list string)) : vec :=
  match must with
  | None | Some [] => ones (length features)
  | Some ms => map (fun f => if has_key f ms then 0 else 1) features
  end.

(** problems.py:111-152 from_dataframe *)
Definition linear_from_dataframe (d : dataframe) (features : list string) (target : string)
    (must : option (list string)) (obs_std : option obs_noise) (c : option mat) : res linear_problem :=
  let! cols := sequence (map (df_col d) features) in
  let! b := df_col d target in
  mk_linear_problem (tr (df_n d) cols) (length features) b c obs_std (Some (must_include_weights features must)).

(** ** linear/oracles.py: LinearOracle *)
Record lin_oracle := { lo_problem : option linear_problem; lo_prior : prior }.

(** oracles.py:31-46 instantiate.  GaussianPrior.instantiate expects column names but is
    given the problem object, which is neither a container nor iterable. *)
Definition lin_instantiate (o : lin_oracle) (pr : linear_problem) : res lin_oracle :=
  match lo_prior o with
  | PNone => Ok {| lo_problem := Some pr; lo_prior := PNone |}
  | PGauss _ => Err TypeError
  end.
(** oracles.py:48-53 forget *)
Definition lin_forget (o : lin_oracle) : lin_oracle :=
  {| lo_problem := None; lo_prior := prior_forget (lo_prior o) |}.

(** a.dot(x) - b *)
Definition residual (pr : linear_problem) (x : vec) : res vec :=
  let! _ := guard (length x =? lp_p pr)%nat ValueError in
  let! _ := guard (length (lp_b pr) =? lp_n pr)%nat ValueError in
  Ok (vsub (mv (lp_a pr) x) (lp_b pr)).

(** oracles.py:69 *)
Definition lin_loss (o : lin_oracle) (x : vec) : res R :=
  match lo_problem o with
  | None => Err AttributeError
  | Some pr => let! r := residual pr x in
               let! pl := prior_loss (lo_prior o) x in
               Ok (1 / 2 * (norm r) ^ 2 + pl)
  end.
(** oracles.py:85 *)
Definition lin_gradient (o : lin_oracle) (x : vec) : res vec :=
  match lo_problem o with
  | None => Err AttributeError
  | Some pr => let! r := residual pr x in
               let! pg := prior_gradient (lo_prior o) x in
               Ok (vadd (tmv (lp_p pr) (lp_a pr) r) pg)
  end.
(** oracles.py:101 *)
Definition lin_hessian (o : lin_oracle) : res mat :=
  match lo_problem o with
  | None => Err AttributeError
  | Some pr => let! ph := prior_hessian (lo_prior o) (lp_p pr) in
               Ok (madd (mm (lp_p pr) (tr (lp_p pr) (lp_a pr)) (lp_a pr)) ph)
  end.
(** oracles.py:151-152, 168-169 *)
Definition lin_aic (o : lin_oracle) (x : vec) : res R :=
  let! l := lin_loss o x in Ok (l + 2 * INR (nnz_count x)).
Definition lin_bic (o : lin_oracle) (x : vec) : res R :=
  match lo_problem o with
  | None => Err AttributeError
  | Some pr => let! l := lin_loss o x in
               Ok (l + ln (INR (lp_n pr)) * INR (nnz_count x))
  end.

(** the oracle as the solver sees it: oracles.py:103-135 *)
Definition lin_as_oracle (o : lin_oracle) : oracle unit :=
  {| o_value := fun s x => let! v := lin_loss o x in Ok (v, s);
     o_grad := fun s x => let! v := lin_gradient o x in Ok (v, s) |}.

(** ** linear/oracles.py: LinearOracleSR3 *)
Record sr3_data := {
  sd_h_inv : mat;
  sd_ab : vec;
  sd_fg : option (mat * vec)    (* f_matrix and g; None in practical mode *)
}.
Record sr3_oracle := {
  so_lam : R;
  so_practical : bool;
  so_problem : option linear_problem;
  so_data : option sr3_data
}.

(** oracles.py:182-208 __init__; [prior] true means a prior object was given *)
Definition mk_sr3 (lam : R) (practical has_prior : bool) : res sr3_oracle :=
  let! _ := guard (negb has_prior) AssertionError in
  Ok {| so_lam := lam; so_practical := practical; so_problem := None; so_data := None |}.

Section SR3.
(** np.linalg.inv of a (p x p) matrix *)
Variable inv : nat -> mat -> res mat.

(** oracles.py:228 h_matrix *)
Definition h_matrix (lam : R) (pr : linear_problem) : mat :=
  let p := lp_p pr in
  madd (mm p (tr p (lp_a pr)) (lp_a pr)) (mscale lam (mm p (lp_c pr) (lp_c pr))).

(** oracles.py:232-233 *)
Definition f_matrix (lam : R) (pr : linear_problem) (hinv : mat) : mat :=
  let p := lp_p pr in let ct := tr p (lp_c pr) in
  mscale lam (mm p (mm p (lp_a pr) hinv) ct)
  ++ mscale (sqrt lam) (msub (eye p) (mscale lam (mm p (mm p (lp_c pr) hinv) ct))).
(** oracles.py:234-235 *)
Definition g_matrix (lam : R) (pr : linear_problem) (hinv : mat) : mat :=
  let p := lp_p pr in let n := lp_n pr in let at_ := tr p (lp_a pr) in
  msub (eye n) (mm n (mm p (lp_a pr) hinv) at_)
  ++ mscale (sqrt lam) (mm n (mm p (lp_c pr) hinv) at_).

(** oracles.py:210-236 instantiate *)
Definition sr3_instantiate (o : sr3_oracle) (pr : linear_problem) : res sr3_oracle :=
  let p := lp_p pr in let lam := so_lam o in
  let! hinv := inv p (h_matrix lam pr) in
  let! _ := guard (length (lp_b pr) =? lp_n pr)%nat ValueError in
  Ok {| so_lam := lam; so_practical := so_practical o; so_problem := Some pr;
        so_data := Some {| sd_h_inv := hinv;
                           sd_ab := tmv p (lp_a pr) (lp_b pr);
                           sd_fg := if so_practical o then None
                                    else Some (f_matrix lam pr hinv, mv (g_matrix lam pr hinv) (lp_b pr)) |} |}.
End SR3.

(** oracles.py:238-248 forget *)
Definition sr3_forget (o : sr3_oracle) : sr3_oracle :=
  {| so_lam := so_lam o; so_practical := so_practical o; so_problem := None; so_data := None |}.

(** oracles.py:266-267 loss(x, w) *)
Definition sr3_loss (o : sr3_oracle) (x w : vec) : res R :=
  match so_problem o with
  | None => Err AttributeError
  | Some pr =>
      let! r := residual pr x in
      let! _ := guard (length w =? length (lp_c pr))%nat ValueError in
      Ok (1 / 2 * (norm r) ^ 2 + so_lam o / 2 * (norm (vsub (mv (lp_c pr) x) w)) ^ 2 + 0)
  end.

(** f_matrix and g, or the exceptions raised by the two methods below *)
Definition sr3_fg (o : sr3_oracle) (x : vec) : res (nat * mat * vec) :=
  let! _ := guard (negb (so_practical o)) AssertionError in
  match so_problem o, so_data o with
  | Some pr, Some {| sd_fg := Some (f, g) |} =>
      let! _ := guard (length x =? lp_p pr)%nat ValueError in
      Ok (lp_p pr, f, g)
  | _, _ => Err AttributeError
  end.

(** oracles.py:283-284 *)
Definition sr3_value (o : sr3_oracle) (x : vec) : res R :=
  let! (p, f, g) := sr3_fg o x in
  Ok (1 / 2 * (norm (vsub (mv f x) g)) ^ 2).
(** oracles.py:301-302 *)
Definition sr3_gradient (o : sr3_oracle) (x : vec) : res vec :=
  let! (p, f, g) := sr3_fg o x in
  Ok (tmv p f (vsub (mv f x) g)).

Definition sr3_as_oracle (o : sr3_oracle) : oracle unit :=
  {| o_value := fun s x => let! v := sr3_value o x in Ok (v, s);
     o_grad := fun s x => let! v := sr3_gradient o x in Ok (v, s) |}.

(** oracles.py:332-336: the loop of find_optimal_parameters *)
Fixpoint practical_loop (fuel : nat) (o : sr3_oracle) (pr : linear_problem) (d : sr3_data)
    (rg : regularizer) (tol : R) (max_iter : Z) (x : vec) (x_prev : option vec) (iteration : nat)
  : res (vec * nat) :=
  let! m := moved tol x x_prev in
  if m && (Z.of_nat iteration <? max_iter)%Z then
    match fuel with
    | O => Err OutOfFuel
    | Datatypes.S fuel' =>
        let! _ := guard (length x =? lp_p pr)%nat ValueError in
        let y := mv (sd_h_inv d) (vadd (sd_ab d) (vscale (so_lam o) (tmv (lp_p pr) (lp_c pr) x))) in
        let! x' := r_prox rg y (1 / so_lam o) in
        practical_loop fuel' o pr d rg tol max_iter x' (Some x) (Datatypes.S iteration)
    end
  else Ok (x, iteration).

(** oracles.py:304-338 find_optimal_parameters; also returns the number of iterations *)
Definition sr3_find_count (o : sr3_oracle) (rg : regularizer) (tol : R) (max_iter : Z) (x0 : vec)
  : res (vec * nat) :=
  let! _ := guard (nonzero (so_lam o)) ZeroDivisionError in
  match so_problem o, so_data o with
  | Some pr, Some d => practical_loop (Z.to_nat max_iter) o pr d rg tol max_iter x0 None 0
  | _, _ => Err AttributeError
  end.
Definition sr3_find (o : sr3_oracle) (rg : regularizer) (tol : R) (max_iter : Z) (x0 : vec) : res vec :=
  let! (x, _) := sr3_find_count o rg tol max_iter x0 in Ok x.

(** oracles.py:354-356, 372-374: the plain oracle on the same problem *)
Definition sr3_aic (o : sr3_oracle) (x : vec) : res R :=
  lin_aic {| lo_problem := so_problem o; lo_prior := PNone |} x.
Definition sr3_bic (o : sr3_oracle) (x : vec) : res R :=
  lin_bic {| lo_problem := so_problem o; lo_prior := PNone |} x.

(** ** linear/models.py *)
Record linear_model := {
  lm_el : option R;              (* None: the plain model; Some el: SR3 *)
  lm_practical : bool;
  lm_reg : reg;                  (* the regularizer of the subclass, before instantiate *)
  lm_tol : R;
  lm_max_iter : Z;
  lm_stepping : string;
  lm_step_len : option R;
  lm_prior : prior;
  lm_keys : kind * list string
}.

(** models.py:254, 319: `default if not fixed_step_len else fixed_step_len` *)
Definition effective_step (m : linear_model) : R :=
  match lm_step_len m with
  | Some s => if reqb s 0
              then match lm_el m with None => 5 / 100 | Some el => if reqb el 0 then 1 else 1 / el end
              else s
  | None => match lm_el m with None => 5 / 100 | Some el => if reqb el 0 then 1 else 1 / el end
  end.

Section Fit.
Variable argsort : vec -> list nat.
Variable inv : nat -> mat -> res mat.

Definition as_regularizer (r : reg) : regularizer :=
  {| r_value := value r; r_prox := prox argsort r |}.

(** models.py:78-135 fit_problem, with the instantiate methods 248-255, 318-333 and those of
    the subclasses; returns coef_["x"] and logger_.  The SR3 oracle is built without the
    practical flag (329-331), so it always has its F matrix. *)
Definition linear_fit_problem (m : linear_model) (pr : linear_problem)
    (x0 : option vec) (warm_start : bool) (weights : option vec) : res (vec * logger) :=
  let w := match weights with Some w => w | None => ones (lp_p pr) end in
  let start := if warm_start then match x0 with Some x => x | None => ones (lp_p pr) end
               else ones (lp_p pr) in
  let slv := {| s_tol := lm_tol m; s_max_iter := lm_max_iter m; s_stepping := lm_stepping m;
                s_step_len := effective_step m |} in
  let! (run, aic, bic) :=
    (match lm_el m with
     | None =>
         let! o := lin_instantiate {| lo_problem := None; lo_prior := lm_prior m |} pr in
         Ok ((fun rg lg => pgd_optimize (lin_as_oracle o) rg slv start tt lg), lin_aic o, lin_bic o)
     | Some el =>
         let! o0 := mk_sr3 el false (match lm_prior m with PNone => false | PGauss _ => true end) in
         let! o := sr3_instantiate inv o0 pr in
         Ok ((fun rg lg =>
                if lm_practical m
                then fake_pgd_optimize (sr3_as_oracle o) rg
                       (fun s x lg => let! x' := sr3_find o rg (lm_tol m) (lm_max_iter m) x in Ok (x', lg, s))
                       start tt lg
                else pgd_optimize (sr3_as_oracle o) rg slv start tt lg),
             sr3_aic o, sr3_bic o)
     end) in
  let! r := instantiate (lm_reg m) w None in
  let! lg := mk_logger (Some (lm_keys m)) in
  let! (x, lg1, _) := run (as_regularizer r) lg in
  let! lg2 := (if has_key "aic" (lg_keys lg1)
               then let! v := aic x in add lg1 "aic" (LAtom (LNum v)) else Ok lg1) in
  let! lg3 := (if has_key "bic" (lg_keys lg2)
               then let! v := bic x in add lg2 "bic" (LAtom (LNum v)) else Ok lg2) in
  Ok (x, lg3).

(** models.py:32-76 fit: the checks of sklearn are not modelled *)
Definition linear_fit (m : linear_model) (x : mat) (p : nat) (y : vec)
    (x0 : option vec) (warm_start : bool) (weights : option vec) : res (vec * logger) :=
  let! pr := linear_from_x_y x p y None None in
  linear_fit_problem m pr x0 warm_start weights.
End Fit.

(** models.py:168-194 predict_problem; [coef] is None before fit *)
Definition linear_predict_problem (coef : option vec) (pr : linear_problem) : res vec :=
  match coef with
  | None => Err NotFittedError
  | Some x => let! _ := guard (lp_p pr =? length x)%nat AssertionError in
              Ok (mv (lp_a pr) x)
  end.

(** models.py:137-166 predict: check_array wants at least one row and one column *)
Definition linear_predict (coef : option vec) (x : mat) (p : nat) : res vec :=
  match coef with
  | None => Err NotFittedError
  | Some _ =>
      let! _ := guard (negb (length x =? 0)%nat && negb (p =? 0)%nat) ValueError in
      let! pr := linear_from_x_y x p [] None None in
      linear_predict_problem coef pr
  end.

(** models.py:257-268, 335-345 get_information_criterion; the SR3 model makes its oracle with the
    default lam = 1, not with el, and the plain model without its prior *)
Definition linear_information_criterion (inv : nat -> mat -> res mat) (m : linear_model) (coef : option vec)
    (x : mat) (p : nat) (y : vec) (ic : string) : res R :=
  match coef with
  | None => Err NotFittedError
  | Some c =>
      let! pr := linear_from_x_y x p y None None in
      match lm_el m with
      | None =>
          let! o := lin_instantiate {| lo_problem := Some pr; lo_prior := PNone |} pr in
          if String.eqb ic "aic" then lin_aic o c
          else if String.eqb ic "bic" then lin_bic o c else Err ValueError
      | Some _ =>
          let! o0 := mk_sr3 1 false false in
          let! o := sr3_instantiate inv o0 pr in
          if String.eqb ic "aic" then sr3_aic o c
          else if String.eqb ic "bic" then sr3_bic o c else Err ValueError
      end
  end.
