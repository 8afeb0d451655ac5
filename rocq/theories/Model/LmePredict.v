(** Model of predict, predict_problem and score of src/pysr3/lme/models.py.
    Simplifications: exact reals; score divides by a real number, a zero divisor is
    [NotFinite]; sample_weight, which the code ignores, is dropped. *)
From Verif.Base Require Import Py Vec Mat.
From Verif.Model Require Import LmeProblem.
Open Scope R_scope.

(** the fitted attributes used by predict (models.py:249-255) *)
Record lme_coef := {
  cf_beta : vec;
  cf_us : list vec;           (* random_effects, one row per training group *)
  cf_group_labels : list R
}.

(** models.py:349-363: one group.  np.where returns a tuple of length 1 whether or not the label
    occurs, so the branch for unseen groups is never taken. *)
Definition predict_group (c : lme_coef) (num_random : nat) (label : R) (x z : mat) : res vec :=
  let idx := where_ (fun l => reqb l label) (cf_group_labels c) in
  let y := mv x (cf_beta c) in
  if (0 <? num_random)%nat then
    let! u := take_rows (cf_us c) idx in
    let! _ := guard (length (concat u) =? num_random)%nat ValueError in
    Ok (vadd y (mv z (concat u)))
  else Ok y.

(** models.py:318-365 *)
Definition predict_problem (coef : option lme_coef) (pr : lme_problem) : res vec :=
  match coef with
  | None => Err NotFittedError
  | Some c =>
      let! _ := guard (num_fixed pr =? length (cf_beta c))%nat AssertionError in
      let! _ := match cf_us c with
                | [] => Ok tt
                | u :: _ => guard (num_random pr =? length u)%nat AssertionError
                end in
      let! answers := sequence (map2 (fun label xz => predict_group c (num_random pr) label (fst xz) (snd xz))
                                  (pr_group_labels pr) (combine (pr_fixed pr) (pr_random pr))) in
      match answers with
      | [] => Err ValueError
      | _ => Ok (concat answers)
      end
  end.

(** models.py:276-316; check_array wants at least one row and one column *)
Definition predict (coef : option lme_coef) (x : table) (labels : option (list string))
    (fit_fixed fit_random : bool) : res vec :=
  match coef with
  | None => Err NotFittedError
  | Some _ =>
      let! _ := guard (negb (length (t_rows x) =? 0)%nat && negb (t_cols x =? 0)%nat) ValueError in
      let! pr := from_x_y x None None labels fit_fixed fit_random None None in
      predict_problem coef pr
  end.

(** models.py:367-421 *)
Definition mean (y : vec) : R := vsum y / INR (length y).
Definition score (coef : option lme_coef) (x : table) (y : vec) (labels : option (list string))
    (fit_fixed fit_random : bool) : res R :=
  let! y_pred := predict coef x labels fit_fixed fit_random in
  let! _ := guard (length y =? length y_pred)%nat ValueError in
  let u := vsum (map (fun d => d ^ 2) (vsub y y_pred)) in
  let v := vsum (map (fun a => (a - mean y) ^ 2) y) in
  if reqb v 0 then Err NotFinite else Ok (1 - u / v).
