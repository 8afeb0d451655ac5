(** Properties C61-C64: covariate selection (src/pysr3/lme/model_selectors.py). *)
From Verif.Base Require Import Py Vec Mat.
From Verif.Model Require Import LmeProblem Regularizers Solvers LmeInner LmeFit LmeSelect.
From Verif.Spec Require Import LmeSpec FitSpec SelectSpec.
From Verif.Proofs Require Import LmeSelectMain.

Open Scope string_scope.
Open Scope list_scope.
Open Scope R_scope.

(** C61.  When a selection is returned, every candidate of the grid was fitted and scored by the Jones
    criterion at its estimates, and the names are those of the first candidate with the smallest score. *)
Theorem selection_is_best :
  forall argsort solve calls_of set_list d target variance group covs pre folder name sf sr,
  let run := new_fit argsort solve calls_of in
  let fixed := set_list (given_names covs "fixed_effects" ++ given_names pre "fixed_effects") in
  let random := set_list (given_names covs "random_effects" ++ given_names pre "random_effects") in
  fst (fst (select_covariates run set_list d target variance group covs pre folder name)) = Ok (sf, sr) ->
  exists pr models co,
    from_dataframe d fixed random group variance target
      (given_names pre "fixed_effects") (given_names pre "random_effects") = Ok pr /\
    get_model name pr = Ok models /\ first_best (scored run calls_of pr) models co /\
    sf = reported (named_effects d fixed) (co_beta co) /\ sr = reported (named_effects d random) (co_gamma co).
Proof. exact selection_is_best_lemma. Qed.
Print Assumptions selection_is_best.

(** C61.  Conversely a selection is returned when the arguments are valid, the grid is not empty and every
    candidate can be fitted. *)
Theorem selection_returned :
  forall argsort solve calls_of set_list d target variance group covs pre name pr models,
  let run := new_fit argsort solve calls_of in
  let fixed := set_list (given_names covs "fixed_effects" ++ given_names pre "fixed_effects") in
  let random := set_list (given_names covs "random_effects" ++ given_names pre "random_effects") in
  lists_given (or_empty covs) -> lists_given (or_empty pre) ->
  from_dataframe d fixed random group variance target
    (given_names pre "fixed_effects") (given_names pre "random_effects") = Ok pr ->
  get_model name pr = Ok models -> models <> [] ->
  (forall m, In m models -> exists r, run m pr = Ok r) ->
  exists sf sr, fst (fst (select_covariates run set_list d target variance group covs pre (Ok tt) name)) = Ok (sf, sr).
Proof. exact selection_returned_lemma. Qed.
Print Assumptions selection_returned.

(** C61.  The candidates: the pairs of the L0 grid, or 100 penalty parameters increasing from 1e-4 to 1e5;
    any other name is a ValueError. *)
Theorem candidates_of_grid :
  (forall pr m, (exists name models, (name = "L0" \/ name = "L0_SR3") /\ get_model name pr = Ok models /\ In m models) <->
     exists p q, In (p, q) (l0_grid (num_fixed pr) (num_random pr)) /\
       mo_penalty m = PenL0 (Some (Z.of_nat p)) (Some (Z.of_nat q)) /\
       (m = plain_candidate (mo_penalty m) \/ m = sr3_candidate (mo_penalty m) 1000)) /\
  (length lam_grid = 100%nat /\ nth 0 lam_grid 0 = 1 / 10 ^ 4 /\ nth 99 lam_grid 0 = 10 ^ 5 /\
   forall i j, (i < j < 100)%nat -> nth i lam_grid 0 < nth j lam_grid 0) /\
  (forall name pr, get_model name pr = Err ValueError <->
     ~ In name ["L0"; "L0_SR3"; "L1"; "L1_SR3"; "CAD"; "CAD_SR3"; "SCAD"; "SCAD_SR3"]).
Proof. exact candidates_of_grid_lemma. Qed.
Print Assumptions candidates_of_grid.

(** C62 (partial).  Without intercepts the reported names are exactly the named columns whose coefficients
    are at least 1e-2 in absolute value: there is one coefficient per name, and the design matrices have the
    columns of these names in this order. *)
Theorem selected_names_partial :
  forall argsort solve calls_of set_list d target variance group covs pre folder name sf sr,
  enumerates set_list ->
  ~ candidate covs pre "fixed_effects" "intercept" -> ~ candidate covs pre "random_effects" "intercept" ->
  let run := new_fit argsort solve calls_of in
  let fe := named_effects d (given_names covs "fixed_effects" ++ given_names pre "fixed_effects") in
  let re := named_effects d (given_names covs "random_effects" ++ given_names pre "random_effects") in
  let row (names : list string) i := map (fun c => df_value d c i) names in
  fst (fst (select_covariates run set_list d target variance group covs pre folder name)) = Ok (sf, sr) ->
  exists pr m co lg idx, run m pr = Ok (co, lg) /\
    sf = reported fe (co_beta co) /\ sr = reported re (co_gamma co) /\
    length fe = length (co_beta co) /\ length re = length (co_gamma co) /\
    partition_of (df_value d group) (df_n d) (pr_group_labels pr) idx /\
    pr_fixed pr = map (map (row fe)) idx /\ pr_random pr = map (map (row re)) idx.
Proof. exact selected_names_partial_lemma. Qed.
Print Assumptions selected_names_partial.

(** C62 (refuted).  With a fixed intercept the first coefficient is that of the intercept, but the names
    start with the first column: every name is judged by the coefficient of the column before it, and the
    last coefficient is not looked at.  The same holds for the random effects.  In the sample the intercept is
    0 and the coefficient of a about 1, but nothing is reported. *)
Theorem selected_names_refuted :
  (forall argsort solve calls_of set_list d target variance group covs pre folder name sf sr,
   enumerates set_list -> candidate covs pre "fixed_effects" "intercept" ->
   let run := new_fit argsort solve calls_of in
   let fe := named_effects d (given_names covs "fixed_effects" ++ given_names pre "fixed_effects") in
   fst (fst (select_covariates run set_list d target variance group covs pre folder name)) = Ok (sf, sr) ->
   exists pr m co lg idx b0 b, run m pr = Ok (co, lg) /\ co_beta co = b0 :: b /\ length b = length fe /\
     partition_of (df_value d group) (df_n d) (pr_group_labels pr) idx /\
     pr_fixed pr = map (map (fun i => 1 :: map (fun c => df_value d c i) fe)) idx /\
     sf = reported fe (b0 :: removelast b)) /\
  (forall argsort solve calls_of set_list d target variance group covs pre folder name sf sr,
   enumerates set_list -> candidate covs pre "random_effects" "intercept" ->
   let run := new_fit argsort solve calls_of in
   let re := named_effects d (given_names covs "random_effects" ++ given_names pre "random_effects") in
   fst (fst (select_covariates run set_list d target variance group covs pre folder name)) = Ok (sf, sr) ->
   exists pr m co lg idx g0 gs, run m pr = Ok (co, lg) /\ co_gamma co = g0 :: gs /\ length gs = length re /\
     partition_of (df_value d group) (df_n d) (pr_group_labels pr) idx /\
     pr_random pr = map (map (fun i => 1 :: map (fun c => df_value d c i) re)) idx /\
     sr = reported re (g0 :: removelast gs)) /\
  (forall set_list, enumerates set_list ->
   fst (fst (sample_select ["intercept"; "a"] ["intercept"; "a"] set_list)) = Ok ([], [])).
Proof. exact selected_names_refuted_lemma. Qed.
Print Assumptions selected_names_refuted.

(** A sample selection over two columns, whose frame has a zero and a non-zero coefficient: one name each is reported. *)
Example ex_selection :
  enumerates (nodup string_dec) /\
  forall set_list, enumerates set_list -> fst (fst (sample_select ["a"; "b"] ["a"; "b"] set_list)) = Ok (["b"], ["b"]).
Proof. exact ex_selection_lemma. Qed.

(** The hypotheses of selection_returned hold of the sample. *)
Example ex_selection_returned :
  exists pr m, from_dataframe sample_frame ["a"; "b"] ["a"; "b"] "g" "v" "y" [] [] = Ok pr /\
    get_model "L0" pr = Ok [m] /\ exists r, sample_run m pr = Ok r.
Proof. exact ex_selection_returned_lemma. Qed.

(** C63 (partial).  The L0 grid consists of the pairs 1 <= q <= p with p below the number of fixed effects
    and q below the number of random effects, each once. *)
Theorem l0_grid_partial :
  forall P Q, NoDup (l0_grid P Q) /\
  (forall p q, In (p, q) (l0_grid P Q) <-> (1 <= q /\ q <= p /\ p < P /\ q < Q)%nat).
Proof. exact l0_grid_partial_lemma. Qed.
Print Assumptions l0_grid_partial.

(** Two grids. *)
Example ex_l0_grid : l0_grid 3 4 = [(1, 1); (2, 1); (2, 2)]%nat /\ l0_grid 5 1 = [].
Proof. exact ex_l0_grid_lemma. Qed.

(** C63 (refuted).  The full model is never in the grid.  With fewer than two fixed or two random effects
    the grid is empty, and then the selection ends in an AttributeError. *)
Theorem l0_grid_refuted :
  (forall P Q p q, (p = P \/ q = Q) -> ~ In (p, q) (l0_grid P Q)) /\
  (forall P Q, l0_grid P Q = [] <-> (P <= 1 \/ Q <= 1)%nat) /\
  (forall run set_list d target variance group covs pre name pr,
   let fixed := set_list (given_names covs "fixed_effects" ++ given_names pre "fixed_effects") in
   let random := set_list (given_names covs "random_effects" ++ given_names pre "random_effects") in
   lists_given (or_empty covs) -> lists_given (or_empty pre) ->
   from_dataframe d fixed random group variance target
     (given_names pre "fixed_effects") (given_names pre "random_effects") = Ok pr ->
   (num_fixed pr <= 1 \/ num_random pr <= 1)%nat -> name = "L0" \/ name = "L0_SR3" ->
   fst (fst (select_covariates run set_list d target variance group covs pre (Ok tt) name)) = Err AttributeError).
Proof. exact l0_grid_refuted_lemma. Qed.
Print Assumptions l0_grid_refuted.

(** C64 (partial).  The candidates are the names in either dictionary, whatever order the sets are listed in:
    the selection is the same for all of them.  A name that is not a column is a ValueError. *)
Theorem candidates_merged_partial :
  (forall run set_list d target variance group covs pre folder name c p,
   enumerates set_list -> lists_given (or_empty covs) -> lists_given (or_empty pre) ->
   let r := select_covariates run set_list d target variance group covs pre folder name in
   c = snd (fst r) -> p = snd r ->
   forall k, k = "fixed_effects" \/ k = "random_effects" ->
     NoDup (get_or_empty c k) /\ (forall a, In a (get_or_empty c k) <-> candidate covs pre k a) /\
     get_or_empty p k = given_names pre k) /\
  (forall run s1 s2 d target variance group covs pre folder name,
   enumerates s1 -> enumerates s2 ->
   fst (fst (select_covariates run s1 d target variance group covs pre folder name)) =
   fst (fst (select_covariates run s2 d target variance group covs pre folder name))) /\
  (forall run set_list d target variance group covs pre folder name a,
   enumerates set_list -> lists_given (or_empty covs) -> lists_given (or_empty pre) ->
   candidate covs pre "fixed_effects" a \/ candidate covs pre "random_effects" a \/ In a [target; variance; group] ->
   ~ In a (map fst (df_cols d)) ->
   fst (fst (select_covariates run set_list d target variance group covs pre folder name)) = Err ValueError).
Proof. exact candidates_merged_partial_lemma. Qed.
Print Assumptions candidates_merged_partial.

(** C64 (partial).  When an intercept is among the fixed candidates, the pre-selected fixed effects and only
    these are exempt from the penalty: their weights are 0, the others 1. *)
Theorem preselected_exempt_partial :
  forall set_list d target variance group covs pre pr,
  let fixed := set_list (given_names covs "fixed_effects" ++ given_names pre "fixed_effects") in
  let random := set_list (given_names covs "random_effects" ++ given_names pre "random_effects") in
  let nf := given_names pre "fixed_effects" in
  let nr := given_names pre "random_effects" in
  enumerates set_list ->
  from_dataframe d fixed random group variance target nf nr = Ok pr ->
  (candidate covs pre "fixed_effects" "intercept" ->
   pr_fe_weights pr = Some (documented_weights nf ("intercept" :: named_effects d fixed)) /\
   length (documented_weights nf ("intercept" :: named_effects d fixed)) = num_fixed pr) /\
  (candidate covs pre "random_effects" "intercept" -> (In "intercept" nf <-> In "intercept" nr) ->
   pr_re_weights pr = Some (documented_weights nr ("intercept" :: named_effects d random)) /\
   length (documented_weights nr ("intercept" :: named_effects d random)) = num_random pr).
Proof. exact preselected_exempt_partial_lemma. Qed.
Print Assumptions preselected_exempt_partial.

(** Tables with pre-selected names, with and without an intercept, are accepted. *)
Example ex_preselected :
  (exists pr, from_dataframe sample_frame ["intercept"; "a"] ["a"] "g" "v" "y" ["intercept"] [] = Ok pr) /\
  (exists pr, from_dataframe sample_frame ["a"] ["a"] "g" "v" "y" ["a"] [] = Ok pr).
Proof. exact ex_preselected_lemma. Qed.

(** C64 (refuted).  With pre-selected fixed effects but no fixed intercept the weights are shifted by one
    place and there is one too many: the weight of a column is that of the column before it, and the
    candidates of the L1, CAD and SCAD grids cannot be fitted, so that no selection is ever returned. *)
Theorem preselected_exempt_refuted :
  (forall set_list d target variance group covs pre pr,
   let fixed := set_list (given_names covs "fixed_effects" ++ given_names pre "fixed_effects") in
   let random := set_list (given_names covs "random_effects" ++ given_names pre "random_effects") in
   let nf := given_names pre "fixed_effects" in
   enumerates set_list -> nf <> [] -> ~ candidate covs pre "fixed_effects" "intercept" ->
   from_dataframe d fixed random group variance target nf (given_names pre "random_effects") = Ok pr ->
   pr_fe_weights pr = Some (1 :: documented_weights nf (named_effects d fixed)) /\
   length (named_effects d fixed) = num_fixed pr) /\
  (forall argsort solve calls_of set_list d target variance group covs pre folder name r,
   let run := new_fit argsort solve calls_of in
   enumerates set_list -> given_names pre "fixed_effects" <> [] ->
   ~ candidate covs pre "fixed_effects" "intercept" ->
   (exists a, candidate covs pre "random_effects" a) ->
   name <> "L0" -> name <> "L0_SR3" ->
   fst (fst (select_covariates run set_list d target variance group covs pre folder name)) <> Ok r).
Proof. exact preselected_exempt_refuted_lemma. Qed.
Print Assumptions preselected_exempt_refuted.

(** C64 (refuted).  The caller's dictionary of candidates is changed: afterwards it also holds the
    pre-selected names; empty lists are added to a defaultdict of pre-selected names, and a plain dictionary
    without one of the two keys is a KeyError. *)
Theorem dictionaries_refuted :
  forall run set_list d target variance group folder name, enumerates set_list ->
  (let covs := {| cd_default := false; cd_items := [("fixed_effects", ["a"]); ("random_effects", [])] |} in
   let pre := {| cd_default := false; cd_items := [("fixed_effects", ["b"]); ("random_effects", [])] |} in
   let covs' := snd (fst (select_covariates run set_list d target variance group (Some covs) (Some pre) folder name)) in
   covs' <> covs /\ In "b" (get_or_empty covs' "fixed_effects")) /\
  (forall covs, lists_given (or_empty covs) ->
   snd (select_covariates run set_list d target variance group covs (Some empty_covs) folder name) =
   {| cd_default := true; cd_items := [("fixed_effects", []); ("random_effects", [])] |}) /\
  (forall covs pre k, (k = "fixed_effects" \/ k = "random_effects") ->
   cd_default covs = false -> lookup k (cd_items covs) = None ->
   fst (fst (select_covariates run set_list d target variance group (Some covs) pre folder name)) = Err KeyError).
Proof. exact dictionaries_refuted_lemma. Qed.
Print Assumptions dictionaries_refuted.
