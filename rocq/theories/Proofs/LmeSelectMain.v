(** Final lemmas about lme/model_selectors.py, restated as theorems in Properties/LmeSelect.v. *)
(*HEAD
(** Properties C61-C64: covariate selection (src/pysr3/lme/model_selectors.py). *)
From Verif.Base Require Import Py Vec Mat.
From Verif.Model Require Import LmeProblem Regularizers Solvers LmeInner LmeFit LmeSelect.
From Verif.Spec Require Import LmeSpec FitSpec SelectSpec.
HEAD*)
(*OPEN
Open Scope string_scope.
Open Scope list_scope.
Open Scope R_scope.
OPEN*)
From Coq Require Import Lra Psatz String.
From Verif.Base Require Import Py Vec Mat.
From Verif.Model Require Import LmeProblem Regularizers Solvers LmeInner LmeFit LmeSelect.
From Verif.Spec Require Import ProxSpec RegSpec SolverSpec LmeSpec InnerSpec FitSpec SelectSpec.
From Verif.Proofs Require Import VecFacts RegularizerProofs SolverProofs SolversMain LinearProofs LmeProblemProofs LmeProblemMain
  MatFacts LmeDataMain FitProofs SelectProofs SelectExample.
Open Scope string_scope.
Open Scope list_scope.
Open Scope R_scope.

Lemma select_lists_inv run d t v g F R NF NR folder name sf sr :
  select_lists run d t v g F R NF NR folder name = Ok (sf, sr) ->
  exists pr models co, from_dataframe d F R g v t NF NR = Ok pr /\ get_model name pr = Ok models /\
    search run pr models None None = Ok (Some co) /\ folder = Ok tt /\
    sf = reported (named_effects d F) (co_beta co) /\ sr = reported (named_effects d R) (co_gamma co).
Proof.
  unfold select_lists. intros H. apply rbind_inv in H. destruct H as [u [_ H]]. apply rbind_inv in H. destruct H as [u2 [Hf H]].
  apply rbind_inv in H. destruct H as [pr [Hp H]]. apply rbind_inv in H. destruct H as [models [Hm H]].
  apply rbind_inv in H. destruct H as [best [Hb H]]. destruct best as [co|]; [|discriminate].
  destruct (from_dataframe_selects_lemma _ _ _ _ _ _ _ _ _ Hp) as (E1 & E2 & _). rewrite E1, E2 in H.
  cbn [selected rbind] in H. rewrite !selected_reported in H. injection H as <- <-. destruct u2.
  exists pr, models, co. auto 10.
Qed.

(*@ C61.  When a selection is returned, every candidate of the grid was fitted and scored by the Jones
    criterion at its estimates, and the names are those of the first candidate with the smallest score. *)
Lemma selection_is_best_lemma :
  forall argsort solve calls_of set_list d target variance group covs pre folder name sf sr,
  let run := new_fit argsort solve calls_of in
  let fixed := set_list (given_names covs "fixed_effects" ++ given_names pre "fixed_effects") in
  let random := set_list (given_names covs "random_effects" ++ given_names pre "random_effects") in
  fst (fst (select_covariates run set_list d target variance group covs pre folder name)) = Ok (sf, sr) ->
  exists pr models co,
    from_dataframe d fixed random group variance target
      (given_names pre "fixed_effects") (given_names pre "random_effects") = Ok pr /\
    get_model name pr = Ok models /\ first_best (scored run calls_of pr) models co /\
    sf = reported (named_effects d fixed) (co_beta co) /\ sr = reported (named_effects d random) (co_gamma co).
Proof.
  intros argsort solve calls_of sl d t v g covs pre folder name sf sr run F R H.
  destruct (select_ok_given _ _ _ _ _ _ _ _ _ _ _ H) as [Gc Gp]. rewrite (select_eq _ _ _ _ _ _ _ _ _ _ Gc Gp) in H.
  destruct (select_lists_inv _ _ _ _ _ _ _ _ _ _ _ _ _ H) as (pr & models & co & Hp & Hm & Hs & _ & Es & Er).
  exists pr, models, co. split; [exact Hp|]. split; [exact Hm|]. split; [|auto].
  apply search_first; [|exact Hs]. eapply get_model_grid. exact Hm.
Qed.

(*@ C61.  Conversely a selection is returned when the arguments are valid, the grid is not empty and every
    candidate can be fitted. *)
Lemma selection_returned_lemma :
  forall argsort solve calls_of set_list d target variance group covs pre name pr models,
  let run := new_fit argsort solve calls_of in
  let fixed := set_list (given_names covs "fixed_effects" ++ given_names pre "fixed_effects") in
  let random := set_list (given_names covs "random_effects" ++ given_names pre "random_effects") in
  lists_given (or_empty covs) -> lists_given (or_empty pre) ->
  from_dataframe d fixed random group variance target
    (given_names pre "fixed_effects") (given_names pre "random_effects") = Ok pr ->
  get_model name pr = Ok models -> models <> [] ->
  (forall m, In m models -> exists r, run m pr = Ok r) ->
  exists sf sr, fst (fst (select_covariates run set_list d target variance group covs pre (Ok tt) name)) = Ok (sf, sr).
Proof.
  intros argsort solve calls_of sl d t v g covs pre name pr models run F R Gc Gp Hp Hm Hne Hr.
  rewrite (select_eq _ _ _ _ _ _ _ _ _ _ Gc Gp). fold F R. unfold select_lists.
  assert (G : forallb (fun c => has_key c (map fst (df_cols d))) (t :: v :: g :: F ++ R) = true).
  { pose proof Hp as Q. unfold from_dataframe in Q. apply rbind_inv in Q. destruct Q as [u [Q _]]. apply guard_inv in Q.
    rewrite forallb_forall in Q. apply forallb_forall. intros a Ha. apply Q. cbn [In] in Ha. rewrite in_app_iff in Ha.
    rewrite !in_app_iff. cbn [In]. tauto. }
  rewrite G. cbn [guard rbind]. rewrite Hp. cbn [rbind]. rewrite Hm. cbn [rbind].
  destruct (search_total argsort solve calls_of pr models None None (get_model_grid _ _ _ Hm)) as (r & E & Hn).
  { apply Forall_forall. exact Hr. }
  unfold run. rewrite E. cbn [rbind]. destruct r as [co|]; [|exfalso; apply Hn; auto].
  destruct (from_dataframe_selects_lemma _ _ _ _ _ _ _ _ _ Hp) as (E1 & E2 & _). rewrite E1, E2.
  cbn [selected rbind]. eauto.
Qed.

(*@ C61.  The candidates: the pairs of the L0 grid, or 100 penalty parameters increasing from 1e-4 to 1e5;
    any other name is a ValueError. *)
Lemma candidates_of_grid_lemma :
  (forall pr m, (exists name models, (name = "L0" \/ name = "L0_SR3") /\ get_model name pr = Ok models /\ In m models) <->
     exists p q, In (p, q) (l0_grid (num_fixed pr) (num_random pr)) /\
       mo_penalty m = PenL0 (Some (Z.of_nat p)) (Some (Z.of_nat q)) /\
       (m = plain_candidate (mo_penalty m) \/ m = sr3_candidate (mo_penalty m) 1000)) /\
  (length lam_grid = 100%nat /\ nth 0 lam_grid 0 = 1 / 10 ^ 4 /\ nth 99 lam_grid 0 = 10 ^ 5 /\
   forall i j, (i < j < 100)%nat -> nth i lam_grid 0 < nth j lam_grid 0) /\
  (forall name pr, get_model name pr = Err ValueError <->
     ~ In name ["L0"; "L0_SR3"; "L1"; "L1_SR3"; "CAD"; "CAD_SR3"; "SCAD"; "SCAD_SR3"]).
Proof.
  split; [|split].
  - intros pr m. split.
    + intros (name & models & [-> | ->] & H & Hm); apply Ok_inj in H; subst models; apply in_map_iff in Hm;
      destruct Hm as [[p q] [<- Hpq]]; exists p, q; cbn; auto.
    + intros (p & q & Hpq & Hp & [E|E]); rewrite E, Hp.
      * exists "L0". eexists. split; [auto|]. split; [reflexivity|]. apply in_map_iff. exists (p, q). auto.
      * exists "L0_SR3". eexists. split; [auto|]. split; [reflexivity|]. apply in_map_iff. exists (p, q). auto.
  - assert (N : forall i, (i < 100)%nat -> nth i lam_grid 0 = Rpower 10 (-4 + 9 / 99 * INR i)).
    { intros i Hi. unfold lam_grid. rewrite (nth_map_lt _ _ _ _ 0%nat) by (rewrite seq_length; exact Hi). rewrite seq_nth by exact Hi. reflexivity. }
    split; [unfold lam_grid; rewrite map_length, seq_length; reflexivity|]. split; [|split].
    + rewrite N by lia. replace (-4 + 9 / 99 * INR 0) with (- (INR 4)) by (cbn; lra).
      rewrite Rpower_Ropp, Rpower_pow by lra. unfold Rdiv. rewrite Rmult_1_l. reflexivity.
    + rewrite N by lia. replace (-4 + 9 / 99 * INR 99) with (INR 5) by (rewrite !INR_IZR_INZ; cbn [Z.of_nat Pos.of_succ_nat Pos.succ]; lra).
      apply Rpower_pow. lra.
    + intros i j Hij. rewrite !N by lia. apply Rpower_lt; [lra|]. assert (INR i < INR j) by (apply lt_INR; lia). lra.
  - intros name pr. unfold get_model. cbv zeta. cbn [In].
    repeat (match goal with |- context [String.eqb name ?k] => destruct (String.eqb_spec name k) as [->|?] end;
            [split; [discriminate|intros C; exfalso; apply C; tauto]|]).
    split; [|reflexivity]. intros _ C. repeat (destruct C as [C|C]; [congruence|]). exact C.
Qed.

(*@ C62 (partial).  Without intercepts the reported names are exactly the named columns whose coefficients
    are at least 1e-2 in absolute value: there is one coefficient per name, and the design matrices have the
    columns of these names in this order. *)
Lemma selected_names_partial_lemma :
  forall argsort solve calls_of set_list d target variance group covs pre folder name sf sr,
  enumerates set_list ->
  ~ candidate covs pre "fixed_effects" "intercept" -> ~ candidate covs pre "random_effects" "intercept" ->
  let run := new_fit argsort solve calls_of in
  let fe := named_effects d (given_names covs "fixed_effects" ++ given_names pre "fixed_effects") in
  let re := named_effects d (given_names covs "random_effects" ++ given_names pre "random_effects") in
  let row (names : list string) i := map (fun c => df_value d c i) names in
  fst (fst (select_covariates run set_list d target variance group covs pre folder name)) = Ok (sf, sr) ->
  exists pr m co lg idx, run m pr = Ok (co, lg) /\
    sf = reported fe (co_beta co) /\ sr = reported re (co_gamma co) /\
    length fe = length (co_beta co) /\ length re = length (co_gamma co) /\
    partition_of (df_value d group) (df_n d) (pr_group_labels pr) idx /\
    pr_fixed pr = map (map (row fe)) idx /\ pr_random pr = map (map (row re)) idx.
Proof.
  intros argsort solve calls_of sl d t v g covs pre folder name sf sr HE NF NR run fe re row H.
  destruct (selection_is_best_lemma _ _ _ _ _ _ _ _ _ _ _ _ _ _ H) as (pr & models & co & Hp & Hm & (i & m & s & Hi & [[lg Hr] _] & _) & Es & Er).
  pose proof (get_model_grid _ _ _ Hm) as HG. apply nth_error_In in Hi. rewrite Forall_forall in HG. specialize (HG _ Hi).
  destruct (grid_lengths _ _ _ _ _ _ _ HG Hr) as (L1 & L2 & _).
  set (F := sl (given_names covs "fixed_effects" ++ given_names pre "fixed_effects")) in *.
  set (R := sl (given_names covs "random_effects" ++ given_names pre "random_effects")) in *.
  assert (NE : forall l, named_effects d (sl l) = named_effects d l).
  { intros l. rewrite !named_is. apply filter_ext. intros a. rewrite (has_key_ext _ _ (proj2 (HE l))). reflexivity. }
  unfold F, R in Es, Er. rewrite NE in Es, Er.
  destruct (from_dataframe_selects_lemma _ _ _ _ _ _ _ _ _ Hp) as (_ & _ & Q1 & Q2 & idx & P & _ & P2 & P3 & _).
  assert (O1 : (if in_dec string_dec "intercept" F then [1] else []) = []).
  { destruct (in_dec string_dec "intercept" F) as [C|]; [|reflexivity]. exfalso. apply NF. unfold F in C. rewrite (proj2 (HE _)) in C. apply in_app_or in C. exact C. }
  assert (O2 : (if in_dec string_dec "intercept" R then [1] else []) = []).
  { destruct (in_dec string_dec "intercept" R) as [C|]; [|reflexivity]. exfalso. apply NR. unfold R in C. rewrite (proj2 (HE _)) in C. apply in_app_or in C. exact C. }
  rewrite O1 in Q1, P2. rewrite O2 in Q2, P3. cbn [app] in Q1, Q2, P2, P3. unfold F in Q1, P2. unfold R in Q2, P3.
  rewrite NE in Q1, Q2, P2, P3. rewrite map_length in Q1, Q2.
  exists pr, m, co, lg, idx. split; [exact Hr|]. split; [exact Es|]. split; [exact Er|].
  split; [fold fe in Q1; congruence|]. split; [fold re in Q2; congruence|]. split; [exact P|]. split; [exact P2|exact P3].
Qed.

(*@ C62 (refuted).  With a fixed intercept the first coefficient is that of the intercept, but the names
    start with the first column: every name is judged by the coefficient of the column before it, and the
    last coefficient is not looked at.  The same holds for the random effects.  In the sample the intercept is
    0 and the coefficient of a about 1, but nothing is reported. *)
Lemma selected_names_refuted_lemma :
  (forall argsort solve calls_of set_list d target variance group covs pre folder name sf sr,
   enumerates set_list -> candidate covs pre "fixed_effects" "intercept" ->
   let run := new_fit argsort solve calls_of in
   let fe := named_effects d (given_names covs "fixed_effects" ++ given_names pre "fixed_effects") in
   fst (fst (select_covariates run set_list d target variance group covs pre folder name)) = Ok (sf, sr) ->
   exists pr m co lg idx b0 b, run m pr = Ok (co, lg) /\ co_beta co = b0 :: b /\ length b = length fe /\
     partition_of (df_value d group) (df_n d) (pr_group_labels pr) idx /\
     pr_fixed pr = map (map (fun i => 1 :: map (fun c => df_value d c i) fe)) idx /\
     sf = reported fe (b0 :: removelast b)) /\
  (forall argsort solve calls_of set_list d target variance group covs pre folder name sf sr,
   enumerates set_list -> candidate covs pre "random_effects" "intercept" ->
   let run := new_fit argsort solve calls_of in
   let re := named_effects d (given_names covs "random_effects" ++ given_names pre "random_effects") in
   fst (fst (select_covariates run set_list d target variance group covs pre folder name)) = Ok (sf, sr) ->
   exists pr m co lg idx g0 gs, run m pr = Ok (co, lg) /\ co_gamma co = g0 :: gs /\ length gs = length re /\
     partition_of (df_value d group) (df_n d) (pr_group_labels pr) idx /\
     pr_random pr = map (map (fun i => 1 :: map (fun c => df_value d c i) re)) idx /\
     sr = reported re (g0 :: removelast gs)) /\
  (forall set_list, enumerates set_list ->
   fst (fst (sample_select ["intercept"; "a"] ["intercept"; "a"] set_list)) = Ok ([], [])).
Proof.
  assert (RR : forall ns c0 cs, length cs = length ns -> reported ns (c0 :: cs) = reported ns (c0 :: removelast cs)).
  { assert (A : forall ns cs, length cs = S (length ns) -> reported ns cs = reported ns (removelast cs)).
    { induction ns as [|n ns IH]; intros cs Hc; [reflexivity|].
      destruct cs as [|c cs]; [discriminate|]. cbn [length] in Hc. destruct cs as [|c' cs]; [discriminate|].
      change (removelast (c :: c' :: cs)) with (c :: removelast (c' :: cs)). cbn [reported]. rewrite (IH (c' :: cs)) by (cbn [length] in *; lia). reflexivity. }
    intros ns c0 cs Hc. destruct cs as [|c cs].
    - destruct ns; [|discriminate]. reflexivity.
    - rewrite (A ns (c0 :: c :: cs)) by (cbn [length] in *; lia). reflexivity. }
  assert (NE : forall d sl l, enumerates sl -> named_effects d (sl l) = named_effects d l).
  { intros d sl l HE. rewrite !named_is. apply filter_ext. intros a. rewrite (has_key_ext _ _ (proj2 (HE l))). reflexivity. }
  assert (O1 : forall sl covs pre k, enumerates sl -> candidate covs pre k "intercept" ->
     (if in_dec string_dec "intercept" (sl (given_names covs k ++ given_names pre k)) then [1] else []) = [1]).
  { intros sl covs pre k HE HC. destruct (in_dec string_dec "intercept" (sl (given_names covs k ++ given_names pre k))) as [C|C]; [reflexivity|].
    exfalso. apply C. apply (proj2 (HE _)). apply in_or_app. exact HC. }
  split; [|split].
  - intros argsort solve calls_of sl d t v g covs pre folder name sf sr HE HI run fe H.
    destruct (selection_is_best_lemma _ _ _ _ _ _ _ _ _ _ _ _ _ _ H) as (pr & models & co & Hp & Hm & (i & m & s & Hi & [[lg Hr] _] & _) & Es & Er).
    pose proof (get_model_grid _ _ _ Hm) as HG. apply nth_error_In in Hi. rewrite Forall_forall in HG. specialize (HG _ Hi).
    destruct (grid_lengths _ _ _ _ _ _ _ HG Hr) as (L1 & L2 & _).
    destruct (from_dataframe_selects_lemma _ _ _ _ _ _ _ _ _ Hp) as (_ & _ & Q1 & _ & idx & P & _ & P2 & _).
    rewrite (O1 sl covs pre _ HE HI) in Q1, P2. rewrite (NE _ _ _ HE) in Q1, P2, Es. fold fe in Q1, P2, Es.
    cbn [app length] in Q1. rewrite map_length in Q1. rewrite Q1 in L1.
    destruct (co_beta co) as [|b0 b] eqn:EB; [discriminate|]. cbn [length] in L1. injection L1 as L1.
    exists pr, m, co, lg, idx, b0, b. split; [exact Hr|]. split; [exact EB|]. split; [exact L1|]. split; [exact P|]. split; [exact P2|].
    rewrite Es. apply RR. exact L1.
  - intros argsort solve calls_of sl d t v g covs pre folder name sf sr HE HI run re H.
    destruct (selection_is_best_lemma _ _ _ _ _ _ _ _ _ _ _ _ _ _ H) as (pr & models & co & Hp & Hm & (i & m & s & Hi & [[lg Hr] _] & _) & Es & Er).
    pose proof (get_model_grid _ _ _ Hm) as HG. apply nth_error_In in Hi. rewrite Forall_forall in HG. specialize (HG _ Hi).
    destruct (grid_lengths _ _ _ _ _ _ _ HG Hr) as (L1 & L2 & _).
    destruct (from_dataframe_selects_lemma _ _ _ _ _ _ _ _ _ Hp) as (_ & _ & _ & Q2 & idx & P & _ & _ & P3 & _).
    rewrite (O1 sl covs pre _ HE HI) in Q2, P3. rewrite (NE _ _ _ HE) in Q2, P3, Er. fold re in Q2, P3, Er.
    cbn [app length] in Q2. rewrite map_length in Q2. rewrite Q2 in L2.
    destruct (co_gamma co) as [|b0 b] eqn:EB; [discriminate|]. cbn [length] in L2. injection L2 as L2.
    exists pr, m, co, lg, idx, b0, b. split; [exact Hr|]. split; [exact EB|]. split; [exact L2|]. split; [exact P|]. split; [exact P3|].
    rewrite Er. apply RR. exact L2.
  - intros sl HE. rewrite sample_selection by auto.
    change (named_effects sample_frame ["intercept"; "a"]) with ["a"]. cbn [reported].
    destruct (Rle_dec (1 / 100) (Rabs 0)) as [C|]; [rewrite Rabs_R0 in C; lra|]. reflexivity.
Qed.

Lemma nodup_enumerates : enumerates (nodup string_dec).
Proof. intros l. split; [apply NoDup_nodup|]. intros a. apply nodup_In. Qed.
(*@ A sample selection over two columns, whose frame has a zero and a non-zero coefficient: one name each is reported. *)
Lemma ex_selection_lemma :
  enumerates (nodup string_dec) /\
  forall set_list, enumerates set_list -> fst (fst (sample_select ["a"; "b"] ["a"; "b"] set_list)) = Ok (["b"], ["b"]).
Proof.
  split; [apply nodup_enumerates|]. intros sl HE. rewrite sample_selection by auto.
  change (named_effects sample_frame ["a"; "b"]) with ["a"; "b"]. cbn [reported].
  destruct (Rle_dec (1 / 100) (Rabs 0)) as [C|]; [rewrite Rabs_R0 in C; lra|].
  destruct (Rle_dec (1 / 100) (Rabs 1)) as [C|C]; [|rewrite Rabs_R1 in C; lra]. reflexivity.
Qed.
(*@ The hypotheses of selection_returned hold of the sample. *)
Lemma ex_selection_returned_lemma :
  exists pr m, from_dataframe sample_frame ["a"; "b"] ["a"; "b"] "g" "v" "y" [] [] = Ok pr /\
    get_model "L0" pr = Ok [m] /\ exists r, sample_run m pr = Ok r.
Proof.
  destruct (sample_problem ["a"; "b"] ["a"; "b"]) as (pr & H & N1 & N2 & HV & HW); [auto|].
  destruct (sample_fit pr N1 N2 HV HW) as (co & lg & Hr & _). exists pr, sample_model. split; [exact H|]. split; [|eauto].
  unfold get_model. cbv zeta. change (String.eqb "L0" "L0") with true. cbv iota. rewrite N1, N2. reflexivity.
Qed.

(*@ C63 (partial).  The L0 grid consists of the pairs 1 <= q <= p with p below the number of fixed effects
    and q below the number of random effects, each once. *)
Lemma l0_grid_partial_lemma :
  forall P Q, NoDup (l0_grid P Q) /\
  (forall p q, In (p, q) (l0_grid P Q) <-> (1 <= q /\ q <= p /\ p < P /\ q < Q)%nat).
Proof. intros P Q. split; [apply l0_grid_NoDup|apply l0_grid_In]. Qed.

(*@ Two grids. *)
Lemma ex_l0_grid_lemma : l0_grid 3 4 = [(1, 1); (2, 1); (2, 2)]%nat /\ l0_grid 5 1 = [].
Proof. split; reflexivity. Qed.

(*@ C63 (refuted).  The full model is never in the grid.  With fewer than two fixed or two random effects
    the grid is empty, and then the selection ends in an AttributeError. *)
Lemma l0_grid_refuted_lemma :
  (forall P Q p q, (p = P \/ q = Q) -> ~ In (p, q) (l0_grid P Q)) /\
  (forall P Q, l0_grid P Q = [] <-> (P <= 1 \/ Q <= 1)%nat) /\
  (forall run set_list d target variance group covs pre name pr,
   let fixed := set_list (given_names covs "fixed_effects" ++ given_names pre "fixed_effects") in
   let random := set_list (given_names covs "random_effects" ++ given_names pre "random_effects") in
   lists_given (or_empty covs) -> lists_given (or_empty pre) ->
   from_dataframe d fixed random group variance target
     (given_names pre "fixed_effects") (given_names pre "random_effects") = Ok pr ->
   (num_fixed pr <= 1 \/ num_random pr <= 1)%nat -> name = "L0" \/ name = "L0_SR3" ->
   fst (fst (select_covariates run set_list d target variance group covs pre (Ok tt) name)) = Err AttributeError).
Proof.
  split; [|split].
  - intros P Q p q H C. apply l0_grid_In in C. lia.
  - apply l0_grid_empty.
  - intros run sl d t v g covs pre name pr F R Gc Gp Hp HN Hn.
    rewrite (select_eq _ _ _ _ _ _ _ _ _ _ Gc Gp). fold F R. unfold select_lists.
    assert (G : forallb (fun c => has_key c (map fst (df_cols d))) (t :: v :: g :: F ++ R) = true).
    { pose proof Hp as Q. unfold from_dataframe in Q. apply rbind_inv in Q. destruct Q as [u [Q _]]. apply guard_inv in Q.
      rewrite forallb_forall in Q. apply forallb_forall. intros a Ha. apply Q. cbn [In] in Ha. rewrite in_app_iff in Ha.
      rewrite !in_app_iff. cbn [In]. tauto. }
    rewrite G. cbn [guard rbind]. rewrite Hp. cbn [rbind]. apply l0_grid_empty in HN.
    destruct Hn as [-> | ->]; unfold get_model; cbv zeta; rewrite HN; reflexivity.
Qed.

(*@ C64 (partial).  The candidates are the names in either dictionary, whatever order the sets are listed in:
    the selection is the same for all of them.  A name that is not a column is a ValueError. *)
Lemma candidates_merged_partial_lemma :
  (forall run set_list d target variance group covs pre folder name c p,
   enumerates set_list -> lists_given (or_empty covs) -> lists_given (or_empty pre) ->
   let r := select_covariates run set_list d target variance group covs pre folder name in
   c = snd (fst r) -> p = snd r ->
   forall k, k = "fixed_effects" \/ k = "random_effects" ->
     NoDup (get_or_empty c k) /\ (forall a, In a (get_or_empty c k) <-> candidate covs pre k a) /\
     get_or_empty p k = given_names pre k) /\
  (forall run s1 s2 d target variance group covs pre folder name,
   enumerates s1 -> enumerates s2 ->
   fst (fst (select_covariates run s1 d target variance group covs pre folder name)) =
   fst (fst (select_covariates run s2 d target variance group covs pre folder name))) /\
  (forall run set_list d target variance group covs pre folder name a,
   enumerates set_list -> lists_given (or_empty covs) -> lists_given (or_empty pre) ->
   candidate covs pre "fixed_effects" a \/ candidate covs pre "random_effects" a \/ In a [target; variance; group] ->
   ~ In a (map fst (df_cols d)) ->
   fst (fst (select_covariates run set_list d target variance group covs pre folder name)) = Err ValueError).
Proof.
  split; [|split].
  - intros run sl d t v g covs pre folder name c p HE Gc Gp r -> -> k Hk.
    destruct (merge_total sl _ _ Gc Gp) as (c & p & H). unfold r, select_covariates. rewrite H. cbn [fst snd].
    destruct (merge_given _ _ _ _ _ H) as (_ & Q). destruct (Q k Hk) as [Q1 Q2]. unfold get_or_empty at 1 2. rewrite Q1.
    destruct (HE (get_or_empty (or_empty covs) k ++ get_or_empty (or_empty pre) k)) as [N E].
    split; [exact N|]. split; [|exact Q2]. intros a. rewrite E. apply in_app_iff.
  - intros run s1 s2 d t v g covs pre folder name H1 H2.
    destruct (merge_keys s1 ["fixed_effects"; "random_effects"] (or_empty covs) (or_empty pre)) as [[c p] [[]|e]] eqn:M1.
    + destruct (merge_given _ _ _ _ _ M1) as ((Gc & Gp) & _). rewrite !(select_eq _ _ _ _ _ _ _ _ _ _ Gc Gp).
      assert (S : forall l a, In a (s1 l) <-> In a (s2 l)).
      { intros l a. rewrite (proj2 (H1 l)), (proj2 (H2 l)). reflexivity. }
      unfold select_lists. rewrite (from_dataframe_set d _ _ _ _ g v t (given_names pre "fixed_effects") (given_names pre "random_effects")
        (S (given_names covs "fixed_effects" ++ given_names pre "fixed_effects")) (S (given_names covs "random_effects" ++ given_names pre "random_effects"))).
      f_equal. f_equal. apply forallb_set. intros a. cbn [In]. rewrite !in_app_iff, !S. reflexivity.
    + unfold select_covariates. rewrite M1. cbn [rbind fst].
      destruct (merge_keys s2 ["fixed_effects"; "random_effects"] (or_empty covs) (or_empty pre)) as [[c2 p2] [[]|e2]] eqn:M2.
      * exfalso. destruct (merge_given _ _ _ _ _ M2) as ((Gc & Gp) & _). destruct (merge_total s1 _ _ Gc Gp) as (c' & p' & E). congruence.
      * cbn [rbind fst]. f_equal.
        assert (K : forall sl c p e, merge_keys sl ["fixed_effects"; "random_effects"] (or_empty covs) (or_empty pre) = (c, p, Err e) -> e = KeyError).
        { clear. intros sl c p e. cbn [merge_keys]. unfold getitem.
          repeat match goal with |- context [match lookup ?k ?l with _ => _ end] => destruct (lookup k l)
                 | |- context [if ?b then _ else _] => destruct b end; cbv iota beta; intros H; try congruence. }
        rewrite (K _ _ _ _ M1), (K _ _ _ _ M2). reflexivity.
  - intros run sl d t v g covs pre folder name a HE Gc Gp HC HN. rewrite (select_eq _ _ _ _ _ _ _ _ _ _ Gc Gp). unfold select_lists.
    match goal with |- rbind (guard (forallb ?f ?l) _) _ = _ => assert (G : forallb f l = false) end.
    { apply not_true_iff_false. intros C. rewrite forallb_forall in C. apply HN. apply has_key_In. apply C. cbn [In].
      rewrite in_app_iff, !(proj2 (HE _)), !in_app_iff. unfold candidate in HC. cbn [In] in HC. tauto. }
    rewrite G. reflexivity.
Qed.

(*@ C64 (partial).  When an intercept is among the fixed candidates, the pre-selected fixed effects and only
    these are exempt from the penalty: their weights are 0, the others 1. *)
Lemma preselected_exempt_partial_lemma :
  forall set_list d target variance group covs pre pr,
  let fixed := set_list (given_names covs "fixed_effects" ++ given_names pre "fixed_effects") in
  let random := set_list (given_names covs "random_effects" ++ given_names pre "random_effects") in
  let nf := given_names pre "fixed_effects" in
  let nr := given_names pre "random_effects" in
  enumerates set_list ->
  from_dataframe d fixed random group variance target nf nr = Ok pr ->
  (candidate covs pre "fixed_effects" "intercept" ->
   pr_fe_weights pr = Some (documented_weights nf ("intercept" :: named_effects d fixed)) /\
   length (documented_weights nf ("intercept" :: named_effects d fixed)) = num_fixed pr) /\
  (candidate covs pre "random_effects" "intercept" -> (In "intercept" nf <-> In "intercept" nr) ->
   pr_re_weights pr = Some (documented_weights nr ("intercept" :: named_effects d random)) /\
   length (documented_weights nr ("intercept" :: named_effects d random)) = num_random pr).
Proof.
  intros sl d t v g covs pre pr F R nf nr HE H.
  destruct (from_dataframe_weights _ _ _ _ _ _ _ _ _ H) as (W1 & _ & W2 & _).
  destruct (from_dataframe_selects_lemma _ _ _ _ _ _ _ _ _ H) as (_ & _ & Q1 & Q2 & _).
  assert (I : forall k, candidate covs pre k "intercept" -> In "intercept" (sl (given_names covs k ++ given_names pre k))).
  { intros k Hk. apply (proj2 (HE _)). apply in_or_app. exact Hk. }
  split.
  - intros HC. apply I in HC. fold F in HC. specialize (W1 (or_intror HC)).
    destruct (in_dec string_dec "intercept" F) as [J|]; [|contradiction]. split; [exact W1|].
    unfold documented_weights. rewrite map_length. cbn [length]. rewrite Q1. cbn [app length]. rewrite map_length. reflexivity.
  - intros HC HI. apply I in HC. fold R in HC. specialize (W2 (or_intror (conj HC HI))).
    destruct (in_dec string_dec "intercept" R) as [J|]; [|contradiction]. split; [exact W2|].
    unfold documented_weights. rewrite map_length. cbn [length]. rewrite Q2. cbn [app length]. rewrite map_length. reflexivity.
Qed.

Lemma preselected_problem fixed nf : (fixed = ["intercept"; "a"] /\ nf = ["intercept"]) \/ (fixed = ["a"] /\ nf = ["a"]) ->
  exists pr, from_dataframe sample_frame fixed ["a"] "g" "v" "y" nf [] = Ok pr.
Proof.
  intros HC. unfold from_dataframe. cbn [sample_frame df_cols df_n].
  assert (E2 : effect_label fixed ["a"] "a" = "fixed+random") by (destruct HC as [[-> ->]|[-> ->]]; reflexivity).
  match goal with |- context [guard ?b ValueError] => assert (G : b = true) by (destruct HC as [[-> ->]|[-> ->]]; reflexivity); rewrite G; clear G end.
  cbn [guard rbind].
  match goal with |- context [guard ?b ValueError] => assert (G : b = true) by (destruct HC as [[-> ->]|[-> ->]]; reflexivity); rewrite G; clear G end.
  cbn [guard rbind].
  match goal with |- context [guard ?b ValueError] => assert (G : b = true) by (destruct HC as [[-> ->]|[-> ->]]; reflexivity); rewrite G; clear G end.
  cbn [guard rbind].
  match goal with |- context [filter (kept_effect fixed ["a"]) ?l] =>
    assert (E1 : filter (kept_effect fixed ["a"]) l = ["a"]) by (destruct HC as [[-> ->]|[-> ->]]; reflexivity) end.
  rewrite E1. cbn [app map]. rewrite E2.
  change (df_col _ "g") with (@Ok vec [1; 0]). change (df_col _ "a") with (@Ok vec [5; 6]).
  change (df_col _ "v") with (@Ok vec [1; 1]). change (df_col _ "y") with (@Ok vec [10; 20]). cbn [sequence rbind].
  match goal with |- exists pr, from_x_y ?x ?y (Some ?cs) (Some ?ls) ?ff ?fr ?mf ?mr = Ok pr =>
    assert (W : wf_table x) by (repeat constructor);
    destruct (proj2 (from_x_y_accepts_iff_lemma x y ls ff fr W)) as [pr0 H0] end.
  - split; [split; [discriminate|reflexivity]|]. split; [|split; [reflexivity|split]].
    + split; [apply known_label_spec; reflexivity|split; reflexivity].
    + repeat constructor; unfold variance_of; simpl; lra.
    + constructor; [exists 1%Z; reflexivity|constructor; [exists 0%Z; reflexivity|constructor]].
  - eapply from_x_y_accepts_names_lemma; [exact H0|reflexivity|right; right; discriminate].
Qed.
(*@ Tables with pre-selected names, with and without an intercept, are accepted. *)
Lemma ex_preselected_lemma :
  (exists pr, from_dataframe sample_frame ["intercept"; "a"] ["a"] "g" "v" "y" ["intercept"] [] = Ok pr) /\
  (exists pr, from_dataframe sample_frame ["a"] ["a"] "g" "v" "y" ["a"] [] = Ok pr).
Proof. split; apply preselected_problem; auto. Qed.

Lemma prox_weights_fit argsort m ov w r0 r y s x : model_reg m ov = Ok r0 ->
  instantiate r0 w (Some ov) = Ok r -> prox argsort r y s = Ok x ->
  (exists l, mo_penalty m = PenL1 l) \/ (exists l rho, mo_penalty m = PenCAD l rho) \/ (exists l rho sg, mo_penalty m = PenSCAD l rho sg) ->
  (length w <= ov_p ov + ov_q ov)%nat.
Proof.
  intros H HI HP HK. destruct (model_prox_len _ _ _ _ _ _ _ _ _ H HI HP) as [Ly _].
  destruct (model_reg_shape _ _ _ _ _ H HI) as (pen & pen' & Hr & Hi & ->).
  cbn [prox] in HP. bind_inv HP. guard_inv E L. injection E as <-. guard_inv HP D.
  set (z := map (fun xi => xi / (1 + s * mo_eps m)) (mask_map (gamma_mask ov) clip0 y)) in *.
  assert (Lz : length z = (ov_p ov + ov_q ov)%nat).
  { unfold z. rewrite map_length, mask_map_length. exact Ly. }
  rewrite <- Lz. destruct HK as [[l K]|[[l [rho K]]|[l [rho [sg K]]]]]; rewrite K in Hr; cbn [penalty_reg] in Hr.
  - injection Hr as <-. injection Hi as <-. cbn [prox] in HP. unfold l1_prox in HP. guard_inv HP G. apply Nat.eqb_eq in G. lia.
  - injection Hr as <-. injection Hi as <-. cbn [prox] in HP. unfold cad_prox in HP. guard_inv HP G. apply Nat.eqb_eq in G. lia.
  - unfold mk_scad in Hr. guard_inv Hr G0. injection Hr as <-. injection Hi as <-. cbn [prox] in HP.
    assert (SL : forall rho sg l a w x z, scad_prox_loop rho sg l a w x = Ok z -> (length w <= length x)%nat).
    { clear. induction w as [|wi w IH]; intros [|xi x] z H; cbn [scad_prox_loop] in H; try discriminate; cbn [length]; try lia.
      apply rbind_inv in H. destruct H as [b [_ H]]. apply rbind_inv in H. destruct H as [c [H _]]. apply IH in H. lia. }
    eapply SL. exact HP.
Qed.

(*@ C64 (refuted).  With pre-selected fixed effects but no fixed intercept the weights are shifted by one
    place and there is one too many: the weight of a column is that of the column before it, and the
    candidates of the L1, CAD and SCAD grids cannot be fitted, so that no selection is ever returned. *)
Lemma preselected_exempt_refuted_lemma :
  (forall set_list d target variance group covs pre pr,
   let fixed := set_list (given_names covs "fixed_effects" ++ given_names pre "fixed_effects") in
   let random := set_list (given_names covs "random_effects" ++ given_names pre "random_effects") in
   let nf := given_names pre "fixed_effects" in
   enumerates set_list -> nf <> [] -> ~ candidate covs pre "fixed_effects" "intercept" ->
   from_dataframe d fixed random group variance target nf (given_names pre "random_effects") = Ok pr ->
   pr_fe_weights pr = Some (1 :: documented_weights nf (named_effects d fixed)) /\
   length (named_effects d fixed) = num_fixed pr) /\
  (forall argsort solve calls_of set_list d target variance group covs pre folder name r,
   let run := new_fit argsort solve calls_of in
   enumerates set_list -> given_names pre "fixed_effects" <> [] ->
   ~ candidate covs pre "fixed_effects" "intercept" ->
   (exists a, candidate covs pre "random_effects" a) ->
   name <> "L0" -> name <> "L0_SR3" ->
   fst (fst (select_covariates run set_list d target variance group covs pre folder name)) <> Ok r).
Proof.
  assert (A : forall set_list d target variance group covs pre pr,
   let fixed := set_list (given_names covs "fixed_effects" ++ given_names pre "fixed_effects") in
   let random := set_list (given_names covs "random_effects" ++ given_names pre "random_effects") in
   let nf := given_names pre "fixed_effects" in
   enumerates set_list -> nf <> [] -> ~ candidate covs pre "fixed_effects" "intercept" ->
   from_dataframe d fixed random group variance target nf (given_names pre "random_effects") = Ok pr ->
   pr_fe_weights pr = Some (1 :: documented_weights nf (named_effects d fixed)) /\
   length (named_effects d fixed) = num_fixed pr).
  { intros sl d t v g covs pre pr F R nf HE Hne HC H.
    assert (HI : ~ In "intercept" F).
    { intros C. apply HC. unfold F in C. rewrite (proj2 (HE _)) in C. apply in_app_or in C. exact C. }
    destruct (from_dataframe_weights _ _ _ _ _ _ _ _ _ H) as (_ & W1 & _).
    destruct (from_dataframe_selects_lemma _ _ _ _ _ _ _ _ _ H) as (_ & _ & Q1 & _).
    split; [exact (W1 Hne HI)|]. rewrite Q1. destruct (in_dec string_dec "intercept" F); [contradiction|]. cbn [app]. rewrite map_length. reflexivity. }
  split; [exact A|].
  intros argsort solve calls_of sl d t v g covs pre folder name [sf sr] run HE Hne HC HR N1 N2 H.
  destruct (selection_is_best_lemma _ _ _ _ _ _ _ _ _ _ _ _ _ _ H) as (pr & models & co & Hp & Hm & (i & m & s & Hi & [[lg Hr] _] & _) & Es & Er).
  pose proof (get_model_grid _ _ _ Hm) as HG. apply nth_error_In in Hi. rewrite Forall_forall in HG. specialize (HG _ Hi).
  destruct (A _ _ _ _ _ _ _ _ HE Hne HC Hp) as [W L].
  destruct (from_dataframe_weights _ _ _ _ _ _ _ _ _ Hp) as (_ & _ & _ & wr & Wr & Lr).
  assert (PF : (0 < num_fixed pr)%nat).
  { rewrite <- L. destruct (given_names pre "fixed_effects") as [|a l] eqn:En; [congruence|].
    assert (Ia : In a (named_effects d (sl (given_names covs "fixed_effects" ++ a :: l)))).
    { assert (Ha : In a (sl (given_names covs "fixed_effects" ++ a :: l))) by (apply (proj2 (HE _)); apply in_or_app; right; left; reflexivity).
      rewrite named_is. apply filter_In. split.
      - pose proof Hp as Q. unfold from_dataframe in Q. apply rbind_inv in Q. destruct Q as [u [Q _]]. apply guard_inv in Q.
        rewrite forallb_forall in Q. apply has_key_In. apply Q. apply in_or_app. left. exact Ha.
      - apply andb_true_iff. split; [apply has_key_In; exact Ha|]. apply negb_true_iff. apply String.eqb_neq. intros ->.
        apply HC. right. rewrite En. left. reflexivity. }
    destruct (named_effects d (sl (given_names covs "fixed_effects" ++ a :: l))); [destruct Ia|cbn; lia]. }
  destruct (grid_lengths _ _ _ _ _ _ _ HG Hr) as (_ & _ & [Z|(ov & wf & wr' & r0 & rg & y & st & x & Hov & Hw & Hr0 & Hrg & Hpx)]); [lia|].
  unfold fit_weights, default_weights in Hw. rewrite W, Wr in Hw. cbn [rbind] in Hw. injection Hw as <- <-.
  destruct (oracle_viewE _ _ Hov) as [Ep Eq].
  assert (LW : (length ((1%R :: documented_weights (given_names pre "fixed_effects")
     (named_effects d (sl (given_names covs "fixed_effects" ++ given_names pre "fixed_effects")))) ++ wr) <= ov_p ov + ov_q ov)%nat).
  { eapply (prox_weights_fit argsort m ov _ r0 rg y st x); [exact Hr0|exact Hrg|exact Hpx|].
    clear - Hm Hi N1 N2. unfold get_model in Hm. cbv zeta in Hm. apply String.eqb_neq in N1, N2. rewrite N1, N2 in Hm.
    repeat (match type of Hm with context [String.eqb name ?k] => destruct (String.eqb name k) end; cbv iota in Hm;
      [apply Ok_inj in Hm; subst models; apply in_map_iff in Hi; destruct Hi as [z [<- _]]; cbn; eauto 6|]).
    discriminate. }
  rewrite Ep, Eq in LW. rewrite app_length in LW. cbn [length] in LW. unfold documented_weights in LW. rewrite map_length in LW. lia.
Qed.

(*@ C64 (refuted).  The caller's dictionary of candidates is changed: afterwards it also holds the
    pre-selected names; empty lists are added to a defaultdict of pre-selected names, and a plain dictionary
    without one of the two keys is a KeyError. *)
Lemma dictionaries_refuted_lemma :
  forall run set_list d target variance group folder name, enumerates set_list ->
  (let covs := {| cd_default := false; cd_items := [("fixed_effects", ["a"]); ("random_effects", [])] |} in
   let pre := {| cd_default := false; cd_items := [("fixed_effects", ["b"]); ("random_effects", [])] |} in
   let covs' := snd (fst (select_covariates run set_list d target variance group (Some covs) (Some pre) folder name)) in
   covs' <> covs /\ In "b" (get_or_empty covs' "fixed_effects")) /\
  (forall covs, lists_given (or_empty covs) ->
   snd (select_covariates run set_list d target variance group covs (Some empty_covs) folder name) =
   {| cd_default := true; cd_items := [("fixed_effects", []); ("random_effects", [])] |}) /\
  (forall covs pre k, (k = "fixed_effects" \/ k = "random_effects") ->
   cd_default covs = false -> lookup k (cd_items covs) = None ->
   fst (fst (select_covariates run set_list d target variance group (Some covs) pre folder name)) = Err KeyError).
Proof.
  intros run sl d t v g folder name HE. split; [|split].
  - intros covs pre covs'.
    assert (I : In "b" (get_or_empty covs' "fixed_effects")).
    { destruct (candidates_merged_partial_lemma) as [Q _].
      assert (Gc : lists_given (or_empty (Some covs))) by (right; split; eexists; reflexivity).
      assert (Gp : lists_given (or_empty (Some pre))) by (right; split; eexists; reflexivity).
      destruct (Q run sl d t v g (Some covs) (Some pre) folder name covs' _ HE Gc Gp eq_refl eq_refl "fixed_effects" (or_introl eq_refl))
        as (_ & Q2 & _).
      apply Q2. right. left. reflexivity. }
    split; [|exact I]. intros C. rewrite C in I. cbn in I. destruct I as [I|[]]. discriminate I.
  - intros covs Gc. destruct (merge_total sl (or_empty covs) empty_covs Gc (or_introl eq_refl)) as (c & p & M).
    unfold select_covariates. change (or_empty (Some empty_covs)) with empty_covs. rewrite M. cbn [snd]. cbn [merge_keys] in M.
    destruct (getitem (or_empty covs) "fixed_effects") as [[a c1]|]; [|discriminate].
    change (getitem empty_covs "fixed_effects") with (@Ok (list string * covs_dict) ([], {| cd_default := true; cd_items := [("fixed_effects", [])] |})) in M.
    cbv iota beta in M.
    destruct (getitem (setitem c1 "fixed_effects" (sl (a ++ []))) "random_effects") as [[a' c3]|]; [|discriminate].
    cbn [getitem cd_items cd_default lookup dict_set String.eqb Ascii.eqb Bool.eqb] in M. injection M as _ <-. reflexivity.
  - intros covs pre k Hk HD HN.
    destruct (merge_keys sl ["fixed_effects"; "random_effects"] covs (or_empty pre)) as [[c p] [[]|e]] eqn:M.
    + exfalso. destruct (merge_given _ _ _ _ _ M) as ((Gc & _) & _). destruct (lists_one _ _ Gc Hk) as [C|[l C]]; congruence.
    + unfold select_covariates. cbn [or_empty]. rewrite M. cbn [rbind fst]. f_equal.
      revert M. cbn [merge_keys]. unfold getitem.
      repeat match goal with |- context [match lookup ?k ?l with _ => _ end] => destruct (lookup k l)
                 | |- context [if ?b then _ else _] => destruct b end; cbv iota beta; intros H; try congruence.
Qed.
