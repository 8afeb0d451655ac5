(** Facts about select_covariates. *)
From Coq Require Import Lra Psatz String.
From Verif.Base Require Import Py Vec Mat.
From Verif.Model Require Import LmeProblem Regularizers Solvers LmeInner LmeFit LmeSelect.
From Verif.Spec Require Import ProxSpec RegSpec SolverSpec LmeSpec InnerSpec FitSpec SelectSpec.
From Verif.Proofs Require Import VecFacts RegularizerProofs SolverProofs SolversMain LinearProofs LmeProblemProofs LmeProblemMain
  MatFacts LmeDataMain FitProofs.
Open Scope string_scope.
Open Scope list_scope.
Open Scope R_scope.

(** ** names *)
Lemma selected_reported ns : forall cs, map fst (filter (fun nc => large (snd nc)) (combine ns cs)) = reported ns cs.
Proof.
  induction ns as [|n ns IH]; intros [|c cs]; try reflexivity. cbn [combine filter reported snd].
  unfold large at 1. unfold rleb. destruct (Rle_dec (1 / 100) (Rabs c)); cbn [map fst]; rewrite <- IH; reflexivity.
Qed.

(** ** the dictionaries *)
Lemma getitem_given d k l d' : getitem d k = Ok (l, d') -> l = get_or_empty d k /\
  cd_default d' = cd_default d /\
  (forall k', get_or_empty d' k' = get_or_empty d k') /\
  (forall k' l', lookup k' (cd_items d) = Some l' -> lookup k' (cd_items d') = Some l').
Proof.
  unfold getitem, get_or_empty. destruct (lookup k (cd_items d)) as [l0|] eqn:E.
  - intros H. injection H as <- <-. auto.
  - destruct (cd_default d) eqn:D; [|discriminate]. intros H. injection H as <- <-. split; [reflexivity|]. split; [auto|].
    cbn [cd_items]. split.
    + intros k'. rewrite lookup_set. destruct (String.eqb_spec k' k) as [->|]; [rewrite E; reflexivity|reflexivity].
    + intros k' l' Hl. rewrite lookup_set. destruct (String.eqb_spec k' k) as [->|]; [congruence|exact Hl].
Qed.
Lemma getitem_ok d k : cd_default d = true \/ (exists l, lookup k (cd_items d) = Some l) -> exists r, getitem d k = Ok r.
Proof.
  unfold getitem. intros [H|[l H]].
  - destruct (lookup k (cd_items d)); [eauto|]. rewrite H. eauto.
  - rewrite H. eauto.
Qed.
Lemma setitem_lookup d k l k' : lookup k' (cd_items (setitem d k l)) = if String.eqb k' k then Some l else lookup k' (cd_items d).
Proof. apply lookup_set. Qed.

(** what the loop over the two keys leaves *)
Lemma merge_given sl covs pre c p : merge_keys sl ["fixed_effects"; "random_effects"] covs pre = (c, p, Ok tt) ->
  (lists_given covs /\ lists_given pre) /\
  (forall k, k = "fixed_effects" \/ k = "random_effects" ->
     lookup k (cd_items c) = Some (sl (get_or_empty covs k ++ get_or_empty pre k)) /\
     get_or_empty p k = get_or_empty pre k).
Proof.
  intros H. cbn [merge_keys] in H.
  destruct (getitem covs "fixed_effects") as [[a c1]|] eqn:E1; [|discriminate].
  destruct (getitem pre "fixed_effects") as [[b p1]|] eqn:E2; [|discriminate].
  set (c2 := setitem c1 "fixed_effects" (sl (a ++ b))) in *.
  destruct (getitem c2 "random_effects") as [[a' c3]|] eqn:E3; [|discriminate].
  destruct (getitem p1 "random_effects") as [[b' p2]|] eqn:E4; [|discriminate].
  injection H as <- <-.
  destruct (getitem_given _ _ _ _ E1) as (A1 & A2 & A3 & A4). destruct (getitem_given _ _ _ _ E2) as (B1 & B2 & B3 & B4).
  destruct (getitem_given _ _ _ _ E3) as (C1 & C2 & C3 & C4). destruct (getitem_given _ _ _ _ E4) as (D1 & D2 & D3 & D4).
  assert (R2 : get_or_empty c2 "random_effects" = get_or_empty covs "random_effects").
  { unfold get_or_empty. unfold c2. rewrite setitem_lookup. cbn [String.eqb Ascii.eqb Bool.eqb].
    pose proof (A3 "random_effects") as Q. unfold get_or_empty in Q. exact Q. }
  split; [split|].
  - unfold lists_given. unfold getitem in E1, E3. destruct (cd_default covs) eqn:D; [left; reflexivity|right].
    destruct (lookup "fixed_effects" (cd_items covs)) as [l|] eqn:L; [|discriminate]. injection E1 as <- <-. split; [eauto|].
    unfold c2 in E3. rewrite setitem_lookup in E3. cbn [String.eqb Ascii.eqb Bool.eqb setitem cd_default] in E3.
    destruct (lookup "random_effects" (cd_items covs)) as [l'|]; [eauto|]. rewrite D in E3. discriminate.
  - unfold lists_given. unfold getitem in E2, E4. destruct (cd_default pre) eqn:D; [left; reflexivity|right].
    destruct (lookup "fixed_effects" (cd_items pre)) as [l|] eqn:L; [|discriminate]. injection E2 as <- <-. split; [eauto|].
    destruct (lookup "random_effects" (cd_items pre)) as [l'|]; [eauto|]. rewrite D in E4. discriminate.
  - intros k Hk. split; [|rewrite D3, B3; reflexivity]. rewrite setitem_lookup.
    destruct Hk as [-> | ->]; cbn [String.eqb Ascii.eqb Bool.eqb].
    + apply C4. unfold c2. rewrite setitem_lookup. cbn [String.eqb Ascii.eqb Bool.eqb]. rewrite A1, B1. reflexivity.
    + rewrite C1, D1, R2, B3. reflexivity.
Qed.
Lemma lists_one d k : lists_given d -> k = "fixed_effects" \/ k = "random_effects" ->
  cd_default d = true \/ (exists l, lookup k (cd_items d) = Some l).
Proof. intros [H|[H1 H2]] Hk; [left; auto|right]. destruct Hk as [-> | ->]; auto. Qed.
Lemma merge_total sl covs pre : lists_given covs -> lists_given pre ->
  exists c p, merge_keys sl ["fixed_effects"; "random_effects"] covs pre = (c, p, Ok tt).
Proof.
  intros Hc Hp. cbn [merge_keys].
  destruct (getitem_ok covs "fixed_effects" (lists_one _ _ Hc (or_introl eq_refl))) as [[a c1] E1]. rewrite E1.
  destruct (getitem_ok pre "fixed_effects" (lists_one _ _ Hp (or_introl eq_refl))) as [[b p1] E2]. rewrite E2.
  destruct (getitem_given _ _ _ _ E1) as (A1 & A2 & A3 & A4). destruct (getitem_given _ _ _ _ E2) as (B1 & B2 & B3 & B4).
  set (c2 := setitem c1 "fixed_effects" (sl (a ++ b))).
  destruct (getitem_ok c2 "random_effects") as [[a' c3] E3].
  { destruct (lists_one _ "random_effects" Hc (or_intror eq_refl)) as [H|[l H]].
    - left. unfold c2. cbn [setitem cd_default]. congruence.
    - right. exists l. unfold c2. rewrite setitem_lookup. cbn [String.eqb Ascii.eqb Bool.eqb]. auto. }
  rewrite E3.
  destruct (getitem_ok p1 "random_effects") as [[b' p2] E4].
  { destruct (lists_one _ "random_effects" Hp (or_intror eq_refl)) as [H|[l H]]; [left; congruence|right; eauto]. }
  rewrite E4. eauto.
Qed.

(** the selection as a function of the four lists of names *)
Definition select_lists (run : lme_model -> lme_problem -> res (lme_coef * logger)) (d : dataframe)
    (target variance group : string) (F R NF NR : list string) (folder : res unit) (name : string)
  : res (list string * list string) :=
  let! _ := guard (forallb (fun c => has_key c (map fst (df_cols d))) (target :: variance :: group :: F ++ R)) ValueError in
  let! _ := folder in
  let! pr := from_dataframe d F R group variance target NF NR in
  let! models := get_model name pr in
  let! best := search run pr models None None in
  match best with
  | None => Err AttributeError
  | Some co =>
      let! sf := selected (pr_fe_columns pr) (co_beta co) in
      let! sr := selected (pr_re_columns pr) (co_gamma co) in
      Ok (sf, sr)
  end.

Lemma select_merged_lists run d t v g c p folder name F R NF NR :
  lookup "fixed_effects" (cd_items c) = Some F -> lookup "random_effects" (cd_items c) = Some R ->
  get_or_empty p "fixed_effects" = NF -> get_or_empty p "random_effects" = NR ->
  select_merged run d t v g c p folder name = select_lists run d t v g F R NF NR folder name.
Proof.
  intros H1 H2 H3 H4. unfold select_merged, getitem. rewrite H1. cbn [rbind]. rewrite H2. cbn [rbind].
  unfold get_or_empty at 1 2. rewrite H1, H2, H3, H4. reflexivity.
Qed.

Lemma select_eq run sl d t v g covs pre folder name : lists_given (or_empty covs) -> lists_given (or_empty pre) ->
  fst (fst (select_covariates run sl d t v g covs pre folder name)) =
  select_lists run d t v g (sl (given_names covs "fixed_effects" ++ given_names pre "fixed_effects"))
    (sl (given_names covs "random_effects" ++ given_names pre "random_effects"))
    (given_names pre "fixed_effects") (given_names pre "random_effects") folder name.
Proof.
  intros Hc Hp. destruct (merge_total sl _ _ Hc Hp) as (c & p & H). unfold select_covariates. rewrite H. cbn [rbind fst].
  destruct (merge_given _ _ _ _ _ H) as (_ & Q).
  destruct (Q "fixed_effects" (or_introl eq_refl)) as [Q1 Q2]. destruct (Q "random_effects" (or_intror eq_refl)) as [Q3 Q4].
  apply select_merged_lists; assumption.
Qed.
Lemma select_ok_given run sl d t v g covs pre folder name r :
  fst (fst (select_covariates run sl d t v g covs pre folder name)) = Ok r ->
  lists_given (or_empty covs) /\ lists_given (or_empty pre).
Proof.
  unfold select_covariates.
  destruct (merge_keys sl ["fixed_effects"; "random_effects"] (or_empty covs) (or_empty pre)) as [[c p] [[]|e]] eqn:H; cbn [rbind fst].
  - intros _. apply (merge_given _ _ _ _ _ H).
  - discriminate.
Qed.

(** ** the candidates of the grid *)
Definition grid_model (m : lme_model) : Prop :=
  mo_keys m = keys_of_selection /\ mo_tol m = 1 / 10 ^ 5 /\ mo_prior m = None /\ mo_initializer m = "None" /\
  uses_pgd m /\ sensible m /\ (0 < mo_max_iter m)%Z.
Lemma plain_grid pen : penalty_ok pen -> grid_model (plain_candidate pen).
Proof.
  intros H. unfold grid_model, plain_candidate. cbn. repeat (split; [reflexivity|]).
  split; [intros ss C; discriminate C|]. split; [|lia].
  split; [exact H|]. split; [cbn; lra|]. split; intros s C; discriminate C.
Qed.
Lemma sr3_grid pen limit : penalty_ok pen -> (0 < limit)%Z -> grid_model (sr3_candidate pen limit).
Proof.
  intros H HL. unfold grid_model, sr3_candidate. cbn. repeat (split; [reflexivity|]).
  split; [intros ss C; injection C as <-; reflexivity|]. split; [|lia].
  split; [exact H|]. split; [cbn; lra|]. split; intros s C; [discriminate C|]. injection C as <-. cbn. lra.
Qed.
Lemma lam_grid_pos lam : In lam lam_grid -> 0 <= lam.
Proof. intros H. apply in_map_iff in H. destruct H as [i [<- _]]. left. apply exp_pos. Qed.
Lemma get_model_grid name pr models : get_model name pr = Ok models -> Forall grid_model models.
Proof.
  unfold get_model. intros H. cbv zeta in H. apply Forall_forall. intros m Hm.
  assert (P : forall lam, In lam lam_grid -> penalty_ok (PenL1 lam) /\ penalty_ok (PenCAD lam (3 / 10)) /\
     penalty_ok (PenSCAD lam (37 / 10) (5 / 10))).
  { intros lam Hl. apply lam_grid_pos in Hl. cbn. lra. }
  do 8 (match type of H with context [String.eqb name ?k] => destruct (String.eqb name k) end; cbv iota in H;
    [apply Ok_inj in H; subst models; apply in_map_iff in Hm; destruct Hm as [z [<- Hz]];
     first [apply plain_grid|apply sr3_grid]; try exact I; try (apply P; exact Hz); lia|]).
  discriminate.
Qed.

(** ** the logged criterion *)
Lemma pgd_keys S (orc : oracle S) rg slv x0 s lg x lg' s' k :
  pgd_optimize orc rg slv x0 s lg = Ok (x, lg', s') -> In k (lg_keys lg) -> In k (lg_keys lg').
Proof.
  unfold pgd_optimize. intros H Hk. apply rbind_inv in H as [st0 [H0 H]].
  apply rbind_inv in H as [st [H1 H]]. apply rbind_inv in H as [lg1 [Ha H]].
  apply rbind_inv in H as [lg2 [Hb H]]. injection H as _ <- _.
  apply log_state_inv in H0 as [_ [_ [_ [E4 _]]]].
  apply pgd_loop_inv in H1 as [path [_ [_ [_ [_ [_ [_ [_ [Q8 _]]]]]]]]].
  destruct (add_lookup _ _ _ _ Ha) as [_ [_ Ka]]. destruct (add_lookup _ _ _ _ Hb) as [_ [_ Kb]].
  assert (I1 : In k (lg_keys lg1)).
  { rewrite Ka. destruct (has_key "converged" (lg_keys (st_logger st))); [|apply in_or_app; left]; rewrite Q8, E4; exact Hk. }
  rewrite Kb. destruct (has_key "iteration" (lg_keys lg1)); [|apply in_or_app; left]; exact I1.
Qed.
Lemma run_solver_keys solve m p q c rg x0 lg x lg' k : uses_pgd m ->
  run_solver solve m p q c rg x0 lg = Ok (x, lg') -> In k (lg_keys lg) -> In k (lg_keys lg').
Proof.
  intros Hu H Hk. unfold run_solver in H. apply rbind_inv in H. destruct H as [step [Hs H]]. unfold uses_pgd in Hu.
  destruct (mo_sr3 m) as [ss|]; [rewrite (Hu ss eq_refl) in H|];
  apply rbind_inv in H; destruct H as [[[x1 lg1] mem1] [H E]]; injection E as <- <-;
  exact (pgd_keys _ _ _ _ _ _ _ _ _ _ _ H Hk).
Qed.
Lemma add_if_inv lg k v lg' : add_if lg k v = Ok lg' ->
  (forall k', In k' (lg_keys lg) -> In k' (lg_keys lg')) /\
  (forall k', k' <> k -> lookup k' (lg_dict lg') = lookup k' (lg_dict lg)) /\
  (In k (lg_keys lg) -> exists a, v = Ok a /\ lookup k (lg_dict lg') = Some (LAtom a)).
Proof.
  unfold add_if. destruct (has_key k (lg_keys lg)) eqn:E; intros H.
  - apply rbind_inv in H. destruct H as [a [Ha H]]. destruct (add_lookup _ _ _ _ H) as [L [_ K]]. rewrite E in K. split; [|split].
    + intros k'. rewrite K. auto.
    + intros k' Hk. rewrite L. apply String.eqb_neq in Hk. rewrite Hk. reflexivity.
    + intros _. exists a. split; [exact Ha|]. rewrite L, String.eqb_refl. reflexivity.
  - injection H as <-. split; [auto|]. split; [auto|]. intros C. apply has_key_In in C. congruence.
Qed.

Section Run.
Variable argsort : vec -> list nat.
Variable solve : mat -> vec -> res vec.
Variable calls_of : lme_problem -> option gauss_lme -> option sr3_settings -> lme_calls.
Notation run := (new_fit argsort solve calls_of).

Lemma grid_score m pr co lg : grid_model m -> run m pr = Ok (co, lg) ->
  exists s, lc_jones (calls_of pr None (mo_sr3 m)) (sqrt (1 / 10 ^ 5)) (co_beta co) (co_gamma co) = Ok s /\
    get lg "jones_bic" = Ok (LAtom (LNum s)).
Proof.
  intros (Hk & Ht & Hp & Hi & Hu & Hs & Hm) H. unfold new_fit in H.
  destruct (fit_problem_inv _ _ _ _ _ _ _ _ _ _ _ _ _ H) as
    (ov & g & wf & wr & r0 & r & bg0 & beta1 & gamma1 & lg0 & x & lg1 & _ & Hg & _ & _ & _ & _ & _ & Hl & Hx & _ & _ & _ & _ & Hc).
  unfold prior_of in Hg. rewrite Hp in Hg. injection Hg as <-.
  rewrite Hk in Hl. injection Hl as <-.
  assert (K : In "jones_bic" (lg_keys lg1)).
  { eapply run_solver_keys; [exact Hu|exact Hx|]. cbn. auto. }
  unfold log_criteria in Hc. apply rbind_inv in Hc. destruct Hc as [l1 [H1 Hc]]. apply rbind_inv in Hc. destruct Hc as [l2 [H2 Hc]].
  apply rbind_inv in Hc. destruct Hc as [l3 [H3 Hc]]. apply rbind_inv in Hc. destruct Hc as [l4 [H4 Hc]].
  destruct (add_if_inv _ _ _ _ H1) as (K1 & _). destruct (add_if_inv _ _ _ _ H2) as (K2 & _).
  destruct (add_if_inv _ _ _ _ H3) as (_ & _ & K3). destruct (add_if_inv _ _ _ _ H4) as (_ & L4 & _).
  destruct (add_if_inv _ _ _ _ Hc) as (_ & L5 & _).
  destruct (K3 (K2 _ (K1 _ K))) as [a [Ha La]].
  assert (T : solver_tol m = 1 / 10 ^ 5).
  { unfold solver_tol. unfold uses_pgd in Hu. destruct (mo_sr3 m) as [ss|]; [rewrite (Hu ss eq_refl)|]; exact Ht. }
  rewrite T in Ha. apply rbind_inv in Ha. destruct Ha as [t [Et Ha]]. apply rbind_inv in Ha. destruct Ha as [s [Es Ha]].
  apply rbind_inv in Et. destruct Et as [u [_ Et]]. injection Et as <-. injection Ha as <-.
  exists s. split; [exact Es|]. unfold get. rewrite L5 by discriminate. rewrite L4 by discriminate. rewrite La. reflexivity.
Qed.

Notation sc pr := (scored run calls_of pr).
(** the state of the loop: the best model so far *)
Lemma search_best pr : forall models best score r, Forall grid_model models ->
  search run pr models best score = Ok r ->
  (r = best /\ forall j m, nth_error models j = Some m -> exists co s, sc pr m co s /\
      exists b, score = Some b /\ b <= s) \/
  exists i m co s, nth_error models i = Some m /\ r = Some co /\ sc pr m co s /\
    (forall b, score = Some b -> s < b) /\
    forall j m', nth_error models j = Some m' -> exists co' s', sc pr m' co' s' /\ s <= s' /\ ((j < i)%nat -> s < s').
Proof.
  induction models as [|m models IH]; intros best score r HG H; cbn [search] in H.
  - injection H as <-. left. split; [reflexivity|]. intros [|j] m C; discriminate C.
  - inversion HG as [|? ? G1 G2]; subst. apply rbind_inv in H. destruct H as [[co lg] [Hr H]].
    destruct (grid_score _ _ _ _ G1 Hr) as (s & Ej & Eg). rewrite Eg in H. cbn [rbind score_of lnum] in H.
    assert (S0 : sc pr m co s) by (split; [exists lg; exact Hr|exact Ej]).
    destruct (below (Some s) score) eqn:B.
    + assert (Hlt : forall b, score = Some b -> s < b).
      { intros b ->. cbn [below] in B. apply rltb_true in B. exact B. }
      destruct (IH _ _ _ G2 H) as [[-> HA] | (i & m' & co' & s' & N & -> & S1 & L & HB)].
      * right. exists 0%nat, m, co, s. split; [reflexivity|]. split; [reflexivity|]. split; [exact S0|]. split; [exact Hlt|].
        intros [|j] m' Hj; cbn [nth_error] in Hj.
        -- injection Hj as <-. exists co, s. split; [exact S0|]. split; [lra|lia].
        -- destruct (HA _ _ Hj) as (co' & s' & S1 & b & E & Hb). injection E as <-. exists co', s'. split; [exact S1|]. split; [exact Hb|lia].
      * right. exists (S i), m', co', s'. split; [exact N|]. split; [reflexivity|]. split; [exact S1|].
        pose proof (L s eq_refl) as Ls. split; [intros b Hb; pose proof (Hlt b Hb); lra|].
        intros [|j] m2 Hj; cbn [nth_error] in Hj.
        -- injection Hj as <-. exists co, s. split; [exact S0|]. split; [lra|intros _; exact Ls].
        -- destruct (HB _ _ Hj) as (co2 & s2 & S2 & A1 & A2). exists co2, s2. split; [exact S2|]. split; [exact A1|]. intros; apply A2; lia.
    + assert (Hge : exists b, score = Some b /\ b <= s).
      { destruct score as [b|]; [|discriminate B]. exists b. split; [reflexivity|]. cbn [below] in B. apply rltb_false in B. exact B. }
      destruct (IH _ _ _ G2 H) as [[-> HA] | (i & m' & co' & s' & N & -> & S1 & L & HB)].
      * left. split; [reflexivity|]. intros [|j] m' Hj; cbn [nth_error] in Hj.
        -- injection Hj as <-. exists co, s. auto.
        -- eauto.
      * right. exists (S i), m', co', s'. split; [exact N|]. split; [reflexivity|]. split; [exact S1|]. split; [exact L|].
        intros [|j] m2 Hj; cbn [nth_error] in Hj.
        -- injection Hj as <-. exists co, s. split; [exact S0|]. destruct Hge as (b & Eb & Hb). pose proof (L b Eb).
           split; [lra|intros _; lra].
        -- destruct (HB _ _ Hj) as (co2 & s2 & S2 & A1 & A2). exists co2, s2. split; [exact S2|]. split; [exact A1|]. intros; apply A2; lia.
Qed.
Lemma search_first pr models co : Forall grid_model models -> search run pr models None None = Ok (Some co) ->
  first_best (sc pr) models co.
Proof.
  intros HG H. destruct (search_best _ _ _ _ _ HG H) as [[C _]|(i & m & co' & s & N & E & S & _ & HB)]; [discriminate C|].
  injection E as <-. exists i, m, s. auto.
Qed.
Lemma search_total pr : forall models best score, Forall grid_model models ->
  Forall (fun m => exists r, run m pr = Ok r) models ->
  exists r, search run pr models best score = Ok r /\ (best <> None \/ (models <> [] /\ score = None) -> r <> None).
Proof.
  induction models as [|m models IH]; intros best score HG HF; cbn [search].
  - exists best. split; [reflexivity|]. intros [H|[H _]]; [exact H|congruence].
  - inversion HG as [|? ? G1 G2]; subst. inversion HF as [|? ? [[co lg] Hr] F2]; subst. rewrite Hr. cbn [rbind].
    destruct (grid_score _ _ _ _ G1 Hr) as (s & Ej & Eg). rewrite Eg. cbn [rbind score_of lnum].
    destruct (below (Some s) score) eqn:B.
    + destruct (IH (Some co) (Some s) G2 F2) as (r & E & Hn). exists r. split; [exact E|]. intros _. apply Hn. left. discriminate.
    + destruct (IH best score G2 F2) as (r & E & Hn). exists r. split; [exact E|]. intros [H|[_ H]].
      * apply Hn. left. exact H.
      * rewrite H in B. discriminate B.
Qed.

(** the coefficients have one entry per column *)
Lemma grid_lengths m pr co lg : grid_model m -> run m pr = Ok (co, lg) ->
  length (co_beta co) = num_fixed pr /\ length (co_gamma co) = num_random pr /\
  ((num_fixed pr + num_random pr = 0)%nat \/
   exists ov wf wr r0 r y s x, oracle_view_of pr = Ok ov /\ fit_weights pr None None = Ok (wf, wr) /\
     model_reg m ov = Ok r0 /\ instantiate r0 (wf ++ wr) (Some ov) = Ok r /\ prox argsort r y s = Ok x).
Proof.
  intros (Hk & Ht & Hp & Hin & Hu & Hs & Hm) H. unfold new_fit in H.
  destruct (fit_problem_inv _ _ _ _ _ _ _ _ _ _ _ _ _ H) as
    (ov & g & wf & wr & r0 & r & bg0 & beta1 & gamma1 & lg0 & x & lg1 & Hov & Hg & Hw & Hr0 & Hr & Hst & Hi & Hl & Hx & Hb & _).
  rewrite start_pointE in Hst. injection Hst as <-. unfold initialize in Hi. rewrite Hin in Hi. change (String.eqb "None" "EM") with false in Hi.
  cbv iota in Hi. injection Hi as <- <-.
  destruct (oracle_viewE _ _ Hov) as [Ep Eq].
  destruct (Nat.eq_dec (num_fixed pr + num_random pr) 0) as [Z|NZ].
  - assert (Z1 : num_fixed pr = 0%nat) by lia. assert (Z2 : num_random pr = 0%nat) by lia.
    rewrite Z1, Z2 in Hb. cbn [x_to_beta_gamma firstn] in Hb. unfold x_to_beta_gamma in Hb. cbn [firstn] in Hb.
    injection Hb as -> ->. rewrite Z1, Z2. auto.
  - assert (Hne : ones (num_fixed pr) ++ ones (num_random pr) <> []).
    { intros C. apply (f_equal (@length R)) in C. rewrite app_length, !ones_length in C. cbn in C. lia. }
    destruct (run_solver_positive _ _ _ _ _ _ _ _ _ _ Hs Hu Hm Hne Hx) as (y & s & _ & Hpx). cbn [as_regularizer r_prox] in Hpx.
    destruct (model_prox_len _ _ _ _ _ _ _ _ _ Hr0 Hr Hpx) as [Ly Lz]. rewrite Ly, Ep, Eq in Lz.
    unfold x_to_beta_gamma in Hb. injection Hb as Eb Eg. rewrite Eb, Eg. rewrite !firstn_length, skipn_length.
    split; [lia|]. split; [lia|]. right. exists ov, wf, wr, r0, r, y, s, x. auto.
Qed.
End Run.

(** ** the L0 grid *)
Lemma range1_In n a : In a (range1 n) <-> (1 <= a < n)%nat.
Proof. unfold range1. rewrite in_seq. lia. Qed.
Lemma l0_grid_In P Q p q : In (p, q) (l0_grid P Q) <-> (1 <= q /\ q <= p /\ p < P /\ q < Q)%nat.
Proof.
  unfold l0_grid. rewrite in_flat_map. split.
  - intros [p' [Hp H]]. apply in_map_iff in H. destruct H as [q' [E H]]. injection E as -> ->.
    apply filter_In in H. destruct H as [Hq Hle]. apply Nat.leb_le in Hle. apply range1_In in Hp, Hq. lia.
  - intros H. exists p. split; [apply range1_In; lia|]. apply in_map. apply filter_In. split; [apply range1_In; lia|].
    apply Nat.leb_le. lia.
Qed.
Lemma l0_grid_NoDup P Q : NoDup (l0_grid P Q).
Proof.
  unfold l0_grid. assert (N : NoDup (range1 P)) by apply seq_NoDup. induction N as [|p l Hp N IH]; cbn [flat_map]; [constructor|].
  assert (A : forall l1 l2 : list (nat * nat), NoDup l1 -> NoDup l2 -> (forall a, In a l1 -> ~ In a l2) -> NoDup (l1 ++ l2)).
  { clear. induction l1 as [|a l1 IH]; intros l2 H1 H2 HD; [exact H2|]. inversion H1; subst. cbn [app]. constructor.
    - intros C. apply in_app_or in C. destruct C as [C|C]; [contradiction|]. exact (HD a (or_introl eq_refl) C).
    - apply IH; auto. intros b Hb. apply HD. right. exact Hb. }
  apply A; [|exact IH|].
  - assert (Nf : NoDup (filter (fun q => q <=? p)%nat (range1 Q))) by (apply NoDup_filter, seq_NoDup).
    clear - Nf. induction Nf as [|a l Ha N IH]; cbn [map]; constructor; [|exact IH].
    intros C. apply in_map_iff in C. destruct C as [x [E C]]. injection E as <-. contradiction.
  - intros [a b] H1 H2. apply in_map_iff in H1. destruct H1 as [x [E _]]. injection E as <- _.
    apply in_flat_map in H2. destruct H2 as [p' [Hp' H2]]. apply in_map_iff in H2. destruct H2 as [y [E _]]. injection E as -> _. contradiction.
Qed.
Lemma l0_grid_empty P Q : l0_grid P Q = [] <-> (P <= 1 \/ Q <= 1)%nat.
Proof.
  split.
  - intros H. destruct (Nat.le_gt_cases P 1); [auto|]. destruct (Nat.le_gt_cases Q 1); [auto|]. exfalso.
    assert (C : In (1, 1)%nat (l0_grid P Q)) by (apply l0_grid_In; lia). rewrite H in C. exact C.
  - intros H. destruct (l0_grid P Q) as [|[p q] l] eqn:E; [reflexivity|]. exfalso.
    assert (C : In (p, q) (l0_grid P Q)) by (rewrite E; left; reflexivity). apply l0_grid_In in C. lia.
Qed.

(** ** the weights of a problem made from a dataframe *)
Lemma from_dataframe_weights d F R g v t nf nr pr : from_dataframe d F R g v t nf nr = Ok pr ->
  let fe := named_effects d F in let re := named_effects d R in
  (nf = [] \/ In "intercept" F ->
    pr_fe_weights pr = Some (documented_weights nf ((if in_dec string_dec "intercept" F then ["intercept"] else []) ++ fe))) /\
  (nf <> [] -> ~ In "intercept" F -> pr_fe_weights pr = Some (1 :: documented_weights nf fe)) /\
  (nr = [] \/ (In "intercept" R /\ (In "intercept" nf <-> In "intercept" nr)) ->
    pr_re_weights pr = Some (documented_weights nr ((if in_dec string_dec "intercept" R then ["intercept"] else []) ++ re))) /\
  (exists wr, pr_re_weights pr = Some wr /\ (num_random pr <= length wr)%nat).
Proof.
  intros H fe re. unfold from_dataframe in H. apply rbind_inv in H as [u1 [_ H]]. apply rbind_inv in H as [u2 [G2 H]].
  apply rbind_inv in H as [u3 [_ H]].
  set (names := map fst (df_cols d)) in *. set (effects := filter (kept_effect F R) names) in *.
  set (columns := g :: effects ++ [v]) in *.
  set (labels := GROUP :: map (effect_label F R) effects ++ [VARIANCE]) in *.
  apply rbind_inv in H as [cols [Hc H]]. apply rbind_inv in H as [y [Hy H]].
  assert (Lc : length cols = length columns).
  { clear - Hc. revert cols Hc. induction columns as [|c cs IH]; simpl; intros cols H; [inversion H; auto|].
    destruct (df_col d c); [|discriminate]. destruct (sequence (map (df_col d) cs)); [|discriminate]. inversion H.
    simpl. f_equal. auto. }
  set (x := {| t_cols := length columns; t_rows := tr (df_n d) cols |}) in *.
  assert (Hwf : wf_table x).
  { unfold wf_table, x. cbn [t_rows t_cols]. rewrite <- Lc. apply tr_wf. }
  assert (Hcne : columns <> []) by discriminate.
  assert (QF : forall e, has_key e F && negb (String.eqb e INTERCEPT) = true -> kept_effect F R e = true).
  { intros e He. apply andb_prop in He as [A B]. unfold kept_effect. rewrite A, B. reflexivity. }
  assert (QR : forall e, has_key e R && negb (String.eqb e INTERCEPT) = true -> kept_effect F R e = true).
  { intros e He. apply andb_prop in He as [A B]. unfold kept_effect. rewrite A, B, orb_true_r. reflexivity. }
  assert (NF : role_names is_fixed labels columns = fe).
  { unfold labels, columns, fe. cbn [role_names]. change (is_fixed GROUP) with false. cbv iota. rewrite named_is.
    apply role_names_effects; auto. apply fixed_effect_label. }
  assert (NR : role_names is_random labels columns = re).
  { unfold labels, columns, re. cbn [role_names]. change (is_random GROUP) with false. cbv iota. rewrite named_is.
    apply role_names_effects; auto. apply random_effect_label. }
  pose proof (weights_line_up_partial_lemma _ _ _ _ _ _ _ _ _ Hwf Hcne H) as (W1 & W2 & M1 & M2).
  unfold coefficient_names in W1, W2, M1, M2. rewrite NF in W1, M1. rewrite NR in W2, M2. cbn [must_list] in W1, W2.
  assert (IX : forall l, has_key INTERCEPT l = if in_dec string_dec "intercept" l then true else false).
  { intros l. rewrite has_key_dec'. reflexivity. }
  rewrite IX in W1, W2, M1, M2.
  assert (IT : forall l, In "intercept" l -> (if in_dec string_dec "intercept" l then true else false) = true).
  { intros l Hl. destruct (in_dec string_dec "intercept" l); [reflexivity|contradiction]. }
  assert (IF : forall l : list string, (if (if in_dec string_dec "intercept" l then true else false) then ["intercept"] else [])
     = (if in_dec string_dec "intercept" l then ["intercept"] else [])).
  { intros l. destruct (in_dec string_dec "intercept" l); reflexivity. }
  rewrite IF in W1, W2, M1, M2.
  split; [|split; [|split]].
  - intros HC. apply W1. destruct HC as [HC|HC]; [left; exact HC|right; apply IT; exact HC].
  - intros Hne HI. apply from_x_y_inv in H. cbn [default_labels fst snd] in H.
    destruct H as [g0 [v0 [gl [fec [rec [wf [wr [A1 [A2 [A3 [A4 [A5 [A6 [A7 [V1 [V2 [_ [_ [A8 E]]]]]]]]]]]]]]]]]]].
    assert (HL : length columns = length labels) by (unfold columns, labels; cbn; rewrite !app_length, map_length; reflexivity).
    apply reg_weights_value in V1; [|exact HL]. destruct nf as [|m ms]; [congruence|]. destruct V1 as [l [El ->]]. injection El as <-.
    subst pr. cbn [built pr_fe_weights]. rewrite NF. f_equal. f_equal.
    destruct (in_dec string_dec "intercept" (m :: ms)) as [C|]; [|reflexivity]. exfalso. apply HI.
    apply guard_inv in G2. rewrite forallb_forall in G2. apply has_key_In. apply G2. exact C.
  - intros HC. apply W2. destruct HC as [HC|[HC HD]]; [left; exact HC|right; split; [apply IT; exact HC|exact HD]].
  - destruct nr as [|m ms].
    { exists (documented_weights [] ((if in_dec string_dec "intercept" R then ["intercept"] else []) ++ re)).
      split; [apply W2; left; reflexivity|]. unfold documented_weights. rewrite map_length. rewrite M2. lia. }
    apply from_x_y_inv in H. cbn [default_labels fst snd] in H.
    destruct H as [g0 [v0 [gl [fec [rec [wf [wr [A1 [A2 [A3 [A4 [A5 [A6 [A7 [V1 [V2 [_ [_ [A8 E]]]]]]]]]]]]]]]]]]].
    assert (HL : length columns = length labels) by (unfold columns, labels; cbn; rewrite !app_length, map_length; reflexivity).
    apply reg_weights_value in V2; [|exact HL]. destruct V2 as [l [El V2]]. exists wr.
    split; [subst pr; reflexivity|]. rewrite <- M2. rewrite V2. rewrite NR. cbn [length]. unfold documented_weights.
    rewrite map_length, app_length. destruct (in_dec string_dec "intercept" R); cbn; lia.
Qed.

(** ** sets of names only matter as sets *)
Lemma has_key_ext l l' : (forall a, In a l <-> In a l') -> forall c, has_key c l = has_key c l'.
Proof.
  intros H c. rewrite !has_key_dec'. destruct (in_dec string_dec c l) as [i|n], (in_dec string_dec c l') as [i'|n']; auto.
  - apply H in i. contradiction.
  - apply H in i'. contradiction.
Qed.
Lemma forallb_set {A} (f : A -> bool) l l' : (forall a, In a l <-> In a l') -> forallb f l = forallb f l'.
Proof.
  intros H. destruct (forallb f l) eqn:E, (forallb f l') eqn:E'; auto.
  - rewrite forallb_forall in E. assert (forallb f l' = true); [|congruence]. apply forallb_forall. intros a Ha. apply E. apply H. exact Ha.
  - rewrite forallb_forall in E'. assert (forallb f l = true); [|congruence]. apply forallb_forall. intros a Ha. apply E'. apply H. exact Ha.
Qed.
Lemma from_dataframe_set d F F' R R' g v t nf nr : (forall a, In a F <-> In a F') -> (forall a, In a R <-> In a R') ->
  from_dataframe d F R g v t nf nr = from_dataframe d F' R' g v t nf nr.
Proof.
  intros HF HR. pose proof (has_key_ext _ _ HF) as EF. pose proof (has_key_ext _ _ HR) as ER. unfold from_dataframe.
  assert (G1 : forallb (fun e => has_key e (map fst (df_cols d))) (F ++ R ++ [g; v; t] ++ nf ++ nr) =
               forallb (fun e => has_key e (map fst (df_cols d))) (F' ++ R' ++ [g; v; t] ++ nf ++ nr)).
  { apply forallb_set. intros a. rewrite !in_app_iff, HF, HR. reflexivity. }
  rewrite G1. rewrite !EF, !ER.
  assert (K : forall l, filter (kept_effect F R) l = filter (kept_effect F' R') l).
  { intros l. apply filter_ext. intros a. unfold kept_effect. rewrite EF, ER. reflexivity. }
  assert (L : forall l, map (effect_label F R) l = map (effect_label F' R') l).
  { intros l. apply map_ext. intros a. unfold effect_label. rewrite EF, ER. reflexivity. }
  assert (B1 : forall l, forallb (fun e => has_key e F) l = forallb (fun e => has_key e F') l).
  { induction l as [|a l IH]; cbn; [reflexivity|]. rewrite EF, IH. reflexivity. }
  assert (B2 : forall l, forallb (fun e => has_key e R) l = forallb (fun e => has_key e R') l).
  { induction l as [|a l IH]; cbn; [reflexivity|]. rewrite ER, IH. reflexivity. }
  rewrite B1, B2, K, L. reflexivity.
Qed.
