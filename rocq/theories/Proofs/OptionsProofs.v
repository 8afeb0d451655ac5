(** Proofs about Options.v *)
From Coq Require Import String Lra.
From Verif.Base Require Import Py Vec Mat.
From Verif.Model Require Import Logger Regularizers Solvers Priors Linear LmeInner LmeFit Options.
From Verif.Spec Require Import OptionsSpec.
From Verif.Proofs Require Import SolverProofs.
Open Scope string_scope.
Open Scope list_scope.
Open Scope R_scope.

Definition value_in (sig kw : dict) (n : string) : pval :=
  match lookup n kw with Some v => v | None => match lookup n sig with Some d => d | None => VNone end end.
(** the attributes in the order in which they are first assigned *)
Definition attributes (c : py_class) : list string :=
  match construct c [] with Ok a => names a | Err _ => [] end.

Ltac classes c := destruct c as [ |[|]|[| | |] [|]| |[|]|[| | |] [|]].

Lemma construct_eq c kw : concrete c ->
  construct c kw = Ok (map (fun n => (n, value_in (signature c) kw n)) (attributes c)).
Proof. intros [A B]. classes c; try congruence; reflexivity. Qed.
Lemma has_key_In n ns : has_key n ns = true <-> In n ns.
Proof.
  unfold has_key. rewrite existsb_exists. split.
  - intros (m & I & E). apply String.eqb_eq in E. subst. exact I.
  - intros I. exists n. split; [exact I|apply String.eqb_refl].
Qed.
Fixpoint distinct (ns : list string) : bool :=
  match ns with [] => true | n :: ns' => negb (has_key n ns') && distinct ns' end.
Lemma distinct_NoDup ns : distinct ns = true -> NoDup ns.
Proof.
  induction ns as [|n ns IH]; cbn [distinct]; [constructor|]. intros H.
  apply andb_true_iff in H as [A B]. constructor; [|apply IH, B].
  rewrite <- has_key_In. intros E. rewrite E in A. discriminate A.
Qed.
Lemma attributes_signature c n : In n (attributes c) <-> option_of c n.
Proof.
  assert (A : forall ns ms, forallb (fun k => has_key k ms) ns = true -> In n ns -> In n ms).
  { intros ns ms H I. rewrite forallb_forall in H. apply has_key_In, H, I. }
  split; apply A; classes c; reflexivity.
Qed.
Lemma attributes_nodup c : NoDup (attributes c).
Proof. apply distinct_NoDup. classes c; reflexivity. Qed.
Lemma signature_nodup c : NoDup (names (signature c)).
Proof. apply distinct_NoDup. classes c; reflexivity. Qed.

Lemma lookup_map_names {V} (f : string -> V) ns n :
  lookup n (map (fun m => (m, f m)) ns) = if has_key n ns then Some (f n) else None.
Proof.
  induction ns as [|m ns IH]; cbn [map lookup has_key existsb]; [reflexivity|].
  destruct (String.eqb_spec n m) as [->|D]; cbn [orb]; [reflexivity|]. exact IH.
Qed.
Lemma lookup_In {V} n (d : list (string * V)) : In n (map fst d) -> exists v, lookup n d = Some v.
Proof.
  induction d as [|[m v] d IH]; cbn [map fst lookup In]; [tauto|]. intros [->|I].
  - rewrite String.eqb_refl. eauto.
  - destruct (String.eqb n m); eauto.
Qed.
Lemma lookup_not_In {V} n (d : list (string * V)) : ~ In n (map fst d) -> lookup n d = None.
Proof.
  induction d as [|[m v] d IH]; cbn [map fst lookup In]; [reflexivity|]. intros D.
  destruct (String.eqb_spec n m) as [->|E]; [exfalso; apply D; left; reflexivity|]. apply IH. tauto.
Qed.

Lemma construct_lookup c kw a n : concrete c -> construct c kw = Ok a -> option_of c n -> lookup n a = given c kw n.
Proof.
  intros C E O. rewrite (construct_eq c kw C) in E. injection E as <-.
  rewrite lookup_map_names. rewrite (proj2 (has_key_In n (attributes c)) (proj2 (attributes_signature c n) O)).
  unfold given, value_in. destruct (lookup n kw); [reflexivity|].
  destruct (lookup_In n (signature c) O) as [d ->]. reflexivity.
Qed.
Lemma construct_names c kw a : concrete c -> construct c kw = Ok a -> names a = attributes c.
Proof.
  intros C E. rewrite (construct_eq c kw C) in E. injection E as <-.
  unfold names. rewrite map_map. cbn [fst]. apply map_id.
Qed.
Lemma read_ok n a v : read n a = Ok v <-> lookup n a = Some v.
Proof. unfold read. destruct (lookup n a); split; congruence. Qed.

(** two dictionaries with the same keys in the same order and the same values are the same *)
Lemma dict_ext : forall (a b : dict), NoDup (names a) -> names a = names b ->
  (forall n, In n (names a) -> lookup n a = lookup n b) -> a = b.
Proof.
  induction a as [|[n v] a IH]; intros [|[m w] b] D N L; cbn [names map fst] in *; try congruence.
  injection N as -> N'. apply NoDup_cons_iff in D as [D1 D2].
  pose proof (L m (or_introl eq_refl)) as E. cbn [lookup] in E. rewrite String.eqb_refl in E. injection E as ->.
  f_equal. apply IH; [exact D2|exact N'|].
  intros k I. specialize (L k (or_intror I)). cbn [lookup] in L.
  destruct (String.eqb_spec k m) as [E|E]; [subst k; contradiction|exact L].
Qed.

(** ** the parts *)
Ltac inv_bind H :=
  match type of H with
  | rbind (read ?n ?a) _ = Ok _ =>
      let E := fresh "R" in let w := fresh "w" in destruct (read n a) as [w|] eqn:E; cbn [rbind] in H; [inv_bind H|discriminate H]
  | rbind ?m _ = Ok _ =>
      let E := fresh "B" in let w := fresh "w" in destruct m as [w|] eqn:E; cbn [rbind] in H; [inv_bind H|discriminate H]
  | _ => idtac
  end.
Ltac same_reads :=
  repeat match goal with
  | H1 : read ?n ?a = Ok ?v, H2 : read ?n ?a = Ok ?w |- _ =>
      first [constr_eq v w; clear H2 | rewrite H1 in H2; injection H2 as <-]
  end.

Lemma choose_step_inv a d s : choose_step a d = Ok s ->
  exists v, read "fixed_step_len" a = Ok v /\ (truthy v = true /\ s = v \/ truthy v = false /\ d = Ok s).
Proof.
  unfold choose_step. intros H. inv_bind H. eexists; split; [reflexivity|].
  destruct (truthy w); [left|right]; split; auto. congruence.
Qed.
Lemma pgd_part_inv a s q : pgd_part a s = Ok q ->
  exists tol n st, read "tol_solver" a = Ok tol /\ read "max_iter_solver" a = Ok n /\ read "stepping" a = Ok st /\
  q = PartPGD tol n st s.
Proof. unfold pgd_part. intros H. inv_bind H. injection H as <-. repeat eexists; auto. Qed.
Lemma wrap_inv a r q : wrap a r = Ok q ->
  exists eps, read "elastic_eps" a = Ok eps /\ q = PartPositive (PartElastic eps r).
Proof. unfold wrap. intros H. inv_bind H. injection H as <-. eauto. Qed.

(** PGDSolver with a given default step *)
Definition plain_solver (a : dict) (d : res pval) (s : solver_part) : Prop :=
  exists v step tol n st, read "fixed_step_len" a = Ok v /\
  (truthy v = true /\ step = v \/ truthy v = false /\ d = Ok step) /\
  read "tol_solver" a = Ok tol /\ read "max_iter_solver" a = Ok n /\ read "stepping" a = Ok st /\
  s = PartPGD tol n st step.
Lemma plain_solver_intro a d step s : choose_step a d = Ok step -> pgd_part a step = Ok s -> plain_solver a d s.
Proof.
  intros H1 H2. apply choose_step_inv in H1 as (v & R1 & C). apply pgd_part_inv in H2 as (t & n & st & R2 & R3 & R4 & ->).
  repeat eexists; eauto.
Qed.

Lemma lme_simple_inv a p : lme_simple a = Ok p ->
  exists prior eps s, read "prior" a = Ok prior /\ read "elastic_eps" a = Ok eps /\
  plain_solver a (Ok (VReal (5 / 100))) s /\
  p = {| pt_oracle := PartLme prior; pt_reg := PartPositive (PartElastic eps PartDummy); pt_solver := s |}.
Proof.
  unfold lme_simple. intros H. inv_bind H. injection H as <-.
  apply wrap_inv in B as (eps & RE & ->). pose proof (plain_solver_intro _ _ _ _ B0 B1). do 3 eexists. repeat (split; [first [eassumption|reflexivity]|]). reflexivity.
Qed.
Lemma lme_simple_sr3_inv a p : lme_simple_sr3 a = Ok p ->
  exists ell practical tol n warm positive expected prior nb eps s,
  read "ell" a = Ok ell /\ read "practical" a = Ok practical /\
  read "tol_oracle" a = Ok tol /\ read "max_iter_oracle" a = Ok n /\ read "warm_start_oracle" a = Ok warm /\
  read "take_only_positive_part" a = Ok positive /\ read "take_expected_value" a = Ok expected /\
  read "prior" a = Ok prior /\ read "central_path_neighbourhood_target" a = Ok nb /\ read "elastic_eps" a = Ok eps /\
  (truthy practical = true /\
     (exists e, read "update_prox_every" a = Ok e /\ s = PartFake (VReal (1 / 10000)) (VInt 1000) (VInt 1) e) \/
   truthy practical = false /\ plain_solver a (relaxed_step ell) s) /\
  p = {| pt_oracle := PartLmeSR3 ell ell tol n warm positive expected prior nb;
         pt_reg := PartPositive (PartElastic eps PartDummy); pt_solver := s |}.
Proof.
  unfold lme_simple_sr3. intros H. inv_bind H. injection H as <-.
  apply wrap_inv in B1 as (eps & RE & ->).
  do 11 eexists. repeat (split; [first [eassumption|reflexivity]|]). split; [|reflexivity].
  destruct (truthy w1) eqn:T; [left|right]; split; auto.
  - inv_bind B0. injection B0 as <-. eauto.
  - eapply plain_solver_intro; eassumption.
Qed.
Lemma linear_simple_inv a p : linear_simple a = Ok p ->
  exists prior s, read "prior" a = Ok prior /\ plain_solver a (Ok (VReal (5 / 100))) s /\
  p = {| pt_oracle := PartLinear prior; pt_reg := PartDummy; pt_solver := s |}.
Proof.
  unfold linear_simple. intros H. inv_bind H. injection H as <-.
  pose proof (plain_solver_intro _ _ _ _ B B0). do 2 eexists. repeat (split; [first [eassumption|reflexivity]|]). reflexivity.
Qed.
Lemma linear_simple_sr3_inv a p : linear_simple_sr3 a = Ok p ->
  exists el practical prior s,
  read "el" a = Ok el /\ read "practical" a = Ok practical /\ read "prior" a = Ok prior /\ truthy prior = false /\
  (truthy practical = true /\
     (exists v step tol n, read "fixed_step_len" a = Ok v /\
        (truthy v = true /\ step = v \/ truthy v = false /\ relaxed_step el = Ok step) /\
        read "tol_solver" a = Ok tol /\ read "max_iter_solver" a = Ok n /\ s = PartFake tol n step (VInt 1)) \/
   truthy practical = false /\ plain_solver a (relaxed_step el) s) /\
  p = {| pt_oracle := PartLinearSR3 el prior; pt_reg := PartDummy; pt_solver := s |}.
Proof.
  unfold linear_simple_sr3. intros H. inv_bind H. injection H as <-.
  do 4 eexists. repeat (split; [first [eassumption|reflexivity]|]).
  split; [unfold guard in B1; destruct (truthy w3); [discriminate B1|reflexivity]|]. split; [|reflexivity].
  destruct (truthy w1) eqn:T; [left|right]; split; auto.
  - inv_bind B0. injection B0 as <-. apply choose_step_inv in B as (v & RV & C). do 4 eexists. repeat (split; [first [eassumption|reflexivity]|]). reflexivity.
  - eapply plain_solver_intro; eassumption.
Qed.
Lemma penalty_part_inv k l0 a r : penalty_part k l0 a = Ok r ->
  match k with
  | KL0 => l0 = Ok r
  | KL1 => exists lam, read "lam" a = Ok lam /\ r = PartL1 lam
  | KCAD => exists lam rho, read "lam" a = Ok lam /\ read "rho" a = Ok rho /\ r = PartCAD rho lam
  | KSCAD => exists lam rho sigma, read "lam" a = Ok lam /\ read "rho" a = Ok rho /\ read "sigma" a = Ok sigma /\
             (exists q, as_num rho = Ok q /\ rltb 1 q = true) /\ r = PartSCAD rho sigma lam
  end.
Proof.
  unfold penalty_part. destruct k; intros H; [exact H| | |]; inv_bind H; injection H as <-; repeat eexists; eauto.
  unfold guard in B0. destruct (rltb 1 w2); congruence.
Qed.
Definition penalised_default (k : pen_kind) (a : dict) : res pval :=
  match k with KL0 => Ok (VReal (5 / 100)) | _ => let! lam := read "lam" a in penalised_step lam end.
Lemma lme_penalised_inv k sr3 a p : lme_penalised k sr3 a = Ok p ->
  exists p0 eps r, (if sr3 then lme_simple_sr3 a else lme_simple a) = Ok p0 /\ read "elastic_eps" a = Ok eps /\
  penalty_part k (let! nb := read "nnz_tbeta" a in let! ng := read "nnz_tgamma" a in Ok (PartL0Lme nb ng)) a = Ok r /\
  pt_oracle p = pt_oracle p0 /\ pt_reg p = PartPositive (PartElastic eps r) /\
  (if sr3 then pt_solver p = pt_solver p0 else plain_solver a (penalised_default k a) (pt_solver p)).
Proof.
  unfold lme_penalised. intros H. inv_bind H. injection H as <-. cbn [pt_oracle pt_reg pt_solver].
  apply wrap_inv in B2 as (eps & RE & ->). do 3 eexists. split; [reflexivity|]. split; [exact RE|]. split; [first [eassumption|reflexivity]|].
  split; [reflexivity|]. split; [reflexivity|].
  destruct sr3.
  - destruct k; injection B0 as <-; reflexivity.
  - destruct k.
    + injection B0 as <-. apply lme_simple_inv in B as (pr & e & s' & ? & ? & PS & ->). exact PS.
    + inv_bind B0. unfold penalised_default. match goal with E : read "lam" a = Ok _ |- _ => rewrite E end. cbn [rbind]. eapply plain_solver_intro; eassumption.
    + inv_bind B0. unfold penalised_default. match goal with E : read "lam" a = Ok _ |- _ => rewrite E end. cbn [rbind]. eapply plain_solver_intro; eassumption.
    + inv_bind B0. unfold penalised_default. match goal with E : read "lam" a = Ok _ |- _ => rewrite E end. cbn [rbind]. eapply plain_solver_intro; eassumption.
Qed.
Lemma linear_penalised_inv k sr3 a p : linear_penalised k sr3 a = Ok p ->
  exists p0 r, (if sr3 then linear_simple_sr3 a else linear_simple a) = Ok p0 /\
  penalty_part k (let! nnz := read "nnz" a in Ok (PartL0 nnz)) a = Ok r /\
  pt_oracle p = pt_oracle p0 /\ pt_reg p = r /\ pt_solver p = pt_solver p0.
Proof. unfold linear_penalised. intros H. inv_bind H. injection H as <-. repeat eexists; eauto. Qed.

Lemma Ok_inj {A} (x y : A) : Ok x = Ok y -> x = y. Proof. congruence. Qed.
Ltac open_parts :=
  repeat match goal with
  | H : exists _, _ |- _ => destruct H
  | H : _ /\ _ |- _ => destruct H
  | H : _ \/ _ |- _ => destruct H
  | H : plain_solver _ _ _ |- _ => unfold plain_solver in H
  | H : (if _ then _ else _) = Ok _ |- _ => first [apply lme_simple_sr3_inv in H | apply lme_simple_inv in H
                                                  | apply linear_simple_sr3_inv in H | apply linear_simple_inv in H]
  | H : lme_simple_sr3 _ = Ok _ |- _ => apply lme_simple_sr3_inv in H
  | H : lme_simple _ = Ok _ |- _ => apply lme_simple_inv in H
  | H : linear_simple_sr3 _ = Ok _ |- _ => apply linear_simple_sr3_inv in H
  | H : linear_simple _ = Ok _ |- _ => apply linear_simple_inv in H
  | H : penalty_part _ _ _ = Ok _ |- _ => apply penalty_part_inv in H; cbn beta iota in H
  | H : lme_penalised _ _ _ = Ok _ |- _ => apply lme_penalised_inv in H; cbn beta iota in H
  | H : linear_penalised _ _ _ = Ok _ |- _ => apply linear_penalised_inv in H; cbn beta iota in H
  | H : rbind (read _ _) _ = Ok _ |- _ => inv_bind H; apply Ok_inj in H
  end.
Ltac flatten :=
  open_parts; try contradiction; subst;
  repeat match goal with
  | p : parts |- _ => let o := fresh "o" in let r := fresh "r" in let s := fresh "s" in destruct p as [o r s]
  end;
  cbn [pt_oracle pt_reg pt_solver] in *; subst.
Definition all_settings (p : parts) : list (string * pval) :=
  solver_settings (pt_solver p) ++ oracle_settings (pt_oracle p) ++ regularizer_settings (pt_reg p).
(** settings that are not the attribute of the name *)
Definition replaced (c : py_class) (a : dict) (p : parts) (n : string) : Prop :=
  n = "fixed_step_len" /\ (exists v, read n a = Ok v /\ truthy v = false) \/
  practical_solver p = true /\
    (is_lme c = true /\ In n ["tol_solver"; "max_iter_solver"; "fixed_step_len"] \/
     is_lme c = false /\ n = "update_prox_every").
Lemma settings_read c a p : instantiate_parts c a = Ok p ->
  Forall (fun e => read (fst e) a = Ok (snd e) \/ replaced c a p (fst e)) (all_settings p).
Proof.
  intros I. unfold replaced.
  classes c; cbn [instantiate_parts] in I; try discriminate I; flatten;
    cbn [all_settings solver_settings oracle_settings regularizer_settings app pt_oracle pt_reg pt_solver practical_solver is_lme In];
    repeat (apply Forall_cons; [cbn [fst snd]; 
      first [left; assumption
            | right; left; split; [reflexivity|eexists; split; eassumption]
            | right; right; split; [reflexivity|]; left; split; [reflexivity|];
              first [left; reflexivity | right; left; reflexivity | right; right; left; reflexivity]
            | right; right; split; [reflexivity|]; right; split; reflexivity]|]); apply Forall_nil.
Qed.
Definition no_setting (practical : bool) : list string :=
  if practical then ["logger_keys"; "initializer"; "practical"; "stepping"]
  else ["logger_keys"; "initializer"; "practical"; "update_prox_every"].
Lemma settings_present c a p : instantiate_parts c a = Ok p ->
  forallb (fun n => has_key n (names (all_settings p)) || has_key n (no_setting (practical_solver p)))
          (names (signature c)) = true.
Proof.
  intros I. classes c; cbn [instantiate_parts] in I; try discriminate I; flatten; reflexivity.
Qed.
Lemma pick_In n t v : In v (pick n t) <-> In (n, v) t.
Proof.
  unfold pick. rewrite in_map_iff. split.
  - intros ((m & w) & <- & H). apply filter_In in H as [H E]. cbn in *. apply String.eqb_eq in E. subst. exact H.
  - intros H. exists (n, v). split; [reflexivity|]. apply filter_In. split; [exact H|]. apply String.eqb_refl.
Qed.
Lemma parts_honour c a p n v : instantiate_parts c a = Ok p -> option_of c n -> read n a = Ok v ->
  ~ of_the_fit n -> ~ without_effect c p n v -> honoured p n v.
Proof.
  intros I O RV F W. split.
  - pose proof (settings_present c a p I) as P. rewrite forallb_forall in P. specialize (P n O).
    apply orb_true_iff in P as [P|P].
    + apply has_key_In in P. unfold names in P. apply in_map_iff in P as ((m & w) & E & P). cbn in E. subst m.
      apply (pick_In n) in P. fold (all_settings p). unfold settings. intros Z. unfold all_settings in P. rewrite Z in P. exact P.
    + exfalso. apply has_key_In in P. unfold of_the_fit in F. unfold without_effect in W. unfold no_setting in P.
      cbn [In] in *. destruct (practical_solver p) eqn:E; cbn [In] in P; intuition.
  - apply Forall_forall. intros w H. apply pick_In in H.
    pose proof (settings_read c a p I) as P. rewrite Forall_forall in P. specialize (P (n, w) H). cbn [fst snd] in P.
    destruct P as [P|P]; [congruence|]. exfalso. unfold replaced in P. unfold without_effect in W.
    destruct P as [[-> (v' & RV' & T)]|[E [[L IN]|[L ->]]]].
    + rewrite RV in RV'. injection RV' as <-. apply W. auto.
    + apply W. auto 6.
    + clear -O L. unfold option_of in O. apply has_key_In in O. classes c; cbv in L, O; congruence.
Qed.
Lemma parts_practical c a p v : concrete c -> instantiate_parts c a = Ok p -> option_of c "practical" ->
  read "practical" a = Ok v -> practical_solver p = truthy v.
Proof.
  intros [C1 C2] I O RV. unfold option_of in O.
  classes c; try congruence; cbn [instantiate_parts] in I; cbn [signature map fst In] in O;
    try (exfalso; repeat (destruct O as [O|O]; [discriminate O|]); exact O); clear O;
    flatten; same_reads; cbn; congruence.
Qed.

(** ** the records of LmeFit.v and Linear.v *)
Lemma get_inv {A} (f : pval -> res A) n a x : get f n a = Ok x -> exists v, read n a = Ok v /\ f v = Ok x.
Proof. unfold get. destruct (read n a) as [v|]; cbn [rbind]; [eauto|discriminate]. Qed.
Lemma nonzero_reqb r : nonzero r = negb (reqb r 0).
Proof. reflexivity. Qed.
Lemma reqb_true x y : x = y -> reqb x y = true.
Proof. unfold reqb. destruct (Req_EM_T x y); congruence. Qed.
Lemma reqb_false x y : x <> y -> reqb x y = false.
Proof. unfold reqb. destruct (Req_EM_T x y); congruence. Qed.
Lemma reqb_IZR z : reqb (IZR z) 0 = (z =? 0)%Z.
Proof.
  destruct (Z.eqb_spec z 0) as [->|D].
  - apply reqb_true. reflexivity.
  - apply reqb_false. intros E. apply D. apply eq_IZR. exact E.
Qed.
Lemma step_given v o : as_option as_real v = Ok o ->
  match o with
  | Some s => as_num v = Ok s /\ truthy v = negb (reqb s 0)
  | None => truthy v = false
  end.
Proof.
  destruct v; cbn [as_option as_real as_num rbind]; intros H; try discriminate H; apply Ok_inj in H; subst o; cbn [truthy].
  - reflexivity.
  - split; [reflexivity|]. destruct b; symmetry; [apply negb_true_iff, reqb_false; lra|apply negb_false_iff, reqb_true; reflexivity].
  - split; [reflexivity|]. rewrite reqb_IZR. reflexivity.
  - split; reflexivity.
Qed.
Lemma relaxed_step_num ell e s : as_num ell = Ok e -> relaxed_step ell = Ok s ->
  as_num s = Ok (if reqb e 0 then 1 else 1 / e).
Proof.
  unfold relaxed_step, is_zero. intros ->. destruct (reqb e 0); cbn [rbind]; intros H; apply Ok_inj in H; subst s; reflexivity.
Qed.
Lemma penalised_step_num lam l s : as_num lam = Ok l -> penalised_step lam = Ok s ->
  nonzero (l + 1) = true /\ as_num s = Ok (1 / (l + 1)).
Proof.
  unfold penalised_step. intros ->. cbn [rbind]. unfold guard. destruct (nonzero (l + 1)); cbn [rbind]; intros H; [|discriminate H].
  apply Ok_inj in H. subst s. auto.
Qed.

Ltac inv_get H :=
  lazymatch type of H with
  | rbind ?m _ = Ok _ =>
      let E := fresh "G" in let w := fresh "w" in destruct m as [w|] eqn:E; cbn [rbind] in H; [inv_get H|discriminate H]
  | Ok _ = Ok _ => apply Ok_inj in H
  | _ => idtac
  end.
Ltac open_gets :=
  repeat match goal with
  | H : get _ _ _ = Ok _ |- _ => apply get_inv in H; destruct H as (? & ? & ?)
  | H : lme_settings _ = Ok _ |- _ => unfold lme_settings in H; inv_get H
  | H : rbind _ _ = Ok _ |- _ => inv_get H
  | H : Ok _ = Ok _ |- _ => apply Ok_inj in H
  end.
Definition lme_penalty_of (k : pen_kind) (a : dict) : res lme_penalty :=
  match k with
  | KL0 => let! nb := get (as_option as_int) "nnz_tbeta" a in
           let! ng := get (as_option as_int) "nnz_tgamma" a in Ok (PenL0 nb ng)
  | KL1 => let! lam := get as_real "lam" a in Ok (PenL1 lam)
  | KCAD => let! lam := get as_real "lam" a in let! rho := get as_real "rho" a in Ok (PenCAD lam rho)
  | KSCAD => let! lam := get as_real "lam" a in let! rho := get as_real "rho" a in
             let! sigma := get as_real "sigma" a in Ok (PenSCAD lam rho sigma)
  end.
Lemma lme_record_inv pen sr3 a m : lme_record pen sr3 a = Ok m ->
  exists tol n st step eps prior,
  pen = Ok (mo_penalty m) /\
  (if sr3 then exists ss, lme_settings a = Ok ss /\ mo_sr3 m = Some ss else mo_sr3 m = None) /\
  read "tol_solver" a = Ok tol /\ as_real tol = Ok (mo_tol m) /\
  read "max_iter_solver" a = Ok n /\ as_int n = Ok (mo_max_iter m) /\
  read "stepping" a = Ok st /\ as_str st = Ok (mo_stepping m) /\
  read "fixed_step_len" a = Ok step /\ as_option as_real step = Ok (mo_step_len m) /\
  read "elastic_eps" a = Ok eps /\ as_real eps = Ok (mo_eps m) /\
  read "prior" a = Ok prior /\ as_lme_prior prior = Ok (mo_prior m) /\
  get as_str "initializer" a = Ok (mo_initializer m) /\ get as_keys "logger_keys" a = Ok (mo_keys m).
Proof.
  unfold lme_record. intros H. inv_get H. subst m. cbn [mo_penalty mo_sr3 mo_tol mo_max_iter mo_stepping mo_step_len mo_eps mo_prior mo_initializer mo_keys].
  apply get_inv in G1 as (v1 & R1 & E1). apply get_inv in G2 as (v2 & R2 & E2). apply get_inv in G3 as (v3 & R3 & E3).
  apply get_inv in G4 as (v4 & R4 & E4). apply get_inv in G5 as (v5 & R5 & E5). apply get_inv in G8 as (v8 & R8 & E8).
  exists v1, v2, v3, v4, v5, v8. split; [reflexivity|]. split.
  { destruct sr3; [|congruence]. inv_get G0. subst w0. eauto. }
  auto 20.
Qed.

(** the step of PGDSolver *)
Lemma plain_step a d step v o (m : lme_model) dflt :
  read "fixed_step_len" a = Ok v -> as_option as_real v = Ok o -> o = mo_step_len m ->
  (truthy v = true /\ step = v \/ truthy v = false /\ d = Ok step) ->
  (d = Ok step -> as_num step = dflt) ->
  (given_step m = None -> step_length m = dflt) -> step_length m = as_num step.
Proof.
  intros _ O E C D L. pose proof (step_given _ _ O) as S. subst o. unfold given_step in L.
  assert (G : forall s, mo_step_len m = Some s -> reqb s 0 = false -> step_length m = Ok s).
  { intros s E1 E2. unfold step_length, given_step. rewrite E1, E2. reflexivity. }
  destruct (mo_step_len m) as [s|].
  - destruct S as [S1 S2]. destruct (reqb s 0) eqn:Z; cbn [negb] in S2.
    + destruct C as [[C _]|[_ C]]; [congruence|]. rewrite (D C). apply L. reflexivity.
    + destruct C as [[_ ->]|[C _]]; [|congruence]. rewrite S1. apply G; auto.
  - destruct C as [[C _]|[_ C]]; [congruence|]. rewrite (D C). apply L. reflexivity.
Qed.
Lemma step_length_default m : given_step m = None ->
  step_length m = match mo_sr3 m with
                  | Some ss => Ok (if reqb (ss_ell ss) 0 then 1 else 1 / ss_ell ss)
                  | None => match mo_penalty m with
                            | PenNone | PenL0 _ _ => Ok (5 / 100)
                            | PenL1 lam | PenCAD lam _ | PenSCAD lam _ _ =>
                                let! _ := guard (nonzero (lam + 1)) ZeroDivisionError in Ok (1 / (lam + 1))
                            end
                  end.
Proof. unfold step_length. intros ->. reflexivity. Qed.

Lemma plain_agrees a d s m dflt tol n st step :
  read "tol_solver" a = Ok tol -> as_real tol = Ok (mo_tol m) ->
  read "max_iter_solver" a = Ok n -> as_int n = Ok (mo_max_iter m) ->
  read "stepping" a = Ok st -> as_str st = Ok (mo_stepping m) ->
  read "fixed_step_len" a = Ok step -> as_option as_real step = Ok (mo_step_len m) ->
  plain_solver a d s -> (forall x, d = Ok x -> as_num x = dflt) -> (given_step m = None -> step_length m = dflt) ->
  solver_tol m = mo_tol m ->
  exists x, s = PartPGD tol n st x /\ as_num tol = Ok (mo_tol m) /\ as_int n = Ok (mo_max_iter m) /\ as_str st = Ok (mo_stepping m) /\
      step_length m = as_num x /\ solver_tol m = mo_tol m.
Proof.
  intros R1 E1 R2 E2 R3 E3 R4 E4 (v & x & t' & n' & s' & Q4 & C & Q1 & Q2 & Q3 & ->) D L T.
  same_reads. exists x. split; [reflexivity|]. split; [exact E1|]. split; [exact E2|]. split; [exact E3|]. split; [|exact T].
  exact (plain_step a d x _ _ m dflt ltac:(eassumption) E4 eq_refl C (D x) L).
Qed.
Lemma lme_settings_inv a ss : lme_settings a = Ok ss ->
  exists ell practical every n tol warm positive expected nb,
  read "ell" a = Ok ell /\ as_num ell = Ok (ss_ell ss) /\
  read "practical" a = Ok practical /\ truthy practical = ss_practical ss /\
  read "update_prox_every" a = Ok every /\ as_int every = Ok (ss_update_every ss) /\
  read "max_iter_oracle" a = Ok n /\ as_int n = Ok (ss_max_iter ss) /\
  read "tol_oracle" a = Ok tol /\ as_num tol = Ok (ss_tol ss) /\
  read "warm_start_oracle" a = Ok warm /\ truthy warm = ss_warm ss /\
  read "take_only_positive_part" a = Ok positive /\ truthy positive = ss_positive ss /\
  read "take_expected_value" a = Ok expected /\ truthy expected = ss_expected ss /\
  read "central_path_neighbourhood_target" a = Ok nb /\ as_num nb = Ok (ss_neighbourhood ss).
Proof.
  unfold lme_settings. intros H. inv_get H. subst ss.
  cbn [ss_ell ss_practical ss_update_every ss_max_iter ss_tol ss_warm ss_positive ss_expected ss_neighbourhood].
  apply get_inv in G as (v & Q & E). apply get_inv in G0 as (v0 & Q0 & E0). apply get_inv in G1 as (v1 & Q1 & E1).
  apply get_inv in G2 as (v2 & Q2 & E2). apply get_inv in G3 as (v3 & Q3 & E3). apply get_inv in G4 as (v4 & Q4 & E4).
  apply get_inv in G5 as (v5 & Q5 & E5). apply get_inv in G6 as (v6 & Q6 & E6). apply get_inv in G7 as (v7 & Q7 & E7).
  unfold as_bool in *. apply Ok_inj in E0, E4, E5, E6.
  exists v, v0, v1, v2, v3, v4, v5, v6, v7. auto 30.
Qed.
(** the oracle and the solver of the relaxed classes *)
Lemma sr3_agrees a m p0 eps r pen : lme_simple_sr3 a = Ok p0 -> lme_record pen true a = Ok m ->
  read "elastic_eps" a = Ok eps ->
  match r, mo_penalty m with
  | PartDummy, PenNone => True
  | PartL0Lme nb ng, PenL0 kb kg => as_option as_int nb = Ok kb /\ as_option as_int ng = Ok kg
  | PartL1 lam, PenL1 l => as_num lam = Ok l
  | PartCAD rho lam, PenCAD l r => as_num lam = Ok l /\ as_num rho = Ok r
  | PartSCAD rho sigma lam, PenSCAD l r s => as_num lam = Ok l /\ as_num rho = Ok r /\ as_num sigma = Ok s
  | _, _ => False
  end ->
  lme_agrees {| pt_oracle := pt_oracle p0; pt_reg := PartPositive (PartElastic eps r); pt_solver := pt_solver p0 |} m.
Proof.
  intros H0 H RE PEN. apply lme_record_inv in H as (tol & n & st & step & eps' & prior & _ & SS & R1 & E1 & R2 & E2 & R3 & E3 & R4 & E4 & R5 & E5 & R6 & E6 & _ & _).
  destruct SS as (ss & SS & M). apply lme_settings_inv in SS as (ell & pr & ev & no & to & wa & po & ex & nb & L1 & L2 & L3 & L4 & L5 & L6 & L7 & L8 & L9 & L10 & L11 & L12 & L13 & L14 & L15 & L16 & L17 & L18).
  apply lme_simple_sr3_inv in H0 as (ell' & pr' & to' & no' & wa' & po' & ex' & prior' & nb' & eps'' & s & Q1 & Q2 & Q3 & Q4 & Q5 & Q6 & Q7 & Q8 & Q9 & Q10 & S & ->).
  same_reads. unfold lme_agrees. cbn [pt_oracle pt_reg pt_solver]. rewrite M.
  split; [|split; [repeat (split; [assumption|]); assumption|]].
  - destruct S as [[T (e & Q & ->)]|[T S]].
    + same_reads. rewrite L4 in T. unfold solver_tol. rewrite M, T. repeat (split; [reflexivity|]).
      exists ss. split; [reflexivity|]. split; [exact T|exact L6].
    + assert (X := plain_agrees a _ s m (Ok (if reqb (ss_ell ss) 0 then 1 else 1 / ss_ell ss)) tol n st step R1 E1 R2 E2 R3 E3 R4 E4 S).
      destruct X as (x & -> & X).
      * intros x Hx. eapply relaxed_step_num; eassumption.
      * intros G. rewrite step_length_default by exact G. rewrite M. reflexivity.
      * unfold solver_tol. rewrite M, <- L4, T. reflexivity.
      * exact X.
  - eexists _, r. split; [reflexivity|]. split; [exact E5|exact PEN].
Qed.
Lemma plain_lme_agrees a m pen prior eps s r d dflt : lme_record pen false a = Ok m ->
  read "prior" a = Ok prior -> read "elastic_eps" a = Ok eps -> plain_solver a d s ->
  (forall x, d = Ok x -> as_num x = dflt) -> (given_step m = None -> step_length m = dflt) ->
  match r, mo_penalty m with
  | PartDummy, PenNone => True
  | PartL0Lme nb ng, PenL0 kb kg => as_option as_int nb = Ok kb /\ as_option as_int ng = Ok kg
  | PartL1 lam, PenL1 l => as_num lam = Ok l
  | PartCAD rho lam, PenCAD l r => as_num lam = Ok l /\ as_num rho = Ok r
  | PartSCAD rho sigma lam, PenSCAD l r s => as_num lam = Ok l /\ as_num rho = Ok r /\ as_num sigma = Ok s
  | _, _ => False
  end ->
  lme_agrees {| pt_oracle := PartLme prior; pt_reg := PartPositive (PartElastic eps r); pt_solver := s |} m.
Proof.
  intros H RP RE S D L PEN. apply lme_record_inv in H as (tol & n & st & step & eps' & prior' & _ & SS & R1 & E1 & R2 & E2 & R3 & E3 & R4 & E4 & R5 & E5 & R6 & E6 & _ & _).
  same_reads. unfold lme_agrees. cbn [pt_oracle pt_reg pt_solver]. rewrite SS.
  split; [|split; [exact E6|]].
  - assert (X := plain_agrees a _ s m dflt tol n st step R1 E1 R2 E2 R3 E3 R4 E4 S D L).
    destruct X as (x & -> & X); [|exact X]. unfold solver_tol. rewrite SS. reflexivity.
  - eexists _, r. split; [reflexivity|]. split; [exact E5|exact PEN].
Qed.
Lemma penalty_agrees k a m l0 r s : penalty_part k (let! nb := read "nnz_tbeta" a in let! ng := read "nnz_tgamma" a in Ok (PartL0Lme nb ng)) a = Ok r ->
  l0 = lme_penalty_of k a -> lme_record l0 s a = Ok m ->
  match r, mo_penalty m with
  | PartDummy, PenNone => True
  | PartL0Lme nb ng, PenL0 kb kg => as_option as_int nb = Ok kb /\ as_option as_int ng = Ok kg
  | PartL1 lam, PenL1 l => as_num lam = Ok l
  | PartCAD rho lam, PenCAD l r => as_num lam = Ok l /\ as_num rho = Ok r
  | PartSCAD rho sigma lam, PenSCAD l r s => as_num lam = Ok l /\ as_num rho = Ok r /\ as_num sigma = Ok s
  | _, _ => False
  end.
Proof.
  intros P -> H. apply lme_record_inv in H as (_ & _ & _ & _ & _ & _ & H & _). apply penalty_part_inv in P.
  destruct k; cbn [lme_penalty_of] in H; open_gets; rewrite <- H.
  - subst r. split; congruence.
  - destruct P as (? & ? & ->). same_reads. assumption.
  - destruct P as (? & ? & ? & ? & ->). same_reads. auto.
  - destruct P as (? & ? & ? & ? & ? & ? & ? & ->). same_reads. auto.
Qed.
Lemma parts_lme_agree c a p m : instantiate_parts c a = Ok p -> lme_model_of c a = Ok m -> lme_agrees p m.
Proof.
  destruct c as [|s|k s| | |]; cbn [instantiate_parts lme_model_of]; try discriminate.
  - intros H M. pose proof M as M0. apply lme_record_inv in M0 as (_ & _ & _ & _ & _ & _ & E & SS & _). apply Ok_inj in E. destruct s.
    + pose proof H as H'. apply lme_simple_sr3_inv in H' as (? & ? & ? & ? & ? & ? & ? & ? & ? & eps & ? & ? & ? & ? & ? & ? & ? & ? & ? & ? & RE & ? & ->).
      apply (sr3_agrees a m _ eps PartDummy (Ok PenNone) H M RE). rewrite <- E. exact I.
    + apply lme_simple_inv in H as (prior & eps & s & RP & RE & PS & ->).
      eapply plain_lme_agrees; try eassumption.
      * intros x Hx. apply Ok_inj in Hx. subst x. cbn [as_num]. reflexivity.
      * intros G. rewrite step_length_default by exact G. rewrite SS, <- E. reflexivity.
      * rewrite <- E. exact I.
  - intros H M. assert (M' : lme_record (lme_penalty_of k a) s a = Ok m) by (destruct k; exact M). clear M.
    apply lme_penalised_inv in H as (p0 & eps & r & H0 & RE & PP & O & G & S).
    pose proof (penalty_agrees k a m _ r s PP eq_refl M') as PEN.
    destruct p as [po pg ps]. cbn [pt_oracle pt_reg pt_solver] in *. subst po pg. destruct s.
    + subst ps. eapply sr3_agrees; eassumption.
    + pose proof M' as M0. apply lme_record_inv in M0 as (_ & _ & _ & _ & _ & _ & E & SS & _).
      apply lme_simple_inv in H0 as (prior & eps0 & s0 & RP & RE0 & PS & ->). cbn [pt_oracle].
      eapply (plain_lme_agrees a m _ prior eps ps r (penalised_default k a)
               (match mo_penalty m with
                | PenNone | PenL0 _ _ => Ok (5 / 100)
                | PenL1 lam | PenCAD lam _ | PenSCAD lam _ _ =>
                    let! _ := guard (nonzero (lam + 1)) ZeroDivisionError in Ok (1 / (lam + 1))
                end)); try eassumption.
      * intros x Hx. unfold penalised_default in Hx. destruct k; cbn [lme_penalty_of] in E.
        -- open_gets. rewrite <- E. subst x. reflexivity.
        -- open_gets. rewrite <- E. same_reads. match type of Hx with penalised_step ?v = _ => match goal with A : as_real v = Ok _ |- _ => destruct (penalised_step_num _ _ _ A Hx) as [Z1 Z2] end end. rewrite Z1, Z2. reflexivity.
        -- open_gets. rewrite <- E. same_reads. match type of Hx with penalised_step ?v = _ => match goal with A : as_real v = Ok _ |- _ => destruct (penalised_step_num _ _ _ A Hx) as [Z1 Z2] end end. rewrite Z1, Z2. reflexivity.
        -- open_gets. rewrite <- E. same_reads. match type of Hx with penalised_step ?v = _ => match goal with A : as_real v = Ok _ |- _ => destruct (penalised_step_num _ _ _ A Hx) as [Z1 Z2] end end. rewrite Z1, Z2. reflexivity.
      * intros Gs. rewrite step_length_default by exact Gs. rewrite SS. reflexivity.
Qed.

Definition linear_penalty_of (k : pen_kind) (a : dict) : res reg :=
  match k with
  | KL0 => let! nnz := get (as_option as_int) "nnz" a in Ok (mk_l0 nnz)
  | KL1 => let! lam := get as_real "lam" a in Ok (mk_l1 lam)
  | KCAD => let! lam := get as_real "lam" a in let! rho := get as_real "rho" a in Ok (mk_cad rho lam)
  | KSCAD => let! lam := get as_real "lam" a in let! rho := get as_real "rho" a in
             let! sigma := get as_real "sigma" a in mk_scad rho sigma lam
  end.
Lemma linear_record_inv r sr3 a m : linear_record r sr3 a = Ok m ->
  exists tol n st step prior,
  r = Ok (lm_reg m) /\
  (if sr3 then exists el practical, read "el" a = Ok el /\ lm_el m <> None /\ as_num el = Ok (match lm_el m with Some e => e | None => 0 end) /\
                read "practical" a = Ok practical /\ truthy practical = lm_practical m
   else lm_el m = None /\ lm_practical m = false) /\
  read "tol_solver" a = Ok tol /\ as_real tol = Ok (lm_tol m) /\
  read "max_iter_solver" a = Ok n /\ as_int n = Ok (lm_max_iter m) /\
  read "stepping" a = Ok st /\ as_str st = Ok (lm_stepping m) /\
  read "fixed_step_len" a = Ok step /\ as_option as_real step = Ok (lm_step_len m) /\
  read "prior" a = Ok prior /\ as_prior prior = Ok (lm_prior m) /\
  get as_keys "logger_keys" a = Ok (lm_keys m).
Proof.
  unfold linear_record. intros H. inv_get H. subst m. cbn [lm_el lm_practical lm_reg lm_tol lm_max_iter lm_stepping lm_step_len lm_prior lm_keys].
  apply get_inv in G2 as (v2 & R2 & E2). apply get_inv in G3 as (v3 & R3 & E3). apply get_inv in G4 as (v4 & R4 & E4).
  apply get_inv in G5 as (v5 & R5 & E5). apply get_inv in G6 as (v6 & R6 & E6).
  exists v2, v3, v4, v5, v6. split; [reflexivity|]. split; [|auto 20].
  destruct sr3.
  - destruct (get as_real "el" a) as [e|] eqn:Ge; cbn [rbind] in G; [|discriminate G]. apply Ok_inj in G. subst w. apply get_inv in Ge as (v & Q & E). apply get_inv in G0 as (v' & Q' & E').
    apply Ok_inj in E'. exists v, v'. split; [exact Q|]. split; [congruence|]. auto.
  - apply Ok_inj in G. apply Ok_inj in G0. auto.
Qed.
Definition default_step (m : linear_model) : R :=
  match lm_el m with None => 5 / 100 | Some el => if reqb el 0 then 1 else 1 / el end.
Lemma linear_step v d step m : as_option as_real v = Ok (lm_step_len m) ->
  (truthy v = true /\ step = v \/ truthy v = false /\ d = Ok step) ->
  (forall x, d = Ok x -> as_num x = Ok (default_step m)) -> as_num step = Ok (effective_step m).
Proof.
  intros O C D. pose proof (step_given _ _ O) as S. unfold effective_step. fold (default_step m).
  destruct (lm_step_len m) as [s|].
  - destruct S as [S1 S2]. destruct (reqb s 0) eqn:Z; cbn [negb] in S2.
    + destruct C as [[C _]|[_ C]]; [congruence|]. apply D, C.
    + destruct C as [[_ ->]|[C _]]; [|congruence]. exact S1.
  - destruct C as [[C _]|[_ C]]; [congruence|]. apply D, C.
Qed.
Lemma simple_agrees a (s : bool) p r m rg : (if s then linear_simple_sr3 a else linear_simple a) = Ok p ->
  linear_record rg s a = Ok m ->
  match r, lm_reg m with
  | PartDummy, RDummy => True
  | PartL0 nnz, RL0 k None None => as_option as_int nnz = Ok k
  | PartL1 lam, RL1 l None => as_num lam = Ok l
  | PartCAD rho lam, RCAD r l None => as_num lam = Ok l /\ as_num rho = Ok r
  | PartSCAD rho sigma lam, RSCAD r s l None => as_num lam = Ok l /\ as_num rho = Ok r /\ as_num sigma = Ok s
  | _, _ => False
  end ->
  linear_agrees {| pt_oracle := pt_oracle p; pt_reg := r; pt_solver := pt_solver p |} m.
Proof.
  intros H M P. apply linear_record_inv in M as (tol & n & st & step & prior & _ & EL & R1 & E1 & R2 & E2 & R3 & E3 & R4 & E4 & R5 & E5 & _).
  unfold linear_agrees. cbn [pt_oracle pt_reg pt_solver]. split; [|split; [|exact P]]; clear P.
  - destruct s.
    + destruct EL as (el & pr & Q1 & NN & Q2 & Q3 & Q4).
      apply linear_simple_sr3_inv in H as (el' & pr' & prior' & s & Z1 & Z2 & Z3 & Z4 & S & ->). same_reads. cbn [pt_solver].
      assert (D : forall el x, as_num el = Ok (match lm_el m with Some e => e | None => 0 end) -> relaxed_step el = Ok x -> as_num x = Ok (default_step m)).
      { intros el x EE Hx. rewrite (relaxed_step_num _ _ _ EE Hx). unfold default_step. destruct (lm_el m); [reflexivity|congruence]. }
      destruct S as [[T (v & x & t & k & Y1 & Y2 & Y3 & Y4 & ->)]|[T (v & x & t & k & u & Y1 & Y2 & Y3 & Y4 & Y5 & ->)]]; same_reads.
      * repeat (split; [first [assumption|congruence]|]). split; [|reflexivity]. eapply linear_step; eauto.
      * repeat (split; [first [assumption|congruence]|]). eapply linear_step; eauto.
    + destruct EL as [N F].
      apply linear_simple_inv in H as (prior' & s & Z1 & (v & x & t & k & u & Y1 & Y2 & Y3 & Y4 & Y5 & ->) & ->). same_reads. cbn [pt_solver].
      repeat (split; [first [assumption|congruence]|]). eapply linear_step; eauto. unfold default_step. rewrite N. intros y Hy. apply Ok_inj in Hy. subst y. reflexivity.
  - destruct s.
    + destruct EL as (el & pr & Q1 & NN & Q2 & Q3 & Q4).
      apply linear_simple_sr3_inv in H as (el' & pr' & prior' & s & Z1 & Z2 & Z3 & Z4 & S & ->). same_reads. cbn [pt_oracle].
      destruct (lm_el m); [auto|congruence].
    + destruct EL as [N F]. rewrite N.
      apply linear_simple_inv in H as (prior' & s & Z1 & _ & ->). same_reads. exact E5.
Qed.
Lemma parts_linear_agree c a p m : instantiate_parts c a = Ok p -> linear_model_of c a = Ok m -> linear_agrees p m.
Proof.
  destruct c as [| | | |s|k s]; cbn [instantiate_parts linear_model_of]; try discriminate.
  - intros H M. assert (H' : (if s then linear_simple_sr3 a else linear_simple a) = Ok p) by (destruct s; exact H).
    assert (E : p = {| pt_oracle := pt_oracle p; pt_reg := PartDummy; pt_solver := pt_solver p |}).
    { destruct s; [apply linear_simple_sr3_inv in H as (? & ? & ? & ? & ? & ? & ? & ? & ? & ->)|apply linear_simple_inv in H as (? & ? & ? & ? & ->)]; reflexivity. }
    rewrite E. eapply simple_agrees; [exact H'|exact M|].
    apply linear_record_inv in M as (_ & _ & _ & _ & _ & EM & _). apply Ok_inj in EM. rewrite <- EM. exact I.
  - intros H M. assert (M' : linear_record (linear_penalty_of k a) s a = Ok m) by (destruct k; exact M). clear M.
    apply linear_penalised_inv in H as (p0 & r & H0 & PP & O & G & S). destruct p as [po pg ps]. cbn [pt_oracle pt_reg pt_solver] in *. subst.
    eapply simple_agrees; [exact H0|exact M'|].
    apply linear_record_inv in M' as (_ & _ & _ & _ & _ & E & _). apply penalty_part_inv in PP.
    destruct k; cbn [linear_penalty_of] in E; open_gets.
    + subst r. rewrite <- E. unfold mk_l0. congruence.
    + destruct PP as (? & ? & ->). rewrite <- E. unfold mk_l1. same_reads. assumption.
    + destruct PP as (? & ? & ? & ? & ->). rewrite <- E. unfold mk_cad. same_reads. auto.
    + destruct PP as (? & ? & ? & ? & ? & ? & ? & ->). unfold mk_scad in E. open_gets. rewrite <- E. same_reads. auto.
Qed.

(** ** unknown options, clone and set_params *)
Lemma unknown_option c kw n v : concrete c -> ~ option_of c n -> construct c ((n, v) :: kw) = construct c kw.
Proof.
  intros C O. rewrite !construct_eq by exact C. f_equal. apply map_ext_in. intros m I.
  apply attributes_signature in I. f_equal. unfold value_in. cbn [lookup].
  destruct (String.eqb_spec m n) as [->|]; [contradiction|reflexivity].
Qed.
Lemma sequence_map_ok {A B} (f : A -> res B) (g : A -> B) l :
  (forall x, In x l -> f x = Ok (g x)) -> sequence (map f l) = Ok (map g l).
Proof.
  induction l as [|x l IH]; cbn [map sequence]; intros H; [reflexivity|].
  rewrite (H x (or_introl eq_refl)). cbn [rbind]. rewrite IH by (intros y I; apply H; right; exact I). reflexivity.
Qed.
Lemma get_params_ok c a : (forall n, option_of c n -> exists v, lookup n a = Some v) ->
  get_params c a = Ok (map (fun n => (n, match lookup n a with Some v => v | None => VNone end)) (names (signature c))).
Proof.
  intros H. unfold get_params. apply sequence_map_ok. intros n I. unfold read.
  destruct (H n I) as [v ->]. reflexivity.
Qed.
Lemma given_some c kw n : option_of c n -> exists v, given c kw n = Some v.
Proof. unfold given. destruct (lookup n kw); eauto. intros O. apply (lookup_In n (signature c) O). Qed.
(** an object is determined by its attributes *)
Lemma construct_ext c a b : names a = attributes c -> names b = attributes c ->
  (forall n, option_of c n -> lookup n a = lookup n b) -> a = b.
Proof.
  intros NA NB L. apply dict_ext; [rewrite NA; apply attributes_nodup|congruence|].
  intros n I. apply L. apply attributes_signature. rewrite <- NA. exact I.
Qed.
Lemma names_given c a : names a = attributes c -> forall n, option_of c n -> exists v, lookup n a = Some v.
Proof. intros N n O. apply lookup_In. fold (names a). rewrite N. apply attributes_signature, O. Qed.
Lemma clone_same c a : concrete c -> names a = attributes c -> clone c a = Ok a.
Proof.
  intros C N. unfold clone. rewrite get_params_ok by (apply names_given, N). cbn [rbind].
  set (ps := map _ _). destruct (construct c ps) as [b|e] eqn:E.
  - f_equal. apply (construct_ext c); [eapply construct_names; eassumption|exact N|].
    intros n O. rewrite (construct_lookup c ps b n C E O). unfold given, ps.
    rewrite lookup_map_names. rewrite (proj2 (has_key_In n (names (signature c))) O).
    destruct (names_given c a N n O) as [v ->]. reflexivity.
  - rewrite construct_eq in E by exact C. discriminate E.
Qed.
Lemma names_set n v (a : dict) : In n (names a) -> names (dict_set n v a) = names a.
Proof.
  induction a as [|[m w] a IH]; cbn [names map fst In dict_set]; [tauto|].
  destruct (String.eqb_spec n m) as [->|D]; cbn [map fst]; [reflexivity|].
  intros [E|I]; [congruence|]. f_equal. apply IH, I.
Qed.
Lemma set_params_ok c : forall ps a, names a = attributes c -> (forall n, In n (names ps) -> option_of c n) ->
  exists a', set_params c a ps = (a', Ok tt) /\ names a' = attributes c /\
  forall n, lookup n a' = match lookup n (rev ps) with Some v => Some v | None => lookup n a end.
Proof.
  induction ps as [|[n v] ps IH]; intros a N K.
  - exists a. split; [reflexivity|]. split; [exact N|]. reflexivity.
  - cbn [set_params]. assert (O : option_of c n) by (apply K; left; reflexivity).
    rewrite (proj2 (has_key_In n (names (signature c))) O).
    destruct (IH (dict_set n v a)) as (a' & E & N' & L).
    + rewrite names_set; [exact N|]. rewrite N. apply attributes_signature, O.
    + intros m I. apply K. right. exact I.
    + exists a'. split; [exact E|]. split; [exact N'|]. intros m. rewrite L. cbn [rev].
      assert (A : forall (d e : dict), lookup m (d ++ e) = match lookup m d with Some x => Some x | None => lookup m e end).
      { induction d as [|[q x] d IHd]; intros e; cbn [app lookup]; [reflexivity|]. destruct (String.eqb m q); [reflexivity|apply IHd]. }
      rewrite A. destruct (lookup m (rev ps)); [reflexivity|]. cbn [lookup]. rewrite lookup_set.
      destruct (String.eqb m n); reflexivity.
Qed.
Lemma set_params_unknown c : forall ps a n, In n (names ps) -> ~ option_of c n -> snd (set_params c a ps) = Err ValueError.
Proof.
  induction ps as [|[m v] ps IH]; intros a n I U; [destruct I|]. cbn [set_params].
  destruct (has_key m (names (signature c))) eqn:K; [|reflexivity].
  apply IH with (n := n); [|exact U]. destruct I as [<-|I]; [|exact I]. exfalso. apply U, has_key_In. exact K.
Qed.
