(** Stopping a run of the solver and continuing it. *)
From Coq Require Import Lia Lra.
From Verif.Base Require Import Py Vec Mat.
From Verif.Model Require Import Regularizers Linear LmeInner LmeFit.
From Verif.Spec Require Import SolverSpec ContinueSpec.
From Verif.Proofs Require Import SolverProofs LinearProofs.
Open Scope string_scope.
Open Scope list_scope.
Open Scope R_scope.

Section Continue.
Context {S : Type}.
Variable orc : oracle S.
Variable rg : regularizer.
Variable slv : pgd_solver.
Variable s0 : S.
Hypothesis Hst : steady orc s0.

Lemma ls_other_z fuel : forall s x d step z z2 step' z' s',
  line_search orc rg fuel s x d step z = Ok (step', z', s') ->
  exists z2', line_search orc rg fuel s x d step z2 = Ok (step', z2', s').
Proof.
  destruct fuel as [|fuel]; intros s x d step z z2 step' z' s' H; cbn [line_search] in *;
    destruct (rltb ls_threshold step); try discriminate.
  - apply Ok_inj in H. injection H as <- _ <-. eauto.
  - apply rbind_inv in H as [y [-> H]]. cbn [rbind]. apply rbind_inv in H as [zz [-> H]]. cbn [rbind].
    apply rbind_inv in H as [[ok s1] [-> H]]. cbn [rbind]. destruct ok; eauto.
  - apply Ok_inj in H. injection H as <- _ <-. eauto.
Qed.

Lemma ls_steady fuel : forall x d step z step' z' s',
  line_search orc rg fuel s0 x d step z = Ok (step', z', s') -> s' = s0.
Proof.
  destruct Hst as [Hv _].
  induction fuel as [|fuel IH]; intros x d step z step' z' s' H; cbn [line_search] in *;
    destruct (rltb ls_threshold step); try discriminate; try (apply Ok_inj in H; congruence).
  apply rbind_inv in H as [y [_ H]]. apply rbind_inv in H as [zz [_ H]].
  apply rbind_inv in H as [[ok s1] [A H]]. unfold ls_accept in A.
  apply rbind_inv in A as [[fz t1] [A1 A]]. apply Hv in A1. subst t1.
  apply rbind_inv in A as [[fx t2] [A2 A]]. apply Hv in A2. subst t2.
  apply rbind_inv in A as [u [_ A]]. apply Ok_inj in A. injection A as _ <-.
  destruct ok; [apply Ok_inj in H; congruence|]. eapply IH; eauto.
Qed.

(** the objective can be evaluated where it is logged *)
Definition known (st : @pgd_state S) : Prop := has_key "loss" (lg_keys (st_logger st)) = true ->
  exists v r, o_value orc s0 (st_x st) = Ok (v, s0) /\ r_value rg (st_x st) = Ok r.
Definition usual (st : @pgd_state S) : Prop := st_oracle st = s0 /\ logger_wf (st_logger st).

Lemma log_usual x0 st st' : usual st -> log_state orc rg x0 st = Ok st' -> usual st' /\ known st'.
Proof.
  intros [E W] H. destruct (log_state_inv _ _ _ _ _ H) as (E1 & _ & _ & E4 & _).
  unfold log_state in H. apply rbind_inv in H as [[l s] [A H]]. apply rbind_inv in H as [lg [B H]].
  assert (K : s = s0 /\ known st).
  { unfold known. rewrite E in A. destruct (has_key "loss" (lg_keys (st_logger st))).
    - apply rbind_inv in A as [[f s'] [A1 A]]. apply rbind_inv in A as [r [A2 A]]. apply Ok_inj in A.
      pose proof (proj1 Hst _ _ _ A1). subst s'. split; [congruence|]. eauto.
    - apply Ok_inj in A. split; [congruence|discriminate]. }
  destruct K as [-> K]. split.
  - apply Ok_inj in H. subst st'. split; cbn; [reflexivity|].
    destruct (0 <? length (lg_keys (st_logger st)))%nat; [|apply Ok_inj in B; subst lg; exact W].
    match type of B with log _ ?p = _ => destruct (log_wf _ p W) as [lg' [B' W']] end.
    rewrite B in B'. apply Ok_inj in B'. subst lg'. exact W'.
  - unfold known in *. rewrite E1, E4. exact K.
Qed.

Lemma log_again x0 st : usual st -> known st -> exists st', log_state orc rg x0 st = Ok st'.
Proof.
  intros [E W] K. unfold log_state. rewrite E.
  assert (L : forall l, exists lg, (if (0 <? length (lg_keys (st_logger st)))%nat then
    log (st_logger st) (pgd_locals x0 {| st_x := st_x st; st_x_prev := st_x_prev st; st_iteration := st_iteration st;
                st_loss := l; st_direction := st_direction st; st_step_len := st_step_len st;
                st_y := st_y st; st_z := st_z st; st_oracle := s0; st_logger := st_logger st |})
     else Ok (st_logger st)) = Ok lg).
  { intros l. destruct (0 <? length (lg_keys (st_logger st)))%nat; [|eauto].
    match goal with |- exists lg, log _ ?p = _ => destruct (log_wf _ p W) as [lg [B _]] end. eauto. }
  unfold known in K. destruct (has_key "loss" (lg_keys (st_logger st))).
  - destruct (K eq_refl) as (v & r & -> & ->). cbn [rbind]. destruct (L (Some (eadd (Fin v) r))) as [lg ->]. cbn [rbind]. eauto.
  - cbn [rbind]. destruct (L (st_loss st)) as [lg ->]. cbn [rbind]. eauto.
Qed.

(** a later state of a long run and a state of the run that continues it *)
Definition sim (n : nat) (a b : @pgd_state S) : Prop :=
  st_x a = st_x b /\ usual a /\ usual b /\ st_iteration a = (n + st_iteration b)%nat /\
  lg_keys (st_logger a) = lg_keys (st_logger b) /\ lg_kind (st_logger a) = lg_kind (st_logger b) /\
  exists m, moved (s_tol slv) (st_x a) (st_x_prev a) = Ok m /\ moved (s_tol slv) (st_x b) (st_x_prev b) = Ok m.

Lemma step_usual k x0 a a' : usual a -> pgd_step orc rg (solver_until slv k) x0 a = Ok a' -> usual a' /\ known a'.
Proof.
  intros [E W] H. unfold pgd_step in H. apply rbind_inv in H as [[g s1] [Hg H]]. rewrite E in Hg.
  apply (proj2 Hst) in Hg. subst s1. apply rbind_inv in H as [[[step z] s2] [Hs H]].
  apply rbind_inv in H as [y [_ H]]. apply rbind_inv in H as [x' [_ H]]. eapply log_usual; [|exact H].
  split; [|exact W]. cbn. destruct (String.eqb (s_stepping (solver_until slv k)) "line-search").
  - apply ls_steady in Hs. exact Hs.
  - apply Ok_inj in Hs. congruence.
Qed.

Lemma step_same n x0 k a a' : pgd_step orc rg (solver_until slv n) x0 a = Ok a' -> pgd_step orc rg (solver_until slv k) x0 a = Ok a'.
Proof. exact (fun H => H). Qed.

(** the oracle and the proximal operator see the same inputs *)
Lemma step_sim n k l x0 y0 a b a' : sim n a b -> pgd_step orc rg (solver_until slv k) x0 a = Ok a' ->
  (exists m, moved (s_tol slv) (st_x a') (st_x_prev a') = Ok m) ->
  exists b', pgd_step orc rg (solver_until slv l) y0 b = Ok b' /\ sim n a' b'.
Proof.
  intros (Ex & Ua & Ub & Ei & Ek & Ed & _) H [m Hm].
  destruct (step_usual _ _ _ _ Ua H) as [Ua' Ka].
  destruct (pgd_step_inv _ _ _ _ _ _ H) as (P1 & P2 & P3 & P4 & _).
  assert (H' := H). unfold pgd_step in H. unfold pgd_step.
  destruct Ua as [Oa Wa]. destruct Ub as [Ob Wb]. rewrite Oa, Ex in H. rewrite Ob.
  apply rbind_inv in H as [[g s1] [Hg H]]. rewrite Hg. cbn [rbind].
  pose proof (proj2 Hst _ _ _ Hg). subst s1.
  apply rbind_inv in H as [[[step z] s2] [Hs H]].
  assert (S2 : s2 = s0 /\ exists z2, (if String.eqb (s_stepping (solver_until slv l)) "line-search"
     then line_search orc rg (ls_fuel (s_step_len (solver_until slv l))) s0 (st_x b) (vneg g) (s_step_len (solver_until slv l)) (st_z b)
     else Ok (s_step_len (solver_until slv l), st_z b, s0)) = Ok (step, z2, s2)).
  { cbn [solver_until s_stepping s_step_len] in *. destruct (String.eqb (s_stepping slv) "line-search").
    - split; [exact (ls_steady _ _ _ _ _ _ _ _ Hs)|]. exact (ls_other_z _ _ _ _ _ _ (st_z b) _ _ _ Hs).
    - apply Ok_inj in Hs. injection Hs as <- _ <-. split; [reflexivity|]. eauto. }
  destruct S2 as [-> [z2 ->]]. cbn [rbind].
  apply rbind_inv in H as [y [-> H]]. cbn [rbind]. apply rbind_inv in H as [x' [-> H]]. cbn [rbind].
  destruct (log_state_inv _ _ _ _ _ H) as (E1 & E2 & _). cbn in E1, E2.
  match goal with |- context [log_state orc rg y0 ?st] => set (st1 := st) end.
  assert (U1 : usual st1) by (split; [reflexivity|exact Wb]).
  assert (K1 : known st1).
  { unfold known in *. cbn. rewrite E1, P3, Ek in Ka. exact Ka. }
  destruct (log_again y0 st1 U1 K1) as [b' Hb']. exists b'. split; [exact Hb'|].
  destruct (log_usual _ _ _ U1 Hb') as [Ub' _].
  destruct (log_state_inv _ _ _ _ _ Hb') as (F1 & F2 & F3 & F4 & F5). cbn in F1, F2, F3, F4, F5.
  split; [congruence|]. split; [exact Ua'|]. split; [exact Ub'|]. split; [rewrite P2, F3, Ei; lia|].
  split; [congruence|]. split; [congruence|]. exists m. split; [exact Hm|].
  rewrite F1, F2, <- E1, <- E2. exact Hm.
Qed.

Lemma loop_moved k fuel x0 st st' : pgd_loop orc rg (solver_until slv k) fuel x0 st = Ok st' ->
  exists m, moved (s_tol slv) (st_x st) (st_x_prev st) = Ok m.
Proof. destruct fuel; cbn [pgd_loop]; intros H; apply rbind_inv in H as [m [Hm _]]; eauto. Qed.

Lemma loop_sim n1 n2 x0 y0 fuel : forall fuel2 a b a', sim n1 a b ->
  (n2 <= st_iteration b + fuel2)%nat ->
  pgd_loop orc rg (solver_until slv (Z.of_nat (n1 + n2))) fuel x0 a = Ok a' ->
  exists b', pgd_loop orc rg (solver_until slv (Z.of_nat n2)) fuel2 y0 b = Ok b' /\ sim n1 a' b'.
Proof.
  induction fuel as [|fuel IH]; intros fuel2 a b a' Hs Hf H.
  - assert (Hs' := Hs). destruct Hs' as (Ex & Ua & Ub & Ei & Ek & Ed & m & M1 & M2).
    cbn [pgd_loop] in H. cbn [solver_until s_tol s_max_iter] in H. rewrite M1 in H. cbn [rbind] in H.
    exists b. destruct (m && _)%bool eqn:E; [discriminate|]. apply Ok_inj in H. subst a'. split; [|exact Hs].
    assert (E' : (m && (Z.of_nat (st_iteration b) <? Z.of_nat n2)%Z)%bool = false).
    { rewrite <- E. f_equal. rewrite Ei. destruct (Z.ltb_spec (Z.of_nat (n1 + st_iteration b)) (Z.of_nat (n1 + n2)));
      destruct (Z.ltb_spec (Z.of_nat (st_iteration b)) (Z.of_nat n2)); reflexivity || lia. }
    destruct fuel2; cbn [pgd_loop]; cbn [solver_until s_tol s_max_iter]; rewrite M2; cbn [rbind]; rewrite E'; reflexivity.
  - assert (Hs' := Hs). destruct Hs' as (Ex & Ua & Ub & Ei & Ek & Ed & m & M1 & M2).
    cbn [pgd_loop] in H. cbn [solver_until s_tol s_max_iter] in H. rewrite M1 in H. cbn [rbind] in H.
    assert (E' : (Z.of_nat (st_iteration b) <? Z.of_nat n2)%Z = (Z.of_nat (st_iteration a) <? Z.of_nat (n1 + n2))%Z).
    { rewrite Ei. destruct (Z.ltb_spec (Z.of_nat (n1 + st_iteration b)) (Z.of_nat (n1 + n2)));
      destruct (Z.ltb_spec (Z.of_nat (st_iteration b)) (Z.of_nat n2)); reflexivity || lia. }
    rewrite <- E' in H. destruct (m && _)%bool eqn:E.
    + apply rbind_inv in H as [a1 [H1 H]].
      destruct (step_sim _ _ (Z.of_nat n2) x0 y0 _ _ _ Hs H1 (loop_moved _ _ _ _ _ H)) as [b1 [B1 S1]].
      apply andb_true_iff in E as [Em E]. apply Z.ltb_lt in E. destruct fuel2 as [|fuel2]; [lia|].
      destruct (pgd_step_inv _ _ _ _ _ _ B1) as (_ & I1 & _).
      destruct (IH fuel2 a1 b1 a' S1) as [b' [B' S']]; [rewrite I1; lia|exact H|].
      exists b'. split; [|exact S']. cbn [pgd_loop]. cbn [solver_until s_tol s_max_iter]. rewrite M2. cbn [rbind].
      apply Z.ltb_lt in E. rewrite Em, E. cbn [andb]. unfold solver_until in B1. cbn in B1.
      eapply rbind_ok_intro; [exact B1|exact B'].
    + apply Ok_inj in H. subst a'. exists b. split; [|exact Hs].
      destruct fuel2; cbn [pgd_loop]; cbn [solver_until s_tol s_max_iter]; rewrite M2; cbn [rbind]; rewrite E; reflexivity.
Qed.

(** a run that passes iteration n1 is there in a state where a run of n1 iterations ends *)
Lemma loop_prefix N n1 x0 fuel : forall fuel1 st st', usual st -> known st -> (n1 <= st_iteration st + fuel1)%nat ->
  (st_iteration st <= n1)%nat -> (n1 < st_iteration st')%nat ->
  pgd_loop orc rg (solver_until slv N) fuel x0 st = Ok st' ->
  exists mid fuel', pgd_loop orc rg (solver_until slv (Z.of_nat n1)) fuel1 x0 st = Ok mid /\ st_iteration mid = n1 /\
    usual mid /\ known mid /\ moved (s_tol slv) (st_x mid) (st_x_prev mid) = Ok true /\
    lg_keys (st_logger mid) = lg_keys (st_logger st) /\ lg_kind (st_logger mid) = lg_kind (st_logger st) /\
    pgd_loop orc rg (solver_until slv N) fuel' x0 mid = Ok st'.
Proof.
  induction fuel as [|fuel IH]; intros fuel1 st st' U K Hf Hi Hi' H.
  - exfalso. cbn [pgd_loop] in H. apply rbind_inv in H as [m [_ H]]. destruct (m && _)%bool; [discriminate|].
    apply Ok_inj in H. subst st'. lia.
  - assert (H' := H). cbn [pgd_loop] in H. apply rbind_inv in H as [m [Hm H]]. cbn [solver_until s_tol] in Hm.
    destruct (m && _)%bool eqn:E; [|apply Ok_inj in H; subst st'; lia].
    apply andb_true_iff in E as [Em E]. subst m. apply rbind_inv in H as [st1 [H1 H]].
    destruct (Nat.eq_dec (st_iteration st) n1) as [e|ne].
    + exists st, (Datatypes.S fuel). split.
      { apply (pgd_loop_stop orc rg (solver_until slv (Z.of_nat n1)) fuel1 x0 st true); [exact Hm|].
        cbn [solver_until s_max_iter]. rewrite e, Z.ltb_irrefl. reflexivity. }
      auto 10.
    + destruct (step_usual _ _ _ _ U H1) as [U1 K1]. destruct (pgd_step_inv _ _ _ _ _ _ H1) as (_ & I1 & Ek & Ed & _).
      destruct fuel1 as [|fuel1]; [lia|].
      destruct (IH fuel1 st1 st' U1 K1) as (mid & fuel' & A1 & A2 & A3 & A4 & A5 & A6 & A7 & A8);
        [rewrite I1; lia|rewrite I1; lia|exact Hi'|exact H|].
      exists mid, fuel'. split; [|repeat (split; [congruence || assumption|]); assumption].
      cbn [pgd_loop]. cbn [solver_until s_tol s_max_iter]. rewrite Hm. cbn [rbind].
      assert (Z.of_nat (st_iteration st) <? Z.of_nat n1 = true)%Z as -> by (apply Z.ltb_lt; lia). cbn [andb].
      eapply rbind_ok_intro; [exact H1|exact A1].
Qed.

Lemma add_like lg1 lg2 k v w lg1' : lg_keys lg1 = lg_keys lg2 -> lg_kind lg1 = lg_kind lg2 -> add lg1 k v = Ok lg1' ->
  exists lg2', add lg2 k w = Ok lg2' /\ lg_keys lg1' = lg_keys lg2' /\ lg_kind lg1' = lg_kind lg2'.
Proof.
  intros Ek Ed H. assert (A : exists lg2', add lg2 k w = Ok lg2').
  { unfold add in *. rewrite <- Ek, <- Ed. destruct (has_key k (lg_keys lg1)); [eauto|]. destruct (lg_kind lg1); eauto; discriminate. }
  destruct A as [lg2' A]. exists lg2'. split; [exact A|].
  destruct (add_lookup _ _ _ _ H) as (_ & D1 & K1). destruct (add_lookup _ _ _ _ A) as (_ & D2 & K2).
  rewrite K1, K2, D1, D2, Ek, Ed. auto.
Qed.

Lemma adds_get lg c i lg1 lg2 : add lg "converged" c = Ok lg1 -> add lg1 "iteration" i = Ok lg2 ->
  get lg2 "iteration" = Ok i /\ get lg2 "converged" = Ok c.
Proof.
  intros A B. unfold get. destruct (add_lookup _ _ _ _ B) as [L _]. destruct (add_lookup _ _ _ _ A) as [L' _].
  rewrite !L. cbn. rewrite L'. auto.
Qed.

Lemma continue_run n1 n2 k c x0 lg x lg' s' : logger_wf lg ->
  pgd_optimize orc rg (solver_until slv (Z.of_nat (n1 + n2))) x0 s0 lg = Ok (x, lg', s') ->
  ran lg' k c -> (n1 < k)%nat ->
  exists x1 lg1 lg2, pgd_optimize orc rg (solver_until slv (Z.of_nat n1)) x0 s0 lg = Ok (x1, lg1, s0) /\ ran lg1 n1 false /\
    pgd_optimize orc rg (solver_until slv (Z.of_nat n2)) x1 s0 lg = Ok (x, lg2, s0) /\ ran lg2 (k - n1) c /\
    lg_keys lg' = lg_keys lg2 /\ lg_kind lg' = lg_kind lg2.
Proof.
  intros W H [Ri Rc] Hk. unfold pgd_optimize in H. apply rbind_inv in H as [st0 [H0 H]].
  apply rbind_inv in H as [st [H1 H]]. apply rbind_inv in H as [lga [Ha H]].
  apply rbind_inv in H as [lgb [Hb H]]. apply Ok_inj in H. injection H as <- <- <-.
  destruct (adds_get _ _ _ _ _ Ha Hb) as [Gi Gc]. rewrite Gi in Ri. rewrite Gc in Rc.
  apply Ok_inj in Ri, Rc. injection Ri as Ri. apply INR_eq in Ri. injection Rc as Rc.
  assert (U : usual (pgd_init x0 s0 lg)) by (split; [reflexivity|exact W]).
  destruct (log_usual _ _ _ U H0) as [U0 K0].
  destruct (log_state_inv _ _ _ _ _ H0) as (E1 & E2 & E3 & E4 & E5). cbn in E1, E2, E3, E4, E5.
  destruct (loop_prefix (Z.of_nat (n1 + n2)) n1 x0 (Z.to_nat (s_max_iter (solver_until slv (Z.of_nat (n1 + n2))))) n1 st0 st U0 K0) as (mid & fuel' & A1 & A2 & A3 & A4 & A5 & A6 & A7 & A8);
    [rewrite E3; lia|rewrite E3; lia|lia|exact H1|].
  assert (Hx : st_x mid <> [] \/ rltb (s_tol slv) 0 = true).
  { destruct (st_x mid) eqn:Em; [|left; discriminate]. right.
    destruct (st_x_prev mid) as [p|]; cbn in A5; [|apply Ok_inj in A5; exact A5].
    destruct p; [|discriminate]. cbn in A5. apply Ok_inj in A5. rewrite <- A5. f_equal. symmetry. exact sqrt_0. }
  assert (Um : usual (pgd_init (st_x mid) s0 lg)) by (split; [reflexivity|exact W]).
  destruct (log_again (st_x mid) _ Um) as [b Hb0].
  { unfold known in *. cbn. rewrite A6, E4 in A4. exact A4. }
  destruct (log_usual _ _ _ Um Hb0) as [Ub _].
  destruct (log_state_inv _ _ _ _ _ Hb0) as (F1 & F2 & F3 & F4 & F5). cbn in F1, F2, F3, F4, F5.
  assert (Sm : sim n1 mid b).
  { split; [congruence|]. split; [exact A3|]. split; [exact Ub|]. split; [rewrite F3; lia|]. split; [congruence|].
    split; [congruence|]. exists true. split; [exact A5|]. rewrite F1, F2. cbn [moved].
    destruct (st_x mid); [|reflexivity]. destruct Hx as [Hx|Hx]; [congruence|]. rewrite Hx. reflexivity. }
  destruct (loop_sim n1 n2 x0 (st_x mid) fuel' n2 mid b st Sm) as [b' [B' S']]; [lia|exact A8|].
  destruct S' as (Ex & [Os _] & [Ob _] & Ei & Ek & Ed & _).
  assert (Kst : lg_keys (st_logger st) = lg_keys (st_logger mid) /\ lg_kind (st_logger st) = lg_kind (st_logger mid)).
  { apply pgd_loop_inv in A8 as (path & _ & _ & _ & _ & _ & _ & _ & Q8 & Q9). auto. }
  destruct Kst as [Q8 Q9].
  destruct (add_like _ _ "converged" _ (LAtom (LBool (Z.of_nat (st_iteration mid) <? Z.of_nat n1)%Z)) _ Q8 Q9 Ha) as [lga1 [La1 [La2 La3]]].
  destruct (add_like _ _ "iteration" _ (LAtom (LNum (INR (st_iteration mid)))) _ La2 La3 Hb) as [lgb1 [Lb1 _]].
  destruct (add_like _ _ "converged" _ (LAtom (LBool (Z.of_nat (st_iteration b') <? Z.of_nat n2)%Z)) _ Ek Ed Ha) as [lga2 [Ma1 [Ma2 Ma3]]].
  destruct (add_like _ _ "iteration" _ (LAtom (LNum (INR (st_iteration b')))) _ Ma2 Ma3 Hb) as [lgb2 [Mb1 Mb2]].
  exists (st_x mid), lgb1, lgb2. split; [|split; [|split; [|split; [|exact Mb2]]]].
  - unfold pgd_optimize. rewrite H0. cbn [rbind]. cbn [solver_until s_max_iter]. rewrite Nat2Z.id. unfold solver_until in A1.
    eapply rbind_ok_intro; [exact A1|]. eapply rbind_ok_intro; [exact La1|]. eapply rbind_ok_intro; [exact Lb1|].
    destruct A3 as [-> _]. reflexivity.
  - destruct (adds_get _ _ _ _ _ La1 Lb1) as [G1 G2]. split; [rewrite G1, A2; reflexivity|].
    rewrite G2, A2, Z.ltb_irrefl. reflexivity.
  - unfold pgd_optimize. rewrite Hb0. cbn [rbind]. cbn [solver_until s_max_iter]. rewrite Nat2Z.id. unfold solver_until in B'.
    eapply rbind_ok_intro; [exact B'|]. eapply rbind_ok_intro; [exact Ma1|]. eapply rbind_ok_intro; [exact Mb1|].
    rewrite Ob, Ex. reflexivity.
  - destruct (adds_get _ _ _ _ _ Ma1 Mb1) as [G1 G2]. split.
    + rewrite G1. replace (k - n1)%nat with (st_iteration b') by lia. reflexivity.
    + rewrite G2, <- Rc. do 3 f_equal. rewrite Ei. cbn [solver_until s_max_iter].
      destruct (Z.ltb_spec (Z.of_nat (n1 + st_iteration b')) (Z.of_nat (n1 + n2)));
      destruct (Z.ltb_spec (Z.of_nat (st_iteration b')) (Z.of_nat n2)); reflexivity || lia.
Qed.

(** a run that stops by itself early stops there under a smaller limit too *)
Lemma loop_early N n1 x0 fuel : forall fuel1 st st', (Z.of_nat n1 <= N)%Z -> (n1 <= st_iteration st + fuel1)%nat ->
  (st_iteration st' <= n1)%nat ->
  pgd_loop orc rg (solver_until slv N) fuel x0 st = Ok st' ->
  pgd_loop orc rg (solver_until slv (Z.of_nat n1)) fuel1 x0 st = Ok st'.
Proof.
  induction fuel as [|fuel IH]; intros fuel1 st st' HN Hf Hi H;
    cbn [pgd_loop] in H; apply rbind_inv in H as [m [Hm H]]; cbn [solver_until s_tol s_max_iter] in Hm, H;
    destruct (m && _)%bool eqn:E; try discriminate.
  2:{ apply andb_true_iff in E as [-> E]. apply Z.ltb_lt in E. apply rbind_inv in H as [st1 [H1 H]].
      destruct (pgd_step_inv _ _ _ _ _ _ H1) as (_ & I1 & _).
      assert (Hi1 : (st_iteration st1 <= st_iteration st')%nat).
      { apply pgd_loop_inv in H as (path & _ & _ & Q & _). lia. }
      destruct fuel1 as [|fuel1]; [lia|]. cbn [pgd_loop]. cbn [solver_until s_tol s_max_iter]. rewrite Hm. cbn [rbind].
      assert (Z.of_nat (st_iteration st) <? Z.of_nat n1 = true)%Z as -> by (apply Z.ltb_lt; lia). cbn [andb].
      eapply rbind_ok_intro; [exact H1|]. apply IH; [exact HN|lia|exact Hi|exact H]. }
  all: apply Ok_inj in H; subst st'; apply (pgd_loop_stop orc rg (solver_until slv (Z.of_nat n1)) fuel1 x0 st m); [exact Hm|];
    cbn [solver_until s_max_iter]; apply andb_false_iff in E as [->|E]; [reflexivity|]; apply andb_false_iff; right;
    apply Z.ltb_ge in E; apply Z.ltb_ge; lia.
Qed.

Lemma early_run n1 n2 k c x0 lg x lg' s' :
  pgd_optimize orc rg (solver_until slv (Z.of_nat (n1 + n2))) x0 s0 lg = Ok (x, lg', s') ->
  ran lg' k c -> (k <= n1)%nat ->
  exists lg1, pgd_optimize orc rg (solver_until slv (Z.of_nat n1)) x0 s0 lg = Ok (x, lg1, s') /\ ran lg1 k (k <? n1)%nat /\
    lg_keys lg' = lg_keys lg1 /\ lg_kind lg' = lg_kind lg1.
Proof.
  intros H [Ri Rc] Hk. unfold pgd_optimize in H. apply rbind_inv in H as [st0 [H0 H]].
  apply rbind_inv in H as [st [H1 H]]. apply rbind_inv in H as [lga [Ha H]].
  apply rbind_inv in H as [lgb [Hb H]]. apply Ok_inj in H. injection H as <- <- <-.
  destruct (adds_get _ _ _ _ _ Ha Hb) as [Gi Gc]. rewrite Gi in Ri. apply Ok_inj in Ri. injection Ri as Ri. apply INR_eq in Ri.
  destruct (log_state_inv _ _ _ _ _ H0) as (E1 & E2 & E3 & E4 & E5). cbn in E3.
  pose proof (loop_early (Z.of_nat (n1 + n2)) n1 x0 _ n1 st0 st ltac:(lia) ltac:(lia) ltac:(lia) H1) as A1.
  destruct (add_like _ _ "converged" _ (LAtom (LBool (Z.of_nat (st_iteration st) <? Z.of_nat n1)%Z)) _ eq_refl eq_refl Ha) as [lga1 [La1 [La2 La3]]].
  destruct (add_like _ _ "iteration" _ (LAtom (LNum (INR (st_iteration st)))) _ La2 La3 Hb) as [lgb1 [Lb1 Lb2]].
  exists lgb1. split; [|split; [|exact Lb2]].
  - unfold pgd_optimize. rewrite H0. cbn [rbind]. cbn [solver_until s_max_iter]. rewrite Nat2Z.id. unfold solver_until in A1.
    eapply rbind_ok_intro; [exact A1|]. eapply rbind_ok_intro; [exact La1|]. eapply rbind_ok_intro; [exact Lb1|]. reflexivity.
  - destruct (adds_get _ _ _ _ _ La1 Lb1) as [G1 G2]. rewrite Ri in *. split; [exact G1|]. rewrite G2. do 3 f_equal.
    destruct (Z.ltb_spec (Z.of_nat k) (Z.of_nat n1)); destruct (Nat.ltb_spec k n1); reflexivity || lia.
Qed.

End Continue.
