(** Lemmas about the cached factors: Properties/LmeCache.v. *)
From Coq Require Import Reals Lra.
From Verif.Base Require Import Py Vec RMx.
From Verif.Proofs Require Import VecFacts.
From mathcomp Require Import ssreflect ssrfun ssrbool eqtype ssrnat choice seq fintype
  finfun bigop finset ssralg matrix mxalgebra.
From Verif.Model Require Import LmeOracle LmeCache.
From Verif.Spec Require Import MxSpec CacheSpec.
From Verif.Proofs Require Import LmeOracleProofs.
Set Implicit Arguments.
Unset Strict Implicit.
Unset Printing Implicit Defensive.
Import GRing.Theory.
Local Open Scope ring_scope.
Local Open Scope res_scope.

Definition to_kept (p q : nat) (f : fgroup p q) : kept := Kept (f_el f) (f_inv f).

Lemma keep_factor p q (v : vec) (g : group p q) : length v = q ->
  keep v g = rmap (@to_kept p q) (factor (\col_i List.nth i v 0%coqR) g).
Proof.
  move=> hv; rewrite /keep /factor /omega_of hv Nat.eqb_refl.
  case: q g hv => [|q] g hv; cbn [Nat.eqb ltn rbind]; case: (cholesky _) => [el|e] //=.
Qed.
Lemma factor_group p q gamma (g : group p q) f : factor gamma g = Ok f -> f_g f = g.
Proof. by rewrite /factor; case: (cholesky _) => [el|e] //= [<-]. Qed.

Lemma pair_up_own p q gamma (g : group p q) f : factor gamma g = Ok f -> pair_up g (to_kept f) = Ok f.
Proof.
  rewrite /factor; case: (cholesky _) => [el|e] //= [<-]; rewrite /pair_up /=.
  by case: eqP => // e; rewrite !castmx_id.
Qed.

Lemma keep_all_spec p q (v : vec) (gs : seq (group p q)) : length v = q ->
  match recalculate gs (\col_i List.nth i v 0%coqR) with
  | Ok fs => keep_all v gs = (map (@to_kept p q) fs, Ok tt) /\ zip_kept gs (map (@to_kept p q) fs) = Ok fs
  | Err e => exists ks, keep_all v gs = (ks, Err e)
  end.
Proof.
  move=> hv; rewrite /recalculate; elim: gs => [|g gs IH] //=.
  rewrite (keep_factor _ hv); case E: (factor _ g) => [f|e] /=; last by eexists.
  move: IH; case: (sequence _) => [fs|e] /=.
  - by move=> [-> Hz]; split=> //; rewrite (pair_up_own E) /= Hz.
  - by move=> [ks ->]; eexists.
Qed.

Lemma any_differs_same (a b : vec) : length a = length b ->
  exists d, any_differs (Some a) b = Ok d /\ (d = false <-> a = b).
Proof.
  move=> h; rewrite /any_differs h Nat.eqb_refl; eexists; split; first by [].
  elim: a b h => [|x a IH] [|y b] //= [h].
  split.
  - move=> /Bool.orb_false_iff [h1 h2].
    have -> : x = y by apply: (proj1 (reqb_true x y)); case: (reqb x y) h1.
    by rewrite (proj1 (IH _ h) h2).
  - move=> [<- e]. rewrite (proj2 (reqb_true x x)) //=. exact: (proj2 (IH _ h)).
Qed.

(** the cache holds the factors for what it says *)
Definition sound (m : memory) (c : cache) : Prop :=
  match c_gamma c with
  | None => True
  | Some h => exists pr fs, c_problem c = Some pr /\ length (m h) = at_q pr /\
                recalculate (at_groups pr) (variances pr (m h)) = Ok fs /\ c_kept c = map (@to_kept _ _) fs
  end.

(** whether the array makes the oracle factorise *)
Definition looks_new (m : memory) (c : cache) (l : nat) : Prop :=
  length (m l) = 0%N \/ forall h, c_gamma c = Some h -> m h <> m l.

Lemma refresh_new m c l pr : c_problem c = Some pr -> length (m l) = at_q pr ->
  (forall h, c_gamma c = Some h -> length (m h) = at_q pr) -> looks_new m c l ->
  match recalculate (at_groups pr) (variances pr (m l)) with
  | Ok fs => refresh m c l = (Cache (Some pr) (Some l) (map (@to_kept _ _) fs), Ok tt)
  | Err e => exists ks, refresh m c l = (Cache (Some pr) (c_gamma c) ks, Err e)
  end.
Proof.
  move=> hp hl hh hn.
  have [b [Hb1 Hb2]] : exists b, any_differs (option_map m (c_gamma c)) (m l) = Ok b /\ b || Nat.eqb (length (m l)) 0 = true.
  { case Eg: (c_gamma c) => [h|] /=; last first.
      by eexists; split; first by []; case: (Nat.eqb _ _).
    have [d [Hd1 Hd2]] := @any_differs_same (m h) (m l) (etrans (hh _ Eg) (esym hl)).
    exists d; split=> //. case: hn => [->|hn]; first by rewrite Bool.orb_true_r.
    case Ed: d => //=; exfalso; apply: (hn _ Eg); exact/Hd2. }
  rewrite /refresh Hb1 Hb2 hp; have := keep_all_spec (at_groups pr) hl.
  rewrite -/(variances pr (m l)); case: (recalculate _ _) => [fs|e].
  - by move=> [-> _].
  - by move=> [ks ->]; exists ks.
Qed.

Lemma evaluate_new A m c l pr (body : forall pr, seq (fgroup (at_p pr) (at_q pr)) -> res A) :
  c_problem c = Some pr -> length (m l) = at_q pr ->
  (forall h, c_gamma c = Some h -> length (m h) = at_q pr) -> looks_new m c l ->
  (evaluate m c l body).2 = evaluated_afresh pr (m l) body.
Proof.
  move=> hp hl hh hn; have := refresh_new hp hl hh hn; rewrite /evaluate /evaluated_afresh.
  have := keep_all_spec (at_groups pr) hl; rewrite -/(variances pr (m l)).
  case: (recalculate _ _) => [fs|e].
  - by move=> [_ Hz] ->; cbn [snd c_problem c_kept]; rewrite Hz.
  - by move=> _ [ks ->].
Qed.

Lemma evaluate_held A m c l h pr (body : forall pr, seq (fgroup (at_p pr) (at_q pr)) -> res A) :
  sound m c -> c_problem c = Some pr -> c_gamma c = Some h -> m h = m l -> length (m l) <> 0%N ->
  refresh m c l = (c, Ok tt) /\ (evaluate m c l body).2 = evaluated_afresh pr (m l) body.
Proof.
  move=> hs hp hg e hn.
  have R : refresh m c l = (c, Ok tt).
  { rewrite /refresh hg; cbn [option_map]; have [d [Hd1 Hd2]] := @any_differs_same (m h) (m l) (f_equal _ e).
    rewrite Hd1 (proj2 Hd2 e) /=; case E: (Nat.eqb _ _) => //.
    by move/Nat.eqb_eq: E. }
  split=> //; rewrite /evaluate R hp /evaluated_afresh.
  move: hs; rewrite /sound hg => -[pr' [fs [hp' [hl [hr hk]]]]].
  move: hp'; rewrite hp => -[?]; subst pr'; rewrite hk -e hr.
  by have := keep_all_spec (at_groups pr) hl; rewrite -/(variances pr (m h)) hr => -[_ ->].
Qed.

Lemma evaluate_sound A m c l pr (body : forall pr, seq (fgroup (at_p pr) (at_q pr)) -> res A) :
  sound m c -> c_problem c = Some pr -> length (m l) = at_q pr ->
  (evaluate m c l body).2 = evaluated_afresh pr (m l) body.
Proof.
  move=> hs hp hl.
  have hh : forall h, c_gamma c = Some h -> length (m h) = at_q pr.
  { move=> h hg; move: hs; rewrite /sound hg => -[pr' [fs [hp' [hl' _]]]].
    by move: hp'; rewrite hp => -[e]; rewrite e. }
  case: (Nat.eq_dec (length (m l)) 0) => hn; first by apply: evaluate_new => //; left.
  case Eg: (c_gamma c) => [h|]; last by apply: evaluate_new => //; right=> h; rewrite Eg.
  case: (List.list_eq_dec Req_EM_T (m h) (m l)) => e.
  - exact: (proj2 (evaluate_held body hs hp Eg e hn)).
  - by apply: evaluate_new => //; right=> h'; rewrite Eg => -[<-].
Qed.

Lemma admissible_recalculates (p q : nat) (gs : seq (group p q)) gamma :
  admissible gs gamma <-> exists fs, recalculate gs gamma = Ok fs.
Proof.
  split=> [h|[fs h]]; first by rewrite recalculate_ok //; eexists.
  case: (Classical_Prop.classic (admissible gs gamma)) => // n.
  by move: h; rewrite recalculate_err.
Qed.

(** orderly histories *)
Lemma orderly_sound es : forall m c used, orderly m (c_problem c) used es -> sound m c ->
  (forall h, c_gamma c = Some h -> List.In h used) ->
  (c_problem c = None -> c_gamma c = None) ->
  forall m' c', after m c es = (m', c') -> sound m' c'.
Proof.
  elim: es => [|[l|pr| |l v] es IH] m c used /=.
  - by move=> _ hs _ _ m' c' [<- <-].
  - move=> [[pr [hp [hl ha]]] ho] hs hu hn m' c'; rewrite /after /=.
    have [fs hf] := proj1 (admissible_recalculates _ _) ha.
    have hh : forall h, c_gamma c = Some h -> length (m h) = at_q pr.
    { move=> h hg; move: hs; rewrite /sound hg => -[pr' [fs' [hp' [hl' _]]]].
      by move: hp'; rewrite hp => -[e]; rewrite e. }
    have N : looks_new m c l -> refresh m c l = (Cache (Some pr) (Some l) (map (@to_kept _ _) fs), Ok tt).
    { by move=> hw; have := refresh_new hp hl hh hw; rewrite hf. }
    have S : sound m (Cache (Some pr) (Some l) (map (@to_kept _ _) fs)) by rewrite /sound /=; exists pr, fs.
    have D : looks_new m c l \/ refresh m c l = (c, Ok tt).
    { case: (Nat.eq_dec (length (m l)) 0) => h0; first by left; left.
      case Eg: (c_gamma c) => [h|]; last by left; right=> h; rewrite Eg.
      case: (List.list_eq_dec Req_EM_T (m h) (m l)) => e; last by left; right=> h'; rewrite Eg => -[<-].
      right; exact: (proj1 (@evaluate_held R m c l h pr (fun _ _ => Err TypeError) hs hp Eg e h0)). }
    case: D => [/N ->|->] /=; last first.
      by apply: (IH m c (l :: used)) => //; move=> h /hu; right.
    apply: (IH m _ (l :: used)) => //=; first by rewrite -hp.
    by move=> h [->]; left.
  - move=> [hp ho] hs hu hn m' c'; rewrite /after /=.
    apply: (IH m _ used) => //=.
    by rewrite /sound /= hn.
  - by move=> ho hs hu hn m' c'; rewrite /after /=; apply: (IH m detach [::]).
  - move=> [hi ho] hs hu hn m' c'; rewrite /after /=; apply: (IH _ c used) => //.
    move: hs; rewrite /sound; case Eg: (c_gamma c) => [h|] // [pr [fs [h1 [h2 [h3 h4]]]]].
    have -> : store m l v h = m h.
    { rewrite /store; case E: (Nat.eqb h l) => //; move/Nat.eqb_eq: E => e.
      by case: hi; rewrite -e; apply: hu. }
    by exists pr, fs.
Qed.
