(** The real numbers of the standard library as a field of mathcomp, so that mathcomp's
    matrices can be used over them.  The choice structure asked for by mathcomp comes from
    the standard library's epsilon operator. *)
From Coq Require Import Reals Epsilon FunctionalExtensionality.
From mathcomp Require Import ssreflect ssrfun ssrbool eqtype ssrnat choice seq fintype
  finfun bigop ssralg matrix.
Set Implicit Arguments.
Unset Strict Implicit.
Unset Printing Implicit Defensive.
Delimit Scope R_scope with coqR.

Definition eqr (a b : R) : bool := if Req_EM_T a b is left _ then true else false.
Lemma eqrP : Equality.axiom eqr.
Proof. by move=> a b; rewrite /eqr; case: Req_EM_T => h; constructor. Qed.
Definition R_eqMixin := EqMixin eqrP.
Canonical R_eqType := Eval hnf in EqType R R_eqMixin.

Definition pickR (P : pred R) (n : nat) : option R :=
  let x := epsilon (inhabits 0%coqR) (fun x => P x = true) in if P x then Some x else None.
Lemma pickR_some P n x : pickR P n = Some x -> P x.
Proof. by rewrite /pickR; case: ifP => [h [<-]|]. Qed.
Lemma pickR_ex (P : pred R) : (exists x, P x) -> exists n, pickR P n.
Proof.
  move=> hP; exists 0%N; rewrite /pickR.
  by rewrite (epsilon_spec (inhabits 0%coqR) (fun x => P x = true) hP).
Qed.
Lemma pickR_ext (P Q : pred R) : P =1 Q -> pickR P =1 pickR Q.
Proof.
  move=> h n; rewrite /pickR.
  have -> : (fun x => Q x = true) = (fun x => P x = true); last by rewrite h.
  by apply: functional_extensionality => x; rewrite h.
Qed.
Definition R_choiceMixin := Choice.Mixin pickR_some pickR_ex pickR_ext.
Canonical R_choiceType := Eval hnf in ChoiceType R R_choiceMixin.

Lemma RplusA : associative Rplus. Proof. by move=> a b c; rewrite Rplus_assoc. Qed.
Definition R_zmodMixin := ZmodMixin RplusA Rplus_comm Rplus_0_l Rplus_opp_l.
Canonical R_zmodType := Eval hnf in ZmodType R R_zmodMixin.

Lemma RmultA : associative Rmult. Proof. by move=> a b c; rewrite Rmult_assoc. Qed.
Lemma R1_neq_0' : (1%coqR : R) != 0%coqR.
Proof. by apply/eqP; exact: R1_neq_R0. Qed.
Definition R_ringMixin := RingMixin RmultA Rmult_1_l Rmult_1_r Rmult_plus_distr_r Rmult_plus_distr_l R1_neq_0'.
Canonical R_ringType := Eval hnf in RingType R R_ringMixin.
Canonical R_comRingType := Eval hnf in ComRingType R Rmult_comm.

Definition unit_R (x : R) : bool := x != 0%coqR.
Lemma R_mulVx : {in unit_R, left_inverse (1%R : R) Rinv *%R}.
Proof. by move=> x /eqP h; exact: Rinv_l. Qed.
Lemma R_mulxV : {in unit_R, right_inverse (1%R : R) Rinv *%R}.
Proof. by move=> x /eqP h; exact: Rinv_r. Qed.
Lemma R_unitP (x y : R) : (y * x = 1 /\ x * y = 1)%R -> unit_R x.
Proof.
  move=> [_ h]; apply/eqP => x0; apply: R1_neq_R0.
  by rewrite -[RHS](Rmult_0_l y) -x0; exact: (esym h).
Qed.
Lemma R_inv_out : {in [predC unit_R], Rinv =1 id}.
Proof. by move=> x; rewrite inE /= negbK => /eqP ->; exact: Rinv_0. Qed.
Definition R_unitRingMixin := @UnitRingMixin [ringType of R] unit_R Rinv R_mulVx R_mulxV R_unitP R_inv_out.
Canonical R_unitRing := Eval hnf in UnitRingType R R_unitRingMixin.
Canonical R_comUnitRingType := Eval hnf in [comUnitRingType of R].
Lemma R_idomainMixin (x y : R) : (x * y = 0)%R -> (x == 0)%R || (y == 0)%R.
Proof.
  move=> /(Rmult_integral x y) [->|->]; apply/orP; [left|right]; exact: eqxx.
Qed.
Canonical R_idomainType := Eval hnf in IdomainType R R_idomainMixin.
Lemma R_fieldMixin : GRing.Field.mixin_of [unitRingType of R].
Proof. by done. Qed.
Definition R_fieldIdomainMixin := FieldIdomainMixin R_fieldMixin.
Canonical R_fieldType := Eval hnf in FieldType R R_fieldMixin.
