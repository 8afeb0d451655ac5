(*HEAD
(** Property C113: the packed loss and gradient of the mixed-model oracles (src/pysr3/lme/oracles.py). *)
From Verif.Base Require Import Py Vec Mat RMx.
From Verif.Model Require Import LmeProblem Regularizers Solvers LmeInner LmeFit LmeJoint.
From Verif.Spec Require Import JointSpec FitSpec.
From mathcomp Require Import ssreflect ssrfun ssrbool eqtype ssrnat choice seq fintype
  finfun bigop finset ssralg matrix mxalgebra.
From Verif.Model Require Import LmeOracle LmeBridge.
From Verif.Spec Require Import MxSpec.
HEAD*)
From Verif.Base Require Import Py Vec Mat RMx.
From Verif.Model Require Import LmeProblem Regularizers Solvers LmeInner LmeFit LmeJoint.
From Verif.Spec Require Import JointSpec FitSpec.
From Verif.Proofs Require Import FitProofs.
From Coq Require Import Lra Lia.
From mathcomp Require Import ssreflect ssrfun ssrbool eqtype ssrnat choice seq fintype
  finfun bigop finset ssralg zmodp matrix mxalgebra.
From Verif.Model Require Import LmeOracle LmeBridge.
From Verif.Spec Require Import MxSpec.
From Verif.Proofs Require Import MxFacts LmeOracleProofs LmeDerivatives LmeOracleMain BridgeProofs.
(*OPEN
Set Implicit Arguments.
Unset Strict Implicit.
Unset Printing Implicit Defensive.
Delimit Scope R_scope with coqR.
Local Open Scope ring_scope.
OPEN*)
Set Implicit Arguments.
Unset Strict Implicit.
Unset Printing Implicit Defensive.
Delimit Scope R_scope with coqR.
Import GRing.Theory.
Local Open Scope ring_scope.

(** ** coordinates *)
Lemma lim_ext (f g : R -> R) x l : derivable_pt_lim f x l -> (forall t, f t = g t) -> derivable_pt_lim g x l.
Proof. by move=> h e eps heps; case: (h eps heps) => d hd; exists d => t h0 h1; rewrite -!e; exact: hd. Qed.
Lemma nudge_length j t x : length (nudge j t x) = length x.
Proof. by elim: x j => [|a x IH] [|j] //=; rewrite IH. Qed.
Lemma nudge_app_l j t (x y : vec) : (j < length x)%coq_nat -> nudge j t (x ++ y)%list = (nudge j t x ++ y)%list.
Proof. by elim: x j => [|a x IH] [|j] /=; try lia; move=> h //; rewrite IH //; lia. Qed.
Lemma nudge_app_r j t (x y : vec) : nudge (length x + j)%coq_nat t (x ++ y)%list = (x ++ nudge j t y)%list.
Proof. by elim: x => [|a x IH] //=; rewrite IH. Qed.
Lemma nth_nudge j t (x : vec) i : (j < length x)%coq_nat ->
  List.nth i (nudge j t x) 0%coqR = (List.nth i x 0 + t * (if Nat.eqb i j then 1 else 0))%coqR.
Proof.
  elim: x j i => [|a x IH] [|j] [|i] //= h; try lia; try by ring.
  by rewrite IH //; lia.
Qed.
Lemma col_nudge n (j : 'I_n) t x : length x = n -> col_of n (nudge j t x) = along (col_of n x) j t.
Proof.
  move=> hx; apply/matrixP => i k; rewrite !mxE nth_nudge; last first.
    by rewrite hx; apply/ltP; case: j.
  toR; rewrite (ord1 k) eqxx andbT; congr (_ + _ * _)%coqR.
  case: PeanoNat.Nat.eqb_spec => [e|e]; case: eqP => [e'|e'] //.
  - by case: e'; apply: val_inj.
  - by case: e; rewrite e'.
Qed.

(** packed vectors *)
Lemma split_packed p q (x : vec) : length x = (p + q)%coq_nat -> exists b g, x = (b ++ g)%list /\ length b = p /\ length g = q.
Proof.
  move=> h; exists (List.firstn p x), (List.skipn p x); rewrite List.firstn_skipn; split=> //.
  by rewrite List.firstn_length List.skipn_length; lia.
Qed.
Lemma unpack p q (b g : vec) : length b = p -> length g = q -> x_to_beta_gamma p q (b ++ g)%list = (b, g).
Proof.
  move=> hb hg; rewrite /x_to_beta_gamma (firstn_app_len _ _ _ hb) (skipn_app_len _ _ _ hb).
  by rewrite -hg List.firstn_all.
Qed.

Lemma partials_packed p q (f : vec -> vec -> res R) (b g db dg : vec) :
  length b = p -> length g = q -> length db = p -> length dg = q ->
  (forall j, (j < p)%coq_nat -> derivable_pt_lim (fun t => number_of (f (nudge j t b) g)) 0 (List.nth j db 0%coqR)) ->
  (forall j, (j < q)%coq_nat -> derivable_pt_lim (fun t => number_of (f b (nudge j t g))) 0 (List.nth j dg 0%coqR)) ->
  partials (fun x => let: (b, g) := x_to_beta_gamma p q x in f b g) (b ++ g)%list (db ++ dg)%list.
Proof.
  move=> hb hg hdb hdg h1 h2; split; first by rewrite !List.app_length hb hg hdb hdg.
  move=> j; rewrite List.app_length hb hg => hj.
  case: (PeanoNat.Nat.lt_ge_cases j p) => hjp.
  - rewrite List.app_nth1 ?hdb //.
    apply: (lim_ext (h1 j hjp)) => t.
    by rewrite nudge_app_l ?hb // unpack // nudge_length.
  - rewrite List.app_nth2 ?hdb //.
    have hj2 : (Nat.sub j p < q)%coq_nat by lia.
    apply: (lim_ext (h2 _ hj2)) => t.
    have e : nudge j t (b ++ g)%list = (b ++ nudge (Nat.sub j p) t g)%list.
      by rewrite -nudge_app_r; congr nudge; lia.
    by rewrite e unpack // nudge_length.
Qed.

Lemma list_partial n (F : 'cV[R]_n -> res R) (f : vec -> res R) (d : 'cV[R]_n) x : length x = n ->
  (forall y, length y = n -> f y = F (col_of n y)) ->
  (forall j, derivable_pt_lim (fun t => value (F (along (col_of n x) j t))) 0 (d j ord0)) ->
  forall j, (j < n)%coq_nat -> derivable_pt_lim (fun t => number_of (f (nudge j t x))) 0 (List.nth j (vec_of d) 0%coqR).
Proof.
  move=> hx hf hd j hj.
  have hj' : (j < n)%N by apply/ltP.
  have h := hd (Ordinal hj'); rewrite -(nth_vec_of d (Ordinal hj') 0%coqR) in h.
  apply: (lim_ext h) => t; rewrite hf; last by rewrite nudge_length.
  by rewrite (@col_nudge n (Ordinal hj') t x hx).
Qed.

Section Packed.
Variables (cdf : R -> R) (pr : lme_problem) (g : option gauss_lme) (ss : option sr3_settings).
Let p := num_fixed pr.
Let q := num_random pr.
Variables (gs : seq (group p q)) (prm : lme_prior p q).
Hypothesis hgs : groups_of p q pr = Ok gs.
Hypothesis hpr : prior_mx p q g = Ok prm.
Let c := problem_calls cdf pr g ss.

Lemma loss_at b gm : length b = p -> length gm = q -> lc_loss c b gm = lme_loss gs prm (col_of p b) (col_of q gm).
Proof.
  move=> hb hg; rewrite /c /problem_calls -/p -/q hgs hpr /= /list_loss /with_prior /at_params /=.
  by rewrite (sized_ok hb) (sized_ok hg).
Qed.
Lemma gradient_beta_at b gm : length b = p -> length gm = q ->
  lc_gradient_beta c b gm = to_vec (lme_gradient_beta gs prm (col_of p b) (col_of q gm)).
Proof.
  move=> hb hg; rewrite /c /problem_calls -/p -/q hgs hpr /= /list_gradient_beta /with_prior /at_params /=.
  by rewrite (sized_ok hb) (sized_ok hg).
Qed.
Lemma gradient_gamma_at b gm : length b = p -> length gm = q ->
  lc_gradient_gamma c b gm = to_vec (lme_gradient_gamma gs prm (col_of p b) (col_of q gm)).
Proof.
  move=> hb hg; rewrite /c /problem_calls -/p -/q hgs hpr /= /list_gradient_gamma /with_prior /at_params /=.
  by rewrite (sized_ok hb) (sized_ok hg).
Qed.
Lemma sr3_loss_at l b gm tb tg : length b = p -> length gm = q -> length tb = p -> length tg = q ->
  sc_loss (lc_sr3 c) l b gm tb tg = sr3_loss (lam_b l) (lam_g l) gs prm (col_of p b) (col_of q gm) (col_of p tb) (col_of q tg).
Proof.
  move=> hb hg htb htg; rewrite /c /problem_calls -/p -/q hgs hpr; case: (ss) => [s|] /=;
  rewrite (sized_ok htb) (sized_ok htg) /= /with_prior /at_params /=; by rewrite (sized_ok hb) (sized_ok hg).
Qed.
Lemma sr3_gradient_beta_at l b gm tb tg : length b = p -> length gm = q -> length tb = p ->
  sc_gradient_beta (lc_sr3 c) l b gm tb tg = to_vec (sr3_gradient_beta (lam_b l) gs prm (col_of p b) (col_of q gm) (col_of p tb)).
Proof.
  move=> hb hg htb; rewrite /c /problem_calls -/p -/q hgs hpr; case: (ss) => [s|] /=;
  rewrite (sized_ok htb) /= /with_prior /at_params /=; by rewrite (sized_ok hb) (sized_ok hg).
Qed.
Lemma sr3_gradient_gamma_at l b gm tb tg : length b = p -> length gm = q -> length tg = q ->
  sc_gradient_gamma (lc_sr3 c) l b gm tb tg = to_vec (sr3_gradient_gamma (lam_g l) gs prm (col_of p b) (col_of q gm) (col_of q tg)).
Proof.
  move=> hb hg htg; rewrite /c /problem_calls -/p -/q hgs hpr; case: (ss) => [s|] /=;
  rewrite (sized_ok htg) /= /with_prior /at_params /=; by rewrite (sized_ok hb) (sized_ok hg).
Qed.

Lemma joint_gradient_at gb gg (b gm db dg : vec) : length b = p -> length gm = q -> length db = p -> length dg = q ->
  gb b gm = Ok db -> gg b gm = Ok dg -> joint_gradient p q gb gg (b ++ gm)%list = Ok (db ++ dg)%list.
Proof.
  move=> hb hg hdb hdg e1 e2; rewrite /joint_gradient unpack // e1 /= hdb hb PeanoNat.Nat.eqb_refl /= e2 /= hdg hg PeanoNat.Nat.eqb_refl /=.
  rewrite List.app_length hb hg.
  have -> : Nat.sub (Nat.sub (Nat.add p q) p) q = O by lia.
  by rewrite /= List.app_nil_r.
Qed.
End Packed.

(*@ C113.  The plain oracle: at every packed point of length p + q with positive definite covariances the packed gradient
    exists and holds the partial derivatives of the packed loss. *)
Lemma packed_gradient_lemma : forall cdf pr g ss gs prm x,
  let p := num_fixed pr in let q := num_random pr in
  groups_of p q pr = Ok gs -> prior_mx p q g = Ok prm -> prior_stds_nonzero prm ->
  length x = (p + q)%N -> admissible gs (col_of q (List.skipn p x)) ->
  let c := problem_calls cdf pr g ss in
  exists d, joint_gradient p q (lc_gradient_beta c) (lc_gradient_gamma c) x = Ok d /\ partials (joint_loss p q (lc_loss c)) x d.
Proof.
  move=> cdf pr g ss gs prm x p q hgs hpr hsd hx hadm c.
  case: (@split_packed p q x hx) => b [gm [ex [hb hg]]].
  rewrite ex (skipn_app_len _ _ _ hb) in hadm; rewrite ex.
  case: (@gradients_are_derivatives_lemma p q gs prm (col_of p b) (col_of q gm) hadm hsd) => db [dg [e1 [e2 [d1 [d2 _]]]]].
  exists (vec_of db ++ vec_of dg)%list; split.
  - apply: joint_gradient_at; rewrite ?length_vec_of //.
    + by rewrite (gradient_beta_at cdf ss hgs hpr) // e1.
    + by rewrite (gradient_gamma_at cdf ss hgs hpr) // e2.
  - apply: partials_packed; rewrite ?length_vec_of //.
    + apply: (@list_partial p (fun b => lme_loss gs prm b (col_of q gm)) (fun b => lc_loss c b gm)) => // y hy.
      exact: loss_at.
    + apply: (@list_partial q (fun gm => lme_loss gs prm (col_of p b) gm) (fun gm => lc_loss c b gm)) => // y hy.
      exact: loss_at.
Qed.

(*@ C113.  The relaxed oracle, given relaxed parameters: its packed gradient holds the partial derivatives of its packed
    loss. *)
Lemma sr3_packed_gradient_lemma : forall cdf pr g ss gs prm l x tb tg,
  let p := num_fixed pr in let q := num_random pr in
  groups_of p q pr = Ok gs -> prior_mx p q g = Ok prm -> prior_stds_nonzero prm ->
  length x = (p + q)%N -> length tb = p -> length tg = q -> admissible gs (col_of q (List.skipn p x)) ->
  let c := problem_calls cdf pr g ss in
  exists d, sr3_joint_gradient p q c l x (Some tb) (Some tg) = Ok d /\
    partials (fun x => sr3_joint_loss p q c l x (Some (tb ++ tg)%list)) x d.
Proof.
  move=> cdf pr g ss gs prm l x tb tg p q hgs hpr hsd hx htb htg hadm c.
  case: (@split_packed p q x hx) => b [gm [ex [hb hg]]].
  rewrite ex (skipn_app_len _ _ _ hb) in hadm; rewrite ex.
  case: (@sr3_derivatives_lemma p q gs prm (lam_b l) (lam_g l) (col_of p b) (col_of q gm) (col_of p tb) (col_of q tg) hadm hsd)
    => db [dg [hb' [hg' [e1 [e2 [_ [_ [d1 [d2 _]]]]]]]]].
  exists (vec_of db ++ vec_of dg)%list; split.
  - apply: joint_gradient_at; rewrite ?length_vec_of //.
    + by rewrite /sr3_gradient_beta_of (sr3_gradient_beta_at cdf ss hgs hpr) // e1.
    + by rewrite /sr3_gradient_gamma_of (sr3_gradient_gamma_at cdf ss hgs hpr) // e2.
  - have P : partials (fun x => let: (b, gm) := x_to_beta_gamma p q x in sc_loss (lc_sr3 c) l b gm tb tg)
        (b ++ gm)%list (vec_of db ++ vec_of dg)%list.
      apply: (@partials_packed p q (fun b gm => sc_loss (lc_sr3 c) l b gm tb tg)); rewrite ?length_vec_of //.
      + apply: (@list_partial p (fun b => sr3_loss (lam_b l) (lam_g l) gs prm b (col_of q gm) (col_of p tb) (col_of q tg))
          (fun b => sc_loss (lc_sr3 c) l b gm tb tg)) => // y hy; exact: sr3_loss_at.
      + apply: (@list_partial q (fun gm => sr3_loss (lam_b l) (lam_g l) gs prm (col_of p b) gm (col_of p tb) (col_of q tg))
          (fun gm => sc_loss (lc_sr3 c) l b gm tb tg)) => // y hy; exact: sr3_loss_at.
    case: P => P1 P2; split=> // j hj; apply: (lim_ext (P2 j hj)) => t.
    by rewrite /sr3_joint_loss; case: (x_to_beta_gamma p q (nudge j t _)) => b' g'; rewrite unpack.
Qed.

(*@ C113.  Without relaxed parameters, which is what the defaults of both methods say, the relaxed oracle has no packed
    loss and no packed gradient at any point. *)
Lemma sr3_packed_defaults_lemma : forall p q c l x,
  sr3_joint_loss p q c l x None = Err TypeError /\
  (forall tg d, sr3_joint_gradient p q c l x None tg <> Ok d) /\
  (forall tb d, sr3_joint_gradient p q c l x tb None <> Ok d).
Proof.
  move=> p q c l x; split; first by rewrite /sr3_joint_loss; case: (x_to_beta_gamma p q x).
  split=> [tg|tb] d; rewrite /sr3_joint_gradient /joint_gradient; case: (x_to_beta_gamma p q x) => b gm.
  - by rewrite {1}/sr3_gradient_beta_of; case: (lc_gradient_beta c b gm).
  - case: (sr3_gradient_beta_of c l tb b gm) => [v|e] //=; case: (PeanoNat.Nat.eqb _ _) => //=.
    by rewrite /sr3_gradient_gamma_of; case: (lc_gradient_gamma c b gm).
Qed.

(*@ C113.  The relaxed packed loss at (x, w) is the plain one at x plus lb/2 |beta - tbeta|^2 + lg/2 |gamma - tgamma|^2. *)
Lemma sr3_packed_loss_lemma : forall cdf pr g ss l b gm tb tg,
  let p := num_fixed pr in let q := num_random pr in
  length b = p -> length gm = q -> length tb = p -> length tg = q ->
  let c := problem_calls cdf pr g ss in
  sr3_joint_loss p q c l (b ++ gm)%list (Some (tb ++ tg)%list) =
  rmap (fun v => v + lam_b l / 2 * sqnorm (vsub b tb) + lam_g l / 2 * sqnorm (vsub gm tg))%coqR (joint_loss p q (lc_loss c) (b ++ gm)%list).
Proof.
  move=> cdf pr g ss l b gm tb tg p q hb hg htb htg c.
  rewrite /sr3_joint_loss /joint_loss !unpack // /c /problem_calls -/p -/q.
  case hgs: (groups_of p q pr) => [gs|e]; last first.
    case: ss c => [s|] c /=; rewrite /list_loss /with_prior /at_params /= (sized_ok htb) (sized_ok htg) //=.
  case hpr: (prior_mx p q g) => [prm|e]; last first.
    by case: ss c => [s|] c /=; rewrite /list_loss /with_prior /at_params /= (sized_ok htb) (sized_ok htg) /= (sized_ok hb) (sized_ok hg).
  have := @sr3_loss_at cdf pr g ss gs prm hgs hpr l b gm tb tg hb hg htb htg.
  have := @loss_at cdf pr g ss gs prm hgs hpr b gm hb hg.
  rewrite /problem_calls -/p -/q hgs hpr => -> ->; rewrite sr3_loss_adds_lemma.
  have S n (u v : vec) : length u = n -> length v = n ->
     \sum_i ((col_of n u i ord0 - col_of n v i ord0) ^ 2)%coqR = sqnorm (vsub u v).
    move=> hu hv; subst n; elim: u v hv => [|a u IH] [|a' v] //= hv; first by rewrite big_ord0.
    rewrite big_ord_recl !mxE /=; have := IH v (eq_add_S _ _ hv); rewrite /sqnorm /vdot /vmul /vsub /= => <-.
    toR; congr (_ + _)%coqR; first by ring.
    by apply: eq_bigr => i _; rewrite !mxE.
  by case: (lme_loss _ _ _ _) => [v|e] //=; rewrite (S p) // (S q).
Qed.

(*@ A problem, a prior and a point within the hypotheses. *)
Lemma ex_packed_gradient_lemma : exists gs prm,
  groups_of 1 1 (flat_problem 1 1) = Ok gs /\ prior_mx 1 1 None = Ok prm /\ prior_stds_nonzero prm /\
  admissible gs (col_of 1 (List.skipn 1 [:: 1; 2]%coqR)) /\
  joint_gradient 1 1 (lc_gradient_beta (problem_calls (fun x => x) (flat_problem 1 1) None None))
    (lc_gradient_gamma (problem_calls (fun x => x) (flat_problem 1 1) None None)) [:: 1; 2]%coqR = Ok [:: 0; 0]%coqR.
Proof.
  exists [:: flat_group 1 1], LNone; split; first exact: flat_groups.
  split=> //; split=> //; split; first exact: flat_admissible.
  apply: (@joint_gradient_at (flat_problem 1 1) _ _ [:: 1%coqR] [:: 2%coqR] [:: 0%coqR] [:: 0%coqR]) => //.
  - exact: (@flat_calls_gradient_beta 1 1 (fun x => x) None [:: 1%coqR] [:: 2%coqR]).
  - exact: (@flat_calls_gradient_gamma 1 1 (fun x => x) None [:: 1%coqR] [:: 2%coqR]).
Qed.
