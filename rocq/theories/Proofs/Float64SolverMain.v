(*HEAD
(** Properties C88-C91 in double precision: what the proximal operators do to each entry, and the solver
    (src/pysr3/regularizers.py, src/pysr3/solvers.py). *)
From Coq Require Import Reals ZArith List String.
From Flocq Require Import Core BinarySingleNaN.
From Verif.Base Require Import Py Vec.
From Verif.Model Require Import Float64 Float64Solver.
From Verif.Spec Require Import Float64Spec.
HEAD*)
From Coq Require Import Reals ZArith List String Lra Lia Bool.
From Flocq Require Import Core BinarySingleNaN.
From Verif.Base Require Import Py Vec.
From Verif.Model Require Import Float64 Float64Solver.
From Verif.Spec Require Import Float64Spec.
From Verif.Proofs Require Import VecFacts Float64Proofs Float64SolverProofs Float64Main.
(*OPEN
Import ListNotations.
Open Scope list_scope.
Open Scope R_scope.
OPEN*)
Import ListNotations.
Open Scope list_scope.
Open Scope R_scope.

(** ** C88 for whole runs *)
(*@ C88 for a run of the solver: whatever the oracle returns (NaN, infinities, other values at every call), whatever order
    numpy adds in and whatever the start is, after at least one iteration no coordinate declared positive is negative. *)
Lemma solver_not_negative_partial_lemma : forall fdot fsquare (S : Type) (orc : foracle S) coords other slv x0 s r s' i,
  plain (FPos coords other) -> ~ negative (fs_step_len slv) ->
  fpgd_optimize fdot fsquare orc (FPos coords other) slv x0 s = Ok (r, s') ->
  (0 < fr_iteration r)%nat -> nth i coords false = true -> ~ negative (nth i (fr_x r) fzero).
Proof.
  intros fdot fsquare S orc coords other slv x0 s r s' i P N H It C. unfold fpgd_optimize in H.
  destruct (fpgd_loop _ _ _ _ _ _ _ _ _ _) as [[[[x xp] it] s1]|e] eqn:E; cbn in H; [|discriminate H]. injection H as <- <-. cbn in *.
  apply (loop_good fdot fsquare orc (FPos coords other) slv (fun x => ~ negative (nth i x fzero))) with (1 := fun y t z T H => flagged_not_negative_partial_lemma coords other y t z i P T H C) (3 := E); try assumption.
  intros L. lia.
Qed.

(*@ non-vacuous: a run whose gradient is always 1 pushes the start 1 down to 0 and stops there after 2 iterations *)
Lemma ex_solver_not_negative_partial_lemma :
  let fdot a b := match a, b with [x], [y] => fmul x y | _, _ => fzero end in
  let orc := {| fo_value := fun (_ : unit) _ => Ok (fzero, tt); fo_grad := fun _ _ => Ok ([fone], tt) |} in
  let slv := {| fs_tol := fzero; fs_max_iter := 5; fs_stepping := "fixed"%string; fs_step_len := fone |} in
  plain (FPos [true] None) /\ ~ negative (fs_step_len slv) /\
  match fpgd_optimize fdot (fun x => fmul x x) orc (FPos [true] None) slv [fone] tt with
  | Ok (r, _) => (0 < fr_iteration r)%nat /\ map B2SF (fr_x r) = [B2SF fzero] /\ fr_iteration r = 2%nat
  | Err _ => False
  end.
Proof. cbv zeta. split; [exact I|]. split; [vm_compute; discriminate|]. vm_compute. repeat split; try reflexivity. auto. Qed.

(** ** C89 *)
(*@ C89, CAD: entries above rho in absolute value and entries of weight 0 are returned bit for bit, the others are
    soft-thresholded with one rounding. *)
Lemma cad_prox_rounded_lemma : forall rho lam w x alpha i,
  weights_fit w (length x) -> ~ negative lam -> ~ negative alpha -> (i < length x)%nat ->
  let xi := nth i x fzero in
  let wi := weight_at w i in
  let t := match w with Some _ => fmul (fmul wi alpha) lam | None => fmul alpha lam end in
  finite xi -> finite rho -> finite wi ->
  exists y, fcad_prox rho lam w x alpha = Ok y /\ length y = length x /\
    (val rho < Rabs (val xi) \/ val wi = 0 -> nth i y fzero = xi) /\
    (Rabs (val xi) <= val rho -> 0 < val wi -> finite t ->
     finite (nth i y fzero) /\ val (nth i y fzero) = rnd (soft_threshold (val t) (val xi))).
Proof.
  intros rho lam w x alpha i W L A Hi xi wi t Fx Fr Fw. pose proof (finite_abs xi Fx) as Fa.
  unfold fcad_prox. destruct w as [w|]; cbn [weight_at] in wi.
  - destruct W as [Hl Hw]. rewrite Hl, Nat.eqb_refl. eexists. split; [reflexivity|]. split; [apply map2_length_eq; exact Hl|].
    rewrite (map2_nth _ w x i fzero fzero fzero) by lia. fold xi wi. split.
    + intros [H|H].
      * rewrite fle_false by (try assumption; rewrite val_abs; exact H). reflexivity.
      * rewrite (flt_false fzero wi) by (try assumption; try reflexivity; rewrite val_zero; lra). rewrite andb_false_r. reflexivity.
    + intros H Pw Ft. rewrite fle_true by (try assumption; rewrite val_abs; exact H).
      rewrite flt_true by (try assumption; try reflexivity; rewrite val_zero; exact Pw). cbn [andb]. apply soft_correct; try assumption.
      apply nn_nonneg; [|exact Ft]. apply fmul_nn; [apply fmul_nn; [apply Forall_nn; exact Hw|exact A]|exact L].
  - eexists. split; [reflexivity|]. split; [apply map_length|].
    set (f := fun a => if fle (fabs a) rho then fsoft (fmul alpha lam) a else a).
    rewrite (nth_indep (map f x) fzero (f fzero)) by (rewrite map_length; exact Hi). rewrite map_nth. fold xi. unfold f. split.
    + intros [H|H]; [|exfalso; unfold wi in H; rewrite val_one in H; lra].
      rewrite fle_false by (try assumption; rewrite val_abs; exact H). reflexivity.
    + intros H _ Ft. rewrite fle_true by (try assumption; rewrite val_abs; exact H). apply soft_correct; try assumption.
      apply nn_nonneg; [|exact Ft]. apply fmul_nn; assumption.
Qed.

(*@ C89, SCAD: entries of weight 0 and entries above the computed upper knot are returned bit for bit, entries below the
    computed lower knot are soft-thresholded with one rounding. *)
Lemma scad_prox_rounded_lemma : forall rho sigma lam w x alpha i,
  weights_fit w (length x) -> ~ negative lam -> ~ negative alpha -> ~ negative sigma -> (i < length x)%nat ->
  let xi := nth i x fzero in
  let wi := weight_at w i in
  let a := fmul (fmul alpha lam) wi in
  let lower := fmul sigma (fadd fone a) in
  let upper := fmul (fmax rho (fadd fone a)) sigma in
  let t := fmul sigma a in
  finite xi -> finite wi ->
  exists y, fscad_prox rho sigma lam w x alpha = Ok y /\ length y = length x /\
    (val wi = 0 -> nth i y fzero = xi) /\
    (finite upper -> val upper < Rabs (val xi) -> nth i y fzero = xi) /\
    (0 < val wi -> finite upper -> finite lower -> finite t -> Rabs (val xi) < val lower -> Rabs (val xi) <= val upper ->
     finite (nth i y fzero) /\ val (nth i y fzero) = rnd (soft_threshold (val t) (val xi))).
Proof.
  intros rho sigma lam w x alpha i W L A Sg Hi xi wi a lower upper t Fx Fw. pose proof (finite_abs xi Fx) as Fa.
  set (ws := match w with Some w => w | None => repeat fone (length x) end).
  assert (Lw : length ws = length x) by (unfold ws; destruct w as [w|]; [apply W|apply repeat_length]).
  assert (Ew : nth i ws fzero = wi) by (unfold ws, wi; destruct w; [reflexivity|apply nth_repeat_one; exact Hi]).
  destruct (scad_nth rho sigma lam alpha ws x Lw) as (y & Hy & Ly & N). exists y. split; [exact Hy|]. split; [exact Ly|].
  rewrite (N i Hi), Ew. fold xi. unfold fscad_prox1. fold a. fold upper lower t.
  assert (Nw : ~ negative wi) by (unfold wi; destruct w as [w|]; [apply Forall_nn; apply W|vm_compute; discriminate]).
  split; [|split].
  - intros Z. apply (eqb_zero wi Fw) in Z. rewrite Z. reflexivity.
  - intros Fu H. destruct (Beqb wi fzero); [reflexivity|]. rewrite flt_true by (try assumption; rewrite val_abs; exact H). reflexivity.
  - intros Pw Fu Fl Ft H1 H2. destruct (Beqb wi fzero) eqn:E; [apply (eqb_zero wi Fw) in E; lra|].
    rewrite flt_false by (try assumption; rewrite val_abs; exact H2). rewrite (fle_false lower) by (try assumption; rewrite val_abs; exact H1).
    cbn [andb]. apply soft_correct; try assumption. apply nn_nonneg; [|exact Ft]. apply fmul_nn; [exact Sg|]. unfold a.
    apply fmul_nn; [apply fmul_nn; assumption|exact Nw].
Qed.

(*@ C89, elastic and positive quadrant: each entry divided by the computed 1 + alpha eps, rounded once; and each entry
    declared positive replaced by max(0, x), exactly, the others returned bit for bit. *)
Lemma elastic_positive_rounded_lemma : forall eps coords x alpha i,
  ~ negative eps -> ~ negative alpha -> (i < length x)%nat -> length coords = length x ->
  let xi := nth i x fzero in
  finite xi ->
  (exists y, fprox (FElastic eps None) x alpha = Ok y /\ length y = length x /\
     (finite (fadd fone (fmul alpha eps)) -> finite (nth i y fzero) /\
        val (nth i y fzero) = rnd (val xi / rnd (1 + rnd (val alpha * val eps))))) /\
  (exists y, fprox (FPos coords None) x alpha = Ok y /\ length y = length x /\
     if nth i coords false then finite (nth i y fzero) /\ val (nth i y fzero) = Rmax 0 (val xi)
     else nth i y fzero = xi).
Proof.
  intros eps coords x alpha i E A Hi Lc xi Fx. split.
  - eexists. split; [reflexivity|]. split; [apply map_length|]. intros Fd. set (d := fadd fone (fmul alpha eps)) in *.
    rewrite (nth_indep (map (fun xi => fdiv xi d) x) fzero (fdiv fzero d)) by (rewrite map_length; exact Hi). rewrite (map_nth (fun xi => fdiv xi d)). fold xi.
    pose proof (fadd_one (fmul alpha eps) (fmul_nn _ _ A E)) as Q. fold d in Q. destruct Q as [H|[H|[_ D]]].
    + destruct d; discriminate.
    + rewrite H in Fd. discriminate Fd.
    + destruct (fdiv_correct xi d Fx Fd D) as [F V]. split; [exact F|]. rewrite V.
      destruct (fadd_finite _ _ Fd) as (_ & Fm & Vd). destruct (fmul_finite _ _ Fm) as (_ & _ & Vm).
      unfold d. rewrite Vd, Vm, val_one. reflexivity.
  - cbn. rewrite Lc, Nat.eqb_refl. cbn. eexists. split; [reflexivity|]. split; [apply map2_length_eq; exact Lc|].
    rewrite (map2_nth _ coords x i false fzero fzero) by lia. fold xi. destruct (nth i coords false); [apply clip_val; exact Fx|reflexivity].
Qed.

(*@ C89 at work: CAD with rho = 2 leaves 3 alone and moves 1 to 1/2; SCAD with rho = 3, sigma = 1, lambda = 1/2 leaves 4
    alone and moves 1 to 1/2; elastic with eps = 1 and positive quadrant on -1, 3. *)
Lemma ex_cad_prox_rounded_lemma :
  let show r := match r with Ok y => Some (map B2SF y) | Err _ => None end in
  let h := double 1 (-1) in
  let two := double 2 0 in let three := double 3 0 in let four := double 4 0 in let neg := double (-1) 0 in
  show (fcad_prox two h (Some [fone; fone]) [three; fone] fone) = Some (map B2SF [three; h]) /\
  show (fscad_prox three fone h None [four; fone] fone) = Some (map B2SF [four; h]) /\
  show (fprox (FElastic fone None) [neg; three] fone) = Some (map B2SF [double (-1) (-1); double 3 (-1)]) /\
  show (fprox (FPos [true; false] None) [neg; neg] fone) = Some (map B2SF [fzero; neg]).
Proof. cbv zeta. repeat split; vm_compute; reflexivity. Qed.

(** ** C90 *)
(*@ C90, when the initial step is not infinite: the solver comes back, whatever the oracle returns, the order numpy adds in,
    the regularizer, tolerance and start; every line search makes at most 1071 trials. *)
Lemma float_terminates_partial_lemma : forall fdot fsquare (S : Type) (orc : foracle S) rg slv x0 s,
  comes_back orc -> fs_stepping slv <> "line-search"%string \/ fs_step_len slv <> finf ->
  fpgd_optimize fdot fsquare orc rg slv x0 s <> Err OutOfFuel.
Proof. intros. apply optimize_comes_back; assumption. Qed.

(*@ C90 fails for fixed_step_len = inf: on one observation of 0 with the feature 0, halving the step never ends, however
    many trials are allowed. *)
Lemma float_terminates_refuted_lemma : forall fdot fsquare, dot_of_one fdot ->
  let orc := flinear_oracle fdot fsquare [[fzero]] [fzero] in
  exists g, fo_grad orc tt [fone] = Ok (g, tt) /\
  forall fuel, fline_search fdot fsquare orc FDummy fuel tt [fone] (map fopp g) finf = Err OutOfFuel.
Proof.
  intros fdot fsquare D orc. exists [fzero]. split.
  { cbn [fo_grad orc flinear_oracle length seq map nth map2]. rewrite !D. reflexivity. }
  change (map fopp [fzero]) with [B754_zero true : f64].
  assert (X : faccept fdot fsquare orc tt [fone] [B754_zero true] [B754_nan] finf = Ok (false, tt)).
  { unfold faccept. cbn [fo_value orc flinear_oracle rbind length Nat.eqb guard].
    change (fminus [B754_nan] [fone]) with [B754_nan : f64]. rewrite (D (B754_zero true)).
    change (fmul (B754_zero true) B754_nan) with (B754_nan : f64).
    match goal with |- Ok (fle ?u (fadd (fsub ?v _) ?y), tt) = _ => generalize u v y end. intros u v y. destruct v, u; reflexivity. }
  intros fuel. induction fuel as [|fuel IH]; [reflexivity|]. cbn [fline_search].
  change (flt fls_threshold finf) with true. change (fmove [fone] [B754_zero true] finf) with (Ok [B754_nan : f64]).
  cbn [rbind fprox].
  match goal with |- context [faccept ?a ?b ?c ?d ?e ?f ?g ?h] => change (faccept a b c d e f g h) with (faccept fdot fsquare orc tt [fone] [B754_zero true] [B754_nan] finf) end.
  rewrite X. cbn [rbind]. change (fmul finf fhalf) with finf. exact IH.
Qed.

(*@ non-vacuous: the linear oracle comes back, and the default step is not infinite *)
Lemma ex_float_terminates_partial_lemma : forall fdot fsquare,
  comes_back (flinear_oracle fdot fsquare [[fone]] [fone]) /\ fnat 7205759403792794 (-57) <> finf.
Proof. intros. split; [intros s x; split; discriminate|]. intros H. apply (f_equal B2SF) in H. vm_compute in H. discriminate H. Qed.

(** ** C91 *)
(*@ C91, what converged = True does mean: the last move is at most tol, if its length and tol are not NaN. *)
Lemma float_converged_partial_lemma : forall fdot fsquare (S : Type) (orc : foracle S) rg slv x0 s r s',
  fpgd_optimize fdot fsquare orc rg slv x0 s = Ok (r, s') -> fr_converged r = true ->
  let len := fnorm fdot (fminus (fr_x r) (fr_x_prev r)) in
  is_nan len = false -> is_nan (fs_tol slv) = false -> fle len (fs_tol slv) = true.
Proof.
  intros fdot fsquare S orc rg slv x0 s r s' H C len N1 N2. unfold fpgd_optimize in H.
  destruct (fpgd_loop _ _ _ _ _ _ _ _ _ _) as [[[[x xp] it] s1]|e] eqn:E; cbn in H; [|discriminate H]. injection H as <- <-. cbn in *.
  destruct (loop_exit _ _ _ _ _ _ _ _ _ _ _ _ _ _ E) as (X & _ & _). rewrite C, andb_true_r in X. fold len in X.
  apply not_lt_le; assumption.
Qed.

(*@ C91 fails: LinearModel with stepping="fixed" and otherwise default options on the single observation 1 with feature 10
    overflows, stops after 511 iterations when the coefficient is NaN, and reports converged = True. *)
Lemma float_converged_refuted_lemma : forall fdot fsquare, dot_of_one fdot -> exists r,
  flinear_fit fdot fsquare "fixed" 1 [[double 10 0]] [fone] = Ok (r, tt) /\
  fr_converged r = true /\ Z.of_nat (fr_iteration r) = 511%Z /\ map is_nan (fr_x r) = [true].
Proof.
  intros fdot fsquare D.
  destruct (run1_eq fdot fsquare D (double 10 0) fone) as (x & xp & it & E & R).
  exists {| fr_x := [x]; fr_x_prev := [xp]; fr_converged := (Z.of_nat it <? 1000)%Z; fr_iteration := it |}.
  split; [exact R|]. cbn [fr_converged fr_iteration fr_x map].
  assert (V : match run1 (double 10 0) fone (Z.to_nat 1000) fone finf 0 with
    | Some (x, xp, it) => is_nan x = true /\ Z.of_nat it = 511%Z | None => False end) by (vm_compute; split; reflexivity).
  rewrite E in V. destruct V as [V1 V2]. rewrite V1, V2. repeat split; reflexivity.
Qed.

(*@ non-vacuous: on feature 1 and target 1 the same model stops at its start, at once, with a last move of length 0 *)
Lemma ex_float_converged_partial_lemma :
  let fdot a b := match a, b with [x], [y] => fmul x y | _, _ => fzero end in
  match flinear_fit fdot (fun x => fmul x x) "fixed" 1 [[fone]] [fone] with
  | Ok (r, _) => fr_converged r = true /\ map B2SF (fr_x r) = [B2SF fone] /\
                 B2SF (fnorm fdot (fminus (fr_x r) (fr_x_prev r))) = B2SF fzero
  | Err _ => False
  end.
Proof. cbv zeta. vm_compute. repeat split; reflexivity. Qed.
