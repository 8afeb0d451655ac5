(** Properties C01-C11: the regularizers (src/pysr3/regularizers.py). *)
From Verif.Base Require Import Py Vec.
From Verif.Model Require Import Regularizers.
From Verif.Spec Require Import ProxSpec RegSpec.
From Verif.Proofs Require Import L0Proofs.
From Verif.Proofs Require Import RegularizersMain.

Open Scope R_scope.

(** C01.  Best approximation with at most nnz non-zeros, for every tie order of argsort. *)
Theorem l0_prox_best_sparse_approximation :
  forall argsort, argsort_ok argsort -> forall nnz x alpha,
  let k := match nnz with Some n => n | None => Z.of_nat (length x) end in
  exists z, prox argsort (mk_l0 nnz) x alpha = Ok z /\ length z = length x /\
    sparse k z /\ kept_or_zeroed x z /\
    forall z', length z' = length x -> sparse k z' -> sqnorm (vsub z x) <= sqnorm (vsub z' x).
Proof. exact l0_prox_best_sparse_approximation_lemma. Qed.
Print Assumptions l0_prox_best_sparse_approximation.

(** C01.  ... which makes it the proximal operator of the 0/infinity penalty that
    L0Regularizer.value reports. *)
Theorem l0_prox_is_prox_of_value :
  forall argsort, argsort_ok argsort -> forall k x alpha, (0 <= k)%Z ->
  exists z, prox argsort (mk_l0 (Some k)) x alpha = Ok z /\
    is_prox_of_value (value (mk_l0 (Some k))) alpha x z.
Proof. exact l0_prox_is_prox_of_value_lemma. Qed.
Print Assumptions l0_prox_is_prox_of_value.

(** An argsort with the contract exists. *)
Example ex_argsort_ok : argsort_ok argsort_ins.
Proof. exact ex_argsort_ok_lemma. Qed.

(** prox of [3; -1; 2] with nnz=2 drops the -1. *)
Example ex_l0_prox : prox argsort_ins (mk_l0 (Some 2%Z)) [3; -1; 2] 1 = Ok [3; 0; 2].
Proof. exact ex_l0_prox_lemma. Qed.

(** C02.  With weights attached: coordinates of weight zero are untouched and counted
    first, and the result is a closest vector under that budget. *)
Theorem l0_prox_must_include :
  forall argsort, argsort_ok argsort -> forall nnz w x alpha r,
  length w = length x -> instantiate (mk_l0 nnz) w None = Ok r ->
  let k := match nnz with Some n => n | None => Z.of_nat (length x) end in
  exists z, prox argsort r x alpha = Ok z /\ length z = length x /\
    (forall i, (i < length x)%nat -> nth i w 0 = 0 -> nth i z 0 = nth i x 0) /\
    within_budget k w z /\ kept_or_zeroed x z /\
    (Z.of_nat (nonzeros z) <= Z.max k (Z.of_nat (zero_count w)))%Z /\
    forall z', length z' = length x -> within_budget k w z' ->
      sqnorm (vsub z x) <= sqnorm (vsub z' x).
Proof. exact l0_prox_must_include_lemma. Qed.
Print Assumptions l0_prox_must_include.

(** C02.  No dropped penalised coordinate is larger than a kept one. *)
Theorem l0_prox_keeps_largest :
  forall argsort, argsort_ok argsort -> forall nnz x alpha z i j,
  prox argsort (mk_l0 nnz) x alpha = Ok z ->
  (i < length x)%nat -> (j < length x)%nat ->
  nth i z 0 <> 0 -> nth j z 0 <> nth j x 0 -> Rabs (nth j x 0) <= Rabs (nth i x 0).
Proof. exact l0_prox_keeps_largest_lemma. Qed.
Print Assumptions l0_prox_keeps_largest.

(** Weights [0; 1; 1] are attached successfully and leave one budget slot out of two. *)
Example ex_l0_must_include :
  instantiate (mk_l0 (Some 2%Z)) [0; 1; 1] None
    = Ok (RL0 (Some 2%Z) (Some [0; 1; 1]) (Some [false; true; true])) /\
  zero_count [0; 1; 1] = 1%nat /\ within_budget 2 [0; 1; 1] [5; 0; 3] /\
  ~ within_budget 2 [0; 1; 1] [0; 1; 3].
Proof. exact ex_l0_must_include_lemma. Qed.

(** C03.  Both budgets, the hierarchy, the exempt coordinates, and optimality of each
    half (of the random-effect half given the fixed-effect half). *)
Theorem l0lme_prox_budgets_and_hierarchy :
  forall argsort, argsort_ok argsort -> forall nb ng indep p q bmap w x alpha r,
  length w = (p + q)%nat -> length x = (p + q)%nat -> length bmap = p ->
  (forall i, (i < p)%nat -> (nth i bmap (-1) < Z.of_nat q)%Z) ->
  instantiate (mk_l0lme nb ng indep (Some {| ov_p := p; ov_q := q; ov_map := bmap |})) w None = Ok r ->
  let bw := firstn p w in
  let gw := skipn p w in
  let nb' := match nb with Some n => n | None => Z.of_nat p end in
  let ng' := match ng with Some n => n | None => Z.of_nat q end in
  exists tb tg,
    prox argsort r x alpha = Ok (tb ++ tg) /\ length tb = p /\ length tg = q /\
    kept_or_zeroed x (tb ++ tg) /\
    within_budget nb' bw tb /\ within_budget ng' gw tg /\
    (Z.of_nat (nonzeros tb) <= Z.max nb' (Z.of_nat (zero_count bw)))%Z /\
    (Z.of_nat (nonzeros tg) <= Z.max ng' (Z.of_nat (zero_count gw)))%Z /\
    (indep = false -> hierarchical bmap gw tb tg) /\
    (forall k, (k < p + q)%nat -> nth k w 0 = 0 -> nth k (tb ++ tg) 0 = nth k x 0) /\
    (forall tb', length tb' = p -> within_budget nb' bw tb' ->
       sqnorm (vsub tb (firstn p x)) <= sqnorm (vsub tb' (firstn p x))) /\
    (forall tg', length tg' = q -> within_budget ng' gw tg' ->
       (indep = false -> hierarchical bmap gw tb tg') ->
       sqnorm (vsub tg (skipn p x)) <= sqnorm (vsub tg' (skipn p x))).
Proof. exact l0lme_prox_budgets_and_hierarchy_lemma. Qed.
Print Assumptions l0lme_prox_budgets_and_hierarchy.

(** A layout with an intercept that is fixed only, one column that is both, and one
    random-only column meets the hypotheses. *)
Example ex_l0lme_layout :
  length [0; 1; 1; 1] = (2 + 2)%nat /\ length [0%Z; (-1)%Z] = 2%nat /\
  (forall i, (i < 2)%nat -> (nth i [(-1)%Z; 0%Z] (-1) < Z.of_nat 2)%Z) /\
  exists r, instantiate (mk_l0lme (Some 1%Z) (Some 1%Z) false
     (Some {| ov_p := 2; ov_q := 2; ov_map := [(-1)%Z; 0%Z] |})) [0; 1; 1; 1] None = Ok r.
Proof. exact ex_l0lme_layout_lemma. Qed.

(** C04.  Soft thresholding is the unique minimiser; weights w. *)
Theorem l1_prox_exact_weighted :
  forall argsort lam w o x alpha r, 0 <= lam -> 0 <= alpha ->
  length w = length x -> Forall (fun wi => 0 <= wi) w ->
  instantiate (mk_l1 lam) w o = Ok r ->
  exists z, prox argsort r x alpha = Ok z /\
    is_unique_prox all_vecs (fun z' => lam * weighted_l1 w z') alpha x z.
Proof. exact l1_prox_exact_weighted_lemma. Qed.
Print Assumptions l1_prox_exact_weighted.

(** C04.  The same without weights. *)
Theorem l1_prox_exact :
  forall argsort lam x alpha, 0 <= lam -> 0 <= alpha ->
  exists z, prox argsort (mk_l1 lam) x alpha = Ok z /\
    is_unique_prox all_vecs (fun z' => lam * weighted_l1 (ones (length x)) z') alpha x z.
Proof. exact l1_prox_exact_lemma. Qed.
Print Assumptions l1_prox_exact.

(** prox of [3; -1] with alpha*lam = 2 is [1; 0]. *)
Example ex_l1_prox : prox argsort_ins (mk_l1 2) [3; -1] 1 = Ok [1; 0].
Proof. exact ex_l1_prox_lemma. Qed.

(** C05 (partial: without weights, or with lam = 1).  prox minimises the reported value. *)
Theorem l1_prox_minimises_value_partial :
  forall argsort lam w x alpha, 0 <= lam -> 0 <= alpha ->
  (w = None \/ (exists l, w = Some l /\ lam = 1 /\ length l = length x /\ Forall (fun wi => 0 <= wi) l)) ->
  exists z, prox argsort (RL1 lam w) x alpha = Ok z /\
    is_prox_of_value (value (RL1 lam w)) alpha x z.
Proof. exact l1_prox_minimises_value_partial_lemma. Qed.
Print Assumptions l1_prox_minimises_value_partial.

(** C05 (refuted with weights): for every lam other than 1 there are weights (all ones)
    and a point where prox does not minimise 1/2||z-x||^2 + alpha*value(z), because
    value drops lam once weights are attached. *)
Theorem l1_prox_minimises_value_refuted :
  forall argsort lam, 0 <= lam -> lam <> 1 ->
  exists w x alpha r z, 0 < alpha /\ instantiate (mk_l1 lam) w None = Ok r /\
    prox argsort r x alpha = Ok z /\ ~ is_prox_of_value (value r) alpha x z.
Proof. exact l1_prox_minimises_value_refuted_lemma. Qed.
Print Assumptions l1_prox_minimises_value_refuted.

(** C06 (partial: every penalised coordinate outside the bad zone).  For any non-negative weights,
    CAD prox is exact if and only if every penalised coordinate lies in the region of its weight. *)
Theorem cad_prox_exact_iff_partial :
  forall argsort rho lam w o x alpha r, 0 <= rho -> 0 <= lam -> 0 <= alpha ->
  length w = length x -> Forall (fun wi => 0 <= wi) w ->
  instantiate (mk_cad rho lam) w o = Ok r ->
  exists z, prox argsort r x alpha = Ok z /\
   (is_prox_of_value (value r) alpha x z <-> Forall2 (cad_weighted_region rho (alpha * lam)) w x).
Proof. exact cad_prox_exact_iff_partial_lemma. Qed.
Print Assumptions cad_prox_exact_iff_partial.

(** C06 (partial).  The same without weights. *)
Theorem cad_prox_exact_iff_unweighted_partial :
  forall argsort rho lam x alpha, 0 <= rho -> 0 <= lam -> 0 <= alpha ->
  exists z, prox argsort (mk_cad rho lam) x alpha = Ok z /\
   (is_prox_of_value (value (mk_cad rho lam)) alpha x z <->
    Forall (cad_exact_region rho (alpha * lam)) x).
Proof. exact cad_prox_exact_iff_unweighted_partial_lemma. Qed.
Print Assumptions cad_prox_exact_iff_unweighted_partial.

(** C06 (refuted): for every rho > 0 and every positive alpha*lam there is a point,
    just above rho, where prox does not minimise. *)
Theorem cad_prox_minimises_value_refuted :
  forall argsort rho lam alpha, 0 < rho -> 0 < lam -> 0 < alpha ->
  exists x z, prox argsort (mk_cad rho lam) x alpha = Ok z /\
    ~ is_prox_of_value (value (mk_cad rho lam)) alpha x z.
Proof. exact cad_prox_minimises_value_refuted_lemma. Qed.
Print Assumptions cad_prox_minimises_value_refuted.

(** All coordinates of [0; 1; 10] are in the exact region for rho = 2, alpha*lam = 1;
    2.25 is not. *)
Example ex_cad_region :
  Forall (cad_exact_region 2 1) [0; 1; 10] /\ ~ cad_exact_region 2 1 (9 / 4).
Proof. exact ex_cad_region_lemma. Qed.

(** With weight 2 the penalty is clipped at rho/2 = 1: for alpha*lam = 1 soft-thresholding is right at 2
    (both branches cost the same), doing nothing at 3, and soft-thresholding below rho wrong for rho = 4 at 4. *)
Example ex_cad_weighted_region :
  cad_weighted_region 2 1 2 2 /\ cad_weighted_region 2 1 2 3 /\ ~ cad_weighted_region 4 (/ 2) 2 4 /\
  forall x, cad_weighted_region 2 1 0 x.
Proof. exact ex_cad_weighted_region_lemma. Qed.

(** C07 (partial: alpha*lam*w < rho - 1, the convex case).  SCAD prox is the unique
    minimiser of its value. *)
Theorem scad_prox_minimises_value_partial :
  forall argsort rho sigma lam w x alpha, 1 < rho -> 0 < sigma -> 0 <= lam -> 0 <= alpha ->
  length w = length x -> Forall (fun wi => 0 <= wi /\ alpha * lam * wi < rho - 1) w ->
  exists z, prox argsort (RSCAD rho sigma lam (Some w)) x alpha = Ok z /\
    is_prox_of_value (value (RSCAD rho sigma lam (Some w))) alpha x z /\
    is_unique_prox all_vecs
      (fun z' => lam * separable (fun wi t => wi * scad_penalty rho sigma t) w z') alpha x z.
Proof. exact scad_prox_minimises_value_partial_lemma. Qed.
Print Assumptions scad_prox_minimises_value_partial.

(** C07 (partial).  The same without weights. *)
Theorem scad_prox_minimises_value_unweighted_partial :
  forall argsort rho sigma lam x alpha r, 0 < sigma -> 0 <= lam -> 0 <= alpha ->
  alpha * lam < rho - 1 -> mk_scad rho sigma lam = Ok r ->
  exists z, prox argsort r x alpha = Ok z /\ is_prox_of_value (value r) alpha x z.
Proof. exact scad_prox_minimises_value_unweighted_partial_lemma. Qed.
Print Assumptions scad_prox_minimises_value_unweighted_partial.

(** C07 (refuted): whenever alpha*lam > rho - 1 there is a point where prox does not
    minimise its value. *)
Theorem scad_prox_minimises_value_refuted :
  forall argsort rho sigma lam alpha, 1 < rho -> 0 < sigma -> rho - 1 < alpha * lam ->
  exists r x z, mk_scad rho sigma lam = Ok r /\ prox argsort r x alpha = Ok z /\
    ~ is_prox_of_value (value r) alpha x z.
Proof. exact scad_prox_minimises_value_refuted_lemma. Qed.
Print Assumptions scad_prox_minimises_value_refuted.

(** C07 (refuted): at alpha*lam = rho - 1 the prox divides by zero at |x| = rho*sigma;
    the defaults rho=2, sigma=1, lam=1 hit this at alpha=1, x=2. *)
Theorem scad_prox_always_finite_refuted :
  forall argsort rho sigma lam alpha, 1 < rho -> 0 < sigma -> alpha * lam = rho - 1 ->
  exists r, mk_scad rho sigma lam = Ok r /\ prox argsort r [rho * sigma] alpha = Err NotFinite.
Proof. exact scad_prox_always_finite_refuted_lemma. Qed.
Print Assumptions scad_prox_always_finite_refuted.

(** rho = 3.7, sigma = 1, lam = 1, alpha = 1 is in the convex case; rho = 3/2 is not. *)
Example ex_scad_regimes :
  1 * 1 < 37 / 10 - 1 /\ 3 / 2 - 1 < 1 * 1 /\ (exists r, mk_scad (37 / 10) 1 1 = Ok r) /\
  mk_scad 1 1 1 = Err AssertionError.
Proof. exact ex_scad_regimes_lemma. Qed.

(** C08.  If the inner prox is exact for g at the rescaled point, the wrapper's prox is
    exact for eps/2||.||^2 + g. *)
Theorem elastic_prox_exact :
  forall argsort r dom g eps x alpha z, 0 <= eps -> 0 < alpha ->
  let d := 1 + alpha * eps in
  prox argsort r (map (fun xi => xi / d) x) (alpha / d) = Ok z ->
  is_prox dom g (alpha / d) (map (fun xi => xi / d) x) z ->
  prox argsort (mk_elastic eps (Some r)) x alpha = Ok z /\
  is_prox dom (fun z' => eps / 2 * sqnorm z' + g z') alpha x z.
Proof. exact elastic_prox_exact_lemma. Qed.
Print Assumptions elastic_prox_exact.

(** C08.  In particular the wrapper minimises its own reported value whenever the inner
    regularizer does. *)
Theorem elastic_prox_minimises_value :
  forall argsort r eps x alpha z, 0 <= eps -> 0 < alpha ->
  let d := 1 + alpha * eps in
  prox argsort r (map (fun xi => xi / d) x) (alpha / d) = Ok z ->
  is_prox_of_value (value r) (alpha / d) (map (fun xi => xi / d) x) z ->
  prox argsort (mk_elastic eps (Some r)) x alpha = Ok z /\
  is_prox_of_value (value (mk_elastic eps (Some r))) alpha x z.
Proof. exact elastic_prox_minimises_value_lemma. Qed.
Print Assumptions elastic_prox_minimises_value.

(** C08.  Example: the elastic net over the L1 penalty, for all x. *)
Theorem elastic_net_l1_exact :
  forall argsort lam eps x alpha, 0 <= lam -> 0 <= eps -> 0 < alpha ->
  exists z, prox argsort (mk_elastic eps (Some (mk_l1 lam))) x alpha = Ok z /\
    is_prox all_vecs (fun z' => eps / 2 * sqnorm z' + lam * weighted_l1 (ones (length x)) z') alpha x z.
Proof. exact elastic_net_l1_exact_lemma. Qed.
Print Assumptions elastic_net_l1_exact.

(** C09.  Random-effect coordinates come out non-negative, for every nesting of
    regularizers with parameters in their documented ranges. *)
Theorem positive_quadrant_nonneg :
  forall argsort o m other x alpha z, 0 <= alpha ->
  m = repeat false (ov_p o) ++ repeat true (ov_q o) ->
  (match other with Some r => params_ok r | None => True end) ->
  prox argsort (RPos (Some m) other) x alpha = Ok z -> length z = length x ->
  nonneg_on m z.
Proof. exact positive_quadrant_nonneg_lemma. Qed.
Print Assumptions positive_quadrant_nonneg.

(** C09.  From the constructor on: after instantiate with an oracle of p fixed and q random
    effects, the last q coordinates of every prox output are non-negative. *)
Theorem positive_quadrant_variances_nonneg :
  forall argsort other w o r x alpha z j, 0 <= alpha ->
  instantiate (mk_pos other) w (Some o) = Ok r -> params_ok r ->
  prox argsort r x alpha = Ok z -> length z = length x ->
  (j < ov_q o)%nat -> 0 <= nth (ov_p o + j) z 0.
Proof. exact positive_quadrant_variances_nonneg_lemma. Qed.
Print Assumptions positive_quadrant_variances_nonneg.

(** C09.  If the inner prox is exact for g at the clipped point, the wrapper's prox is
    exact for g restricted to non-negative random-effect coordinates.  No assumption on
    g is needed beyond the inner prox being exact and the inner regularizer having
    parameters in range. *)
Theorem positive_quadrant_prox_exact :
  forall argsort m r dom g x alpha z, 0 <= alpha -> params_ok r -> length m = length x ->
  let y := mask_map m (fun a => Rmax a 0) x in
  prox argsort r y alpha = Ok z -> is_prox dom g alpha y z ->
  prox argsort (RPos (Some m) (Some r)) x alpha = Ok z /\
  is_prox (fun z' => nonneg_on m z' /\ dom z') g alpha x z.
Proof. exact positive_quadrant_prox_exact_lemma. Qed.
Print Assumptions positive_quadrant_prox_exact.

(** The mask attached by instantiate is "False for fixed, True for random effects". *)
Example ex_positive_quadrant_instantiate :
  forall w, instantiate (mk_pos (Some (mk_l1 1))) w (Some {| ov_p := 2; ov_q := 1; ov_map := [] |})
  = Ok (RPos (Some [false; false; true]) (Some (RL1 1 (Some w)))) /\ params_ok (RL1 1 (Some [1; 1; 0])).
Proof. exact ex_positive_quadrant_instantiate_lemma. Qed.

(** C10.  Every prox shrinks coordinatewise and keeps signs, for every nesting. *)
Theorem prox_shrinks_and_keeps_signs :
  forall argsort r alpha x z, params_ok r -> 0 <= alpha ->
  prox argsort r x alpha = Ok z -> length z = length x -> Forall2 shrunk x z.
Proof. exact prox_shrinks_and_keeps_signs_lemma. Qed.
Print Assumptions prox_shrinks_and_keeps_signs.

(** C10.  Hence zero stays zero and magnitudes never grow. *)
Theorem prox_zero_stays_zero :
  forall argsort r alpha x z k, params_ok r -> 0 <= alpha ->
  prox argsort r x alpha = Ok z -> length z = length x -> (k < length x)%nat ->
  Rabs (nth k z 0) <= Rabs (nth k x 0) /\ (nth k x 0 = 0 -> nth k z 0 = 0).
Proof. exact prox_zero_stays_zero_lemma. Qed.
Print Assumptions prox_zero_stays_zero.

(** A nested regularizer with parameters in range. *)
Example ex_params_ok :
  params_ok (RPos (Some [true]) (Some (RElastic 1 (Some (RSCAD 3 1 1 (Some [1])))))).
Proof. exact ex_params_ok_lemma. Qed.

(** C11.  A coordinate of weight zero passes through prox unchanged. *)
Theorem zero_weight_coordinate_unchanged :
  forall argsort r0 r w o x alpha z k,
  plain_reg r0 -> instantiate r0 w o = Ok r -> length w = length x ->
  prox argsort r x alpha = Ok z ->
  (k < length x)%nat -> nth k w 0 = 0 -> nth k z 0 = nth k x 0.
Proof. exact zero_weight_coordinate_unchanged_lemma. Qed.
Print Assumptions zero_weight_coordinate_unchanged.

(** C11.  ... and does not contribute to value. *)
Theorem zero_weight_coordinate_not_charged :
  forall r0 r w o x x',
  (match r0 with RL1 _ _ | RSCAD _ _ _ _ => True | RCAD rho _ _ => 0 <= rho | _ => False end) ->
  instantiate r0 w o = Ok r -> agree_on_penalised w x x' -> value r x = value r x'.
Proof. exact zero_weight_coordinate_not_charged_lemma. Qed.
Print Assumptions zero_weight_coordinate_not_charged.

(** [5; 1] and [7; 1] agree where the weights [0; 1] are not zero. *)
Example ex_agree_on_penalised : agree_on_penalised [0; 1] [5; 1] [7; 1].
Proof. exact ex_agree_on_penalised_lemma. Qed.
