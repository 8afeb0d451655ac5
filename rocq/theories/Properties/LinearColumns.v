(** Properties C108 - C110: order and signs of the features, order of the observations (src/pysr3/linear). *)
From Verif.Base Require Import Py Vec Mat.
From Verif.Model Require Import Regularizers Linear.
From Verif.Spec Require Import ProxSpec LinearSpec ColumnSpec.
From Verif.Proofs Require Import L0Proofs.
From Verif.Proofs Require Import LinearColumnsMain.

Open Scope R_scope.

(** C108.  For every penalty but L0, fitting the data with the features in another order (and the weights and the
    start, if given, in that order) gives the same coefficients in that order, and the same log; SR3 models under the
    contract of np.linalg.inv. *)
Theorem fit_reorders_features_partial : forall argsort inv m a p b order x0 warm w,
  coefficientwise (lm_reg m) -> is_order p order -> wf_mat p a ->
  (forall x, x0 = Some x -> length x = p) -> (forall v, w = Some v -> length v = p) ->
  sr3_ready inv m p b a (permute_columns order a) ->
  linear_fit argsort inv m (permute_columns order a) p b
    (option_map (permute order) x0) warm (option_map (permute order) w)
  = rmap (fit_map (permute order)) (linear_fit argsort inv m a p b x0 warm w).
Proof. exact fit_reorders_features_partial_lemma. Qed.
Print Assumptions fit_reorders_features_partial.

(** C108.  Predictions with reordered coefficients on reordered data are the same. *)
Theorem predictions_reorder_features : forall p order a x,
  is_order p order -> wf_mat p a -> length x = p ->
  linear_predict (Some (permute order x)) (permute_columns order a) p = linear_predict (Some x) a p.
Proof. exact predictions_reorder_features_lemma. Qed.
Print Assumptions predictions_reorder_features.

(** C108 (refuted).  An L0 model may keep one of two features that are equal.  Exchanging the features does not change
    the data, so it does not change the fit; but the fit is not its own exchange, because the coefficient that is kept
    is not at the same place.  This happens whatever order argsort chooses for equal entries. *)
Theorem fit_reorders_features_refuted : forall argsort inv, argsort_ok argsort ->
  is_order 2 [1; 0]%nat /\ wf_mat 2 twin_features /\
  linear_fit argsort inv keep_one (permute_columns [1; 0]%nat twin_features) 2 [2] None false None
  <> rmap (fit_map (permute [1; 0]%nat)) (linear_fit argsort inv keep_one twin_features 2 [2] None false None).
Proof. exact fit_reorders_features_refuted_lemma. Qed.
Print Assumptions fit_reorders_features_refuted.

(** A fit of two features that the theorem applies to, and an SR3 model that meets its contract. *)
Example ex_fit_reorders_features :
  coefficientwise (lm_reg plain_model) /\ is_order 2 [1; 0]%nat /\ wf_mat 2 [[1; -1]] /\
   sr3_ready inv_one plain_model 2 [2] [[1; -1]] (permute_columns [1; 0]%nat [[1; -1]]) /\
  argsort_ok argsort_ins /\
  sr3_ready inv_one (sample_linear (Some 1) false (mk_l1 1)) 1 [2] [[1]] (permute_columns [0]%nat [[1]]) /\
  exists lg, linear_fit argsort_ins inv_one plain_model (permute_columns [1; 0]%nat [[1; -1]]) 2 [2] None false None
     = Ok ([0; 2], lg).
Proof. exact ex_fit_reorders_features_lemma. Qed.

(** C109.  For every penalty of a linear model, multiplying features by -1 multiplies their coefficients by -1, if the
    start is given and is changed in the same way; the log is the same. *)
Theorem fit_flips_signs_partial : forall argsort inv m a p b signs x0 w,
  even_penalty (lm_reg m) -> is_signs p signs -> wf_mat p a ->
  length x0 = p -> (forall v, w = Some v -> length v = p) ->
  sr3_ready inv m p b a (flip_columns signs a) ->
  linear_fit argsort inv m (flip_columns signs a) p b (Some (flip signs x0)) true w
  = rmap (fit_map (flip signs)) (linear_fit argsort inv m a p b (Some x0) true w).
Proof. exact fit_flips_signs_partial_lemma. Qed.
Print Assumptions fit_flips_signs_partial.

(** C109 (refuted).  With the default start, all ones, this fails, also for runs that converge: one observation 2 of two
    features 1, 1 is fitted by 1, 1, but with the second feature multiplied by -1 it is fitted by 2, 0. *)
Theorem fit_flips_signs_refuted : forall argsort inv, exists lg lg',
  is_signs 2 [1; -1] /\
  linear_fit argsort inv plain_model [[1; 1]] 2 [2] None false None = Ok ([1; 1], lg) /\
  linear_fit argsort inv plain_model (flip_columns [1; -1] [[1; 1]]) 2 [2] None false None = Ok ([2; 0], lg') /\
  get lg "converged" = Ok (LAtom (LBool true)) /\ get lg' "converged" = Ok (LAtom (LBool true)) /\
  flip [1; -1] [1; 1] <> [2; 0].
Proof. exact fit_flips_signs_refuted_lemma. Qed.
Print Assumptions fit_flips_signs_refuted.

(** The hypotheses can hold, for an L0 model as well. *)
Example ex_fit_flips_signs :
  even_penalty (lm_reg keep_one) /\ even_penalty (lm_reg plain_model) /\ is_signs 2 [1; -1] /\ wf_mat 2 twin_features /\
  length [1; 1] = 2%nat /\ sr3_ready inv_one keep_one 2 [2] twin_features (flip_columns [1; -1] twin_features).
Proof. exact ex_fit_flips_signs_lemma. Qed.

(** C110.  The fit of a linear model, its log included, does not depend on the order of the observations, whatever the
    penalty; SR3 models under the contract of np.linalg.inv. *)
Theorem linear_fit_ignores_row_order : forall argsort inv m a b a' b' p x0 warm w,
  same_observations a b a' b' -> wf_mat p a ->
  (forall el, lm_el m = Some el -> 0 < el /\ inv_ok inv) ->
  linear_fit argsort inv m a' p b' x0 warm w = linear_fit argsort inv m a p b x0 warm w.
Proof. exact linear_fit_ignores_row_order_lemma. Qed.
Print Assumptions linear_fit_ignores_row_order.

(** Two observations in two orders. *)
Example ex_linear_fit_ignores_row_order :
  same_observations [[1; 0]; [0; 1]] [3; 4] [[0; 1]; [1; 0]] [4; 3] /\ wf_mat 2 [[1; 0]; [0; 1]] /\ inv_ok inv_one.
Proof. exact ex_linear_fit_ignores_row_order_lemma. Qed.
