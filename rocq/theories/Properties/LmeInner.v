(** Properties C45, C46, C48-C50, C70, C71: packing, the index map and the iterative routines of the mixed-model
    oracles (src/pysr3/lme/oracles.py). *)
From Verif.Base Require Import Py Vec Mat.
From Verif.Model Require Import LmeProblem Regularizers Solvers LmeInner.
From Verif.Spec Require Import SolverSpec InnerSpec.
From Verif.Proofs Require Import LmeInnerMain.

Open Scope list_scope.
Open Scope R_scope.

(** C45.  Unpacking undoes packing, and packing undoes unpacking of vectors of length p + q. *)
Theorem packing_roundtrip : forall A p q,
  (forall b g : list A, length b = p -> length g = q -> x_to_beta_gamma p q (beta_gamma_to_x b g) = (b, g)) /\
  (forall x : list A, length x = (p + q)%nat ->
     beta_gamma_to_x (fst (x_to_beta_gamma p q x)) (snd (x_to_beta_gamma p q x)) = x /\
     length (fst (x_to_beta_gamma p q x)) = p /\ length (snd (x_to_beta_gamma p q x)) = q).
Proof. exact packing_roundtrip_lemma. Qed.
Print Assumptions packing_roundtrip.

(**  *)
Example ex_packing_roundtrip : length [1; 2; 3] = (2 + 1)%nat /\ x_to_beta_gamma 2 1 [1; 2; 3] = ([1; 2], [3]).
Proof. exact ex_packing_roundtrip_lemma. Qed.

(** C45.  The loss and the gradient on packed parameters are those on the two parts, packed alike. *)
Theorem joint_calls_unpack : forall loss gb gg b g rb rg p q,
  length b = p -> length g = q -> gb b g = Ok rb -> gg b g = Ok rg -> length rb = p -> length rg = q ->
  joint_loss p q loss (beta_gamma_to_x b g) = loss b g /\
  joint_gradient p q gb gg (beta_gamma_to_x b g) = Ok (beta_gamma_to_x rb rg).
Proof. exact joint_calls_unpack_lemma. Qed.
Print Assumptions joint_calls_unpack.

(**  *)
Example ex_joint_calls_unpack :
  joint_gradient 1 2 (fun b _ => Ok b) (fun _ g => Ok (vneg g)) (beta_gamma_to_x [1] [2; 3]) = Ok [1; - (2); - (3)].
Proof. exact ex_joint_calls_unpack_lemma. Qed.

(** C46.  The index map has one entry per fixed effect.  The entry of the fixed effect of a column is the position of
    the random effect of the same column, -1 if it has none; the intercept is the first column. *)
Theorem index_map_pairs : forall pr, exists m, beta_to_gamma_map pr = Ok m /\ length m = num_fixed pr /\
  (forall c l, nth_error (columns_of pr) c = Some l -> is_fixed l = true ->
     nth_error m (rank is_fixed (columns_of pr) c) =
     Some (if is_random l then Z.of_nat (rank is_random (columns_of pr) c) else (-1)%Z)) /\
  (forall i, (i < num_fixed pr)%nat -> exists c l, nth_error (columns_of pr) c = Some l /\ is_fixed l = true /\
     rank is_fixed (columns_of pr) c = i) /\
  (forall c l, nth_error (columns_of pr) c = Some l -> is_random l = true ->
     (rank is_random (columns_of pr) c < num_random pr)%nat).
Proof. exact index_map_pairs_lemma. Qed.
Print Assumptions index_map_pairs.

(**  *)
Example ex_index_map_pairs : forall pr, pr_intercept pr = Some FIXED_RANDOM ->
  pr_labels pr = [GROUP; FIXED; RANDOM; FIXED_RANDOM] -> beta_to_gamma_map pr = Ok [0; -1; 2]%Z.
Proof. exact ex_index_map_pairs_lemma. Qed.

(** C48.  The interior-point loop ends for all inputs and all histories of the oracle. *)
Theorem interior_point_terminates : forall calls opts p q solve ms warm mem beta gamma tbeta tgamma,
  ip_calls_return calls opts solve ms ->
  find_ip calls opts p q solve ms warm mem beta gamma tbeta tgamma <> Err OutOfFuel.
Proof. exact interior_point_terminates_lemma. Qed.
Print Assumptions interior_point_terminates.

(**  *)
Example ex_interior_point_terminates : ip_calls_return bowl (plain_options 1) (knows [-95/100; 0; 5/100]) no_minimiser.
Proof. exact ex_interior_point_terminates_lemma. Qed.

(** C48.  What it returns has been reached by at most n_iter_inner iterations from the starting point, and the
    loop ended for one of its four reasons; beta and gamma are remembered for the next call. *)
Theorem interior_point_stops : forall calls opts p q solve ms warm mem beta gamma tbeta tgamma b' g' tb' tg' mem',
  tgamma <> [] -> length (start_gamma warm mem gamma) = length gamma ->
  find_ip calls opts p q solve ms warm mem beta gamma tbeta tgamma = Ok (b', g', tb', tg', mem') ->
  exists k s v, (Z.of_nat k <= Z.max 0 (io_n_iter opts))%Z /\ is_iter s = k /\
    ip_steps calls opts p q solve ms (length gamma) k (ip_start warm mem beta gamma tbeta tgamma) s /\
    b' = is_beta s /\ g' = is_gamma s /\ tb' = is_tbeta s /\ tg' = is_tgamma s /\
    length v = length gamma /\ length g' = length gamma /\ is_x s = v ++ b' ++ g' /\
    stop_reason calls opts s v /\
    sm_lam mem' = is_lam s /\ sm_warm mem' = (if warm then Some (b', g') else sm_warm mem).
Proof. exact interior_point_stops_lemma. Qed.
Print Assumptions interior_point_stops.

(**  *)
Example ex_interior_point_stops : exists r,
  find_ip bowl (plain_options 1) 1 1 (knows [-95/100; 0; 5/100]) no_minimiser true fresh_memory [0] [1] [0] [1] = Ok r.
Proof. exact ex_interior_point_stops_lemma. Qed.

(** C48, partial: from positive variances every iterate has positive variances and positive dual variables;
    with a line search, if the minimiser does not return the end of its interval. *)
Theorem interior_point_positive_partial : forall calls opts p q solve ms warm mem beta gamma tbeta tgamma k s,
  (0 < length gamma)%nat -> length (start_gamma warm mem gamma) = length gamma ->
  positive (start_gamma warm mem gamma) ->
  (io_line_search opts = true -> minimiser_inside ms) ->
  ip_steps calls opts p q solve ms (length gamma) k (ip_start warm mem beta gamma tbeta tgamma) s ->
  packed_with positive (length gamma) s.
Proof. exact interior_point_positive_partial_lemma. Qed.
Print Assumptions interior_point_positive_partial.

(**  *)
Example ex_interior_point_positive_partial :
  positive (start_gamma true fresh_memory [1]) /\ io_line_search (plain_options 1) = false /\
  exists s, ip_steps bowl (plain_options 1) 1 1 (knows [-95/100; 0; 5/100]) no_minimiser 1 1
              (ip_start true fresh_memory [0] [1] [0] [1]) s.
Proof. exact ex_interior_point_positive_partial_lemma. Qed.

(** C48, partial: from non-negative variances every iterate stays non-negative, for every answer of the bounded
    minimiser within its interval. *)
Theorem interior_point_nonneg_partial : forall calls opts p q solve ms warm mem beta gamma tbeta tgamma k s,
  (0 < length gamma)%nat -> length (start_gamma warm mem gamma) = length gamma ->
  nonneg (start_gamma warm mem gamma) ->
  (io_line_search opts = true -> minimiser_in_bounds ms) ->
  ip_steps calls opts p q solve ms (length gamma) k (ip_start warm mem beta gamma tbeta tgamma) s ->
  packed_with nonneg (length gamma) s.
Proof. exact interior_point_nonneg_partial_lemma. Qed.
Print Assumptions interior_point_nonneg_partial.

(**  *)
Example ex_interior_point_nonneg_partial :
  nonneg (start_gamma true fresh_memory [0]) /\ minimiser_in_bounds (fun _ hi => Ok hi) /\
  exists s, ip_steps bowl (plain_options 1) 1 1 (knows [-2; 0; 0]) no_minimiser 1 1
              (ip_start true fresh_memory [0] [0] [0] [0]) s.
Proof. exact ex_interior_point_nonneg_partial_lemma. Qed.

(** C48, refuted: started with a variance equal to zero, an iterate need not be positive. *)
Theorem interior_point_positive_refuted : exists calls opts solve ms mem beta gamma tbeta tgamma s,
  solve_ok solve /\ nonneg gamma /\ length gamma = 1%nat /\
  ip_steps calls opts 1 1 solve ms 1 1 (ip_start true mem beta gamma tbeta tgamma) s /\ ~ positive (is_gamma s).
Proof. exact interior_point_positive_refuted_lemma. Qed.
Print Assumptions interior_point_positive_refuted.

(** C48.  The returned relaxed variances are non-negative if those given are and the prox keeps them so. *)
Theorem relaxed_variances_nonneg : forall calls opts p q solve ms warm mem beta gamma tbeta tgamma b' g' tb' tg' mem',
  length (start_gamma warm mem gamma) = length gamma -> nonneg tgamma ->
  (forall pr x tx, io_prox opts = Some pr -> pr x (io_prox_step opts) = Ok tx -> nonneg (snd (x_to_beta_gamma p q tx))) ->
  find_ip calls opts p q solve ms warm mem beta gamma tbeta tgamma = Ok (b', g', tb', tg', mem') ->
  nonneg tg'.
Proof. exact relaxed_variances_nonneg_lemma. Qed.
Print Assumptions relaxed_variances_nonneg.

(**  *)
Example ex_relaxed_variances_nonneg : nonneg [1] /\ io_prox (plain_options 1) = None /\ exists r,
  find_ip bowl (plain_options 1) 1 1 (knows [-95/100; 0; 5/100]) no_minimiser true fresh_memory [0] [1] [0] [1] = Ok r.
Proof. exact ex_relaxed_variances_nonneg_lemma. Qed.

(** C71.  Every iteration moves along a Newton direction of the optimality conditions, by 0.99 of the largest step
    in [0, 1] that keeps the variances and dual variables non-negative, or by what the bounded minimiser answers;
    then the barrier, the relaxed variables and the weights of the relaxation are updated. *)
Theorem interior_point_newton : forall calls opts p q solve ms warm mem beta gamma tbeta tgamma k s s',
  (0 < length gamma)%nat -> length (start_gamma warm mem gamma) = length gamma ->
  nonneg (start_gamma warm mem gamma) ->
  (io_line_search opts = true -> minimiser_in_bounds ms) -> solve_ok solve ->
  well_shaped calls (length (start_beta warm mem beta)) (length gamma) ->
  ip_steps calls opts p q solve ms (length gamma) k (ip_start warm mem beta gamma tbeta tgamma) s ->
  ip_body calls opts p q solve ms (length gamma) s = Ok s' ->
  exists v dv db dg a hi, is_x s = v ++ is_beta s ++ is_gamma s /\
    length v = length gamma /\ length dv = length gamma /\ length db = length (start_beta warm mem beta) /\
    length dg = length gamma /\
    newton_direction calls (length gamma) s v dv db dg /\
    largest_step (v ++ is_gamma s) (dv ++ dg) hi /\
    (io_line_search opts = false -> a = 99 / 100 * hi) /\ (io_line_search opts = true -> 0 <= a <= hi) /\
    is_x s' = step_to v dv a ++ is_beta s' ++ is_gamma s' /\
    is_beta s' = step_to (is_beta s) db a /\ is_gamma s' = step_to (is_gamma s) dg a /\
    is_step s' = a /\ is_iter s' = S (is_iter s) /\
    is_prev s' = Some (is_tbeta s, is_tgamma s, is_beta s, is_gamma s) /\
    barrier_update opts p q (length gamma) s s' (step_to v dv a).
Proof. exact interior_point_newton_lemma. Qed.
Print Assumptions interior_point_newton.

(**  *)
Example ex_interior_point_newton : solve_ok (knows [-95/100; 0; 5/100]) /\ well_shaped bowl 1 1 /\
  exists s', ip_body bowl (plain_options 1) 1 1 (knows [-95/100; 0; 5/100]) no_minimiser 1
              (ip_start true fresh_memory [0] [1] [0] [1]) = Ok s'.
Proof. exact ex_interior_point_newton_lemma. Qed.

(** C70, refuted: started from zero variances (without anything remembered) the interior-point method returns zero
    variances, whatever the data, for every oracle, regularizer and number of iterations. *)
Theorem zero_variances_trapped_refuted :
  (forall calls opts p q solve ms warm mem beta gamma tbeta tgamma b' g' tb' tg' mem',
     solve_ok solve -> (io_line_search opts = true -> minimiser_inside ms) ->
     start_gamma warm mem gamma = zeros (length gamma) -> tgamma <> [] ->
     find_ip calls opts p q solve ms warm mem beta gamma tbeta tgamma = Ok (b', g', tb', tg', mem') ->
     g' = zeros (length gamma)) /\
  (* although the minimum may be elsewhere *)
  (exists calls : sr3_calls, (forall l b g tb tg, length b = 1%nat -> length g = 1%nat ->
      exists r r1, sc_loss calls l b g tb tg = Ok r /\ sc_loss calls l [0] [1] tb tg = Ok r1 /\ r1 <= r /\
                   (r = r1 -> b = [0] /\ g = [1])) /\
   exists solve r, solve_ok solve /\
     find_ip calls (plain_options 1) 1 1 solve no_minimiser true fresh_memory [0] [0] [0] [0] = Ok r).
Proof. exact zero_variances_trapped_refuted_lemma. Qed.
Print Assumptions zero_variances_trapped_refuted.

(** C49, refuted: without random effects the practical mode returns its starting point, whatever the data, the
    penalty and the options. *)
Theorem practical_without_random_effects_refuted :
  (forall calls opts p solve ms warm mem w r, length w = p ->
     find_optimal_parameters calls opts p 0 solve ms warm mem w = Ok r -> r = (w, mem)) /\
  (forall opts solve ms warm mem p w, length w = p ->
     find_optimal_parameters bowl opts p 0 solve ms warm mem w = Ok (w, mem)).
Proof. exact practical_without_random_effects_refuted_lemma. Qed.
Print Assumptions practical_without_random_effects_refuted.

(** C49, partial: without random effects the value function and its gradient are those at the optimal beta. *)
Theorem value_function_without_random_effects_partial :
  forall calls opts p solve ms warm mem w b, length w = p -> length b = p ->
  sc_optimal_beta calls (sm_lam mem) [] w = Ok b ->
  value_function calls opts p 0 solve ms warm mem w =
    (let! f := sc_loss calls (sm_lam mem) b [] w [] in Ok (f, mem)) /\
  exists g, gradient_value_function calls opts p 0 solve ms warm mem w = Ok (g, mem) /\
    g = map2 (fun wi bi => lam_b (sm_lam mem) * (wi - bi)) w b.
Proof. exact value_function_without_random_effects_partial_lemma. Qed.
Print Assumptions value_function_without_random_effects_partial.

(**  *)
Example ex_value_function_without_random_effects_partial :
  sc_optimal_beta bowl (sm_lam fresh_memory) [] [3] = Ok [0].
Proof. exact ex_value_function_without_random_effects_partial_lemma. Qed.

(** C50.  Projected gradient descent for the variances: it ends; from non-negative variances it makes at most
    n_iter_inner steps, each along the projected gradient within the largest feasible step, stays
    non-negative, and stops at the limit, after a step of length zero, or where the projected gradient is small. *)
Theorem variance_descent_feasible : forall n_iter tol loss gradient hessian minimize solve,
  (forall gamma, (forall x, no_oof (gradient x)) -> (forall f hi, no_oof (minimize f hi)) ->
     optimal_gamma n_iter tol loss gradient hessian minimize solve "pgd" gamma <> Err OutOfFuel) /\
  (forall gamma g' log, nonneg gamma ->
     optimal_gamma n_iter tol loss gradient hessian minimize solve "pgd" gamma = Ok (g', log) ->
     exists path, is_path (gamma_step tol loss gradient minimize) gamma path /\
       g' = endpoint gamma path /\ log = gamma :: map snd path /\
       (Z.of_nat (length path) <= Z.max 0 n_iter)%Z /\ nonneg g' /\ Forall nonneg log /\
       length g' = length gamma /\ moving path /\
       ((n_iter <= Z.of_nat (length path))%Z \/ last_step path <= 0 \/
        exists g, gradient g' = Ok g /\ norm (projected_descent g' g) <= tol)).
Proof. exact variance_descent_feasible_lemma. Qed.
Print Assumptions variance_descent_feasible.

(**  *)
Example ex_variance_descent_feasible : nonneg [1] /\ exists g' log,
  optimal_gamma 1 (/ 2) (fun g => Ok (sqnorm g)) (fun g => Ok g) (fun g => Ok []) (fun _ hi => Ok hi) (knows []) "pgd" [1]
    = Ok (g', log) /\ length log = 2%nat.
Proof. exact ex_variance_descent_feasible_lemma. Qed.

(** C50.  The interior-point variant: it ends; from non-negative variances it makes at most n_iter_inner projected
    Newton steps, every iterate is non-negative, and it stops at the limit, after a step of length zero, or at
    small residuals of the optimality conditions.  Any other method name is a ValueError. *)
Theorem variance_interior_point_feasible : forall n_iter tol loss gradient hessian minimize solve,
  (forall gamma, (forall x, no_oof (gradient x)) -> (forall f hi, no_oof (minimize f hi)) ->
     (forall x, no_oof (hessian x)) -> (forall x, no_oof (loss x)) -> (forall a b, no_oof (solve a b)) ->
     optimal_gamma n_iter tol loss gradient hessian minimize solve "ip" gamma <> Err OutOfFuel) /\
  (forall gamma g' log n, nonneg gamma -> length gamma = n -> solve_ok solve ->
     (forall g r, length g = n -> gradient g = Ok r -> length r = n) ->
     (forall g h, length g = n -> hessian g = Ok h -> is_shape n n h) ->
     optimal_gamma n_iter tol loss gradient hessian minimize solve "ip" gamma = Ok (g', log) ->
     let x := ones n ++ gamma in
     let mu := vdot (ones n) gamma / INR n in
     exists path, gamma_newton_path tol gradient hessian minimize n mu x path /\
       g' = skipn n (endpoint x path) /\ log = gamma :: map (fun s => skipn n (snd s)) path /\
       (Z.of_nat (length path) <= Z.max 0 n_iter)%Z /\
       nonneg g' /\ Forall nonneg log /\ length g' = n /\
       Forall (fun s => s <> 0) (removelast (map fst path)) /\
       ((n_iter <= Z.of_nat (length path))%Z \/ last_step path = 0 \/
        exists r, gamma_residual gradient n (last_barrier n mu path) (endpoint x path) = Ok r /\ r <= tol)) /\
  (forall method gamma, method <> "pgd"%string -> method <> "ip"%string ->
     optimal_gamma n_iter tol loss gradient hessian minimize solve method gamma = Err ValueError).
Proof. exact variance_interior_point_feasible_lemma. Qed.
Print Assumptions variance_interior_point_feasible.

(**  *)
Example ex_variance_interior_point_feasible : nonneg [1] /\ exists g' log,
  optimal_gamma 1 (/ 2) (fun g => Ok 0) (fun g => Ok [2]) (fun g => Ok [[1]]) (fun _ hi => Ok hi) (knows [/ 2; - / 2]) "ip" [1]
    = Ok (g', log) /\ length log = 2%nat.
Proof. exact ex_variance_interior_point_feasible_lemma. Qed.
