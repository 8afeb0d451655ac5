(** What the iterative routines of the mixed-model oracle should do, independently of their code. *)
From Verif.Base Require Import Py Vec Mat.
From Verif.Model Require Import LmeProblem Regularizers Solvers LmeInner.
From Verif.Spec Require Import SolverSpec.
Open Scope R_scope.

Definition nonneg (x : vec) : Prop := Forall (fun a => 0 <= a) x.
Definition positive (x : vec) : Prop := Forall (fun a => 0 < a) x.

(** ** columns: the intercept, if any, comes first *)
Definition columns_of (pr : lme_problem) : list string :=
  match pr_intercept pr with Some s => s :: pr_labels pr | None => pr_labels pr end.
(** how many columns before c have the role k *)
Definition rank (k : string -> bool) (labels : list string) (c : nat) : nat := countb k (firstn c labels).

(** ** steps *)
(** the entries of z at the true positions of m are non-negative / positive *)
Definition feasible (m : list bool) (z : vec) : Prop := nonneg (mask_select m z).
Definition interior (m : list bool) (z : vec) : Prop := positive (mask_select m z).
(** x + a d *)
Definition step_to (x d : vec) (a : R) : vec := vadd x (vscale a d).

(** the minimisers return a point of their interval; [inside] excludes the upper end *)
Definition minimiser_in_bounds (ms : (R -> res R) -> R -> res R) : Prop :=
  forall f hi a, 0 <= hi -> ms f hi = Ok a -> 0 <= a <= hi.
Definition minimiser_inside (ms : (R -> res R) -> R -> res R) : Prop :=
  forall f hi a, 0 < hi -> ms f hi = Ok a -> 0 <= a < hi.
(** a returned solution solves the system *)
Definition solve_ok (solve : mat -> vec -> res vec) : Prop :=
  forall a b x, solve a b = Ok x -> mv a x = b.

(** ** executions of the interior-point method: k executions of the loop's body lead from s to s' *)
Inductive ip_steps (calls : sr3_calls) (opts : ip_options) (p q : nat) (solve : mat -> vec -> res vec)
    (ms : (R -> res R) -> R -> res R) (n : nat) : nat -> ip_state -> ip_state -> Prop :=
| ip_here : forall s, ip_steps calls opts p q solve ms n 0 s s
| ip_more : forall k s s1 s', ip_body calls opts p q solve ms n s = Ok s1 ->
    ip_steps calls opts p q solve ms n k s1 s' -> ip_steps calls opts p q solve ms n (S k) s s'.

(** the packing of the iterate: x = [v, beta, gamma] *)
Definition packed (n : nat) (s : ip_state) : Prop :=
  exists v, length v = n /\ length (is_gamma s) = n /\ is_x s = v ++ is_beta s ++ is_gamma s.
(** ... with v and gamma positive / non-negative *)
Definition packed_with (P : vec -> Prop) (n : nat) (s : ip_state) : Prop :=
  exists v, length v = n /\ length (is_gamma s) = n /\ is_x s = v ++ is_beta s ++ is_gamma s /\
            P v /\ P (is_gamma s).

(** nothing the routine calls runs out of its own fuel *)
Definition ip_calls_return (calls : sr3_calls) (opts : ip_options) (solve : mat -> vec -> res vec)
    (ms : (R -> res R) -> R -> res R) : Prop :=
  (forall l b g tb tg, no_oof (sc_gradient_beta calls l b g tb tg)) /\
  (forall l b g tb tg, no_oof (sc_gradient_gamma calls l b g tb tg)) /\
  (forall l b g, no_oof (sc_hessian_beta calls l b g)) /\
  (forall b g, no_oof (sc_hessian_beta_gamma calls b g)) /\
  (forall l b g, no_oof (sc_hessian_gamma calls l b g)) /\
  (forall l g tb, no_oof (sc_optimal_beta calls l g tb)) /\
  (forall a b, no_oof (solve a b)) /\ (forall f hi, no_oof (ms f hi)) /\
  (forall pr x a, io_prox opts = Some pr -> no_oof (pr x a)).

(** the evaluations have the right shapes for p fixed and n random effects *)
Definition well_shaped (calls : sr3_calls) (p n : nat) : Prop :=
  forall l b g tb tg, length b = p -> length g = n ->
  (forall r, sc_gradient_beta calls l b g tb tg = Ok r -> length r = p) /\
  (forall r, sc_gradient_gamma calls l b g tb tg = Ok r -> length r = n) /\
  (forall r, sc_hessian_beta calls l b g = Ok r -> is_shape p p r) /\
  (forall r, sc_hessian_beta_gamma calls b g = Ok r -> is_shape p n r) /\
  (forall r, sc_hessian_gamma calls l b g = Ok r -> is_shape n n r).

(** (dv, db, dg) is a Newton direction at (v, beta, gamma): the optimality conditions, linearised, vanish *)
Definition newton_direction (calls : sr3_calls) (n : nat) (s : ip_state) (v dv db dg : vec) : Prop :=
  exists gb gg hb hbg hg,
    sc_gradient_beta calls (is_lam s) (is_beta s) (is_gamma s) (is_tbeta s) (is_tgamma s) = Ok gb /\
    sc_gradient_gamma calls (is_lam s) (is_beta s) (is_gamma s) (is_tbeta s) (is_tgamma s) = Ok gg /\
    sc_hessian_beta calls (is_lam s) (is_beta s) (is_gamma s) = Ok hb /\
    sc_hessian_beta_gamma calls (is_beta s) (is_gamma s) = Ok hbg /\
    sc_hessian_gamma calls (is_lam s) (is_beta s) (is_gamma s) = Ok hg /\
    (forall i, (i < n)%nat ->
       nth i v 0 * nth i (is_gamma s) 0 + nth i (is_gamma s) 0 * nth i dv 0 + nth i v 0 * nth i dg 0 = is_mu s) /\
    vadd gb (vadd (mv hb db) (mv hbg dg)) = zeros (length gb) /\
    vadd (vsub gg v) (vsub (vadd (tmv n hbg db) (mv hg dg)) dv) = zeros n.

(** the residuals of the barrier problem's optimality conditions at (v, beta, gamma):
    complementarity v*gamma = mu, stationarity in beta, and v = gradient in gamma *)
Definition kkt_residual (calls : sr3_calls) (s : ip_state) (v : vec) (r : R) : Prop :=
  exists gb gg, sc_gradient_beta calls (is_lam s) (is_beta s) (is_gamma s) (is_tbeta s) (is_tgamma s) = Ok gb /\
    sc_gradient_gamma calls (is_lam s) (is_beta s) (is_gamma s) (is_tbeta s) (is_tgamma s) = Ok gg /\
    r = sqrt (sqnorm (map (fun a => a - is_mu s) (vmul v (is_gamma s))) + sqnorm gb + sqnorm (vsub gg v)).

(** the last iteration moved x by at most tol; None stands for np.infty *)
Definition small_move (tol : R) (x : vec) (prev : option vec) : Prop :=
  match prev with None => x = [] /\ 0 <= tol | Some y => norm (vsub x y) <= tol end.

(** once x = [v, beta, gamma] has moved: outside the neighbourhood of the central path nothing else changes;
    inside, the barrier shrinks, every [io_update_every] iterations the relaxed variables become the prox of
    [beta, gamma], and the weights of the relaxation grow if asked *)
Definition barrier_update (opts : ip_options) (p q n : nat) (s s' : ip_state) (v : vec) : Prop :=
  let g := is_gamma s' in
  let b := is_beta s' in
  let avg := vdot g v / INR n in
  (io_neighbourhood opts * vdot g v / INR n < norm (map (fun a => a - avg) (vmul g v)) /\
   is_tbeta s' = is_tbeta s /\ is_tgamma s' = is_tgamma s /\ is_mu s' = is_mu s /\
   is_lam s' = is_lam s /\ is_conv s' = is_conv s) \/
  (norm (map (fun a => a - avg) (vmul g v)) <= io_neighbourhood opts * vdot g v / INR n /\
   is_mu s' = io_mu_decay opts * vdot v g / INR n /\
   ((exists pr tx, io_prox opts = Some pr /\ (0 < io_update_every opts)%Z /\
       (Z.of_nat (is_iter s') mod io_update_every opts = 0)%Z /\
       pr (b ++ g) (io_prox_step opts) = Ok tx /\
       is_tbeta s' = firstn p tx /\ is_tgamma s' = firstn q (skipn p tx)) \/
    ((io_prox opts = None \/ (io_update_every opts <= 0)%Z \/
      (Z.of_nat (is_iter s') mod io_update_every opts <> 0)%Z) /\
     is_tbeta s' = is_tbeta s /\ is_tgamma s' = is_tgamma s)) /\
   (if io_increase opts then
      lam_b (is_lam s') = 12 / 10 * (1 + lam_b (is_lam s)) /\ lam_g (is_lam s') = 12 / 10 * (1 + lam_g (is_lam s)) /\
      (is_conv s' = true <-> norm (vsub b (is_tbeta s')) < io_tol opts \/ norm (vsub g (is_tgamma s')) < io_tol opts)
    else is_lam s' = is_lam s /\ is_conv s' = is_conv s)).

(** the previous iterate: tbeta, tgamma, beta, gamma *)
Definition prev_of (k : vec * vec * vec * vec -> vec) (s : ip_state) : option vec := option_map k (is_prev s).
(** what ended the loop: a step of length zero, the iteration limit, small residuals and barrier, or no progress *)
Definition stop_reason (calls : sr3_calls) (opts : ip_options) (s : ip_state) (v : vec) : Prop :=
  is_step s = 0 \/ (io_n_iter opts <= Z.of_nat (is_iter s))%Z \/
  (is_mu s <= io_tol opts /\ exists r, kkt_residual calls s v r /\ r <= io_tol opts) \/
  (is_conv s = false /\
   small_move (io_tol opts) (is_tbeta s) (prev_of (fun '(a, _, _, _) => a) s) /\
   small_move (io_tol opts) (is_tgamma s) (prev_of (fun '(_, a, _, _) => a) s) /\
   small_move (io_tol opts) (is_beta s) (prev_of (fun '(_, _, a, _) => a) s) /\
   small_move (io_tol opts) (is_gamma s) (prev_of (fun '(_, _, _, a) => a) s)).

(** where the warm start, or the arguments, put beta and gamma *)
Definition start_beta (warm : bool) (mem : sr3_memory) (beta : vec) : vec :=
  match warm, sm_warm mem with true, Some (b, _) => b | _, _ => beta end.
Definition start_gamma (warm : bool) (mem : sr3_memory) (gamma : vec) : vec :=
  match warm, sm_warm mem with true, Some (_, g) => g | _, _ => gamma end.

(** a projected direction: steepest descent with the components leaving the box dropped *)
Definition projected_descent (x g : vec) : vec :=
  map2 (fun a c => if rltb 0 c && reqb a 0 then 0 else - c) x g.

(** hi is the largest step in [0, 1] along d that keeps every entry of x non-negative *)
Definition largest_step (x d : vec) (hi : R) : Prop :=
  0 <= hi <= 1 /\ forall s, 0 <= s <= 1 -> (s <= hi <-> nonneg (step_to x d s)).
(** z' is z with the entries up to 1e-18 replaced by zero *)
Definition drop_tiny (z z' : vec) : Prop :=
  Forall2 (fun a b => (a <= / 10 ^ 18 /\ b = 0) \/ (/ 10 ^ 18 < a /\ b = a)) z z'.
(** one iteration of the projected gradient method for gamma *)
Definition gamma_step (tol : R) (loss : vec -> res R) (gradient : vec -> res vec)
    (minimize : (R -> res R) -> R -> res R) (x : vec) (a : R) (x' : vec) : Prop :=
  exists g hi, gradient x = Ok g /\ length g = length x /\ tol < norm (projected_descent x g) /\
    largest_step x (projected_descent x g) hi /\
    minimize (fun s => loss (step_to x (projected_descent x g) s)) hi = Ok a /\
    drop_tiny (step_to x (projected_descent x g) a) x'.
(** the length of the last step of a path, 1 before the first *)
Definition last_step (path : list (R * vec)) : R := last (map fst path) 1.
(** all steps but the last are positive *)
Definition moving (path : list (R * vec)) : Prop := Forall (fun s => 0 < fst s) (removelast path).

(** the interior-point method for gamma works on x = [v, g], with the residual |[v * g - mu, gradient(g) - v]| *)
Definition gamma_residual (gradient : vec -> res vec) (n : nat) (mu : R) (x : vec) : res R :=
  let! gr := gradient (skipn n x) in
  Ok (norm (map (fun a => a - mu) (vmul (firstn n x) (skipn n x)) ++ vsub gr (firstn n x))).
(** d with the negative entries at zeros of x dropped *)
Definition drop_leaving (x d : vec) : vec := map2 (fun a c => if rltb c 0 && reqb a 0 then 0 else c) x d.
(** one iteration: a projected Newton direction, a minimiser of the squared residual over the feasible steps *)
Definition gamma_newton_step (tol : R) (gradient : vec -> res vec) (hessian : vec -> res mat)
    (minimize : (R -> res R) -> R -> res R) (n : nat) (mu : R) (x : vec) (a : R) (x' : vec) : Prop :=
  let v := firstn n x in
  let g := skipn n x in
  exists gr h dv dg hi r, gradient g = Ok gr /\ hessian g = Ok h /\ length dv = n /\ length dg = n /\
    (forall i, (i < n)%nat -> nth i v 0 * nth i g 0 + nth i g 0 * nth i dv 0 + nth i v 0 * nth i dg 0 = mu) /\
    vadd (vsub gr v) (vsub (mv h dg) dv) = zeros n /\
    gamma_residual gradient n mu x = Ok r /\ tol < r /\
    largest_step x (drop_leaving x (dv ++ dg)) hi /\
    minimize (fun s => let! r' := gamma_residual gradient n mu (step_to x (drop_leaving x (dv ++ dg)) s) in
                       Ok (r' ^ 2)) hi = Ok a /\
    drop_tiny (step_to x (drop_leaving x (dv ++ dg)) a) x'.
(** after a step the barrier is a tenth of the average of v * g *)
Definition tenth_of_gap (n : nat) (x : vec) : R := / 10 * vdot (firstn n x) (skipn n x) / INR n.
Fixpoint gamma_newton_path (tol : R) (gradient : vec -> res vec) (hessian : vec -> res mat)
    (minimize : (R -> res R) -> R -> res R) (n : nat) (mu : R) (x : vec) (path : list (R * vec)) : Prop :=
  match path with
  | [] => True
  | (a, x') :: rest => gamma_newton_step tol gradient hessian minimize n mu x a x' /\
                       gamma_newton_path tol gradient hessian minimize n (tenth_of_gap n x') x' rest
  end.
Definition last_barrier (n : nat) (mu : R) (path : list (R * vec)) : R :=
  last (map (fun s => tenth_of_gap n (snd s)) path) mu.

(** ** sample oracles for the examples *)
(** a solver of linear systems knowing the answer d *)
Definition knows (d : vec) (a : mat) (b : vec) : res vec :=
  if list_eq_dec Req_EM_T (mv a d) b then Ok d else Err LinAlgError.
(** loss (gamma-1)^2/2 + beta^2/2 with one fixed and one random effect, without the relaxation terms *)
Definition bowl : sr3_calls := {|
  sc_gradient_beta := fun _ b _ _ _ => Ok b;
  sc_gradient_gamma := fun _ _ g _ _ => Ok (map (fun a => a - 1) g);
  sc_hessian_beta := fun _ b _ => Ok (eye (length b));
  sc_hessian_beta_gamma := fun b g => Ok (repeat (zeros (length g)) (length b));
  sc_hessian_gamma := fun _ _ g => Ok (eye (length g));
  sc_optimal_beta := fun _ _ tb => Ok (zeros (length tb));
  sc_loss := fun _ b g _ _ => Ok (/ 2 * sqnorm b + / 2 * sqnorm (map (fun a => a - 1) g))
|}.
Definition plain_options (n_iter : Z) : ip_options := {|
  io_n_iter := n_iter; io_tol := / 1000000; io_neighbourhood := / 2; io_mu_decay := / 2; io_line_search := false;
  io_prox := None; io_prox_step := 1; io_update_every := 1; io_increase := false |}.
Definition no_minimiser (f : R -> res R) (hi : R) : res R := Err NotImplementedError.
Definition fresh_memory : sr3_memory := {| sm_lam := {| lam_b := 0; lam_g := 0 |}; sm_warm := None |}.
