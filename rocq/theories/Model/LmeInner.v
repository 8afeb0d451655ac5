(** Model of the parts of src/pysr3/lme/oracles.py that do not need matrices: the index map built by
    instantiate, packing, and the three iterative routines.
    The evaluations of the oracle (loss, gradients, Hessians, optimal_beta, possibly raising), np.linalg.solve
    and scipy's minimisers are arguments.
    Simplifications: exact reals; the logger of find_optimal_parameters_ip is in LmeTrace.v; np.block and
    np.concatenate are used on blocks of matching shapes only. *)
From Verif.Base Require Import Py Vec Mat.
From Verif.Model Require Import LmeProblem Regularizers Solvers.
Open Scope R_scope.

(** ** oracles.py:95-111 instantiate: beta_to_gamma_map *)
Definition all_labels (pr : lme_problem) : list string :=
  (match pr_intercept pr with Some s => [s] | None => [] end) ++ pr_labels pr.
(** the loop; map is the array of zeros filled in at beta_counter *)
Fixpoint fill_map (labels : list string) (m : list Z) (beta_counter gamma_counter : nat) : res (list Z) :=
  match labels with
  | [] => Ok m
  | l :: labels' =>
      if String.eqb l FIXED then
        let! _ := guard (beta_counter <? length m)%nat IndexError in
        fill_map labels' (mapi (fun i a => if (i =? beta_counter)%nat then (-1)%Z else a) m)
          (S beta_counter) gamma_counter
      else if String.eqb l RANDOM then fill_map labels' m beta_counter (S gamma_counter)
      else if String.eqb l FIXED_RANDOM then
        let! _ := guard (beta_counter <? length m)%nat IndexError in
        fill_map labels' (mapi (fun i a => if (i =? beta_counter)%nat then Z.of_nat gamma_counter else a) m)
          (S beta_counter) (S gamma_counter)
      else fill_map labels' m beta_counter gamma_counter
  end.
Definition beta_to_gamma_map (pr : lme_problem) : res (list Z) :=
  fill_map (all_labels pr) (repeat 0%Z (num_fixed pr)) 0 0.
(** what regularizers read from the oracle after instantiate *)
Definition oracle_view_of (pr : lme_problem) : res oracle_view :=
  let! m := beta_to_gamma_map pr in
  Ok {| ov_p := num_fixed pr; ov_q := num_random pr; ov_map := m |}.

(** ** joint_loss and joint_gradient, oracles.py:649-690 *)
Definition joint_loss (p q : nat) (loss : vec -> vec -> res R) (x : vec) : res R :=
  let '(beta, gamma) := x_to_beta_gamma p q x in loss beta gamma.
(** gradient = zeros(len(x)); two slice assignments, ValueError for a wrong length *)
Definition joint_gradient (p q : nat) (grad_beta grad_gamma : vec -> vec -> res vec) (x : vec) : res vec :=
  let '(beta, gamma) := x_to_beta_gamma p q x in
  let! gb := grad_beta beta gamma in
  let! _ := guard (length gb =? length beta)%nat ValueError in
  let! gg := grad_gamma beta gamma in
  let! _ := guard (length gg =? length gamma)%nat ValueError in
  Ok (gb ++ gg ++ zeros (length x - p - q)).

(** 1e-18 *)
Definition tiny : R := / 10 ^ 18.
(** x[x <= 1e-18] = 0 *)
Definition kill_zeros (x : vec) : vec := map (fun a => if rleb a tiny then 0 else a) x.
(** direction[(direction < 0) & (x == 0)] = 0 *)
Definition project_direction (direction x : vec) : vec :=
  map2 (fun d a => if rltb d 0 && reqb a 0 then 0 else d) direction x.
(** min(1, 1 if no negative direction else min(-x[neg] / direction[neg])), over the positions with mask *)
Fixpoint neg_ratios (mask : list bool) (x direction : vec) : vec :=
  match mask, x, direction with
  | b :: mask', a :: x', d :: direction' =>
      if b && rltb d 0 then - a / d :: neg_ratios mask' x' direction' else neg_ratios mask' x' direction'
  | _, _, _ => []
  end.
Definition max_step (mask : list bool) (x direction : vec) : R := fold_right Rmin 1 (neg_ratios mask x direction).

Section Gamma.
Variable n_iter_inner : Z.
Variable tol_inner : R.
(** the oracle at the given beta *)
Variable loss : vec -> res R.
Variable gradient : vec -> res vec.
Variable hessian : vec -> res mat.
(** scipy.optimize.minimize with method TNC on [0, hi]: res.x *)
Variable minimize : (R -> res R) -> R -> res R.
Variable solve : mat -> vec -> res vec.

(** oracles.py:287-332 optimal_gamma_pgd; the log is the list self.logger *)
Fixpoint pgd_gamma_loop (fuel : nat) (iteration : nat) (gamma direction : vec) (step_len : R) (log : list vec)
  : res (vec * list vec) :=
  if rltb 0 step_len && (Z.of_nat iteration <? n_iter_inner)%Z && rltb tol_inner (norm direction) then
    match fuel with
    | O => Err OutOfFuel
    | S fuel' =>
        let hi := max_step (repeat true (length direction)) gamma direction in
        let! a := minimize (fun a => loss (vadd gamma (vscale a direction))) hi in
        let gamma' := kill_zeros (vadd gamma (vscale a direction)) in
        let! g := gradient gamma' in
        let! _ := guard (length g =? length gamma')%nat IndexError in
        pgd_gamma_loop fuel' (S iteration) gamma' (project_direction (vneg g) gamma') a (log ++ [gamma'])
    end
  else Ok (gamma, log).
Definition optimal_gamma_pgd (gamma : vec) : res (vec * list vec) :=
  let! g := gradient gamma in
  let! _ := guard (length g =? length gamma)%nat IndexError in
  pgd_gamma_loop (Z.to_nat n_iter_inner) 0 gamma (project_direction (vneg g) gamma) 1 [gamma].

(** oracles.py:334-408 optimal_gamma_ip: x = [v, g] *)
Definition hcat (a b : mat) : mat := map2 (@app R) a b.
Definition ip_gamma_F (n : nat) (x : vec) (mu : R) : res vec :=
  let v := firstn n x in
  let g := skipn n x in
  let! d := gradient g in
  Ok (map (fun a => a - mu) (vmul v g) ++ vsub d v).
Definition ip_gamma_dF (n : nat) (x : vec) : res mat :=
  let v := firstn n x in
  let g := skipn n x in
  let! h := hessian g in
  Ok (hcat (diag g) (diag v) ++ hcat (diag (repeat (-1) n)) h).
Fixpoint ip_gamma_loop (n fuel iteration : nat) (x : vec) (mu step_len : R) (log : list vec)
  : res (vec * list vec) :=
  let! c := (if nonzero step_len && (Z.of_nat iteration <? n_iter_inner)%Z
             then let! f := ip_gamma_F n x mu in Ok (rltb tol_inner (norm f)) else Ok false) in
  if c then
    match fuel with
    | O => Err OutOfFuel
    | S fuel' =>
        let! f := ip_gamma_F n x mu in
        let! df := ip_gamma_dF n x in
        let! d := solve df (vneg f) in
        let! _ := guard (length d =? length x)%nat ValueError in
        let direction := project_direction d x in
        let hi := max_step (repeat true (length x)) x direction in
        let! a := minimize (fun a => let! f' := ip_gamma_F n (vadd x (vscale a direction)) mu in
                                     Ok (norm f' ^ 2)) hi in
        let x' := kill_zeros (vadd x (vscale a direction)) in
        let mu' := / 10 * vdot (firstn n x') (skipn n x') / INR n in
        let! _ := loss (skipn n x') in
        let! _ := ip_gamma_F n x' mu' in
        ip_gamma_loop n fuel' (S iteration) x' mu' a (log ++ [skipn n x'])
    end
  else Ok (skipn n x, log).
Definition optimal_gamma_ip (gamma : vec) : res (vec * list vec) :=
  let n := length gamma in
  ip_gamma_loop n (Z.to_nat n_iter_inner) 0 (ones n ++ gamma) (vdot (ones n) gamma / INR n) 1 [gamma].

(** oracles.py:410-433 optimal_gamma *)
Definition optimal_gamma (method : string) (gamma : vec) : res (vec * list vec) :=
  if String.eqb method "pgd" then optimal_gamma_pgd gamma
  else if String.eqb method "ip" then optimal_gamma_ip gamma
  else Err ValueError.
End Gamma.

(** ** LinearLMEOracleSR3.find_optimal_parameters_ip, oracles.py:1385-1517 *)
(** the evaluations of the SR3 oracle; l carries lb and lg *)
Record lambdas := { lam_b : R; lam_g : R }.
Record sr3_calls := {
  sc_gradient_beta : lambdas -> vec -> vec -> vec -> vec -> res vec;   (* beta gamma tbeta tgamma *)
  sc_gradient_gamma : lambdas -> vec -> vec -> vec -> vec -> res vec;
  sc_hessian_beta : lambdas -> vec -> vec -> res mat;
  sc_hessian_beta_gamma : vec -> vec -> res mat;
  sc_hessian_gamma : lambdas -> vec -> vec -> res mat;
  sc_optimal_beta : lambdas -> vec -> vec -> res vec;                  (* gamma tbeta *)
  sc_loss : lambdas -> vec -> vec -> vec -> vec -> res R
}.

Record ip_options := {
  io_n_iter : Z;                   (* n_iter_inner *)
  io_tol : R;                      (* tol_inner *)
  io_neighbourhood : R;            (* central_path_neighbourhood_target *)
  io_mu_decay : R;
  io_line_search : bool;
  io_prox : option (vec -> R -> res vec);   (* regularizer.prox *)
  io_prox_step : R;
  io_update_every : Z;
  io_increase : bool               (* increase_lambdas *)
}.
Record ip_state := {
  is_x : vec;                      (* [v, beta, gamma] *)
  is_beta : vec;
  is_gamma : vec;
  is_tbeta : vec;
  is_tgamma : vec;
  is_mu : R;
  is_prev : option (vec * vec * vec * vec);  (* tbeta, tgamma, beta, gamma; None for np.infty *)
  is_step : R;
  is_iter : nat;
  is_conv : bool;                  (* tbeta_tgamma_convergence *)
  is_lam : lambdas
}.

Section IP.
Variable calls : sr3_calls.
Variable opts : ip_options.
Variables p q : nat.               (* num_fixed_features and num_random_features *)
Variable solve : mat -> vec -> res vec.
(** scipy.optimize.minimize_scalar, bounded method on (0, hi): res.x *)
Variable minimize_scalar : (R -> res R) -> R -> res R.

(** x[:n], x[n:-n], x[-n:] with n = len(gamma) > 0 *)
Definition ip_v (n : nat) (x : vec) : vec := firstn n x.
Definition ip_b (n : nat) (x : vec) : vec := firstn (length x - n - n) (skipn n x).
Definition ip_g (n : nat) (x : vec) : vec := skipn (length x - n) x.

Definition ip_F (l : lambdas) (tbeta tgamma : vec) (n : nat) (x : vec) (mu : R) : res vec :=
  let v := ip_v n x in
  let b := ip_b n x in
  let g := ip_g n x in
  let! gb := sc_gradient_beta calls l b g tbeta tgamma in
  let! gg := sc_gradient_gamma calls l b g tbeta tgamma in
  Ok (map (fun a => a - mu) (vmul v g) ++ gb ++ vsub gg v).
Definition ip_dF (l : lambdas) (n : nat) (x : vec) : res mat :=
  let v := ip_v n x in
  let b := ip_b n x in
  let g := ip_g n x in
  let zb := repeat (zeros (length b)) n in
  let! hb := sc_hessian_beta calls l b g in
  let! hbg := sc_hessian_beta_gamma calls b g in
  let! hg := sc_hessian_gamma calls l b g in
  Ok (hcat (hcat (diag g) zb) (diag v)
      ++ hcat (hcat (tr (length b) zb) hb) hbg
      ++ hcat (hcat (diag (repeat (-1) n)) (tr n hbg)) hg).

(** the condition of the while loop, with its short-circuits *)
Definition ip_continue (n : nat) (st : ip_state) : res bool :=
  if nonzero (is_step st) && (Z.of_nat (is_iter st) <? io_n_iter opts)%Z then
    let! f := ip_F (is_lam st) (is_tbeta st) (is_tgamma st) n (is_x st) (is_mu st) in
    if rltb (io_tol opts) (norm f) || rltb (io_tol opts) (is_mu st) then
      let pv := fun k : vec * vec * vec * vec -> vec => option_map k (is_prev st) in
      let! c1 := moved (io_tol opts) (is_tbeta st) (pv (fun '(a, _, _, _) => a)) in
      if c1 then Ok true else
      let! c2 := moved (io_tol opts) (is_tgamma st) (pv (fun '(_, a, _, _) => a)) in
      if c2 then Ok true else
      let! c3 := moved (io_tol opts) (is_beta st) (pv (fun '(_, _, a, _) => a)) in
      if c3 then Ok true else
      let! c4 := moved (io_tol opts) (is_gamma st) (pv (fun '(_, _, _, a) => a)) in
      Ok (c4 || is_conv st)
    else Ok false
  else Ok false.

(** positions of v and gamma in x *)
Definition ip_mask (n : nat) (x : vec) : list bool :=
  mapi (fun i _ => (i <? n)%nat || (length x - n <=? i)%nat) x.

(** the body of the loop *)
Definition ip_body (n : nat) (st : ip_state) : res ip_state :=
  let x := is_x st in
  let l := is_lam st in
  let! f := ip_F l (is_tbeta st) (is_tgamma st) n x (is_mu st) in
  let! df := ip_dF l n x in
  let! direction := solve df (vneg f) in
  let! _ := guard (length direction =? length x)%nat ValueError in
  let hi := max_step (ip_mask n x) x direction in
  let! step_len :=
    (if io_line_search opts then
       minimize_scalar (fun a => let! f' := ip_F l (is_tbeta st) (is_tgamma st) n
                                              (vadd x (vscale a direction)) (is_mu st) in
                                 Ok (norm f' ^ 2)) hi
     else Ok (99 / 100 * hi)) in
  let x' := vadd x (vscale step_len direction) in
  let v := ip_v n x' in
  let beta := ip_b n x' in
  let gamma := ip_g n x' in
  let iteration := S (is_iter st) in
  let prev := Some (is_tbeta st, is_tgamma st, is_beta st, is_gamma st) in
  let avg := vdot gamma v / INR n in
  if rltb (io_neighbourhood opts * vdot gamma v / INR n) (norm (map (fun a => a - avg) (vmul gamma v))) then
    Ok {| is_x := x'; is_beta := beta; is_gamma := gamma; is_tbeta := is_tbeta st; is_tgamma := is_tgamma st;
          is_mu := is_mu st; is_prev := prev; is_step := step_len; is_iter := iteration;
          is_conv := is_conv st; is_lam := l |}
  else
    let mu := io_mu_decay opts * vdot v gamma / INR n in
    let! (tbeta, tgamma) :=
      match io_prox opts with
      | Some prox =>
          if (0 <? io_update_every opts)%Z && (Z.of_nat iteration mod io_update_every opts =? 0)%Z then
            let! tx := prox (beta_gamma_to_x beta gamma) (io_prox_step opts) in
            Ok (x_to_beta_gamma p q tx)
          else Ok (is_tbeta st, is_tgamma st)
      | None => Ok (is_tbeta st, is_tgamma st)
      end in
    let! (l', conv) :=
      (if io_increase opts then
         let l' := {| lam_b := 12 / 10 * (1 + lam_b l); lam_g := 12 / 10 * (1 + lam_g l) |} in
         let! _ := guard ((length beta =? length tbeta)%nat && (length gamma =? length tgamma)%nat) ValueError in
         Ok (l', rltb (norm (vsub beta tbeta)) (io_tol opts) || rltb (norm (vsub gamma tgamma)) (io_tol opts))
       else Ok (l, is_conv st)) in
    Ok {| is_x := x'; is_beta := beta; is_gamma := gamma; is_tbeta := tbeta; is_tgamma := tgamma;
          is_mu := mu; is_prev := prev; is_step := step_len; is_iter := iteration;
          is_conv := conv; is_lam := l' |}.

Fixpoint ip_loop (n fuel : nat) (st : ip_state) : res ip_state :=
  let! c := ip_continue n st in
  if c then
    match fuel with
    | O => Err OutOfFuel
    | S fuel' => let! st' := ip_body n st in ip_loop n fuel' st'
    end
  else Ok st.

(** the attributes of the oracle the routine reads and changes: lb, lg and warm_start_ip *)
Record sr3_memory := { sm_lam : lambdas; sm_warm : option (vec * vec) }.
Variable warm_start : bool.

Definition ip_start (mem : sr3_memory) (beta gamma tbeta tgamma : vec) : ip_state :=
  let n := length gamma in
  let '(b, g) := match (if warm_start then sm_warm mem else None) with
                 | Some bg => bg | None => (beta, gamma) end in
  {| is_x := ones n ++ b ++ g; is_beta := b; is_gamma := g; is_tbeta := tbeta; is_tgamma := tgamma;
     is_mu := / 10 * vdot (ones n) g / INR n; is_prev := None; is_step := 1; is_iter := 0;
     is_conv := false; is_lam := sm_lam mem |}.

(** returns beta, gamma, tbeta, tgamma and the changed attributes.
    Not modelled: an empty gamma together with a non-empty tgamma (callers pass 2 * tgamma); it is an error here. *)
Definition find_ip (mem : sr3_memory) (beta gamma tbeta tgamma : vec)
  : res (vec * vec * vec * vec * sr3_memory) :=
  match tgamma with
  | [] => let! b := sc_optimal_beta calls (sm_lam mem) tgamma tbeta in Ok (b, tgamma, tbeta, tgamma, mem)
  | _ :: _ =>
      let n := length gamma in
      let! _ := guard (0 <? n)%nat ValueError in
      let! st := ip_loop n (Z.to_nat (io_n_iter opts)) (ip_start mem beta gamma tbeta tgamma) in
      Ok (is_beta st, is_gamma st, is_tbeta st, is_tgamma st,
          {| sm_lam := is_lam st;
             sm_warm := if warm_start then Some (is_beta st, is_gamma st) else sm_warm mem |})
  end.

(** oracles.py:1340-1383 find_optimal_parameters *)
Definition find_optimal_parameters (mem : sr3_memory) (w : vec) : res (vec * sr3_memory) :=
  let '(tbeta, tgamma) := x_to_beta_gamma p q w in
  let! (_, _, tb, tg, mem') := find_ip mem (vscale 2 tbeta) (vscale 2 tgamma) tbeta tgamma in
  Ok (beta_gamma_to_x tb tg, mem').
(** oracles.py:1297-1315 value_function *)
Definition value_function (mem : sr3_memory) (w : vec) : res (R * sr3_memory) :=
  let '(tbeta, tgamma) := x_to_beta_gamma p q w in
  let! (b, g, tb, tg, mem') := find_ip mem (vscale 2 tbeta) (vscale 2 tgamma) tbeta tgamma in
  let! f := sc_loss calls (sm_lam mem') b g tb tg in
  Ok (f, mem').
(** oracles.py:1317-1338 gradient_value_function; w keeps its length p + q *)
Definition gradient_value_function (mem : sr3_memory) (w : vec) : res (vec * sr3_memory) :=
  let '(tbeta, tgamma) := x_to_beta_gamma p q w in
  let! (b, g, _, _, mem') := find_ip mem (vscale 2 tbeta) (vscale 2 tgamma) tbeta tgamma in
  let x := beta_gamma_to_x b g in
  let lams := repeat (lam_b (sm_lam mem')) p ++ repeat (lam_g (sm_lam mem')) q in
  let! _ := guard ((length x =? length w)%nat && (length lams =? length w)%nat) ValueError in
  Ok (vmul (vneg lams) (vsub x w), mem').
End IP.
