(** Observations with Gaussian noise of known variances. *)
From Verif.Base Require Import Py Vec Mat.
From Verif.Model Require Import Linear.
Open Scope R_scope.

(** the variances of n observations declared by obs_std ("variances of mean-zero Gaussian noise for each observation (array)
    OR for all observations (float)", or the column with them); 1 when nothing is declared *)
Definition declared_variances (d : dataframe) (n : nat) (noise : option obs_noise) : option vec :=
  match noise with
  | None => Some (ones n)
  | Some (StdColumn name) => lookup name (df_cols d)
  | Some (StdAll v) => Some (repeat v n)
  | Some (StdEach v) => Some v
  end.
(** minus the logarithm of the density of b when b_i is normal with mean m_i and variance v_i *)
Fixpoint normal_nll (v m b : vec) : R :=
  match v, m, b with
  | vi :: v', mi :: m', bi :: b' =>
      / 2 * ln (2 * PI * vi) + (bi - mi) ^ 2 / (2 * vi) + normal_nll v' m' b'
  | _, _, _ => 0
  end.
(** the same problem with another declared noise *)
Definition with_noise (pr : linear_problem) (noise : option obs_noise) : linear_problem :=
  {| lp_a := lp_a pr; lp_b := lp_b pr; lp_n := lp_n pr; lp_p := lp_p pr; lp_c := lp_c pr; lp_weights := lp_weights pr;
     lp_obs_std := noise |}.
(** two observations 0 and 3 of one mean, the second with variance 100 *)
Definition noisy_frame : dataframe :=
  {| df_n := 2; df_cols := [("a", [1; 1]); ("y", [0; 3]); ("variance", [1; 100])]%string |}.
