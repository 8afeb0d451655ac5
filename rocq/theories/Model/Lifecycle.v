(** The objects of src/pysr3/regularizers.py and src/pysr3/lme/oracles.py over their lifetime: what their
    attributes are after calls that may have failed.
    Simplification: the oracle held by L0RegularizerLME is the one attached to the problem at hand; attaching
    another problem to it is the event [OracleMoves].  An oracle without a problem is not modelled. *)
From Verif.Base Require Import Py Vec Mat.
From Verif.Model Require Import Regularizers LmeInner.
Open Scope R_scope.

(** the attributes after instantiate(weights, oracle), whether or not it raised: PositiveQuadrant assigns its
    coordinates before it calls the inner regularizer (regularizers.py:700-704); all other classes fail, if at
    all, before the first assignment *)
Fixpoint attempt (r : reg) (weights : vec) (oracle : option oracle_view) : reg :=
  match r with
  | RPos coords other =>
      match oracle with
      | None => r
      | Some o => RPos (Some (repeat false (ov_p o) ++ repeat true (ov_q o)))
                       (option_map (fun r' => attempt r' weights None) other)
      end
  | RElastic eps other => RElastic eps (option_map (fun r' => attempt r' weights oracle) other)
  | _ => match instantiate r weights oracle with Ok r' => r' | Err _ => r end
  end.

(** another problem is attached to the oracle: its counts and its map change *)
Fixpoint oracle_moves (o : oracle_view) (r : reg) : reg :=
  match r with
  | RL0LME s =>
      RL0LME {| lz_nnz_tbeta := lz_nnz_tbeta s; lz_nnz_tgamma := lz_nnz_tgamma s;
                lz_independent := lz_independent s; lz_oracle := option_map (fun _ => o) (lz_oracle s);
                lz_beta_weights := lz_beta_weights s; lz_gamma_weights := lz_gamma_weights s;
                lz_beta_part := lz_beta_part s; lz_gamma_part := lz_gamma_part s |}
  | RPos c other => RPos c (option_map (oracle_moves o) other)
  | RElastic e other => RElastic e (option_map (oracle_moves o) other)
  | r => r
  end.

Inductive life := Instantiates (weights : vec) (oracle : option oracle_view) | Forgets | OracleMoves (o : oracle_view).
Definition lives (r : reg) (e : life) : reg :=
  match e with
  | Instantiates w o => attempt r w o
  | Forgets => forget r
  | OracleMoves o => oracle_moves o r
  end.
Definition lifetime (r : reg) (es : list life) : reg := fold_left lives es r.

(** LinearLMEOracleSR3: the evaluations of the attached problem with its numbers of features, and the attributes
    of the class.  It inherits instantiate and forget (lme/oracles.py:81-128), which do not know lb, lg and
    warm_start_ip (lme/oracles.py:1095-1102). *)
Record relaxed_oracle := {
  ro_problem : option (sr3_calls * nat * nat);
  ro_memory : sr3_memory
}.
Definition new_relaxed (lb lg : R) : relaxed_oracle :=
  {| ro_problem := None; ro_memory := {| sm_lam := {| lam_b := lb; lam_g := lg |}; sm_warm := None |} |}.
Definition relaxed_instantiate (o : relaxed_oracle) (calls : sr3_calls) (p q : nat) : relaxed_oracle :=
  {| ro_problem := Some (calls, p, q); ro_memory := ro_memory o |}.
Definition relaxed_forget (o : relaxed_oracle) : relaxed_oracle :=
  {| ro_problem := None; ro_memory := ro_memory o |}.

Section Relaxed.
Variable opts : ip_options.
Variable solve : mat -> vec -> res vec.
Variable minimize_scalar : (R -> res R) -> R -> res R.
Variable warm_start : bool.

(** lme/oracles.py:1385-1515 find_optimal_parameters_ip.  A call that raises may have increased lb and lg; here
    nobody uses the oracle after that. *)
Definition relaxed_find (o : relaxed_oracle) (beta gamma tbeta tgamma : vec)
  : res ((vec * vec * vec * vec) * relaxed_oracle) :=
  match ro_problem o with
  | None => Err AttributeError
  | Some (calls, p, q) =>
      let! (b, g, tb, tg, mem) :=
        find_ip calls opts p q solve minimize_scalar warm_start (ro_memory o) beta gamma tbeta tgamma in
      Ok ((b, g, tb, tg), {| ro_problem := ro_problem o; ro_memory := mem |})
  end.

Inductive relaxed_event :=
| RelaxedInstantiate (calls : sr3_calls) (p q : nat)
| RelaxedForget
| RelaxedFind (beta gamma tbeta tgamma : vec).
Definition relaxed_step (o : relaxed_oracle) (e : relaxed_event) : res relaxed_oracle :=
  match e with
  | RelaxedInstantiate c p q => Ok (relaxed_instantiate o c p q)
  | RelaxedForget => Ok (relaxed_forget o)
  | RelaxedFind b g tb tg => let! (_, o') := relaxed_find o b g tb tg in Ok o'
  end.
Fixpoint relaxed_after (o : relaxed_oracle) (es : list relaxed_event) : res relaxed_oracle :=
  match es with
  | [] => Ok o
  | e :: es' => let! o' := relaxed_step o e in relaxed_after o' es'
  end.
End Relaxed.
