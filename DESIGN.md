# A Rocq model of pysr3: design

The code under study is `/repo` (aksholokhov/pysr3, Python).  Everything below
lives in `/verif/rocq/theories` (logical name `Verif`), Coq 8.16.1.

## 1. Shape of the model

* **Numbers.** float64 is modelled by the real numbers `R` of the Coq standard
  library (exact arithmetic).  Rounding, overflow and denormals are modelled for the
  proximal operators and the solver only, in `Float64.v` and `Float64Solver.v` (IEEE binary64 of
  Flocq; C86-C91).
  Where the code *explicitly* produces or tests a special value (`np.infty` as the
  first `x_prev`, `0/0` in SCAD, `np.infty` as a regularizer value) that case is an
  explicit constructor in the model.  Code that only moves values around
  (grouping, masks, argsort selections, label logic) is modelled polymorphically,
  so those theorems hold for float64 (NaN included) as well.
* **Vectors** are `list R`, matrices are lists of rows, in `Base/*`.  The mixed-model
  likelihood (needs determinants and inverses) is modelled with mathcomp matrices
  over `R` (`Base/RMx.v` gives `R` its ring and field structures).  There the Cholesky
  factorisation is the textbook recursion, failing like `np.linalg.cholesky`, and
  `np.linalg.inv/solve` are `invmx` with `LinAlgError` for a singular matrix.
* **Exceptions are values**: `res A := Ok a | Err e`, `e` naming the Python exception.
* **External numerics** (`np.linalg.inv/solve/cholesky`, LAPACK `trtri`,
  `scipy.optimize.minimize`, `argsort` tie order, `sklearn` label utilities, random
  draws, the normal cdf) are arguments of the model functions, constrained only by
  their documented contract, written as a hypothesis of the theorem.
* **Loops** are recursion on explicit fuel with an out-of-fuel value; theorems
  show that the fuel used is enough.
* **Objects with state** (logger, oracle cache, problem iterator, regularizer and
  prior lifecycles) are records with one function per method.

Layout: `Model/*` (definitions only, each with file:line citation), `Spec/*` (the
independent specifications used in statements), `Proofs/*` (lemmas),
`Properties/*` (only `Theorem … Proof. exact … Qed. Print Assumptions …`, and the
non-vacuity `Example`s).

A property the unchanged code violates gets a theorem `…_refuted` with a concrete
witness, plus the strongest true variant (`…_partial`).

## 2. Plan per property

| id | modelled | proof |
|----|----------|-------|
| C01, C02 | `_take_only_k_max`, `L0Regularizer` with `argsort` any sorting permutation | exchange argument: sum of dropped squares is minimal |
| C03 | `L0RegularizerLME` over the oracle's split and index map | masks lemmas + C01 |
| C04, C05 | `L1Regularizer.prox/value` | scalar optimality (case analysis), lifted coordinatewise; C05 refuted for weights with lam<>1 |
| C06 | `CADRegularizer` | scalar optimality on the exact region, refuted outside it |
| C07 | `SCADRegularizer` with explicit NaN | scalar optimality for alpha*lam*w < rho-1, refuted outside it, NaN witness |
| C08, C09 | wrappers over an arbitrary inner prox | algebra of completed squares |
| C10, C11 | all regularizers | branch by branch |
| C12–C16 | `PGDSolver.optimize` over arbitrary oracle/regularizer functions, logger included | induction over the loop, invariants over the trace |
| C17 | `Logger` as state machine | induction over operations; refuted clauses with witnesses |
| C18 | `FakePGDSolver` | refuted by a run that exhausts max_iter |
| C19 | `LinearOracle`, priors | Taylor identity |
| C20 | `LinearOracle` + `PGDSolver` | Frobenius bound makes the line search accept; induction over trace |
| C21–C23 | `LinearOracleSR3` | operator algebra from `H*Hinv = I` |
| C24–C26 | `LinearProblem`, `LinearModel.fit_problem` | direct / refuted |
| C27, C28 | priors lifecycle | direct / refuted |
| C29–C33, C35 | `LMEProblem.from_x_y/to_x_y/from_dataframe` | permutation lemmas; refuted clauses |
| C34 | iterator state machine | induction; nested loops refuted |
| C36 | `LMEProblem.generate` given the random draws | direct / refuted |
| C37 | `get_per_group_coefficients` | induction over labels |
| C38 | oracle cache with heap references for `gamma` | invariant over operation sequences; refuted clauses |
| C39–C41 | `LinearLMEOracle.loss/gradient_*/hessian_*` over mathcomp matrices | determinant lemma, Sherman–Morrison, scalar derivatives |
| C42 | `optimal_beta` | completing the square |
| C43 | `optimal_random_effects` | normal equations, Woodbury |
| C44 | covariance functions | refuted by small witnesses |
| C45, C46 | packing, index map | lists |
| C47 | SR3 oracle | algebra |
| C48, C49 | interior-point loop over arbitrary Newton directions | invariant; degenerate case refuted |
| C50 | `optimal_gamma_pgd`, `optimal_gamma_ip` over arbitrary inner minimiser | invariant over the path |
| C51–C53 | information criteria, hat matrix | algebra; refuted clause |
| C54–C56 | `predict_problem`, `score` | lists; refuted clauses |
| C57, C58 | fit = solver + wrappers | composition of the above |
| C59, C60 | `fit_problem` initialisation and weights | direct / refuted |
| C61–C64 | `select_covariates`, `get_model` | fold invariant; refuted clauses |
| C65 | lifecycles of regularizers/oracles | direct / refuted |
| C66 | `flip_probabilities_beta` with an abstract cdf | monotonicity |
| C70 | interior-point loop from zero variances | invariant: gamma = 0 and mu = 0 |
| C71 | one iteration of the interior-point loop | block structure of the Newton matrix |
| C69 | `_jones2010n_eff` | Cauchy–Schwarz for positive definite matrices |
| C72, C74 | `fit_problem`, `get_information_criterion` on the likelihood model | composition; refuted clause |
| C75 | `generate` and `from_x_y` composed with `fit_problem` | shape of the random features; refuted clause |
| C76 | sign-flip probabilities of the SR3 oracle | comparison of inverses of positive definite matrices; refuted clause |
| C73 | `fit_problem` with line search | C15 with the prox of the composed regularizer shown optimal |
| C67 | `LinearModel.predict`, `predict_problem` | direct |
| C68 | `LinearProblem.generate` given the draws | direct |
| C77 | `fit`, stored coefficients, `predict` on the training table | lists; Woodbury identity per group |
| C78, C79 | `PGDSolver` on any convex problem; linear L1 models | three-point inequality of the prox, telescoping over the path |
| C80 | `get_information_criterion` of the linear models | direct |
| C81, C82 | row order: `from_x_y`, the mixed-model oracle, `fit` | conjugation by permutation matrices; sorted group labels are unique; a 2x2 Cholesky witness |
| C83 | `PGDSolver.optimize`, fits of the plain mixed models | the variational inequality of the last prox step |
| C84, C85 | the criteria written into the log by `fit_problem`; `get_information_criterion` | keys survive the solvers; composed with C51 and C52; a run that stops at its start |
| C86-C88 | the proximal operators on binary64 numbers (`Float64.v`) | correctness of the Flocq operations; one of the two clips is 0, so one rounding remains; case analysis over signs, infinities and NaN |
| C89-C91 | the operators entry by entry; `PGDSolver` on binary64 numbers with an arbitrary oracle (`Float64Solver.v`) | a step halves at most 1071 times before 1e-14; exit condition of the loop with NaN; a computed run of 511 iterations |
| C92-C95 | the constructors of all model classes with their defaults, `instantiate()`, sklearn's `get_params`, `set_params`, `clone` (`Options.v`) | tables of options per class, lookups in dictionaries; agreement with the records from which `LmeFit.v` and `Linear.v` fit |
| C96-C98 | the evaluations of the oracle on data in other units (`UnitsSpec.v`) | Omega, its factor and the normal equations are congruent; sums over groups; witnesses with one observation |
| C99 | fits of tables whose groups have other names (`GroupSpec.v`) | the problem has the same groups in another order; sums over a permuted list; effects and coefficients move with the names |
| C100, C101 | `LmeTrace.v` next to `LmeInner.v`; fits of practical models | the traced loop is the loop; induction over the path for the logged lists; coordinates of a small norm |
| C102 | `get_condition_numbers` pools the singular values of x'x over the groups | `Spec/DiagnosticsSpec.v`: condition number as largest over smallest stretch; refuted by two data sets; one group: the square; several groups: an upper bound; infinite iff one group is rank deficient |
| C103 | `LmeFrame.v`: `to_dataframe` | refuted for all problems with an intercept and by a frame with equal names; partial: from_dataframe after to_dataframe, via C29, C30, C35 and uniqueness of the partition |
| C104 | `Solvers.v` `pgd_optimize`, `Linear.v` `linear_fit_problem`: 'converged' | refuted for a fixed step that is too long; otherwise each step longer than tol lowers the objective by a fixed amount, so the number of steps is bounded by the initial objective; the SR3 value function has curvature el·l/(l+el) < el |
| C105 | `LmeOracle.v` `lme_loss`, `LmeBridge.v` `lme_fit_problem` | refuted: negative observation variances are accepted; otherwise det Ω grows with each variance (matrix determinant lemma, one variance at a time), so the loss is at least ½Σ ln v plus the cost of each variance; with the descent of the line search this bounds the fit and the number of iterations |
| C106 | `LmeSplit.v` `split` | refuted for test_size 7/9; up to 1/2 the largest-remainder rounding gives each group of at least two rows a training row (a counting argument over all groups), so predict accepts the test part whatever was fitted |
| C107 | `LmeSplit.v` `random_effects_to_matrix`, `get_per_group_coefficients` | refuted: arrays with two effects are unpacked as tuples; true for tuples, and for both formats in get_per_group_coefficients |
| C108 | `Linear.v` `linear_fit`, `linear_predict` | true for all penalties but L0, for the whole run and its log; refuted for L0 (ties) |
| C109 | `Linear.v` `linear_fit` | true with a start changed in the same way; refuted for the default start of ones, for runs that converge |
| C110 | `Linear.v` `linear_fit` | equality of the whole result, log and failures included |
| C111 | `Linear.v` `linear_fit_problem`, `Solver.v` `pgd_optimize` | threshold exact for the objective; finite identification of zero under margin, tolerance and iteration conditions; refuted for the default tolerance |
| C112 | `Solvers.v` `pgd_optimize`, `Linear.v` `linear_fit_problem`, `LmeFit.v` `fit_problem` | simulation between the rest of a long run and the continued run; the report "not converged" is refuted at the last allowed iteration |
| C113 | `LmeJoint.v` `sr3_joint_loss`, `sr3_joint_gradient`; `LmeInner.v` `joint_loss`, `joint_gradient` | derivatives by block (as for the unpacked oracle) carried through the packing, coordinate by coordinate |
| C114 | `LmeFit.v` `ip_options_of`, `run_solver`; `LmeInner.v` `ip_body`, `gradient_value_function` | scaling of the proximal operators; refuted by two fits on a problem whose fixed and random effect are decoupled, followed through all iterations |
| C115 | `Solvers.v` `pgd_optimize`; `Linear.v` `linear_fit_problem` | quadratic growth around the minimiser; its existence from a contraction |
| C116 | `Solvers.v` `pgd_optimize`; `Linear.v` `linear_fit_problem` | the last step thresholds correctly once its start is close to the best coefficients |
| C117 | `LmeFit.v` `initialize`, `mean_squares`; `LmeOracle.v` `lme_optimal_beta`, `lme_random_effects` | the step maximises the joint density, not the likelihood |
| C118 | `Priors.v` `gauss_lme_*`; `LmeBridge.v` `prior_mx`; `LmeProblem.v` `from_x_y` | the terms of both parts, counted columns |
| C119 | `Linear.v` `lp_obs_std`, `linear_from_dataframe`, `lin_loss` | sums of squares, frame rule |
| C120 | `Linear.v` `sr3_instantiate`, `sr3_value`, `sr3_gradient`, `linear_fit_problem` | relaxation gap, soft threshold of the gradient |
| C121 | `LmeOracle.v` all evaluations, `LmeProblem.v` `from_x_y`, `LmeBridge.v` `lme_fit`, `LmePredict.v` `predict`, `score` | permutations of columns, rank of a column among those of its role; locals of the interior point method that hold variances |
| C122 | `LmeOracle.v` `lme_gradient_beta`, `lme_gradient_gamma`; `LmeFit.v` `fit_problem`; `Regularizers.v` `prox` | gradient at zero, one step to zero, path invariant |
| C123 | `LmeOracle.v` all evaluations, `LmeProblem.v` `from_x_y`, `LmeBridge.v` `lme_fit`, `LmePredict.v` `predict`, `score` | signs of columns and of features of one role |
| C124 | `SolverCalls.v` `pgd_call`, `fake_pgd_call` | - |
| C125 | `LmeOracle.v` all evaluations at zero variances, `Linear.v` `lin_loss` | weighted sums of squares and products, groups without the data of some random effects |

## 3. Trusted base

Coq 8.16.1's kernel, the axioms printed by `Print Assumptions` under each theorem
(all from the standard library, reached through its real numbers:
`ClassicalDedekindReals.sig_forall_dec`, `ClassicalDedekindReals.sig_not_dec`,
`FunctionalExtensionality.functional_extensionality_dep`,
`Classical_Prop.classic`, and, only for the mixed-model likelihood, `Epsilon.epsilon_statement`, which turns
`R` into a mathcomp `choiceType`), and the reading of the
Python source recorded in the comments of `Model/*`.

`coqchk` and `vcheck` may also list fields of sealed modules of the standard library and
mathcomp as axioms; `Print Assumptions` shows that no theorem uses any of them except
those above.

## 4. What is modelled, and what is not

Definitions in `Model/*` cite the lines they mirror (branches of one definition and small
helpers share a citation); the head of every file states its simplifications.  By Python file:

| file | model | not modelled |
|------|-------|--------------|
| `logger.py` | `Logger.v`, every method | values are numbers, infinity, booleans, vectors or opaque |
| `regularizers.py` | `Regularizers.v` (every class: instantiate, forget, value, prox; the base class itself has no body), `Lifecycle.v` (forget, failed calls), `Float64.v` (prox in double precision) | broadcasting of length-1 arrays |
| `solvers.py` | `Solvers.v`: both solvers; `Float64Solver.v`: `PGDSolver` in double precision, without logging | broadcasting |
| `priors.py`, `lme/priors.py` | `Priors.v`; the instantiated mixed-model prior again in `LmeOracle.v`, as matrices | |
| `linear/problems.py` | `Linear.v`: constructor, `generate` given the draws, `from_x_y`, `to_x_y`, `from_dataframe` | pandas beyond columns of numbers |
| `linear/oracles.py` | `Linear.v`: both oracles | broadcasting; `c` with one row unless there is one feature |
| `linear/models.py` | `Linear.v`: fit, predict, `get_information_criterion`, with one record for the ten classes; `Options.v`: their constructors, defaults and `instantiate` | sklearn's validation beyond shapes; the method `check_is_fitted` |
| `lme/problems.py` | `LmeProblem.v`: constructor, iterator, `generate` given the draws, `from_x_y`, `to_x_y`, `from_dataframe`, `get_per_group_coefficients`; `LmeFrame.v`: `to_dataframe`; `LmeSplit.v`: `LMEStratifiedShuffleSplit`, `random_effects_to_matrix`, `get_per_group_coefficients` for both formats | the draws of sklearn's `StratifiedShuffleSplit` (a parameter with its promises as hypotheses), the abstract class `Problem` |
| `lme/oracles.py` | `LmeOracle.v` (evaluations, as matrices), `LmeInner.v` (packing, the three iterative routines), `LmeTrace.v` (what `find_optimal_parameters_ip` logs), `LmeCache.v` (factors kept between evaluations, memory of arrays), `LmeDiagnostics.v` (`get_ic`, `get_condition_numbers`; `np.linalg.svd` is a parameter), `LmeJoint.v` (`joint_loss` and `joint_gradient` of the SR3 oracle) | |
| `lme/models.py` | `LmeFit.v` (ten models, fit), `Options.v` (constructors, defaults and `instantiate`), `LmePredict.v`, `LmeUse.v`, `LmeBridge.v` (matrices against lists) | warnings, `sample_weight`, the method `check_is_fitted` |
| `lme/model_selectors.py` | `LmeSelect.v`: both functions | the file system, yaml formatting |

Outside the proximal operators and the loop of the solver rounding is the main gap between the model and the running code: theorems about
optimality, descent and termination speak about exact arithmetic.  Theorems about
shapes, labels, bookkeeping and object state depend on it at most through comparisons of
numbers.  The reading of the Python text is by hand: the code was never run against it.

## 5. Wrong programs

`seeded/LOG.jsonl` records edits of the model that imitate realistic bugs, made in a scratch copy and one at a time.
How an entry is produced, by a script:

- The copy is rebuilt. Each lemma whose proof no longer checks is admitted and the build is repeated until it passes.
- `theorems_failed` lists the property theorems whose `Print Assumptions` then shows an admitted lemma.

What an entry shows is limited:

- A theorem is listed because its existing proof no longer goes through. The script does not prove that the theorem is
  false of the edited model. A proof that merely depends on the form of a definition would be listed as well.
- A random sample of 14 entries was read by hand to see whether some listed theorem is false of the edited model. In
  13 one was judged to be, by reading and not by a proof. In the other (`refresh`, "gamma not remembered") only the `_refuted`
  theorem is, and the values computed stay right; its note says so. Several lists also contain theorems that are
  probably still true and share a helper lemma, so `theorems_failed` is an upper bound.
- An edit that leaves every proof intact is a survivor. Survivors led to the entries with `theorems_tightened`, or are
  logged with an empty `theorems_failed` and a note when the edit does not change the behaviour.
- A proof that did not finish within 400 seconds is counted as failing; the `note` of the entry says so.
- Edits that do not type-check, or that break a definition rather than a proof, are not logged.
