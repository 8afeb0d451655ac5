{"id": "C01", "title": "L0 prox is a best sparse approximation", "statement": "L0Regularizer(nnz).prox(x, alpha) returns a vector with at most nnz non-zero coordinates, each of its coordinates is either the matching coordinate of x or zero, and no other vector with at most nnz non-zeros is closer to x in Euclidean norm.", "quantifier": "every vector x of every length, every nnz (including 0, negative, None and larger than the length), every alpha, every tie-breaking of argsort", "why_tests_cant": "Optimality is over a continuum of competitors and over every tie order of argsort.", "anchors": ["src/pysr3/regularizers.py::_take_only_k_max", "src/pysr3/regularizers.py::L0Regularizer.prox"]}
{"id": "C02", "title": "L0 prox never touches must-include coordinates", "statement": "With weights attached, coordinates of weight 0 come out of L0Regularizer.prox unchanged, they count towards nnz, and the number of kept penalised coordinates is at most max(0, nnz minus the number of unpenalised ones); the kept penalised ones are the largest.", "quantifier": "every x, every weight vector, every nnz, every tie order", "why_tests_cant": "Index arithmetic of boolean masks composed with argsort fails only for particular patterns of masks and ties.", "anchors": ["src/pysr3/regularizers.py::L0Regularizer.prox", "src/pysr3/regularizers.py::L0Regularizer.instantiate"]}
{"id": "C03", "title": "L0 prox for mixed models: both sparsity budgets and the hierarchy", "statement": "L0RegularizerLME.prox(x) yields (tbeta, tgamma) with at most max(nnz_tbeta, #unpenalised betas) and max(nnz_tgamma, #unpenalised gammas) non-zeros, and unless independent_beta_and_gamma is set every penalised random effect whose fixed effect became zero is zero; unpenalised coordinates are unchanged.", "quantifier": "every problem layout (columns that are fixed, random or both), every x, weights and budgets", "why_tests_cant": "Holds only through the composition of two masks and an index map; a test fixes one layout.", "anchors": ["src/pysr3/regularizers.py::L0RegularizerLME.prox", "src/pysr3/regularizers.py::L0RegularizerLME.optimal_tbeta", "src/pysr3/regularizers.py::L0RegularizerLME.optimal_tgamma", "src/pysr3/lme/oracles.py::LinearLMEOracle.instantiate"]}
{"id": "C04", "title": "L1 prox is the exact proximal operator", "statement": "L1Regularizer(lam).prox(x, alpha) is the unique minimiser of 1/2||z-x||^2 + alpha*lam*sum_i w_i|z_i| (w_i = 1 when no weights are attached).", "quantifier": "every x, alpha >= 0, lam >= 0 and non-negative weights", "why_tests_cant": "A minimiser over all real vectors cannot be certified by sampling.", "anchors": ["src/pysr3/regularizers.py::L1Regularizer.prox"]}
{"id": "C05", "title": "Regularizer value is the function its prox minimises (L1)", "statement": "For L1Regularizer, prox(x, alpha) minimises 1/2||z-x||^2 + alpha*value(z), so that the loss reported by the solver is the objective being minimised.", "quantifier": "every x, alpha, lam, with and without weights", "why_tests_cant": "The two methods agree on the default lam=1, the case tests use.", "anchors": ["src/pysr3/regularizers.py::L1Regularizer.value", "src/pysr3/regularizers.py::L1Regularizer.prox"]}
{"id": "C06", "title": "CAD prox is the proximal operator of the CAD penalty", "statement": "CADRegularizer(rho, lam).prox(x, alpha) minimises 1/2||z-x||^2 + alpha*value(z).", "quantifier": "every x, alpha >= 0, lam >= 0, rho >= 0, with and without weights", "why_tests_cant": "The penalty is non-convex; global optimality needs a comparison of branches for all parameters.", "anchors": ["src/pysr3/regularizers.py::CADRegularizer.value", "src/pysr3/regularizers.py::CADRegularizer.prox"]}
{"id": "C07", "title": "SCAD prox is the proximal operator of the SCAD penalty", "statement": "SCADRegularizer(rho, sigma, lam).prox(x, alpha) minimises 1/2||z-x||^2 + alpha*value(z) and is always a number.", "quantifier": "every x, alpha >= 0, lam >= 0, rho > 1, sigma > 0, with and without weights", "why_tests_cant": "The failing parameter region (alpha*lam*w >= rho-1) is a thin or unusual set that tests miss, and optimality is over a continuum.", "anchors": ["src/pysr3/regularizers.py::SCADRegularizer.value", "src/pysr3/regularizers.py::SCADRegularizer.prox"]}
{"id": "C08", "title": "Elastic wrapper computes the prox of the sum", "statement": "If the inner regularizer's prox is exact then ElasticRegularizer(eps, inner).prox(x, alpha) minimises 1/2||z-x||^2 + alpha*(eps/2||z||^2 + inner(z)).", "quantifier": "every inner regularizer with an exact prox, every x, alpha > 0, eps >= 0", "why_tests_cant": "Quantifies over all inner regularizers.", "anchors": ["src/pysr3/regularizers.py::ElasticRegularizer.prox", "src/pysr3/regularizers.py::ElasticRegularizer.value"]}
{"id": "C09", "title": "Positive-quadrant wrapper computes the prox of the sum and keeps variances non-negative", "statement": "PositiveQuadrantRegularizer(inner).prox(x, alpha) has non-negative random-effect coordinates, and minimises 1/2||z-x||^2 + alpha*inner(z) over vectors whose random-effect coordinates are non-negative, for every coordinatewise inner penalty that is even and smallest at 0.", "quantifier": "every x, alpha, split into fixed and random coordinates, and every such inner regularizer", "why_tests_cant": "Quantifies over all inner regularizers and all competitors.", "anchors": ["src/pysr3/regularizers.py::PositiveQuadrantRegularizer.prox", "src/pysr3/regularizers.py::PositiveQuadrantRegularizer.value"]}
{"id": "C10", "title": "Every prox shrinks and keeps signs", "statement": "For L0, L1, CAD and SCAD and their Elastic/PositiveQuadrant wrappers, each coordinate of prox(x) has absolute value at most that of x and never the opposite sign; hence zero stays zero.", "quantifier": "every x, parameters, weights", "why_tests_cant": "Needs all branches of all regularizers.", "anchors": ["src/pysr3/regularizers.py::L0Regularizer.prox", "src/pysr3/regularizers.py::L1Regularizer.prox", "src/pysr3/regularizers.py::CADRegularizer.prox", "src/pysr3/regularizers.py::SCADRegularizer.prox", "src/pysr3/regularizers.py::ElasticRegularizer.prox", "src/pysr3/regularizers.py::PositiveQuadrantRegularizer.prox"]}
{"id": "C11", "title": "Zero-weight coordinates are exempt from every regularizer", "statement": "A coordinate of regularization weight 0 passes unchanged through prox of L0, L1, CAD and SCAD and does not contribute to value of L1, CAD (rho >= 0) and SCAD.", "quantifier": "every x, parameters, weight vectors", "why_tests_cant": "Depends on position-wise alignment for every weight pattern.", "anchors": ["src/pysr3/regularizers.py::L0Regularizer.prox", "src/pysr3/regularizers.py::L1Regularizer.prox", "src/pysr3/regularizers.py::CADRegularizer.prox", "src/pysr3/regularizers.py::SCADRegularizer.prox"]}
{"id": "C12", "title": "The solver always stops, within max_iter iterations", "statement": "PGDSolver.optimize performs at most max_iter proximal steps and each backtracking line search stops after finitely many halvings; the reported iteration count is the number of steps made.", "quantifier": "every oracle, regularizer, starting point, tolerance, max_iter, step length and stepping policy", "why_tests_cant": "Termination for all oracles cannot be sampled.", "anchors": ["src/pysr3/solvers.py::PGDSolver.optimize"]}
{"id": "C13", "title": "converged=True means the last step was within tolerance", "statement": "If PGDSolver reports converged=True then the last update moved x by at most tol (or no update was needed), and if it stopped because of the tolerance before exhausting max_iter it reports True.", "quantifier": "every oracle, regularizer, starting point, tolerance and max_iter", "why_tests_cant": "Concerns all histories of the loop.", "anchors": ["src/pysr3/solvers.py::PGDSolver.optimize"]}
{"id": "C14", "title": "Line-search PGD never increases the objective", "statement": "With stepping='line-search', an exact prox and a gradient oracle, each iteration whose line search accepted a step does not increase oracle.value_function + regularizer.value.", "quantifier": "every oracle, every regularizer with exact prox, every iterate", "why_tests_cant": "Universally quantified over objectives.", "anchors": ["src/pysr3/solvers.py::PGDSolver.optimize"]}
{"id": "C15", "title": "The solver returns a point in the range of the prox", "statement": "If at least one iteration is made, the returned x is regularizer.prox(y, step) for some y and step>0 at most fixed_step_len, so every guarantee of the prox (sparsity, non-negative variances, exempt coordinates) holds for the returned coefficients.", "quantifier": "every oracle, regularizer, starting point and options", "why_tests_cant": "Universal over loops.", "anchors": ["src/pysr3/solvers.py::PGDSolver.optimize"]}
{"id": "C16", "title": "The logged loss trace is complete and in order", "statement": "If 'loss' is among the logger keys then after PGDSolver.optimize the logger holds exactly iteration+1 losses, the k-th being the objective at the k-th iterate; keys outside the set are not logged, and logging does not change the result.", "quantifier": "every logger key tuple, oracle, regularizer, starting point", "why_tests_cant": "Ranges over all histories and key sets.", "anchors": ["src/pysr3/solvers.py::PGDSolver.optimize", "src/pysr3/logger.py::Logger.log", "src/pysr3/logger.py::Logger.add"]}
{"id": "C17", "title": "Logger behaves as documented", "statement": "Logger accepts a set or tuple of keys; log records values only for declared keys; add sets and declares a key; append on an unknown key starts from 0; get returns what was stored.", "quantifier": "every key collection and every sequence of log/add/append/get calls", "why_tests_cant": "Histories of operations are unbounded.", "anchors": ["src/pysr3/logger.py::Logger"]}
{"id": "C18", "title": "FakePGDSolver reports convergence truthfully", "statement": "After the practical SR3 scheme, logger 'converged' is True only if the inner iteration met its tolerance.", "quantifier": "every oracle, regularizer, tolerance and max_iter", "why_tests_cant": "Depends on runs that exhaust max_iter.", "anchors": ["src/pysr3/solvers.py::FakePGDSolver.optimize", "src/pysr3/linear/oracles.py::LinearOracleSR3.find_optimal_parameters"]}
{"id": "C19", "title": "Linear oracle gradient and Hessian are exact", "statement": "LinearOracle.gradient and hessian are the first and second derivative of LinearOracle.loss: loss(x+d) = loss(x) + gradient(x).d + 1/2 d'hessian(x)d exactly.", "quantifier": "every data matrix, target, x, d, with non-informative or Gaussian prior", "why_tests_cant": "Exact identity over all reals.", "anchors": ["src/pysr3/linear/oracles.py::LinearOracle.loss", "src/pysr3/linear/oracles.py::LinearOracle.gradient", "src/pysr3/linear/oracles.py::LinearOracle.hessian", "src/pysr3/priors.py::GaussianPrior"]}
{"id": "C20", "title": "Fitting a linear model never increases the penalised loss", "statement": "For LinearOracle with a quadratic loss and an exact-prox regularizer, every line-search step is accepted (as long as the squared Frobenius norm of the data is below 5e13) and the objective is non-increasing along the whole run; in particular the fitted coefficients are no worse than the starting point.", "quantifier": "every dataset, starting point, number of iterations, regularizer with exact prox", "why_tests_cant": "Global statement over all data and iterations.", "anchors": ["src/pysr3/linear/oracles.py::LinearOracle", "src/pysr3/solvers.py::PGDSolver.optimize"]}
{"id": "C21", "title": "SR3 value function is the partial minimum of the relaxed loss", "statement": "LinearOracleSR3.value_function(w) equals min over x of loss(x, w), attained at x = H^-1(A'b + lam w), and gradient_value_function(w) is its gradient lam(w - x(w)).", "quantifier": "every dataset and lam > 0 for which inv succeeds, every w", "why_tests_cant": "Matrix identity over all sizes and entries.", "anchors": ["src/pysr3/linear/oracles.py::LinearOracleSR3.instantiate", "src/pysr3/linear/oracles.py::LinearOracleSR3.loss", "src/pysr3/linear/oracles.py::LinearOracleSR3.value_function", "src/pysr3/linear/oracles.py::LinearOracleSR3.gradient_value_function"]}
{"id": "C22", "title": "Practical SR3 computes the same iterates as standard SR3", "statement": "For the same start, tolerance and max_iter, find_optimal_parameters (practical=True) returns exactly what PGDSolver with fixed step 1/lam returns on the SR3 value function (exact arithmetic).", "quantifier": "every dataset, lam > 0, regularizer, start, tolerance, max_iter", "why_tests_cant": "Equivalence of two loops for all inputs.", "anchors": ["src/pysr3/linear/oracles.py::LinearOracleSR3.find_optimal_parameters", "src/pysr3/solvers.py::PGDSolver.optimize", "src/pysr3/solvers.py::FakePGDSolver.optimize"]}
{"id": "C23", "title": "Fixed-step SR3 never increases its objective", "statement": "With the default step 1/lam, every fixed-step PGD iteration on the linear SR3 value function with an exact prox does not increase value_function + regularizer.", "quantifier": "every dataset, lam > 0, w, exact-prox regularizer", "why_tests_cant": "Needs a spectral bound for all matrices.", "anchors": ["src/pysr3/linear/oracles.py::LinearOracleSR3", "src/pysr3/linear/models.py::SimpleLinearModelSR3.instantiate"]}
{"id": "C24", "title": "Custom relaxation matrix C is honoured", "statement": "LinearProblem accepts an optional (p,p) array c and uses it as the SR3 matrix C.", "quantifier": "every array c", "why_tests_cant": "Python truthiness of arrays depends on size and content.", "anchors": ["src/pysr3/linear/problems.py::LinearProblem.__init__", "src/pysr3/linear/problems.py::LinearProblem.from_x_y", "src/pysr3/linear/oracles.py::LinearOracleSR3.instantiate"]}
{"id": "C25", "title": "Must-include features of linear problems are exempt from regularization", "statement": "Features named in must_include_features of LinearProblem.from_dataframe get regularization weight 0 (others 1) and LinearModel.fit_problem fits with these weights.", "quantifier": "every dataframe, feature list and must-include list", "why_tests_cant": "Composition of two modules for all inputs.", "anchors": ["src/pysr3/linear/problems.py::LinearProblem.from_dataframe", "src/pysr3/linear/models.py::LinearModel.fit_problem"]}
{"id": "C26", "title": "Linear AIC/BIC are those of the unrelaxed model", "statement": "aic/bic of the SR3 oracle equal aic/bic of the plain oracle on the same data, and penalise exactly the number of non-zero coefficients by 2 and log(n).", "quantifier": "every dataset and coefficient vector", "why_tests_cant": "Universal over inputs.", "anchors": ["src/pysr3/linear/oracles.py::LinearOracle.aic", "src/pysr3/linear/oracles.py::LinearOracle.bic", "src/pysr3/linear/oracles.py::LinearOracleSR3.aic", "src/pysr3/linear/oracles.py::LinearOracleSR3.bic"]}
{"id": "C27", "title": "Gaussian prior is the Gaussian negative log-density", "statement": "GaussianPrior with parameters (mean, std) contributes sum (x-mean)^2/(2 std^2) for parameters with std>0 and nothing for the others; gradient and hessian are its derivatives; unknown names and negative std are rejected.", "quantifier": "every parameter dictionary, column list and x", "why_tests_cant": "std and std^2 agree at std=1, the tested value.", "anchors": ["src/pysr3/priors.py::GaussianPrior.instantiate", "src/pysr3/priors.py::GaussianPrior.loss", "src/pysr3/priors.py::GaussianPrior.gradient", "src/pysr3/priors.py::GaussianPrior.hessian"]}
{"id": "C28", "title": "Priors survive forget and re-instantiation", "statement": "After instantiate, forget and instantiate again a prior behaves as if freshly instantiated; a Gaussian prior can be used with linear models as documented.", "quantifier": "every history of instantiate/forget on every problem", "why_tests_cant": "Histories are unbounded.", "anchors": ["src/pysr3/priors.py::GaussianPrior.forget", "src/pysr3/lme/priors.py::GaussianPriorLME.forget", "src/pysr3/lme/priors.py::GaussianPriorLME.instantiate", "src/pysr3/linear/oracles.py::LinearOracle.instantiate"]}
{"id": "C29", "title": "LMEProblem round trip", "statement": "LMEProblem.from_x_y followed by to_x_y returns the same rows in the same order, the same targets and the same column labels.", "quantifier": "every table, every valid assignment of column labels, every interleaving of group labels", "why_tests_cant": "The row permutation and its inverse have to be right for all interleavings of groups.", "anchors": ["src/pysr3/lme/problems.py::LMEProblem.from_x_y", "src/pysr3/lme/problems.py::LMEProblem.to_x_y"]}
{"id": "C30", "title": "Grouping is a partition", "statement": "from_x_y puts every row into exactly one group, the one with its label; groups are listed in increasing label order without repetition; group sizes sum to the number of rows and rows inside a group keep their input order.", "quantifier": "every table and group column", "why_tests_cant": "All partitions of all sizes.", "anchors": ["src/pysr3/lme/problems.py::LMEProblem.from_x_y"]}
{"id": "C31", "title": "Malformed input is rejected", "statement": "from_x_y rejects tables whose number of labels differs from the number of columns, unknown labels, zero or several group or variance columns, and zero variances, and accepts everything else with integer group labels.", "quantifier": "every table and label list", "why_tests_cant": "All combinations of malformed inputs.", "anchors": ["src/pysr3/lme/problems.py::LMEProblem.from_x_y"]}
{"id": "C32", "title": "Regularization weights line up with features", "statement": "The fixed- and random-effect regularization weights built by from_x_y from must_include_fe/must_include_re have one entry per fitted feature (including an intercept exactly when it is fitted), zero exactly for the named features.", "quantifier": "every label list, intercept flags and must-include lists", "why_tests_cant": "The offending combination (must-include without intercept) is untested.", "anchors": ["src/pysr3/lme/problems.py::LMEProblem.from_x_y", "src/pysr3/lme/models.py::LMEModel.fit_problem"]}
{"id": "C33", "title": "Column names line up with coefficients", "statement": "fixed_features_columns and random_features_columns have one name per fitted coefficient, in coefficient order.", "quantifier": "every label list and intercept flags", "why_tests_cant": "Depends on the intercept flags for all layouts.", "anchors": ["src/pysr3/lme/problems.py::LMEProblem.from_x_y", "src/pysr3/lme/problems.py::LMEProblem.from_dataframe"]}
{"id": "C34", "title": "Iteration over a problem yields every group once, in order", "statement": "A for-loop over an LMEProblem yields every group exactly once in order, repeatedly and independently of other loops over the same problem.", "quantifier": "every problem and every interleaving of iterators", "why_tests_cant": "Interleavings of iterators are unbounded.", "anchors": ["src/pysr3/lme/problems.py::LMEProblem.__iter__", "src/pysr3/lme/problems.py::LMEProblem.__next__"]}
{"id": "C35", "title": "from_dataframe selects the named columns", "statement": "LMEProblem.from_dataframe uses exactly the named fixed and random effects, an intercept exactly when 'intercept' is named, and raises ValueError for every missing column.", "quantifier": "every dataframe and lists of names", "why_tests_cant": "All subsets of columns.", "anchors": ["src/pysr3/lme/problems.py::LMEProblem.from_dataframe"]}
{"id": "C36", "title": "Generated problems honour the requested variances and layouts", "statement": "LMEProblem.generate with per-object obs_var uses each object's own variance, and the generated problem can be converted by to_x_y and its per-group coefficients reproduce the noiseless answers.", "quantifier": "every group sizes, obs_var vectors, labels and draws", "why_tests_cant": "Slicing errors show only with several groups and unequal variances.", "anchors": ["src/pysr3/lme/problems.py::LMEProblem.generate"]}
{"id": "C37", "title": "Per-group coefficients reproduce the prediction", "statement": "The coefficient vector returned by get_per_group_coefficients for a group, applied to a data row extended by the intercept, equals fixed-effect part plus random-effect part of the prediction.", "quantifier": "every label layout, beta, random effects and row", "why_tests_cant": "All layouts of fixed/random/both/absent columns.", "anchors": ["src/pysr3/lme/problems.py::get_per_group_coefficients", "src/pysr3/lme/models.py::LMEModel.fit_problem"]}
{"id": "C38", "title": "Oracle evaluations do not depend on call history", "statement": "Every loss/gradient evaluation of LinearLMEOracle returns the value determined by its arguments and the current problem, whatever was evaluated before: other gammas, failed evaluations, re-instantiation on another problem, or arrays mutated between calls.", "quantifier": "every sequence of evaluations, failures, instantiate/forget calls and in-place mutations", "why_tests_cant": "Histories and aliasing patterns are unbounded.", "anchors": ["src/pysr3/lme/oracles.py::LinearLMEOracle._recalculate_cholesky", "src/pysr3/lme/oracles.py::LinearLMEOracle.instantiate", "src/pysr3/lme/oracles.py::LinearLMEOracle.forget"]}
{"id": "C39", "title": "Mixed-model loss is the Gaussian marginal negative log-likelihood", "statement": "LinearLMEOracle.loss(beta, gamma) equals sum over groups of 1/2 r'Omega^-1 r + 1/2 log det Omega with Omega = Z diag(gamma) Z' + diag(obs_var), plus the prior.", "quantifier": "every number and size of groups, data, beta, gamma >= 0 and positive observation variances", "why_tests_cant": "Matrix identity of all sizes.", "anchors": ["src/pysr3/lme/oracles.py::LinearLMEOracle.loss", "src/pysr3/lme/oracles.py::LinearLMEOracle._recalculate_cholesky"]}
{"id": "C40", "title": "Mixed-model gradients are the derivatives of the loss", "statement": "gradient_beta and gradient_gamma are the partial derivatives of loss.", "quantifier": "every problem, beta, gamma", "why_tests_cant": "Differentiability statement over all sizes.", "anchors": ["src/pysr3/lme/oracles.py::LinearLMEOracle.gradient_beta", "src/pysr3/lme/oracles.py::LinearLMEOracle.gradient_gamma"]}
{"id": "C41", "title": "Mixed-model Hessians are the second derivatives", "statement": "hessian_beta, hessian_gamma and hessian_beta_gamma are the partial derivatives of the gradients.", "quantifier": "every problem, beta, gamma", "why_tests_cant": "Differentiability statement over all sizes.", "anchors": ["src/pysr3/lme/oracles.py::LinearLMEOracle.hessian_beta", "src/pysr3/lme/oracles.py::LinearLMEOracle.hessian_gamma", "src/pysr3/lme/oracles.py::LinearLMEOracle.hessian_beta_gamma"]}
{"id": "C42", "title": "optimal_beta minimises the loss", "statement": "optimal_beta(gamma) is the unique minimiser over beta of loss(beta, gamma) (for the SR3 oracle: of the relaxed loss for the given tbeta).", "quantifier": "every problem with a non-singular normal matrix, every gamma, tbeta, prior", "why_tests_cant": "Optimality over a continuum.", "anchors": ["src/pysr3/lme/oracles.py::LinearLMEOracle.optimal_beta", "src/pysr3/lme/oracles.py::LinearLMEOracleSR3.optimal_beta"]}
{"id": "C43", "title": "Random effects are the best linear unbiased predictors", "statement": "optimal_random_effects(beta, gamma) minimises, for every group, 1/2 (r-Zu)'Lambda^-1(r-Zu) + 1/2 sum u_j^2/gamma_j over u supported on gamma_j != 0, and equals Gamma Z'Omega^-1 r; effects with zero variance are zero.", "quantifier": "every problem, beta and gamma >= 0 with entries 0 or above the threshold 1e-10", "why_tests_cant": "Optimality over a continuum.", "anchors": ["src/pysr3/lme/oracles.py::LinearLMEOracle.optimal_random_effects", "src/pysr3/lme/oracles.py::LinearLMEOracle._jones2010n_eff"]}
{"id": "C44", "title": "Reported covariances are covariances", "statement": "The matrices used as covariance of random effects and of the response are symmetric with non-negative diagonal, and are Gamma - Gamma Z'(Omega^-1 - Omega^-1 X cov X'Omega^-1) Z Gamma type expressions; the response covariance adds observation variances on the diagonal only.", "quantifier": "every problem and parameters", "why_tests_cant": "Wrong factors are invisible for identity matrices.", "anchors": ["src/pysr3/lme/oracles.py::LinearLMEOracle.covariance_random_effects", "src/pysr3/lme/oracles.py::LinearLMEOracle.covariance_y"]}
{"id": "C45", "title": "Packing and unpacking parameters are inverse", "statement": "x_to_beta_gamma and beta_gamma_to_x are mutually inverse on vectors of the right length.", "quantifier": "every problem and vectors", "why_tests_cant": "All lengths.", "anchors": ["src/pysr3/lme/oracles.py::LinearLMEOracle.x_to_beta_gamma", "src/pysr3/lme/oracles.py::LinearLMEOracle.beta_gamma_to_x"]}
{"id": "C46", "title": "beta_to_gamma_map pairs the two roles of a column", "statement": "The index map built by the oracle sends the i-th fixed effect to the position of the random effect of the same column, or to -1 if that column has no random effect; the intercept included.", "quantifier": "every column layout and intercept flags", "why_tests_cant": "All layouts.", "anchors": ["src/pysr3/lme/oracles.py::LinearLMEOracle.instantiate"]}
{"id": "C47", "title": "SR3 relaxation of mixed models", "statement": "LinearLMEOracleSR3.joint_loss adds lb/2||beta-tbeta||^2 + lg/2||gamma-tgamma||^2 to the plain loss, its gradients are those of the sum, and with lb=lg=0 it is the plain oracle.", "quantifier": "every problem, parameters, lb, lg", "why_tests_cant": "Universal identity.", "anchors": ["src/pysr3/lme/oracles.py::LinearLMEOracleSR3"]}
{"id": "C48", "title": "Interior-point iterations keep variances positive and terminate", "statement": "During find_optimal_parameters_ip every iterate keeps gamma and the dual variables strictly positive, the loop ends after at most n_iter_inner iterations, and the returned relaxed variances are non-negative.", "quantifier": "every sequence of Newton directions, regularizer and options", "why_tests_cant": "Quantifies over all directions the linear solver may return.", "anchors": ["src/pysr3/lme/oracles.py::LinearLMEOracleSR3.find_optimal_parameters_ip"]}
{"id": "C49", "title": "Practical SR3 mixed model fits models without random effects", "statement": "Fitting an SR3 mixed model in practical mode yields the penalised estimates also when the problem has no random effects.", "quantifier": "every problem without random effects", "why_tests_cant": "A degenerate layout.", "anchors": ["src/pysr3/lme/oracles.py::LinearLMEOracleSR3.find_optimal_parameters_ip", "src/pysr3/lme/models.py::SimpleLMEModelSR3"]}
{"id": "C50", "title": "Projected-gradient variance estimation stays feasible and stops", "statement": "optimal_gamma by projected gradient returns non-negative variances, stops within its iteration limit, for every line-search outcome within bounds.", "quantifier": "every problem, start gamma >= 0, every result of the 1-D minimiser within its bounds", "why_tests_cant": "Quantifies over all inner minimiser outcomes.", "anchors": ["src/pysr3/lme/oracles.py::LinearLMEOracle.optimal_gamma", "src/pysr3/lme/oracles.py::LinearLMEOracle.optimal_gamma_pgd"]}
{"id": "C51", "title": "Information criteria count the selected effects", "statement": "The degrees-of-freedom term of the LME information criteria counts non-zero coefficients, also when called through get_information_criterion.", "quantifier": "every coefficient vectors and tolerance", "why_tests_cant": "The default tolerance 0 makes all coefficients count; invisible for dense fits.", "anchors": ["src/pysr3/lme/oracles.py::LinearLMEOracle.jones2010bic", "src/pysr3/lme/oracles.py::LinearLMEOracle.muller_hui_2016ic", "src/pysr3/lme/oracles.py::LinearLMEOracle.vaida2005aic", "src/pysr3/lme/models.py::LMEModel.get_information_criterion"]}
{"id": "C52", "title": "SR3 information criteria are those of the plain model", "statement": "jones_bic, muller_ic and vaida_aic of the SR3 oracle equal those of the plain oracle on the same problem and parameters.", "quantifier": "every problem and parameters", "why_tests_cant": "Universal identity.", "anchors": ["src/pysr3/lme/oracles.py::LinearLMEOracleSR3.jones2010bic", "src/pysr3/lme/oracles.py::LinearLMEOracleSR3.muller_hui_2016ic", "src/pysr3/lme/oracles.py::LinearLMEOracleSR3.vaida2005aic"]}
{"id": "C53", "title": "Hat matrix reproduces the fitted values", "statement": "The matrix used for the degrees of freedom of Vaida's AIC maps the targets to X beta + Z u at the optimal beta and random effects.", "quantifier": "every problem and gamma", "why_tests_cant": "Matrix identity of all sizes.", "anchors": ["src/pysr3/lme/oracles.py::LinearLMEOracle._hat_matrix"]}
{"id": "C54", "title": "predict answers the row it was asked about", "statement": "LMEModel.predict(x)[i] is the prediction for row i of x: row.beta + z.u of the row's group.", "quantifier": "every fitted model, table and interleaving of groups", "why_tests_cant": "Only tables whose rows are not sorted by group reveal the order.", "anchors": ["src/pysr3/lme/models.py::LMEModel.predict", "src/pysr3/lme/models.py::LMEModel.predict_problem"]}
{"id": "C55", "title": "predict supports new groups", "statement": "For groups not seen in training, predict uses the fixed effects only (documented).", "quantifier": "every table with unseen groups", "why_tests_cant": "np.where semantics on a tuple for every label set.", "anchors": ["src/pysr3/lme/models.py::LMEModel.predict", "src/pysr3/lme/models.py::LMEModel.predict_problem"]}
{"id": "C56", "title": "score is R^2 of the predictions", "statement": "score(x, y) = 1 - sum (y_i - predict(x)_i)^2 / sum (y_i - mean y)^2 with predictions aligned to rows: at most 1, and 1 exactly for perfect predictions.", "quantifier": "every fitted model and dataset with non-constant targets", "why_tests_cant": "Misalignment is invisible for sorted data.", "anchors": ["src/pysr3/lme/models.py::LMEModel.score"]}
{"id": "C57", "title": "Fitted variances are non-negative", "statement": "Every LME model with settings in their documented ranges (lam, elastic_eps, ell, step length and weights non-negative) returns coef_['gamma'] >= 0 whenever the starting gamma is non-negative.", "quantifier": "every problem, model kind, options", "why_tests_cant": "Universal over runs.", "anchors": ["src/pysr3/lme/models.py::LMEModel.fit_problem", "src/pysr3/lme/models.py::SimpleLMEModel.instantiate", "src/pysr3/regularizers.py::PositiveQuadrantRegularizer.prox"]}
{"id": "C58", "title": "Fitted L0 models respect the sparsity budget", "statement": "L0 linear and mixed models with at least one solver iteration return no more than the requested number of non-zero coefficients (up to must-include ones).", "quantifier": "every problem and options", "why_tests_cant": "Universal over runs.", "anchors": ["src/pysr3/linear/models.py::LinearL0Model", "src/pysr3/lme/models.py::L0LmeModel", "src/pysr3/lme/models.py::L0LmeModelSR3"]}
{"id": "C59", "title": "Warm start continues from the previous coefficients", "statement": "With warm_start=True, fit starts from the coefficients of the previous fit, and raises NotFittedError if there are none.", "quantifier": "every history of fits", "why_tests_cant": "Histories.", "anchors": ["src/pysr3/lme/models.py::LMEModel.fit_problem", "src/pysr3/linear/models.py::LinearModel.fit_problem"]}
{"id": "C60", "title": "The intercept is not penalised by default", "statement": "When no must-include lists are given, the intercept coefficient has regularization weight 0.", "quantifier": "every problem with an intercept", "why_tests_cant": "Depends on which constructor built the problem.", "anchors": ["src/pysr3/lme/models.py::LMEModel.fit_problem", "src/pysr3/lme/problems.py::LMEProblem.from_x_y"]}
{"id": "C61", "title": "select_covariates returns the best model of the grid", "statement": "select_covariates keeps a model with the smallest jones_bic among all candidates of the grid (the first such one).", "quantifier": "every score assignment and grid", "why_tests_cant": "All score sequences.", "anchors": ["src/pysr3/lme/model_selectors.py::select_covariates"]}
{"id": "C62", "title": "select_covariates names the covariates it selected", "statement": "The reported fixed and random effects are exactly the columns whose coefficients are at least 1e-2 in absolute value.", "quantifier": "every problem, with and without intercept", "why_tests_cant": "Index shift appears only with an intercept.", "anchors": ["src/pysr3/lme/model_selectors.py::select_covariates"]}
{"id": "C63", "title": "The L0 grid covers the possible models", "statement": "The L0 selection grid contains every pair (p, q) with 1 <= q <= p up to and including the full model, and is never empty.", "quantifier": "every number of fixed and random effects", "why_tests_cant": "Boundary cases.", "anchors": ["src/pysr3/lme/model_selectors.py::get_model"]}
{"id": "C64", "title": "Pre-selected covariates are always kept as candidates", "statement": "pre_sel_covs are added to the candidates and exempted from regularization; missing columns raise ValueError; the caller's dictionaries are not modified.", "quantifier": "every covs and pre_sel_covs", "why_tests_cant": "Dictionary shapes and aliasing.", "anchors": ["src/pysr3/lme/model_selectors.py::select_covariates"]}
{"id": "C65", "title": "Regularizers and oracles forget", "statement": "forget unlinks all problem-dependent information: after forget and instantiate on another problem a regularizer or oracle behaves like a fresh one.", "quantifier": "every history of instantiate/forget", "why_tests_cant": "Histories.", "anchors": ["src/pysr3/regularizers.py::L0RegularizerLME.forget", "src/pysr3/regularizers.py::L0Regularizer.forget", "src/pysr3/regularizers.py::PositiveQuadrantRegularizer", "src/pysr3/lme/oracles.py::LinearLMEOracleSR3", "src/pysr3/lme/oracles.py::LinearLMEOracle.forget"]}
{"id": "C66", "title": "Sign-flip probabilities are probabilities", "statement": "flip_probabilities_beta returns for every coefficient a number in [0, 1/2]-compatible range given by the normal tail of |beta_j|/sd_j.", "quantifier": "every problem and coefficient vector", "why_tests_cant": "Universal over inputs.", "anchors": ["src/pysr3/lme/oracles.py::LinearLMEOracle.flip_probabilities_beta"]}
{"id": "C67", "title": "Linear predictions are data times coefficients", "statement": "LinearModel.predict returns one number per row, the dot product of the row and the fitted coefficients; it raises before fit and for tables of another width, and never otherwise.", "quantifier": "every fitted model and table", "why_tests_cant": "All shapes.", "anchors": ["src/pysr3/linear/models.py::LinearModel.predict", "src/pysr3/linear/models.py::LinearModel.predict_problem", "src/pysr3/linear/models.py::LinearModel.check_is_fitted"]}
{"id": "C68", "title": "Generated linear problems are linear", "statement": "LinearProblem.generate returns targets that equal data times true coefficients plus scaled noise, with a column of ones first and unit weights.", "quantifier": "every draw, noise level and true coefficients", "why_tests_cant": "All draws.", "anchors": ["src/pysr3/linear/problems.py::LinearProblem.generate", "src/pysr3/linear/problems.py::LinearProblem.to_x_y"]}
{"id": "C69", "title": "Effective sample size", "statement": "The effective number of observations in Jones' criterion is the sum over groups of 1'C^-1 1 for the correlation matrix C of the group; it is at least the number of groups and equals the number of observations when there is no random variation.", "quantifier": "every problem with positive definite marginal covariances", "why_tests_cant": "Matrix inequality of all sizes.", "anchors": ["src/pysr3/lme/oracles.py::LinearLMEOracle._jones2010n_eff"]}
{"id": "C70", "title": "Zero starting variances do not trap the estimate", "statement": "The interior-point method of the relaxed mixed model can leave a starting variance of zero when the likelihood prefers a positive one.", "quantifier": "every problem and regularizer", "why_tests_cant": "A fixed point of the iteration for all data; tests start from ones.", "anchors": ["src/pysr3/lme/oracles.py::LinearLMEOracleSR3.find_optimal_parameters_ip"]}
{"id": "C71", "title": "Interior-point iterations are damped Newton steps", "statement": "Every iteration of find_optimal_parameters_ip solves the linearised optimality conditions of the barrier problem (complementarity, stationarity in beta and in gamma), moves by 0.99 of the largest step keeping variances and duals non-negative (or by the bounded line search), and then updates barrier, relaxed variables and relaxation weights as documented; it stops only by a zero step, the limit, small residuals or lack of progress.", "quantifier": "every oracle, solver of linear systems, options and start", "why_tests_cant": "Quantifies over all oracles and executions.", "anchors": ["src/pysr3/lme/oracles.py::LinearLMEOracleSR3.find_optimal_parameters_ip"]}
{"id": "C72", "title": "A fitted model stores the best predictions of its random effects", "statement": "The random effects in coef_ after fit are the best linear unbiased predictions at the stored beta and gamma, one per group in the order of the stored group labels, and the per-group coefficients are built from exactly these.", "quantifier": "every problem, model kind, options and data for which fit returns, with variances zero or above the threshold", "why_tests_cant": "Universal over runs and data.", "anchors": ["src/pysr3/lme/models.py::LMEModel.fit_problem", "src/pysr3/lme/oracles.py::LinearLMEOracle.optimal_random_effects"]}
{"id": "C73", "title": "Line search never makes a mixed model worse", "statement": "For mixed models without relaxation and with no penalty or the L1 penalty, fitted with stepping='line-search' whose accepted steps exceed 1e-14, negative log-likelihood plus prior, penalty and elastic term at the returned parameters is at most its value at the starting parameters.", "quantifier": "every problem, data, options, weights and start", "why_tests_cant": "Universal over data and runs; relies on the prox being optimal.", "anchors": ["src/pysr3/lme/models.py::LMEModel.fit_problem", "src/pysr3/lme/models.py::SimpleLMEModel.instantiate", "src/pysr3/lme/models.py::L1LmeModel.instantiate", "src/pysr3/solvers.py::PGDSolver.optimize"]}
{"id": "C74", "title": "Information criteria of a fitted model", "statement": "get_information_criterion on the training table returns the requested criterion of the fitted parameters, where only coefficients and variances different from zero count as parameters.", "quantifier": "every fitted model and table", "why_tests_cant": "Universal over fits.", "anchors": ["src/pysr3/lme/models.py::SimpleLMEModel.get_information_criterion", "src/pysr3/lme/models.py::SimpleLMEModelSR3.get_information_criterion"]}
{"id": "C75", "title": "Problems without random effects can be fitted", "statement": "A problem whose data has no random effects - generated with random effects absent from the labels and no random intercept, or made of a table - can be evaluated and fitted like any other; it is a linear regression.", "quantifier": "every problem, model and data", "why_tests_cant": "Tests always include a random effect; the failure is in the shape of an empty array.", "anchors": ["src/pysr3/lme/problems.py::LMEProblem.generate", "src/pysr3/lme/models.py::LMEModel.fit_problem", "src/pysr3/lme/oracles.py::LinearLMEOracle.optimal_random_effects"]}
{"id": "C76", "title": "Sign-flip probabilities of SR3 models are those of the likelihood", "statement": "The probabilities that the sign of a coefficient is wrong, logged by a model with SR3 relaxation, are those of the asymptotic distribution of the likelihood at the fitted parameters, exactly as for the plain model.", "quantifier": "every data set, coefficients, variances, distribution function and strength of relaxation", "why_tests_cant": "A numerical bias for all inputs; tests do not look at these probabilities.", "anchors": ["src/pysr3/lme/oracles.py::LinearLMEOracle.flip_probabilities_beta", "src/pysr3/lme/oracles.py::LinearLMEOracleSR3.hessian_beta"]}
{"id": "C77", "title": "Predictions on the training data after fit", "statement": "After a successful fit, predict on the training table succeeds and gives, group after group, X beta + Z u with the best prediction u of the group's random effects at the fitted parameters; this is the target minus Lambda Omega^-1 (y - X beta), and in every group its variance-weighted sum of squared errors is at most that of the fixed effects alone (stored variances zero or above 1e-10, positive observation variances).", "quantifier": "every table, labels, intercepts, model kind, options, start, weights and external solver for which fit returns", "why_tests_cant": "Composition of fit and predict through stored attributes, for all data; tests only bound an error on generated data.", "anchors": ["src/pysr3/lme/models.py::LMEModel.fit", "src/pysr3/lme/models.py::LMEModel.fit_problem", "src/pysr3/lme/models.py::LMEModel.predict", "src/pysr3/lme/models.py::LMEModel.predict_problem", "src/pysr3/lme/oracles.py::LinearLMEOracle.optimal_random_effects"]}
{"id": "C78", "title": "Rate of convergence on convex problems", "statement": "When the loss is convex with curvature at most L, the penalty convex and its prox exact, and the steps safe (fixed step at most 1/L, or line search), the objective after n iterations exceeds its value at any competitor u by at most |x0-u|^2/(2 s n), s being the shortest possible step; in particular for the linear L1 model, its SR3 relaxation and the practical SR3 routine.", "quantifier": "every convex problem, start, competitor, number of iterations, data, weights and strength", "why_tests_cant": "A bound against all competitors, for all data and iteration counts; tests look at one final error.", "anchors": ["src/pysr3/solvers.py::PGDSolver.optimize", "src/pysr3/linear/models.py::LinearModel.fit_problem", "src/pysr3/linear/models.py::LinearL1Model.instantiate", "src/pysr3/linear/models.py::LinearL1ModelSR3.instantiate", "src/pysr3/linear/oracles.py::LinearOracleSR3.find_optimal_parameters"]}
{"id": "C79", "title": "converged=True means nearly optimal", "statement": "Under the same conditions, when the solver reports converged=True the objective exceeds its value at any competitor u by at most (tol/s)(|x-u| + tol/2); in particular for the linear L1 model and its SR3 relaxation.", "quantifier": "every convex problem, start, competitor, tolerance, data, weights and strength", "why_tests_cant": "The flag is only about the last move; what it says about optimality needs convexity and all competitors.", "anchors": ["src/pysr3/solvers.py::PGDSolver.optimize", "src/pysr3/linear/models.py::LinearModel.fit_problem"]}
{"id": "C80", "title": "Information criterion of a fitted linear model", "statement": "get_information_criterion of a linear model raises NotFittedError before fit and ValueError for a name other than aic and bic; otherwise it is the least-squares loss plus 2 or log(n) per non-zero coefficient, and on the training data it is the number that fit logged, for plain and SR3 models.", "quantifier": "every table, target, model, strength of relaxation and fit", "why_tests_cant": "Universal over fits; the SR3 method builds an oracle with another relaxation than the fit.", "anchors": ["src/pysr3/linear/models.py::SimpleLinearModel.get_information_criterion", "src/pysr3/linear/models.py::SimpleLinearModelSR3.get_information_criterion", "src/pysr3/linear/models.py::LinearModel.fit_problem"]}
{"id": "C81", "title": "The order of the rows does not matter", "statement": "Listing the rows of a table, each with its target, in any other order changes nothing: fit returns the same coefficients, variances, random effects, per-group coefficients and logs (or raises the same exception), the information criteria are the same, and so are the loss, its derivatives, the optimal coefficients and the random effects of any groups whose observations are permuted.", "quantifier": "every table, permutation of its rows, labels, intercepts, model kind, options, start and weights", "why_tests_cant": "All permutations of all data; a sort or an alignment bug only shows on unsorted tables, and the tests use generated, sorted ones.", "anchors": ["src/pysr3/lme/problems.py::LMEProblem.from_x_y", "src/pysr3/lme/models.py::LMEModel.fit", "src/pysr3/lme/models.py::SimpleLMEModel.get_information_criterion", "src/pysr3/lme/oracles.py::LinearLMEOracle.loss", "src/pysr3/lme/oracles.py::LinearLMEOracle.optimal_random_effects"]}
{"id": "C82", "title": "Reported covariances do not depend on the order of the rows", "statement": "The covariances of the fixed and of the random effects reported by the mixed-model oracle are the same when the observations of a group are listed in another order.", "quantifier": "every list of groups, permutation of the observations within groups, prior and variances", "why_tests_cant": "A relation between two runs on permuted data; no test permutes data.", "anchors": ["src/pysr3/lme/oracles.py::LinearLMEOracle.covariance_beta", "src/pysr3/lme/oracles.py::LinearLMEOracle.covariance_random_effects"]}
{"id": "C83", "title": "converged=True means stationary", "statement": "When the solver reports converged=True, for any smooth loss and a convex penalty whose prox is exact, the returned point satisfies the first-order optimality conditions up to tol/step, with the gradient taken at a point within tol. In particular the fit of a mixed model without relaxation, without penalty or with the L1 penalty, returns non-negative variances at which the likelihood, prior, L1 and elastic terms are stationary; with tol = 0 exactly and at the returned parameters.", "quantifier": "every loss, oracle, start, tolerance, step rule, data set, model options, weights and prior", "why_tests_cant": "Statement about all feasible directions, for a non-convex likelihood; tests only read the flag or an error on one data set.", "anchors": ["src/pysr3/solvers.py::PGDSolver.optimize", "src/pysr3/lme/models.py::LMEModel.fit_problem", "src/pysr3/lme/models.py::SimpleLMEModel.instantiate", "src/pysr3/lme/models.py::L1LmeModel.instantiate", "src/pysr3/lme/oracles.py::LinearLMEOracle.joint_gradient"]}
{"id": "C84", "title": "Fit logs the criteria it was asked for", "statement": "After a successful fit every information criterion among logger_keys is in the log: the conditional Vaida criterion under vaida_aic, the marginal one under vaida_aic_marginalized, Jones' under jones_bic, Muller's under muller_ic and the flip probabilities under flip_probabilities_beta, all of the fitted parameters, with the model's prior and the solver's tolerance; with a positive tolerance separating non-zero coefficients from 0 they are the published formulas with the numbers of non-zero coefficients.", "quantifier": "every problem, model kind, options, keys, prior, start and weights for which fit returns", "why_tests_cant": "Which value sits under which key, for all runs; tests only compare the logged numbers of a few fits with each other.", "anchors": ["src/pysr3/lme/models.py::LMEModel.fit_problem", "src/pysr3/lme/oracles.py::LinearLMEOracle.vaida2005aic", "src/pysr3/lme/oracles.py::LinearLMEOracle.jones2010bic", "src/pysr3/lme/oracles.py::LinearLMEOracle.muller_hui_2016ic", "src/pysr3/lme/oracles.py::LinearLMEOracle.flip_probabilities_beta", "src/pysr3/logger.py::Logger.add"]}
{"id": "C85", "title": "Criterion of a fitted mixed model is the logged one", "statement": "get_information_criterion of a mixed model on its training data returns the number that fit logged under the same name.", "quantifier": "every table, labels, intercepts, model kind, options and fit", "why_tests_cant": "Two code paths build different oracles; no test compares their results.", "anchors": ["src/pysr3/lme/models.py::SimpleLMEModel.get_information_criterion", "src/pysr3/lme/models.py::SimpleLMEModelSR3.get_information_criterion", "src/pysr3/lme/models.py::LMEModel.fit_problem"]}
{"id": "C86", "title": "L1 prox in double precision", "statement": "In IEEE double precision L1Regularizer.prox is the soft-thresholded value of the computed threshold rounded once to nearest: an entry becomes 0 exactly when its absolute value is at most the threshold, a threshold that overflows removes every finite entry, and the distance to exact arithmetic on the same numbers is at most u|x_i| + (2u+u^2) alpha w_i lam plus an underflow term, with u = 2^-53.", "quantifier": "all doubles x, alpha, lam and weights without negative parameters, subnormal numbers included", "why_tests_cant": "Rounding, underflow and overflow behave differently at particular bit patterns; tests use a tolerance.", "anchors": ["src/pysr3/regularizers.py::L1Regularizer.prox"]}
{"id": "C87", "title": "Proximal operators do not flip signs or grow in double precision", "statement": "In IEEE double precision, with no negative parameter, every entry of prox(x, alpha) of a finite number is NaN or a number between 0 and that entry, for every regularizer and every combination of elastic and positive-quadrant regularizers.", "quantifier": "all doubles and all nestings of regularizers", "why_tests_cant": "A sign flip by rounding happens only where a subtraction cancels; no test looks for it.", "anchors": ["src/pysr3/regularizers.py::L0Regularizer.prox", "src/pysr3/regularizers.py::L1Regularizer.prox", "src/pysr3/regularizers.py::CADRegularizer.prox", "src/pysr3/regularizers.py::SCADRegularizer.prox", "src/pysr3/regularizers.py::PositiveQuadrantRegularizer.prox", "src/pysr3/regularizers.py::ElasticRegularizer.prox"]}
{"id": "C88", "title": "Coordinates declared positive are not negative in double precision", "statement": "In IEEE double precision PositiveQuadrantRegularizer.prox never returns a negative number at a coordinate declared positive, for every array of doubles, infinities and NaN included, and any other regularizer inside, with no negative parameter; so after at least one iteration of PGDSolver rounding cannot make a fitted variance negative, whatever the oracle returns.", "quantifier": "all doubles, all nestings of regularizers and all oracles", "why_tests_cant": "Exact arithmetic says nothing about rounding, overflow and NaN; tests cannot enumerate doubles.", "anchors": ["src/pysr3/regularizers.py::PositiveQuadrantRegularizer.prox", "src/pysr3/regularizers.py::ElasticRegularizer.prox", "src/pysr3/regularizers.py::L1Regularizer.prox", "src/pysr3/regularizers.py::CADRegularizer.prox", "src/pysr3/regularizers.py::SCADRegularizer.prox"]}
{"id": "C89", "title": "Which entries the proximal operators change in double precision", "statement": "In IEEE double precision CADRegularizer.prox returns entries above rho and entries of weight 0 bit for bit and soft-thresholds the others with one rounding; SCADRegularizer.prox returns entries of weight 0 and entries above its computed upper knot bit for bit and soft-thresholds those below its computed lower knot with one rounding; ElasticRegularizer.prox divides by the computed 1 + alpha*eps with one rounding; PositiveQuadrantRegularizer.prox replaces declared entries by max(0, x) exactly and returns the others bit for bit.", "quantifier": "all finite doubles, non-negative parameters, weights and lengths", "why_tests_cant": "Comparisons of rounded numbers at the knots differ from exact ones at particular bit patterns.", "anchors": ["src/pysr3/regularizers.py::CADRegularizer.prox", "src/pysr3/regularizers.py::SCADRegularizer.prox", "src/pysr3/regularizers.py::ElasticRegularizer.prox", "src/pysr3/regularizers.py::PositiveQuadrantRegularizer.prox"]}
{"id": "C90", "title": "The solver terminates in double precision", "statement": "In IEEE double precision PGDSolver.optimize comes back for every oracle that does, every regularizer, start, tolerance, iteration limit, stepping and step length, whatever values the oracle returns (NaN and infinities included).", "quantifier": "all doubles, oracles, regularizers and options", "why_tests_cant": "Termination of a loop over doubles for all inputs; a hanging test case has to be guessed.", "anchors": ["src/pysr3/solvers.py::PGDSolver.optimize"]}
{"id": "C91", "title": "converged=True in double precision", "statement": "In IEEE double precision, when PGDSolver reports converged=True the last move was at most tol.", "quantifier": "all doubles, oracles, regularizers and options", "why_tests_cant": "Overflow and NaN appear only on particular data; the tests read the flag.", "anchors": ["src/pysr3/solvers.py::PGDSolver.optimize", "src/pysr3/linear/models.py::SimpleLinearModel.instantiate", "src/pysr3/linear/models.py::LinearModel.fit_problem"]}
{"id": "C92", "title": "Options of a model reach its solver, oracle and regularizer", "statement": "For each of the twenty model classes, every option accepted by the constructor is stored under its name (or the default of the class is), and instantiate() builds a solver, an oracle and a regularizer whose settings are exactly the options given; the settings are the ones fit uses.", "quantifier": "every class, every set of keyword options with arbitrary values", "why_tests_cant": "Twenty constructors forward their options by hand through two super() calls; a test sees only the option it varies, and a forgotten one falls back to a default silently.", "anchors": ["src/pysr3/lme/models.py::SimpleLMEModel.instantiate", "src/pysr3/lme/models.py::SimpleLMEModelSR3.__init__", "src/pysr3/lme/models.py::SimpleLMEModelSR3.instantiate", "src/pysr3/lme/models.py::L0LmeModel.__init__", "src/pysr3/lme/models.py::L1LmeModel.instantiate", "src/pysr3/lme/models.py::CADLmeModelSR3.__init__", "src/pysr3/lme/models.py::SCADLmeModel.instantiate", "src/pysr3/linear/models.py::SimpleLinearModel.instantiate", "src/pysr3/linear/models.py::SimpleLinearModelSR3.instantiate", "src/pysr3/linear/models.py::LinearSCADModelSR3.__init__", "src/pysr3/solvers.py::FakePGDSolver.__init__"]}
{"id": "C93", "title": "Misspelt options are reported", "statement": "Giving a model an option that its class does not have raises an exception.", "quantifier": "every class, every name that is not an option of the class", "why_tests_cant": "Universal over names; no test passes an unknown option.", "anchors": ["src/pysr3/lme/models.py::SimpleLMEModel.__init__", "src/pysr3/lme/models.py::SimpleLMEModelSR3.__init__", "src/pysr3/linear/models.py::SimpleLinearModel.__init__", "src/pysr3/linear/models.py::SimpleLinearModelSR3.__init__"]}
{"id": "C94", "title": "clone, get_params and set_params", "statement": "get_params returns every option of a model with its current value, clone gives a model with the same attributes, and set_params with options of the class gives the object that the constructor gives for the new options in place of the old ones.", "quantifier": "every class, options, and sequence of set_params calls", "why_tests_cant": "Rests on every constructor storing every option unchanged under its own name; model selection relies on it.", "anchors": ["src/pysr3/lme/models.py::SimpleLMEModel.__init__", "src/pysr3/lme/models.py::SimpleLMEModelSR3.__init__", "src/pysr3/lme/models.py::L0LmeModel.__init__", "src/pysr3/linear/models.py::SimpleLinearModel.__init__", "src/pysr3/linear/models.py::LinearL0Model.__init__"]}
{"id": "C95", "title": "Models work with their default options", "statement": "Every model class can be constructed and instantiated without options, and a model with default options can be fitted with any of the supported logger keys.", "quantifier": "every class, problem, start and weights", "why_tests_cant": "A default that only fails together with one logger key is not reached by tests that set the option.", "anchors": ["src/pysr3/linear/models.py::LinearL0Model.__init__", "src/pysr3/linear/models.py::LinearL0ModelSR3.__init__", "src/pysr3/linear/models.py::LinearModel.fit_problem", "src/pysr3/regularizers.py::L0Regularizer.value"]}
{"id": "C96", "title": "Loss, derivatives and optimal coefficients under a change of units", "statement": "If the target is multiplied by c and shifted by X b, the fixed features are replaced by invertible combinations X A, and the random features are multiplied by s_j, then, without a prior, at the parameters of the same model loss changes by N ln|c| (N the number of observations), its gradients and Hessians in beta and gamma follow the chain rule, and optimal_beta and the covariance of beta are those of the old units, converted; exceptions are raised for the same data.", "quantifier": "all groups, sizes, parameters, invertible A, non-zero c and s, shifts b", "why_tests_cant": "Equivariance relates pairs of data sets; the tests evaluate one data set at a time.", "anchors": ["src/pysr3/lme/oracles.py::LinearLMEOracle.loss", "src/pysr3/lme/oracles.py::LinearLMEOracle.gradient_beta", "src/pysr3/lme/oracles.py::LinearLMEOracle.gradient_gamma", "src/pysr3/lme/oracles.py::LinearLMEOracle.hessian_beta", "src/pysr3/lme/oracles.py::LinearLMEOracle.hessian_gamma", "src/pysr3/lme/oracles.py::LinearLMEOracle.hessian_beta_gamma", "src/pysr3/lme/oracles.py::LinearLMEOracle.optimal_beta"]}
{"id": "C97", "title": "Random effects, fitted values and covariances under a change of units", "statement": "Under the same change of units the random effects, the fitted values X beta + Z u, the conditional loss and the covariance of the random effects are those of the old units, converted.", "quantifier": "all groups, sizes, parameters and changes of units", "why_tests_cant": "A threshold of 1e-10 and a wrong power of a factor are invisible on data of one scale.", "anchors": ["src/pysr3/lme/oracles.py::LinearLMEOracle.optimal_random_effects", "src/pysr3/lme/oracles.py::LinearLMEOracle.demarginalized_loss", "src/pysr3/lme/oracles.py::LinearLMEOracle.covariance_random_effects"]}
{"id": "C98", "title": "Information criteria under a change of units", "statement": "Under the same change of units the criteria of Jones, of Mueller and Hui, and of Vaida and Blanchard change by a constant that does not depend on the parameters, so that the order of two models is the same in all units.", "quantifier": "all groups, sizes, parameters, tolerances and changes of units", "why_tests_cant": "Ranking of models in two units of measurement; the tests use one.", "anchors": ["src/pysr3/lme/oracles.py::LinearLMEOracle.jones2010bic", "src/pysr3/lme/oracles.py::LinearLMEOracle.muller_hui_2016ic", "src/pysr3/lme/oracles.py::LinearLMEOracle.vaida2005aic"]}
{"id": "C99", "title": "The order and the names of the groups do not matter", "statement": "If the groups of a table are given other integer names, different groups keeping different names, fit gives the same coefficients, variances and log and raises the same exceptions, and every group keeps, under its new name, its random effects and coefficients; the loss, its derivatives, the optimal coefficients and the criteria do not depend on the order of the groups.", "quantifier": "all tables, targets, renamings, models, options and starts", "why_tests_cant": "Groups are stored in the order of their names, so renaming reorders every per-group list; an index mixed up between them shows only when the order changes.", "anchors": ["src/pysr3/lme/problems.py::LMEProblem.from_x_y", "src/pysr3/lme/problems.py::LMEProblem.get_per_group_coefficients", "src/pysr3/lme/models.py::LMEModel.fit", "src/pysr3/lme/models.py::LMEModel.fit_problem", "src/pysr3/lme/models.py::SimpleLMEModel.get_information_criterion", "src/pysr3/lme/oracles.py::LinearLMEOracle.loss", "src/pysr3/lme/oracles.py::LinearLMEOracle.optimal_random_effects"]}
{"id": "C100", "title": "What the interior-point method logs", "statement": "If find_optimal_parameters_ip returns and has a logger, the log holds the number of iterations made (at most n_iter_inner), the values of mu and mu_effective of exactly the iterations that ended in the neighbourhood of the central path, in order and with mu = mu_decay * mu_effective, and good_stopping_reason, True if and only if mu and the residual of the optimality conditions are below tol_inner at the returned point; after fit_problem of a practical SR3 mixed model the model's log holds this for the run that gave its coefficients.", "quantifier": "all oracles, options, histories, loggers without repeated keys, models, problems and starts", "why_tests_cant": "What is logged depends on which iterations take the continue branch and on mutable state read through locals(); tests look at one run.", "anchors": ["src/pysr3/lme/oracles.py::LinearLMEOracleSR3.find_optimal_parameters_ip", "src/pysr3/lme/oracles.py::LinearLMEOracleSR3.find_optimal_parameters", "src/pysr3/logger.py::Logger.add", "src/pysr3/logger.py::Logger.log", "src/pysr3/solvers.py::FakePGDSolver.optimize", "src/pysr3/lme/models.py::LMEModel.fit_problem"]}
{"id": "C101", "title": "good_stopping_reason=True means nearly optimal", "statement": "If a run of the interior-point method from non-negative variances logs good_stopping_reason True, then at the point it ended the variances are non-negative, every derivative of the relaxed loss in beta is below tol_inner in size, every derivative in gamma is above -tol_inner, and the product of a variance with its derivative is below 2 tol_inner + tol_inner * variance; for a practical SR3 mixed model this holds for the likelihood and relaxation of the fitted problem with tol_oracle.", "quantifier": "all oracles, options, histories, models, problems and non-negative starts", "why_tests_cant": "The flag is computed from a norm that mixes three residuals; that it implies the optimality conditions in each coordinate needs the invariants of the iteration.", "anchors": ["src/pysr3/lme/oracles.py::LinearLMEOracleSR3.find_optimal_parameters_ip", "src/pysr3/lme/models.py::LMEModel.fit_problem"]}
{"id": "C102", "title": "get_condition_numbers returns the condition numbers of the data matrices", "statement": "LinearLMEOracle.get_condition_numbers() returns the condition numbers of the data matrices X and Z of the attached problem (its docstring): the largest divided by the smallest amount |Xu| / |u| by which the matrix stretches a vector, infinity when the columns are linearly dependent.", "quantifier": "for all numbers of fixed and random effects, all lists of groups with their matrices, and all singular value decompositions", "why_tests_cant": "The method is called by no test; on any data with enough observations per group a test would see a finite number at least 1 and could not tell that it is neither the condition number nor its square.", "anchors": ["src/pysr3/lme/oracles.py::LinearLMEOracle.get_condition_numbers", "src/pysr3/lme/oracles.py::LinearLMEOracle.get_ic"]}
{"id": "C103", "title": "A problem written to a data frame can be read back", "statement": "The data frame returned by LMEProblem.to_dataframe() holds the whole problem: with the roles of its columns, LMEProblem.from_dataframe builds a problem with the same groups, features, variances, targets and intercepts from it.", "quantifier": "for all tables, targets, names, labels and intercept choices that from_x_y accepts, and for the refutation all arguments of from_dataframe", "why_tests_cant": "No test calls to_dataframe; the columns are named by their roles, so the first problem with two fixed effects has two columns of one name, and an intercept is nowhere in the frame.", "anchors": ["src/pysr3/lme/problems.py::LMEProblem.to_dataframe", "src/pysr3/lme/problems.py::LMEProblem.from_dataframe", "src/pysr3/lme/problems.py::LMEProblem.to_x_y"]}
{"id": "C104", "title": "Given enough iterations the solver reports convergence", "statement": "For every problem, start and tolerance tol > 0 there is a number of iterations, computable from the initial objective, the step and tol, such that with a larger max_iter PGDSolver.optimize, and the fit of a linear model with it, ends with 'converged' True.", "quantifier": "all oracles, penalties, steppings, starts, tolerances, data, weights and max_iter; the theorems give the number for convex penalties with line search or fixed steps, and for the L0 SR3 model with its default step", "why_tests_cant": "A test sees that one run converged; that no data make the iterates wander for ever above the tolerance is a statement about all runs.", "anchors": ["src/pysr3/solvers.py::PGDSolver.optimize", "src/pysr3/linear/models.py::LinearModel.fit_problem"]}
{"id": "C105", "title": "The objective of a mixed model is bounded below and fitted variances cannot run away", "statement": "For every problem the constructors accept, LinearLMEOracle.loss is bounded below over all coefficients and all non-negative variances of the random effects, by half the sum of the logarithms of the observation variances; so a fit with line search cannot push the variances beyond a number that the data and the start determine, and given enough iterations it reports convergence.", "quantifier": "all numbers of groups, fixed and random effects, all data, coefficients, variances, convex priors, and all line-search fits without penalty or with L1", "why_tests_cant": "A test evaluates the objective at some parameters; that it has no hole somewhere needs the determinant of the marginal covariance for all of them.", "anchors": ["src/pysr3/lme/oracles.py::LinearLMEOracle.loss", "src/pysr3/lme/models.py::LMEModel.fit_problem", "src/pysr3/lme/problems.py::LMEProblem.from_x_y", "src/pysr3/solvers.py::PGDSolver.optimize"]}
{"id": "C106", "title": "Splits for cross-validation train on every group", "statement": "LMEStratifiedShuffleSplit.split stratifies by the column of groups and by nothing else: the splits do not depend on the targets or features; and since it is stratified, every group of the table has rows in every training part, so a model fitted to the training part can predict the test part.", "quantifier": "all tables, targets, labels, seeds and test sizes, all splitters that keep the promises of sklearn's StratifiedShuffleSplit, all models and fits", "why_tests_cant": "A test runs a few seeds on tables with large groups; the promise concerns every table, every draw and the smallest group.", "anchors": ["src/pysr3/lme/problems.py::LMEStratifiedShuffleSplit.split", "src/pysr3/lme/models.py::LMEModel.predict_problem", "src/pysr3/lme/models.py::LMEModel.fit_problem"]}
{"id": "C107", "title": "The helpers for random effects accept both formats of the package", "statement": "get_per_group_coefficients and random_effects_to_matrix treat random effects given as tuples (group, effects), the format of generate, and as arrays, the format in which fit stores them, alike: the same numbers, one row for each group in the order of the groups.", "quantifier": "all numbers of groups and effects, all values, labels and layouts of columns", "why_tests_cant": "A test calls each helper with one format; the other fails or, for two random effects, silently returns other numbers.", "anchors": ["src/pysr3/lme/problems.py::get_per_group_coefficients", "src/pysr3/lme/problems.py::random_effects_to_matrix", "src/pysr3/lme/models.py::LMEModel.fit_problem"]}
{"id": "C108", "title": "The order of the features of a linear model does not matter", "statement": "Fitting a linear model to the data with its features (columns) in another order, with weights and start in that order, returns the same coefficients in that order, fails with the same exception or writes the same log; predictions are the same.", "quantifier": "all penalties and options, plain and SR3 models (practical or not), all data, orders, starts and weights", "why_tests_cant": "A test fits one order of the columns; that the whole run of the solver commutes with every permutation, including the line search and the failures, is a statement about all of them.", "anchors": ["src/pysr3/linear/models.py::LinearModel.fit", "src/pysr3/linear/models.py::LinearModel.fit_problem", "src/pysr3/linear/models.py::LinearModel.predict"]}
{"id": "C109", "title": "The signs of the features of a linear model do not matter", "statement": "Multiplying some features (columns) of the data by -1 multiplies the coefficients a linear model finds for them by -1 and changes nothing else.", "quantifier": "all penalties of linear models (L0 included) and options, plain and SR3 models, all data, signs, starts and weights", "why_tests_cant": "A test with one coding of a feature cannot see that the other coding selects other features; a run has to be followed through every iteration.", "anchors": ["src/pysr3/linear/models.py::LinearModel.fit", "src/pysr3/linear/models.py::LinearModel.fit_problem"]}
{"id": "C110", "title": "The order of the observations of a linear model does not matter", "statement": "Fitting a linear model to the same observations, each with its target, in another order returns the same coefficients and the same log, or fails with the same exception.", "quantifier": "all penalties and options, plain and SR3 models (practical or not), all data, orders, starts and weights", "why_tests_cant": "A test compares a few orders; an access to the rows by position would go unnoticed on the others.", "anchors": ["src/pysr3/linear/models.py::LinearModel.fit", "src/pysr3/linear/models.py::LinearModel.fit_problem"]}
{"id": "C111", "title": "A strong L1 penalty removes every feature of a linear model", "statement": "If the penalty lam exceeds the largest correlation between a feature and the target (per unit of weight), the fit of a linear model with an L1 penalty is exactly zero.", "quantifier": "all data, weights, starts and solver options; plain, SR3 and practical models", "why_tests_cant": "A test tries a few penalties; it sees neither the exact threshold nor the fits that stop before they reach it.", "anchors": ["src/pysr3/linear/models.py::LinearModel.fit_problem", "src/pysr3/solvers.py::PGDSolver.optimize", "src/pysr3/regularizers.py::L1Regularizer.prox"]}
{"id": "C112", "title": "An interrupted fit can be continued", "statement": "If a fit runs out of iterations after n1 of them and reports that it has not converged, continuing it from its coefficients with n2 more iterations gives the fit with n1 + n2 iterations.", "quantifier": "all oracles, regularizers, data, starts, step rules, limits and logged keys; linear and mixed models, plain and relaxed", "why_tests_cant": "A test compares one interrupted run with one long run; it does not show that nothing of the state of the solver but the point matters, nor the one place where the report is wrong.", "anchors": ["src/pysr3/solvers.py::PGDSolver.optimize", "src/pysr3/linear/models.py::LinearModel.fit_problem", "src/pysr3/lme/models.py::LMEModel.fit_problem"]}
{"id": "C113", "title": "The packed gradient of the mixed-model oracles is the derivative of the packed loss", "statement": "joint_gradient, on the packed vector [beta, gamma], holds the partial derivatives of joint_loss, for the plain oracle and for the relaxed one; the relaxed loss is the plain one plus the two quadratic penalties.", "quantifier": "all problems, priors, packed points of length p + q with positive definite covariances, relaxed parameters and penalty weights", "why_tests_cant": "A finite-difference test checks a few points to a tolerance, and does not see a wrong packing that agrees at symmetric points.", "anchors": ["src/pysr3/lme/oracles.py::LinearLMEOracle.joint_loss", "src/pysr3/lme/oracles.py::LinearLMEOracle.joint_gradient", "src/pysr3/lme/oracles.py::LinearLMEOracleSR3.joint_loss", "src/pysr3/lme/oracles.py::LinearLMEOracleSR3.joint_gradient"]}
{"id": "C114", "title": "Practical and standard SR3 mixed models apply the same penalty", "statement": "practical=True changes how an SR3 mixed model is solved (faster, at the expense of accuracy), not what is penalised: with the same options both methods apply the same penalty to the coefficients.", "quantifier": "all problems, options, penalties and limits of the iterations", "why_tests_cant": "A test compares the two methods on data where both keep or drop the same columns; the factor between their penalties shows only for coefficients between the two thresholds.", "anchors": ["src/pysr3/lme/models.py::SimpleLMEModelSR3.instantiate", "src/pysr3/solvers.py::FakePGDSolver.optimize", "src/pysr3/lme/oracles.py::LinearLMEOracleSR3.find_optimal_parameters_ip", "src/pysr3/lme/oracles.py::LinearLMEOracleSR3.gradient_value_function"]}
{"id": "C115", "title": "With independent columns a linear L1 fit approaches the unique best coefficients", "statement": "When the columns of the data are independent, the objective of an L1 linear model (plain, SR3 with c = I, practical) has exactly one minimiser; the distance of the fitted coefficients from it decreases geometrically with the iterations, and converged=True bounds it by a multiple of tol.", "quantifier": "all problems with independent columns, weights, starts, steps short enough for the curvature (fixed or line search), tolerances and limits of the iterations", "why_tests_cant": "Tests compare with known coefficients on a few generated problems; the bound relates every tolerance and every conditioning of the data.", "anchors": ["src/pysr3/solvers.py::PGDSolver.optimize", "src/pysr3/linear/models.py::LinearL1Model", "src/pysr3/linear/models.py::LinearL1ModelSR3", "src/pysr3/linear/oracles.py::LinearOracleSR3", "src/pysr3/regularizers.py::L1Regularizer.prox"]}
{"id": "C116", "title": "With enough accuracy a linear L1 fit selects exactly the features of the best coefficients", "statement": "When the columns are independent and the best coefficients of an L1 linear model (plain, SR3 with c = I, practical) are separated from zero by a margin, then after an explicit number of iterations, or on converged=True with tol small enough for the margin, the fitted coefficients are zero exactly where the best ones are and have the same signs.", "quantifier": "all problems with independent columns, weights, starts, steps short enough for the curvature, tolerances, limits of the iterations and margins", "why_tests_cant": "Tests check the selected features on generated problems with one tolerance; the statement ties the tolerance to the margin for every problem.", "anchors": ["src/pysr3/solvers.py::PGDSolver.optimize", "src/pysr3/linear/models.py::LinearL1Model", "src/pysr3/linear/models.py::LinearL1ModelSR3", "src/pysr3/linear/oracles.py::LinearOracleSR3", "src/pysr3/regularizers.py::L1Regularizer.prox"]}
{"id": "C117", "title": "initializer=\"EM\" starts from the variances of one EM step", "statement": "With initializer=\"EM\" a mixed model replaces the start by one step of the EM algorithm at the start: the coefficients that maximise the likelihood at the given variances, and for each random effect the average over the groups of the expectation of its square given the observations. In particular the start does not lower the likelihood.", "quantifier": "all problems with positive variances of the observations, priors and given starts with variances that are zero or above the threshold of the predictions", "why_tests_cant": "Tests only check that fits with the initializer reach a good solution; the variances that it returns are never compared with an EM step.", "anchors": ["src/pysr3/lme/models.py::LMEModel.fit_problem", "src/pysr3/lme/oracles.py::LinearLMEOracle.optimal_beta", "src/pysr3/lme/oracles.py::LinearLMEOracle.optimal_random_effects"]}
{"id": "C118", "title": "The Gaussian prior of a mixed model acts on the named effects", "statement": "A Gaussian prior of a mixed model, given as dictionaries of means and deviations for the names of fixed effects and of random effects, is accepted for every problem that has these names, the intercept included as documented ({\"intercept\": (0, 2), \"time\": (1, 1)}). It adds to the loss, the gradients and the Hessians the terms of the named fixed effects and of the named variances, and nothing for the other coefficients.", "quantifier": "all dictionaries, names of columns, problems made from tables, coefficients and variances", "why_tests_cant": "The test of the prior uses one problem with two effects and no intercept, and checks the loss at a point.", "anchors": ["src/pysr3/lme/priors.py::GaussianPriorLME.instantiate", "src/pysr3/lme/priors.py::GaussianPriorLME.loss", "src/pysr3/lme/problems.py::LMEProblem.from_x_y", "src/pysr3/priors.py::GaussianPrior.loss"]}
{"id": "C119", "title": "The loss of a linear model is the likelihood under the declared noise", "statement": "The loss of a linear problem orders the coefficients as the likelihood of the observations does, when the observations have independent Gaussian noise with the variances declared by obs_std (one number, an array, or a column of the data frame).", "quantifier": "all data, declared variances and coefficients", "why_tests_cant": "No test passes obs_std to a problem that is fitted.", "anchors": ["src/pysr3/linear/problems.py::LinearProblem.__init__", "src/pysr3/linear/problems.py::LinearProblem.from_dataframe", "src/pysr3/linear/oracles.py::LinearOracle.loss"]}
{"id": "C120", "title": "As el grows the SR3 relaxation of a linear model approaches the original problem", "statement": "For a linear SR3 model with the identity as c, the value function is below the loss of the original problem by |g|^2/(2 el) + |a g|^2/(2 el^2), g being its gradient, and grows with el. Whatever is nearly the best for the relaxed L1 problem is nearly the best for the original one, with an additional error of the order 1/el; in particular the coefficients of a fit that reports convergence are.", "quantifier": "all data, positive el, non-negative lam and weights, coefficients, competitors, tolerances and step lengths that the curvature permits", "why_tests_cant": "Tests compare the coefficients with true ones for one or two values of el.", "anchors": ["src/pysr3/linear/oracles.py::LinearOracleSR3.instantiate", "src/pysr3/linear/oracles.py::LinearOracleSR3.value_function", "src/pysr3/linear/oracles.py::LinearOracleSR3.gradient_value_function", "src/pysr3/linear/models.py::LinearL1ModelSR3.instantiate"]}
{"id": "C121", "title": "The order of the features of a mixed model does not matter", "statement": "Permute the columns of a table together with their labels, and the starts and weights given to fit accordingly: a mixed model finds the same fit - coefficients, variances, random effects, coefficients per group and log in the new order - or fails in the same way. The evaluations behind a fit - loss, gradients, second derivatives, optimal coefficients, random effects, covariances and information criteria - follow the order of the features as well, also with Gaussian priors.", "quantifier": "all tables, labels, orders of columns, models, starts, weights, parameters and priors, with and without intercepts", "why_tests_cant": "The tests use one order of columns per data set; that no position of a feature is treated in a special way is a statement about all orders.", "anchors": ["src/pysr3/lme/problems.py::LMEProblem.from_x_y", "src/pysr3/lme/oracles.py::LinearLMEOracle.loss", "src/pysr3/lme/oracles.py::LinearLMEOracle.gradient_gamma", "src/pysr3/lme/oracles.py::LinearLMEOracle.gradient_beta", "src/pysr3/lme/oracles.py::LinearLMEOracle.optimal_random_effects", "src/pysr3/lme/oracles.py::LinearLMEOracle.vaida2005aic", "src/pysr3/lme/models.py::LMEModel.fit"]}
{"id": "C122", "title": "A strong enough L1 penalty removes every effect of a mixed model", "statement": "At zero the gradient of the likelihood is given by weighted sums of products of the answers with the features. When no weighted sum exceeds lam times the weight of its feature, a fit of an L1 mixed model started at zero stays there: coefficients, variances and random effects are zero and convergence is reported. A fit with tol 0 which reports convergence at zero implies that inequality. For a given fixed step and positive weights there is a penalty from which every fit, from any start, removes everything.", "quantifier": "all data with positive variances, weights, penalties, elastic terms, steppings, starts and numbers of iterations", "why_tests_cant": "Tests use a single small penalty on generated data and check the accuracy of the selection.", "anchors": ["src/pysr3/lme/models.py::L1LmeModel.instantiate", "src/pysr3/lme/oracles.py::LinearLMEOracle.gradient_beta", "src/pysr3/lme/oracles.py::LinearLMEOracle.gradient_gamma", "src/pysr3/regularizers.py::PositiveRegularizer.prox", "src/pysr3/regularizers.py::L1Regularizer.prox", "src/pysr3/solvers.py::PGDSolver.optimize"]}
{"id": "C123", "title": "The signs of features and answers of a mixed model do not matter", "statement": "Change the signs of some features of a table and perhaps of all its answers, and the start given to fit accordingly: a mixed model finds the same fit with the signs changed - coefficients, random effects, coefficients per group and log, while the variances stay - or fails in the same way. The fitted model predicts the same values for data with changed signs, with the sign of the answers, and has the same score.", "quantifier": "all tables, labels, signs of columns and answers, models, starts, weights, with and without intercepts", "why_tests_cant": "The tests use one sign per feature; that a fit does not prefer a direction of a feature is a statement about all choices of signs.", "anchors": ["src/pysr3/lme/problems.py::LMEProblem.from_x_y", "src/pysr3/lme/oracles.py::LinearLMEOracle.loss", "src/pysr3/lme/oracles.py::LinearLMEOracle.gradient_beta", "src/pysr3/lme/oracles.py::LinearLMEOracle.optimal_random_effects", "src/pysr3/lme/models.py::LMEModel.fit", "src/pysr3/lme/models.py::LMEModel.predict", "src/pysr3/lme/models.py::LMEModel.score"]}
{"id": "C124", "title": "Solvers called without an oracle, a regularizer or a logger", "statement": "PGDSolver.optimize and FakePGDSolver.optimize have the default None for the oracle, the regularizer and the logger. Without an oracle they raise ValueError; a missing regularizer means no penalty and a missing logger means that nothing is logged.", "quantifier": "all oracles, regularizers, solvers, starts, loggers and combinations of missing arguments", "why_tests_cant": "The tests always pass all arguments to the solvers.", "anchors": ["src/pysr3/solvers.py::PGDSolver.optimize", "src/pysr3/solvers.py::FakePGDSolver.optimize"]}
{"id": "C125", "title": "Random effects with zero variance", "statement": "When all variances of random effects are zero a mixed model is weighted least squares: the loss is that of independent observations with their variances, optimal_beta minimises the weighted sum of squares, on the data of a linear problem both are those of the oracle for linear models, the random effects are zero, the marginal and the conditional loss agree, Jones' criterion is the usual BIC and the degrees of freedom are the number of fixed effects. When some variances are zero the data of these random effects have no influence on losses, derivatives in beta, estimates, covariances and criteria.", "quantifier": "all problems (numbers and sizes of groups, features, answers, positive observation variances), priors, coefficients, variances and tolerances", "why_tests_cant": "The tests of the oracle evaluate it on a few generated problems; a statement about all problems at the boundary of the variances, where the code has a branch of its own (the mask of 1e-10), needs a proof.", "anchors": ["src/pysr3/lme/oracles.py::LinearLMEOracle.loss", "src/pysr3/lme/oracles.py::LinearLMEOracle.optimal_beta", "src/pysr3/lme/oracles.py::LinearLMEOracle.optimal_random_effects", "src/pysr3/lme/oracles.py::LinearLMEOracle.jones2010bic"]}
