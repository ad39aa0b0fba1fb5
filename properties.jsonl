{"id": "C01", "title": "Registry integrity of a stochastic model", "statement": "After any sequence of addVariable calls on a fresh StochasticModel (some of which may raise): getNames() lists exactly the accepted objects' names in the order of acceptance and without duplicates; getMarginalDistributions() and the keys of getVariables() are the accepted distributions in that same relative order; getConstants() maps exactly the accepted constants to their values; getLenMarginalDistributions() counts the distributions; a call raises exactly when the object is neither a Distribution nor a Constant or its name is already taken, and a raising call leaves every observable unchanged.", "quantifier": "every finite history of addVariable calls with arbitrary objects and names", "why_tests_cant": "the claim is about every history of calls, including histories with rejected calls in the middle; a test visits a handful", "anchors": ["src/pystra/model.py: StochasticModel.addVariable, getNames, getVariables, getMarginalDistributions, getConstants"]}
{"id": "C02", "title": "Correlation matrix tracks the set of random variables", "statement": "Through any history of addVariable and setCorrelation calls, the correlation matrix is the one last given to setCorrelation if no distribution was accepted after it; otherwise it is the n x n identity for the current number n of random variables (accepting a distribution silently discards an earlier setCorrelation), or None before the first of either. Adding a constant never changes it.", "quantifier": "every finite history of addVariable / setCorrelation calls", "why_tests_cant": "interleavings of calls are unbounded; the reset rule is a property of histories", "anchors": ["src/pystra/model.py: StochasticModel.addVariable, setCorrelation, getCorrelation"]}
{"id": "C03", "title": "Limit-state argument binding", "statement": "When the limit state function is evaluated at a block of points, it receives as keyword arguments exactly the model's names: each random variable gets its own row of the point matrix (its position among the random variables, whatever constants were added in between) and each constant gets its value repeated once per point.", "quantifier": "every model built by any sequence of additions, every point matrix", "why_tests_cant": "must hold for every interleaving of constants and variables and every size", "anchors": ["src/pystra/model.py: LimitState.compute_lsf"]}
{"id": "C04", "title": "Block evaluation is independent of the block size", "statement": "For a limit state function that acts point by point, evaluating nx points without gradient returns, for every block size >= 1, exactly the value of the function at each point in order, with an all-zero gradient; each point is sent to the function exactly once and no block exceeds the block size. With block size 0 and at least one point the evaluation loop never terminates.", "quantifier": "every number of points, every block size, every pointwise limit state function", "why_tests_cant": "unbounded in the number of points and block size; non-termination cannot be observed by a test", "anchors": ["src/pystra/model.py: LimitState.evaluate_nogradient"]}
{"id": "C05", "title": "Function-call accounting", "statement": "Each evaluation increases the model's call counter by the exact number of points at which the user's function was evaluated: nx without gradient and with user gradients, nx*(1+nrv) with forward differences; over any history of evaluations the counter is the sum. An evaluation that raises leaves the counter unchanged.", "quantifier": "every history of evaluate_lsf calls in any mode", "why_tests_cant": "histories are unbounded; a test samples a few", "anchors": ["src/pystra/model.py: LimitState.evaluate_lsf, evaluate_nogradient, evaluate_ffd, evaluate_ddm; StochasticModel.addCallFunction"]}
{"id": "C06", "title": "Forward-difference gradient", "statement": "At a single point x, the 'ffd' evaluation returns G = g(x) and, for every variable j, the quotient (g(x + h_j e_j) - g(x))/h_j with h_j = stdv_j/ffdpara, where only component j is perturbed; consequently the gradient is exact whenever g is affine in x, for every step parameter.", "quantifier": "every dimension nrv, every limit state function, every ffdpara != 0, every block size >= 1", "why_tests_cant": "universally quantified over functions and dimensions, and the buffer is aliased during the loop", "anchors": ["src/pystra/model.py: LimitState.evaluate_ffd"]}
{"id": "C07", "title": "Forward differences overwrite the caller's point and accept one point only", "statement": "An 'ffd' evaluation at a single point leaves the caller's array equal to x + h (every component shifted by its own step) instead of x; with two or more points (and at least one variable) it raises before calling the user's function.", "quantifier": "every dimension and point", "why_tests_cant": "tests compare return values, not the argument's aliasing; quantified over all shapes", "anchors": ["src/pystra/model.py: LimitState.evaluate_ffd (x0 = x; x[j] = ...; allx[:] = x)"]}
{"id": "C08", "title": "Differentiation-mode dispatch", "statement": "evaluate_lsf raises NotImplementedError when multi_proc is 0; otherwise any explicit diff_mode argument (whatever its value) suppresses the gradient, and with none the option's mode decides: 'no' no gradient, 'ddm' the user's gradient, anything else forward differences. In 'ddm' mode at one point the user's (value, gradient) pair is returned unchanged when the gradient is a column with one entry per variable; a gradient with a single entry is used for every variable, one of any other length raises ValueError with the call not counted; two or more points raise.", "quantifier": "every option value, every diff_mode argument, every point matrix", "why_tests_cant": "a decision table over unbounded string values", "anchors": ["src/pystra/model.py: LimitState.evaluate_lsf, evaluate_ddm, compute_lsf"]}
{"id": "C09", "title": "Isoprobabilistic round trip", "statement": "For any number of variables whose marginal maps are mutually inverse, and a factor inv_T with T its inverse, x_to_u(u_to_x(u)) = u for every u and u_to_x(x_to_u(x)) = x for every x in the product of the supports.", "quantifier": "every dimension, every invertible factor, every family of bijective marginals, every point", "why_tests_cant": "must hold for all dimensions and all points", "anchors": ["src/pystra/transformation.py: Transformation.x_to_u, u_to_x, _computeCholesky, _computeSVD"]}
{"id": "C10", "title": "Reliability is independent of the factorisation", "statement": "For two square-root factors A and B of the same modified correlation matrix (A A' = B B', both invertible), e.g. Cholesky and SVD, every physical point has standard-normal images of equal length, so the sets of distances of limit-state points from the origin coincide (hence equal minimum distance beta); images of one u under the two factors are nevertheless different in general, contrary to the class docstring.", "quantifier": "every dimension, every pair of factors of one matrix, every physical point and limit state set", "why_tests_cant": "quantified over all matrices of all sizes", "anchors": ["src/pystra/transformation.py: Transformation docstring, u_to_x, x_to_u"]}
{"id": "C11", "title": "Jacobian is the derivative of the transformation", "statement": "The matrix returned by jacobian(u, x, marg) at a consistent pair is the true Jacobian of x -> u: entry (i,j) is the partial derivative of component i of x_to_u with respect to x_j; its inverse is the Jacobian of u -> x used to pull gradients back.", "quantifier": "every dimension, every family of differentiable marginals, every point", "why_tests_cant": "a derivative statement at every point and dimension", "anchors": ["src/pystra/transformation.py: Transformation.jacobian", "src/pystra/distributions/distribution.py: Distribution.jacobian", "src/pystra/form.py: Form.computeJacobian"]}
{"id": "C12", "title": "Transformation type validation", "statement": "A transformation is created exactly for None (meaning Cholesky), 'cholesky' and 'svd'; any other string raises ValueError; computing dispatches to the stored type, and an options change after construction has no effect on an already-constructed analysis.", "quantifier": "every string", "why_tests_cant": "the rejection clause ranges over all other strings", "anchors": ["src/pystra/transformation.py: Transformation.__init__, compute", "src/pystra/analysis.py: AnalysisObject.__init__"]}
{"id": "C13", "title": "Differentiated Cholesky decomposition", "statement": "For every size n, every symmetric positive definite R0 and symmetric dR0, cholesky_with_derivative returns lower-triangular L0 with positive diagonal and L0 L0' = R0, and lower-triangular dL0 with dL0 L0' + L0 dL0' = dR0; if R(t) is a differentiable family with R(t0)=R0 and R'(t0)=dR0, then dL0 is entry by entry the derivative of t -> L0(R(t)) at t0. The inputs are unchanged.", "quantifier": "every n, every symmetric positive definite matrix and direction", "why_tests_cant": "an in-place triple loop over matrices of every size", "anchors": ["src/pystra/cholesky_sensitivity.py: cholesky_with_derivative"]}
{"id": "C14", "title": "Derivative of the inverse Cholesky factor", "statement": "dinvL0_dtheta(L0, dL0) is the derivative of the inverse: for a differentiable family L(t) of invertible matrices it equals d/dt L(t)^{-1}; algebraically L0 X + dL0 L0^{-1} = 0.", "quantifier": "every n, every invertible matrix family", "why_tests_cant": "matrices of every size", "anchors": ["src/pystra/cholesky_sensitivity.py: dinvL0_dtheta"]}
{"id": "C15", "title": "SORM rotation matrix", "statement": "For a unit alpha of length n >= 2, whenever orthonormal_matrix returns, R1 has orthonormal rows and columns, its last row is alpha, and R1 maps the design point beta*alpha to (0,...,0,beta). It returns whenever |alpha_n| > 1e-8 (numpy's isclose tolerance), and always raises ValueError when alpha_n = 0: a model whose last variable is irrelevant cannot be analysed. For n = 1 it raises TypeError. gram_schmidt itself returns, for any square matrix it accepts, Q with orthonormal columns and A = QR with R upper triangular with positive diagonal.", "quantifier": "every n, every unit vector", "why_tests_cant": "loop invariant over all dimensions", "anchors": ["src/pystra/sorm.py: Sorm.orthonormal_matrix, gram_schmidt"]}
{"id": "C16", "title": "Breitung curve-fit formulas", "statement": "For beta > 0 and all curvatures > -1/beta, pf2_breitung = Phi(-beta) * prod (1+beta*kappa_i)^(-1/2) > 0 (and betag_breitung = -Phi^{-1}(pf2) when pf2 < 1; nothing keeps pf2 below 1); zero curvatures give the FORM probability; larger curvatures give a smaller probability; a curvature < -1/beta gives (0, 0) with an error message, while a curvature exactly -1/beta is not rejected and yields an infinite pf2. The Hohenbichler-Rackwitz variant is the same with psi = phi(beta)/Phi(-beta) in place of beta and its guard is sound for every beta. For beta < 0 the Breitung guard is inverted: admissible curvatures are rejected and no non-empty curvature list gives a finite nonzero result.", "quantifier": "every beta, every list of curvatures", "why_tests_cant": "universally quantified over reals and list lengths", "anchors": ["src/pystra/sorm.py: Sorm.pf_breitung, pf_breitung_m"]}
{"id": "C17", "title": "Point-fit and curve-fit agree on symmetric curvatures", "statement": "For beta > 0, when the two one-sided curvatures agree on every axis and all terms are positive, the point-fitting formulas give the same probabilities as the curve-fitting formulas; for any admissible curvatures the point-fit result is positive and swapping the two sides changes nothing.", "quantifier": "every beta > 0 and every pair of curvature lists", "why_tests_cant": "lists of every length", "anchors": ["src/pystra/sorm.py: Sorm._pf_breitung_pf, _pf_breitung_m_pf, pf_breitung, pf_breitung_m"]}
{"id": "C18", "title": "Point-fitting Newton search contract", "statement": "_find_fitting_point either returns a curvature 2(u'_n - beta)/u'_i^2 for a point whose fixed coordinate is sign*k*beta and whose |G| is below tol, after at most max_iter evaluations, or raises RuntimeError; it never returns an unconverged point. For a limit state linear in the search direction (G = c(u'_i) - a u'_n) it converges in two evaluations and returns the exact chord curvature.", "quantifier": "every limit state function, gradient, axis, sign, beta, tolerance and iteration limit", "why_tests_cant": "quantified over all functions; failure of convergence cannot be sampled", "anchors": ["src/pystra/sorm.py: Sorm._find_fitting_point, run_pointfit"]}
{"id": "C19", "title": "SORM gradient is pulled back at the wrong point under forward differences", "statement": "evaluateLSF(x, calc_gradient=True) should return the gradient times the inverse Jacobian at x. In 'ddm' mode it does; in 'ffd' mode the copy it passes is shifted by the evaluation, so the Jacobian is taken at x + h; the two agree when every marginal's Jacobian is constant (all-normal models) and differ in general.", "quantifier": "every model and point", "why_tests_cant": "difference is below test tolerance; requires tracking aliasing", "anchors": ["src/pystra/sorm.py: Sorm.evaluateLSF", "src/pystra/model.py: LimitState.evaluate_ffd"]}
{"id": "C20", "title": "The mixed-difference Hessian branch cannot run", "statement": "computeHessian with a diff_type argument evaluates 2n + n(n-1)/2 points in one call in the option's mode; for n >= 1 random variables this raises in both supported modes ('ffd' and 'ddm'). Only under diff_mode 'no' does the branch return, and then it returns the symmetric second-difference matrix.", "quantifier": "every number n >= 1 of random variables, every limit state function", "why_tests_cant": "claim about all dimensions", "anchors": ["src/pystra/sorm.py: Sorm.computeHessian", "src/pystra/model.py: LimitState.evaluate_ffd, evaluate_ddm"]}
{"id": "C21", "title": "FORM termination and convergence contract", "statement": "With i_max >= 1, Form.run performs at most i_max iterations whatever the limit state function; when it returns, either both criteria hold (|G/Go| < e1 and ||u - (alpha.u) alpha|| < e2) at the reported point or the reported iteration number equals i_max. With i_max <= 0 the limit is never effective: a run whose criteria never hold does not terminate.", "quantifier": "every limit state function, every starting point, all tolerances and iteration limits", "why_tests_cant": "termination for every function; non-termination is untestable", "anchors": ["src/pystra/form.py: Form.run"]}
{"id": "C22", "title": "FORM result consistency", "statement": "At the end of every terminating run with non-zero gradient, alpha is a unit vector opposite to the u-space gradient, beta = alpha . u*, the reported Pf is Phi(-beta), and hence 0 < Pf < 1, Pf < 1/2 iff beta > 0; the results are those of the last evaluated point.", "quantifier": "every run", "why_tests_cant": "every execution", "anchors": ["src/pystra/form.py: Form.computeAlpha, computeBeta, computeFailureProbability"]}
{"id": "C23", "title": "Step-size rule", "statement": "With step_size option 0 the chosen step is 2^-j for the first j in 0..5 whose merit does not exceed the current merit, or 2^-5 if none qualifies (not 2^-6 as the message says); with a non-zero option the step is that value. The merit penalty satisfies c > ||u||/||grad||, and the search direction is a descent direction of the merit function whenever the point is not already stationary.", "quantifier": "every merit sequence, every u, gradient, G", "why_tests_cant": "first-acceptable search and descent hold for all real inputs", "anchors": ["src/pystra/form.py: Form.computeStepSize, getStepSize, computeSearchDirection"]}
{"id": "C24", "title": "FORM is exact on affine limit states", "statement": "If the limit state is affine in standard-normal space, G(u) = b - a.u with a != 0, a full step from any starting point lands exactly on the design point (2 iterations) and the reported beta is b/||a||, the signed distance of the origin from the failure surface (negative when the origin fails). With the automatic step every run that converges has |beta - b/||a||| < e1 |G(u0)| / ||a||, and it converges from every start off the surface within K + 2 iterations for an explicit K; started from the origin the automatic step is exact as well (no iterate meets the stopping criterion before a full step has been accepted; at most 15 iterations). A limit state linear in (correlated) normal variables evaluated with forward differences is such an affine case, so beta is the second-moment index.", "quantifier": "every dimension, every affine function, every starting point", "why_tests_cant": "universally quantified", "anchors": ["src/pystra/form.py: Form.run, computeSearchDirection, computeBeta"]}
{"id": "C25", "title": "FORM fixed points are the stationary points", "statement": "The search direction vanishes exactly when the point is on the limit-state surface and parallel to the gradient (G = 0 and u = (alpha.u) alpha), i.e. the first-order conditions for the minimum-distance point.", "quantifier": "every dimension, point, value and non-zero gradient", "why_tests_cant": "universally quantified", "anchors": ["src/pystra/form.py: Form.computeSearchDirection"]}
{"id": "C26", "title": "Alpha dictionary labelling", "statement": "getAlpha(as_dict=True) assigns to each random variable its own alpha if and only if (for pairwise distinct alphas) no constant was added before a random variable; otherwise, as for every load-combination case with constants, variables get other variables' alphas, constants get alphas and the last variables are missing.", "quantifier": "every model history and alpha vector", "why_tests_cant": "histories of additions are unbounded", "anchors": ["src/pystra/form.py: Form.getAlpha", "src/pystra/model.py: StochasticModel.getNames", "src/pystra/loadcomb.py: LoadCombination.run_reliability_case"]}
{"id": "C27", "title": "FORM started on the limit-state surface", "statement": "If the limit state value at the starting point is 0, the scaled criterion is undefined (0/0) at every iteration, so run always goes to i_max iterations even if the start is already the design point.", "quantifier": "every limit state function with G(start) = 0", "why_tests_cant": "IEEE edge case for all functions", "anchors": ["src/pystra/form.py: Form.run (Go = G; e1 = |G * Go**(-1)|)"]}
{"id": "C28", "title": "Crude Monte Carlo estimator", "statement": "Crude Monte Carlo with unit sampling deviation around the origin reports Pf = (number of drawn points with G < 0)/k where k (1 <= k <= samples) is the number of points drawn, for every block size >= 1; hence 0 <= Pf <= 1, and Phi(-beta) = Pf when 0 < Pf < 1, beta = -infinity when Pf = 1. Points exactly on the surface (G = 0) count as safe. The run terminates for every block size >= 1 and loops forever for block size 0. With one random variable and equal numbers of draws the result does not depend on the block size; with two or more it does, because a block takes its random numbers row by row.", "quantifier": "every random stream, sample count, block size and limit state function", "why_tests_cant": "all random streams", "anchors": ["src/pystra/mc.py: CrudeMonteCarlo.run, computeResults, computeSumUpdate, computeFailureProbability"]}
{"id": "C29", "title": "Importance-sampling weights are likelihood ratios", "statement": "For any sampling centre and deviation s > 0, each failing point's weight equals the ratio of the standard normal joint density to the sampling density at that point, safe points get weight 0, and Pf is the average weight, so Pf >= 0; with centre 0 and s = 1 all weights are 1 and the estimate is the crude one.", "quantifier": "every dimension, centre, deviation and point", "why_tests_cant": "identity of densities for all reals", "anchors": ["src/pystra/mc.py: CrudeMonteCarlo.initializeVariables, computeSumUpdate, computeRandomNumbers"]}
{"id": "C30", "title": "Monte Carlo stopping rule", "statement": "In exact arithmetic (for double precision see C118): the run stops at the first block end whose recorded coefficient of variation is <= the target, or when all samples are used, never drawing more than the requested samples; the recorded value is sqrt((1-Pf)/(k Pf)) in the crude case, replaced by 1 when it is 0 or no failure has been seen, so a run in which all points fail (or none do) never stops early for a target below 1.", "quantifier": "every random stream, sample count, block size, target", "why_tests_cant": "all executions", "anchors": ["src/pystra/mc.py: CrudeMonteCarlo.run, computeCoefficientOfVariation"]}
{"id": "C31", "title": "Monte Carlo with no observed failure", "statement": "When no drawn point fails, CrudeMonteCarlo reports Pf = 0 together with beta = 0 (not +infinity), which is the index of probability 1/2; Line Sampling and Subset Simulation map Pf = 0 to +infinity.", "quantifier": "every run without failures", "why_tests_cant": "all executions", "anchors": ["src/pystra/mc.py: CrudeMonteCarlo.computeBeta", "src/pystra/ls.py: LineSampling.run", "src/pystra/ss.py: SubsetSimulation._finalise"]}
{"id": "C32", "title": "Monte Carlo sample records", "statement": "After the first run the recorded limit-state values (and approximate indices) are those of all drawn points in order of drawing; the flattened record u_all lists the blocks in order, each read row by row (variable by variable); the record x_all of physical inputs contains the physical points of the first block only, followed by standard-normal inputs for all later blocks. A second run on the same object appends to the first run's records. DistributionAnalysis on the other hand records every physical point and every limit-state value at its own index.", "quantifier": "every run and block count", "why_tests_cant": "all executions and sizes", "anchors": ["src/pystra/mc.py: CrudeMonteCarlo.run (x_all = np.append(self.x_all, self.u)); DistributionAnalysis.computeDataUpdate"]}
{"id": "C33", "title": "Output option is restored by importance sampling", "statement": "ImportanceSampling.run leaves the shared options' print flag as it was when the run completes, and leaves it switched off when the underlying run raises.", "quantifier": "every option state, every outcome of the inner run", "why_tests_cant": "exception paths", "anchors": ["src/pystra/mc.py: ImportanceSampling.run"]}
{"id": "C34", "title": "Subset simulation level invariants", "statement": "In every terminating run: every sample produced for a level satisfies g <= that level's threshold and carries its own g value; the recorded thresholds are non-increasing, positive except the last, which is exactly 0; there are as many thresholds as conditional probabilities, and n_levels is that number; Pf is the product of the conditional probabilities.", "quantifier": "every random stream, limit state function, p0, N and number of levels", "why_tests_cant": "every execution of an adaptive loop", "anchors": ["src/pystra/ss.py: SubsetSimulation.run, _mmh_step"]}
{"id": "C35", "title": "Subset simulation never reports zero", "statement": "For N >= 1 every conditional probability is positive - at least (floor(p0 (N-1)) + 1)/N - and at most 1, so Pf is in (0,1] and beta is never +infinity; there is always at least one seed.", "quantifier": "every random stream, limit state function, p0 in (0,1), N >= 1", "why_tests_cant": "every execution, percentile interpolation for every sample", "anchors": ["src/pystra/ss.py: SubsetSimulation.run (np.percentile, seed_mask), _finalise"]}
{"id": "C36", "title": "Subset simulation chain allocation", "statement": "Each conditional level produces exactly N samples from its N_s seeds, chains differing in length by at most one and all output slots written, with exactly one limit-state evaluation per sample; a run with L levels makes exactly L*N evaluations in total (beyond level 0's N included).", "quantifier": "every N and number of seeds", "why_tests_cant": "integer arithmetic for all N", "anchors": ["src/pystra/ss.py: SubsetSimulation._mmh_step, _eval_g_batch"]}
{"id": "C37", "title": "Subset simulation diverges on failure-free limit states", "statement": "If the limit state function is positive everywhere the run never terminates, whatever the random stream; in particular there is no level limit.", "quantifier": "every positive limit state function, every stream, every number of levels", "why_tests_cant": "non-termination is untestable", "anchors": ["src/pystra/ss.py: SubsetSimulation.run (while True)"]}
{"id": "C38", "title": "Metropolis kernel preserves the standard normal", "statement": "The component acceptance rule of subset simulation (accept xi from u iff log U < -(xi^2-u^2)/2) accepts with probability min(1, phi(xi)/phi(u)) and satisfies detailed balance phi(u) a(u,xi) = phi(xi) a(xi,u), with a symmetric proposal; hence the component step leaves the standard-normal density invariant: with the coordinate drawn from it and the two uniform numbers uniform on (0,1), every continuous function of bounded support has the same mean after the step as before, whatever the other coordinates are. A joint step never leaves the conditional region, and it is reversible: whenever it goes from u to u' there are uniform numbers with which it goes back from u' to u, obtained coordinate by coordinate by mirroring the proposal number and rescaling the acceptance number by the density ratio.", "quantifier": "every state, uniform draw, dimension, proposal width, threshold, limit state and test function", "why_tests_cant": "real-analytic identity", "anchors": ["src/pystra/ss.py: SubsetSimulation._mmh_step"]}
{"id": "C39", "title": "Line sampling geometry and estimator", "statement": "For unit alpha, each line's foot point is orthogonal to alpha, every point of a line projects to its parameter c, and Pf is the mean of Phi(-c_i), so 0 < Pf < 1; the reported c of every line lies in [-c_max, c_max] with c_max >= 15.", "quantifier": "every sample matrix, unit direction, limit state function", "why_tests_cant": "every stream and dimension", "anchors": ["src/pystra/ls.py: LineSampling.run, _find_line_intersection"]}
{"id": "C40", "title": "Line sampling bracket selection", "statement": "The bracket handed to the root finder is the first grid interval with a safe-to-failure crossing if one exists, else the first interval with any sign change, always between non-NaN values of opposite sign (so for a continuous g it contains a root); with no sign change the line counts as failed iff its first non-NaN value is negative, which is wrong when a NaN gap hides a crossing.", "quantifier": "every sequence of 40 scan values including NaNs", "why_tests_cant": "all sign/NaN patterns", "anchors": ["src/pystra/ls.py: LineSampling._find_line_intersection"]}
{"id": "C41", "title": "Nataf modified correlation structure", "statement": "For every model with n variables and an n x n correlation matrix, the modified matrix Ro is symmetric with unit diagonal, zero wherever the physical correlation's lower-triangle entry is zero (so uncorrelated variables give the identity), and depends only on the lower triangle of R; the solver is consulted exactly for non-zero entries. The two copies of the quadrature-size table agree for every rho.", "quantifier": "every n, every R, every solver behaviour", "why_tests_cant": "loops over all pairs for all n", "anchors": ["src/pystra/correlation.py: computeModifiedCorrelationMatrix", "src/pystra/sensitivity.py: SensitivityAnalysis._select_nIP"]}
{"id": "C42", "title": "Nataf integral derivative", "statement": "For |rho0| < 1, the density derivative used is the exact derivative of the bivariate normal density in rho0, hence drho_drho0 is the exact derivative of the discretised rho_integral with respect to rho0, for any grid, weights and marginals; rho_integral is the product quadrature rule on [-zmax, zmax]^2 (points and weights scaled by the interval) of z1 z2 phi2; it is symmetric under exchanging the two variables.", "quantifier": "every rho0 in (-1,1), every grid size, points, weights", "why_tests_cant": "derivative identity over reals and all grids", "anchors": ["src/pystra/integration.py: rho_integral, _phi2, _dphi2_drho0, drho_drho0"]}
{"id": "C43", "title": "Sensitivity of the modified correlation", "statement": "drho0_dtheta returns the implicit derivative: if rho0(theta) keeps the discretised Nataf integral constant while the marginal (quantile values, mean, stdv) varies differentiably with theta, then d rho0/d theta equals minus numerator over denominator as computed, whenever the denominator is non-zero.", "quantifier": "every grid and differentiable parameter family", "why_tests_cant": "implicit differentiation over reals", "anchors": ["src/pystra/integration.py: drho0_dtheta"]}
{"id": "C44", "title": "Quadrature rule symmetry", "statement": "quadratureRule(n) returns n points and n weights for every n >= 1; the points are antisymmetric and the weights symmetric about the centre for every n (the middle point of an odd rule is exactly 0, with the exact Gauss weight), so every odd integrand integrates to exactly 0; the 'centre := 0' branch is unreachable.", "quantifier": "every n >= 1", "why_tests_cant": "all n", "anchors": ["src/pystra/quadrature.py: quadratureRule"]}
{"id": "C45", "title": "Numerical sensitivities: bookkeeping", "statement": "run(numerical=True) returns one entry per random variable and sensitivity parameter, each equal to (beta1 - beta0)/delta for a FORM run on a model differing from the original only in that variable's distribution (same position in variables and marginals, same correlation, same constants); the caller's variables, marginals and correlation are unchanged. The analysis options given to the constructor are never used by these runs.", "quantifier": "every model, every parameter set", "why_tests_cant": "quantified over models; option independence is a relational property", "anchors": ["src/pystra/sensitivity.py: SensitivityAnalysis._numerical_sens"]}
{"id": "C46", "title": "Closed-form correlation sensitivities", "statement": "The returned correlation sensitivity matrix is symmetric with zero diagonal for every number of variables, and with the Cholesky transformation each off-diagonal entry is the derivative with respect to that physical correlation of beta = alpha' L0(rho)^{-1} z at fixed z. With the SVD transformation this fails: the code combines the derivative of the Cholesky factor with the SVD factor and reports a non-zero sensitivity where the true one is 0.", "quantifier": "every n", "why_tests_cant": "all dimensions", "anchors": ["src/pystra/sensitivity.py: SensitivityAnalysis._cf_sens"]}
{"id": "C47", "title": "Analytic CDF derivatives", "statement": "Normal.dF_dtheta and Lognormal.dF_dtheta return the exact partial derivatives of the CDF with respect to mean and standard deviation at every point of the support and all admissible parameters, for Lognormal also after any sequence of location/scale updates.", "quantifier": "every x, mean, stdv", "why_tests_cant": "derivative statement at every point", "anchors": ["src/pystra/distributions/normal.py: Normal.dF_dtheta", "src/pystra/distributions/lognormal.py: Lognormal.dF_dtheta, _update_params"]}
{"id": "C48", "title": "Moment parametrisation round trip", "statement": "Constructing Normal, Lognormal, ShiftedLognormal, Uniform, Gamma, ShiftedExponential, ShiftedRayleigh and GEVmax from (mean, stdv) yields a distribution whose mean and stdv are the given ones, and a Lognormal or Uniform given by its own parameters is reproduced by reconstructing it from its moments; Gumbel/TypeIlargest/TypeIsmallest are exact in stdv and off in the mean by (Euler's constant minus the ten-digit literal) times the scale; Weibull, TypeIIlargest and Beta are exact whenever the numerical solver returns a root. ChiSquare reports both moments multiplied by r = mean/(stdv^2/2), so it reproduces them iff mean = stdv^2/2, and prints its message iff r is outside [0.95,1.05], without raising.", "quantifier": "every admissible (mean, stdv)", "why_tests_cant": "identities over the reals", "anchors": ["src/pystra/distributions/*.py constructors", "src/pystra/distributions/distribution.py: Distribution._make_copy"]}
{"id": "C49", "title": "Zero-inflated distribution", "statement": "For p in [0,1) and a base distribution with continuous increasing cdf, the zero-inflated cdf is non-decreasing with values in [0,1], equal to (1-p)F + p on [0,inf) and (1-p)F below -zero_tol; ppf is non-decreasing, inverts cdf at every x of the base's support outside the open window (-zero_tol, 0) and never inside it when p > 0; cdf(ppf(t)) >= t for every t in (0,1), with equality whenever the returned quantile is outside the window and off the atom; mean and variance are the mixture's; the pdf is the derivative of the cdf plus p on (-zero_tol, zero_tol); construction raises exactly for p < 0 or p >= 1, but set_zero_probability accepts any p, and for p > 1 the cdf takes negative values. The Jacobian is the derivative of x_to_u outside that window and too large by p/phi(u) inside it.", "quantifier": "every base distribution, p, x, q", "why_tests_cant": "three-way case split over reals", "anchors": ["src/pystra/distributions/zeroinflated.py: ZeroInflated"]}
{"id": "C50", "title": "Maximum and parent distributions", "statement": "Maximum(parent,N).cdf is the parent's cdf to the power N and its pdf is the derivative of that cdf, likewise MaxParent's pdf; MaxParent(Maximum(d,N),N) and Maximum(MaxParent(d,N),N) have the cdf of d; both constructors raise exactly for N < 1; larger N gives a stochastically larger maximum and a smaller parent; and if the numerical minimiser finds the minimum of |cdf - p|, ppf, u_to_x, x_to_u and jacobian are mutually consistent.", "quantifier": "every parent distribution, N >= 1, x", "why_tests_cant": "real identities", "anchors": ["src/pystra/distributions/maximum.py: Maximum", "src/pystra/distributions/parent.py: MaxParent"]}
{"id": "C51", "title": "GEV for minima: cdf, ppf and u_to_x are not consistent", "statement": "For every GEVmin object, cdf is non-decreasing with values in [0,1], but ppf is decreasing with cdf(ppf(q)) = 1 - q, so it inverts cdf only at the median, and u_to_x returns values of the mirrored variable (cdf(-u_to_x(u)) = 1 - Phi(u)); for no shape, location and scale does u_to_x preserve probability levels. The reported mean exceeds the mean of the variable whose cdf is given by twice scale*(Gamma(1-shape)-1)/shape (twice scale*Euler's constant for shape 0).", "quantifier": "every underlying continuous distribution, q", "why_tests_cant": "identity for all q", "anchors": ["src/pystra/distributions/gev.py: GEVmin.cdf, ppf", "src/pystra/distributions/distribution.py: Distribution.u_to_x"]}
{"id": "C52", "title": "Location/scale updates and internal consistency", "statement": "After any sequence of set_location/set_scale calls, Normal is the distribution with the values last given, all methods agreeing; Lognormal's cdf, u_to_x, x_to_u and jacobian are those of the values last given but its ppf (used by sample) stays the original, so it agrees with the cdf iff the net change is nil; Uniform's cdf, ppf and moments follow the update but u_to_x keeps the original bounds, so probability levels are preserved iff the net change is nil; for every class that leaves the maps to the base class all methods follow and only the start point stays.", "quantifier": "every sequence of updates", "why_tests_cant": "histories of updates", "anchors": ["src/pystra/distributions/normal.py", "src/pystra/distributions/lognormal.py", "src/pystra/distributions/uniform.py", "src/pystra/distributions/distribution.py: set_location, set_scale"]}
{"id": "C53", "title": "Marginal maps", "statement": "For Normal, Lognormal, ShiftedLognormal, Uniform and every SciPy-backed distribution with continuous increasing cdf, u_to_x is increasing, x_to_u inverts it, P-levels are preserved (cdf(u_to_x(u)) = Phi(u)), and jacobian equals pdf(x)/phi(u), the derivative of x_to_u.", "quantifier": "every parameter and point", "why_tests_cant": "real identities", "anchors": ["src/pystra/distributions/distribution.py", "src/pystra/distributions/normal.py", "src/pystra/distributions/lognormal.py", "src/pystra/distributions/shiftedlognormal.py", "src/pystra/distributions/uniform.py"]}
{"id": "C54", "title": "Load-combination assembly", "statement": "Construction with a case dictionary succeeds iff every combination entry has 'max' and 'pit' distributions and all other objects are named; omitting the case dictionary always raises (TypeError when the rest is fine) although documented as optional. For every load case the assembled dictionary holds, under each label, by priority: the combination variable's 'max' distribution iff it is listed in the case and its 'pit' distribution otherwise, else the last 'other' object of that name, else the last resistance of that name; for disjoint labels its keys are the resistance, other and combination labels in that order. The model run for a case contains the constants first, then these, with keyword overrides replacing exactly the named entries (under the override object's own name); it is built iff all names are distinct. An unknown case name raises (KeyError without overrides); no name means the first case.", "quantifier": "every input dictionaries and case sets", "why_tests_cant": "arbitrary dictionaries", "anchors": ["src/pystra/loadcomb.py: LoadCombination.__init__, _create_dict_dist_comb, run_reliability_case"]}
{"id": "C55", "title": "Correlation re-indexing", "statement": "The correlation matrix given to a case's model has entry (i,j) equal to the user's entry for the i-th and j-th random variable names, whatever order the user's frame uses, so it is symmetric / unit-diagonal if the user's is; a name absent from the frame yields missing entries; repeated labels in the frame raise ValueError (unless already identical to the request).", "quantifier": "every label order", "why_tests_cant": "every permutation", "anchors": ["src/pystra/loadcomb.py: LoadCombination._get_corr_for_stochastic_model"]}
{"id": "C56", "title": "Keyword evaluation of the limit state", "statement": "eval_lsf_kwargs calls the function with exactly the known labels plus the given keywords: given keywords keep their value, missing random variables get set_value, missing constants get set_const or their own value; without constants it raises for every input.", "quantifier": "every label set and keyword set", "why_tests_cant": "arbitrary dictionaries", "anchors": ["src/pystra/loadcomb.py: LoadCombination.eval_lsf_kwargs"]}
{"id": "C57", "title": "Coefficient calibration identities", "statement": "For non-zero nominals, with distinct labels and only combination variables listed as leading, calc_pg_coeff succeeds and its factors reproduce the calibrated design point: nominal * phi = X* for every resistance and case, and nominal * gamma * psi = X* for every load and case whose determining design value is non-zero. The gamma of a variable that leads in some case is the same in all cases: its X*/nominal in the FIRST case that lists it, where psi = 1; static loads keep their own case's ratio and psi = 1. 'psi = 1 for every leading variable of every case' is false when two cases share a leading variable (witness).", "quantifier": "every design-point table", "why_tests_cant": "tables of all sizes", "anchors": ["src/pystra/calibration.py: Calibration.calc_pg_coeff, calc_Xst_nom, calc_phi, calc_gamma"]}
{"id": "C58", "title": "Matrix calibration satisfies the design equations", "statement": "For a limit state z*sum(a r) - sum(b s), one leading variable per case, the cases listed in the order of the combination variables, and nominals that do not change with the case, any solution psi returned by the linear solver makes the factored design equation of every load case exactly zero: z phi R - gamma static - gamma_i S_i - sum_{j != i} psi_j gamma_j S_j = 0. It fails when the cases are listed in another order (witness); calc_pg_matrix raises when the number of cases differs from the number of combination variables; run(est_method='matrix') always raises when the calibration variable is not called 'z'.", "quantifier": "every number of cases, every coefficient", "why_tests_cant": "all sizes", "anchors": ["src/pystra/calibration.py: Calibration.calc_pg_matrix, calc_epgS_mat, calc_phiRz_egS_vect, _get_psi_row_mat"]}
{"id": "C59", "title": "Envelope factors", "statement": "get_phi_min replaces every entry of a column by the column minimum; get_psi_max, on combination columns, sets the positional diagonal to 1 and every other entry of column j to the greatest of that column's off-diagonal entries (and of 0 when the column meets the diagonal, i.e. j < number of cases), and leaves other-load columns as they are; hence never below the individual psi when diagonal psi are at most 1.", "quantifier": "every table", "why_tests_cant": "all sizes", "anchors": ["src/pystra/calibration.py: Calibration.get_phi_min, get_psi_max"]}
{"id": "C60", "title": "Alpha-projection calibration loop", "statement": "The alpha-projection loop with max_iter >= 1 makes at most max_iter projections, and returns either a design with |beta - beta_t| <= abstol + 1e-5 |beta_t| or after exactly max_iter; each design parameter is the projection of the previous analysis and the returned analysis is the one at the returned parameter. max_iter = 0 does not bound the loop. The stored designs and the design-point table hold, per case in order, that pair (column 'z' overwritten by the parameter). When some case already meets the target at the declared constant, run() with the alpha method raises.", "quantifier": "every reliability function", "why_tests_cant": "every function, termination", "anchors": ["src/pystra/calibration.py: Calibration._calibration_alpha"]}
{"id": "C61", "title": "Design parameter from design points assumes a unit starting constant", "statement": "For the limit state z*R - sum of loads, calc_design_param_Xst returns |sum S|/|R| divided by the absolute value of the calibration constant's declared value; it is the z solving z R* = sum S* only if that declared value is 1 in magnitude.", "quantifier": "every design point and declared constant", "why_tests_cant": "identity for all reals", "anchors": ["src/pystra/calibration.py: Calibration.calc_design_param_Xst", "src/pystra/loadcomb.py: LoadCombination.eval_lsf_kwargs"]}
{"id": "C62", "title": "Generic code design", "statement": "The design parameter z computed for load ratios (aq, ag) is the unique solution of the code equation (factored resistance = factored load, i.e. the limit state at factored nominal values is zero); z is monotone in each load factor and inversely proportional to phi. After any sequence of setter calls, get() returns for each role the last value given to it. get_reliabilities stores at row i, column j the index of the design for (ag_i, aq_j), analysed with the model's own distributions. In the analysis a distribution's NAME, not its slot, decides its role in the limit state; if the six names are not exactly wR, R, wS, G, P, Q every evaluation raises TypeError (duplicates, reserved or non-distribution objects raise before FORM starts).", "quantifier": "every parameter set and grid", "why_tests_cant": "identities over the reals, all grid sizes", "anchors": ["src/pystra/calibration.py: GenericCalibration.design, lsf, get_reliabilities; GenericModel.get"]}
{"id": "C63", "title": "Calibration plotting protocol", "statement": "Through any history of setter, add_model, analyse and plot calls, plot succeeds iff a successful analyse happened after the last add_model (else ValueError); analyse raises iff there are no models or the evaluation of some model raises; after a successful analyse every model, in order, has the reliabilities of its current parameters. Setters called later, or a later analyse that raises, do not invalidate the flag: plot still succeeds with the stored (possibly outdated) results.", "quantifier": "every history", "why_tests_cant": "histories of calls", "anchors": ["src/pystra/calibration.py: GenericCalibration.add_model, analyse, plot"]}
{"id": "C64", "title": "results_valid flag", "statement": "For every analysis class and history of runs with any outcome, showResults raises 'Analysis not yet run' iff run was never called: the flag is set at the start of run, so after a run that raises (for instance SORM with an unknown fit type) it claims valid results although documented as 'True after a successful run()'; FORM's showResults then prints the last completed run's numbers, or fails with TypeError when there is none.", "quantifier": "every history of run calls with any outcome", "why_tests_cant": "histories and exception paths", "anchors": ["src/pystra/analysis.py: AnalysisObject", "src/pystra/form.py: Form.run, showResults", "src/pystra/sorm.py: Sorm.run"]}
{"id": "C65", "title": "Starting point", "statement": "Form's starting point is the standard-normal image of the vector of the marginals' start points (their mean unless given), so its physical image is exactly that vector.", "quantifier": "every model with bijective marginals", "why_tests_cant": "all dimensions", "anchors": ["src/pystra/form.py: Form.computeStartingPoint", "src/pystra/distributions/distribution.py: setStartPoint"]}
{"id": "C66", "title": "Standard normal distribution", "statement": "StdNormal.cdf is strictly increasing with values in (0,1), tends to 0 and 1, has derivative StdNormal.pdf and satisfies cdf(-u) = 1 - cdf(u); StdNormal.ppf is its inverse on (0,1), increasing, with -inf and +inf at 0 and 1, so every reliability index and probability conversion in the library is a bijection.", "quantifier": "every real argument and every probability in (0,1)", "why_tests_cant": "real-analytic statement (the Gaussian integral) over all reals", "anchors": ["src/pystra/distributions/distribution.py: StdNormal"]}
{"id": "C67", "title": "SORM gradient-based Hessian and curvatures are exact on quadratics", "statement": "If the limit state in standard space is quadratic, the finite-difference Hessian computeHessian() returns is exactly its Hessian for every nonzero step and every evaluation point; for a paraboloid beta - v_n + 1/2 sum kappa_i v_i^2 in any orthonormal frame v = R1 u the matrix whose eigenvalues become the principal curvatures is exactly diag(kappa).", "quantifier": "every dimension, every quadratic, every step and base point, every orthonormal frame", "why_tests_cant": "all dimensions and all coefficients", "anchors": ["src/pystra/sorm.py: Sorm.computeHessian, run_curvefit, orthonormal_matrix"]}
{"id": "C68", "title": "FORM function-call count", "statement": "After a FORM run that ends at iteration i (whether its results are defined or NaN), the number of limit state calls added to the model is i*(1+n) in 'ffd' mode (i in 'ddm' mode), plus 6*(i-1) when the step size is automatic.", "quantifier": "every run of every model and limit state", "why_tests_cant": "every number of iterations and variables", "anchors": ["src/pystra/form.py: Form.run, computeStepSize, getNoFunctionCalls", "src/pystra/model.py: LimitState.evaluate_lsf"]}
{"id": "C69", "title": "Boundary points are treated differently by the simulation methods", "statement": "A limit state that is exactly 0 at every drawn point gives Pf = 0 from crude Monte Carlo (G = 0 counts as safe) but Pf = 1 from subset simulation (G = 0 counts as failure), whatever the random streams and sizes.", "quantifier": "every random stream, sample count, block size, p0", "why_tests_cant": "ranges over all runs of two different adaptive loops", "anchors": ["src/pystra/mc.py: CrudeMonteCarlo.computeResults", "src/pystra/ss.py: SubsetSimulation.run"]}
{"id": "C70", "title": "Line sampling is exact for affine limit states", "statement": "If the limit state is affine in standard-normal space, g = s (beta - alpha.u) with s > 0 and unit alpha, and FORM supplied alpha and beta, then every line crosses at beta whatever the random numbers, so |beta_LS - beta| is at most the root finder's tolerance and Pf lies between Phi(-beta -+ tolerance).", "quantifier": "every dimension, direction, index, random stream and sample count", "why_tests_cant": "all streams and all affine functions", "anchors": ["src/pystra/ls.py: LineSampling.run, _find_line_intersection"]}
{"id": "C71", "title": "Line sampling hides failing limit states", "statement": "A limit state function that raises or returns NaN at every point of the scan is not reported: every line counts as safe and Pf = Phi(-max(3|beta_FORM|+5, 15)).", "quantifier": "every stream, direction, index, sample count", "why_tests_cant": "all runs", "anchors": ["src/pystra/ls.py: LineSampling._find_line_intersection (except Exception)"]}
{"id": "C72", "title": "Quadrature correction formulas", "statement": "For every n >= 1 the inner recursion evaluates the Legendre polynomials P_{n-1}, P_n, the four derivative expressions are the exact derivatives of P_n on (-1,1), the starting abscissas are strictly decreasing in [0,1), every exact root of P_n is a fixed point of the correction with weight 2/((1-x^2) P_n'(x)^2), the weight expansion is the fifth-order Taylor polynomial of (1-x^2)P_n', the n = 1 rule is ([0],[2]); but the predicted polynomial value is NOT the Taylor polynomial: the code has 25 where Davis-Rabinowitz has 0.25, an error of 33/8 h^4 P_n''''.", "quantifier": "all n >= 1, all abscissas in (-1,1), all steps h", "why_tests_cant": "A test can only compare finitely many n and rounds of Newton hide the wrong coefficient", "anchors": ["src/pystra/quadrature.py: quadratureRule"]}
{"id": "C73", "title": "Nataf integral: invariances", "statement": "The discretised Nataf integral depends on a marginal only through its standardised quantiles: an affine change of a variable leaves it unchanged, so for two normal variables it is a universal function of rho0 independent of means and standard deviations; if the second marginal is symmetric about its mean, the integral is odd in rho0 and exactly 0 at rho0 = 0 for every number of quadrature points.", "quantifier": "all marginals, correlations, truncation limits and quadrature sizes", "why_tests_cant": "Continuum of marginals and correlations", "anchors": ["src/pystra/integration.py: rho_integral", "src/pystra/integration.py: zi_and_xi", "src/pystra/quadrature.py: quadratureRule"]}
{"id": "C74", "title": "Closed-form marginal sensitivities", "statement": "run() with the Cholesky transformation returns, for variable k and parameter theta, the derivative at the current value of alpha' L(theta)^{-1} z(theta) at the fixed design point x*, where z_k = Phi^{-1}(F(theta, x*_k)) and L is the Cholesky factor of the modified correlation, whose entries move with theta through the discretised Nataf equation.", "quantifier": "every number of variables, every marginal family differentiable in the parameter, every correlation matrix", "why_tests_cant": "a derivative identity over all models", "anchors": ["src/pystra/sensitivity.py: SensitivityAnalysis._cf_sens, _compute_dR0_dtheta", "src/pystra/integration.py: drho0_dtheta"]}
{"id": "C75", "title": "ShiftedLognormal CDF sensitivities ignore the shift", "statement": "ShiftedLognormal.dF_dtheta (inherited from Lognormal) returns the exact derivatives of its cdf when lower = 0, but for every mean > 0, stdv > 0 and lower < mean with lower != 0 there is a point of the support where the returned derivative with respect to the standard deviation is not the derivative of the cdf.", "quantifier": "every mean, stdv, lower", "why_tests_cant": "the claim ranges over all shifts and points; tests compare a few values", "anchors": ["src/pystra/distributions/shiftedlognormal.py: ShiftedLognormal", "src/pystra/distributions/lognormal.py: Lognormal.dF_dtheta"]}
{"id": "C76", "title": "Envelope factors give a conservative design", "statement": "For coefficient-method factors, a limit state z*sum(a r) - sum(b s) with non-negative coefficients (some a positive), positive design points and nominals, and cases aligned with the combination variables, get_design_param_factor with min_phi and max_psi returns for every load case a design parameter at least load(X*)/(|declared z| resistance(X*)) of that case: the envelope never reduces a design.", "quantifier": "every design-point table, number of cases, coefficients", "why_tests_cant": "inequality over all tables and sizes", "anchors": ["src/pystra/calibration.py: Calibration.get_design_param_factor, calc_df_pgRS, get_psi_max, get_phi_min"]}
{"id": "C77", "title": "Plotted reliability region", "statement": "The region plotted for a model spans, at each live-load ratio, exactly the least and the greatest index over the dead-load ratios of the grid; the dotted line is the row of the LAST dead-load ratio of the grid, which is 'the smallest dead load ratio' of the documentation only if the grid ends with its smallest entry (refuted for an increasing grid).", "quantifier": "every table of indices and grid", "why_tests_cant": "all table sizes", "anchors": ["src/pystra/calibration.py: GenericCalibration.plot_region, plot, get_reliabilities"]}
{"id": "C78", "title": "SORM results with excessive curvature", "statement": "When a curvature is below -1/beta, the curve-fitting run stores the plain integers 0, which showResults cannot index: run('cf') itself raises TypeError when printing is enabled, and a later showResults raises TypeError otherwise; without excessive curvature run succeeds and showResults shows exactly the computed values. Point fitting always succeeds and shows, with zeros in the excessive case.", "quantifier": "every beta, curvature list, previous object state, print option", "why_tests_cant": "universally quantified over curvatures and states", "anchors": ["src/pystra/sorm.py: Sorm.run, run_curvefit, pf_breitung, showResults, _pf_breitung_pf"]}
{"id": "C79", "title": "Reported moments are true moments", "statement": "For every distribution class, the reported mean and stdv are the mean and standard deviation (as integrals) of the values sample() and u_to_x produce: true for every SciPy-backed class after any sequence of set_location/set_scale, whatever parameters or moments it was built from (the Gumbel classes assuming the values of Euler's integral constants), for Normal after any updates, for Lognormal and Uniform as constructed and for ZeroInflated including set_zero_probability. It fails for: Lognormal/ShiftedLognormal after an update (sample() keeps the old moments while u_to_x has the new), Uniform after an update (u_to_x keeps the old), GEVmin built from moments (neither agrees unless mean happens to be g).", "quantifier": "every class, parameters, moments, update sequence", "why_tests_cant": "statement about integrals over all of R for all parameters", "anchors": ["src/pystra/distributions/distribution.py: Distribution.sample, set_location, set_scale", "src/pystra/distributions/*.py: constructors, ppf, u_to_x"]}
{"id": "C80", "title": "Reported coefficients of variation", "statement": "After a finished subset simulation the reported coefficient of variation is non-negative and its square is the sum over levels of (1-p)/(N p) of the conditional probabilities p; a single-level run gives the crude Monte Carlo formula and it is zero only if Pf = 1. Line sampling always reports a finite non-negative value whose square is the sample variance of the line contributions divided by N Pf^2; it is zero exactly when all lines contribute equally.", "quantifier": "every limit state, random stream, number of samples, p0, level count", "why_tests_cant": "must hold for every run and number of levels", "anchors": ["src/pystra/ss.py: SubsetSimulation.run", "src/pystra/ls.py: LineSampling.run"]}
{"id": "C81", "title": "Finite-difference CDF sensitivities of the base Distribution class, and reconstruction of a distribution from its moments", "statement": "Distribution.dF_dtheta(x) (base class) returns, for each entry of sensitivity_params in order, the central difference quotient of cdf(x) between two copies of the object that differ in that parameter only, with step max(|value|*1e-6, stdv*1e-8); it raises ValueError when a copy without changes cannot be built or its cdf at mean+stdv/2 differs by more than 1e-6(1+|cdf|), and otherwise raises only what a constructor raises on a perturbed value. For a cdf smooth in the parameter the error is at most M h^2/6. ShiftedExponential, ShiftedRayleigh, Uniform (after any updates), Normal, Lognormal, ShiftedLognormal, GEVmax, GEVmin, Gamma, ChiSquare, Weibull, Type II and Beta copy themselves exactly (start point excepted), Gumbel types up to the rounding of the Euler constant; Weibull and Gamma after set_location and ShiftedLognormal after set_lower do not. Shape arguments left out of a constructor are a = 0, b = 1 (Beta) and epsilon = 0 (Weibull).", "quantifier": "every class named, all parameter values and update histories, all evaluation points", "why_tests_cant": "the identity must hold for every parameter value and update sequence; a test fixes a few", "anchors": ["src/pystra/distributions/distribution.py:Distribution.dF_dtheta", "src/pystra/distributions/distribution.py:Distribution._make_copy", "src/pystra/distributions/gev.py", "src/pystra/distributions/weibull.py"]}
{"id": "C82", "title": "Chi-square: reported CDF sensitivities are not those of the chi-square family", "statement": "For ChiSquare with nu degrees of freedom (mean nu, standard deviation s = sqrt(2 nu)), dF_dtheta reports difference quotients whose limiting values are 2 dF/dnu for the mean and -s dF/dnu for the standard deviation, while the rates of change along the family are dF/dnu and s dF/dnu. Finite-difference reliability sensitivities divide by the change the copy actually made and tend to the right rates, so the two sensitivity methods disagree by a factor 2 and by sign.", "quantifier": "all nu > 0, all points x, all differentiable cdfs and indices", "why_tests_cant": "a limit statement for every nu and x", "anchors": ["src/pystra/distributions/chisquare.py:ChiSquare.__init__", "src/pystra/distributions/distribution.py:Distribution.dF_dtheta", "src/pystra/sensitivity.py:SensitivityAnalysis._numerical_sens"]}
{"id": "C83", "title": "Sensitivities are unavailable for Maximum, MaxParent, ZeroInflated and ScipyDist variables", "statement": "_make_copy of a Maximum, MaxParent, ZeroInflated or ScipyDist object raises, with or without a parameter change; dF_dtheta raises ValueError at every point; SensitivityAnalysis with finite differences raises for every model that contains such a variable, wherever it stands.", "quantifier": "all such objects, all points, all models containing one", "why_tests_cant": "quantifies over every model and position of the variable", "anchors": ["src/pystra/distributions/maximum.py", "src/pystra/distributions/parent.py", "src/pystra/distributions/zeroinflated.py", "src/pystra/distributions/scipydist.py", "src/pystra/sensitivity.py:SensitivityAnalysis._numerical_sens"]}
{"id": "C84", "title": "FORM does not depend on the units of the limit state, with a fixed step size", "statement": "If every value of the limit state function (and the gradient it returns, in ddm mode) is multiplied by a constant l != 0, evaluate_lsf passes the same points to the function and returns the multiplied values and gradients in every differentiation mode, with the same exceptions. A FORM run with a fixed step size makes the same iterations and calls and ends at the same design point; beta, alpha and Pf are unchanged for l > 0 and become -beta, -alpha and 1 - Pf for l < 0. With the default automatic step size this is false: the penalty constant 10 makes iterates and result depend on the units.", "quantifier": "all limit state functions, factors l != 0, models, transformations, options with a non-zero step size, starting points; the failure of invariance is shown by one run", "why_tests_cant": "an equality of two runs for every function and factor", "anchors": ["src/pystra/form.py:Form.run", "src/pystra/form.py:Form.computeStepSize", "src/pystra/model.py:LimitState.evaluate_lsf"]}
{"id": "C85", "title": "Monte Carlo and importance sampling depend on the limit state only through its sign", "statement": "Two limit states that are negative at the same points (and raise alike) give runs with the same points, the same number of samples, Pf, beta, coefficient of variation and history, for crude Monte Carlo and importance sampling from any previous state of the object; in particular the units of the limit state do not matter.", "quantifier": "all pairs of limit states agreeing in sign, sampling densities, options, random streams, object histories", "why_tests_cant": "relates two whole runs for every stream", "anchors": ["src/pystra/mc.py:CrudeMonteCarlo.run", "src/pystra/mc.py:ImportanceSampling"]}
{"id": "C86", "title": "Subset simulation does not depend on the units of the limit state", "statement": "Multiplying the limit state by l > 0 leaves the points of every level, the conditional probabilities, Pf, beta, the coefficient of variation, the number of levels and of calls unchanged and multiplies the thresholds by l; exceptions and divergence are the same.", "quantifier": "all limit states, l > 0, models, p0, proposal widths, block sizes, random streams", "why_tests_cant": "relates two whole runs, level by level", "anchors": ["src/pystra/ss.py:SubsetSimulation.run"]}
{"id": "C87", "title": "SORM curve fitting is unit-invariant, point fitting is not", "statement": "Multiplying the limit state by l multiplies the Hessian by l and leaves the curvature matrix unchanged for l > 0 (opposite for l < 0). Point fitting stops when |G| < 10^-6 in absolute terms, before its first Newton step: if the units make |G| at the trial point smaller than that, the fitted curvature is 0 whatever the surface; with the tolerance scaled along (and l >= 1) the result is unchanged.", "quantifier": "all limit states, rotations, axes, reliability indices, factors", "why_tests_cant": "holds for every surface; the failure is shown on a parabola", "anchors": ["src/pystra/sorm.py:Sorm.run_curvefit", "src/pystra/sorm.py:Sorm._find_fitting_point", "src/pystra/sorm.py:Sorm.computeHessian"]}
{"id": "C88", "title": "Line sampling depends on the limit state only through its sign and its roots", "statement": "Given the direction and the starting index of FORM, two limit states with the same sign everywhere for which the root finder returns the same roots give the same parameters, contributions, Pf, beta and coefficient of variation; in particular for l > 0 with a scale-invariant root finder.", "quantifier": "all pairs of limit states, directions, random streams, root finders meeting the contract", "why_tests_cant": "relates two whole runs for every stream", "anchors": ["src/pystra/ls.py:LineSampling.run", "src/pystra/ls.py:LineSampling._find_line_intersection"]}
{"id": "C89", "title": "Moment derivatives of a parameter", "statement": "The moment derivatives of a distribution with respect to a named parameter are exactly (1, 0) for 'mean' and (0, 1) for 'std'; a name the distribution does not list raises KeyError; for any other parameter they are central differences over two copies, with step h = max(|value| 1e-6, 1e-10), whose error against the true derivatives is at most M h^2/6 when the third derivatives are bounded by M, and an exception of a copy's constructor is passed on. For the shape of GEVmin they are (0, 0), as they are for GEVmax at every shape at least 2e-8 away from zero (the copies are specified by their moments), and both raise ValueError exactly when the forward step reaches 1/2. At shape 0 GEVmax is wrong: the two copies fall inside the tolerance of the Gumbel test but keep the Gumbel location and scale, so the reported derivative of the mean is bounded below by a positive multiple of the scale although copying holds the mean fixed.", "quantifier": "every class, object, parameter name and value; for GEV every mean, standard deviation, shape and the genuine gamma function", "why_tests_cant": "Universal over objects and parameters, with an accuracy bound against derivatives; the failing case needs convexity of the gamma function.", "anchors": ["src/pystra/distributions/distribution.py:Distribution._dmoments_dtheta", "src/pystra/distributions/distribution.py:Distribution._make_copy", "src/pystra/distributions/gev.py:GEVmax", "src/pystra/distributions/gev.py:GEVmin"]}
{"id": "C90", "title": "FORM is independent of the factorisation", "statement": "A complete FORM run (from the registered starting point, with any limit state function, differentiation mode, fixed or automatic step, tolerances and iteration limit) gives the same outcome with the Cholesky and with the SVD transformation of the same correlation matrix: the same number of iterations and limit state calls, the same exception if one is raised, the same limit state values, beta and Pf, and the same physical design point; only the coordinates of u and alpha differ, by a rotation (their images under the factor agree).", "quantifier": "every positive definite correlation matrix, marginals, limit state function, options, iteration count; both transform types", "why_tests_cant": "Quantifies over whole iterations of arbitrary length for arbitrary functions; equality of exceptions and counters along all histories.", "anchors": ["src/pystra/form.py:Form.run", "src/pystra/transformation.py:Transformation.compute", "src/pystra/transformation.py:Transformation.jacobian"]}
{"id": "C91", "title": "FORM is independent of the order of the variables", "statement": "Registering the same random variables and constants in another order, with the correlation matrix permuted accordingly, and using the same limit state function of named arguments (forward differences or no gradient), a complete FORM run takes the same number of iterations and limit state calls and reports the same limit state values, beta and Pf; the design point and the importance vector (in the space of standardised variables) are the permuted ones, whichever transform types are used on either side.", "quantifier": "every number of variables, permutation, positive definite correlation matrix, marginals, point-wise limit state function, options, iteration count", "why_tests_cant": "Quantifies over all permutations and whole iterations; a test compares a few orders of one example.", "anchors": ["src/pystra/form.py:Form.run", "src/pystra/model.py:StochasticModel.addVariable", "src/pystra/model.py:LimitState.evaluate_lsf", "src/pystra/transformation.py:Transformation"]}
{"id": "C92", "title": "A whole FORM analysis gives the exact reliability index for linear functions of normal variables", "statement": "Form(stochastic_model, limit_state, options).run() on any model built through addVariable / setCorrelation whose random variables are Normal and whose limit state returns c0 + sum c_i x_i: the run completes and (with step size 1) getBeta() = (c0 + sum c_i mu_i) / sqrt(variance of the margin) and getFailure() = Phi(-beta) exactly, after two iterations and 2(1+n) limit-state evaluations (unless the mean is already a failure boundary); with every option at its default (automatic step) beta is exactly that value too, after at most 15 iterations if the mean of the margin is not zero. The variance uses the modified correlation matrix found by the numerical solver; for variables without correlations it is sum (c_i sigma_i)^2. A run is the preparation followed by the iteration; it changes the model only in the stored modified correlation and the call counter. A run that cannot be prepared (no variables, correlation of the wrong size, factorisation failure) raises without evaluating the limit state, and keeps the previous results while flagging them valid.", "quantifier": "all registration histories, numbers of variables, means, non-zero standard deviations, coefficients, correlation matrices, transform types and linear-algebra back-ends meeting their contracts", "why_tests_cant": "tests try single problems with a fixed tolerance; the exact value must hold for every size, coefficient and correlation and through all stages of the analysis", "anchors": ["src/pystra/form.py: Form.run", "src/pystra/analysis.py: AnalysisObject.init_run, AnalysisOptions", "src/pystra/correlation.py: setModifiedCorrelationMatrix", "src/pystra/transformation.py: Transformation.compute", "src/pystra/model.py: LimitState.evaluate_lsf", "src/pystra/model.py: StochasticModel"]}
{"id": "C93", "title": "Analyses on one model do not influence each other, except through the reported number of calls", "statement": "The outcome of Form.run() (completion, iterations, beta, Pf, design point, or exception) depends only on the registered variables, constants, correlation, limit state, options and transform type: not on how many analyses ran before on the same model, on a modified correlation stored there, or on previous runs of the same Form object; repeating a run k times gives k equal outcomes. The model's counter grows by the same amount each time, and the number of function calls the analysis reports is that cumulative counter: the second of two identical analyses reports 12 calls for the 6 it made.", "quantifier": "all models, limit states, options, fuel and numbers of repetitions, after any earlier analyses", "why_tests_cant": "histories of analyses on a shared mutable model are unbounded; tests build a fresh model per analysis", "anchors": ["src/pystra/form.py: Form.run, showResults, getNoFunctionCalls", "src/pystra/analysis.py: AnalysisObject.init_run", "src/pystra/model.py: StochasticModel.addCallFunction"]}
{"id": "C94", "title": "Monte Carlo estimates of related limit states are consistent on the same random numbers", "statement": "Crude Monte Carlo and importance sampling runs with the same options, sampling centre and random stream that use equally many samples draw the same points. Hence a limit state that is negative wherever another one is gets at least its failure probability (and at most its reliability index); the estimates for min(g1,g2) and max(g1,g2) add up exactly to those for g1 and g2, so max(Pf1,Pf2) <= Pf(series) <= Pf1+Pf2 and Pf(parallel) <= min(Pf1,Pf2); and for crude sampling with no point exactly on the boundary Pf(g)+Pf(-g)=1 and the index changes sign. When runs stop early at a target coefficient of variation the order can be reversed (a dominated limit state reporting 1/2 against 1/3).", "quantifier": "all streams, options, numbers of variables, limit states and earlier runs of the objects", "why_tests_cant": "needs every stream and every pair of limit states; tests use one seed", "anchors": ["src/pystra/mc.py: CrudeMonteCarlo.run, ImportanceSampling.run, computeRandomNumbers, computeSumUpdate, computeFailureProbability, computeBeta"]}
{"id": "C95", "title": "Reliability results do not depend on the units of the random variables", "statement": "Expressing every random variable in other units (x becomes a*x+b with a>0 per variable: moments, start point and bounds converted, the limit state function rewritten accordingly, correlation unchanged) leaves Form unchanged: same transformation matrices, iterations, beta, Pf, alpha, calls and exceptions, and the converted design point; Monte Carlo and subset simulation on the same random numbers are unchanged too. Normal, Uniform, ShiftedExponential, ShiftedRayleigh, Gumbel/TypeILargest, TypeISmallest and GEVmax follow any conversion of their moments; Lognormal, Gamma and TypeII a change of scale; ShiftedLognormal and Weibull if the bound is converted. It fails for ChiSquare (only the ratio of the moments is used, so converted moments give the unconverted law) and ZeroInflated (absolute tolerance 1e-6 around zero).", "quantifier": "all numbers of variables, changes of units, correlation matrices, point-wise limit state functions, transform types, step rules, options with forward-difference or no gradients, random streams", "why_tests_cant": "an invariance between two runs over all models, units and limit states; a test compares one pair", "anchors": ["src/pystra/form.py:Form.run", "src/pystra/correlation.py:computeModifiedCorrelationMatrix", "src/pystra/transformation.py:Transformation.jacobian", "src/pystra/model.py:LimitState.evaluate_ffd", "src/pystra/distributions/chisquare.py:ChiSquare", "src/pystra/distributions/zeroinflated.py:ZeroInflated"]}
{"id": "C96", "title": "Closed-form sensitivities of a linear function of normal variables are the exact derivatives of beta", "statement": "Calling the closed-form sensitivity analysis on a limit state that is linear in (possibly correlated) Normal variables returns, for either transform type and full or automatic FORM steps (the defaults included), as 'mean' and 'std' entries exactly the derivatives of beta = mean/standard deviation of the margin with respect to each mean and standard deviation (as long as the design point is not so far out that the code's 1e-300 density threshold switches the term off); with the Cholesky transform the correlation entries times the discretised d rho/d rho0 are exactly the derivatives with respect to the modified correlations.", "quantifier": "all numbers of variables, means, standard deviations, coefficients, correlation matrices whose modified matrix is positive definite, both transform types (correlation entries: Cholesky only), all option values with step 1 or the defaults", "why_tests_cant": "A test compares a few numbers with finite differences within a tolerance; exactness for all means, deviations and correlations is a statement about the whole composition of the FORM iteration, the factorisation, the Cholesky differentiation and the quadrature.", "anchors": ["src/pystra/sensitivity.py:SensitivityAnalysis._cf_sens", "src/pystra/sensitivity.py:SensitivityAnalysis._compute_dR0_dtheta", "src/pystra/cholesky_sensitivity.py:cholesky_with_derivative", "src/pystra/cholesky_sensitivity.py:dinvL0_dtheta", "src/pystra/integration.py:drho0_dtheta", "src/pystra/distributions/normal.py:Normal.dF_dtheta"]}
{"id": "C97", "title": "Numerical sensitivities are difference quotients of fresh default-option FORM analyses", "statement": "SensitivityAnalysis(...).run(numerical=True, delta) leaves the user's model unchanged up to its stored modified correlation matrix and its call counter, and every entry it returns is (beta1 - beta0)/(theta1 - theta0), where beta0 is what a fresh Form built without analysis options reports on the model and beta1 what such a Form reports on the model rebuilt from the same history with that one variable replaced by its perturbed copy; the options given to SensitivityAnalysis play no part. For a limit state linear in Normal variables (any correlation with a positive definite modified matrix, any delta other than 0 and -1) the run succeeds, every 'mean' entry is exactly the derivative c_k/sqrt(variance) of the closed-form index whatever delta, every 'std' entry is exactly the forward quotient of the closed-form index with increment delta*sigma_k, and the 'std' entries tend to the derivative as delta tends to 0.", "quantifier": "every model history, every limit state, every options object and delta; for the exact values every number of Normal variables, every mean, non-zero standard deviation, coefficient vector not 0, correlation matrix", "why_tests_cant": "A test compares a few entries with a tolerance; that no entry depends on the options, on the order of the perturbations or on an earlier perturbed run holds for all models and parameter lists only by induction over the loop", "anchors": ["src/pystra/sensitivity.py:SensitivityAnalysis._numerical_sens", "src/pystra/distributions/distribution.py:Distribution._make_copy", "src/pystra/form.py:Form.run"]}
{"id": "C98", "title": "SORM on a limit state linear in normal variables agrees with FORM, except where it cannot", "statement": "Run Sorm on a limit state that is linear in n >= 2 correlated Normal variables (default options, any registration history). Unless |alpha[-1]| <= 1e-8: run('cf') finds n-1 zero curvatures and, for beta >= 0, stores for Breitung's and for the Hohenbichler-Rackwitz formula exactly FORM's Phi(-beta) and beta, with (1+n)^2 more counted calls; for beta < 0 the Breitung attributes are the integer 0, so printing the results raises TypeError, while the Hohenbichler-Rackwitz values are still FORM's; run('pf') stores FORM's values (and zero curvatures on both sides of every axis) for every beta != 0 with 2(n-1)(1+n) more calls, and raises RuntimeError for beta = 0. If alpha[-1] = 0 both raise ValueError; with the Cholesky transform alpha[-1] is proportional to the coefficient of the variable registered last, so a limit state that does not involve that variable can never be analysed by SORM.", "quantifier": "all n >= 2, all means, deviations, correlations (positive definite modified matrix), coefficients, registration histories, both transforms, both fits, any earlier state of the Sorm object", "why_tests_cant": "the values must hold for every linear limit state, and the failures depend on which variable was registered last, which a test with one order does not see", "anchors": ["src/pystra/sorm.py:Sorm.run", "src/pystra/sorm.py:Sorm.run_curvefit", "src/pystra/sorm.py:Sorm.run_pointfit", "src/pystra/sorm.py:Sorm.computeHessian", "src/pystra/sorm.py:Sorm.orthonormal_matrix"]}
{"id": "C99", "title": "SORM recovers the curvatures of a paraboloid", "statement": "Take a limit state c0 + cf.x + 1/2 (x-mu)^T Q (x-mu) in n >= 2 correlated Normal variables whose gradient the user supplies (differentiation mode 'ddm'), with Q Sigma cf = 0 (Sigma the covariance: the surface is a paraboloid around the design direction). Then FORM finds beta = mean/stdv of the linear part exactly, and, if |alpha[-1]| > 1e-8: for beta > 0 Sorm.run('cf') stores, in ascending order, exactly the n-1 principal curvatures of the limit state surface at the design point with their multiplicities (H v_k = kappa_k |grad| v_k for orthonormal directions v_k orthogonal to alpha, H the Hessian in standard normal space), with 1+n more calls, and, where the formulas are defined, Breitung's Phi(-beta) prod (1 + beta kappa)^(-1/2) and the same with psi(beta), and the indices belonging to them; for beta != 0 (and |grad| >= 1e-12) Sorm.run('pf') stores on both sides of each axis the normal curvature in that axis of an orthonormal frame orthogonal to alpha - which need not be a principal direction - or 0 when the limit state value at the trial point, half the Hessian form times max(1, min(|beta|, 3))^2, is below 1e-6 in absolute value, however the limit state is scaled; with at most 4(n-1) more calls.", "quantifier": "all n >= 2, all such quadratic limit states, correlations, means, deviations, both transforms, any eigenvalue routine that returns the eigenvalues of symmetric matrices, any earlier state of the Sorm object, any step-size option that is 0 or 1", "why_tests_cant": "a test compares one example with a tabulated number; the claim is an identity over all quadratic forms, including ones with several curvatures of either sign", "anchors": ["src/pystra/sorm.py:Sorm.run_curvefit", "src/pystra/sorm.py:Sorm.run_pointfit", "src/pystra/sorm.py:Sorm._find_fitting_point", "src/pystra/sorm.py:Sorm.computeHessian", "src/pystra/model.py:LimitState.evaluate_ddm"]}
{"id": "C100", "title": "A whole line sampling analysis: exact on linear functions of normal variables, wrong on a changed model or a flat limit state", "statement": "LineSampling(...).run() prepares the model, makes a FORM analysis with the same options if it has none yet, keeps that Form object, and then samples; a run leaves the model as it was except for the stored modified correlation and the call counter. For c0 + sum c_i x_i in correlated Normal variables the run completes and, whatever the random numbers, |getBeta() - mean/stdv of the margin| is at most the root finder's tolerance and Pf lies in between the corresponding probabilities; each line costs 40 evaluations plus those of the root finder; a second run on the same object makes no new FORM analysis. That also holds when the model has changed in between: if a variable was added, every evaluation fails on a size mismatch, the exceptions are swallowed, and the run reports Pf = Phi(-max(3|beta_FORM|+5, 15)) without an error (a first run after adding a variable raises ValueError instead). If FORM ends in NaN (for example for any constant limit state, safe or failing), the run reports Pf = NaN together with beta = -inf.", "quantifier": "all numbers of variables, coefficients, means, deviations, correlations, both transforms, all random numbers and sample sizes, every root finder within its tolerance, every history of the model before", "why_tests_cant": "a test runs one seed; that the estimate is exact for every seed, and what happens on re-use after a change, are statements about all draws and histories", "anchors": ["src/pystra/ls.py:LineSampling.run", "src/pystra/ls.py:LineSampling.__init__", "src/pystra/ls.py:LineSampling._find_line_intersection", "src/pystra/ls.py:LineSampling._eval_g_at_c", "src/pystra/form.py:Form.run"]}
{"id": "C101", "title": "Crude Monte Carlo and importance sampling as whole analyses on a model object", "statement": "CrudeMonteCarlo(...).run() and ImportanceSampling(...).run(), from the constructors on, evaluate the limit state of the registered variables exactly once per drawn point and change nothing else of the stochastic model. The points are the random numbers, taken block by block and row by row, scaled by the simulation deviation and shifted to the sampling centre (the origin, or FORM's design point). For any variables, correlation and pointwise limit state, and on a model with any history of analyses, the run ends, Pf is the mean over these points of the likelihood ratio of the failing ones, and beta is -ppf(Pf) (0 when nothing failed, NaN when Pf exceeds 1). For a linear function of normal variables crude Monte Carlo returns the fraction of points with alpha.u > beta for FORM's alpha and beta; importance sampling with unit deviation samples around beta*alpha, gives every failing point the weight exp(beta^2/2 - beta alpha.u), and so for beta >= 0 never reports more than exp(-beta^2/2), whatever the random numbers. The code fails in three ways: for beta < 0 importance sampling can report Pf > 1 with beta = NaN; for a constant limit state (safe or failing) FORM's NaN becomes the centre and Pf = 0, beta = 0 is reported without an error; and an object built before a variable was added raises in run while Pf and beta of an earlier run stay readable on an object that counts as run.", "quantifier": "all variables, correlations, pointwise limit states, random streams, sample counts, block sizes, targets and model histories; all linear problems of normal variables for the FORM part", "why_tests_cant": "Tests fix one seed, one block size and one limit state; the claims range over every stream of random numbers and every history of the model object, and the upper bound is about all of them.", "anchors": ["src/pystra/mc.py CrudeMonteCarlo.run", "src/pystra/mc.py ImportanceSampling.__init__", "src/pystra/mc.py ImportanceSampling.run", "src/pystra/mc.py MonteCarlo.computeRandomNumbers", "src/pystra/mc.py MonteCarlo.computeSumUpdate", "src/pystra/analysis.py AnalysisObject.init_run"]}
{"id": "C102", "title": "Subset simulation as a whole analysis on a model object", "statement": "SubsetSimulation(...).run(), from the constructor on, evaluates the limit state of the variables the stochastic model has at the time of the run (also of variables added after the object was built, where CrudeMonteCarlo raises) and changes nothing of the model except the count of evaluations and the modified correlation matrix. For any variables, correlation and pointwise limit state, on a model with any history, a finished run has gone through levels of exactly N samples each, the first drawn from the prior, each threshold the p0-quantile of its level and positive except the last, which is 0, every later sample at or below the threshold before; Pf is the product of the observed fractions, lies in (0, 1], cov^2 is the sum of (1-p)/(N p), and exactly N evaluations were counted per level. For a linear function of normal variables the levels are nested half-spaces along FORM's alpha, and the last fraction is that of the samples with alpha.u >= beta for FORM's beta. A constant limit state <= 0 (0 included) gives Pf = 1, beta = -inf, cov = 0; with a positive constant the run never ends. A run that raises empties the thresholds and conditional probabilities of an earlier run but keeps its Pf, beta, cov and n_levels. A number of samples below 1 is refused only after the thresholds and conditional probabilities of the previous run were cleared, while its probability and index stay; a failing preparation clears nothing.", "quantifier": "all variables, correlations, pointwise limit states, random streams, sample counts, p0, proposal widths, block sizes and model histories; all linear problems of normal variables for the half-space part", "why_tests_cant": "Tests fix one seed and one limit state; the level structure, the cost and the non-termination are about every stream of random numbers, every number of levels and every history of the model object.", "anchors": ["src/pystra/ss.py SubsetSimulation.__init__", "src/pystra/ss.py SubsetSimulation.run", "src/pystra/ss.py SubsetSimulation._eval_g_batch", "src/pystra/analysis.py AnalysisObject.init_run"]}
{"id": "C103", "title": "SORM with a FORM result obtained in another standard normal space", "statement": "Sorm(form=f) accepts a Form object whose transformation type differs from the one in Sorm's own options and does not convert between the two standard normal spaces. For a limit state linear in any number of correlated normal variables both spaces give the same beta. Curve fitting is unaffected: zero curvatures and the FORM probability (beta >= 0). Point fitting measures the plane of its own space in coordinates built from the other space's alpha: with c the cosine between the two alphas, d_i that between Sorm's alpha and fitting axis i and |t| = max(1, min(|beta|, 3)), it reports the curvatures 2(beta(1-c) -+ t d_i)/(c t^2), whose average 2 beta (1-c)/(c t^2) is zero only if the alphas agree, with no error or warning. The result can be a probability of exactly 0 with an index of 0 for a problem with beta = 3.74.", "quantifier": "all numbers n >= 2 of normal variables, means, deviations, correlations and linear limit states; all pairs of transformation types; trial points not within 1e-6 of the limit state", "why_tests_cant": "The claim is a closed formula for every linear problem and both transformation types; a test shows one wrong number for one problem at best.", "anchors": ["src/pystra/sorm.py Sorm.__init__", "src/pystra/sorm.py Sorm.run_pointfit", "src/pystra/sorm.py Sorm._find_fitting_point", "src/pystra/sorm.py Sorm.run_curvefit", "src/pystra/analysis.py AnalysisObject.init_run"]}
{"id": "C104", "title": "FORM on limit states linear in the logarithms of lognormal variables", "statement": "For a limit state c0 + sum of cf_i ln X_i over lognormal and cf_i X_i over normal variables, with the user's own gradient (differentiation mode 'ddm'), any correlation with positive definite modified matrix Ro and either transformation type, a Form run with full steps reports exactly beta = mean/sd of the margin, where ln X_i has mean ln m_i - ln(1+V_i^2)/2 and deviation sqrt(ln(1+V_i^2)); the failure probability is Phi(-beta), the physical design point has ln x_i (or x_i) equal to mean_i - sd_i beta (sum_k Ro_ik cf_k sd_k)/sd, and the run costs two limit state calls unless the means lie on the limit state. With every other step rule a run that stops before the iteration limit has an error below e1 |g(means)| / sd, and automatic steps do stop given enough iterations. For two independent lognormals and g = ln R - ln S this is the textbook formula ln((mR/mS) sqrt((1+VS^2)/(1+VR^2))) / sqrt(ln((1+VR^2)(1+VS^2))).", "quantifier": "all numbers of variables, all mixes of normal and lognormal, all moments, coefficients, correlations, both transformation types, all step sizes and tolerances", "why_tests_cant": "The accuracy holds for all parameters and dimensions; tests compare a handful of numbers to a few digits.", "anchors": ["src/pystra/form.py Form.run", "src/pystra/transformation.py Transformation.jacobian", "src/pystra/distributions/lognormal.py Lognormal", "src/pystra/model.py LimitState.evaluate_ddm"]}
{"id": "C105", "title": "A load case is analysed as the model built by hand from that case", "statement": "For a load combination whose construction succeeds with distinct labels, run_reliability_case(name, **kwargs) returns exactly the FORM analysis (same options) of the stochastic model one would build by hand: constants, resistances, other variables and combination variables added in that order, each combination variable taken from its 'max' entry if it is leading in the case and from 'pit' otherwise, each object replaced by a keyword argument of its label, and the correlation read from the user's frame by name; if the resulting objects do not have distinct valid names it raises instead. A keyword that is no label of the load combination changes nothing and is not reported. For a limit state linear in its named arguments and normal variables the index of each case is (c0 + sum of coefficient times constant + sum of coefficient times mean) / sd, with the means and deviations of that case and the variance from the coefficients, deviations and modified correlation, and Pf = Phi(-beta). A random variable of the case that the given correlation frame does not mention is not taken as uncorrelated: the correlation matrix of the analysis then contains NaN.", "quantifier": "all sets of combination, resistance, other and constant objects, cases, keyword overrides, correlation frames, options and limit state functions; all linear coefficients, means and deviations", "why_tests_cant": "The result depends on label bookkeeping across several dictionaries and a pandas reindexing, for arbitrary sets of names and overrides; tests check one or two cases.", "anchors": ["src/pystra/loadcomb.py LoadCombination.run_reliability_case", "src/pystra/form.py Form.run", "src/pystra/model.py StochasticModel"]}
{"id": "C106", "title": "The result of a sensitivity analysis and its table; the two methods agree", "statement": "SensitivityAnalysis.summary(run(...)) lists every sensitivity parameter of every random variable exactly once, variables in the order of the model and parameters in the order of sensitivity_params, each with the number run stored for it, for both methods and any names - except that a finite-difference result of a model with a variable named 'marginal' cannot be tabulated: summary raises AttributeError (or returns an empty table if that variable has no parameters). On limit states linear in (correlated) normal variables the two methods agree: the 'mean' entries are equal for every delta, and the 'std' entries differ by as little as wanted for delta small enough, although the finite-difference method ignores the analysis options and the closed form uses them.", "quantifier": "all models, names, parameter sets, limit state functions, options and deltas for the table; all linear normal problems with positive definite modified correlation for the agreement", "why_tests_cant": "Holds for every naming of variables and every linear problem; a test compares the methods at one delta with a tolerance and never names a variable 'marginal'.", "anchors": ["src/pystra/sensitivity.py SensitivityAnalysis.run", "src/pystra/sensitivity.py SensitivityAnalysis.summary", "src/pystra/sensitivity.py SensitivityAnalysis._numerical_sens", "src/pystra/sensitivity.py SensitivityAnalysis._cf_sens"]}
{"id": "C107", "title": "DistributionAnalysis records the images of all simulated points; its figures", "statement": "A DistributionAnalysis.run() with a positive block size ends on any object and model history and records, at its own position and nowhere else, the physical image of each of the n_samples simulated points and the limit state value (arguments bound by name) at that image; the points are the next random numbers, block by block and row by row, times the simulation standard deviation; the call counter grows by the number of samples, and earlier runs leave no trace. The records follow the model's distributions only for simulation standard deviation 1: for normal variables they are those of variables with every standard deviation multiplied by that option, while the reference densities drawn over the histograms are the model's. showResults draws one figure per random variable with that variable's record and density and one for the limit state values; the titles name the right variables if and only if no constant was added to the model before a random variable. The object's number of variables counts the random variables registered at construction and not the constants; nothing can be shown before a run; without a bins option the number of bins is the smallest integer not below four times the fourth root of the number of samples. With another random generator a first run raises TypeError, yet the object then counts as having valid results, all zeros.", "quantifier": "all models, limit state functions, correlations, sample counts, block sizes, random streams and histories", "why_tests_cant": "The bookkeeping holds for every block size, history and order of registration; tests look at one run and never at the titles.", "anchors": ["src/pystra/mc.py DistributionAnalysis.run", "src/pystra/mc.py DistributionAnalysis.computeDataUpdate", "src/pystra/mc.py DistributionAnalysis.showResults", "src/pystra/model.py StochasticModel.getNames"]}
{"id": "C108", "title": "Calibration by alpha projection is Newton's method and converges from the unsafe side", "statement": "For a load case of normal variables (independent or correlated) and a limit state that is cvar times a linear resistance minus a linear load, with cvar declared as a Constant of value 1: every FORM analysis a Calibration runs at a trial design has the exact reliability index of that design and a design point on its limit state; the next trial design is the absolute value of the Newton step for 'mean of the margin minus target index times its standard deviation', and a ZeroDivisionError is raised where that function has zero slope. If a design meets the target exactly where the index is still increasing, and the first projected design does not exceed it (in particular if the declared value 1 does not), then all later trial designs increase towards it without passing it, so a calibrated case that needed at least one projection never exceeds its target index; the distance shrinks at least geometrically, and for any tolerance some number of iterations suffices. The root-finding method, given a solver that returns a root, meets the target exactly, at the same design. The factors of the coefficient method computed from the design points close the design equation of each case at its calibrated design.", "quantifier": "all linear normal load cases, correlation matrices, targets, tolerances, iteration limits and load combinations", "why_tests_cant": "Convergence of an iteration over whole reliability analyses for every problem and tolerance is not a finite check; tests calibrate two or three examples and compare digits.", "anchors": ["src/pystra/calibration.py Calibration._calibration_alpha", "src/pystra/calibration.py Calibration._calibration_optimize", "src/pystra/calibration.py Calibration.calc_design_param_Xst", "src/pystra/loadcomb.py LoadCombination.run_reliability_case", "src/pystra/form.py Form.run"]}
{"id": "C109", "title": "The calibrated code reaches the target in every load case", "statement": "For load cases of normal variables and a limit state that is cvar times a linear resistance minus a linear load: calc_beta_design_param(z) reports for every case the exact reliability index of its margin at the design z. If coefficients and means are not negative and no resistance is positively correlated with a load, no case's index falls when the design parameter grows. Consequently, when run() has calibrated all cases, each combination variable leads in exactly the case at its position, and nominal and design-point values are positive, a design parameter at least as large as all those returned by get_design_param_factor() (envelope factors of the coefficient method) gives every case at least the index it was calibrated to: the target itself with the root-finding method and a solver that returns roots. With load and resistance positively correlated, a larger design parameter can lower the index.", "quantifier": "all linear normal load cases with the stated signs, all correlation matrices, targets, nominal values and calibration methods", "why_tests_cant": "It quantifies over all calibration problems and all designs, and composes the FORM runs, the calibration loop, the factor tables and the envelope; tests compare the digits of one or two worked examples.", "anchors": ["src/pystra/calibration.py Calibration.calc_beta_design_param", "src/pystra/calibration.py Calibration.get_design_param_factor", "src/pystra/calibration.py Calibration.run", "src/pystra/calibration.py Calibration.calc_pg_coeff"]}
{"id": "C110", "title": "Distributions built on other distributions share them", "statement": "Maximum, MaxParent and ZeroInflated objects, stacked in any way on plain distributions by any history of constructor, set_location, set_scale, set_exponent, set_zero_probability, update_stats and setStartPoint calls: at any time an object's cdf and pdf are those of its constructions applied to the plain distribution at its bottom as that one is now. set_location/set_scale on any object never raises and changes the bottom distribution, hence the cdf of every object built on it and of no other; the bottom distribution is what the updates that reached it made of it in order, so a Normal or SciPy-backed one has the location and scale last given to any object on top of it (a Lognormal the mean and standard deviation). The constructors accept exactly N >= 1 and 0 <= p < 1 and use the given start point or else the reported mean; set_exponent, set_zero_probability, update_stats and setStartPoint change the object they are called on and no other, and no value is refused. Reported moments are renewed exactly for the object called and those below it: they remain those of the present distribution as long as nothing below an object is changed without going through it, and are stale otherwise (ZeroInflated(Normal(10,2), 1/2) reports mean 5 after a sibling's set_location(20), when its mean is 10). Start points never follow an update. The moments of Maximum and MaxParent are a new random sample's at every update: setting the location an object already has changes its reported mean.", "quantifier": "all histories of calls, all towers of constructions and sharing patterns, all plain distributions, random streams and minimisers", "why_tests_cant": "Quantifies over all histories and all sharing graphs of objects; tests build one object on one base.", "anchors": ["src/pystra/distributions/maximum.py Maximum.set_location, set_scale, update_stats, _get_stats, cdf, pdf", "src/pystra/distributions/parent.py MaxParent.set_location, set_scale, set_exponent, _update_stats", "src/pystra/distributions/zeroinflated.py ZeroInflated.set_location, set_scale, set_zero_probability, _update_stats", "src/pystra/distributions/distribution.py Distribution.setStartPoint"]}
{"id": "C111", "title": "Expected value and variance of the Monte Carlo estimates", "statement": "Over independent standard normal random numbers, when a run cannot stop early (target coefficient of variation at most 0, or no more samples than one block), the probability reported by CrudeMonteCarlo or ImportanceSampling, for any sampling centre and positive deviation, has the failure probability (the integral of the joint standard normal density over the failing points) as its expected value; its variance is (m2 - v^2)/N, m2 being the integral of joint density squared over sampling density on the failing points; crude Monte Carlo has v(1-v)/N. On a linear function of (correlated) normal variables the expected value is Phi(-beta) with FORM's beta for both; the variance is Phi(-beta)Phi(beta)/N for crude and (exp(beta^2)Phi(-2beta) - Phi(-beta)^2)/N for importance sampling at FORM's design point: smaller by at least the factor exp(-beta^2/2) for beta >= 0, but larger than crude for every beta < 0. With the default stopping rule the estimate is biased: with one variable, blocks of one, three samples and target 3/4 its expected value is p + p(1-p)(1-2p)/3.", "quantifier": "all limit states, dimensions, sampling centres, deviations, sample counts and block sizes, object histories and stream positions; the expectation ranges over all streams", "why_tests_cant": "Expected values over all random streams and all limit states; a test sees one stream.", "anchors": ["src/pystra/mc.py MonteCarlo.computeRandomNumbers, computeSumUpdate, computeCoefficientOfVariation, computeFailureProbability, CrudeMonteCarlo.run, ImportanceSampling.run"]}
{"id": "C112", "title": "FORM's probability and the probability of failure", "statement": "When FORM stops at a point u with function value G and a gradient that is the true slope of the limit state there, its probability Phi(-beta), corrected by shift = G/|gradient| (the signed distance from u to the tangent plane, smaller than e1 |G0|/|gradient| when the run ended by convergence), bounds the failure probability (integral of the joint standard normal density over the failing points): a limit state convex in standard normal space has failure probability at most Phi(-(beta + shift)), a concave one at least that. When G is exactly 0 a convex failure domain suffices for failure probability <= FORM's, a convex safe domain for >=. For Normal variables (any correlation whose transformed matrix is positive definite), a limit state returning its own gradient (differentiation 'ddm') and convex or concave in the physical variables, these bounds hold of the probability the FORM object reports, the failing points being those of the physical values. For a linear function of Normal variables FORM's reported probability is exactly the failure probability.", "quantifier": "all limit states (convex, concave, or with convex failing/safe set), dimensions, correlation matrices, options and step sizes, starting points", "why_tests_cant": "The failure probability is an integral over all points; a test can compare with sampling only up to noise, and only on particular functions.", "anchors": ["src/pystra/form.py Form.run, computeAlpha, computeBeta, getFailure", "src/pystra/model.py: LimitState.evaluate_lsf", "src/pystra/transformation.py Transformation.u_to_x"]}
{"id": "C113", "title": "Line sampling and the transform option", "statement": "LineSampling fixes the transformation of its lines at construction, but its own FORM analysis, made at the first run, takes the transform option as it is then. On a linear function of (correlated) Normal variables the direction is then FORM's normal in one standard normal space and the lines are drawn in another: with kappa the cosine between that direction and the limit state's normal in the space of the lines, every line that meets the surface inside the scanned range contributes Phi(-c), c the parameter of the intersection (up to the root finder's tolerance). For kappa > 0 the line fails beyond c, so the contribution is the failure probability of the line; for kappa < 0 it fails before c, so it is the survival probability. So changing options.setTransform between construction and run is not harmless: with R ~ N(100, 20), beta = 5, correlated (-1/2) with an unused variable, 'svd' at construction and the default at run, every stream of random numbers between -5 and 5 gives Pf >= Phi(1) instead of Phi(-5).", "quantifier": "all dimensions, linear limit states, correlation matrices, factorisations meeting their contracts, sample counts and random streams", "why_tests_cant": "Depends on the two factorisations, the random stream and the history of the shared options object; a unit test runs an analysis right after constructing it.", "anchors": ["src/pystra/ls.py LineSampling.__init__, run, _find_line_intersection", "src/pystra/analysis.py AnalysisObject.__init__, AnalysisOptions.setTransform"]}
{"id": "C114", "title": "Sessions of several analyses on shared objects", "statement": "A script may create models, limit states, options and analyses (FORM, crude Monte Carlo, importance sampling, subset simulation, line sampling, distribution analysis), share them by reference in any way, change them, and run the analyses any number of times in any order. (1) No interference: deleting from the script every run of the other analyses (which share the model, limit state and options, and may end by an exception) changes neither how a run of analysis a ends nor the object it leaves, with all its results; only the model's call counter, its stored Ro and the print flag can differ. (2) An options object always holds, for each option, the last value the script gave it after its creation, else the default; the print flag too if there is no importance sampling analysis; a run of importance sampling leaves the print flag as it was if it ends or is stopped by its initialisation, and off if it raises later. (3) A model's variables, constants and correlation are those its own calls gave it; a limit state has the last expression set. (4) An analysis keeps its class, references and transformation type for ever; the type comes from the transform option at the time of construction; an analysis without options gets an options object of its own. (5) A run anywhere in a session ends exactly as on a model object on which only the registering calls were made, with the option values (each used for its own purpose) and expression current at that time; for FORM also independently of everything that object did before.", "quantifier": "all scripts of any length over any number of objects, all option values, user functions, random streams and results of the numerical libraries", "why_tests_cant": "A statement about every interleaving of commands on shared mutable objects; unit tests run one analysis on fresh objects.", "anchors": ["src/pystra/analysis.py AnalysisObject.__init__, init_run, AnalysisOptions", "src/pystra/form.py Form.run", "src/pystra/mc.py CrudeMonteCarlo, ImportanceSampling, DistributionAnalysis", "src/pystra/ss.py SubsetSimulation", "src/pystra/ls.py LineSampling", "src/pystra/model.py StochasticModel, LimitState"]}
{"id": "C115", "title": "Breitung's formulas and the probability beyond the fitted paraboloid", "statement": "SORM replaces the limit state surface by a paraboloid: distance beta along the design direction, one curvature per other axis (curve fit), or one per half axis (point fit). The probability p that independent standard normal variables fall beyond it exists and is unique for all curvatures. (1) The modified formula (Hohenbichler-Rackwitz) never underestimates: whenever no curvature is rejected, p <= Pf, for every beta of either sign, any number of axes, curve fit and point fit. (2) It is close: p >= Pf (1 - ((sum r)^2 + 2 sum r^2)/8) with r = kappa/(1 + psi kappa). (3) For beta > 0 and curvatures >= 0: p <= modified Pf <= Breitung's Pf, and Breitung's Pf exceeds p by at most a fraction m(m+6)/(8 beta^2) of itself, m being the number of curvatures, whatever their size. (4) Breitung's own formula is not on the safe side for surfaces bent towards the origin: for every beta > 0 there is an admissible negative curvature for which it reports, without any message, less than p. (5) A whole SORM run on b - S + k/2 R^2, with R and S independent standard normal, reports curvature k and a modified Pf that satisfies (1) and (2) for the probability of failure of the problem as posed.", "quantifier": "all beta, all numbers and values of curvatures (on both half axes), all admissible k and b > 0 for the run", "why_tests_cant": "An inequality between a closed formula and an n-dimensional integral over an infinite domain, for all dimensions and curvatures.", "anchors": ["src/pystra/sorm.py Sorm.pf_breitung, pf_breitung_m, _pf_breitung_m_pf, run_curvefit"]}
{"id": "C116", "title": "What a Form object answers after its runs, completed or not", "statement": "For every history of one Form object (variables and constants registered, correlations set, the limit state function or options replaced, runs tried and their exceptions caught): getBeta, getFailure and showResults report the last run that completed, next to the model's current call counter, however many runs failed since; without a completed run getFailure is None, getBeta raises TypeError, and showResults says 'not yet run' (ValueError) only until a run was tried, TypeError afterwards. As long as no run was tried after a completed one, the answers belong together: alpha is a unit vector, beta = alpha.u, Pf = Phi(-beta), the physical design point is the image of u under that run's transformation, and row i of showDetailedOutput is the i-th registered variable with its own coordinates, constants listed apart; constants or a correlation set later change none of it. Where this fails: after a further variable is registered getDesignPoint(uspace=False) and showDetailedOutput raise IndexError; and after a run that raised, beta, Pf and alpha are from the completed run but the design point is from the failed one (its starting point if the first evaluation raised), with results marked valid.", "quantifier": "all histories, models, limit state functions (raising or not), options, transform types, and all behaviours of the linear algebra and root finding routines", "why_tests_cant": "Ranges over histories with runs failing at any point; the tests read results once after one successful run.", "anchors": ["src/pystra/form.py Form.__init__, run, showResults, showDetailedOutput, getBeta, getFailure, getDesignPoint, getAlpha", "src/pystra/transformation.py Transformation.u_to_x"]}
{"id": "C117", "title": "What LineSampling estimates: the failure probability when every line crosses the limit state once", "statement": "Fix a finite limit state in n standard normal coordinates, the unit direction alpha of the FORM result, and a root finder with tolerance eps. If along every line parallel to alpha the limit state is continuous and either passes once from safe to failed, or is safe everywhere, or failed everywhere, then the expected value over the random numbers of the probability that LineSampling.run() reports, for every number of lines, differs by at most eps/sqrt(2 pi) + Phi(-15) from the probability of failure of a standard normal point (a point with independent standard normal part across and along alpha: every linear combination of its coordinates has the law it has for independent standard normal coordinates). With an exact root finder and all crossings inside the scanned range the estimate is unbiased. The expected value does not depend on the number N of lines, the variance is that of one line divided by N, and the variance for one line is at most e(1-e), e the expected value: never more than crude Monte Carlo with N samples. Where this fails: lines that cross twice. For 4 - u^2 in one variable, where FORM finds the index 2, every run reports Phi(-2) up to the tolerance, half of the probability of failure.", "quantifier": "all limit states of the stated kind in any dimension, all directions of unit length, indices of FORM, numbers of lines, root finders with the stated accuracy, and the distribution of the random numbers; the failing case for all random numbers and numbers of lines", "why_tests_cant": "An expected value over all streams of random numbers; a test sees one stream, and its tolerance hides a bias.", "anchors": ["src/pystra/ls.py LineSampling.run, _find_line_intersection, _eval_g_at_c"]}
{"id": "C118", "title": "Crude Monte Carlo in double precision", "statement": "CrudeMonteCarlo counts exactly (whole numbers up to 2^53) and computes the probability and its coefficient of variation in doubles. (1) After k samples of which s >= 1, at most half, failed, the reported probability differs from s/k by at most 4 units of rounding (2^-53, relative) and the coefficient of variation from its exact value by at most 20, whatever faithful pow the C library provides. (2) Hence a run whose exact coefficient of variation never comes within 20 units of the target stops after the same number of samples as in exact arithmetic. (3) For all counts the reported probability lies in [0, 1], is 0 only when no sample failed and grows with the number of failures, and the coefficient of variation is a positive number, never NaN. (4) When all samples failed: either 1 and coefficient 1 (as in exact arithmetic) or 1 - 2^-53 and a coefficient below 2^-25, depending on whether k times the rounded 1/k rounds to 1. With the second, the run stops early: with the default 100000 samples, blocks of 1000 and target 0.05, a limit state that always fails is stopped after 11000 samples with probability 1 - 2^-53 and a finite reliability index, where exact arithmetic uses all samples and reports 1 and -inf.", "quantifier": "all sample counts up to 2^53, all failure counts, all sequences of failures, block sizes, targets, and all power functions with the stated accuracy", "why_tests_cant": "For all counts and roundings; a test compares a few runs with a tolerance, and the early stop appears only for particular sample counts.", "anchors": ["src/pystra/mc.py CrudeMonteCarlo.computeCoefficientOfVariation, run, computeBeta"]}
{"id": "C119", "title": "Accuracy of the Gauss points and weights", "statement": "Let r in (-1,1) be a root of the Legendre polynomial P_n, n >= 1 (all such roots are simple). One pass of the correction turns an abscissa with error t = x - r into one with error -33/8 P_n''''(r)/P_n'(r) t^4 up to terms of order t^5 (order five with the coefficient of Davis and Rabinowitz, see C72). quadratureRule makes two passes but adds the last correction twice: with x1, x2 the abscissas after the passes it returns -(2 x2 - x1). Hence the returned point has the error of ONE pass: it is -r - 33/8 P_n''''/P_n' t^4 up to order t^5, t the error of the starting abscissa, and the weight is the exact one times 1 + 2 r c/(1 - r^2) t^4, c = -33/8 P_n''''/P_n', up to order t^5. For the four-point rule no bound of fifth order holds.", "quantifier": "all n >= 1, all roots, all starting abscissas near a root", "why_tests_cant": "Asymptotic statement for all n; with double rounding the differences (about 1e-12) disappear in the tolerances of a test.", "anchors": ["src/pystra/quadrature.py: quadratureRule"]}
{"id": "C120", "title": "Cell-wise evaluation of the limit state in calibration", "statement": "Calibration.calc_lsf_eval_df(df, ret_abs=True) returns a new frame with the columns and the number of rows of df (which is not changed). The cell of column col and value x becomes |g| (g with ret_abs=False), g the value of the limit state function when col has the value x, z has the value 1 unless the column is z itself, constants have their own values and every other variable is 0. It raises iff some cell does, with the error of the first such cell in column order. The name z is fixed in the method: if the limit state function has no parameter z, every table with a cell raises.", "quantifier": "all load combinations, limit state functions and frames with distinct column names and no missing cells", "why_tests_cant": "The argument dictionary and the order of evaluation must be right for every table and every limit state function.", "anchors": ["src/pystra/calibration.py: Calibration.calc_lsf_eval_df", "src/pystra/loadcomb.py: LoadCombination.eval_lsf_kwargs"]}
{"id": "C121", "title": "Which correlation arrays are shared", "statement": "setCorrelation(C) copies: until the model's matrix is replaced (a distribution is added, setCorrelation, model.correlation = A) or the array that getCorrelation() returns is itself written to or wrapped in a CorrelationMatrix, the model keeps the numbers C held at the call, whatever is written to C, to the array C was made from, to other arrays and to other models. Everything else shares: CorrelationMatrix(A) keeps A itself, C[i,j] = v writes A[i,j], model.correlation = A stores A itself and getCorrelation() returns the live array; a write to A is seen by exactly the wrappers of A and the models whose matrix is A. Adding a distribution puts a fresh identity matrix in the model and changes no array. So a write to an array assigned by model.correlation = A changes the analyses of that model.", "quantifier": "all histories of creating arrays, wrappers and models, adding variables, assigning and writing", "why_tests_cant": "Aliasing shows only in particular histories; the copy must hold for all of them.", "anchors": ["src/pystra/correlation.py: CorrelationMatrix", "src/pystra/model.py: StochasticModel.setCorrelation, getCorrelation, correlation, addVariable"]}
{"id": "C122", "title": "The quadrature rule is the Gauss-Legendre rule", "statement": "The Legendre polynomial P_n has exactly n roots, all different and in (-1,1). With these roots as abscissas the points and weights that quadratureRule's formulas give integrate every polynomial of degree at most 2n-1 over [-1,1] exactly; the weights are positive and add up to 2; the degree is the best possible (P_n squared has integral 2/(2n+1) and the rule gives 0). From starting abscissas near the roots the returned points and weights integrate such a polynomial with an error bounded by a constant times the sum of the fourth powers of the starting errors.", "quantifier": "all n >= 1, all polynomials of degree at most 2n-1, all starting abscissas in a neighbourhood of the roots", "why_tests_cant": "Exactness for all polynomials and all n is an infinite family of identities between irrational numbers.", "anchors": ["src/pystra/quadrature.py: quadratureRule"]}
{"id": "C123", "title": "Accuracy of the forward-difference gradient", "statement": "With differentiation mode ffd the derivative reported for variable j differs from the true partial derivative at the point by at most M/2 times the step stdv_j/ffdpara, M a bound on the second partial derivative in that variable between the point and the step; the order cannot be improved: on a limit state a + b t + c t^2 along the variable the reported derivative is b + c times the step.", "quantifier": "all models, limit state functions twice differentiable along the step, points, block sizes and step parameters", "why_tests_cant": "An error bound for all functions with a bounded second derivative.", "anchors": ["src/pystra/model.py: LimitState.evaluate_ffd"]}
{"id": "C124", "title": "FORM with full steps on a limit state of one direction is Newton's method", "statement": "Let the limit state in standard space be phi(a.u), a a unit vector. With step_size = 1 Form.run from the origin computes Newton's iterates t_0 = 0, t_{k+1} = t_k - phi(t_k)/phi'(t_k) (as long as phi' does not vanish there), stops at the first k with |phi(t_k)| < e1 |phi(0)| or k+1 = i_max, and reports the point t_k a and beta = t_k if phi'(t_k) < 0, else -t_k. If phi is convex and decreasing up to its root ts with slopes between -M and -m, the run ends by its criterion within k+1 iterations as soon as (1 - m/M)^k < e1, never overshoots (beta <= ts, a conservative probability) and is at most e1 phi(0)/m below ts. Convergence is not guaranteed for smooth limit states: for phi(t) = t^3 - 2t + 2, whose failure domain is t < c with 1.7 < -c < 1.8, the iterates are 0, 1, 0, 1, ... and after 100 iterations the reported index is -1 (probability Phi(1) = 0.84 instead of 0.04) with results marked valid.", "quantifier": "all dimensions, directions, differentiable functions of one direction, tolerances and iteration limits, with the fixed step size 1", "why_tests_cant": "Convergence and its rate quantify over all limit states and iteration counts; the cycle needs an exact argument for all iterations.", "anchors": ["src/pystra/form.py: Form.run, computeAlpha, computeSearchDirection, getStepSize"]}
{"id": "C125", "title": "The attribute gamma of Form", "statement": "The matrix gamma kept by Form is the diagonal matrix of |dx_i/dz_i| at the last point, z the correlated standard normal variables: the standard deviations of the equivalent normal variables, the same for the Cholesky and the eigenvalue factorisation. The matrix J J^T it is taken from has the entries Ro_ij (dx_i/dz_i)(dx_j/dz_j). For normal variables gamma is the diagonal matrix of their standard deviations, at every point and for every correlation.", "quantifier": "all numbers of variables, marginals, correlations, factorisations and points where the marginal maps have a non-zero derivative", "why_tests_cant": "An identity of matrices for all dimensions, correlations and marginals.", "anchors": ["src/pystra/form.py: Form.computeGamma", "src/pystra/transformation.py: Transformation.jacobian"]}
{"id": "C126", "title": "Calibration.run: the factor tables it sets", "statement": "run(est_method, set_max) uses the method of the call, otherwise that of the constructor ('matrix' by default); any other name than 'coeff' and 'matrix' runs the calibration and sets no factors, without an error. With 'coeff', phi times the nominal value is the design value of every resistance and psi*gamma times the nominal value that of every load; gamma is that of the first case led by the load, where psi is 1. For both methods set_max=True raises exactly when set_max=False does, leaves gamma as it is, gives every entry of a phi column the least entry of the column, keeps the psi columns of the permanent loads, and in the column of the j-th combination load writes 1 for the j-th case and for the others the greatest entry of the cases other than the j-th (at least 0). get_design_param_factor(min_phi, max_psi) applies each envelope to its own table only: with both flags (the default) after run(set_max=False) it returns what it returns without flags after run(set_max=True).", "quantifier": "all load combinations with distinct labels, designs, nominal values, method names and root finders", "why_tests_cant": "The tables are determined for all numbers of cases and variables and all design points.", "anchors": ["src/pystra/calibration.py: Calibration.run, _estimate_factors_coeff, _estimate_factors_matrix, get_psi_max, get_phi_min"]}
{"id": "C127", "title": "FORM with full steps on functions of one log-linear combination", "statement": "If the limit state is a smooth function psi(L) of one combination L that is linear in ln X of lognormal variables and in X of normal variables (correlated in any way), and Form is run with step_size = 1 and the user's gradient, the run is exactly Newton's method for psi(y) = 0 started at the value of L at the means: it ends at the first iterate at the iteration limit or with |psi| < e1 |psi_0|, uses one call per iteration, and reports (E L - y_k)/sd L with the sign of psi'. For G = kappa (e^L - 1) - a product of powers of lognormal variables against a limit - the error of the reported index has one sign only: the index is below the exact one for kappa > 0 and above it (unconservative) for kappa < 0. With the means on the side L > 0 a run with the default tolerance ends within 2 y_0 + 5 iterations with error below e1 (e^{y_0} - 1)/sd L. With the means on the side L < 0 the first step overshoots to e^{-y_0} + y_0 - 1 and every later step comes back by less than 1, so the default 100 iterations need not suffice: for G = 1 - X Y e^-6 with independent X, Y ~ LN(1, 1) the run is reported as a completed one with an index more than 140 above the exact 5.68.", "quantifier": "All numbers of variables, lognormal or normal marginals, correlations, functions psi with non-vanishing derivative at the iterates, tolerances, iteration limits, decompositions, starting means", "why_tests_cant": "Tests run a few limit states from a few means; the property describes the whole iteration for a class of functions and shows for which side of the means it fails.", "anchors": ["src/pystra/form.py: Form.run, Form.computeLimitState, Form.getSearchDirection, Form.getBeta", "src/pystra/transformation.py: Transformation", "src/pystra/distributions/lognormal.py: Lognormal", "src/pystra/model.py: LimitState"]}
{"id": "C128", "title": "Point fitting never reports a larger probability than curve fitting, and can miss curvature altogether", "statement": "On a limit state that is quadratic in correlated normal variables with the quadratic part in the tangent plane (the setting of C99), fit_type=\"pf\" and fit_type=\"cf\" applied to the same FORM result need not agree, although both are exact fits: point fitting takes the curvatures along the axes the Gram-Schmidt procedure happens to produce, curve fitting the principal ones. If point fitting reports no zero curvature, the two lists have the same sum, and wherever the formula is defined for the curve fit it is defined for the point fit, and the probability point fitting reports (Breitung's and the modified one) is not above the curve fit's: rotating the axes can only hide curvature. In the extreme case it hides all of it: for G = 3 - T + R S/5 with independent standard normal variables point fitting reports two zero curvatures and FORM's own Phi(-3), curve fitting -1/5 and 1/5 and 5/4 Phi(-3).", "quantifier": "All quadratic limit states of C99 (numbers of variables, correlations, Hessians), positive reliability indices, decompositions, step rules", "why_tests_cant": "Tests compare the two fits on one or two examples, where they agree to plotting accuracy; the inequality and its direction are statements about all Hessians and all frames.", "anchors": ["src/pystra/sorm.py: Sorm.run, Sorm.run_pointfit, Sorm.run_curvefit, Sorm.orthonormal_matrix, Sorm.pf_breitung, Sorm.pf_breitung_m"]}
{"id": "C129", "title": "SORM's curve fit does not depend on the order of the variables or on the decomposition; the point fit does", "statement": "Set up the same quadratic limit state in correlated normal variables (the setting of C99) twice: with the variables registered in another order, with transform=\"cholesky\" or \"svd\", with any admissible step rule and iteration options. Where both runs can build their rotation (last component of alpha not near zero, C98), fit_type=\"cf\" reports the same list of curvatures, and the same probabilities, both times, although the Hessians, the design points and the rotation matrices differ. fit_type=\"pf\" does not have this property: for G = 3 - T + R S/5 in independent standard normal variables it reports Phi(-3) with the Cholesky decomposition, and 5/4 Phi(-3) with an SVD of the same (identity) correlation matrix.", "quantifier": "All quadratic limit states of C99, all permutations of the variables, both decompositions, all routines meeting the contracts of numpy.linalg", "why_tests_cant": "Tests run one order and one decomposition; independence is a statement about pairs of runs, and the eigenvalues only agree because the principal curvatures, with multiplicities, are unique.", "anchors": ["src/pystra/sorm.py: Sorm.run, Sorm.run_curvefit, Sorm.run_pointfit, Sorm.orthonormal_matrix", "src/pystra/transformation.py: Transformation.compute, Transformation._computeSVD, Transformation._computeCholesky", "src/pystra/analysis.py: AnalysisOptions"]}
{"id": "C130", "title": "SORM's curve fit takes the eigenvalues of an unsymmetric forward-difference matrix", "statement": "For a limit state function of normal variables with a user gradient that is constant along the line FORM follows from the mean (a function that is curved in any way elsewhere), FORM finds the design point and Sorm.run(\"cf\") evaluates the gradient at it and at the n points moved by d = 1/ffdpara along each axis, and takes the eigenvalues of the rotated matrix of the differences divided by d and by the gradient norm. Each entry of the difference matrix is within M d/2 of the second derivative of the limit state function, where M bounds the third derivative on the way, and the matrix is within M d of its transpose, but it is not symmetric. With two variables the reported curvature is within M d/|grad G| of the curvature of the limit state surface at the design point. With three variables it fails: for G = 3 - T + (R^2 + S^2)/10 + R S (R - S) in independent standard normal variables, whose two principal curvatures at the design point are both 1/5, the matrix has no real eigenvalue (they are 1/5 +- i/1000), so curve fitting cannot report real curvatures.", "quantifier": "All numbers of variables, all normal marginals and positive definite correlations, all limit state functions with a constant gradient on the line through the mean, both decompositions, all admissible FORM options and all positive ffdpara", "why_tests_cant": "A test compares one curvature with a tolerance; the bound is for all functions and all ffdpara, and whether eigenvalues are real depends on an asymmetry of the size of the step, which a tolerance hides.", "anchors": ["src/pystra/sorm.py: Sorm.run_curvefit, Sorm.computeHessian, Sorm.evaluateLSF", "src/pystra/form.py: Form.run, Form.getDesignPoint", "src/pystra/analysis.py: AnalysisOptions"]}
{"id": "C131", "title": "What a Sorm object answers after its runs, completed or not", "statement": "For every history of runs of one Sorm object, each with any fit type and any outcome: a run ends as it would on a new object, and if its fit is completed showResults prints what it would print there. fit_type is the argument of the last run whose initialisation succeeded, also if it was unknown or the fit raised; the probabilities, generalised indices and kappa are those of the last completed fit (plain zeros for a curve fit with excessive curvature and before the first fit); kappa_pf is that of the last completed point fit, although documented as None for curve-fitting. Hence after a point fit, a curve fit and a point fit that raises, showResults prints, labelled point-fitting, the numbers of the curve fit next to the curvatures of the first point fit. showDetailedOutput prints the results of the last completed fit with the Form object's numbers and rows; it raises TypeError when there is none or when that was a curve fit with a curvature below -1/beta or below -1/psi, psi = phi(beta)/Phi(-beta). The second bound is the stricter one, so for every beta > 0 there are curvatures with which run (printing or not) and showResults succeed and showDetailedOutput raises TypeError.", "quantifier": "All histories of runs of one Sorm object with all fit types, print options and outcomes (among them all sessions in which limit state, options, Form object and model change between the runs), all states of the Form object", "why_tests_cant": "A test runs one fit on a fresh object; what is left over from earlier fits depends on the whole history, including runs that raise.", "anchors": ["src/pystra/sorm.py: Sorm.__init__, Sorm.run, Sorm.run_curvefit, Sorm.run_pointfit, Sorm.showResults, Sorm.showDetailedOutput, Sorm.pf_breitung, Sorm.pf_breitung_m", "src/pystra/analysis.py: AnalysisObject"]}
{"id": "C132", "title": "FORM with a fixed step size: iterations needed, and how far the reported index is off", "statement": "Let the limit state be affine in standard normal space, G(u) = b - a.u, and the step_size option a fixed t other than 0. With q = 1 - t, u1 = b a/||a||^2 the design point and beta1 = b/||a|| the exact index, the k-th next iterate of Form.run is u1 + q^k (u0 - u1); the run ends at the first k with k+1 = i_max, or |q|^k < e1 and |q|^k times the distance of the start from the axis of a below e2, and reports beta1 + q^k (beta of the start - beta1). From the origin with 0 < t < 2 it therefore takes exactly k+1 iterations, k the first with |1-t|^k < e1, whatever the limit state and the number of variables, and reports (1 - (1-t)^k) beta1: never beyond beta1 for t <= 1, so that for a safe origin the reported failure probability is at least the exact one. A step size that is negative or at least 2 is accepted too, and never meets the criteria: after i_max iterations (1 - (1-t)^(i_max-1)) beta1 is reported as a result; for t = 2 and i_max = 100 that is twice the exact index, for every affine limit state. The same holds for limit states linear in (correlated) normal variables with forward differences, started at the mean.", "quantifier": "All numbers of variables, affine limit states, fixed step sizes, tolerances, iteration limits and starts; all models of normal variables with a linear limit state", "why_tests_cant": "A test checks one step size on one limit state; the number of iterations and the exact bias are claims about all step sizes and limit states.", "anchors": ["src/pystra/form.py: Form.run, Form.getStepSize, Form.computeSearchDirection, Form.computeBeta", "src/pystra/analysis.py: AnalysisOptions.setStepSize, AnalysisOptions.setE1, AnalysisOptions.setE2, AnalysisOptions.setImax"]}
{"id": "C133", "title": "The distribution of what Monte Carlo reports", "statement": "Over independent standard normal random numbers. For crude Monte Carlo with unit deviation on a limit state with failure probability v, in a run that cannot stop early (target coefficient of variation at most 0, or no more samples than one block), the number K of failing points among the N drawn is binomial with N trials and probability v - the expected value of any function of K is the binomial sum - and K/N is reported; so the reported value is off by eps or more with probability at most v(1-v)/(N eps^2). With any target below 1 (the default is 0.05), any block size, crude or importance sampling, q being the probability that one sampled point fails, the run ends normally with failure probability 0 and reliability index 0 with probability exactly (1-q)^N, which lies between 1 - Nq and exp(-Nq): with the default options (100000 samples) at least 1/2 for every limit state with v at most 5e-6. With more samples than one block, a crude run ends after its first block exactly when the coefficient of variation computed from the failures in that block meets the target, and their number is binomial with the block size and v: with the default options 1000 of the 100000 samples are drawn with exactly the binomial probability that between 286 and 999 of 1000 fail. On a linear function of (correlated) normal variables K has the probability Phi(-beta), and nothing is found with probability Phi(beta)^N, by crude Monte Carlo, beta being FORM's index; by importance sampling of an affine limit state around its design point, whatever the index, with probability 2^-N.", "quantifier": "All limit states, dimensions, sample counts, block sizes, targets, object histories and stream positions; sampling centres and deviations for the third claim; the probabilities range over all streams", "why_tests_cant": "A distribution over all random streams; a test sees one stream.", "anchors": ["src/pystra/mc.py: CrudeMonteCarlo.run, CrudeMonteCarlo.computeCoefficientOfVariation, CrudeMonteCarlo.computeFailureProbability, CrudeMonteCarlo.computeBeta, ImportanceSampling.run", "src/pystra/analysis.py: AnalysisOptions"]}
