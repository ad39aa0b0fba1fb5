# Formal model of pystra in Rocq (Coq 8.16.1)

## Trusted base

* Coq's kernel and the standard library.  The only axioms any theorem uses are the standard library's own:
  `ClassicalDedekindReals.sig_forall_dec`, `ClassicalDedekindReals.sig_not_dec` (the construction of the reals),
  `FunctionalExtensionality.functional_extensionality_dep` (used by the library's real analysis, and for vectors and matrices as
  functions), and `Classical_Prop.classic` (Coquelicot and classical analysis).  Every property theorem is followed by
  `Print Assumptions` in its file; the last section lists the result, theorem by theorem.  No axiom, functor, module type or
  section-less variable of our own; Coquelicot and Flocq are used as libraries (they add no axioms beyond the standard library's).
  Existence statements about oracles meeting a contract (`LsProps.v`, `NatafProps.v`, `LapackProps.v`; not property theorems) also use
  `ClassicalEpsilon.constructive_indefinite_description` of the standard library.
* The model is a hand transcription of the Python text.  Each definition cites file and lines.  Nothing ties
  the model to the code but that reading, and the seeded-bug experiments of `seeded/LOG.jsonl`, which check that the theorems
  notice when the transcription changes.
* **Numbers.** Python/NumPy floats are modelled by Coq's real numbers `R` (exact arithmetic, no rounding, no
  overflow).  Where IEEE special values decide the control flow (division by a zero `Go` in FORM, NaN limit
  state values in line sampling, infinite indices, `t ** -0.5` of a non-positive number in SORM) a small extended type `xnum`
  (finite, +inf, -inf, NaN) or `option R` is used.  `McFloat.v` alone models doubles: Flocq's binary format with 53 digits and
  rounding to nearest even, the C library's `pow` an argument (CPython's `k ** (-1)` is not always correctly rounded, so C118 asks
  for faithful results, or for `|k ** (-1) * k - 1| <= 2^-53`, which holds for all k < 300000 on the machine at hand).
* **Exceptions** are values of a `result` type (`Ok v` / `Err e`).  A mutation visible to the caller is a
  returned new value.
* **Loops** bounded in the code are structural recursions on the bound; unbounded loops run on explicit fuel and return
  a distinct out-of-fuel value; termination/divergence theorems quantify over all fuels.
* **External functions** (the user's limit state function, random streams, `scipy.stats` families, `fmin`,
  `fsolve`, `brentq`, `svd`, `np.linalg.inv/solve`) are function arguments; every contract assumed of them is a hypothesis
  visible in the theorem statement, with an example that satisfies it.  The contracts of `numpy.linalg` (Cholesky, SVD, inverse,
  symmetric eigenvalues) are consistent in every dimension: `LapackProps.numpy_contracts_satisfiable` proves that routines meeting
  all of them for all n exist (spectral theorem by compactness, Cholesky by induction, `LapackProofs.v`).

## Files

`rocq/theories`: `Base.v` (results, sums, vectors, matrices, reflected comparisons), `Ext.v` (extended numbers), `Dict.v`
(dictionary lemmas); for each area `X.v` (model of the code, nothing but definitions with citations), `XSpec.v` (independent
specification, where the statement needs vocabulary of its own), `X*Proofs.v` (lemmas), `X*Props.v` (property theorems, examples
showing their hypotheses are met, `Print Assumptions`).

`tools/manifest.py` writes `MANIFEST.json` from the `Theorem Cxx_*` of the `*Props*.v` files; `tools/mile.sh` commits and runs vcheck;
`tools/assumptions.py` writes the table at the end of this file.

## What is modelled and what is not

| /repo/src/pystra | model | not modelled |
|---|---|---|
| model.py | StochModel.v, LimitState.v: all of StochasticModel and LimitState (registry, correlation slot, call counter, argument binding, block loop, forward differences with in-place mutation, ddm, dispatch) | vectorised user functions are `kwargs -> result`; array dtypes |
| analysis.py | options consulted by each method; results_valid protocol (Valid.v); Session.v: AnalysisOptions with all attributes and setters, AnalysisObject construction with shared or private objects | printing |
| transformation.py | Transf.v: x_to_u, u_to_x, jacobian, type validation, pull-back | the SVD itself (an argument with contract) |
| cholesky_sensitivity.py | Chol.v: the differentiated elimination loop, dinvL0_dtheta | |
| correlation.py, integration.py, quadrature.py | Nataf.v, Quad.v, CorrHeap.v (class CorrelationMatrix and aliasing): modified correlation, integral, derivatives, Gauss-Legendre rule | `fmin` (argument) |
| form.py | Form.v: whole iteration, step rule, merit, results, dictionary; FormAttr.v: attributes, getters, the numbers and rows of the two reports; FormGamma.v: gamma | the text of the printed report |
| sorm.py | Sorm.v, GramSchmidt.v, Valid.v, SormRun.v, SormAttr.v: rotation matrix, curvature matrix, Hessians, Newton point fitting, Breitung formulas, run/showResults protocol, the numbers and rows of showDetailedOutput | eigenvalue routine (an argument), the text of the reports |
| mc.py | Mc.v: Crude MC, importance sampling, distribution analysis, records, stopping rule; McFloat.v: the crude estimator and stopping rule in double precision; McRun.v, DaRun.v: the whole analyses on a model object | drawing of the plots, progress messages |
| ss.py | Ss.v: whole run; SsRun.v: the whole analysis on a model object | messages |
| ls.py | Ls.v: whole run after FORM; LsRun.v: the whole analysis on a model object | `brentq` (argument with contract) |
| sensitivity.py | Sens.v: finite-difference and closed-form branches; SensRun.v: the closed-form method run on a model object; NumRun.v: the finite-difference method run on a model object; SensApi.v: run and summary | pandas |
| distributions/ | Dist.v: every class; DistHeap.v: objects that hold other distributions, their updates and sampled moments; SciPy families by their documented formulas or as arguments | docstring helpers, `__repr__` |
| loadcomb.py | LoadComb.v: all; LcRun.v: run_reliability_case with its FORM run | the analysis of a correlation with NaN entries |
| calibration.py | Calib.v (class Calibration), CalibDf.v (calc_lsf_eval_df), CalibRun.v (method names), Generic.v (GenericModel, GenericCalibration) | matplotlib decoration, printing |

## Properties: what is modelled, how proved

| id | model | proof |
|---|---|---|
| C01 | registry state machine with exceptions | induction over the operation history, against a filter-style specification of "accepted" |
| C02 | same machine with the correlation slot | induction over the history, against a "last relevant event" specification |
| C03 | argument dictionary built by `compute_lsf` | position lemma: index of a name in the registry filtered to distributions |
| C04 | block loop of `evaluate_nogradient` with trace of blocks | strong induction on remaining points; divergence for block size 0 on all fuels |
| C05 | evaluation with trace of calls | corollary of the trace lemmas, induction over a history of evaluations |
| C06 | `evaluate_ffd` including the aliasing loop | induction over columns; affine exactness by algebra |
| C07 | same, returned caller array; broadcasting check | direct, with a refutation of "input unchanged" |
| C08 | `evaluate_lsf` dispatch, `evaluate_ddm` | case analysis |
| C09, C65 | `x_to_u`, `u_to_x` with abstract marginals | matrix algebra + inverse hypotheses |
| C10 | same with two factors | orthogonality of A^-1 B; counterexample for images |
| C11 | `jacobian` | derivatives of finite sums (Coquelicot) |
| C12 | type validation | case analysis |
| C13 | in-place elimination loop on matrices of any size | loop invariants on k; derivative by "each stage is the derivative of the stage" |
| C14 | `dinvL0_dtheta` | algebra; derivative of the inverse of a matrix family |
| C15 | modified Gram-Schmidt on columns, rot90 index maps | loop invariant; triangular structure |
| C16, C17 | products over curvature lists | positivity and monotonicity of products |
| C18 | Newton loop on fuel = max_iter | induction |
| C19 | `evaluateLSF` | uses the LimitState aliasing model |
| C20 | point packing, dispatch, second differences | index arithmetic, induction over pairs |
| C21, C27 | FORM loop with extended floats | induction on fuel |
| C22-C25 | vector algebra, merit function | Cauchy-Schwarz, descent direction by calculus |
| C26 | zip of two lists | list induction |
| C28-C33, C69 | block loop over a stream of draws | induction on blocks |
| C34-C37 | level loop with random streams | invariant; percentile counting lemma; divergence on all fuels |
| C38 | acceptance rule, component step as an integral operator, joint conditional step | exp/ln algebra, measure of the accepting set; exchange of integrals (proved for continuous functions on a rectangle) and antisymmetry of min(phi u, phi v)(h v - h u) for the invariance; explicit construction of the reverse draws |
| C39, C40, C70, C71 | line model, scan fold | list induction, monotonicity of Phi |
| C41 | double loop with solver oracle | index lemma |
| C42, C43, C73 | finite sums of densities | derivatives of finite sums, implicit differentiation |
| C44, C72 | Newton recursions and mirroring | list lemmas, Legendre differential equation by induction |
| C45, C46, C74 | sensitivities | list/matrix algebra, chain rule over C13/C14/C43 |
| C47-C53, C75 | distribution objects | real analysis |
| C54-C56 | dictionaries as association lists | list induction |
| C57-C61, C76 | tables with named rows and columns | field algebra, induction on sums |
| C62, C63, C77 | setters and calibration protocol | induction over histories |
| C79 | moments of what sample() and u_to_x produce, as improper integrals; the constants of the Gumbel law (Euler's constant and the second moment eg^2+pi^2/6 as integrals) are a hypothesis of the Gumbel parts; `is_gamma` is satisfied by the proved GammaF | substitution and antiderivatives for improper integrals |
| C80 | cov of subset simulation and line sampling | from the run invariants |
| C81 | _make_copy, base-class dF_dtheta, all constructors as _make_copy calls them (Copy.v) | algebra of the constructors; Taylor bound for the central difference |
| C82 | ChiSquare through C81 and through the numerical branch | derivatives and limits |
| C83 | composite constructors reject the mean | induction over the loop of _numerical_sens |
| C84 | evaluate_lsf, Form.run on l times the function | simulation: induction over evaluation and iteration loops; a two-iteration witness for the automatic step |
| C85 | Monte Carlo runs on sign-equivalent limit states | simulation relation on the run state |
| C86 | subset simulation on l times the function | percentile and sort commute with scaling; induction over levels |
| C87 | Hessian/curvature matrix, Newton iteration of point fitting | linearity; first iteration of the loop |
| C88 | line sampling; root finder as an oracle giving equal roots | bracket depends on signs only |
| C89 | `Copy.dmoments_dtheta` over all classes | central difference bound by the mean value theorem (CopyProofs), GEV by the constructors' algebra, the positive variance and the convexity of the genuine gamma function proved from its integral (DmomProps) |
| C90 | whole Form run over two factors of one correlation matrix; np.linalg.inv as an oracle that inverts exactly the invertible matrices | simulation: Q = T'A is an isometry carrying every iterate (RotProofs) |
| C91 | histories registering the same variables in another order | permuted factors are an inverse pair and a factor of the permuted matrix; evaluations agree by C08's characterisation; composed with C90 (PermProofs) |
| C92, C93 | the whole Form analysis on a model object (init_run, modified correlation, factorisation, iteration, every evaluation updating the model); linear algebra and fmin as oracles with contracts (2x2 instances given) | simulation of the stateful run by the iteration of C21-C27, composed with C06 (finite differences exact on linear functions), C12-C14 (factors), C24 (affine convergence) and C68 (calls) |
| C94 | the Monte Carlo model of C28-C33, two or four runs on one stream | the drawn points are a function of stream, options and sample count (McRelProofs.plan); weights compared pointwise |
| C95 | the whole run of Pipe.v on two histories whose variables are converted into each other (UnitsSpec), Mc.v, Ss.v, the constructors of Dist.v | the standardised values and hence the Nataf objective agree; Jacobians differ by a diagonal factor that cancels in the pulled-back gradient; then the isometry argument of C90 with the identity |
| C96 | SensRun.v: `cf_sens` = the whole `_cf_sens` (sensitivity.py 193-308) on top of `run_form` (Pipe.v) and Sens.v; `normal_marg` from Dist.v | The design point is a multiple of -A'(c sigma) (C24), so alpha' L0^-1 e_k = -c_k sigma_k / sqrt(v) and z* = -(mean/v) Ro(c sigma); for normals the integrand of d rho0/d theta vanishes node by node, hence dL0 = 0 (derivative of a constant factor); correlation entries from dL L' + L dL' = dR0. Compared with `margin_beta` (SensRunSpec.v) by is_derive |
| C97 | NumRun.v: `numerical_run` is the loop of Sens.v with `form_on` (the whole analysis of Pipe.v, no options) for every Form | C45's loop theorem instantiated at the FORM pipeline; the replaced object is what the rebuilt history builds (`rep_run`); exact values by C92's closed form, limit by the derivative of the closed form |
| C98 | SormRun.v: `sorm_new`, `computeHessian`, `curvefit`, `pointfit`, `sorm_run_on`: the SORM run on a model object, on top of Pipe.v (FORM) and Sorm.v | FORM's closed form (C92) gives the gradient everywhere, so the differences of the Hessian vanish and the first trial of every fitting search is on the surface; eigenvalues of the zero matrix by contract |
| C99 | the same run (SormRun.v) in mode 'ddm' on quadratic limit states; SormQuadSpec.v: principal and normal curvatures, `u_hessian` | the FORM loop visits only points on the ray of alpha, where the function is affine (`loop_inv_ext`); forward differences of an affine gradient are exact; eigenvectors of the rotated block lift to directions orthogonal to alpha; along the last rotated axis the function is affine, so Newton needs one step |
| C100 | LsRun.v: LineSampling object (constructor, run with init_run, the Form analysis it makes and keeps, every evaluation on the model object; brentq an argument returning the root and its evaluation points) | composition with Pipe.v and Ls.v; affine exactness from C92 and C70; the size mismatch through C71; NaN direction through the FORM loop at a zero gradient |
| C101 | McRun.v: constructors, init_run, every block evaluated on the model object, NaN centre | simulation: the run equals Mc.v's run on the limit state of the registered variables (loop_sim), then C28/C29 and C92 (linear problems); McRunOnSpec.v: points in terms of the stream, reported index |
| C102 | SsRun.v: constructor, init_run, every batch and every chain step evaluated on the model object, attributes after a raise | simulation: the run equals Ss.v's run on the limit state of the registered variables (body_sim), then C34-C37, C80 and C92 (linear problems); SsRunSpec.v: the levels |
| C103 | SormRun.v: sorm_new with a Form object, sorm_run_on with its own transformation | both factors from C92's run lemma; the Newton search on a plane ends after one step (fit_one_foreign); SormFormSpec.v: the curvatures |
| C104 | LogLin.v: Lognormal objects in the pipeline of Pipe.v | every variable has a function (ln or identity) that is affine in u and whose derivative over the Jacobian is its deviation, so evaluations are affine in u-space (LogLinProofs.v); then C24 and C92 |
| C105 | LcRun.v: run_reliability_case = the assembly of LoadComb.v followed by the FORM analysis of Pipe.v; a frame without some label (NaN correlations) is a distinct outcome, its analysis is not modelled | the assembly is the fold of addVariable over the case's objects (LcRunProofs.v), C54, then C92 |
| C106 | SensApi.v: run (dispatch to NumRun.v and SensRun.v), the returned Python dictionaries, summary; pandas only as a list of rows | the row keys of the finite-difference dictionary are those of the model (numerical_ok); C96 and C97 for the agreement (uniqueness of derivatives, finite minimum of the deltas) |
| C107 | DaRun.v: DistributionAnalysis constructor, run on a model object, the figures of showResults as (title, data, bins, reference marginal) | loop invariant (records, layout of the random numbers by quotient and remainder of the block size); induction on the registration order for the titles (DaRunProofs.v) |
| C108 | CalRun.v: the reliability oracle of Calib.v instantiated by run_reliability_case of LcRun.v (the whole FORM run) and by what the calibration reads off the Form | exact FORM result on linear normals (SormRunProps.lin_run); the projection as a Newton step of a concave function; tangent inequality by Cauchy-Schwarz, monotone convergence and geometric rate (CalRunProofs.v) |
| C109 | CalRun.v calc_beta_design_param on top of the model of C108 and the factor tables of C57, C59, C76 | exact indices of C108; the index is increasing in the design (algebra); design of C76 at least the calibrated one because the design point lies on the limit state (CalCodeProps.v) |
| C110 | DistHeap.v: a heap of distribution objects with references, every mutating method | well-foundedness of the references; effect of one call on every cell; induction over histories |
| C111 | Mc.v, McRun.v (no new model); McBiasSpec.v: expected value over the random numbers as iterated improper integrals | the estimate as an average of weights of disjoint groups of random numbers; Fubini-free induction on the numbers; half-space probability by a Gaussian convolution |
| C112 | Form.v, Pipe.v, LimitState.v (no new model); FormBoundSpec.v: failure probability as an iterated improper integral, convexity, slopes along lines | convex function above its tangent plane; half-space probability (McBias); monotonicity of the integral; chain rule through the Nataf transform for normal variables |
| C113 | LsRun.v (the transform option at the time of the run is an argument of its own), Ls.v | affine function along a slanted line, bracket lemma of C39; composition of C100; explicit Cholesky and singular value factors of a 2x2 matrix |
| C114 | Session.v (a heap of models, limit states, options with all attributes, and analysis objects; commands of a script; every constructor and run of McRun.v, SsRun.v, LsRun.v, DaRun.v, Pipe.v). Left out: SORM (its report under the print flag can raise), Form objects passed to LineSampling, reports | simulation between the worlds of two scripts; every run reads a model object only up to call counter and Ro; induction on scripts |
| C115 | Sorm.v and SormRun.v; the paraboloid and its probability content are in SormBoundSpec.v (iterated improper integral, FormBoundSpec.v) | TailProofs.v: Mills' ratio bounds, the hazard rate psi is increasing and 1-Lipschitz, hence exponential bounds of Phi(-(beta+h)) on both sides; Gaussian moments; induction over the axes; existence by Cauchy's criterion |
| C116 | FormAttr.v: the attributes of a Form object as assigned during run, the getters and the two reports (numbers and order of rows, not the text), histories of operations | the loop with attributes is the loop of Pipe.v; invariants over histories; the refuting history is the model of C92 with a second run whose limit state function raises |
| C117 | Ls.v, LsRun.v (C39, C100); expected values as iterated normal integrals (C111), the random point split across and along alpha (LsBiasSpec.v) | integral with the number along alpha innermost: on each line the inner integral is a step, whose value the scan and root finder reproduce up to the bound (Phi is Lipschitz with constant phi(0)); columns of the random matrix by selection and independence of C111; rotational invariance of the normal law is shown for half-spaces (all linear combinations), and for directions along the last axis, not for arbitrary sets |
| C118 | McFloat.v: lines 137-155 of mc.py over the binary64 numbers of Flocq (reals with 53 digits, round to nearest even), powers as arguments; loop over counts | relative-error algebra for (1), induction over the loop for (2), monotonicity of rounding for (3), the two doubles in [1 - 2^-53, 1] for (4); the early stop by exact integer certificates for the reciprocals; C118_exact_model ties the loop to Mc.v |
| C119 | Quad.v (C44, C72) | orders of magnitude at a root (f = O(t^k), closed under sums, products, quotients, composition and integration); expansions of P_n and its derivatives by integrating four times; the correction expanded in them |
| C120 | CalibDf.v: calc_lsf_eval_df as a map over the columns and cells, on top of LoadComb.v (C56) | mapM succeeds iff every cell does, fails with the first failing cell; arguments from C56 |
| C121 | CorrHeap.v: a heap of arrays, wrappers and models driven by a script | invariants of the script (names never dangle; the copied array has one owner), induction over the history |
| C122 | Quad.v (C44, C72, C119) | Legendre orthogonality from the differential equation, norms from the recursion, Christoffel-Darboux; the matrix of P_k at the roots is orthogonal by rows, hence by columns (trace argument), which is exactness on products P_k P_l; roots by interlacing |
| C123 | LimitState.v (C06) | two mean value theorems |
| C124 | Form.v: the loop with the evaluation of phi(a.u) | invariant u = t_k a of the loop; tangent inequalities for convex phi; the two-cycle by induction, the root by the intermediate value theorem |
| C125 | FormGamma.v: computeGamma on the inverse of the model Jacobian (Transf.v) | the inverse of T D is D^-1 A by uniqueness; A A^T = Ro |
| C126 | CalibRun.v: arguments of the constructor and of run; Calib.v | C57 and C59 on the tables of a run; both methods give tables without missing cells |
| C127 | Ridge | form.py's loop (Form.v, Pipe.v) on psi(L), L linear in ln X / X. C124 generalised to any starting point (FormNewtonProofs.newton_from), the evaluation of psi(L) in u-space (RidgeProofs.l_ev), then C92_run_composition; Newton for e^y - 1 by convexity and e^-t <= 1 - t + t^2/2; refutation by the instance G = 1 - X Y e^-6. |
| C128 | FitCmp | sorm.py's two fits (Sorm.v, SormRun.v) on C99's quadratics. The rows of the rotation matrix and the principal directions are two orthonormal frames of the tangent plane, so the point-fit curvatures are averages of the principal ones with a doubly stochastic weight matrix (FitCmpProofs.complete, curv_mix); Jensen for the logarithm (ln_mix) and the C99 runs give the inequality. |
| C129 | SormInv | C99's runs in two settings (record `quad_problem`). The factors of the two transformations differ by an orthogonal matrix (RotProofs.Qf) after permuting the variables (PermProofs), which carries principal directions to principal directions (principal_same); ascending lists of principal curvatures are unique (principal_unique: a doubly stochastic matrix of overlaps, then counting). Refutation for the point fit by an instance (SormInvExProps). |
| C130 | Hess | Evaluation of an arbitrary limit state function with gradient in normal variables (HessProofs, sections N and G); FORM on a function affine on its ray (ray_exact, via loop_inv_ext); Taylor's bound for forward differences (fd_bound, two mean value theorems). The two-variable bound eliminates the rotation by hand. The counterexample runs FORM and computeHessian and solves the 2 x 2 eigenproblem. Instances in HessCxProps. |
| C131 | SormAttr | The attribute machine of Valid.v over histories, plus showDetailedOutput on the attributes of FormAttr.v. Spec: the list of completed fits, of point fits among them and of begun fit types. Induction on the history from its end; C131_sessions maps every sequence of runs of SormRun.v to such a history. psi > beta from TailProofs. |
| C132 | FixStep | The loop of Form.v with an affine evaluation and step_size t: the invariant u_k = u1 + (1-t)^k (u0 - u1) by induction on the iterations left; the two criteria become |q|^k < e1 and |q|^k dist < e2. Model instance through C24_linear_normal. |
| C133 | Binom | Independent events counted over the stream (the vocabulary of McBias): E h(K) by induction on the events, equal to the binomial sum by Pascal's rule; early-stopped runs draw a prefix of the candidate points and cannot stop before a failure (C30), so nothing is found exactly when none of the N candidates fails. |
| C64, C78 | results_valid protocol | induction over histories |
| C66 | erf as an integral | Gaussian integral (own proof), monotonicity, Lub |
| C67 | Hessian on quadratics | algebra of finite sums |
| C68 | FORM call counts | induction on the loop |

Every property in the list is expressible in the model; none is marked not_applicable.

## Findings: claims of the documentation or of common sense that the code does not satisfy

Each is a theorem about the model (suffix `_refuted`, or an iff/negative statement).

* C07 an `ffd` evaluation overwrites the caller's point; C19 therefore SORM pulls gradients back at a shifted point.
* C20 the mixed-difference Hessian cannot run in either supported differentiation mode.
* C15 `orthonormal_matrix` raises whenever the last component of alpha is 0.
* C21/C27 `i_max <= 0` disables the iteration limit; a start on the limit-state surface never satisfies the first criterion.
* C26 `getAlpha(as_dict=True)` mislabels when a constant was added before a random variable.
* C31 no observed failure gives Pf = 0 with beta = 0; C69 boundary points count as safe in MC, as failures in subset simulation.
* C32 `x_all` mixes physical and standard points after the first block.
* C33, C64 flags are not restored / claim validity after an exception; C78 excessive curvature makes showResults raise.
* C37 subset simulation has no level limit and diverges without failures.
* C46 the closed-form sensitivities are not derivatives under the SVD transformation.
* C48, C51, C52, C75, C49 distributions: GEVmin's quantile is mirrored; Lognormal's ppf and Uniform's u_to_x stay stale after updates;
  ShiftedLognormal.dF_dtheta ignores the shift; the zero-inflated density and cdf use a window left of 0.
* C54 `dict_comb_cases` is documented as optional and is not.
* C57-C61 calibration: a shared leading variable and a different case order break the factors; the column "z" is hard-coded; a converged
  start raises; the declared value of the calibration constant enters the design parameter.
* C71 line sampling turns exceptions of the limit state function into safe lines.
* C72 the literal 25 where the Taylor coefficient is 0.25.
* C81 Weibull/Gamma after set_location and ShiftedLognormal after set_lower are copied without the update; C82 ChiSquare's closed-form
  sensitivities are off by 2 (mean) and -1 (stdv); C83 composite distributions support neither sensitivity method.
* C84 FORM with the automatic step size depends on the units of the limit state; C87 so does SORM point fitting, which in small units
  returns zero curvatures.
* C89 `GEVmax._dmoments_dtheta("shape")` at shape 0: the copies at ±1e-10 take the Gumbel branch for location and scale but the GEV family, so the derivative of the mean is not 0 (GEVmin: 0).
* C93 the reported number of function calls is the model's cumulative counter, not the calls of the analysis; C92 a run that fails in preparation keeps the old results flagged valid.
* C94 with a target coefficient of variation a dominated limit state can be reported with the larger failure probability.
* C95 ChiSquare with converted moments is the unconverted variable; ZeroInflated changes its law with the units (tolerance 1e-6).
* C98 SORM raises ValueError whenever the limit state does not involve the variable registered last (Cholesky transform); Breitung's curve-fitting result is the integer 0 (TypeError when printed) for every negative beta, point fitting raises RuntimeError at beta = 0.
* C99 point fitting uses an absolute tolerance on g: for a limit state scaled so that the trial value is below 1e-6 every curvature is reported as 0; and it reports curvatures along the axes of an arbitrary frame, not principal curvatures.
* C100 A LineSampling object keeps its Form analysis: after a variable is added, a second run swallows a shape error at every point and reports Pf = Phi(-15) or less (`C100_grown_model_refuted`). A constant limit state gives Pf = NaN with beta = -inf.
* C101 importance sampling reports Pf > 1 and beta = NaN for negative indices (one sample suffices), and Pf = 0, beta = 0 for a limit state that always fails (constant -1), because FORM's NaN becomes the sampling centre.
* C102 a subset simulation on a positive constant limit state never ends; a run that raises leaves the earlier Pf, beta, cov next to empty thresholds.
* C103 Sorm(form=...) with a Form of another transformation type: point fitting reports curvatures for a linear limit state, and Pf = 0 with index 0 in an example with beta = 3.74.
* C105 keyword arguments of run_reliability_case that name no variable are silently ignored: a misspelt override analyses the original model.
* C106 summary() of a finite-difference result raises AttributeError if a variable is named 'marginal' (`result.get("marginal", result)`).
* C107 DistributionAnalysis.showResults titles its figures with getNames()[i], which counts constants: with a constant registered first every figure is titled with the wrong name. It also samples with the simulation standard deviation, so for a value other than 1 the histograms do not follow the densities drawn over them.
* C108 the alpha projection approaches the target from below: after the first projection every trial design has an index at or below the target, so the loop stops on the unsafe side by up to abstol + 1e-5 |beta_T|.
* C109 with a positive correlation between a load and a resistance, increasing the design parameter can lower the reliability index (R ~ N(10,1), Q ~ N(4,1), correlation 1/2, designs 8 and 16), so a larger code design is not always a safer one.
* C110 composite distributions share their base by reference: updating one variable silently changes the distribution of every other built on the same base, whose reported moments and start point stay old; updating a Maximum to the value it already has changes its reported moments (new random sample).
* C111 the default stopping rule (target cov 0.05, blocks of 1000) makes the reported probability a biased estimate; importance sampling around FORM's design point has a larger variance than crude Monte Carlo whenever beta < 0.
* C113 LineSampling constructs its FORM analysis at the first run with the transform option of that moment, its own transformation at construction: after options.setTransform in between (the options object is shared) the direction belongs to another standard normal space, and the probability can be that of survival (Pf >= 0.84 instead of 3e-7 in the witness). The same holds of a Form object passed in with another transformation.
* C115 Breitung's formula (the result SORM prints first) underestimates the probability of its own paraboloid for some negative curvature at every beta > 0, silently; the modified formula never does.
* C116 after a FORM run that raised, the object reports beta, Pf and alpha of the last completed run together with the design point the failed run had reached, and marks the results valid; after registering a further variable the detailed output of a finished run raises IndexError.
* C117 line sampling takes one crossing per line: for a limit state failing on both sides (4 - u^2) every run reports half of the failure probability, with coefficient of variation about 0.
* C118 (and C30) in doubles, a crude Monte Carlo run in which every sample fails may stop early: k * (1/k) rounds to 1 - 2^-53 for some k (49, 11000, ...), the variance is then tiny instead of 0, the replacement "0 -> 1" of line 152 does not fire. With the default options: 11000 of 100000 samples.
* C119 the Gauss-Legendre points are of order four in the starting error instead of order 25 (two passes of order five): 25 for 0.25, and the last correction added twice (`bp = -xo - h` after `xo = xo + h`). In numbers: about 1e-12 instead of 1e-16 for n = 8 to 32.
* C120 calc_lsf_eval_df passes the keyword `z` whatever the calibration variable is called (the class takes it as `calib_var`): with another name and no parameter z the method raises.
* C121 `model.correlation = A` and getCorrelation() hand out the live array, setCorrelation copies: the two documented ways of setting the correlation differ in what a later `A[i, j] = v` does.
* C124 FORM with step_size = 1 on G = u^3 - 2u + 2 alternates between 0 and 1 and after 100 iterations reports beta = -1, Pf = 0.84 (true: about 1.77 and 0.04) as a valid result; nothing in the object says that the criterion was not met except the printed text.
* C127 FORM with full steps on G = c - K prod X_i^{q_i} (lognormal X_i, safe means): the first step overshoots exponentially, the remaining iterations return by less than 1 in ln G-space per iteration, and at the iteration limit the index is reported, always on the unsafe side (more than 140 too high for G = 1 - X Y e^-6, X, Y ~ LN(1,1), exact 5.68).
* C128 fit_type="pf" never gives a larger SORM probability than fit_type="cf" on a quadratic surface: it averages the principal curvatures over the Gram-Schmidt axes, so it is the less conservative of the two whenever the curvatures differ. For G = 3 - T + R S / 5 (standard normal R, S, T) it sees no curvature at all and returns FORM's Phi(-3), the curve fit 5/4 of it.
* C129 the point-fit SORM result depends on the decomposition of the correlation matrix (even of the identity), so on an internal choice of coordinates; the curve fit does not.
* C130 computeHessian's matrix is not symmetrised: curvatures that are (nearly) equal can come out as a complex pair, which np.linalg.eig returns silently; the curvatures are off by up to (bound of the third derivative)/(ffdpara |grad G|).
* C131 Sorm.run assigns fit_type before the fit and never resets kappa_pf: after a failed point fit the summary can combine the numbers of one analysis with the curvatures of another; an unknown fit type is stored too. With a curvature in [-1/beta, -1/psi) showResults works but showDetailedOutput raises TypeError (pf_breitung_m stored the int 0).
* C132 setStepSize accepts any number: a step of 2 or more (or a negative one) can never converge, and the result of the last iteration is reported (twice the exact index for step 2 and 100 iterations on every affine limit state).
* C133 a run that finds no failing point ends normally with failure probability 0 and reliability index 0 (the index of failure probability 1/2); with the default options the chance of this is at least one half for every failure probability up to 5e-6.
* C77 the dotted line is the last, not the smallest, dead-load ratio.

## Theorems and their axioms (output of Print Assumptions)

- **Closed under the global context** (17 theorems): C12_created_iff, C12_type_stored_or_ValueError, C15_one_variable_raises, C33_print_flag, C36_chain_lengths, C44_centre_branch_unreachable, C54_case_contents, C54_construction, C54_labels, C55_duplicate_labels_raise, C56_arguments, C56_no_constants_raises, C62_setters, C64_failed_run_claims_valid_refuted, C64_flag_iff_started, C64_form_shows_last_completed, C81_copy_arguments.
- **`ClassicalDedekindReals.sig_forall_dec`** (24 theorems): C01_raise_leaves_unchanged, C01_raises_iff, C01_registry_integrity, C02_correlation_tracks_variables, C03_argument_binding, C04_block_size_irrelevant, C04_block_size_zero_diverges, C107_constructor, C107_figures, C120_arguments, C121_assign_and_add, C121_setCorrelation_copies, C121_writes_are_shared, C26_constant_gets_alpha, C26_labels_right_iff_constants_last, C26_last_variable_missing, C32_distribution_analysis, C54_case_model, C54_default_case, C54_unknown_case, C55_reindexed_correlation, C55_symmetry_and_diagonal, C62_limit_state, C62_submit_raises.
- **`ClassicalDedekindReals.sig_forall_dec`, `FunctionalExtensionality.functional_extensionality_dep`** (91 theorems): C05_accounting_over_history, C05_call_accounting, C05_counts_per_mode, C06_exact_on_affine, C06_forward_difference, C07_input_unchanged_refuted, C07_two_points_raise, C08_ddm_gradient_length, C08_ddm_returns_users_pair, C08_explicit_mode_suppresses_gradient, C08_gradient_modes_reject_two_points, C08_multiproc_zero_raises, C08_other_modes_forward_difference, C09_round_trip_from_u, C09_round_trip_from_x, C119_last_step_twice, C120_cells, C120_errors, C120_other_calibration_variable_refuted, C121_assigned_array_refuted, C123_quadratic, C126_coefficient_run, C126_design_flags, C126_methods, C126_set_max, C14_dinv_algebra, C18_linear_direction_exact, C18_newton_contract, C18_trial_distance, C19_correct_point_refuted, C19_ddm_pulls_back_at_the_point, C19_ffd_pulls_back_at_shifted_point, C19_harmless_for_constant_jacobians, C20_mixed_hessian_raises, C20_mixed_hessian_without_gradient, C24_linear_normal, C28_limit_state_contract, C29_draw_is_shifted_scaled, C35_always_a_seed, C35_p0_checked, C35_percentile, C38_proposal_symmetric, C39_geometry, C39_parameter_range, C40_bracket, C40_nan_gap_refuted, C40_no_crossing, C41_table_monotone, C41_tables_agree, C45_bookkeeping, C45_options_never_used, C50_construction_raises_iff, C57_coefficient_factors, C57_gamma_constant, C57_shared_leading_variable_refuted, C58_calibration_variable_must_be_z, C58_case_order_refuted, C58_design_equations, C58_square_system_needed, C59_phi_min, C59_psi_max, C59_psi_max_dominates, C60_alpha_loop, C60_converged_start_raises, C60_design_point_table, C60_stored_designs, C60_zero_max_iter_diverges, C61_design_parameter, C61_unit_constant_needed, C62_design_equation, C62_design_inverse_phi, C62_design_monotone, C62_grid, C63_analyse, C63_plot_iff, C63_plot_stale, C65_starting_point, C67_hessian_exact_on_quadratics, C72_recursion_is_legendre, C76_envelope_design_conservative, C77_line_is_last_ratio, C77_region, C77_smallest_ratio_refuted, C81_raises, C81_values, C83_composites_unsupported, C83_numerical_sensitivities_raise, C84_evaluation, C87_point_fit_invariance_refuted, C87_point_fit_scaled_tolerance, C87_point_fit_small_units.
- **`ClassicalDedekindReals.sig_forall_dec`, `ClassicalDedekindReals.sig_not_dec`, `FunctionalExtensionality.functional_extensionality_dep`** (149 theorems): C100_constant_limit_state, C100_first_run_after_adding, C100_nan_direction, C100_run_composition, C100_variable_added, C101_constant_limit_state, C101_estimate, C101_linear_normal, C101_run_composition, C101_variable_added, C105_case_by_hand, C105_linear_normal_case, C105_missing_label, C105_unknown_override_ignored, C106_table, C106_variable_named_marginal_refuted, C107_bins, C107_other_generator, C107_record, C107_simulation_stdv, C10_computed_factor, C10_reliability_independent_of_factorisation, C10_same_u_same_x_refuted, C113_any_direction, C113_transform_changed, C116_after_completed_run, C116_failed_rerun, C116_failed_run, C116_last_completed, C116_mixture_refuted, C116_same_analysis, C118_exact_model, C11_inverse_jacobian_is_derivative, C11_jacobian_is_derivative, C11_pulled_back_gradient, C124_convex, C124_cycle_refuted, C124_newton, C125_gamma, C125_gamma_normal, C127_newton_any_start, C12_options_change_after_construction_has_no_effect, C131_attributes, C131_detail_own_model, C131_detailed_output, C131_kappa_pf_after_curve_fit_refuted, C131_run_alone, C131_sessions, C131_show, C132_iterates, C132_other_steps, C132_step_two_refuted, C13_cholesky_correct, C13_cholesky_derivative, C13_cholesky_unique, C14_dinv_is_derivative, C15_gram_schmidt_qr, C15_raises_if_last_irrelevant, C15_rotation_matrix, C15_succeeds_if_last_relevant, C16_excessive_curvature_rejected, C16_negative_beta_admissible_rejected, C17_pointfit_rejects_iff, C17_sides_interchangeable, C21_converged_or_at_limit, C21_nonpositive_limit_diverges, C21_terminates, C22_defined_unless_gradient_vanishes, C23_automatic_step, C23_fixed_step, C23_penalty_bound, C24_automatic_converges, C24_automatic_exact_from_origin, C24_converged_accuracy, C24_full_step_exact, C24_iterations_exist, C24_linear_normal_beta, C25_direction_vanishes_iff_stationary, C27_start_on_surface_never_converges, C28_block_size_irrelevant_one_variable, C28_block_size_matters_refuted, C28_crude_estimate, C28_terminates, C28_zero_block_diverges, C29_Pf_is_mean_weight, C29_unit_sampling_is_crude, C29_weight_is_likelihood_ratio, C30_all_or_none_uses_all_samples, C30_stopping_rule, C31_no_failure, C31_other_methods, C32_records, C32_second_run_appends, C38_detailed_balance, C40_bracket_contains_root, C41_lower_triangle_only, C41_raises_iff, C41_reproduces_correlation, C41_structure, C41_uncorrelated_identity, C42_density, C42_exchange_symmetric, C42_is_product_rule, C44_lengths, C46_svd_refuted, C46_symmetric_zero_diagonal, C48_gamma_chisquare, C48_uniform_reconstruction, C49_cdf, C49_construction_raises_iff, C49_moments, C49_ppf, C49_set_zero_probability_unchecked, C64_sorm_flag, C64_sorm_unknown_fit, C67_paraboloid_curvatures, C68_form_function_calls, C71_exceptions_swallowed, C72_start_points, C73_affine_invariant, C73_normal_pair_universal, C78_curvefit_excessive_curvature, C78_curvefit_shows, C78_pointfit_shows, C82_copies, C84_automatic_step_refuted, C85_only_signs_matter, C85_units, C87_curve_fit, C88_line_sampling, C88_units, C90_form_independent_of_factorisation, C91_form_independent_of_variable_order, C92_independent_normals, C92_linear_normal_default_options, C92_linear_normal_exact_options, C92_linear_normal_full_step, C92_preparation_failures, C92_run_composition, C93_history_independent, C93_repeated_runs, C93_reported_calls_refuted, C94_dominance_early_stop_refuted, C94_same_samples, C94_systems, C95_form_units, C95_units_refuted, C97_fresh_analyses, C97_linear_normal.
- **`ClassicalDedekindReals.sig_forall_dec`, `ClassicalDedekindReals.sig_not_dec`, `Classical_Prop.classic`, `FunctionalExtensionality.functional_extensionality_dep`** (230 theorems): C100_grown_model_refuted, C100_linear_normal, C101_importance_above_one_refuted, C101_importance_example, C101_importance_linear, C102_constant_limit_state, C102_estimate, C102_failed_run_mixes, C102_grown_model, C102_linear_normal, C102_refused_runs, C102_run_composition, C103_foreign_form, C103_zero_probability_refuted, C104_loglinear_exact, C104_loglinear_tolerance, C104_lognormal_pair, C106_methods_agree, C108_alpha_converges, C108_factors_close_design_equation, C108_optimize_exact, C108_projection_is_newton, C109_code_meets_target, C109_index_increases, C109_indices_exact, C109_positive_correlation_refuted, C110_constructors, C110_distribution_is_live, C110_last_values, C110_moments, C110_moments_stale_refuted, C110_other_calls, C110_shared_history, C110_start_points, C110_update, C110_update_not_idempotent_refuted, C111_analysis, C111_crude_variance, C111_early_stop_refuted, C111_importance_example, C111_importance_linear, C111_linear_normal, C111_unbiased, C112_convex_domain, C112_form_example, C112_form_normal, C112_linear_exact, C112_tangent_bound, C113_wrong_side_refuted, C114_analysis, C114_form_run, C114_limit_states, C114_mc_run, C114_models, C114_no_interference, C114_options, C114_print, C114_print_importance, C114_run, C115_breitung, C115_breitung_unsafe_refuted, C115_curve_fit, C115_point_fit, C115_probability, C115_run, C117_bias, C117_last_axis, C117_lines, C117_run, C117_sampled_points, C117_two_sided_refuted, C117_unbiased, C118_accuracy, C118_all_failed, C118_arithmetic, C118_default_options_refuted, C118_exact_run, C118_range, C118_same_run, C119_pass_order, C119_point_order, C119_two_passes_refuted, C122_degree_sharp, C122_exact, C122_roots, C122_rule_error, C122_weights, C123_gradient_error, C127_function_of_loglinear, C127_overshoot_refuted, C127_product, C128_mixed_curvature_refuted, C128_point_fit_not_above, C129_curve_fit_invariant, C129_point_fit_depends_refuted, C130_complex_curvatures_refuted, C130_curve_fit_matrix, C130_two_variables_error, C131_results_belong_together_refuted, C131_such_curvatures_exist, C131_summary_but_no_detail, C132_from_origin, C132_linear_normal, C133_accuracy, C133_analysis, C133_analysis_distribution, C133_default_first_block, C133_default_options, C133_failures_binomial, C133_first_block, C133_importance_linear, C133_linear_distribution, C133_linear_normal, C133_nothing_found, C16_antitone_in_curvature, C16_boundary_not_rejected, C16_breitung_value, C16_hr_value, C16_negative_beta_never_finite, C16_pf_at_most_one_refuted, C16_positive_curvature_reduces, C16_zero_curvature_is_form, C17_pointfit_positive, C17_symmetric_agreement, C22_result_consistency, C23_descent, C28_beta, C34_level_invariants, C34_never_raises, C35_never_zero, C36_level, C36_total_evaluations, C37_diverges_without_failures, C38_acceptance_probability, C38_component_invariance, C38_joint_proposal, C38_reversible_step, C39_estimate, C42_density_derivative, C42_integral_derivative, C43_implicit_derivative_first, C43_implicit_derivative_second, C44_odd_integrand_zero, C44_odd_rule_centre, C44_symmetric, C46_correlation_derivative, C47_lognormal_dF, C47_lognormal_dF_after_updates, C47_normal_dF, C48_closed_form_round_trip, C48_gevmax_round_trip, C48_gumbel_round_trip_up_to_constant, C48_lognormal_reconstruction, C48_solver_based, C49_jacobian, C49_pdf, C50_maximum_cdf_is_power, C50_monotone_in_N, C50_parent_of_maximum, C50_pdf_is_derivative, C50_ppf_and_maps, C51_gevmin_is_mirrored, C51_reported_mean, C52_lognormal_updates, C52_normal_updates, C52_scipy_updates, C52_uniform_updates, C53_gevmax_maps, C53_lognormal_maps, C53_normal_maps, C53_scipy_classes_maps, C53_scipy_maps, C53_shiftedlognormal_maps, C53_uniform_maps, C66_cdf_is_distribution, C66_ppf_inverts_cdf, C69_zero_is_failure_for_subset_only, C70_affine_exact, C72_derivative_predictor, C72_derivatives_exact, C72_one_point_rule, C72_root_fixed, C72_value_predictor_refuted, C72_value_predictor_witness, C72_weight_expansion, C73_odd_for_symmetric_marginal, C74_marginal_derivative, C75_shiftedlognormal_dF_refuted, C75_unshifted_dF, C79_classes, C79_families, C79_gamma_exists, C79_gevmin_refuted, C79_lognormal, C79_lognormal_updates, C79_normal, C79_scipy_objects, C79_shiftedlognormal, C79_uniform, C79_uniform_updates_refuted, C79_zero_inflated, C80_line_sampling, C80_subset_simulation, C81_accuracy, C81_constructor_defaults, C81_gev, C81_gumbel, C81_location_scale_classes, C81_normal_lognormal, C81_shape_classes, C81_updates_lost_refuted, C82_numerical_branch_right, C82_reported_cdf_sensitivities, C84_form_fixed_step, C86_units, C89_gev_shape, C89_gevmax_gumbel_refuted, C89_gevmax_shape, C89_moment_derivatives, C94_complement, C94_dominance, C95_bounded_classes, C95_location_scale_classes, C95_simulation_units, C96_closed_form_exact, C96_default_options, C97_converges, C98_last_variable_irrelevant, C98_linear_normal, C99_paraboloid.
