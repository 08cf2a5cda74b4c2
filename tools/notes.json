{
  "C02": {
    "note": "REFUTED in full: collapsed is wrong for a non-zero scalar center (n>1) and recenter drops the constant <linear_term, offset>. Proved for None, zero or vector centers, recenter up to that constant."
  },
  "C03": {
    "note": "Fenchel conjugacy proved for coef>0; double conjugation proved for vector (or zero) linear terms and refuted for non-zero scalar linear terms."
  },
  "C11": {
    "note": "REFUTED for weights below 1e-20: a single positive weight below 1e-20 gives a point that is not the root (the knot uses the guard, the slope does not), for every norm and level; weights that are all zero raise ZeroDivisionError at levels <= 0. Holds for weights >= 1e-20 and for the unweighted variants."
  },
  "C12": {
    "note": "REFUTED for constrained_max and constrained_positive_part (a feasible point with a zero entry is reported infeasible because the test is arg < 0 + tol) and for max_positive_part with bound 0; holds for l1, sup, l2, positive_part, and max_positive_part with bound > 0."
  },
  "C55": {
    "note": "REFUTED for constrained_max/constrained_positive_part at points with entries in [0,1e-5); holds elsewhere and for the other classes."
  },
  "C06": {
    "note": "Calls in which every term is a float (the code then passes a float to the prox methods) are outside the model."
  },
  "C07": {
    "note": "REFUTED: only a total of exactly 0 is rejected; with a negative total a non-minimizer is returned."
  },
  "C08": {
    "note": "quadratic.coef == 0; the other branch returns a smooth_conjugate (C52)."
  },
  "C10": {
    "note": "REFUTED for assignments of None (mode can change) and negative values (accepted by the setters); proved for every history of reads and number assignments."
  },
  "C56": {
    "note": ""
  },
  "C57": {
    "note": "REFUTED: assigning an all-zero offset leaves the previous one; otherwise proved."
  },
  "C14": {
    "note": "REFUTED: every point inside either epigraph is moved (for every dimension) and every point on the axis gives nan; proved where the coefficient part is non-zero and the point is not interior."
  },
  "C15": {
    "note": "REFUTED for the l2 pair; proved for the other four pairs of cones, also with any offset and linear term, and Moreau's identity proved for every seminorm atom in either mode with any offset and linear term (coef = 0), which is the case without exception."
  },
  "C59": {
    "note": "REFUTED for the l2 epigraph and its polar (at every point strictly inside the cone off the axis, and on the axis); proximal holds for all other classes; conjugates proved for all classes."
  },
  "C16": {
    "note": "Proved for _basic_prox of both classes and for the objects with offset and quadratic, plus conjugacy, values and the feasibility test. maximum has no multiplier parameter: lam is 1. The .linear constructors raise NameError and are not modelled."
  },
  "C17": {
    "note": "Both routines, for every length and input; the sweep count is bounded by the length, so the loop terminates."
  },
  "C18": {
    "note": "For any isotonic regression meeting its contract and any argsort; the shipped pav meets it. bound_prox of slope and lagrange_prox of slope_conjugate raise NotImplementedError."
  },
  "C61": {
    "note": "REFUTED: np.allclose lets increasing weights below its tolerance through; proved: accepted weights are positive and within the tolerance of sorted."
  },
  "C19": {
    "note": "REFUTED: zero weights of the sup norm give nan, so do infinite weights with multiplier 0 and zero weights with bound 0; no ordinary weight and bound 0 raises IndexError; weights below 1e-20 leave the ball. Proved for all other weights (zeros and infinities included); conjugacy and values for every legal weight vector."
  },
  "C62": {
    "note": "REFUTED for supnorm (divides by the weights); proved for l1norm."
  },
  "C20": {
    "note": "REFUTED: the dual object calls a point feasible although a zero-weight group of it is not zero; negative weights are accepted. Proved: proximal map of both objects in both modes (weights zero or >= 1e-20 where the root finder is used), conjugate pairs, values (dual: positive weights), terms(), construction, set_weight, the four epigraph cones (weights >= 1e-20)."
  },
  "C23": {
    "note": "REFUTED: bound routine ignores negative l1 entries; multiplier 0 with a zero l1 entry gives nan; feasibility test rejects 0; offset applied twice in the value; dual value is 1 when feasible. Proved: proximal maps (positive parameter or no l1 coordinate), conjugate pairs, values without offset or test."
  },
  "C58": {
    "note": "REFUTED for group lasso: == ignores the bound."
  },
  "C24": {
    "note": "Arbitrary pure oracles (no nan); for convex problems with exact oracles also the first two iterations, and no step is ever counted bad."
  },
  "C25": {
    "note": "History has one entry per completed iteration: on a convergence stop the last, uncompleted pass is not recorded and its proposal is discarded. Termination with backtracking is proved for Lipschitz gradients. Why a run ends is stated in C25_stop_reason."
  },
  "C26": {
    "note": "REFUTED: update_working_coefs tests the global class name FISTA instead of the argument, so FISTA=False changes nothing (C26_flag_ignored) and momentum is used (C26_refuted)."
  },
  "C27": {
    "note": "First clause proved (C27_verified_step, C27_upper_bound). The bound 1/L is REFUTED: close to a minimum the gradient test needs a step of at most 1/(2L); holds with 1/(2L) (C27_ends_partial), so backtracking always ends (C27_terminates)."
  },
  "C28": {
    "note": "Both directions, plus the descent inequality."
  },
  "C63": {
    "note": "REFUTED with the final step size once steps grow: for every factor K and every N with (N+1)^2 > 39600 K there is a run of N iterations with backtracking, from the default attempt_decrease too, that misses the bound by the factor K (C63_growth_refuted). Holds: for every run without restart, with any step sizes and rejections: the rate counted from the last rejected step, times the total growth of the step sizes since (C63_growing_partial); without growth and rejections the plain rate (C63_rate_partial); with backtracking and a Lipschitz gradient, for any number of iterations, the rate times 1.1 for every pass that tries a larger step (C63_backtracking_partial)."
  },
  "C29": {
    "note": "REFUTED for selector with a repeated index, and for aslinear of a non-square transform (it reports its shapes the wrong way round). Holds for every transform built with the other constructors, to any depth (Inductive built), and for normalize."
  },
  "C30": {
    "note": "affine_map is linear_map plus a constant for every built transform. That affine_offset is this constant is REFUTED for composition, residual, scalar_multiply, a wrapped transform and affine_sum (of offsets below 1e-8) when the inner transform has an offset, and scaler, reshape, add_intercept have no affine_offset; holds for the transforms in Inductive reported."
  },
  "C31": {
    "note": "REFUTED for selector and posneg: adjoint_map returns an internal array that the next call overwrites. Proved: every result is correct at the time it is returned, after any history of calls; without selector and posneg no array ever changes."
  },
  "C32": {
    "note": "REFUTED for shift (evaluates h(x+alpha), documented h(x-alpha)) and for affine_atom over a transform with an offset (evaluates h(Dx-alpha), documented h(Dx+alpha); AttributeError if the transform is not a plain one). Proved for the class methods affine and linear over matrices; the quadratic is evaluated at Dx."
  },
  "C51": {
    "note": "difference_transform proved for every order and distinct knots. trend_filter_inverse: proved for increasing knots; REFUTED for unsorted knots and for adjoint_map of arrays with columns."
  },
  "C65": {
    "note": "REFUTED when the first pass stops the iteration because the norm is close to 1. Proved otherwise (second pass reached)."
  },
  "C33": {
    "note": "REFUTED: huber_svm for every smoothing parameter other than 1; cloglog outside [-5,5] (value clipped, gradient not) and with an offset (ignored); logistic exactly at the overflow threshold 100 in exact arithmetic; quadratic_loss with a non-symmetric Q. Holds everywhere else, for every data set, weights, coefficient and offset (C33_gradient_partial, C33_quadratic_partial); values agree with the documented loss (C33_value, C33_logistic_overflow)."
  },
  "C34": {
    "note": "Holds for Gaussian, Poisson, Huber, huber_svm with smoothing 1 everywhere; logistic holds for points up to the threshold 100 and up to exp(-100) per trial beyond it (C34_logistic). Complementary log-log: holds on [-5, 5], REFUTED beyond, where predictors are clipped (C34_cloglog_refuted)."
  },
  "C35": {
    "note": "REFUTED when the saturated loss has case weights of its own: each evaluation multiplies the glm's weight array in place (C35_weights_refuted gives the exact law). Holds for glms whose saturated loss has none, as all the glm class methods build, and for loss objects evaluated without passing an array."
  },
  "C36": {
    "note": "REFUTED: copies of huber_loss and huber_svm drop the case weights; copies of logistic/Poisson/cloglog add the deviance constant to the quadratic again. Otherwise copy and subsample agree with the original (C36_*_partial) and later writes to the original's arrays do not reach the copy."
  },
  "C66": {
    "note": "REFUTED: no hessian subtracts the offset; logistic's overflow branch indexes from the wrong end; the complementary log-log hessian is the expected information, not the derivative of the gradient (it is when the successes are at their expectation, C66_cloglog_partial). Holds for Gaussian, Poisson and logistic without offset, logistic below the threshold 100."
  },
  "C38": {
    "note": "REFUTED for cloglog.affine with an offset (C38_cloglog_refuted: the class ignores its offset). Holds for every other loss: affine, linear, shift and squared_error compute the composition and its chain-rule gradient; sums are the weighted sums; for objects of any nesting depth the value is the documented function, the gradient its gradient and the tangent bound holds."
  },
  "C39": {
    "note": "REFUTED for affine_smooth and smooth.sum: quadratics of the parts are dropped (also the one passed to the class method affine). Holds: simple_problem and container values include every term; the solver of simple_problem, and of a container with one penalty on the vector or a selection of it, sees exactly that sum; sums and affine compositions of any depth when the inner parts have no quadratic."
  },
  "C40": {
    "note": "REFUTED for container.solve, which ignores its argument; smooth.solve reports the optimum without q; a raising solver leaves the added quadratic behind. Holds: nonsmooth.solve and simple_problem.solve minimize objective + q (exactly / to the O(1/k^2) rate) and restore the problem. container.solve returns and keeps the coefficients of its run and the documented value at them (C40_container_returns)."
  },
  "C42": {
    "note": "REFUTED in full: has_overlap misses equal groups, and the proximal map of such an object forgets a penalty; holds for disjoint groups."
  },
  "C67": {
    "note": "REFUTED: the inner problem counts the loss twice, so fixed points minimize 2f + h (proved)."
  },
  "C52": {
    "note": "For every atom of C04-C10 and every cone of C13-C15 except the l2 pair, any total curvature > 0: supremum, unique maximizer, convexity, gradient and Lipschitz constant. Quadratics with a nonzero scalar centre are excluded (C02). Smoothed atoms, cones and affine atoms included; smoothing an atom whose own quadratic is curved raises TypeError (C52_curved_raises)."
  },
  "C41": {
    "note": "REFUTED when the container or its losses store a quadratic (the point is computed without it) and for a selector with a transform inside (not applied). Holds: dual_problem for every linear map with a right adjoint and every pair of conjugates; containers without stored quadratics for any number of penalties, with error bounded by the duality gap and O(1/k^2) for the actual run without rejections, and counting from the last rejected step with the default settings; the direct branches including all quadratics."
  },
  "C44": {
    "note": "REFUTED for -1e-5 <= y.s < 0: the update is accepted and positive definiteness is lost. Holds for y.s > 0 over any sequence of updates; the starting matrix is positive definite when initial_hessian is positive semidefinite with positive trace; on a convex function the update never raises."
  },
  "C69": {
    "note": "REFUTED twice: the quadratic attached to the smooth object is left out of the inner problem; a step of length zero at the point 0 passes the convergence test and the next update divides by zero. Holds when the smooth object has no quadratic of its own. The line search is arbitrary in the model; solver_results is not modelled."
  },
  "C43": {
    "note": "REFUTED as stated: the linear term of the loss update uses linear_map where the adjoint is needed, so for D=[[0,1],[0,0]] the method stays at a point with objective 4 while 7/2 is attained (C43_refuted); transforms that are not square raise AssertionError (C43_shape_refuted); the quadratic of the loss is dropped (C43_quadratic_refuted). Proved for every transform: the atom and dual updates, the problem handed to the inner solver, that a fixed point of exact rounds minimizes, that a saddle point minimizes. Proved when linear_map is symmetric: rounds with an exact inner solve are exact ADMM rounds, stay at solutions, come closer to each solution and have summable squared residuals."
  },
  "C48": {
    "note": "REFUTED as stated for the balance: numpy computes the labels in binary64, where 44 samples in 22 folds give folds of 3 and folds of 1, and leave-one-out on 22 samples gives 21 folds (C48_balance_refuted, C48_count_refuted, binary64 from Coq's SpecFloat); in exact arithmetic sizes differ by at most one and there are min(n, cv) folds. Proved for any labels, cv and shuffle: the folds partition the sample. Also proved: the training loss of a fold, and the meaning of the mean score. group_labels is ignored by the code."
  },
  "C45": {
    "note": "REFUTED when no feature is penalized: check_KKT then never reports anything (C45_refuted); and default_lagrange_sequence with nstep=1 starts at the given proportion of lambda_max (C45_one_step_refuted). Holds otherwise: soundness with an explicit tolerance term, completeness, optimality of the null solution exactly from the first value on, shape of the sequence."
  },
  "C46": {
    "note": "REFUTED for max_tries that is not a positive multiple of 5: two exact inner solves with max_tries=1. Holds with at most four more solves, and exactly for positive multiples of 5 (the default is 20). The claim about accepted points is proved from the zero solution; the inner solver is a parameter of the model."
  },
  "C47": {
    "note": "REFUTED with the default check_active=False: no unpenalized feature is ever in a subproblem, and a point worse than the null solution is accepted without a warning. Holds with check_active=True from the zero solution; basil includes unpenalized features (C49_order_partial)."
  },
  "C49": {
    "note": "REFUTED for repeated values (solved once) and for solvers that stop too early (endless loop). Holds for strictly decreasing sequences; terminates with an explicit bound when the inner solver is exact."
  },
  "C37": {
    "note": "Proved for every sample size, tie pattern, order argsort may choose among ties, censoring counts, nonnegative weights and scratch contents: value, gradient, Hessian products, convexity, symmetry and semidefiniteness; nan exactly when nobody of positive weight is at risk at some time. Objects: right after any history of calls. REFUTED for hessian_mult with coef other than 1 (not scaled), for gradients kept by the caller when coef is 1 (shared array), and for subsamples without the latest cases (nan everywhere). Real arithmetic: overflow of exp is outside the model."
  },
  "C50": {
    "note": "Proved for every orthonormal basis: both maps are exact projections, orthogonal and summing to the identity; proximal with offset and quadratic; the property conjugate is the Fenchel conjugate when the quadratic has coef 0; projection.constraint accepts exactly a relative 1e-5 neighbourhood of the span. REFUTED: projection_complement.constraint accepts the span and rejects its own points; conjugate raises NameError when the quadratic has coef other than 0, get_conjugate raises KeyError, get_dual TypeError."
  },
  "C21": {
    "note": "lagrange_prox and the public proximal() (offset, quadratic, infinite feature weights) are the unique minimizer for every partition and all weights >= 0; the dual object projects on the dual ball; conjugates, values, terms and construction are proved. REFUTED for the dual object's value: in bound mode it is 1 on the unit ball and never infinite, in Lagrange mode it raises ValueError. Primal bound and dual Lagrange proximal maps raise NotImplementedError (C21_missing_modes). The matrix version sparse_group_block (C21_block_*) has the same exact proximal maps, values and conjugates; REFUTED there: the bound-mode test raises TypeError and terms() uses w_1 twice."
  },
  "C22": {
    "note": "Both searches terminate within a fixed number of steps for every point. REFUTED as stated: gauge_function_dual is only accurate up to an absolute slack 1e-7*max(||x||,t) of its membership test (5 comes back as at most 1; an infinite norm as at most 3e7), and _gauge_function_dual_strong adds 1e-5 to the group weight (1e5 comes back below 6e4). _partial theorems give the accuracy that does hold, with both effects explicit; C22_strong_weight bounds the second. sparse_group_block's own search (C22_block_*) has relative tolerance 1e-6 and an absolute slack 1e-10*max(||x||,1)/(w_1+w_2): a dual norm of 5 comes back as 0."
  },
  "C54": {
    "note": "l1_l1 and linf_linf are exact for every matrix, and so are l1_l2 and linf_l2 when no row is zero (linf_l2 in bound mode also when the bound is positive), with offset and quadratic (C54_prox, C54_proximal_partial); values, feasibility, conjugates (for every row norm), construction and copy are proved. REFUTED: a zero row gives nan; block_sum/block_max raise NameError/ValueError or return 0 as projection (C54_generic_refuted); block_sum has no feasibility test; constraints inside the row norm are lost; conjugate is stale after assigning lagrange; set_lagrange raises and set_bound does nothing; copy of block_sum/block_max raises TypeError."
  },
  "C53": {
    "note": "Every matrix is proved to have a singular value decomposition (compactness of boxes, then deflation), the norms are defined as suprema and proved to be the largest singular value and the sum. Given an svd function meeting numpy's contract, lagrange_prox, bound_prox, proximal(), values, feasibility, conjugates, construction and copy of nuclear_norm and operator_norm are exact, and so are the projections, proximal() and conjugates of the four epigraph cones. REFUTED: nuclear_norm_epigraph's test leaves out the largest singular value and accepts ([[5]], 0); the cones have no conjugate with a quadratic (NameError); == ignores the matrix shape; get_dual raises TypeError. The numerical accuracy of LAPACK's svd is not modelled."
  },
  "C70": {
    "note": "Proved for every convex loss, grouping and non-negative weights: soundness up to the tolerance, completeness at every tolerance, first Lagrange value and its sharpness, shape of the sequence, ranks, strong set, subsampling."
  },
  "C71": {
    "note": "Accepted points, exact solves and near-optimality proved for every solver. The number of solves can exceed max_tries by up to four when it is not a multiple of 5 (C71_ends_partial). REFUTED: by default a group of weight zero is in no subproblem, and the accepted point can be worse than the null solution."
  },
  "C72": {
    "note": "The check is sound up to an explicit error per group when feature weights are bounded below (C72_sound_partial), complete at minimizers when the error of the dual norms is below the tolerance (C72_complete_partial), and sound and complete at zero for all weights (C72_null_sound_partial, C72_null_complete_partial); screening, what the loop accepts, and near-optimality of accepted points for exact restricted solutions (C72_optimal) are proved. REFUTED for other weights, off zero: the check passes with a gradient of any size along the coefficients when a group has no l1 weight; a minimizer fails when a group weight is tiny; a group with zero gradient is a TypeError; an unpenalized group is a NameError; unpenalized reports other groups; the ridge term is never multiplied by the Lagrange value; a subsampled path has its weights scaled twice."
  },
  "C73": {
    "note": "Value, gradient and tangents proved where no linear predictor is beyond 50 (suffix _partial). REFUTED beyond 50: the array returned is not the gradient and the function is not convex. REFUTED: constructor weights are ignored; with weights the deviance can be negative; subsample changes no value and overwrites the weights of the original."
  },
  "C74": {
    "note": "Values, gradients, frames, histories, copies and subsamples proved. REFUTED: with coef 1 the gradient returned is the buffer and is overwritten by the next evaluation; weights of the losses of a stack compound; stacked_loglike ignores weights and subsamples; a model over a stack with weights returns another value at each evaluation; mglm.stacked always raises NameError."
  },
  "C75": {
    "note": "Values, adjoint and histories proved. REFUTED: intervals that end with the signal are left out of the default list; SMUCE_stat leaves its own scaling in the transform and raises NameError when sigma is given; an update with an empty list fails and leaves an instance that answers zeros."
  },
  "C76": {
    "note": "np.bool, used by the module, is gone from numpy 1.24 on: the model is of the code under older numpy."
  },
  "C77": {
    "note": "The QR iteration of partial_svd is an argument; the theorems assume it exact (up to signs) and that no singular value is negligible. Early stopping, doubling of the rank, warm starts and filters are modelled and proved safe for any sequence of calls. REFUTED: lagrange_prox of the nuclear norm ignores lipschitz; an initial rank above min(shape), as the default 10 often is, makes every call fail; both maps fail at zero; copy() drops the offset; wide operator norms and conjugates cannot be built; min_singular above 1 fails."
  },
  "C78": {
    "note": "The solver is an argument, assumed to minimize the objective of the problem it is given. Proved for Gaussian, Huber and smoothed-hinge losses; for the logistic loss up to e^-100 per weighted trial. REFUTED: with unpenalized=True fit always raises, because the problem with lagrange=inf starts at the value inf*0 (nan); the quadratic of the constructor is ignored by fit, that of the atom is lost with alpha > 0; one row with successes, trials and weights is refused; the complementary log-log loss is fitted without the offset."
  },
  "C79": {
    "note": "REFUTED: scoring with sample weights multiplies the weight column of y in place, so the (m+1)st score is at w s^(m+1) and the fitted loss changes; without a weight column sample weights are ignored; the mean deviance of the complementary log-log loss is not divided; R2 of constant predictions is positive for some weighted data and some complementary log-log data; the Cox R2 of every constant is -1. Deviances (exactly computed range of predictors), unweighted Gaussian and logistic R2 are proved."
  },
  "C80": {
    "note": "REFUTED: classifier accuracy compares linear predictors with labels and is 0 generically; complementary log-log labels disagree with probabilities between ln ln 2 and 0; multinomial probabilities are refused unless n = q, n = 1 or q = 1 and need not sum to one for n = q; the Lagrange classifiers' constructor raises NameError. Labels, two-class probabilities, regressor accuracy and multinomial predict are proved."
  },
  "C81": {
    "note": "REFUTED beyond +-20 (value, gradient, convexity); the offset is never applied; hessian is the expected information, not the derivative of the gradient; weights passed to an evaluation are overwritten; copies add the constant again. Holds within +-20 without offset; convexity there uses the monotonicity of the Mills ratio, proved from the defining properties of the normal distribution. Evaluation histories, copies' values and subsamples are proved in full."
  },
  "C82": {
    "note": "REFUTED: a rejected assignment leaves the illegal responses in the loss, and the constant term stays that of the first data. Acceptance, histories ending in an accepted assignment, and the other attributes are proved in full."
  },
  "C83": {
    "note": "Completeness (nothing reported at a minimizer) and the exact meaning are proved in full. Soundness REFUTED: unpenalized coordinates, the direction of groups and sign constraints are not examined, and active nonnegative coordinates use the fixed tolerance 1/100; holds (C83_sound_partial) when those conditions are given."
  },
  "C84": {
    "note": "The exact meaning is proved in full. Safety REFUTED for group weights above 1 (also the default weights), because slope * lagrange_cur is not multiplied by the weight; holds for reserved labels and for group weights up to 1."
  },
  "C85": {
    "note": "REFUTED: the run warns at exact minimizers when a group of weight above 1 is active (the gradient of the strong set is computed without it); the first column is divided by the scalings and the others are not; the degrees of freedom reported after the first point are the number of features; with an elastic net the subproblems ignore it. Totality for every solver and acceptance only after the full check are proved in full; accuracy holds without elastic net, for given weights and exact subproblem solutions (C85_accuracy_partial)."
  },
  "C86": {
    "note": "REFUTED for positive part labels (wrong sign) and when null_solution is read before lagrange_max (computed from the zero vector); holds without positive part labels and with positive weights when lagrange_max is read first. The shape of the sequence is proved in full."
  },
  "C87": {
    "note": "REFUTED: rows below one hundredth of the total norm are tested as if they were zero; without l1 weight large gradients of rows off zero pass; with small weights minimizers fail; a flat row raises TypeError; ranks are positions of a sort, not ranks. Soundness up to explicit errors holds for positive weights (C87_sound_partial), completeness for weights the search resolves (C87_complete_partial); the meaning of the strong rule is proved in full."
  },
  "C88": {
    "note": "REFUTED: l1_alpha has no effect on the path, yet subsamples use the scaled weights; with tiny weights the default sequence is all zero. Acceptance only after the full check is proved for every solver; near-optimality with check_active and positive weights (C88_near_partial) or for exact subproblem solutions (C88_optimal); the first value is right up to the search errors (C88_lambda_max_partial)."
  },
  "C89": {
    "note": "Proved for the four kinds of path; the null fit for lasso and group paths. Inner solver abstract."
  },
  "C90": {
    "note": "REFUTED: tol and start_step given by the caller are ignored and tol is overwritten in the caller's dictionary; an empty sequence raises ValueError; with an offset in X warm_start and strong_rules solve different problems; after a warning strong_rules reports the deviance of an earlier solution. The rest holds for designs without offset; monotonicity when unpenalized features carry no ridge term."
  },
  "C91": {
    "note": "REFUTED: without a break the dual point returned is the extrapolated center, which can leave the domain of the conjugate; max_iters does not limit the rounds when epsilon is given; the quadratic of the loss is ignored; an empty schedule raises NameError. The problem of each round, its exactness, monotone distance to dual solutions, the stopping of the loop by either test and the value then (h Lipschitz; one eps for the default test) are proved for exact inner solvers."
  },
  "C92": {
    "note": "REFUTED: the primal point returned is the (extrapolated) center and can be infeasible; max_iters does not limit the rounds when epsilon is given; an empty schedule raises NameError; transforms without affine_offset (scaler, reshape, add_intercept) raise AttributeError. Rounds as proximal steps, monotone distance to minimizers, stopping and the value of the last point are proved for exact inner solvers."
  },
  "C93": {
    "note": "REFUTED: a multiplier or bound 0 divides by zero; positive_part, constrained_max, constrained_positive_part and max_positive_part pass wrong answers because the constraints in the seminorms are not looked at; for cones the answer 0 always passes, and so does the wrong projection of l2_epigraph. Equality of the values for positive parameters (cones other than the l2 pair), and soundness up to the tolerance where the documented seminorms are finite, are proved."
  },
  "C94": {
    "note": "REFUTED: the arguments coef and offset are accepted and ignored. The closed form, gradient, convexity, Lipschitz constant and distance to the hinge loss hold for every positive smoothing parameter."
  },
  "C95": {
    "note": "REFUTED: with any Q (array, transform or diagonal) the conjugate raises; squared_transform drops an offset of the transform. Without Q, and for the constructors, the statement holds; gradients of fromarray need a symmetric Q."
  },
  "C96": {
    "note": "REFUTED: with trials in each case and positive weights, glm.logistic never exceeds the documented value and returns it if and only if no linear predictor exceeds 100; for one success glm.cloglog returns it if and only if the linear predictor is between -5 and 5, and with a saturated offset only if that offset is zero. Holds: acceptance is exact and the gradient is that of the value for every input; the value is the documented one where exponents are not clipped and, for huber_svm, with smoothing parameter 1."
  },
  "C97": {
    "note": "REFUTED: a new design is used by the linear predictor, the Hessian and copies, but not by the objective and its gradient; a refused assignment replaces the design and the successes; counts are not checked. Holds, for every history, when the design is the one the model was made with."
  },
  "C98": {
    "note": "REFUTED: huber and huber_svm ignore coef; logistic, probit and cloglog take the successes as shape and the trials as successes, and raise without trials; poisson raises NameError; all functions stacked_* of sparse_group_block but stacked_gaussian raise. Gaussian stacks are as documented, except that case weights of stacked_loglike have no effect (C74)."
  },
  "C99": {
    "note": "REFUTED: no == looks at the offset or the quadratic; slope ignores its weights, sparse_group_lasso its feature weights, group lasso cones their groups and weights; weighted norms broadcast a single weight and raise ValueError for other different lengths; == of subspaces is neither symmetric nor transitive and holds between different lines. Copies are faithful for all these classes; equal weighted norms of one length with the same offset and quadratic are identical."
  },
  "C100": {
    "note": "REFUTED for penalties: weighted norms, slope, group lasso and its cones take the number of rows of D as weights or groups, sparse_group_lasso raises TypeError, simplex_constraint and maximum NameError; a cone after an affine transform with its own offset subtracts that offset. Holds for cls.linear and cls.affine of all cones, up to the tolerance of the cone (C60); the dual is the conjugate when the quadratic has no curvature."
  },
  "C101": {
    "note": "REFUTED: problem.coefs[:] = v overwrites the solution an earlier solve of the problem returned; a second problem with the same penalty starts at the last point the first run tried, and when the run used up max_its choosing its start overwrites the first solution; ADMM iterations move the start of a problem with the same loss; a second quasi_newton.solve can overwrite and return the array of the first. Holds for every history without assignments to that problem and without a second problem on its penalty, for any number of fits with a new penalty each (paths, estimators), and for the values computed by FISTA and quasi-Newton."
  },
  "C102": {
    "note": "REFUTED: with an unpenalized intercept every fold reports at the first value the null solution of the whole sample, held-out responses included, so leave-one-out of two responses scores a quarter of what the training fits score; path_fitter=basil raises for every sample (an array has no entry 'beta'); basil overwrites the gradient of its initial data, so the same call a second time gives other coefficients. Holds for strong_rules with every feature penalized (Gaussian, Poisson, Huber and SVM losses) up to the tolerance of the KKT check, whatever the folds and the order of the jobs; given the initial data the training path depends on the training cases only, for every family."
  },
  "C103": {
    "note": "REFUTED: vstack, hstack and product raise on every matrix with more than one column, in both directions, hence todense of a stack always fails; so do reshape and the adjoints of add_intercept and selector; scaler multiplies the columns instead of the rows (todense of a scaler after a square matrix is a wrong matrix, silently) or raises; aslinear of a matrix that is not square has its shapes exchanged. Holds, for every depth and every number of columns, for matrices, diagonals, offsets, wrapped transforms, selectors and intercepts used forward, centering, identity, residuals, compositions, sums, multiples and adjoints of these."
  },
  "C104": {
    "note": "REFUTED: a restart only sets the point of its own step to the coefficients; the weights (line 125 sets a local variable nobody reads) go on growing as in a run without restarts, and the momentum after a restart is that of the unrestarted sequence. Holds: iterations r, 2r, ... step from the coefficients and no others do (any problem, any interval); with restart=1 every iteration is the proximal gradient step, never refused, never increasing, with the O(1/k) rate against every point, with or without backtracking."
  },
  "C105": {
    "note": "REFUTED: if a coefficient is in no group the object returned ignores that coordinate, where the conjugate is infinite off 0 and Moreau's identity fails (for every such S and coordinate); smoothed(q) and the conjugate of an S with a curved quadratic raise ValueError in every mode at every point; an assigned linear term is dropped; selectors raises NameError whenever there is a member (definitional in the model, no theorem). Holds: for groups that cover every position the conjugate is the Fenchel conjugate, with exact values and proximal maps and with Moreau's identity, for any exact members and in particular the documented atoms and cones; singleton and fromatom pose the problems stated."
  },
  "C106": {
    "note": "REFUTED: hstack, product and selector, and the adjoints of vstack and product, ignore every entry after the last one expected; identity and centering take any length; scaler repeats a one-entry vector, a one-entry diagonal or offset is repeated. Holds: matrices, diagonals and offsets of more than one entry, reshape, selectors of a missing position, and every stack given too few entries raise."
  },
  "C107": {
    "note": "REFUTED: a == a raises TypeError whenever center or linear_term is None; from every a with a nonnegative constant term == fails to be symmetric and transitive; every a equals some b whose values differ by any amount; every linear a has an unequal representation of the same function; noneify raises AttributeError whenever there is a center. Holds: with all fields set, == is the comparison of the four broadcast fields up to numpy's tolerances; copies are equal and the same function; noneify never changes the function."
  },
  "C108": {
    "note": "REFUTED: sigma has no effect (it is not passed on); the transform is left with another scaling; with n draws with distinct statistics and a quantile between (n-1)/n and 1, fewer than the share quantile of the draws do not exceed the result. Holds: the result is the unique percentile (linear interpolation) of the largest statistics, more than quantile*(n-1) draws do not exceed it and at least (1-quantile)*(n-1) are not below it, it is monotone in quantile, independent of the order of the draws and of the scaling of M, and other quantiles raise ValueError. The draws are an argument of the model."
  },
  "C109": {
    "note": "REFUTED: the constant ignores the case weights, so for one case with some but not all successes the objective at the best fit is zero only if the weight is 1 and negative if it is less; the Poisson constant is -coef^2 (N-1) log N in place of coef (N log N - N), so the objective at the best fit is 1 for a count of 1 and negative for every count from 3 on. Holds: with unit weights, for binomial data with trials in each case, the objective is the excess and not negative, where exponents are not clipped (exact value also given with weights)."
  },
  "C110": {
    "note": "REFUTED: a group with weight zero is discarded at the gradient of every solution for the current value, as its gradient is zero there and terms reports 0, though its coefficients need not be zero. Holds: the set is exactly that of the rule, sorted and without repetition, and is safe for groups with positive weight. check_KKT of the same module always raises NameError (solutionn) and is not given a theorem."
  },
  "C111": {
    "note": "REFUTED: linear predictors are clipped at 50 in each category separately, so for two categories whose coefficients differ some common shift changes the value. Holds: all three statements where no linear predictor is beyond 50, with or without weights (offsets None)."
  },
  "C112": {
    "note": "REFUTED: with coef 0 a nonzero center that nothing depends on makes iszero false although the quadratic is zero everywhere. Holds: iszero is true exactly for the zero quadratics with zero center; true_center is the unique minimizer and is None exactly when there is none."
  }
}