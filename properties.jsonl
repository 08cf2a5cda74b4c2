{"id": "C01", "title": "Quadratic value and gradient agree", "statement": "For an identity_quadratic with coefficient L, center mu, linear term eta, constant gamma, objective(x,'func') is L/2*||x-mu||^2+<eta,x>+gamma, objective(x,'grad') is its exact gradient at x, and 'both' returns exactly the pair; any other mode is rejected.", "quantifier": "every dimension, every coefficient (any sign), every center/linear term (None, scalar or vector), every point", "why_tests_cant": "an identity over all real vectors and dimensions; tests sample a handful of points", "anchors": ["regreg/identity_quadratic.py:identity_quadratic.objective"]}
{"id": "C02", "title": "Quadratic algebra preserves the function", "statement": "q1+q2, collapsed() and recenter(offset) return quadratics denoting exactly q1+q2, q and x->q(x+offset) as functions; adding None returns the operand; adding anything else is rejected.", "quantifier": "every pair of quadratics of one dimension and every point", "why_tests_cant": "functional equality over all reals; finite samples cannot establish it", "anchors": ["regreg/identity_quadratic.py:identity_quadratic.__add__", "regreg/identity_quadratic.py:identity_quadratic.collapsed", "regreg/identity_quadratic.py:identity_quadratic.recenter"]}
{"id": "C03", "title": "Conjugate of a quadratic is its Fenchel conjugate", "statement": "For a quadratic with positive coefficient, conjugate denotes u -> sup_x <u,x>-q(x), the supremum is attained, and conjugating twice gives back the same function.", "quantifier": "every dimension, every quadratic with coef>0, every u", "why_tests_cant": "a supremum over all of R^p cannot be enumerated", "anchors": ["regreg/identity_quadratic.py:identity_quadratic.conjugate"]}
{"id": "C04", "title": "Lagrange-mode proximal maps are exact unique minimizers", "statement": "For l1norm, supnorm, l2norm, positive_part, constrained_max, constrained_positive_part and max_positive_part with lagrange lam>=0, lagrange_prox(x,L,lam) is the unique minimizer over R^p of L/2||x-v||^2+lam*h(v), with h the documented (possibly infinite valued) seminorm.", "quantifier": "every dimension p>=1, every x in R^p, L>0, lam>=0, every competitor v", "why_tests_cant": "global optimality quantifies over all competitors", "anchors": ["regreg/atoms/seminorms.py:l1norm.lagrange_prox", "regreg/atoms/seminorms.py:supnorm.lagrange_prox", "regreg/atoms/seminorms.py:l2norm.lagrange_prox", "regreg/atoms/seminorms.py:positive_part.lagrange_prox", "regreg/atoms/seminorms.py:constrained_max.lagrange_prox", "regreg/atoms/seminorms.py:constrained_positive_part.lagrange_prox", "regreg/atoms/seminorms.py:max_positive_part.lagrange_prox"]}
{"id": "C05", "title": "Bound-mode proximal maps are exact Euclidean projections", "statement": "For the same seven seminorms with bound b>=0, bound_prox(x,b) satisfies h<=b and is the unique closest point to x in {h<=b}.", "quantifier": "every p>=1, x, b>=0, every feasible competitor", "why_tests_cant": "global optimality quantifies over all competitors", "anchors": ["regreg/atoms/seminorms.py:l1norm.bound_prox", "regreg/atoms/seminorms.py:supnorm.bound_prox", "regreg/atoms/seminorms.py:l2norm.bound_prox", "regreg/atoms/seminorms.py:positive_part.bound_prox", "regreg/atoms/seminorms.py:constrained_max.bound_prox", "regreg/atoms/seminorms.py:constrained_positive_part.bound_prox", "regreg/atoms/seminorms.py:max_positive_part.bound_prox"]}
{"id": "C06", "title": "proximal accounts for offset and all quadratic terms", "statement": "atom.proximal(q) returns the unique minimizer of h(v-offset) (or its constraint) plus the atom's own quadratic plus q, whenever the two coefficients sum to a positive number, and raises ValueError when they sum to zero.", "quantifier": "every seminorm atom, offset, own quadratic and proximal quadratic, at least one of whose terms is array valued", "why_tests_cant": "the offset/linear-term bookkeeping must be right for all combinations", "anchors": ["regreg/atoms/seminorms.py:seminorm.proximal", "regreg/identity_quadratic.py:identity_quadratic.recenter"]}
{"id": "C07", "title": "proximal rejects a non-positive total coefficient", "statement": "proximal raises ValueError whenever the sum of the coefficients is not positive, as its error message says, so that a returned point is always a minimizer.", "quantifier": "every quadratic", "why_tests_cant": "the negative half line is unbounded and unsampled", "anchors": ["regreg/atoms/seminorms.py:seminorm.proximal"]}
{"id": "C08", "title": "conjugate is the Fenchel conjugate", "statement": "For every seminorm atom in either mode, with any offset and any linear/constant term in its quadratic (coefficient 0), atom.conjugate is an atom of the paired class whose documented objective equals u -> sup_x <u,x> - documented objective(x).", "quantifier": "every atom class, mode, parameter, offset, linear term, constant, and every u", "why_tests_cant": "a supremum over R^p for every u", "anchors": ["regreg/atoms/seminorms.py:seminorm.get_conjugate", "regreg/atoms/seminorms.py:conjugate_seminorm_pairs", "regreg/atoms/__init__.py:_work_out_conjugate"]}
{"id": "C09", "title": "Conjugating twice returns an equivalent atom", "statement": "atom.conjugate.conjugate has the same class, mode, parameter and the same objective function as atom.", "quantifier": "every seminorm atom with quadratic.coef==0", "why_tests_cant": "functional equality", "anchors": ["regreg/atoms/seminorms.py:seminorm.get_conjugate"]}
{"id": "C10", "title": "Lagrange and bound modes stay exclusive under any history", "statement": "Construction with neither, both, or a negative parameter is rejected; afterwards, under any sequence of reads and assignments to lagrange/bound, an atom is in exactly one mode, assignments in the wrong mode raise and leave the atom unchanged, and the mode never changes.", "quantifier": "every finite sequence of operations", "why_tests_cant": "histories are unbounded", "anchors": ["regreg/atoms/seminorms.py:seminorm.__init__", "regreg/atoms/seminorms.py:seminorm.set_lagrange", "regreg/atoms/seminorms.py:seminorm.set_bound"]}
{"id": "C11", "title": "Piecewise-linear root finder returns the root", "statement": "find_solution_piecewise_linear_c(b,slope,norms) with slope in {0,1} returns 0 when sum(norms)<b and otherwise a t>=0 (for slope 0) with sum_i (norms_i-t)^+ = slope*t+b; the weighted variant does the same for sum_i w_i*(norms_i-w_i t)^+.", "quantifier": "every non-empty vector of non-negative norms, any order, with ties, every b in range", "why_tests_cant": "all orderings, tie patterns and lengths", "anchors": ["regreg/atoms/piecewise_linear.pyx:find_solution_piecewise_linear_c", "regreg/atoms/piecewise_linear.pyx:find_solution_piecewise_linear", "regreg/atoms/piecewise_linear.pyx:find_solution_piecewise_linear_uncon"]}
{"id": "C12", "title": "Feasibility checks accept every feasible point and only nearly feasible ones", "statement": "constraint(x) returns 0 for each x with h(x)<=bound, and returns 0 only if h(x)<=bound*(1+1e-5); otherwise inf.", "quantifier": "every seminorm, bound and x", "why_tests_cant": "boundary behaviour has to hold for every point on the boundary", "anchors": ["regreg/atoms/seminorms.py:l1norm.constraint", "regreg/atoms/seminorms.py:constrained_max.constraint", "regreg/atoms/seminorms.py:max_positive_part.constraint", "regreg/atoms/seminorms.py:constrained_positive_part.constraint"]}
{"id": "C13", "title": "Cone proximal maps are exact projections", "statement": "cone_prox of nonnegative, nonpositive, zero, zero_constraint, l1_epigraph, l1_epigraph_polar, linf_epigraph, linf_epigraph_polar returns the unique closest point of the cone it documents.", "quantifier": "every dimension and point, every competitor", "why_tests_cant": "global optimality", "anchors": ["regreg/atoms/cones.py:nonnegative", "regreg/atoms/cones.py:nonpositive", "regreg/atoms/cones.py:zero", "regreg/atoms/cones.py:zero_constraint", "regreg/atoms/cones.py:l1_epigraph", "regreg/atoms/cones.py:linf_epigraph", "regreg/atoms/projl1_cython.pyx:projl1_epigraph"]}
{"id": "C14", "title": "l2 epigraph proximal map is the projection onto the second-order cone", "statement": "l2_epigraph.cone_prox(x) is the closest point to x in {(u,t): ||u||_2<=t}; in particular it leaves points of the cone unchanged, and l2_epigraph_polar likewise.", "quantifier": "every dimension and point", "why_tests_cant": "needs interior, exterior, polar and degenerate points at once", "anchors": ["regreg/atoms/cones.py:l2_epigraph", "regreg/atoms/cones.py:l2_epigraph_polar"]}
{"id": "C15", "title": "Moreau decomposition for polar pairs", "statement": "For each paired cone class, x = cone_prox(x) + polar.cone_prox(x), and the two parts are orthogonal.", "quantifier": "every pair, dimension, point", "why_tests_cant": "identity over all points", "anchors": ["regreg/atoms/cones.py:conjugate_cone_pairs"]}
{"id": "C16", "title": "Simplex projection and maximum are exact", "statement": "simplex_constraint.proximal returns the closest point of the probability simplex; maximum.proximal is the exact proximal map of lam*max(x).", "quantifier": "every p>=1 and point", "why_tests_cant": "global optimality", "anchors": ["regreg/atoms/simplex.py:simplex_constraint", "regreg/atoms/simplex.py:maximum"]}
{"id": "C17", "title": "Isotonic regression is exact", "statement": "The pool-adjacent-violators code returns the unique non-decreasing vector minimizing the (weighted) squared distance to its input, and always terminates.", "quantifier": "every length, input and positive weights", "why_tests_cant": "pooling patterns are unbounded", "anchors": ["regreg/atoms/_isotonic.pyx:_isotonic_regression", "regreg/atoms/_isotonic_py.py:pav"]}
{"id": "C18", "title": "SLOPE proximal map is exact", "statement": "slope.lagrange_prox(x,L,lam) is the unique minimizer of L/2||x-v||^2+lam*sum_j w_(j)|v|_(j), the sorted-l1 norm with non-increasing weights.", "quantifier": "every length, weights, x (with ties, zeros and signs)", "why_tests_cant": "global optimality over all competitors and all orderings", "anchors": ["regreg/atoms/slope.py:_basic_proximal_map", "regreg/atoms/slope.py:slope"]}
{"id": "C19", "title": "Weighted l1/sup norms: prox, projection, conjugacy", "statement": "weighted_atoms l1norm/supnorm with weights w>=0 (inf allowed) have exact Lagrange prox and bound projection and are mutual Fenchel conjugates.", "quantifier": "every weight vector incl. zeros and infinities", "why_tests_cant": "global optimality", "anchors": ["regreg/atoms/weighted_atoms.py:l1norm", "regreg/atoms/weighted_atoms.py:supnorm"]}
{"id": "C20", "title": "Group lasso proximal maps are exact", "statement": "group_lasso.lagrange_prox, group_lasso.bound_prox, group_lasso_dual.bound_prox/lagrange_prox are exact unique minimizers for the documented norms sum_g w_g||x_g||_2 and max_g ||x_g||_2/w_g.", "quantifier": "every partition into groups, weights, input", "why_tests_cant": "global optimality over all partitions", "anchors": ["regreg/atoms/group_lasso.py:group_lasso", "regreg/atoms/group_lasso.py:group_lasso_dual", "regreg/atoms/mixed_lasso_cython.pyx:mixed_lasso_lagrange_prox"]}
{"id": "C21", "title": "Sparse group lasso proximal map is exact", "statement": "sparse_group_lasso.lagrange_prox (soft-threshold, then group soft-threshold) is the unique minimizer of L/2||x-v||^2+lam*(sum_j a_j|v_j|+sum_g w_g||v_g||_2).", "quantifier": "every partition, weights, input", "why_tests_cant": "global optimality", "anchors": ["regreg/atoms/sparse_group_lasso.py:sparse_group_lasso.lagrange_prox", "regreg/atoms/sparse_group_block.py:_lagrange_prox"]}
{"id": "C22", "title": "Dual-norm binary search is accurate and terminates", "statement": "The gauge bisection used for the sparse group lasso dual norm terminates and returns a value within its relative tolerance of the true gauge.", "quantifier": "every point, weights", "why_tests_cant": "iteration count depends on the input", "anchors": ["regreg/atoms/sparse_group_lasso.py:gauge_function_dual", "regreg/atoms/sparse_group_lasso.py:_gauge_function_dual_strong"]}
{"id": "C23", "title": "Mixed lasso: penalty prox exact; ball projection exact", "statement": "mixed_lasso_lagrange_prox minimizes each block of the mixed penalty (unpenalized, l1, positive part, nonnegative, groups); mixed_lasso_bound_prox projects on the ball of the mixed norm.", "quantifier": "every assignment of coordinates to the penalty kinds", "why_tests_cant": "global optimality", "anchors": ["regreg/atoms/mixed_lasso_cython.pyx:mixed_lasso_lagrange_prox", "regreg/atoms/mixed_lasso_cython.pyx:mixed_lasso_bound_prox"]}
{"id": "C24", "title": "FISTA never accepts a worse iterate", "statement": "With the monotonicity restart enabled, every accepted change of the coefficients after the first two iterations does not increase the recorded objective by more than the relative tolerance 1e-10, and a rejected proposal leaves the coefficients unchanged.", "quantifier": "every smooth/proximal oracle, every iteration, every interleaving of restarts and backtracking", "why_tests_cant": "arbitrary oracles and histories", "anchors": ["regreg/algorithms.py:FISTA.fit"]}
{"id": "C25", "title": "FISTA terminates, honours the iteration cap and its history is faithful", "statement": "fit performs at most max_its iterations, at least min(min_its,max_its) unless it stops for repeated bad steps, and returns one recorded objective per completed iteration, the value at the coefficients held at the start of that iteration.", "quantifier": "every oracle and parameter setting", "why_tests_cant": "arbitrary oracles", "anchors": ["regreg/algorithms.py:FISTA.fit"]}
{"id": "C26", "title": "The FISTA/ISTA switch is honoured", "statement": "With FISTA=False no momentum is used: the working point always equals the current coefficients.", "quantifier": "every run", "why_tests_cant": "must hold along whole histories", "anchors": ["regreg/algorithms.py:FISTA.update_working_coefs"]}
{"id": "C27", "title": "Backtracking only ends with a verified step", "statement": "When backtracking ends without exception, the returned step size is positive and the proposed point is the proximal-gradient step of that size and satisfies the sufficient-decrease test; when the smooth part has an L-Lipschitz gradient, backtracking ends once the step is below 1/L.", "quantifier": "every smooth function and start step", "why_tests_cant": "loop with data-dependent bound", "anchors": ["regreg/algorithms.py:FISTA.backtrack"]}
{"id": "C28", "title": "Proximal-gradient fixed points are global minimizers", "statement": "If the proximal-gradient step at x returns x then x minimizes smooth+nonsmooth, for convex differentiable smooth part.", "quantifier": "every convex smooth part, every exact prox", "why_tests_cant": "all competitors", "anchors": ["regreg/algorithms.py:FISTA.update_working_coefs", "regreg/problems/simple.py:simple_problem.proximal"]}
{"id": "C29", "title": "Every affine transform's adjoint is its true adjoint", "statement": "<linear_map(x),y> = <x,adjoint_map(y)> for dense, diagonal, None, selector, scaler, reshape, normalize, add_intercept, centering, vstack, hstack, product, composition, affine_sum, scalar_multiply, residual, posneg, adjoint, and any nesting of them.", "quantifier": "every transform built by any finite nesting of constructors, all x,y of matching shape", "why_tests_cant": "nesting depth and data are unbounded", "anchors": ["regreg/affine/__init__.py:affine_transform", "regreg/affine/__init__.py:selector", "regreg/affine/__init__.py:vstack", "regreg/affine/__init__.py:hstack", "regreg/affine/__init__.py:product", "regreg/affine/__init__.py:composition", "regreg/affine/__init__.py:affine_sum", "regreg/affine/__init__.py:scalar_multiply", "regreg/affine/__init__.py:residual", "regreg/affine/__init__.py:posneg", "regreg/affine/__init__.py:normalize"]}
{"id": "C30", "title": "affine_map = linear_map + affine_offset", "statement": "For each transform, affine_map(x) = linear_map(x) + affine_offset (offset None meaning 0).", "quantifier": "every transform and x", "why_tests_cant": "nesting", "anchors": ["regreg/affine/__init__.py:composition", "regreg/affine/__init__.py:affine_sum", "regreg/affine/__init__.py:residual", "regreg/affine/__init__.py:scalar_multiply", "regreg/affine/__init__.py:vstack", "regreg/affine/__init__.py:hstack"]}
{"id": "C31", "title": "Returned arrays are not changed by later calls", "statement": "The array returned by adjoint_map is not modified by later calls on the same transform.", "quantifier": "every sequence of calls", "why_tests_cant": "call histories", "anchors": ["regreg/affine/__init__.py:selector.adjoint_map", "regreg/affine/__init__.py:posneg.adjoint_map"]}
{"id": "C32", "title": "Affine atoms evaluate the documented composition", "statement": "atom.affine(D,alpha) has objective h(D x + alpha); atom.linear(D) has objective h(D x); atom.shift(alpha) has h(x-alpha).", "quantifier": "every atom, D, alpha, x", "why_tests_cant": "all x", "anchors": ["regreg/atoms/__init__.py:affine_atom", "regreg/atoms/seminorms.py:seminorm.affine", "regreg/atoms/seminorms.py:seminorm.linear", "regreg/atoms/seminorms.py:seminorm.shift"]}
{"id": "C33", "title": "Smooth losses: gradient is the derivative of the value", "statement": "For Gaussian, logistic, Poisson, Huber, huber_svm, cloglog and quadratic losses, smooth_objective(x,'grad') is the gradient of x->smooth_objective(x,'func'), in every coordinate, for any case weights and coefficient.", "quantifier": "every data set, weights, coefficient and point", "why_tests_cant": "derivative at every point", "anchors": ["regreg/smooth/glm.py:gaussian_loglike", "regreg/smooth/binary.py:logistic_loglike", "regreg/smooth/glm.py:poisson_loglike", "regreg/smooth/glm.py:_huber_loss", "regreg/smooth/binary.py:_huber_svm", "regreg/smooth/binary.py:cloglog_loglike", "regreg/smooth/quadratic.py:quadratic_loss"]}
{"id": "C34", "title": "Smooth losses are convex", "statement": "The Gaussian, logistic, Poisson and Huber losses with nonnegative weights and coefficient lie above all their tangents.", "quantifier": "all pairs of points", "why_tests_cant": "all pairs of points", "anchors": ["regreg/smooth/glm.py:gaussian_loglike", "regreg/smooth/binary.py:logistic_loglike", "regreg/smooth/glm.py:poisson_loglike", "regreg/smooth/glm.py:huber_loss"]}
{"id": "C35", "title": "Evaluating a loss has no side effects", "statement": "Evaluating a glm any number of times, in any modes, returns the same values each time and leaves its case weights unchanged.", "quantifier": "every history of evaluations", "why_tests_cant": "histories", "anchors": ["regreg/smooth/glm.py:glm.smooth_objective", "regreg/smooth/glm.py:gaussian_loglike.smooth_objective"]}
{"id": "C36", "title": "copy and subsample of a loss preserve meaning", "statement": "copy(loss) has the same objective; subsample(idx) equals the same loss with weights of cases outside idx set to zero.", "quantifier": "every loss, data, weights, index set", "why_tests_cant": "all data", "anchors": ["regreg/smooth/glm.py:huber_loss.__copy__", "regreg/smooth/binary.py:logistic_loglike.__copy__", "regreg/smooth/glm.py:gaussian_loglike.subsample"]}
{"id": "C37", "title": "Cox partial likelihood: value, gradient and Hessian are right with ties", "statement": "cox_objective equals sum_i c_i w_i (log sum_{j:T_j>=T_i} w_j e^{eta_j} - eta_i); the gradient and the Hessian product computed by the cumulative-sum code are its first and second derivatives.", "quantifier": "every sample size, tie pattern, censoring, weights, eta", "why_tests_cant": "tie patterns and orders are unbounded", "anchors": ["regreg/smooth/cox_fns.c:_cox_objective", "regreg/smooth/cox_fns.c:_cox_gradient", "regreg/smooth/cox_fns.c:_cox_hessian", "regreg/smooth/cox.py:cox_loglike"]}
{"id": "C38", "title": "affine_smooth and smooth sums obey chain and sum rules", "statement": "The value of loss.affine(X,b) at x is the loss at Xx+b and its gradient is X^T times the loss gradient; smooth.sum adds values and gradients with the given weights.", "quantifier": "all X,b,x and all finite lists of atoms", "why_tests_cant": "all inputs", "anchors": ["regreg/smooth/__init__.py:affine_smooth", "regreg/smooth/__init__.py:sum"]}
{"id": "C39", "title": "Objective terms are not lost when atoms are combined", "statement": "The objective minimized by simple_problem, smooth.sum, affine_smooth and container is the sum of all objectives of their parts, including quadratic terms.", "quantifier": "all parts", "why_tests_cant": "all inputs", "anchors": ["regreg/problems/simple.py:simple_problem", "regreg/smooth/__init__.py:sum", "regreg/problems/container.py:container"]}
{"id": "C40", "title": "solve(quadratic=q) solves with q added and restores the problem", "statement": "simple_problem.solve, smooth.solve, nonsmooth.solve and container.solve given a quadratic minimize objective + q, report the optimum of that, and afterwards the problem's own quadratic is unchanged.", "quantifier": "all problems, all q", "why_tests_cant": "stateful histories", "anchors": ["regreg/problems/simple.py:simple_problem.solve", "regreg/problems/composite.py:smooth.solve", "regreg/problems/container.py:container.solve"]}
{"id": "C41", "title": "Dual container proximal recovers the primal prox", "statement": "If u minimizes the dual problem then the point the container returns minimizes q(v)+sum_i h_i(D_i v).", "quantifier": "all transforms and atoms", "why_tests_cant": "all competitors", "anchors": ["regreg/problems/container.py:container.proximal", "regreg/problems/dual_problem.py:dual_problem"]}
{"id": "C42", "title": "Separable proximal and overlap detection", "statement": "separable.proximal with non-overlapping groups minimizes the sum of the per-group objectives; has_overlap returns True exactly when two groups share an index.", "quantifier": "all groupings", "why_tests_cant": "all groupings", "anchors": ["regreg/problems/separable.py:separable.proximal", "regreg/problems/separable.py:has_overlap"]}
{"id": "C43", "title": "ADMM updates minimize the augmented Lagrangian", "statement": "Each ADMM block update minimizes the augmented Lagrangian of min l(x)+h(Dx+alpha) in its own block, and a fixed point of the iteration is a minimizer.", "quantifier": "all problems", "why_tests_cant": "all competitors", "anchors": ["regreg/problems/admm.py:admm_problem"]}
{"id": "C44", "title": "BFGS update keeps the Hessian symmetric positive definite and satisfies the secant equation", "statement": "After update_hessian with y.s>0 the new matrix B satisfies B s = y, is symmetric and positive definite if the old one was; if y.s is clearly negative it raises.", "quantifier": "all dimensions, steps, histories of updates", "why_tests_cant": "matrix inequality over all vectors, unbounded histories", "anchors": ["regreg/problems/newton.py:quasi_newton.update_hessian"]}
{"id": "C45", "title": "Lasso KKT check and lambda_max", "statement": "If check_KKT reports no failure at tolerance 0 the point minimizes the weighted lasso; for lagrange at least the dual norm of the null gradient the null solution is optimal, which is where default_lagrange_sequence starts; the sequence is decreasing.", "quantifier": "all data and weights", "why_tests_cant": "all competitors", "anchors": ["regreg/paths/lasso.py:_check_KKT", "regreg/paths/__init__.py:default_lagrange_sequence"]}
{"id": "C46", "title": "Strong-rules path: every accepted point passes the full KKT check and the loop terminates", "statement": "At each lagrange value strong_rules stops after at most max_tries inner solves; if it did not warn, no feature fails the inactive KKT check and the reported solution is zero outside the solved subproblem.", "quantifier": "every loss, penalty, sub-solver behaviour", "why_tests_cant": "arbitrary sub-solver answers", "anchors": ["regreg/paths/__init__.py:strong_rules"]}
{"id": "C47", "title": "Unpenalized features are always in the model on the strong-rules path", "statement": "Features with zero weight are part of every subproblem, so their coefficients satisfy stationarity.", "quantifier": "all data", "why_tests_cant": "all data", "anchors": ["regreg/paths/__init__.py:strong_rules", "regreg/paths/lasso.py:lasso_path.updated_ever_active"]}
{"id": "C48", "title": "Cross-validation folds partition the sample", "statement": "For any n and cv, each sample is in exactly one test fold, train is its complement, fold sizes differ by at most one, whatever the shuffle.", "quantifier": "all n, cv, permutations", "why_tests_cant": "all permutations", "anchors": ["regreg/paths/cross_validate.py:cross_validate"]}
{"id": "C49", "title": "BASIL terminates and covers the sequence", "statement": "basil returns one solution per lagrange value, in order, and terminates.", "quantifier": "all sub-solver behaviours", "why_tests_cant": "unbounded loop", "anchors": ["regreg/paths/basil.py:basil"]}
{"id": "C50", "title": "Linear constraints: projection and complement", "statement": "projection.cone_prox projects on the row space of an orthonormal basis, projection_complement on its orthogonal complement, they sum to the identity, and constraint accepts exactly (to tolerance) the subspace.", "quantifier": "all orthonormal bases, points", "why_tests_cant": "all competitors", "anchors": ["regreg/atoms/linear_constraints.py:projection", "regreg/atoms/linear_constraints.py:projection_complement"]}
{"id": "C51", "title": "Difference operators: trend filtering", "statement": "difference_transform of order k annihilates polynomials of degree < k on the knots; trend_filter_inverse is a right inverse of the order-1 operator with mean-zero output and its adjoint_map is its adjoint.", "quantifier": "all strictly increasing knots, all orders", "why_tests_cant": "all knots", "anchors": ["regreg/affine/fused_lasso.py:difference_transform", "regreg/affine/fused_lasso.py:trend_filter_inverse"]}
{"id": "C52", "title": "Smoothed atoms: value and gradient", "statement": "smooth_conjugate/conjugate.smooth_objective(u) is sup_x <u,x>-f(x)-q(x) and the returned gradient is the maximizer; its gradient is Lipschitz with constant 1/coef.", "quantifier": "all u", "why_tests_cant": "sup over all x", "anchors": ["regreg/problems/composite.py:smooth_conjugate", "regreg/problems/conjugate.py:conjugate"]}
{"id": "C53", "title": "Nuclear and operator norm proximal maps are exact", "statement": "Given exact singular value decompositions, nuclear_norm/operator_norm lagrange_prox and bound_prox are unique minimizers in Frobenius distance; the nuclear norm epigraph membership test accepts exactly the epigraph.", "quantifier": "all matrices", "why_tests_cant": "all competitors", "anchors": ["regreg/atoms/svd_norms.py:nuclear_norm", "regreg/atoms/svd_norms.py:operator_norm", "regreg/atoms/svd_norms.py:nuclear_norm_epigraph"]}
{"id": "C54", "title": "Block norms proximal maps are exact", "statement": "l1_l2, linf_l2, l1_l1, linf_linf lagrange_prox and bound_prox are exact for every matrix, including matrices with zero rows; block_sum.bound_prox projects onto its ball.", "quantifier": "all matrices", "why_tests_cant": "all competitors", "anchors": ["regreg/atoms/block_norms.py:l1_l2", "regreg/atoms/block_norms.py:linf_l2", "regreg/atoms/block_norms.py:block_sum"]}
{"id": "C55", "title": "seminorm evaluates the documented function", "statement": "atom.seminorm(x, lagrange=lam, check_feasibility=True) returns lam*h(x), with h the documented possibly infinite function of the class.", "quantifier": "every class, every non-empty x, every lam", "why_tests_cant": "Tests check a few points; the claim is about all points, including boundary points of the domain.", "anchors": ["regreg/atoms/seminorms.py: l1norm.seminorm, supnorm.seminorm, l2norm.seminorm, positive_part.seminorm, constrained_max.seminorm, constrained_positive_part.seminorm, max_positive_part.seminorm"]}
{"id": "C56", "title": "positive_part_lagrange is a positive_part penalty", "statement": "positive_part_lagrange(n, lagrange, offset, quadratic) returns an atom whose objective equals that of positive_part in Lagrange form with the same arguments, up to a constant lagrange/2*sum(offset) independent of x.", "quantifier": "every n, lagrange >= 0, offset, quadratic", "why_tests_cant": "identity of functions on R^n", "anchors": ["regreg/atoms/seminorms.py:positive_part_lagrange"]}
{"id": "C57", "title": "Assigning an offset takes effect", "statement": "After atom.offset = v the atom is shifted by v, whatever its previous offset.", "quantifier": "every previous offset and every v", "why_tests_cant": "depends on the history of assignments", "anchors": ["regreg/problems/composite.py:composite.set_offset"]}
{"id": "C58", "title": "copy and equality of atoms", "statement": "copy(atom) has the same class, shape, mode, parameter, offset and quadratic; atom == other exactly when class, mode and parameter agree.", "quantifier": "every pair of atoms with legal parameters", "why_tests_cant": "all attribute combinations", "anchors": ["regreg/atoms/seminorms.py:seminorm.__copy__", "regreg/atoms/seminorms.py:seminorm.__eq__"]}
{"id": "C59", "title": "Cone atoms: proximal and conjugate account for offset and quadratic", "statement": "proximal(q) of a cone atom returns the unique minimizer of the cone indicator at v-offset plus the atom's quadratic plus q; its conjugate (quadratic coefficient 0) is an atom of the polar class whose documented objective is the Fenchel conjugate, and conjugating again gives the same objective.", "quantifier": "every cone class, dimension, offset, quadratics", "why_tests_cant": "suprema and minima over R^p", "anchors": ["regreg/atoms/cones.py:cone.proximal", "regreg/atoms/cones.py:cone.get_conjugate", "regreg/atoms/cones.py:conjugate_cone_pairs"]}
{"id": "C60", "title": "Cone feasibility checks", "statement": "constraint(x) of a cone atom is 0 for every point of the cone, infinite for every point outside the cone enlarged by the relative tolerance 1e-5; nonsmooth_objective adds the quadratic, and ignores the constraint unless check_feasibility.", "quantifier": "every cone class, dimension, point", "why_tests_cant": "boundary points in every dimension", "anchors": ["regreg/atoms/cones.py:nonnegative.constraint", "regreg/atoms/cones.py:l1_epigraph.constraint", "regreg/atoms/cones.py:cone.nonsmooth_objective"]}
{"id": "C61", "title": "SLOPE weights are checked", "statement": "Constructing a slope penalty raises ValueError unless the weights are positive and non-increasing.", "quantifier": "every weight vector", "why_tests_cant": "all weight vectors, including ones below the tolerance of the comparison", "anchors": ["regreg/atoms/slope.py:slope.__init__"]}
{"id": "C62", "title": "terms() lists the summands of the norm", "statement": "For the weighted norms, terms(x) returns the entries that are summed (l1) or maximized (sup) by seminorm(x).", "quantifier": "every finite weight vector and x", "why_tests_cant": "all weights", "anchors": ["regreg/atoms/weighted_atoms.py:l1norm.terms", "regreg/atoms/weighted_atoms.py:supnorm.terms"]}
{"id": "C63", "title": "FISTA converges at rate 1/k^2", "statement": "On a convex problem with exact gradient and proximal oracles, and restarts disabled, after k completed iterations the objective at the returned coefficients exceeds the objective of any minimizer z by at most 2|x0-z|^2/(s(k+1)^2), s the final step size.", "quantifier": "every convex smooth part with Lipschitz gradient, every convex proximable part, every starting point and number of iterations", "why_tests_cant": "a statement about all problems, all minimizers and all iteration counts", "anchors": ["regreg/algorithms.py:FISTA.fit", "regreg/algorithms.py:FISTA.update_working_coefs", "regreg/algorithms.py:FISTA.backtrack"]}
{"id": "C64", "title": "normalize standardizes the columns", "statement": "normalize(M, center, scale, value, ddof) is a linear map whose matrix columns are scalar multiples of the (centred, if requested) columns of M: with centring they sum to 0, with scaling their standard deviation (with the requested degrees of freedom) is value, except constant columns, which become 0; with intercept a constant column is put in front.", "quantifier": "every dense matrix, every combination of options, every column", "why_tests_cant": "all matrices and options, including constant columns", "anchors": ["regreg/affine/__init__.py:normalize"]}
{"id": "C65", "title": "power_L estimates a Lipschitz constant", "statement": "power_L(transform) never exceeds the squared operator norm of the transform, so it is an estimate of it from below.", "quantifier": "every transform, starting vector, tolerance and number of iterations", "why_tests_cant": "the start is random", "anchors": ["regreg/affine/__init__.py:power_L"]}
{"id": "C66", "title": "The Hessian of a loss is the derivative of its gradient", "statement": "loss.hessian(x) (and glm.hessian) is the derivative of smooth_objective(.,'grad') at the same point, for every loss that provides it.", "quantifier": "every data set, weights, coefficient, offset and point", "why_tests_cant": "derivative at every point", "anchors": ["regreg/smooth/glm.py:glm.hessian", "regreg/smooth/binary.py:logistic_loglike.hessian", "regreg/smooth/glm.py:poisson_loglike.hessian"]}
{"id": "C67", "title": "gengrad stops only at minimizers", "statement": "If gengrad with an exact inner solver does not move from a point, that point minimizes the problem it was given.", "quantifier": "all convex problems, all Lipschitz constants, all points", "why_tests_cant": "every fixed point of every problem", "anchors": ["regreg/problems/simple.py:gengrad"]}
{"id": "C68", "title": "A loss is only built from legal data", "statement": "Building a gaussian, logistic, Poisson, cloglog, huber or huber-svm loss succeeds exactly when coef is nonnegative, the response is legal for the family (0 <= successes <= trials; Poisson counts nonnegative and whole up to np.allclose) and the case weights, if given, are nonnegative and one per case; otherwise ValueError is raised and no object is created.", "quantifier": "all families, data vectors, coefficients, offsets and weight vectors of matching lengths", "why_tests_cant": "illegal data anywhere in a vector of any length must be caught", "anchors": ["regreg/smooth/binary.py:logistic_loglike.set_data", "regreg/smooth/glm.py:poisson_loglike.__init__", "regreg/smooth/glm.py:gaussian_loglike.__init__"]}
{"id": "C69", "title": "Quasi-Newton steps minimize the documented model, decrease the objective and stop only at minimizers", "statement": "Each inner solve of quasi_newton runs on G'd + d'Hd/2 + P(x+d) at the current point; a point where no step is left minimizes the whole objective; otherwise the direction found decreases it for all small steps; whatever step sizes the line search returns, the matrix stays symmetric positive definite during a whole run on a strictly convex loss.", "quantifier": "all smooth objects, penalties, starting points, step sizes, numbers of iterations", "why_tests_cant": "all competitors; arbitrary line-search results; unbounded histories", "anchors": ["regreg/problems/newton.py:quasi_newton.solve_inner_loop", "regreg/problems/newton.py:quasi_newton.solve", "regreg/problems/newton.py:quasi_newton.converged"]}
{"id": "C70", "title": "Group lasso path: optimality check, screening, and the first Lagrange value", "statement": "check_KKT of a group lasso path reports nothing exactly at the minimizers of loss + lagrange * sum of weighted group norms, up to its tolerance. The default sequence has nstep strictly decreasing positive values, starting at the smallest value at which the null solution is optimal. The rank of a failing group is its place by size of violation. strong_set keeps the groups whose gradient norm is more than 2*new - cur times their weight. A subsampled path has the same weights and checks.", "quantifier": "every convex loss, grouping, non-negative weights, point, Lagrange value and tolerance", "why_tests_cant": "optimality compares with every other coefficient vector; weights and groupings are arbitrary", "anchors": ["regreg/paths/group_lasso.py:_check_KKT", "regreg/paths/group_lasso.py:_strong_set", "regreg/paths/group_lasso.py:group_lasso_path", "regreg/paths/__init__.py:default_lagrange_sequence"]}
{"id": "C71", "title": "Strong-rules loop over groups: accepted points pass the full check, the loop ends, exact inner solves give near-optimal points", "statement": "strong_rules on a group lasso path returns one point per Lagrange value. Each is the inner solver's answer for the features of some groups, zero elsewhere. A point without a warning passes the full check. At most max_tries inner solves are made. With exact inner solves there are at most (number of groups + 1) solves per value, and the accepted point is optimal up to the tolerance. Groups with weight zero take part in every fit.", "quantifier": "every loss, grouping, weights, Lagrange sequence and every behaviour of the inner solver", "why_tests_cant": "the inner solver may answer anything, and the loop's state depends on the whole history of screened and failing groups", "anchors": ["regreg/paths/__init__.py:strong_rules", "regreg/paths/group_lasso.py:group_lasso_path"]}
{"id": "C72", "title": "Sparse group lasso path: check, screening, unpenalized groups, ridge term and subsampling", "statement": "check_KKT of a sparse group lasso path reports nothing at minimizers, and only near minimizers. strong_set keeps the groups whose gradient is outside 2*new - cur times the dual ball of their penalty. Groups without any penalty are found and fitted. The ridge term of penalized features is multiplied by the Lagrange value. A subsampled path has the weights of the path it comes from.", "quantifier": "every convex loss, grouping, group and feature weights, point, Lagrange value", "why_tests_cant": "optimality compares with every other coefficient vector; the dual norm is found by a search with tolerances", "anchors": ["regreg/paths/sparse_group_lasso.py:_check_KKT", "regreg/paths/sparse_group_lasso.py:_strong_set", "regreg/paths/sparse_group_lasso.py:sparse_group_lasso_path"]}
{"id": "C73", "title": "Multinomial losses are the weighted negative log likelihood of softmax probabilities", "statement": "The value of a multinomial loss is coef times the case-weighted negative log likelihood of its counts under softmax probabilities (baseline: last predictor zero), its gradient is the gradient, and it is convex. Adding a constant to a row of predictors changes nothing in the overparametrized class. The value plus the constant kept in its quadratic is the deviance: non-negative, zero exactly at a perfect fit. With two categories it is the logistic loss. Case weights of the constructor multiply the cases; subsample keeps the cases named and leaves the original alone. Bad arguments raise ValueError.", "quantifier": "every table of counts, weights, offset, coefficient and matrix of linear predictors", "why_tests_cant": "gradient, convexity and deviance are statements about all points; the clipping at 50 only shows far out", "anchors": ["regreg/smooth/mglm.py:multinomial_loglike", "regreg/smooth/mglm.py:multinomial_baseline_loglike"]}
{"id": "C74", "title": "Stacked losses and multiresponse models: sums of losses, chain rule, weights, and no effect between evaluations", "statement": "A stack evaluates loss j at column j (or piece j) with the product of its weights and the weights passed in; the gradient is the gradient of the sum. A multiresponse model evaluates its saturated loss at X B and returns the gradient in B. Evaluation changes neither values returned earlier nor values of later evaluations. Copies and subsamples have the restricted weights and leave the original alone.", "quantifier": "every list of losses, weights, offsets, design and coefficient matrix, and every sequence of evaluations", "why_tests_cant": "the arrays of weights and the gradient buffer are shared and written in place: what an evaluation returns depends on the history", "anchors": ["regreg/smooth/mglm.py:stacked_common_loglike", "regreg/smooth/mglm.py:mglm", "regreg/smooth/glm.py:stacked_loglike"]}
{"id": "C75", "title": "The multiscale transform averages the centered signal over the intervals asked for last", "statement": "linear_map of a multiscale transform subtracts the mean of the signal and returns its average over every interval times the scaling; adjoint_map is the adjoint of it. This holds after any sequence of updates of the intervals, copies and evaluations, for the intervals and the scaling given last. Without intervals the transform covers every interval of at least the minimal size. SMUCE_stat returns the largest statistic and its interval, with the noise level given, and leaves the transform as it was.", "quantifier": "every length, list of intervals, scaling and signal, and every sequence of updates, copies and evaluations", "why_tests_cant": "two separate implementations must agree for every list of intervals and every history of updates", "anchors": ["regreg/affine/multiscale.py:multiscale", "regreg/affine/multiscale.py:SMUCE_stat"]}
{"id": "C76", "title": "The image transform takes the differences over the edges of the lattice", "statement": "The matrices of the two-dimensional transform have one row for each pair of neighbouring pixels, the difference of the two, and no other non-zero row. The result seen as pairs holds the discrete gradient at every pixel; adjoint_map is the adjoint and affine_map adds the offset.", "quantifier": "every number of rows and columns, image, offset and dual array", "why_tests_cant": "the rows are assembled block by block with index arithmetic: a wrong index shows only at some sizes", "anchors": ["regreg/affine/image2d.py:image2d_differences", "regreg/affine/image2d.py:formD", "regreg/affine/image2d.py:formD_smaller"]}
{"id": "C77", "title": "Factored matrices act as the matrix they factor, and the factored norms give the proximal maps of the nuclear and operator norms after any history", "statement": "linear_map, adjoint_map and X of a factored_matrix are those of one matrix; factored_matrix(X).X is X. lagrange_prox and bound_prox of the factored nuclear and operator norms return the proximal map and the projection for the lipschitz constant given, for every matrix, however many triples the partial decomposition has found and whatever ranks and warm starts earlier calls of the same object have left. copy() keeps the object.", "quantifier": "every shape, matrix, initial rank, Lagrange or bound parameter, and every sequence of calls of the proximal maps of one object", "why_tests_cant": "the partial decomposition stops early by a rule that must be safe for every matrix, and each call changes the rank and warm start of the next", "anchors": ["regreg/affine/factored_matrix.py:factored_matrix", "regreg/affine/factored_matrix.py:compute_iterative_svd", "regreg/affine/factored_matrix.py:partial_svd", "regreg/affine/factored_matrix.py:nuclear_norm", "regreg/affine/factored_matrix.py:operator_norm"]}
{"id": "C78", "title": "fit of the scikit-learn estimators minimizes the documented penalized loss of the data in y", "statement": "For y holding responses, then case weights if declared, then an offset if declared, fit stores coefficients minimizing coef times the family's loss, at those weights and with that offset, plus the atom and the quadratic given; estimators with enet_alpha minimize loss + (1-alpha) lam P + alpha lam/2 |x|^2 with the atom built from the gradient at zero. y is not changed.", "quantifier": "every family, design, response, weights, offset, coef, atom in either form, alpha, and every solver that minimizes the problem it is given", "why_tests_cant": "columns are identified by position and count, so a wrong reading shows only for particular shapes and combinations of flags", "anchors": ["regreg/sklearn/base.py:base_mixin.fit", "regreg/sklearn/base.py:base_mixin._check_y", "regreg/sklearn/base.py:lagrange_mixin.fit", "regreg/sklearn/gaussian.py:sklearn_regression._loglike_factory", "regreg/sklearn/logistic.py:sklearn_logistic._loglike_factory"]}
{"id": "C79", "title": "Scores of the scikit-learn estimators are the documented functions of predictions and weights, repeatably", "statement": "score returns minus the deviance, minus the mean deviance, or R2, of X b minus the offset at the case weights times the sample weights; R2 is at most 0 for constant predictions; scoring the same data again gives the same number and leaves y and the fitted loss alone.", "quantifier": "every family, data, weights, sample weights, offsets, coefficients, and every number of repeated scores", "why_tests_cant": "an in-place product with the sample weights shows only in the next score or the next evaluation of the fitted loss", "anchors": ["regreg/sklearn/base.py:base_mixin.score", "regreg/sklearn/gaussian.py:_saturated_score", "regreg/sklearn/logistic.py:_saturated_score", "regreg/sklearn/cloglog.py:_saturated_score", "regreg/sklearn/huber.py:_saturated_score", "regreg/sklearn/cox.py:_saturated_score"]}
{"id": "C80", "title": "Classifiers label, score and give probabilities consistently", "statement": "predict gives the label whose probability is largest; predict_proba gives numbers in (0,1) that sum to one over the classes; accuracy is the fraction of cases with the right label; the classifiers with an elastic net can be built.", "quantifier": "every design, coefficients, response, and number of cases and classes", "why_tests_cant": "labels and probabilities disagree only on an interval of linear predictors, and probabilities go wrong only for particular numbers of cases and classes", "anchors": ["regreg/sklearn/base.py:classifier_mixin", "regreg/sklearn/base.py:classifier_lagrange_mixin", "regreg/sklearn/logistic.py:sklearn_logistic_classifier", "regreg/sklearn/cloglog.py:sklearn_cloglog_classifier", "regreg/sklearn/multinomial.py:predict_proba"]}
{"id": "C81", "title": "The probit loss is the negative binomial log-likelihood with normal link, convex, with matching gradient and Hessian", "statement": "smooth_objective of a probit loss at a linear predictor returns coef times the case-weighted negative log-likelihood of the successes under success probabilities Phi(predictor - offset), and its gradient; the loss is convex; hessian is the derivative of the gradient; evaluations, copies and subsamples do not disturb the loss or the caller's arrays.", "quantifier": "every number of cases, successes, trials, weights, coefficient, offset and linear predictor; every sequence of evaluations; every functions cdf and pdf with the defining properties of the normal distribution", "why_tests_cant": "Convexity and derivatives are claims about all points (they fail only beyond +-20 standard deviations, or by an amount vanishing at 0); absence of side effects is a claim about every history.", "anchors": ["regreg/smooth/binary.py: probit_loglike.__init__, smooth_objective, hessian, __copy__, subsample, mean_function"]}
{"id": "C82", "title": "Assigning to the data of a binary loss", "statement": "Assigning to the data attribute of a logistic, probit or complementary log-log loss either is accepted, exactly when the responses lie between zero and the numbers of trials (given, or those the loss has; without either, zeros and ones), and then replaces the data and makes the objective that of the new data; or raises ValueError and leaves the loss unchanged.", "quantifier": "every history of accepted and rejected assignments, every responses and trials", "why_tests_cant": "The state after a history of accepted and rejected assignments depends on the whole history.", "anchors": ["regreg/smooth/binary.py: logistic_loglike.set_data, probit_loglike.set_data, cloglog_loglike.set_data"]}
{"id": "C83", "title": "The mixed lasso optimality check reports nothing at a minimizer, and only there", "statement": "check_KKT of a mixed lasso, given the gradient of the loss at a solution, reports no coordinate when the solution minimizes loss + lagrange * penalty, for every positive tolerance; when it reports nothing the solution is optimal up to the tolerance.", "quantifier": "every labelling of the coordinates (l1, positive part, nonnegative, unpenalized, groups), every weights, loss, solution, gradient, lagrange and tolerance", "why_tests_cant": "The check must be right for every mixture of kinds and every solution, including those no solver run of a test reaches.", "anchors": ["regreg/atoms/mixed_lasso.py: mixed_lasso.check_KKT", "regreg/atoms/mixed_lasso_cython.pyx: check_KKT_mixed_lasso"]}
{"id": "C84", "title": "The mixed lasso strong rule discards only coordinates that stay at zero", "statement": "strong_set of a mixed lasso keeps exactly the coordinates whose gradient at the current lagrange value reaches the threshold of their kind; if the gradient moves by at most slope_estimate times the change of lagrange, discarded coordinates are zero at every minimizer for the new value.", "quantifier": "every labelling, weights, gradient, slope and pair of lagrange values", "why_tests_cant": "Safety is a claim about every loss and minimizer satisfying the slope bound.", "anchors": ["regreg/atoms/mixed_lasso.py: mixed_lasso.strong_set", "regreg/atoms/mixed_lasso_cython.pyx: strong_set_mixed_lasso"]}
{"id": "C85", "title": "A mixed lasso path returns, for every value, a solution of the whole problem or a warning", "statement": "mixed_lasso_path.main returns one coefficient vector per value of the sequence; a vector returned without a warning passes the optimality check of the whole problem, and is optimal up to the tolerance when the subproblems are solved exactly; it warns only after ten tries, and only when the solution is not optimal; all columns are in the same units.", "quantifier": "every loss, labelling, weights, sequence of values, elastic net, and every answer of the solver of the subproblems at every call", "why_tests_cant": "The active set loop depends on the history of every earlier solve; only a statement over all histories excludes wrong acceptances.", "anchors": ["regreg/paths/mixed_lasso.py: mixed_lasso_path.main", "regreg/paths/mixed_lasso.py: mixed_lasso_path.restricted_problem", "regreg/paths/mixed_lasso.py: mixed_lasso_path.elastic_net"]}
{"id": "C86", "title": "lagrange_max of a mixed lasso path is the smallest value at which the null solution is optimal", "statement": "lagrange_max is the smallest lagrange value at which null_solution solves the whole problem, whatever attribute is read first; lagrange_sequence has nstep values from lagrange_max down to lagrange_proportion times it.", "quantifier": "every convex loss, labelling, weights and order of attribute reads; every nstep and proportion", "why_tests_cant": "Optimality at every larger value and non-optimality at every smaller one are claims over a continuum; lazy attributes must agree for every order of reads.", "anchors": ["regreg/paths/mixed_lasso.py: mixed_lasso_path.lagrange_max", "regreg/paths/mixed_lasso.py: mixed_lasso_path.null_solution", "regreg/paths/mixed_lasso.py: mixed_lasso_path.get_lagrange_sequence"]}
{"id": "C87", "title": "The optimality check of sparse group block paths accepts minimizers and nothing far from optimal", "statement": "For matrices of coefficients penalized by l1 times the sum of absolute values plus l2 times the sum of the norms of the rows, check_KKT reports no failing row at a minimizer; a point with no failing row is optimal up to the tolerance; ranks order the failing rows by their violation; strong_set keeps the rows whose gradient is outside the dual ball at 2 lagrange_new - lagrange_cur.", "quantifier": "every shape, weights, convex loss, point, gradient, lagrange value, tolerance and behaviour of argsort that sorts", "why_tests_cant": "A check is only useful if it is right at every point; tests sample a few points and weights and cannot show that no bad point is accepted.", "anchors": ["regreg/paths/sparse_group_block.py: _check_KKT", "regreg/paths/sparse_group_block.py: _strong_set", "regreg/paths/sparse_group_block.py: sparse_group_block_path.check_KKT"]}
{"id": "C88", "title": "A sparse group block path returns near-optimal points, starts at the smallest value where zero is optimal, and uses the weights it was given", "statement": "strong_rules on a sparse group block path returns one point per value, zero outside its candidate rows; a point returned without a warning passes the check of the whole problem and is nearly optimal; default_lagrange_sequence starts at the smallest value at which zero is optimal; l1_alpha scales the two weights; subsample gives a path with the same penalty.", "quantifier": "every loss, shape, weights, l1_alpha, elastic net, sequence of values and every answer of the solver of the subproblems", "why_tests_cant": "Acceptance depends on the whole history of solves, and optimality of zero at every larger value is a claim over a continuum.", "anchors": ["regreg/paths/sparse_group_block.py: sparse_group_block_path", "regreg/paths/sparse_group_block.py: sparse_group_block_path.subsample", "regreg/paths/__init__.py: strong_rules", "regreg/paths/__init__.py: default_lagrange_sequence"]}
{"id": "C89", "title": "Along a path the solver is given the whole problem restricted to the candidates", "statement": "For every path object (lasso, group lasso, sparse group lasso, row-sparse matrices), every candidate set and every lagrange value, the objective handed to the inner solver at c equals the objective of the full penalized problem, elastic net term included, at the vector that is c on the candidates and zero elsewhere; the gradient and linear predictor handed back are those of the full problem. So with an inner solver that minimizes what it is given, strong_rules returns points that are optimal for the full problem up to the tolerance of the optimality check; the constructor's null fit is optimal for the unpenalized features.", "quantifier": "every loss, design, weights, groups, elastic net parameters, alpha in (0,1], candidate set, lagrange value, starting point, and every inner solver", "why_tests_cant": "It is an identity between objectives over all vectors, sets and weights, and an end-to-end guarantee over every possible inner solver.", "anchors": ["regreg/paths/lasso.py: lasso_path.solve_subproblem, restricted_penalty, _restricted_elastic_net, __init__", "regreg/paths/group_lasso.py: group_lasso_path.solve_subproblem", "regreg/paths/sparse_group_lasso.py: sparse_group_lasso_path.solve_subproblem", "regreg/paths/sparse_group_block.py: sparse_group_block_path.solve_subproblem"]}
{"id": "C90", "title": "A warm-started path minimizes the penalized problem at every value and reports its deviance ratios", "statement": "warm_start solves, for each lagrange value in order, the same penalized problem that strong_rules solves, starting from the previous solution, with the solver arguments given by the caller; it returns these solutions and the share of the first loss each explains, which does not decrease along decreasing values. strong_rules' 'dev explained' is the share explained by its last solution.", "quantifier": "every loss, design, penalty, elastic net parameters, sequence of values, starting point, solver arguments and solver", "why_tests_cant": "The sequence of calls depends on the answers of an arbitrary solver; monotonicity quantifies over all problems and sequences.", "anchors": ["regreg/paths/__init__.py: warm_start, strong_rules", "regreg/paths/lasso.py: lasso_path", "regreg/paths/group_lasso.py: group_lasso_path"]}
{"id": "C91", "title": "nesta minimizes the sum of its atoms by smoothed problems that never move away from the dual solutions", "statement": "nesta(loss, proximal_atom, conjugate_atom, ...) solves, for each entry eps of epsilon, the problem loss + proximal_atom + quadratic + the conjugate_atom smoothed by eps/2|u - center|^2 in its conjugate; a round that leaves its center in place has solved the original problem and its dual. Centers and dual points never move away from any dual solution, the coef_stop test is met after finitely many rounds, and the coefficients returned then are optimal up to a multiple of eps * coef_tol. The dual point returned lies in the domain of the conjugate, at most max_iters rounds are run, and the quadratic of the loss counts.", "quantifier": "every loss, atoms, linear transform, quadratic, list epsilon, starting point, tolerance, and every inner solver that minimizes what it is given", "why_tests_cant": "The guarantees are about every round of every run, for all convex functions and all sequences of smoothing parameters.", "anchors": ["regreg/problems/simple.py: nesta", "regreg/problems/composite.py: smooth_conjugate, composite.smoothed", "regreg/atoms/__init__.py: affine_atom.smoothed"]}
{"id": "C92", "title": "tfocs runs proximal steps of the primal problem through their duals and never moves away from its minimizers", "statement": "tfocs(primal_atom, transform, dual_proximal_atom, ...) runs rounds, each of which is the proximal step of f(v) + quadratic + h(Tv + a) from its center, h the conjugate of dual_proximal_atom; centers and points never move away from any minimizer, the stopping test is met after finitely many rounds, and the point computed then is optimal up to a multiple of eps * coef_tol. The primal point returned is feasible, at most max_iters rounds are run, and every affine transform is accepted.", "quantifier": "every primal atom or cone, transform, dual atom, quadratic, list epsilon, tolerance, and every inner solver that minimizes what it is given", "why_tests_cant": "The guarantees are about every round of every run, for all convex functions, transforms and sequences of smoothing parameters.", "anchors": ["regreg/problems/simple.py: tfocs", "regreg/problems/composite.py: smooth_conjugate", "regreg/atoms/seminorms.py: conjugate", "regreg/atoms/cones.py: conjugate"]}
{"id": "C93", "title": "check_subgradient verifies the proximal map", "statement": "atom.check_subgradient(atom, z) returns two equal values for every seminorm atom in either mode, whatever its offset and quadratic: the seminorm of the minimizer of 1/2|u-z|^2 + h(u) in Lagrange mode, the dual seminorm of the residual in bound mode; for cones it returns zeros. Conversely an object whose proximal answer passes the check, with equal values, has computed the minimizer up to the tolerance of the check.", "quantifier": "every seminorm, slope, group lasso atom and cone, every multiplier or bound, every prox center, and every candidate answer", "why_tests_cant": "The equality is the KKT condition of the proximal problem at every center and parameter, and soundness quantifies over all wrong answers a proximal map could give.", "anchors": ["regreg/atoms/seminorms.py: seminorm.check_subgradient", "regreg/atoms/cones.py: cone.check_subgradient", "regreg/atoms/slope.py: slope", "regreg/atoms/group_lasso.py: group_lasso"]}
{"id": "C94", "title": "huberized_svm is the sum of smoothed hinges", "statement": "huberized_svm(X, labels, smoothing_parameter=s) evaluates at beta the sum over the cases of the hinge (1 - y_i <x_i,beta>)+ smoothed with parameter s, where y_i is +1 for the larger of the two labels and -1 for the other, together with its gradient; the function is convex with Lipschitz gradient, lies below the hinge loss by at most s/2 per case, and coef and offset act as documented for smooth atoms. More than two labels are rejected.", "quantifier": "every design matrix, every pair of labels, every positive smoothing parameter, every coefficient vector", "why_tests_cant": "The loss is computed through a chain of conjugates and proximal maps; equality with the closed form is a statement over all real data and parameters.", "anchors": ["regreg/smooth/losses.py: huberized_svm", "regreg/atoms/__init__.py: affine_atom.smoothed", "regreg/problems/composite.py: smooth_conjugate"]}
{"id": "C95", "title": "quadratic_loss: constructors and conjugate", "statement": "quadratic_loss.fromarray(Q), .diagonal(d), .squared_transform(T) and signal_approximator(Y) evaluate 1/2 <x-o,Q(x-o)>, 1/2 sum d_i (x_i-o_i)^2, 1/2 |T(x-o)|^2 and c/2 |x-Y|^2 with their gradients. The conjugate of a quadratic_loss evaluates the convex conjugate of the loss plus its quadratic, with the maximizer as gradient; without curvature it raises.", "quantifier": "every positive coefficient, offset, quadratic, array Q, transform and argument", "why_tests_cant": "A conjugate is a supremum over all of R^n; sampling points can neither establish the supremum nor the gradient for all arguments, nor that no call with a Q succeeds.", "anchors": ["regreg/smooth/quadratic.py: quadratic_loss", "regreg/smooth/quadratic.py: signal_approximator", "regreg/problems/composite.py: smooth_conjugate"]}
{"id": "C96", "title": "The class methods of glm build the documented model", "statement": "glm.gaussian, .logistic, .cloglog, .poisson, .huber and .huber_svm(X, data, coef, saturated_offset, offset, quadratic, case_weights) accept exactly a nonnegative coef, nonnegative weights (one per case) and data of the family (successes between 0 and the trials, or zeros and ones without trials; whole nonnegative counts) and raise ValueError otherwise. The model evaluates coef times the weighted negative log likelihood at X(beta - offset) - saturated_offset and its gradient, carries the quadratic, and changes no array of the caller.", "quantifier": "every design with a true adjoint, data, coefficient, offsets, weights and beta", "why_tests_cant": "It ranges over all data, offsets, weights and points, and over all inputs that must be refused.", "anchors": ["regreg/smooth/glm.py:glm.gaussian", "regreg/smooth/glm.py:glm.logistic", "regreg/smooth/glm.py:glm.poisson", "regreg/smooth/glm.py:glm.huber", "regreg/smooth/glm.py:glm.__init__", "regreg/smooth/glm.py:logistic_loss"]}
{"id": "C97", "title": "Assigning to glm.data gives the model of the new data", "statement": "After glm.data = (X2, Y2) the objective, gradient, Hessian, linear predictor and copies are those of a model made from X2 and Y2, whatever was assigned before; an assignment that raises changes nothing; data that the class method refuses are refused.", "quantifier": "every history of assignments, refused ones included, every design and data", "why_tests_cant": "It ranges over all histories of assignments and all points of evaluation.", "anchors": ["regreg/smooth/glm.py:glm.set_data", "regreg/smooth/glm.py:glm.hessian", "regreg/smooth/glm.py:glm.linear_predictor", "regreg/smooth/glm.py:glm.__copy__", "regreg/smooth/binary.py:logistic_loglike.set_data"]}
{"id": "C98", "title": "The class methods of stacked losses build the sum of the losses", "statement": "stacked_loglike.gaussian(responses, coef, ...), .logistic, .probit, .cloglog, .poisson, .huber, .huber_svm, the same methods of stacked_common_loglike, and sparse_group_block.stacked_* build the sum over the responses of the losses of coefficient coef, with its gradient; negative coefficients are refused.", "quantifier": "every list of responses, coefficient, offset, weights and argument", "why_tests_cant": "It ranges over all lists of responses of all lengths, and the failures are for all inputs.", "anchors": ["regreg/smooth/glm.py:stacked_loglike.gaussian", "regreg/smooth/glm.py:stacked_loglike.logistic", "regreg/smooth/glm.py:stacked_loglike.huber", "regreg/smooth/mglm.py:stacked_common_loglike.gaussian", "regreg/paths/sparse_group_block.py:stacked_gaussian"]}
{"id": "C99", "title": "Atoms that compare equal are interchangeable, and a copy is a faithful one", "statement": "For the weighted norms, slope, mixed_lasso, simplex_constraint, maximum, the subspace constraints, the cones, the group lasso cones and sparse_group_lasso: copy(a) has the same value and proximal map at every point as a and compares equal to it; == is an equivalence relation that never raises; and if a == b then a and b have the same value at every point.", "quantifier": "every two objects of these classes, with every weights, groups, mode, parameter, offset and quadratic, and every point", "why_tests_cant": "It ranges over all pairs and triples of objects and all points of evaluation.", "anchors": ["regreg/atoms/weighted_atoms.py:seminorm.__eq__", "regreg/atoms/seminorms.py:seminorm.__eq__", "regreg/atoms/mixed_lasso.py:mixed_lasso.__eq__", "regreg/atoms/simplex.py:simplex_constraint.__eq__", "regreg/atoms/linear_constraints.py:linear_constraint.__eq__", "regreg/atoms/cones.py:cone.__eq__", "regreg/atoms/group_lasso.py:group_lasso_cone.__copy__"]}
{"id": "C100", "title": "cls.linear(D) and cls.affine(D, alpha) of cones and penalties are the function at D x + alpha", "statement": "For every class of atom, cls.linear(D, ...) and cls.affine(D, alpha, ...) evaluate at x the atom at D x (+ alpha), with the quadratic at D x, and their dual is D with the convex conjugate of that function.", "quantifier": "every class, matrix D, offset, quadratic and point x", "why_tests_cant": "It ranges over all matrices, offsets, quadratics and points.", "anchors": ["regreg/atoms/cones.py:cone.linear", "regreg/atoms/cones.py:cone.affine", "regreg/atoms/cones.py:affine_cone", "regreg/atoms/seminorms.py:seminorm.linear", "regreg/atoms/slope.py:slope.linear", "regreg/atoms/sparse_group_lasso.py:sparse_group_lasso", "regreg/atoms/simplex.py:simplex_constraint.linear"]}
{"id": "C101", "title": "A solution returned by solve is not changed by later calls, and problems do not disturb each other", "statement": "The array returned by solve of a problem holds the minimizer found by the run from problem.coefs at the time of the call, and keeps it whatever is done afterwards; problem.coefs[:] = v makes the next solve of that problem, and only that, start at v; a new problem starts at the initial value of its penalty.", "quantifier": "every history of creating losses, penalties, sums, simple, admm and quasi-Newton problems, assigning to their coefs and solving them, sharing losses and penalties in any way", "why_tests_cant": "It ranges over all histories and all ways of sharing objects; each aliasing shows up only in particular sequences of calls.", "anchors": ["regreg/problems/simple.py:simple_problem.__init__", "regreg/problems/simple.py:simple_problem.solve", "regreg/problems/composite.py:nonsmooth.solve", "regreg/problems/composite.py:smooth.solve", "regreg/algorithms.py:FISTA.fit", "regreg/problems/newton.py:quasi_newton.solve", "regreg/problems/admm.py:admm_problem.update_loss_coefs"]}
{"id": "C102", "title": "Cross-validation fits each fold to its training cases only, whatever the schedule, and the path fitters can be used in it and used again", "statement": "cross_validate(path, lagrange_seq, path_fitter) returns, value by value, the mean and the standard deviation over the folds of the scores at the held-out cases of coefficients that minimize the objective of the training cases of the fold, scaled to the size of the sample. The result does not depend on the order in which the jobs run, the coefficients of a fold do not depend on its held-out cases, both path fitters may be passed, and fitting a path again from the same initial data gives the same coefficients.", "quantifier": "every sample, design, weights, alpha, sequence of positive values, number and shuffle of folds, order of the jobs and solver that minimizes the subproblems", "why_tests_cant": "It ranges over all data and all schedules of the jobs; whether a held-out response influences a fold shows only by comparing runs on data that differ there.", "anchors": ["regreg/paths/cross_validate.py:cross_validate", "regreg/paths/lasso.py:lasso_path.subsample", "regreg/paths/__init__.py:strong_rules", "regreg/paths/basil.py:basil", "regreg/paths/basil.py:basil_inner_loop"]}
{"id": "C103", "title": "Transforms act on two-dimensional arrays column by column, and todense is the matrix of the transform", "statement": "linear_map, affine_map and adjoint_map accept a two-dimensional array, as documented, and apply the transform to each of its columns; todense(transform) is the matrix D with transform.linear_map(x) = D x for every x and adjoint_map(u) = D' u for every u; tensorize(transform, q) is the transform applied to q columns.", "quantifier": "every transform built from the constructors to any depth, every number of rows and columns, every array", "why_tests_cant": "It ranges over all nested transforms and all shapes; numpy broadcasts silently along the wrong axis when two sizes happen to agree.", "anchors": ["regreg/affine/__init__.py:todense", "regreg/affine/__init__.py:broadcast_first", "regreg/affine/__init__.py:affine_transform.linear_map", "regreg/affine/__init__.py:scaler", "regreg/affine/__init__.py:vstack", "regreg/affine/__init__.py:tensorize"]}
{"id": "C104", "title": "restart=r restarts the accelerated solver every r iterations", "statement": "fit(restart=r) of the FISTA solver restarts the Nesterov weights every r iterations, as documented: iterations r, 2r, 3r, ... forget the momentum, so that the weight is 1 again and the next iterations behave as those of a new run from the current coefficients. With restart=1 every iteration is a plain proximal gradient step, the objective never increases, and its excess over any point is O(1/k).", "quantifier": "every composite problem, starting point, restart interval, step rule and number of iterations", "why_tests_cant": "the weights are not observable in a single run, and a run with restarts still converges on test problems; that the weights never return to 1, and the rate, are statements about every run", "anchors": ["regreg/algorithms.py: FISTA.fit, FISTA.update_working_coefs", "regreg/problems/composite.py: composite.solve"]}
{"id": "C105", "title": "Conjugates and smoothing of separable objects; separable_problem", "statement": "For a separable object S over disjoint groups, S.conjugate is an object for the Fenchel conjugate of S, namely the sum of the conjugates of the members over the same groups, also when some coefficients belong to no group or when S carries a quadratic; S.smoothed(q) is a smooth function that can be evaluated; S.selectors lists the maps to the groups. separable_problem.singleton(atom, f) and separable_problem.fromatom(S, f) pose the same problems as simple_problem(f, atom) and simple_problem(f, S).", "quantifier": "every shape, list of disjoint groups, members of the documented seminorm and cone classes (any object with exact value, proximal map and conjugate), dual point, smoothing quadratic and evaluation mode", "why_tests_cant": "a conjugate is a supremum over all of R^n, and every partition, member and dual point matters; tests check a few partitions that cover every coefficient and never evaluate the smoothed object", "anchors": ["regreg/problems/separable.py: separable.conjugate, separable.selectors, separable_problem", "regreg/atoms/__init__.py: atom.smoothed", "regreg/problems/composite.py: smooth_conjugate"]}
{"id": "C106", "title": "Vectors of the wrong length are refused", "statement": "Applying linear_map, affine_map or adjoint_map of a transform to a vector whose length is not the transform's input_shape (output_shape for the adjoint) raises; no entries are silently ignored or repeated.", "quantifier": "every transform expression, every vector whose length differs from the one expected, every entry", "why_tests_cant": "tests apply transforms to vectors of the right length; the claim is about every wrong length for every nesting of transforms", "anchors": ["regreg/affine/__init__.py: linear_transform, affine_transform, selector, scaler, identity, scaler, hstack, vstack, product, reshape"]}
{"id": "C107", "title": "Equality, copies and noneify of quadratics", "statement": "For identity_quadratics a and b, a == b holds exactly when they are the same function (up to rounding tolerance), is an equivalence relation and never raises; copy(a) equals a and is the same function; noneify leaves the function unchanged and returns.", "quantifier": "every pair (and triple) of quadratics, with center and linear_term None, a number or an array, every dimension and every point", "why_tests_cant": "tests compare a few quadratics whose fields are all set; the claim is about every pair and every evaluation point", "anchors": ["regreg/identity_quadratic.py: identity_quadratic.__eq__, __copy__, noneify"]}
{"id": "C108", "title": "choose_tuning_parameter returns the quantile of the simulated statistics", "statement": "choose_tuning_parameter(M, ndraw, quantile, sigma) returns the quantile of the largest interval statistics of ndraw standard normal signals, with noise level sigma when given: a unique number, which at least the share quantile of the draws does not exceed, which grows with quantile and does not depend on the order of the draws. A quantile outside [0, 1] raises ValueError. The scaling of M is ignored and is the same afterwards.", "quantifier": "every multiscale transform with intervals, every sequence of non-constant draws, every quantile and sigma", "why_tests_cant": "The draws are random: the claim is about every outcome of them, every number of draws and every quantile.", "anchors": ["regreg/affine/multiscale.py: choose_tuning_parameter", "regreg/affine/multiscale.py: SMUCE_stat"]}
{"id": "C109", "title": "The objective of a likelihood is its excess over the saturated model", "statement": "A logistic, complementary log-log or Poisson likelihood adds a constant to its quadratic, so that its objective (value plus quadratic) is coef times the weighted sum over cases of the loss less the lowest value the loss of that case can have: it is never negative, and zero at the fit that reproduces the data.", "quantifier": "every data, coefficient, offset, case weights and point", "why_tests_cant": "The lowest value is over all linear predictors, and the claim is for all data, weights and coefficients.", "anchors": ["regreg/smooth/binary.py: logistic_loglike.__init__", "regreg/smooth/binary.py: cloglog_loglike.__init__", "regreg/smooth/glm.py: poisson_loglike.__init__"]}
{"id": "C110", "title": "The group lasso strong rule discards only groups that stay at zero", "statement": "strong_set of regreg.atoms.group_lasso returns the labels of the groups whose gradient at the current lagrange value reaches the threshold of the rule; if the gradient of a group moves by at most slope_estimate times the change of the value (times its weight), a group that is not returned has zero coefficients at the solution for the new value.", "quantifier": "every group structure, weights, smooth loss, pair of lagrange values, slope estimate and solution", "why_tests_cant": "The claim is about minimizers for all losses and group structures.", "anchors": ["regreg/atoms/group_lasso.py: strong_set", "regreg/atoms/group_lasso.py: group_lasso_dual.terms"]}
{"id": "C111", "title": "Multinomial regression does not depend on its parametrization", "statement": "mglm.multinomial evaluates, at a matrix of coefficients, coef times the weighted negative log likelihood of the counts under the softmax of the linear predictors. The model with a baseline category has the value of the model without one at the matrix with a column of zeros appended, and without baseline adding one vector to every column changes nothing.", "quantifier": "every design, counts, number of categories, weights and matrix of coefficients", "why_tests_cant": "Equality of two parametrizations for all data and coefficients.", "anchors": ["regreg/smooth/mglm.py: mglm.multinomial", "regreg/smooth/mglm.py: multinomial_loglike.smooth_objective", "regreg/smooth/mglm.py: multinomial_baseline_loglike.smooth_objective"]}
{"id": "C112", "title": "A quadratic knows whether it is zero and where its minimum is", "statement": "The iszero property of an identity_quadratic is true exactly when the quadratic is zero at every point. Its true_center is the unique minimizer of the quadratic, and is None exactly when there is no unique minimizer.", "quantifier": "every identity_quadratic (coef of any sign, center and linear term None, scalar or vector) and every dimension at least 1", "why_tests_cant": "Statement about the values of the quadratic at all points.", "anchors": ["regreg/identity_quadratic.py: identity_quadratic.iszero", "regreg/identity_quadratic.py: identity_quadratic.true_center"]}
