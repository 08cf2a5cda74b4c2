{
 "claims": [
  {
   "property": "C01",
   "status": "proved",
   "theorems": [
    "C01_value_and_gradient"
   ],
   "note": ""
  },
  {
   "property": "C02",
   "status": "partial",
   "theorems": [
    "C02_collapsed_partial",
    "C02_collapsed_refuted",
    "C02_add_partial",
    "C02_add_none_other",
    "C02_recenter_partial",
    "C02_recenter_refuted"
   ],
   "note": "REFUTED in full: collapsed is wrong for a non-zero scalar center (n>1) and recenter drops the constant <linear_term, offset>. Proved for None, zero or vector centers, recenter up to that constant."
  },
  {
   "property": "C03",
   "status": "partial",
   "theorems": [
    "C03_conjugate_fenchel",
    "C03_conjugate_involutive_partial",
    "C03_conjugate_involutive_refuted"
   ],
   "note": "Fenchel conjugacy proved for coef>0; double conjugation proved for vector (or zero) linear terms and refuted for non-zero scalar linear terms."
  },
  {
   "property": "C04",
   "status": "proved",
   "theorems": [
    "C04_lagrange_prox_exact"
   ],
   "note": ""
  },
  {
   "property": "C05",
   "status": "proved",
   "theorems": [
    "C05_bound_prox_exact"
   ],
   "note": ""
  },
  {
   "property": "C06",
   "status": "proved",
   "theorems": [
    "C06_proximal_minimizes",
    "C06_proximal_zero_coef_raises"
   ],
   "note": "Calls in which every term is a float (the code then passes a float to the prox methods) are outside the model."
  },
  {
   "property": "C07",
   "status": "partial",
   "theorems": [
    "C07_proximal_negative_refuted",
    "C07_proximal_zero_partial"
   ],
   "note": "REFUTED: only a total of exactly 0 is rejected; with a negative total a non-minimizer is returned."
  },
  {
   "property": "C08",
   "status": "proved",
   "theorems": [
    "C08_conjugate_is_fenchel"
   ],
   "note": "quadratic.coef == 0; the other branch returns a smooth_conjugate (C52)."
  },
  {
   "property": "C09",
   "status": "proved",
   "theorems": [
    "C09_double_conjugate"
   ],
   "note": ""
  },
  {
   "property": "C10",
   "status": "partial",
   "theorems": [
    "C10_constructor",
    "C10_step_partial",
    "C10_history_partial",
    "C10_none_refuted",
    "C10_negative_refuted"
   ],
   "note": "REFUTED for assignments of None (mode can change) and negative values (accepted by the setters); proved for every history of reads and number assignments."
  },
  {
   "property": "C11",
   "status": "partial",
   "theorems": [
    "C11_slope_zero",
    "C11_slope_one",
    "C11_unconstrained",
    "C11_weighted_partial",
    "C11_tiny_weight_refuted",
    "C11_zero_weights_refuted"
   ],
   "note": "REFUTED for weights below 1e-20: a single positive weight below 1e-20 gives a point that is not the root (the knot uses the guard, the slope does not), for every norm and level; weights that are all zero raise ZeroDivisionError at levels <= 0. Holds for weights >= 1e-20 and for the unweighted variants."
  },
  {
   "property": "C12",
   "status": "partial",
   "theorems": [
    "C12_feasibility_partial",
    "C12_feasibility_maxpos_partial",
    "C12_feasibility_con_partial",
    "C12_feasibility_refuted"
   ],
   "note": "REFUTED for constrained_max and constrained_positive_part (a feasible point with a zero entry is reported infeasible because the test is arg < 0 + tol) and for max_positive_part with bound 0; holds for l1, sup, l2, positive_part, and max_positive_part with bound > 0."
  },
  {
   "property": "C13",
   "status": "proved",
   "theorems": [
    "C13_cone_prox_projects"
   ],
   "note": ""
  },
  {
   "property": "C14",
   "status": "partial",
   "theorems": [
    "C14_l2_epigraph_partial",
    "C14_l2_epigraph_polar_partial",
    "C14_l2_epigraph_interior_refuted",
    "C14_l2_epigraph_axis_refuted",
    "C14_every_interior_refuted",
    "C14_every_polar_interior_refuted",
    "C14_whole_axis_refuted"
   ],
   "note": "REFUTED: every point inside either epigraph is moved (for every dimension) and every point on the axis gives nan; proved where the coefficient part is non-zero and the point is not interior."
  },
  {
   "property": "C15",
   "status": "partial",
   "theorems": [
    "C15_moreau_partial",
    "C15_moreau_l2_refuted",
    "C15_pairs_polar",
    "C15_atoms_moreau",
    "C15_cones_partial"
   ],
   "note": "REFUTED for the l2 pair; proved for the other four pairs of cones, also with any offset and linear term, and Moreau's identity proved for every seminorm atom in either mode with any offset and linear term (coef = 0), which is the case without exception."
  },
  {
   "property": "C16",
   "status": "proved",
   "theorems": [
    "C16_simplex_projection",
    "C16_maximum_prox",
    "C16_proximal",
    "C16_conjugate_pair",
    "C16_maximum_value",
    "C16_simplex_feasibility"
   ],
   "note": "Proved for _basic_prox of both classes and for the objects with offset and quadratic, plus conjugacy, values and the feasibility test. maximum has no multiplier parameter: lam is 1. The .linear constructors raise NameError and are not modelled."
  },
  {
   "property": "C17",
   "status": "proved",
   "theorems": [
    "C17_isotonic_regression",
    "C17_pav"
   ],
   "note": "Both routines, for every length and input; the sweep count is bounded by the length, so the loop terminates."
  },
  {
   "property": "C18",
   "status": "proved",
   "theorems": [
    "C18_lagrange_prox",
    "C18_shipped_isotonic",
    "C18_dual_norm_exists",
    "C18_values",
    "C18_feasibility",
    "C18_proximal",
    "C18_other_modes_raise",
    "C18_conjugate_pair",
    "C18_objective",
    "C18_construct"
   ],
   "note": "For any isotonic regression meeting its contract and any argsort; the shipped pav meets it. bound_prox of slope and lagrange_prox of slope_conjugate raise NotImplementedError."
  },
  {
   "property": "C19",
   "status": "partial",
   "theorems": [
    "C19_proximal_partial",
    "C19_l1_lagrange_prox",
    "C19_l1_bound_prox",
    "C19_sup_lagrange_prox",
    "C19_sup_bound_prox",
    "C19_conjugate_pair",
    "C19_value",
    "C19_feasibility",
    "C19_construct",
    "C19_sup_zero_weight_refuted",
    "C19_degenerate_modes_refuted",
    "C19_tiny_weight_refuted"
   ],
   "note": "REFUTED: zero weights of the sup norm give nan, so do infinite weights with multiplier 0 and zero weights with bound 0; no ordinary weight and bound 0 raises IndexError; weights below 1e-20 leave the ball. Proved for all other weights (zeros and infinities included); conjugacy and values for every legal weight vector."
  },
  {
   "property": "C20",
   "status": "partial",
   "theorems": [
    "C20_proximal",
    "C20_conjugate_pair",
    "C20_value",
    "C20_terms",
    "C20_construct",
    "C20_set_weight",
    "C20_set_weight_unknown",
    "C20_cone_projection",
    "C20_cone_conjugate",
    "C20_cone_feasibility",
    "C20_dual_zero_weight_refuted",
    "C20_negative_weight_refuted"
   ],
   "note": "REFUTED: the dual object calls a point feasible although a zero-weight group of it is not zero; negative weights are accepted. Proved: proximal map of both objects in both modes (weights zero or >= 1e-20 where the root finder is used), conjugate pairs, values (dual: positive weights), terms(), construction, set_weight, the four epigraph cones (weights >= 1e-20)."
  },
  {
   "property": "C21",
   "status": "partial",
   "theorems": [
    "C21_prox",
    "C21_proximal",
    "C21_dual_proximal",
    "C21_missing_modes",
    "C21_conjugate",
    "C21_dual_conjugate",
    "C21_value",
    "C21_feasibility",
    "C21_terms",
    "C21_construct",
    "C21_construct_rejects",
    "C21_dual_value_refuted",
    "C21_dual_lagrange_refuted",
    "C21_block_proximal",
    "C21_block_dual_proximal",
    "C21_block_missing_modes",
    "C21_block_value",
    "C21_block_bound_refuted",
    "C21_block_terms_refuted",
    "C21_block_conjugate",
    "C21_block_dual_conjugate",
    "C21_block_construct",
    "C21_block_copy",
    "C21_copy"
   ],
   "note": "lagrange_prox and the public proximal() (offset, quadratic, infinite feature weights) are the unique minimizer for every partition and all weights >= 0; the dual object projects on the dual ball; conjugates, values, terms and construction are proved. REFUTED for the dual object's value: in bound mode it is 1 on the unit ball and never infinite, in Lagrange mode it raises ValueError. Primal bound and dual Lagrange proximal maps raise NotImplementedError (C21_missing_modes). The matrix version sparse_group_block (C21_block_*) has the same exact proximal maps, values and conjugates; REFUTED there: the bound-mode test raises TypeError and terms() uses w_1 twice."
  },
  {
   "property": "C22",
   "status": "partial",
   "theorems": [
    "C22_terminates",
    "C22_strong_terminates",
    "C22_gauge_partial",
    "C22_gauge_refuted",
    "C22_infinite_refuted",
    "C22_strong_partial",
    "C22_strong_weight",
    "C22_strong_refuted",
    "C22_blocks",
    "C22_terms_partial",
    "C22_block_terminates",
    "C22_block_partial",
    "C22_block_refuted",
    "C22_block_feasible",
    "C22_block_value",
    "C22_block_rows",
    "C22_block_terms_partial",
    "C22_seminorm_partial"
   ],
   "note": "Both searches terminate within a fixed number of steps for every point. REFUTED as stated: gauge_function_dual is only accurate up to an absolute slack 1e-7*max(||x||,t) of its membership test (5 comes back as at most 1; an infinite norm as at most 3e7), and _gauge_function_dual_strong adds 1e-5 to the group weight (1e5 comes back below 6e4). _partial theorems give the accuracy that does hold, with both effects explicit; C22_strong_weight bounds the second. sparse_group_block's own search (C22_block_*) has relative tolerance 1e-6 and an absolute slack 1e-10*max(||x||,1)/(w_1+w_2): a dual norm of 5 comes back as 0."
  },
  {
   "property": "C23",
   "status": "partial",
   "theorems": [
    "C23_proximal",
    "C23_conjugate_pair",
    "C23_value_partial",
    "C23_feasibility_refuted",
    "C23_offset_refuted",
    "C23_dual_value_refuted",
    "C23_zero_lagrange_refuted",
    "C23_bound_routine_refuted"
   ],
   "note": "REFUTED: bound routine ignores negative l1 entries; multiplier 0 with a zero l1 entry gives nan; feasibility test rejects 0; offset applied twice in the value; dual value is 1 when feasible. Proved: proximal maps (positive parameter or no l1 coordinate), conjugate pairs, values without offset or test."
  },
  {
   "property": "C24",
   "status": "proved",
   "theorems": [
    "C24_never_worse",
    "C24_trace",
    "C24_exact_problem"
   ],
   "note": "Arbitrary pure oracles (no nan); for convex problems with exact oracles also the first two iterations, and no step is ever counted bad."
  },
  {
   "property": "C25",
   "status": "proved",
   "theorems": [
    "C25_history",
    "C25_stop_reason",
    "C25_cap",
    "C25_terminates_without_backtracking",
    "C25_terminates"
   ],
   "note": "History has one entry per completed iteration: on a convergence stop the last, uncompleted pass is not recorded and its proposal is discarded. Termination with backtracking is proved for Lipschitz gradients. Why a run ends is stated in C25_stop_reason."
  },
  {
   "property": "C26",
   "status": "partial",
   "theorems": [
    "C26_flag_ignored",
    "C26_refuted"
   ],
   "note": "REFUTED: update_working_coefs tests the global class name FISTA instead of the argument, so FISTA=False changes nothing (C26_flag_ignored) and momentum is used (C26_refuted)."
  },
  {
   "property": "C27",
   "status": "partial",
   "theorems": [
    "C27_verified_step",
    "C27_upper_bound",
    "C27_ends_partial",
    "C27_terminates",
    "C27_step_lower_bound",
    "C27_ends_refuted"
   ],
   "note": "First clause proved (C27_verified_step, C27_upper_bound). The bound 1/L is REFUTED: close to a minimum the gradient test needs a step of at most 1/(2L); holds with 1/(2L) (C27_ends_partial), so backtracking always ends (C27_terminates)."
  },
  {
   "property": "C28",
   "status": "proved",
   "theorems": [
    "C28_fixed_point_is_minimizer",
    "C28_minimizer_is_fixed_point",
    "C28_step_descends",
    "C28_stays"
   ],
   "note": "Both directions, plus the descent inequality."
  },
  {
   "property": "C29",
   "status": "partial",
   "theorems": [
    "C29_adjoint_partial",
    "C29_normalize",
    "C29_selector_repeated_refuted",
    "C29_aslinear_refuted"
   ],
   "note": "REFUTED for selector with a repeated index, and for aslinear of a non-square transform (it reports its shapes the wrong way round). Holds for every transform built with the other constructors, to any depth (Inductive built), and for normalize."
  },
  {
   "property": "C30",
   "status": "partial",
   "theorems": [
    "C30_affine",
    "C30_offset_partial",
    "C30_composition_refuted",
    "C30_residual_refuted",
    "C30_scalar_multiply_refuted",
    "C30_wrap_refuted",
    "C30_affine_sum_refuted",
    "C30_missing_attribute_refuted"
   ],
   "note": "affine_map is linear_map plus a constant for every built transform. That affine_offset is this constant is REFUTED for composition, residual, scalar_multiply, a wrapped transform and affine_sum (of offsets below 1e-8) when the inner transform has an offset, and scaler, reshape, add_intercept have no affine_offset; holds for the transforms in Inductive reported."
  },
  {
   "property": "C31",
   "status": "partial",
   "theorems": [
    "C31_value_partial",
    "C31_stable_partial",
    "C31_selector_same_array_refuted",
    "C31_selector_refuted",
    "C31_posneg_refuted",
    "C31_corrupted_refuted"
   ],
   "note": "REFUTED for selector and posneg: adjoint_map returns an internal array that the next call overwrites. Proved: every result is correct at the time it is returned, after any history of calls; without selector and posneg no array ever changes."
  },
  {
   "property": "C32",
   "status": "partial",
   "theorems": [
    "C32_affine",
    "C32_affine_constraint",
    "C32_linear",
    "C32_linear_offset",
    "C32_shift_partial",
    "C32_shift_refuted",
    "C32_affine_atom_partial",
    "C32_affine_atom_refuted",
    "C32_nested_refuted",
    "C32_dual"
   ],
   "note": "REFUTED for shift (evaluates h(x+alpha), documented h(x-alpha)) and for affine_atom over a transform with an offset (evaluates h(Dx-alpha), documented h(Dx+alpha); AttributeError if the transform is not a plain one). Proved for the class methods affine and linear over matrices; the quadratic is evaluated at Dx."
  },
  {
   "property": "C33",
   "status": "partial",
   "theorems": [
    "C33_gradient_partial",
    "C33_value",
    "C33_modes",
    "C33_logistic_overflow",
    "C33_quadratic_partial",
    "C33_quadratic_refuted",
    "C33_huber_svm_refuted",
    "C33_cloglog_refuted",
    "C33_cloglog_offset_refuted",
    "C33_logistic_threshold_refuted"
   ],
   "note": "REFUTED: huber_svm for every smoothing parameter other than 1; cloglog outside [-5,5] (value clipped, gradient not) and with an offset (ignored); logistic exactly at the overflow threshold 100 in exact arithmetic; quadratic_loss with a non-symmetric Q. Holds everywhere else, for every data set, weights, coefficient and offset (C33_gradient_partial, C33_quadratic_partial); values agree with the documented loss (C33_value, C33_logistic_overflow)."
  },
  {
   "property": "C34",
   "status": "partial",
   "theorems": [
    "C34_tangent_partial",
    "C34_convex",
    "C34_logistic",
    "C34_cloglog_partial",
    "C34_cloglog_refuted"
   ],
   "note": "Holds for Gaussian, Poisson, Huber, huber_svm with smoothing 1 everywhere; logistic holds for points up to the threshold 100 and up to exp(-100) per trial beyond it (C34_logistic). Complementary log-log: holds on [-5, 5], REFUTED beyond, where predictors are clipped (C34_cloglog_refuted)."
  },
  {
   "property": "C35",
   "status": "partial",
   "theorems": [
    "C35_history_partial",
    "C35_loss_history",
    "C35_weights_refuted"
   ],
   "note": "REFUTED when the saturated loss has case weights of its own: each evaluation multiplies the glm's weight array in place (C35_weights_refuted gives the exact law). Holds for glms whose saturated loss has none, as all the glm class methods build, and for loss objects evaluated without passing an array."
  },
  {
   "property": "C36",
   "status": "partial",
   "theorems": [
    "C36_copy_partial",
    "C36_copy_total",
    "C36_subsample_partial",
    "C36_glm_copy_partial",
    "C36_glm_subsample_partial",
    "C36_huber_weights_refuted",
    "C36_constant_refuted"
   ],
   "note": "REFUTED: copies of huber_loss and huber_svm drop the case weights; copies of logistic/Poisson/cloglog add the deviance constant to the quadratic again. Otherwise copy and subsample agree with the original (C36_*_partial) and later writes to the original's arrays do not reach the copy."
  },
  {
   "property": "C37",
   "status": "partial",
   "theorems": [
    "C37_value",
    "C37_gradient",
    "C37_hessian",
    "C37_convex",
    "C37_hessian_form",
    "C37_nan",
    "C37_object",
    "C37_hessian_mult_partial",
    "C37_coef_refuted",
    "C37_alias_refuted",
    "C37_subsample_refuted"
   ],
   "note": "Proved for every sample size, tie pattern, order argsort may choose among ties, censoring counts, nonnegative weights and scratch contents: value, gradient, Hessian products, convexity, symmetry and semidefiniteness; nan exactly when nobody of positive weight is at risk at some time. Objects: right after any history of calls. REFUTED for hessian_mult with coef other than 1 (not scaled), for gradients kept by the caller when coef is 1 (shared array), and for subsamples without the latest cases (nan everywhere). Real arithmetic: overflow of exp is outside the model."
  },
  {
   "property": "C38",
   "status": "partial",
   "theorems": [
    "C38_affine_partial",
    "C38_cloglog_refuted",
    "C38_linear",
    "C38_shift",
    "C38_squared_error",
    "C38_sum",
    "C38_sum_accepts",
    "C38_value",
    "C38_gradient",
    "C38_tangent"
   ],
   "note": "REFUTED for cloglog.affine with an offset (C38_cloglog_refuted: the class ignores its offset). Holds for every other loss: affine, linear, shift and squared_error compute the composition and its chain-rule gradient; sums are the weighted sums; for objects of any nesting depth the value is the documented function, the gradient its gradient and the tangent bound holds."
  },
  {
   "property": "C39",
   "status": "partial",
   "theorems": [
    "C39_atoms",
    "C39_cones",
    "C39_simple_value",
    "C39_simple_solver",
    "C39_smooth_solver",
    "C39_smooth_partial",
    "C39_affine_refuted",
    "C39_sum_refuted",
    "C39_container_value",
    "C39_container_solver",
    "C39_no_loss",
    "C39_only_smooth",
    "C39_only_nonsmooth"
   ],
   "note": "REFUTED for affine_smooth and smooth.sum: quadratics of the parts are dropped (also the one passed to the class method affine). Holds: simple_problem and container values include every term; the solver of simple_problem, and of a container with one penalty on the vector or a selection of it, sees exactly that sum; sums and affine compositions of any depth when the inner parts have no quadratic."
  },
  {
   "property": "C40",
   "status": "partial",
   "theorems": [
    "C40_nonsmooth",
    "C40_simple",
    "C40_simple_returns",
    "C40_simple_accuracy_partial",
    "C40_smooth_partial",
    "C40_smooth_refuted",
    "C40_raise_refuted",
    "C40_container_returns",
    "C40_container_refuted"
   ],
   "note": "REFUTED for container.solve, which ignores its argument; smooth.solve reports the optimum without q; a raising solver leaves the added quadratic behind. Holds: nonsmooth.solve and simple_problem.solve minimize objective + q (exactly / to the O(1/k^2) rate) and restore the problem. container.solve returns and keeps the coefficients of its run and the documented value at them (C40_container_returns)."
  },
  {
   "property": "C41",
   "status": "partial",
   "theorems": [
    "C41_affine_parts",
    "C41_atom_parts",
    "C41_cone_parts",
    "C41_dual_problem",
    "C41_container_partial",
    "C41_run_partial",
    "C41_run_rejecting_partial",
    "C41_default_partial",
    "C41_direct",
    "C41_quadratic_refuted",
    "C41_selector_refuted"
   ],
   "note": "REFUTED when the container or its losses store a quadratic (the point is computed without it) and for a selector with a transform inside (not applied). Holds: dual_problem for every linear map with a right adjoint and every pair of conjugates; containers without stored quadratics for any number of penalties, with error bounded by the duality gap and O(1/k^2) for the actual run without rejections, and counting from the last rejected step with the default settings; the direct branches including all quadratics."
  },
  {
   "property": "C42",
   "status": "partial",
   "theorems": [
    "C42_separable",
    "C42_overlap_partial",
    "C42_overlap_raises",
    "C42_accepts",
    "C42_overlap_refuted",
    "C42_separable_refuted"
   ],
   "note": "REFUTED in full: has_overlap misses equal groups, and the proximal map of such an object forgets a penalty; holds for disjoint groups."
  },
  {
   "property": "C43",
   "status": "partial",
   "theorems": [
    "C43_atom_update",
    "C43_iteration",
    "C43_loss_update_partial",
    "C43_round_partial",
    "C43_fixed_point",
    "C43_saddle",
    "C43_stays_partial",
    "C43_converges_partial",
    "C43_solve",
    "C43_refuted",
    "C43_shape_refuted",
    "C43_quadratic_refuted"
   ],
   "note": "REFUTED as stated: the linear term of the loss update uses linear_map where the adjoint is needed, so for D=[[0,1],[0,0]] the method stays at a point with objective 4 while 7/2 is attained (C43_refuted); transforms that are not square raise AssertionError (C43_shape_refuted); the quadratic of the loss is dropped (C43_quadratic_refuted). Proved for every transform: the atom and dual updates, the problem handed to the inner solver, that a fixed point of exact rounds minimizes, that a saddle point minimizes. Proved when linear_map is symmetric: rounds with an exact inner solve are exact ADMM rounds, stay at solutions, come closer to each solution and have summable squared residuals."
  },
  {
   "property": "C44",
   "status": "partial",
   "theorems": [
    "C44_update",
    "C44_formula",
    "C44_history",
    "C44_initial",
    "C44_raises",
    "C44_convex",
    "C44_refuted"
   ],
   "note": "REFUTED for -1e-5 <= y.s < 0: the update is accepted and positive definiteness is lost. Holds for y.s > 0 over any sequence of updates; the starting matrix is positive definite when initial_hessian is positive semidefinite with positive trace; on a convex function the update never raises."
  },
  {
   "property": "C45",
   "status": "partial",
   "theorems": [
    "C45_sound_partial",
    "C45_complete",
    "C45_refuted",
    "C45_gradient",
    "C45_lambda_max",
    "C45_lambda_max_sharp",
    "C45_sequence",
    "C45_one_step_refuted",
    "C45_ranks",
    "C45_ranks_order"
   ],
   "note": "REFUTED when no feature is penalized: check_KKT then never reports anything (C45_refuted); and default_lagrange_sequence with nstep=1 starts at the given proportion of lambda_max (C45_one_step_refuted). Holds otherwise: soundness with an explicit tolerance term, completeness, optimality of the null solution exactly from the first value on, shape of the sequence."
  },
  {
   "property": "C46",
   "status": "partial",
   "theorems": [
    "C46_accepted",
    "C46_ends_partial",
    "C46_refuted",
    "C46_exact",
    "C46_optimal"
   ],
   "note": "REFUTED for max_tries that is not a positive multiple of 5: two exact inner solves with max_tries=1. Holds with at most four more solves, and exactly for positive multiples of 5 (the default is 20). The claim about accepted points is proved from the zero solution; the inner solver is a parameter of the model."
  },
  {
   "property": "C47",
   "status": "partial",
   "theorems": [
    "C47_refuted",
    "C47_worse_refuted",
    "C47_checked_partial"
   ],
   "note": "REFUTED with the default check_active=False: no unpenalized feature is ever in a subproblem, and a point worse than the null solution is accepted without a warning. Holds with check_active=True from the zero solution; basil includes unpenalized features (C49_order_partial)."
  },
  {
   "property": "C48",
   "status": "partial",
   "theorems": [
    "C48_partition",
    "C48_accepts",
    "C48_balance_partial",
    "C48_balance_refuted",
    "C48_count_refuted",
    "C48_training_loss",
    "C48_one_fold",
    "C48_score"
   ],
   "note": "REFUTED as stated for the balance: numpy computes the labels in binary64, where 44 samples in 22 folds give folds of 3 and folds of 1, and leave-one-out on 22 samples gives 21 folds (C48_balance_refuted, C48_count_refuted, binary64 from Coq's SpecFloat); in exact arithmetic sizes differ by at most one and there are min(n, cv) folds. Proved for any labels, cv and shuffle: the folds partition the sample. Also proved: the training loss of a fold, and the meaning of the mean score. group_labels is ignored by the code."
  },
  {
   "property": "C49",
   "status": "partial",
   "theorems": [
    "C49_order_partial",
    "C49_ends_partial",
    "C49_optimal",
    "C49_refuted",
    "C49_endless_refuted",
    "C49_candidates"
   ],
   "note": "REFUTED for repeated values (solved once) and for solvers that stop too early (endless loop). Holds for strictly decreasing sequences; terminates with an explicit bound when the inner solver is exact."
  },
  {
   "property": "C50",
   "status": "partial",
   "theorems": [
    "C50_projects",
    "C50_sum",
    "C50_proximal",
    "C50_conjugate_partial",
    "C50_conjugate_refuted",
    "C50_rows_test",
    "C50_complement_test_refuted",
    "C50_objective",
    "C50_member_value",
    "C50_copy"
   ],
   "note": "Proved for every orthonormal basis: both maps are exact projections, orthogonal and summing to the identity; proximal with offset and quadratic; the property conjugate is the Fenchel conjugate when the quadratic has coef 0; projection.constraint accepts exactly a relative 1e-5 neighbourhood of the span. REFUTED: projection_complement.constraint accepts the span and rejects its own points; conjugate raises NameError when the quadratic has coef other than 0, get_conjugate raises KeyError, get_dual TypeError."
  },
  {
   "property": "C51",
   "status": "partial",
   "theorems": [
    "C51_divided_differences",
    "C51_polynomials",
    "C51_too_high",
    "C51_inverse_partial",
    "C51_inverse_order",
    "C51_inverse_unsorted_refuted",
    "C51_inverse_adjoint_2d_refuted",
    "C51_inverse_columns_refuted"
   ],
   "note": "difference_transform proved for every order and distinct knots. trend_filter_inverse: proved for increasing knots; REFUTED for unsorted knots and for adjoint_map of arrays with columns."
  },
  {
   "property": "C52",
   "status": "proved",
   "theorems": [
    "C52_atoms",
    "C52_cones",
    "C52_smooth_conjugate",
    "C52_own",
    "C52_conjugate",
    "C52_needs_curvature",
    "C52_smoothed_atom",
    "C52_smoothed_cone",
    "C52_smoothed_affine",
    "C52_sandwich",
    "C52_curved_raises"
   ],
   "note": "For every atom of C04-C10 and every cone of C13-C15 except the l2 pair, any total curvature > 0: supremum, unique maximizer, convexity, gradient and Lipschitz constant. Quadratics with a nonzero scalar centre are excluded (C02). Smoothed atoms, cones and affine atoms included; smoothing an atom whose own quadratic is curved raises TypeError (C52_curved_raises)."
  },
  {
   "property": "C53",
   "status": "partial",
   "theorems": [
    "C53_svd_exists",
    "C53_norms",
    "C53_singular_values",
    "C53_lagrange_prox",
    "C53_bound_prox",
    "C53_proximal",
    "C53_value",
    "C53_feasibility",
    "C53_conjugate",
    "C53_construct",
    "C53_copy",
    "C53_cone_prox",
    "C53_cone_proximal",
    "C53_cone_conjugate",
    "C53_cone_conjugate_refuted",
    "C53_cone_objective_partial",
    "C53_epigraph_test",
    "C53_epigraph_refuted",
    "C53_cone_copy",
    "C53_equality_refuted",
    "C53_get_dual_refuted"
   ],
   "note": "Every matrix is proved to have a singular value decomposition (compactness of boxes, then deflation), the norms are defined as suprema and proved to be the largest singular value and the sum. Given an svd function meeting numpy's contract, lagrange_prox, bound_prox, proximal(), values, feasibility, conjugates, construction and copy of nuclear_norm and operator_norm are exact, and so are the projections, proximal() and conjugates of the four epigraph cones. REFUTED: nuclear_norm_epigraph's test leaves out the largest singular value and accepts ([[5]], 0); the cones have no conjugate with a quadratic (NameError); == ignores the matrix shape; get_dual raises TypeError. The numerical accuracy of LAPACK's svd is not modelled."
  },
  {
   "property": "C54",
   "status": "partial",
   "theorems": [
    "C54_proximal_partial",
    "C54_prox",
    "C54_zero_row_refuted",
    "C54_generic_refuted",
    "C54_value",
    "C54_feasibility",
    "C54_block_constraint_refuted",
    "C54_constrained_rows_refuted",
    "C54_conjugate",
    "C54_stale",
    "C54_stale_refuted",
    "C54_construct",
    "C54_copy",
    "C54_setters_refuted"
   ],
   "note": "l1_l1 and linf_linf are exact for every matrix, and so are l1_l2 and linf_l2 when no row is zero (linf_l2 in bound mode also when the bound is positive), with offset and quadratic (C54_prox, C54_proximal_partial); values, feasibility, conjugates (for every row norm), construction and copy are proved. REFUTED: a zero row gives nan; block_sum/block_max raise NameError/ValueError or return 0 as projection (C54_generic_refuted); block_sum has no feasibility test; constraints inside the row norm are lost; conjugate is stale after assigning lagrange; set_lagrange raises and set_bound does nothing; copy of block_sum/block_max raises TypeError."
  },
  {
   "property": "C55",
   "status": "partial",
   "theorems": [
    "C55_seminorm_value_partial",
    "C55_seminorm_value_con_partial",
    "C55_seminorm_value_refuted",
    "C55_nonsmooth_objective_lagrange_partial",
    "C55_nonsmooth_objective_bound_partial"
   ],
   "note": "REFUTED for constrained_max/constrained_positive_part at points with entries in [0,1e-5); holds elsewhere and for the other classes."
  },
  {
   "property": "C56",
   "status": "proved",
   "theorems": [
    "C56_positive_part_lagrange"
   ],
   "note": ""
  },
  {
   "property": "C57",
   "status": "partial",
   "theorems": [
    "C57_set_offset_partial",
    "C57_set_offset_zero_refuted"
   ],
   "note": "REFUTED: assigning an all-zero offset leaves the previous one; otherwise proved."
  },
  {
   "property": "C58",
   "status": "partial",
   "theorems": [
    "C58_copy_identical",
    "C58_equality",
    "C58_group_eq_refuted"
   ],
   "note": "REFUTED for group lasso: == ignores the bound."
  },
  {
   "property": "C59",
   "status": "partial",
   "theorems": [
    "C59_cone_proximal_partial",
    "C59_cone_conjugate",
    "C59_l2_epigraph_refuted",
    "C59_l2_axis_refuted"
   ],
   "note": "REFUTED for the l2 epigraph and its polar (at every point strictly inside the cone off the axis, and on the axis); proximal holds for all other classes; conjugates proved for all classes."
  },
  {
   "property": "C60",
   "status": "proved",
   "theorems": [
    "C60_feasible_accepted",
    "C60_exact_acceptance_set",
    "C60_objective"
   ],
   "note": ""
  },
  {
   "property": "C61",
   "status": "partial",
   "theorems": [
    "C61_weights_check_refuted",
    "C61_weights_check_partial"
   ],
   "note": "REFUTED: np.allclose lets increasing weights below its tolerance through; proved: accepted weights are positive and within the tolerance of sorted."
  },
  {
   "property": "C62",
   "status": "partial",
   "theorems": [
    "C62_l1_terms_partial",
    "C62_sup_terms_refuted"
   ],
   "note": "REFUTED for supnorm (divides by the weights); proved for l1norm."
  },
  {
   "property": "C63",
   "status": "partial",
   "theorems": [
    "C63_rate_partial",
    "C63_since_rejection_partial",
    "C63_growing_partial",
    "C63_backtracking_partial",
    "C63_growth_refuted"
   ],
   "note": "REFUTED with the final step size once steps grow: for every factor K and every N with (N+1)^2 > 39600 K there is a run of N iterations with backtracking, from the default attempt_decrease too, that misses the bound by the factor K (C63_growth_refuted). Holds: for every run without restart, with any step sizes and rejections: the rate counted from the last rejected step, times the total growth of the step sizes since (C63_growing_partial); without growth and rejections the plain rate (C63_rate_partial); with backtracking and a Lipschitz gradient, for any number of iterations, the rate times 1.1 for every pass that tries a larger step (C63_backtracking_partial)."
  },
  {
   "property": "C64",
   "status": "proved",
   "theorems": [
    "C64_normalized_columns",
    "C64_intercept"
   ],
   "note": ""
  },
  {
   "property": "C65",
   "status": "partial",
   "theorems": [
    "C65_power_L_partial",
    "C65_power_L_refuted"
   ],
   "note": "REFUTED when the first pass stops the iteration because the norm is close to 1. Proved otherwise (second pass reached)."
  },
  {
   "property": "C66",
   "status": "partial",
   "theorems": [
    "C66_hessian_partial",
    "C66_offset_refuted",
    "C66_overflow_refuted",
    "C66_glm_partial",
    "C66_glm_offset_refuted",
    "C66_cloglog_partial",
    "C66_cloglog_refuted"
   ],
   "note": "REFUTED: no hessian subtracts the offset; logistic's overflow branch indexes from the wrong end; the complementary log-log hessian is the expected information, not the derivative of the gradient (it is when the successes are at their expectation, C66_cloglog_partial). Holds for Gaussian, Poisson and logistic without offset, logistic below the threshold 100."
  },
  {
   "property": "C67",
   "status": "partial",
   "theorems": [
    "C67_fixed_point_partial",
    "C67_refuted"
   ],
   "note": "REFUTED: the inner problem counts the loss twice, so fixed points minimize 2f + h (proved)."
  },
  {
   "property": "C68",
   "status": "proved",
   "theorems": [
    "C68_accepts"
   ],
   "note": ""
  },
  {
   "property": "C69",
   "status": "partial",
   "theorems": [
    "C69_inner",
    "C69_fixed_point_partial",
    "C69_descent",
    "C69_run",
    "C69_quadratic_refuted",
    "C69_zero_refuted",
    "C69_null_step",
    "C69_objective",
    "C69_converged",
    "C69_stops",
    "C69_goes_on"
   ],
   "note": "REFUTED twice: the quadratic attached to the smooth object is left out of the inner problem; a step of length zero at the point 0 passes the convergence test and the next update divides by zero. Holds when the smooth object has no quadratic of its own. The line search is arbitrary in the model; solver_results is not modelled."
  },
  {
   "property": "C70",
   "status": "proved",
   "theorems": [
    "C70_sound",
    "C70_complete",
    "C70_lambda_max",
    "C70_lambda_max_sharp",
    "C70_sequence",
    "C70_ranks",
    "C70_strong",
    "C70_subsample"
   ],
   "note": "Proved for every convex loss, grouping and non-negative weights: soundness up to the tolerance, completeness at every tolerance, first Lagrange value and its sharpness, shape of the sequence, ranks, strong set, subsampling."
  },
  {
   "property": "C71",
   "status": "partial",
   "theorems": [
    "C71_accepted",
    "C71_ends_partial",
    "C71_exact",
    "C71_optimal",
    "C71_free_refuted",
    "C71_worse_refuted"
   ],
   "note": "Accepted points, exact solves and near-optimality proved for every solver. The number of solves can exceed max_tries by up to four when it is not a multiple of 5 (C71_ends_partial). REFUTED: by default a group of weight zero is in no subproblem, and the accepted point can be worse than the null solution."
  },
  {
   "property": "C72",
   "status": "partial",
   "theorems": [
    "C72_null_sound_partial",
    "C72_null_complete_partial",
    "C72_sound_partial",
    "C72_complete_partial",
    "C72_sound_refuted",
    "C72_complete_refuted",
    "C72_flat_refuted",
    "C72_free_refuted",
    "C72_unpenalized_refuted",
    "C72_strong",
    "C72_ridge_refuted",
    "C72_subsample_refuted",
    "C72_accepted",
    "C72_optimal"
   ],
   "note": "The check is sound up to an explicit error per group when feature weights are bounded below (C72_sound_partial), complete at minimizers when the error of the dual norms is below the tolerance (C72_complete_partial), and sound and complete at zero for all weights (C72_null_sound_partial, C72_null_complete_partial); screening, what the loop accepts, and near-optimality of accepted points for exact restricted solutions (C72_optimal) are proved. REFUTED for other weights, off zero: the check passes with a gradient of any size along the coefficients when a group has no l1 weight; a minimizer fails when a group weight is tiny; a group with zero gradient is a TypeError; an unpenalized group is a NameError; unpenalized reports other groups; the ridge term is never multiplied by the Lagrange value; a subsampled path has its weights scaled twice."
  },
  {
   "property": "C73",
   "status": "partial",
   "theorems": [
    "C73_value_partial",
    "C73_gradient_partial",
    "C73_tangent_partial",
    "C73_clip_refuted",
    "C73_clip_gradient",
    "C73_convex_refuted",
    "C73_shift",
    "C73_rows",
    "C73_deviance",
    "C73_two_categories",
    "C73_constructor",
    "C73_weights_refuted",
    "C73_weighted_refuted",
    "C73_subsample_refuted",
    "C73_subsample_partial"
   ],
   "note": "Value, gradient and tangents proved where no linear predictor is beyond 50 (suffix _partial). REFUTED beyond 50: the array returned is not the gradient and the function is not convex. REFUTED: constructor weights are ignored; with weights the deviance can be negative; subsample changes no value and overwrites the weights of the original."
  },
  {
   "property": "C74",
   "status": "partial",
   "theorems": [
    "C74_stack",
    "C74_stack_gradient",
    "C74_history",
    "C74_returned_refuted",
    "C74_new",
    "C74_copy",
    "C74_subsample",
    "C74_compounds",
    "C74_own_weights_refuted",
    "C74_chain",
    "C74_chain_gradient",
    "C74_chain_subsample_refuted",
    "C74_chain_weights_refuted",
    "C74_product",
    "C74_adjoint",
    "C74_multinomial",
    "C74_multiresponse",
    "C74_decays_refuted",
    "C74_model_history",
    "C74_multinomial_subsample",
    "C74_multiresponse_subsample",
    "C74_stacked_refuted",
    "C74_constructor"
   ],
   "note": "Values, gradients, frames, histories, copies and subsamples proved. REFUTED: with coef 1 the gradient returned is the buffer and is overwritten by the next evaluation; weights of the losses of a stack compound; stacked_loglike ignores weights and subsamples; a model over a stack with weights returns another value at each evaluation; mglm.stacked always raises NameError."
  },
  {
   "property": "C75",
   "status": "partial",
   "theorems": [
    "C75_history",
    "C75_reachable",
    "C75_all_slices",
    "C75_default_size",
    "C75_last_refuted",
    "C75_same",
    "C75_constants",
    "C75_matrix",
    "C75_smuce",
    "C75_smuce_scaling_refuted",
    "C75_smuce_changes_refuted",
    "C75_sigma_refuted",
    "C75_update_refuted"
   ],
   "note": "Values, adjoint and histories proved. REFUTED: intervals that end with the signal are left out of the default list; SMUCE_stat leaves its own scaling in the transform and raises NameError when sigma is given; an update with an empty list fails and leaves an instance that answers zeros."
  },
  {
   "property": "C76",
   "status": "proved",
   "theorems": [
    "C76_smaller",
    "C76_edges",
    "C76_gradient",
    "C76_adjoint"
   ],
   "note": "np.bool, used by the module, is gone from numpy 1.24 on: the model is of the code under older numpy."
  },
  {
   "property": "C77",
   "status": "partial",
   "theorems": [
    "C77_maps",
    "C77_round_trip",
    "C77_iteration_exists",
    "C77_history_partial",
    "C77_operator_partial",
    "C77_lipschitz_refuted",
    "C77_rank_refuted",
    "C77_zero_refuted",
    "C77_copy_refuted",
    "C77_wide_refuted",
    "C77_conjugate",
    "C77_min_singular_refuted"
   ],
   "note": "The QR iteration of partial_svd is an argument; the theorems assume it exact (up to signs) and that no singular value is negligible. Early stopping, doubling of the rank, warm starts and filters are modelled and proved safe for any sequence of calls. REFUTED: lagrange_prox of the nuclear norm ignores lipschitz; an initial rank above min(shape), as the default 10 often is, makes every call fail; both maps fail at zero; copy() drops the offset; wide operator norms and conjugates cannot be built; min_singular above 1 fails."
  },
  {
   "property": "C78",
   "status": "partial",
   "theorems": [
    "C78_columns",
    "C78_vector_refused",
    "C78_fitted_loss",
    "C78_fit_partial",
    "C78_fit_logistic",
    "C78_lagrange_fit_partial",
    "C78_enet",
    "C78_enet_off",
    "C78_enet_bound",
    "C78_quadratic_refuted",
    "C78_enet_quadratic_refuted",
    "C78_one_row_refuted",
    "C78_cloglog_offset_refuted",
    "C78_unpenalized_refuted",
    "C78_unpenalized_weighted_refuted"
   ],
   "note": "The solver is an argument, assumed to minimize the objective of the problem it is given. Proved for Gaussian, Huber and smoothed-hinge losses; for the logistic loss up to e^-100 per weighted trial. REFUTED: with unpenalized=True fit always raises, because the problem with lagrange=inf starts at the value inf*0 (nan); the quadratic of the constructor is ignored by fit, that of the atom is lost with alpha > 0; one row with successes, trials and weights is refused; the complementary log-log loss is fitted without the offset."
  },
  {
   "property": "C79",
   "status": "partial",
   "theorems": [
    "C79_deviance",
    "C79_mean_deviance_partial",
    "C79_mean_deviance_refuted",
    "C79_effect",
    "C79_history",
    "C79_again_refuted",
    "C79_sample_ignored_refuted",
    "C79_spoils_refuted",
    "C79_R2",
    "C79_R2_gaussian",
    "C79_R2_logistic",
    "C79_R2_one_class",
    "C79_R2_weights_refuted",
    "C79_R2_cloglog_refuted",
    "C79_cox",
    "C79_cox_R2_refuted"
   ],
   "note": "REFUTED: scoring with sample weights multiplies the weight column of y in place, so the (m+1)st score is at w s^(m+1) and the fitted loss changes; without a weight column sample weights are ignored; the mean deviance of the complementary log-log loss is not divided; R2 of constant predictions is positive for some weighted data and some complementary log-log data; the Cox R2 of every constant is -1. Deviances (exactly computed range of predictors), unweighted Gaussian and logistic R2 are proved."
  },
  {
   "property": "C80",
   "status": "partial",
   "theorems": [
    "C80_labels",
    "C80_unfitted",
    "C80_logistic_proba",
    "C80_cloglog_proba",
    "C80_cloglog_labels_refuted",
    "C80_accuracy",
    "C80_accuracy_refuted",
    "C80_only_accuracy",
    "C80_predict",
    "C80_proba_partial",
    "C80_proba_refuted",
    "C80_proba_square_refuted",
    "C80_constructor_refuted"
   ],
   "note": "REFUTED: classifier accuracy compares linear predictors with labels and is 0 generically; complementary log-log labels disagree with probabilities between ln ln 2 and 0; multinomial probabilities are refused unless n = q, n = 1 or q = 1 and need not sum to one for n = q; the Lagrange classifiers' constructor raises NameError. Labels, two-class probabilities, regressor accuracy and multinomial predict are proved."
  },
  {
   "property": "C81",
   "status": "partial",
   "theorems": [
    "C81_normal_exists",
    "C81_value_partial",
    "C81_value_refuted",
    "C81_gradient_partial",
    "C81_gradient_refuted",
    "C81_tangent_partial",
    "C81_convex_partial",
    "C81_convex_refuted",
    "C81_fisher_partial",
    "C81_hessian_refuted",
    "C81_modes",
    "C81_offset_refuted",
    "C81_accepts",
    "C81_history",
    "C81_caller_refuted",
    "C81_copy_total",
    "C81_copy",
    "C81_subsample"
   ],
   "note": "REFUTED beyond +-20 (value, gradient, convexity); the offset is never applied; hessian is the expected information, not the derivative of the gradient; weights passed to an evaluation are overwritten; copies add the constant again. Holds within +-20 without offset; convexity there uses the monotonicity of the Mills ratio, proved from the defining properties of the normal distribution. Evaluation histories, copies' values and subsamples are proved in full."
  },
  {
   "property": "C82",
   "status": "partial",
   "theorems": [
    "C82_binary",
    "C82_assign",
    "C82_history",
    "C82_rest",
    "C82_rejected_refuted",
    "C82_constant_refuted"
   ],
   "note": "REFUTED: a rejected assignment leaves the illegal responses in the loss, and the constant term stays that of the first data. Acceptance, histories ending in an accepted assignment, and the other attributes are proved in full."
  },
  {
   "property": "C83",
   "status": "partial",
   "theorems": [
    "C83_length",
    "C83_meaning",
    "C83_complete",
    "C83_sound_partial",
    "C83_unpenalized_refuted",
    "C83_direction_refuted",
    "C83_infeasible_refuted",
    "C83_tolerance_refuted"
   ],
   "note": "Completeness (nothing reported at a minimizer) and the exact meaning are proved in full. Soundness REFUTED: unpenalized coordinates, the direction of groups and sign constraints are not examined, and active nonnegative coordinates use the fixed tolerance 1/100; holds (C83_sound_partial) when those conditions are given."
  },
  {
   "property": "C84",
   "status": "partial",
   "theorems": [
    "C84_length",
    "C84_meaning",
    "C84_safe_partial",
    "C84_weights_refuted"
   ],
   "note": "The exact meaning is proved in full. Safety REFUTED for group weights above 1 (also the default weights), because slope * lagrange_cur is not multiplied by the weight; holds for reserved labels and for group weights up to 1."
  },
  {
   "property": "C85",
   "status": "partial",
   "theorems": [
    "C85_total",
    "C85_short",
    "C85_candidates",
    "C85_checked",
    "C85_accuracy_partial",
    "C85_warning_refuted",
    "C85_columns_refuted",
    "C85_df_refuted",
    "C85_devratio",
    "C85_elastic_net_refuted"
   ],
   "note": "REFUTED: the run warns at exact minimizers when a group of weight above 1 is active (the gradient of the strong set is computed without it); the first column is divided by the scalings and the others are not; the degrees of freedom reported after the first point are the number of features; with an elastic net the subproblems ignore it. Totality for every solver and acceptance only after the full check are proved in full; accuracy holds without elastic net, for given weights and exact subproblem solutions (C85_accuracy_partial)."
  },
  {
   "property": "C86",
   "status": "partial",
   "theorems": [
    "C86_meaning",
    "C86_smallest_partial",
    "C86_positive_part_refuted",
    "C86_nothing",
    "C86_max_first",
    "C86_null_first",
    "C86_order_refuted",
    "C86_sequence"
   ],
   "note": "REFUTED for positive part labels (wrong sign) and when null_solution is read before lagrange_max (computed from the zero vector); holds without positive part labels and with positive weights when lagrange_max is read first. The shape of the sequence is proved in full."
  },
  {
   "property": "C87",
   "status": "partial",
   "theorems": [
    "C87_sound_partial",
    "C87_complete_partial",
    "C87_small_refuted",
    "C87_sound_refuted",
    "C87_complete_refuted",
    "C87_flat_refuted",
    "C87_ranks",
    "C87_ranks_refuted",
    "C87_strong"
   ],
   "note": "REFUTED: rows below one hundredth of the total norm are tested as if they were zero; without l1 weight large gradients of rows off zero pass; with small weights minimizers fail; a flat row raises TypeError; ranks are positions of a sort, not ranks. Soundness up to explicit errors holds for positive weights (C87_sound_partial), completeness for weights the search resolves (C87_complete_partial); the meaning of the strong rule is proved in full."
  },
  {
   "property": "C88",
   "status": "partial",
   "theorems": [
    "C88_accepted",
    "C88_near_partial",
    "C88_optimal",
    "C88_lambda_max_partial",
    "C88_lambda_max_refuted",
    "C88_l1_alpha_refuted",
    "C88_weights_refuted",
    "C88_subsample_refuted"
   ],
   "note": "REFUTED: l1_alpha has no effect on the path, yet subsamples use the scaled weights; with tiny weights the default sequence is all zero. Acceptance only after the full check is proved for every solver; near-optimality with check_active and positive weights (C88_near_partial) or for exact subproblem solutions (C88_optimal); the first value is right up to the search errors (C88_lambda_max_partial)."
  },
  {
   "property": "C89",
   "status": "proved",
   "theorems": [
    "C89_lasso",
    "C89_group",
    "C89_sparse",
    "C89_rows",
    "C89_answer",
    "C89_lasso_solver",
    "C89_group_solver",
    "C89_sparse_solver",
    "C89_rows_solver",
    "C89_end",
    "C89_lasso_null",
    "C89_group_null"
   ],
   "note": "Proved for the four kinds of path; the null fit for lasso and group paths. Inner solver abstract."
  },
  {
   "property": "C90",
   "status": "partial",
   "theorems": [
    "C90_lasso",
    "C90_group",
    "C90_sparse",
    "C90_rows",
    "C90_calls",
    "C90_minimizes",
    "C90_losses",
    "C90_dev",
    "C90_dev_refuted",
    "C90_tol_refuted",
    "C90_empty_refuted",
    "C90_offset_refuted"
   ],
   "note": "REFUTED: tol and start_step given by the caller are ignored and tol is overwritten in the caller's dictionary; an empty sequence raises ValueError; with an offset in X warm_start and strong_rules solve different problems; after a warning strong_rules reports the deviance of an earlier solution. The rest holds for designs without offset; monotonicity when unpenalized features carry no ridge term."
  },
  {
   "property": "C91",
   "status": "partial",
   "theorems": [
    "C91_problem",
    "C91_rounds",
    "C91_round_value",
    "C91_fixed",
    "C91_saddle",
    "C91_closer",
    "C91_stops",
    "C91_stop_value",
    "C91_end_partial",
    "C91_values",
    "C91_rises",
    "C91_range",
    "C91_value_end_partial",
    "C91_quadratic_refuted",
    "C91_momentum_refuted",
    "C91_schedule",
    "C91_empty_refuted"
   ],
   "note": "REFUTED: without a break the dual point returned is the extrapolated center, which can leave the domain of the conjugate; max_iters does not limit the rounds when epsilon is given; the quadratic of the loss is ignored; an empty schedule raises NameError. The problem of each round, its exactness, monotone distance to dual solutions, the stopping of the loop by either test and the value then (h Lipschitz; one eps for the default test) are proved for exact inner solvers."
  },
  {
   "property": "C92",
   "status": "partial",
   "theorems": [
    "C92_rounds",
    "C92_prox",
    "C92_value",
    "C92_fixed",
    "C92_closer",
    "C92_stops",
    "C92_stop_value_partial",
    "C92_momentum_refuted",
    "C92_empty_refuted",
    "C92_offset_refuted"
   ],
   "note": "REFUTED: the primal point returned is the (extrapolated) center and can be infeasible; max_iters does not limit the rounds when epsilon is given; an empty schedule raises NameError; transforms without affine_offset (scaler, reshape, add_intercept) raise AttributeError. Rounds as proximal steps, monotone distance to minimizers, stopping and the value of the last point are proved for exact inner solvers."
  },
  {
   "property": "C93",
   "status": "partial",
   "theorems": [
    "C93_agrees_partial",
    "C93_slope_partial",
    "C93_group_partial",
    "C93_zero_refuted",
    "C93_sound_partial",
    "C93_exact_partial",
    "C93_unchecked_refuted",
    "C93_cone_partial",
    "C93_cone_blind_refuted",
    "C93_cone_l2_refuted"
   ],
   "note": "REFUTED: a multiplier or bound 0 divides by zero; positive_part, constrained_max, constrained_positive_part and max_positive_part pass wrong answers because the constraints in the seminorms are not looked at; for cones the answer 0 always passes, and so does the wrong projection of l2_epigraph. Equality of the values for positive parameters (cones other than the l2 pair), and soundness up to the tolerance where the documented seminorms are finite, are proved."
  },
  {
   "property": "C94",
   "status": "partial",
   "theorems": [
    "C94_value_partial",
    "C94_smooth",
    "C94_sandwich",
    "C94_ignored_refuted",
    "C94_errors",
    "C94_no_smoothing",
    "C94_one_label"
   ],
   "note": "REFUTED: the arguments coef and offset are accepted and ignored. The closed form, gradient, convexity, Lipschitz constant and distance to the hinge loss hold for every positive smoothing parameter."
  },
  {
   "property": "C95",
   "status": "partial",
   "theorems": [
    "C95_fromarray",
    "C95_diagonal",
    "C95_squared",
    "C95_transform",
    "C95_squared_shift_refuted",
    "C95_signal",
    "C95_conjugate_partial",
    "C95_closed_form",
    "C95_flat",
    "C95_Q_refuted"
   ],
   "note": "REFUTED: with any Q (array, transform or diagonal) the conjugate raises; squared_transform drops an offset of the transform. Without Q, and for the constructors, the statement holds; gradients of fromarray need a symmetric Q."
  },
  {
   "property": "C96",
   "status": "partial",
   "theorems": [
    "C96_accepts",
    "C96_value_partial",
    "C96_logistic_loss_partial",
    "C96_overflow_refuted",
    "C96_clipping_refuted",
    "C96_saturated_offset_refuted"
   ],
   "note": "REFUTED: with trials in each case and positive weights, glm.logistic never exceeds the documented value and returns it if and only if no linear predictor exceeds 100; for one success glm.cloglog returns it if and only if the linear predictor is between -5 and 5, and with a saturated offset only if that offset is zero. Holds: acceptance is exact and the gradient is that of the value for every input; the value is the documented one where exponents are not clipped and, for huber_svm, with smoothing parameter 1."
  },
  {
   "property": "C97",
   "status": "partial",
   "theorems": [
    "C97_response_partial",
    "C97_copy",
    "C97_design_refuted",
    "C97_refused_refuted",
    "C97_counts_refuted",
    "C97_trials"
   ],
   "note": "REFUTED: a new design is used by the linear predictor, the Hessian and copies, but not by the objective and its gradient; a refused assignment replaces the design and the successes; counts are not checked. Holds, for every history, when the design is the one the model was made with."
  },
  {
   "property": "C98",
   "status": "partial",
   "theorems": [
    "C98_gaussian_partial",
    "C98_columns_partial",
    "C98_negative",
    "C98_huber_refuted",
    "C98_binary_refuted",
    "C98_block_refuted"
   ],
   "note": "REFUTED: huber and huber_svm ignore coef; logistic, probit and cloglog take the successes as shape and the trials as successes, and raise without trials; poisson raises NameError; all functions stacked_* of sparse_group_block but stacked_gaussian raise. Gaussian stacks are as documented, except that case weights of stacked_loglike have no effect (C74)."
  },
  {
   "property": "C99",
   "status": "partial",
   "theorems": [
    "C99_weighted_copy",
    "C99_slope_copy",
    "C99_mixed_copy",
    "C99_simplex_copy",
    "C99_subspace_copy",
    "C99_cone_copy",
    "C99_group_cone_copy",
    "C99_sparse_group_copy",
    "C99_weighted_equality_partial",
    "C99_weighted_interchange_partial",
    "C99_weighted_lengths_refuted",
    "C99_weighted_raises_refuted",
    "C99_mixed_equality_partial",
    "C99_simplex_equality_partial",
    "C99_cone_equality_partial",
    "C99_slope_equality_partial",
    "C99_sparse_group_equality_partial",
    "C99_group_cone_equality_partial",
    "C99_subspace_equality_partial",
    "C99_subspace_symmetric_refuted",
    "C99_subspace_transitive_refuted",
    "C99_subspace_different_refuted",
    "C99_weighted_ignores_refuted",
    "C99_slope_ignores_refuted",
    "C99_sparse_group_ignores_refuted",
    "C99_cones_ignore_refuted",
    "C99_values_differ_refuted"
   ],
   "note": "REFUTED: no == looks at the offset or the quadratic; slope ignores its weights, sparse_group_lasso its feature weights, group lasso cones their groups and weights; weighted norms broadcast a single weight and raise ValueError for other different lengths; == of subspaces is neither symmetric nor transitive and holds between different lines. Copies are faithful for all these classes; equal weighted norms of one length with the same offset and quadratic are identical."
  },
  {
   "property": "C100",
   "status": "partial",
   "theorems": [
    "C100_cone_affine_partial",
    "C100_cone_linear_partial",
    "C100_cone_dual_partial",
    "C100_affine_cone_refuted",
    "C100_affine_cone_centers_refuted",
    "C100_weighted_linear_refuted",
    "C100_slope_linear_refuted",
    "C100_slope_forms_refuted",
    "C100_group_linear_refuted"
   ],
   "note": "REFUTED for penalties: weighted norms, slope, group lasso and its cones take the number of rows of D as weights or groups, sparse_group_lasso raises TypeError, simplex_constraint and maximum NameError; a cone after an affine transform with its own offset subtracts that offset. Holds for cls.linear and cls.affine of all cones, up to the tolerance of the cone (C60); the dual is the conjugate when the quadratic has no curvature."
  },
  {
   "property": "C101",
   "status": "partial",
   "theorems": [
    "C101_value",
    "C101_start",
    "C101_kept_partial",
    "C101_fista_partial",
    "C101_fits",
    "C101_newton",
    "C101_assign_refuted",
    "C101_shared_start_refuted",
    "C101_shared_penalty_refuted",
    "C101_admm_refuted",
    "C101_newton_refuted"
   ],
   "note": "REFUTED: problem.coefs[:] = v overwrites the solution an earlier solve of the problem returned; a second problem with the same penalty starts at the last point the first run tried, and when the run used up max_its choosing its start overwrites the first solution; ADMM iterations move the start of a problem with the same loss; a second quasi_newton.solve can overwrite and return the array of the first. Holds for every history without assignments to that problem and without a second problem on its penalty, for any number of fits with a new penalty each (paths, estimators), and for the values computed by FISTA and quasi-Newton."
  },
  {
   "property": "C102",
   "status": "partial",
   "theorems": [
    "C102_cv_partial",
    "C102_blind",
    "C102_leak_refuted",
    "C102_basil_refuted",
    "C102_again_refuted"
   ],
   "note": "REFUTED: with an unpenalized intercept every fold reports at the first value the null solution of the whole sample, held-out responses included, so leave-one-out of two responses scores a quarter of what the training fits score; path_fitter=basil raises for every sample (an array has no entry 'beta'); basil overwrites the gradient of its initial data, so the same call a second time gives other coefficients. Holds for strong_rules with every feature penalized (Gaussian, Poisson, Huber and SVM losses) up to the tolerance of the KKT check, whatever the folds and the order of the jobs; given the initial data the training path depends on the training cases only, for every family."
  },
  {
   "property": "C103",
   "status": "partial",
   "theorems": [
    "C103_vectors",
    "C103_columns_partial",
    "C103_todense_partial",
    "C103_tensorize_partial",
    "C103_stacks_refuted",
    "C103_adjoints_refuted",
    "C103_scaler_refuted",
    "C103_scaled_todense_refuted",
    "C103_todense_refuted"
   ],
   "note": "REFUTED: vstack, hstack and product raise on every matrix with more than one column, in both directions, hence todense of a stack always fails; so do reshape and the adjoints of add_intercept and selector; scaler multiplies the columns instead of the rows (todense of a scaler after a square matrix is a wrong matrix, silently) or raises; aslinear of a matrix that is not square has its shapes exchanged. Holds, for every depth and every number of columns, for matrices, diagonals, offsets, wrapped transforms, selectors and intercepts used forward, centering, identity, residuals, compositions, sums, multiples and adjoints of these."
  },
  {
   "property": "C104",
   "status": "partial",
   "theorems": [
    "C104_points_partial",
    "C104_weights_refuted",
    "C104_plain_partial",
    "C104_rate_partial"
   ],
   "note": "REFUTED: a restart only sets the point of its own step to the coefficients; the weights (line 125 sets a local variable nobody reads) go on growing as in a run without restarts, and the momentum after a restart is that of the unrestarted sequence. Holds: iterations r, 2r, ... step from the coefficients and no others do (any problem, any interval); with restart=1 every iteration is the proximal gradient step, never refused, never increasing, with the O(1/k) rate against every point, with or without backtracking."
  },
  {
   "property": "C105",
   "status": "partial",
   "theorems": [
    "C105_conjugate_partial",
    "C105_moreau_partial",
    "C105_uncovered_refuted",
    "C105_atom_members",
    "C105_cone_members",
    "C105_quadratic_refuted",
    "C105_smoothed_refuted",
    "C105_linear_term_refuted",
    "C105_singleton",
    "C105_fromatom"
   ],
   "note": "REFUTED: if a coefficient is in no group the object returned ignores that coordinate, where the conjugate is infinite off 0 and Moreau's identity fails (for every such S and coordinate); smoothed(q) and the conjugate of an S with a curved quadratic raise ValueError in every mode at every point; an assigned linear term is dropped; selectors raises NameError whenever there is a member (definitional in the model, no theorem). Holds: for groups that cover every position the conjugate is the Fenchel conjugate, with exact values and proximal maps and with Moreau's identity, for any exact members and in particular the documented atoms and cones; singleton and fromatom pose the problems stated."
  },
  {
   "property": "C106",
   "status": "partial",
   "theorems": [
    "C106_long_refuted",
    "C106_any_length_refuted",
    "C106_sizes_partial",
    "C106_short_partial"
   ],
   "note": "REFUTED: hstack, product and selector, and the adjoints of vstack and product, ignore every entry after the last one expected; identity and centering take any length; scaler repeats a one-entry vector, a one-entry diagonal or offset is repeated. Holds: matrices, diagonals and offsets of more than one entry, reshape, selectors of a missing position, and every stack given too few entries raise."
  },
  {
   "property": "C107",
   "status": "partial",
   "theorems": [
    "C107_fields_partial",
    "C107_copy_partial",
    "C107_none_refuted",
    "C107_equivalence_refuted",
    "C107_values_refuted",
    "C107_same_function_refuted",
    "C107_noneify_refuted"
   ],
   "note": "REFUTED: a == a raises TypeError whenever center or linear_term is None; from every a with a nonnegative constant term == fails to be symmetric and transitive; every a equals some b whose values differ by any amount; every linear a has an unequal representation of the same function; noneify raises AttributeError whenever there is a center. Holds: with all fields set, == is the comparison of the four broadcast fields up to numpy's tolerances; copies are equal and the same function; noneify never changes the function."
  },
  {
   "property": "C108",
   "status": "partial",
   "theorems": [
    "C108_value",
    "C108_share_partial",
    "C108_share_refuted",
    "C108_monotone",
    "C108_order",
    "C108_range",
    "C108_sigma_refuted",
    "C108_scaling_refuted"
   ],
   "note": "REFUTED: sigma has no effect (it is not passed on); the transform is left with another scaling; with n draws with distinct statistics and a quantile between (n-1)/n and 1, fewer than the share quantile of the draws do not exceed the result. Holds: the result is the unique percentile (linear interpolation) of the largest statistics, more than quantile*(n-1) draws do not exceed it and at least (1-quantile)*(n-1) are not below it, it is monotone in quantile, independent of the order of the draws and of the scaling of M, and other quantiles raise ValueError. The draws are an argument of the model."
  },
  {
   "property": "C109",
   "status": "partial",
   "theorems": [
    "C109_excess_partial",
    "C109_weights_partial",
    "C109_weights_refuted",
    "C109_poisson_refuted",
    "C109_poisson_fit_refuted"
   ],
   "note": "REFUTED: the constant ignores the case weights, so for one case with some but not all successes the objective at the best fit is zero only if the weight is 1 and negative if it is less; the Poisson constant is -coef^2 (N-1) log N in place of coef (N log N - N), so the objective at the best fit is 1 for a count of 1 and negative for every count from 3 on. Holds: with unit weights, for binomial data with trials in each case, the objective is the excess and not negative, where exponents are not clipped (exact value also given with weights)."
  },
  {
   "property": "C110",
   "status": "partial",
   "theorems": [
    "C110_meaning",
    "C110_sorted",
    "C110_safe_partial",
    "C110_unpenalized_refuted",
    "C110_lost_refuted"
   ],
   "note": "REFUTED: a group with weight zero is discarded at the gradient of every solution for the current value, as its gradient is zero there and terms reports 0, though its coefficients need not be zero. Holds: the set is exactly that of the rule, sorted and without repetition, and is safe for groups with positive weight. check_KKT of the same module always raises NameError (solutionn) and is not given a theorem."
  },
  {
   "property": "C111",
   "status": "partial",
   "theorems": [
    "C111_value_partial",
    "C111_baseline_partial",
    "C111_shift_partial",
    "C111_shift_refuted"
   ],
   "note": "REFUTED: linear predictors are clipped at 50 in each category separately, so for two categories whose coefficients differ some common shift changes the value. Holds: all three statements where no linear predictor is beyond 50, with or without weights (offsets None)."
  },
  {
   "property": "C112",
   "status": "partial",
   "theorems": [
    "C112_iszero_partial",
    "C112_iszero_iff_partial",
    "C112_iszero_refuted",
    "C112_true_center",
    "C112_no_center"
   ],
   "note": "REFUTED: with coef 0 a nonzero center that nothing depends on makes iszero false although the quadratic is zero everywhere. Holds: iszero is true exactly for the zero quadratics with zero center; true_center is the unique minimizer and is None exactly when there is none."
  }
 ]
}