# Formal model of regreg in Rocq

## 1. Approach

The model is a shallow Gallina transcription of the Python, Cython and C code in
`/repo/regreg`, function by function and branch by branch. Every definition of a
model file cites the file and lines it models and says where it simplifies.

* Numbers are the real numbers `R` of the standard library. A float operation is
  modelled by the exact real operation: **rounding, overflow and signed zeros are
  not modelled**. Where the code would produce nan (0/0, log of 0) the model
  returns `Err NaNResult`, never Coq's total `/ 0`. The one exception is C48, where
  numpy's fold labels are also computed in binary64 with `Coq.Floats.SpecFloat`.
* An array of shape `(p,)` is a `list R`; a matrix is a list of rows, or the list of
  its entries when the code flattens it.
* Values of objectives and weights that may be infinite live in `ext := Fin r | PInf`.
* Exceptions are values: `res A := Ok a | Err e`, `e` names the Python exception.
* Loops are structural recursion, or recursion on fuel with an explicit `OutOfFuel`
  outcome. Theorems about such loops either exclude it or prove it never happens.
* Mutable state (coefficients, case weights, shared buffers, the solver's state) is
  a record threaded through the functions; histories are lists of operations.
* Calls into libraries (`np.linalg.svd`, `argsort`, the inner solver of a path, the
  line search) are parameters; a theorem states the contract it needs, and an
  `Example` shows that the contract can be met.

### File layout (`rocq/theories`)

| files | content |
|-------|---------|
| `Vec.v` | vectors, inner products, norms: shared mathematics |
| `Spec.v`, `Spec*.v` | the specification vocabulary of the theorem statements: argmin, projection, Fenchel conjugate, gradient, adjoint, convexity, dual norms, risk sets, KKT conditions, singular values ... It names none of the model's helpers; the files `Spec*Atom/Obj/Base/Mode*` also say when an object is well formed |
| `M_*.v` | the model. Definitions only |
| `P_*.v` | proofs |
| `T_*.v` | the property theorems `Cnn_...`, each with `Print Assumptions`, and `Example`s that meet the hypotheses |

Properties that are false of the code have a theorem `..._refuted` with a concrete
witness in the model, and `..._partial` theorems for what holds. Their MANIFEST
status is `partial` and the note says what is refuted.

`tools/manifest.py` regenerates `MANIFEST.json` and `_CoqProject` from the theorem
files, `tools/files.txt` and `tools/notes.json`; `tools/mutate.py` edits a scratch
copy of the model, rebuilds what depends on it and appends the outcome to
`seeded/LOG.jsonl`.

## 2. Properties: model and proof

Statements are in `properties.jsonl`, theorem names in `MANIFEST.json`.

| id | model | proof |
|----|-------|-------|
| C01-C03 | M_quad | algebra on lists; explicit second order expansion; completing the square |
| C04, C05, C12, C55 | M_prox | subgradient certificate => unique minimizer with quadratic growth; projection certificate |
| C06-C10, C56-C58 | M_semi, M_mode, M_shift | reduction to C04/C05 by completing the square; Fenchel-Young with attainment or an unbounded ray; invariant over operation lists |
| C11 | M_prox | loop invariant over the sorted knots |
| C13-C15, C59, C60 | M_cones | polarity and the projection theorem for cones; l1 epigraph by its root finder |
| C16 | M_simplex | KKT certificate |
| C17 | M_iso | block invariant of pool adjacent violators; strict decrease of the block count |
| C18, C61 | M_slope | isotonic regression and rearrangement |
| C19, C62 | M_weighted | coordinatewise minimization; weighted root finder |
| C20, C23, C58 | M_group, M_mixed, M_mixed_atom | blockwise certificates; gauges and polars (P_gauge) |
| C21, C22 | M_sgl, M_sgb | composition of two proximal maps; bracketing invariant of the bisection with the slack of its test made explicit |
| C24-C28, C63 | M_fista | invariants over runs for arbitrary oracles; descent lemma; estimate sequence for the rate |
| C29-C32, C51, C64, C65 | M_affine, M_buffer, M_afatom, M_fused | induction over the syntax of transforms; an object store for the shared arrays |
| C33-C36, C66, C68 | M_loss | derivatives by `derivable_pt_lim`, tangent inequalities, histories of evaluations |
| C37 | M_cox | the loops over ranks are shown to compute risk set sums by induction; derivatives of log-sum-exp; Cauchy-Schwarz for the Hessian |
| C38 | M_smooth | induction over nested sums and compositions |
| C39-C42, C67 | M_problem, M_container | Fenchel duality; duality gap bounds; the FISTA rate |
| C43 | M_admm | variational inequalities; Fejer monotonicity |
| C44, C69 | M_newton | Cauchy-Schwarz in the metric of the matrix; convexity |
| C45-C47, C49 | M_path | KKT sufficiency; state machine over an arbitrary inner solver |
| C70-C72 | M_gpath | the same for groups; dual balls of one group for the sparse group lasso |
| C73, C74 | M_mglm | row sums of log-likelihoods, exp tangents, Gibbs' inequality; invariants of the store over evaluations for the stacked classes; entrywise matrix products |
| C75 | M_multi | cumulative sums as interval sums; exchange of finite sums for the adjoint; invariant of the instance over updates, copies and evaluations |
| C76 | M_image | rows of the sparse matrix as a list of edges without repetition; adjoint of a sparse product; index arithmetic |
| C77 | M_factored (QR iteration of partial_svd as an argument) | leading triples of a decomposition; the stopping rules leave out only values the threshold kills; induction over the doubling loop, then over the calls |
| C78 | M_sklearn, M_sknull (solver an argument) | y read column by column; the loss built is the glm of M_loss, evaluated; the stored coefficients minimize the documented objective by extensionality |
| C79 | M_sklearn, M_cox | values through the loss theorems; induction over the number of scores for the in-place weights; least squares and Gibbs' inequality for R2 |
| C80 | M_sklearn | monotonicity of exp; counting; induction over a row for argmax; witnesses |
| C81 | M_probit (cdf and pdf any functions with the defining properties of the normal distribution, SpecNormal; existence proved in P_normal) | mean value theorem for monotone Mills ratios, hence convexity; separable gradients; three derivatives of an identity refute the Hessian; induction over evaluation histories |
| C82 | M_probit (set_data is the same code in the three binary losses) | exact acceptance conditions; induction over assignment histories; witnesses |
| C83 | M_mkkt (check_KKT on the kinds of M_mixed) | first order condition of the minimizer split over the classes of coordinates, kind by kind; tangent inequality and a bound per class for soundness; witnesses |
| C84 | M_mkkt (strong_set) | exact meaning by cases on the label; triangle inequality per coordinate and per group; witness with default weights |
| C85 | M_mpath (main and its loop; the solver is an arbitrary function of the call number, start, set and value) | invariant over tries and values: the set covers the unpenalized and nonnegative coordinates; restriction of stationarity to the set, C83 bounds at the whole gradient; witnesses run step by step |
| C86 | M_mpath (lagrange_max, null_solution as lazy attributes, the sequence) | folds of maxima; stationarity of the null solution; witnesses for the positive part and for the order of reads |
| C87 | M_sbpath (_check_KKT, _strong_set; argsort is a parameter assumed to sort) | the row version of C72: bounds per row summed over rows; first order condition per row; witnesses with one or two rows |
| C88 | M_sbpath on the loop of M_gpath | C71's loop invariant; rows as groups, so the exact-solution bound of C72 applies; dual ball at the null gradient and accuracy of the search for the first value; witnesses |
| C89 | M_subprob: restricted loss, penalty and elastic net, solve_subproblem, null fit | embedding of restricted vectors, sums over candidates; the exact-solver theorems of C46, C71, C72, C88 then apply; one-feature solvers as witnesses |
| C90 | M_subprob: warm_start, deviances of strong_rules | induction over the values with the state (arguments, solution, step); exchange argument for monotone losses; witnesses |
| C91 | M_nesta: nesta (all atoms and cones as conjugate_atom, any solver) | conjugate calculus for the smoothed function; a round is a proximal step of the dual, hence firmly nonexpansive; the weights 1 + k/(k+3) < 2 keep the distance monotone and their sum diverges like a logarithm; witnesses on the line |
| C92 | M_nesta: tfocs | the same with the roles of primal and dual exchanged: a round is a proximal step of the primal problem |
| C93 | M_check: check_subgradient of seminorms, slope, group lasso and cones | KKT conditions of the proximal problem from convexity and polarity of the two gauges; distance of a passing candidate from the minimizer |
| C94 | M_hsvm: huberized_svm through the affine atom, its smoothing and the smooth conjugate (M_afatom, M_sconj) | closed form of the smoothed positive part from the supremum and its unique maximizer; gradient, Lipschitz constant and sandwich from it; coef and offset ignored: refuted |
| C95 | M_qconj: constructors and get_conjugate of quadratic_loss, signal_approximator | the conjugate is that of the zero cone with a collapsed quadratic (C52), closed form by completing the square; every Q raises: refuted |
| C96 | M_factory: class methods of glm, the second assignment of the data, logistic_loss | acceptance from that of the losses (C43) and of glm; value and gradient from the loss theorems through the design; where the value is not the documented one by comparing the sums case by case |
| C97 | M_factory: glm.data, linear_predictor, hessian and copies after assignments; the design is held twice | invariant over histories: only the data of the loss and the second design change; stale design, refused data, counts: refuted |
| C98 | M_factory: class methods of stacked_loglike and stacked_common_loglike as called, argument binding of sparse_group_block.stacked_* | induction over the responses on top of C74; swapped arguments, ignored coefficients, missing arguments: refuted |
| C99 | M_equal: __eq__ and copy of every atom class but the seminorms and group lasso (C58) | what == compares, exactly, from the definition of numpy's broadcasting and allclose; copies equal the original field by field or value by value; ignored fields and different lines: refuted |
| C100 | M_compose: linear and affine of the cones, and the inherited ones called on the other classes | value and dual from C59 and C60 through the matrix; wrongly bound arguments: refuted |
| C101 | M_coefs: arrays in a heap, the coefs of penalties, losses, problems, ADMM and quasi-Newton objects bound to them; a run of FISTA is the list of its proposals, derived from M_fista by fit_log | invariant over histories: only the problem and its penalty are bound to a returned array; refinement of fit and of the quasi-Newton iteration; universal counterexamples |
| C102 | M_crossval: cross_validate for lasso paths from the folds (M_cv) through the training paths and path fitters (M_path, M_subprob) to the scores; the gradient array shared by the jobs is state | composition of the theorems on folds (C48), strong rules and subproblems (C89) for every fold and order of the jobs; extensional equality of training paths; universal counterexamples for the first value, for basil as a fitter and for basil called again |
| C103 | M_dense: transforms as expressions, their three maps on arrays of one or two dimensions with numpy's broadcasting, reshaping, slice assignment and errors; todense | induction over expressions: on vectors the model agrees with M_affine; on matrices the columnwise classes map each column; the other classes are shown to raise or to act along the wrong axis, for all shapes |
| C104 | M_fista: restart_now and one pass of the loop, over every list of passes of a run (SpecFista.passes) | induction over the passes: Nesterov's sequence of weights is never set back; the point of the step by cases on divisibility; restart=1 by the proximal inequality summed over the passes, with the step sizes as weights |
| C105 | M_sepconj: conjugate, smoothed, selectors of separable over members (object, its conjugate, group), singleton and fromatom | induction over the members: points of the groups are assembled by assignment, inner products split over the groups; the supremum off the groups is infinite; evaluation of smooth_conjugate traced to the proximal map of the zero cone with coef 0 |
| C106 | ap of M_dense on one-dimensional arrays of any length | induction over the parts of a stack: the slices of x ++ z are those of x; the first slice that is too short fails in reshape |
| C107 | M_iqeq: numpy.allclose with its tolerances on fields, ==, copy, noneify as the object afterwards and the outcome | entrywise characterization; the number from which another is just within tolerance gives asymmetry and failure of transitivity |
| C108 | M_tuning: the loop over the draws with the instance it leaves behind, numpy.percentile by sorting and linear interpolation; the draws are an argument | order statistics specified by counting, shown unique; the sorted list meets the specification; shares, monotonicity and order from it; SMUCE_stat from C75 |
| C109 | M_loss: the constants of the likelihoods (dev_const) and the constructor that adds them | the lowest value of a case as greatest lower bound; Gibbs' inequality for every link onto (0, 1), attained or approached; the constant of Poisson and the ignored weights refuted for every count and weight |
| C110 | M_group: g_strong_set (terms of the dual, threshold, labels) | membership of a filtered sorted list; first order condition of a group of a minimizer and the triangle inequality; unpenalized groups refuted at every minimizer |
| C111 | M_mglm: mglm_multinomial, new_multi, new_mglm, mglm_eval | the constructors return the fields given; value by the lemma for C74; softmax is unchanged by a common shift; clipping refutes the shift beyond 50 |
| C112 | M_quad: iszero, true_center, collapsed | values along lines decide the coefficients; completing the square; for coef at most 0 a step along an axis does not increase the value; an idle center refutes the converse for iszero |
| C48 | M_cv | counting; binary64 evaluation for the refutations |
| C50 | M_linear | orthonormal bases |
| C52 | M_sconj | envelope theorem |
| C53 | M_svd | existence of the decomposition by compactness (P_compact) and deflation; von Neumann's inequality through the two suprema; transfer of vector certificates |
| C54 | M_block | rowwise certificates |

## 3. Trusted base

* Coq 8.16.1's kernel (`coqchk` accepts the compiled files).
* The standard-library axioms that `Print Assumptions` reports, see section 4.
* The reading of the Python code into Gallina; every definition cites its lines.
* NumPy/SciPy primitives at their documented real-number meaning (`np.sort`,
  `np.linalg.norm`, `np.clip`, `np.cumsum`, `np.unique`, broadcasting of a scalar).
  `np.argsort` is any sorting permutation where ties matter; `np.linalg.svd` is any
  function meeting its contract.

## 4. Axioms

No axiom is added by this development. `Print Assumptions` lists, for every theorem,
a subset of

* `ClassicalDedekindReals.sig_forall_dec`, `ClassicalDedekindReals.sig_not_dec` (the
  standard library's real numbers),
* `FunctionalExtensionality.functional_extensionality_dep`,
* `Classical_Prop.classic` (through lemmas of the Reals library and of Coquelicot; Coquelicot, used in P_normal for the integral of the normal density, adds no axiom).

`AXIOMS.md` has the list per theorem, as printed by the build.

## 5. What is modelled and what is not

| code | modelled | not modelled |
|------|----------|--------------|
| identity_quadratic.py | objective, add, collapsed, recenter, conjugate, zero, ==, copy, noneify (M_iqeq) | latex, repr |
| atoms/seminorms.py | all classes: seminorm, constraint, both proximal maps, proximal, objective, conjugate, modes, copy, equality, affine/linear/shift, check_subgradient | get_dual, latex |
| atoms/piecewise_linear.pyx, projl1_cython.pyx | all | |
| atoms/cones.py | all ten cones: constraint, cone_prox, proximal, objective, conjugate, check_subgradient, linear and affine (M_compose), equality and copy (M_equal) | |
| atoms/simplex.py, slope.py, _isotonic.pyx, _isotonic_py.py | all; `.linear` as it runs (M_compose), equality and copy (M_equal) | |
| atoms/weighted_atoms.py | all | form_transform, repr |
| atoms/group_lasso.py, mixed_lasso.py, mixed_lasso_cython.pyx | atoms, duals, epigraph cones, kernels of the proximal maps, strong_set and check_KKT of mixed_lasso (M_mkkt) | latex |
| atoms/sparse_group_lasso.py, sparse_group_block.py, block_norms.py, svd_norms.py, linear_constraints.py | all | repr, latex |
| atoms/__init__.py | offset handling, affine_atom, smoothed | dual of affine_atom |
| affine/__init__.py, fused_lasso.py, block_maps.py | all transforms, for one-dimensional and flattened arrays; two-dimensional arrays and todense in M_dense (inputs of one-dimensional shape) | sparse matrix storage |
| affine/factored_matrix.py | factored_matrix, compute_iterative_svd, partial_svd up to its QR loop, nuclear_norm, operator_norm (M_factored) | the QR iteration and its convergence; affine_sum of a transform and a factored matrix is taken as a matrix |
| algorithms.py | FISTA.fit, its tests and updates | printing, nan from user callbacks |
| smooth/glm.py, binary.py, quadratic.py | gaussian, logistic, poisson, huber, huber_svm, cloglog, probit where cited; glm with its class methods and data attribute (M_factory); quadratic_loss with its constructors and conjugate (M_qconj); signal_approximator; losses.py huberized_svm (M_hsvm) | latex, docstring factories, class cholesky |
| smooth/cox.py, cox_utils.pyx, cox_fns.c | all | |
| smooth/__init__.py | smooth_atom, affine_smooth, zero, sum | latex |
| problems/*.py | composite, conjugate, simple (solve, gengrad), separable (with conjugate, smoothed, separable_problem: M_sepconj), container, dual_problem, admm, newton, nesta and tfocs (M_nesta); aliasing of coefs (M_coefs) | latex |
| paths/__init__.py, lasso.py, basil.py, cross_validate.py | strong_rules, default sequence, KKT check, strong set, basil, folds, warm_start, subproblems and null fits (M_subprob), cross_validate end to end (M_crossval) | printing, interleaving of jobs within a fit |
| paths/group_lasso.py, sparse_group_lasso.py | path objects, checks, screening, subsampling (M_gpath) | the solution of the restricted problem is any function |
| smooth/mglm.py; stacked_loglike of smooth/glm.py | losses, stacks, models (M_mglm); class methods (M_factory) | poisson and cox class methods of stacks, latex |
| affine/multiscale.py | transform, form_matrix, SMUCE_stat (M_multi), choose_tuning_parameter given its draws (M_tuning) | the random generator; two-dimensional arguments |
| affine/image2d.py | formD, formD_smaller, transform (M_image), under a numpy that still has np.bool | |
| sklearn/ | base.py (check_y, fit, fit of lagrange_mixin, score, predict), gaussian, logistic, cloglog, huber, huber_svm, multinomial (predict, predict_proba), cox (scores): M_sklearn.v; fit with unpenalized=True: M_sknull.v | make_*_atom helpers, the sklearn base classes |
| paths/mixed_lasso.py | M_mpath: initial_active, null_solution, lagrange_max, the sequence, elastic_net, grad, main | constant columns, intercept column, step sizes, verbose |
| paths/sparse_group_block.py | where cited in M_*.v | the rest |
