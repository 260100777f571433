{"id": "C01", "title": "Line search returns a step in [alpha_min, 1]", "statement": "ArmijoLinesearch::run terminates and sets alpha_try to a value in [alpha_min, 1], whatever the merit function returns or throws, for any interpolation scheme, provided 0 < alpha_min <= 1 and 0 <= contraction_min, contraction_max <= 1.", "quantifier": "for every merit function (any values including NaN and infinities, throwing at any subset of calls), every phi0 and dphi0, every option set in the stated ranges", "why_tests_cant": "A test samples a few merit functions; the loop has NaN, exception and clipping paths whose combinations are unbounded.", "anchors": ["include/proxsuite-nlp/linesearch-armijo.hpp:59-147 ArmijoLinesearch::run", "include/proxsuite-nlp/linesearch-base.hpp:18-30 Options"]}
{"id": "C02", "title": "Line search: bounded number of merit evaluations", "statement": "One call of run evaluates the merit function at most K + max_num_steps times, where K is the number of halvings needed to bring 1 below alpha_min, plus one.", "quantifier": "for every merit function and every throwing pattern, for alpha_min > 0", "why_tests_cant": "The bound must hold for adversarial exception schedules.", "anchors": ["include/proxsuite-nlp/linesearch-armijo.hpp:69-80, 86-144"]}
{"id": "C03", "title": "Line search: sufficient decrease on exit", "statement": "If no merit evaluation throws and |dphi0| >= dphi_thresh, then on return either the Armijo condition phi(alpha) - phi0 <= c1 alpha dphi0 holds for the returned alpha and value, or alpha is alpha_min, or max_num_steps backtracking steps have been spent.", "quantifier": "for every non-throwing merit function with finite values, all options, all interpolation schemes", "why_tests_cant": "Quantifies over all functions.", "anchors": ["include/proxsuite-nlp/linesearch-armijo.hpp:86-146"]}
{"id": "C04", "title": "Line search: the returned value is the merit at the returned step", "statement": "The value returned by run equals phi(alpha_try) for the step it hands back.", "quantifier": "for every merit function: holds when no evaluation throws and no NaN shows up in the interpolation; fails otherwise (throwing or NaN merit)", "why_tests_cant": "Needs the set of all exception/NaN schedules; the failing schedules are rare.", "anchors": ["include/proxsuite-nlp/linesearch-armijo.hpp:64-80, 127-146"]}
{"id": "C05", "title": "Safeguarded interpolation stays in the bracket", "statement": "minimize_interpolant returns a value in [min_step_size, max_step_size] or NaN; it is NaN only if the interpolation itself is undefined (NaN).", "quantifier": "for every sample set, bracket and interpolation scheme", "why_tests_cant": "All real/NaN samples.", "anchors": ["include/proxsuite-nlp/linesearch-armijo.hpp:150-222 minimize_interpolant"]}
{"id": "C06", "title": "Quadratic interpolation fits its data", "statement": "For the QUADRATIC scheme the interpolant matches phi0, dphi0 and the last sample, and the proposed unclipped step is the stationary point of that interpolant (its minimiser when the curvature is positive).", "quantifier": "for every phi0, dphi0, sample value and non-zero sample step", "why_tests_cant": "Algebraic identity over all reals.", "anchors": ["include/proxsuite-nlp/linesearch-armijo.hpp:165-175"]}
{"id": "C07", "title": "Cubic interpolation fits its data", "statement": "For the CUBIC scheme the interpolant matches phi0, dphi0 and both samples.", "quantifier": "for every pair of distinct positive sample steps and values (refuted: the right-hand side entries are swapped)", "why_tests_cant": "Tests only check that the run ends; a wrong interpolant still gives some step.", "anchors": ["include/proxsuite-nlp/linesearch-armijo.hpp:176-205"]}
{"id": "C08", "title": "Polynomial evaluation and derivative are right", "statement": "PolynomialTpl::evaluate computes sum of c_i a^(deg-i) and derivative() evaluates to the analytic derivative at every point; derivative of a polynomial without coefficients is outside the contract.", "quantifier": "for every non-empty coefficient vector and every argument", "why_tests_cant": "All degrees and all points.", "anchors": ["include/proxsuite-nlp/linesearch-armijo.hpp:17-41 PolynomialTpl"]}
{"id": "C09", "title": "Projection lands in the set and is the nearest point", "statement": "For box (lower <= upper), negative orthant, equality and nested products of these, projection(z) is in the set and no point of the set is closer to z.", "quantifier": "for every dimension, every z, every nesting of products whose block sizes add up to the length of z", "why_tests_cant": "All dimensions, all real points, all nestings.", "anchors": ["include/proxsuite-nlp/modelling/constraints/box-constraint.hpp:28-44", "include/proxsuite-nlp/modelling/constraints/negative-orthant.hpp:32-44", "include/proxsuite-nlp/modelling/constraints/equality-constraint.hpp", "include/proxsuite-nlp/modelling/constraints/constraint-set-product.hpp:41-106"]}
{"id": "C10", "title": "Projection is idempotent and nonexpansive", "statement": "projection(projection(z)) = projection(z), and |projection(z)-projection(w)| <= |z-w|.", "quantifier": "for every z, w, set and nesting", "why_tests_cant": "All pairs of points.", "anchors": ["include/proxsuite-nlp/modelling/constraints/box-constraint.hpp:28-44", "include/proxsuite-nlp/modelling/constraints/negative-orthant.hpp:32-44", "include/proxsuite-nlp/modelling/constraints/constraint-set-product.hpp:41-106"]}
{"id": "C11", "title": "Moreau decomposition", "statement": "projection(z) + normalConeProjection(z) = z, and normalConeProjection(z) is in the normal cone of the set at projection(z) (for l1: a valid subgradient scaled by mu).", "quantifier": "for every z, set, mu > 0 and nesting", "why_tests_cant": "All points; boundary ties included.", "anchors": ["include/proxsuite-nlp/constraint-set.hpp", "include/proxsuite-nlp/modelling/constraints/box-constraint.hpp", "include/proxsuite-nlp/modelling/constraints/constraint-set-product.hpp", "include/proxsuite-nlp/modelling/constraints/equality-constraint.hpp", "include/proxsuite-nlp/modelling/constraints/l1-penalty.hpp", "include/proxsuite-nlp/modelling/constraints/negative-orthant.hpp"]}
{"id": "C12", "title": "L1 penalty proximal operator is exact", "statement": "projection(z) of NonsmoothPenaltyL1 is the unique minimiser of |p|_1 + |p-z|^2/(2 mu), and evaluateMoreauEnvelope returns that minimum.", "quantifier": "for every z and mu > 0", "why_tests_cant": "All real points and weights.", "anchors": ["include/proxsuite-nlp/modelling/constraints/l1-penalty.hpp", "include/proxsuite-nlp/constraint-set.hpp:95-108"]}
{"id": "C13", "title": "Projection Jacobian application agrees with the projection", "statement": "applyProjectionJacobian masks exactly the rows where the projection is locally constant, i.e. it multiplies by the derivative of the projection, away from the kinks; applyNormalConeProjectionJacobian is the complementary mask.", "quantifier": "for every z off the kink set and every matrix", "why_tests_cant": "Derivative statement over all points.", "anchors": ["include/proxsuite-nlp/constraint-set.hxx:10-38", "include/proxsuite-nlp/modelling/constraints/box-constraint.hpp", "include/proxsuite-nlp/modelling/constraints/constraint-set-product.hpp", "include/proxsuite-nlp/modelling/constraints/equality-constraint.hpp", "include/proxsuite-nlp/modelling/constraints/l1-penalty.hpp", "include/proxsuite-nlp/modelling/constraints/negative-orthant.hpp"]}
{"id": "C14", "title": "A product of sets behaves like its components with the solver penalty", "statement": "Each component of a ConstraintSetProduct behaves as if it were used alone with the same mu: setProxParameter on the product reaches all components.", "quantifier": "for every component list and mu (refuted: the parameter is not forwarded)", "why_tests_cant": "Silent wrong numerics: everything runs.", "anchors": ["include/proxsuite-nlp/modelling/constraints/constraint-set-product.hpp:41-106", "include/proxsuite-nlp/constraint-set.hpp:70-73"]}
{"id": "C15", "title": "Constraint segments tile the dual vector", "statement": "getIndex/getConstraintDim give consecutive, disjoint segments covering exactly [0, getTotalConstraintDim()), after construction and after any sequence of addConstraint.", "quantifier": "for every list of constraints and every history of additions", "why_tests_cant": "All histories and sizes.", "anchors": ["include/proxsuite-nlp/problem-base.hpp:59-127 addConstraint, reset_constraint_dim_vars"]}
{"id": "C16", "title": "Per-constraint multipliers are packed and read back unchanged", "statement": "solve(x0, vector of lams) throws on count mismatch, otherwise the flat initial dual vector restricted to segment i is lams0[i].", "quantifier": "for every constraint list and every multiplier list with matching dimensions", "why_tests_cant": "All layouts.", "anchors": ["include/proxsuite-nlp/prox-solver.hxx:31-49", "include/proxsuite-nlp/problem-base.hpp:64-70"]}
{"id": "C17", "title": "The solver terminates within its budgets", "statement": "solve returns with num_iters <= max_iters and al_iters <= max_al_iters, and the inertia correction loop always ends, for every problem.", "quantifier": "for every problem functions (any values, any exceptions), every linear solver behaviour, every scalar arithmetic for the outer/inner loops; inertia loop: increase factors > 1", "why_tests_cant": "Adversarial oracles.", "anchors": ["include/proxsuite-nlp/prox-solver.hxx:51-127, 278-488, 396-429"]}
{"id": "C18", "title": "SUCCESS certifies an approximate KKT point", "statement": "If solve returns SUCCESS (default multiplier mode) then at the returned (x, lam): the gradient of the Lagrangian is below target_tol in infinity norm, and s = projection(c(x) + mu lam) satisfies s in C, |c(x)-s| < target_tol, and c(x)+mu lam - s in the normal cone of C at s, with mu the penalty recorded in the results.", "quantifier": "for every problem, every linear solver, every line search outcome, every history of earlier solves", "why_tests_cant": "A statement about every run on every problem.", "anchors": ["include/proxsuite-nlp/prox-solver.hxx:51-127, 250-268, 353-367"]}
{"id": "C19", "title": "Convergence flag meaning", "statement": "SUCCESS is returned iff the last outer iteration saw max(prim_infeas, dual_infeas) < target_tol; MAX_ITERS_REACHED iff the iteration budget was spent; the remaining outcome UNINIT is returned exactly when max_al_iters ran out (or a budget is 0).", "quantifier": "for every problem and option set", "why_tests_cant": "All runs.", "anchors": ["include/proxsuite-nlp/prox-solver.hxx:78-126, 480-484", "include/proxsuite-nlp/results.hpp:11-26"]}
{"id": "C20", "title": "Meeting the tolerance with equality is enough", "statement": "If the starting point satisfies max(prim, dual) <= target_tol the solver reports SUCCESS.", "quantifier": "for every problem and tolerance (refuted at equality: <= inside, < outside)", "why_tests_cant": "Boundary case.", "anchors": ["include/proxsuite-nlp/prox-solver.hxx:101, 361-367"]}
{"id": "C21", "title": "Reported infeasibilities belong to the returned point", "statement": "On return, results.prim_infeas and dual_infeas are those of (x_opt, lams_opt).", "quantifier": "for every run: holds for SUCCESS with NEWTON multiplier mode; refuted for MAX_ITERS_REACHED and for PRIMAL / PRIMAL_DUAL modes", "why_tests_cant": "History of the last iteration.", "anchors": ["include/proxsuite-nlp/prox-solver.hxx:94-101, 353-367, 455-484"]}
{"id": "C22", "title": "solve() depends only on its arguments", "statement": "Two calls of solve with the same arguments and options on the same solver return the same result.", "quantifier": "for every call history (refuted: omitted or wrong-size lams0 keep the old multipliers, prox target is the last iterate of the previous call)", "why_tests_cant": "Needs histories of calls.", "anchors": ["include/proxsuite-nlp/prox-solver.hxx:65-92"]}
{"id": "C23", "title": "Penalty parameter stays in its safeguard interval and every set sees it", "statement": "During solve mu > 0, mu_lower <= mu <= max(mu_init, mu_lower), mu_inv = 1/mu, and every constraint's mu() equals the solver's.", "quantifier": "for every history of successes/failures, mu_lower > 0, mu_init >= mu_lower, 0 < factor <= 1", "why_tests_cant": "Unbounded update sequences.", "anchors": ["include/proxsuite-nlp/prox-solver.hxx:270-276, 546-554"]}
{"id": "C24", "title": "Penalty schedule is not monotone", "statement": "Each failed outer iteration multiplies mu by the update factor with floor mu_lower; once the floor has been reached the next failure resets to mu_init.", "quantifier": "for every number of failures", "why_tests_cant": "The reset only shows after long failure runs.", "anchors": ["include/proxsuite-nlp/prox-solver.hxx:270-276"]}
{"id": "C25", "title": "Tolerances are safeguarded", "statement": "After every tolerance update prim_tol >= target_tol and inner_tol >= inner_tol_min; with mu <= mu_upper and non-negative exponents success never loosens the tolerances beyond the floors.", "quantifier": "for every sequence of updates", "why_tests_cant": "Unbounded sequences.", "anchors": ["include/proxsuite-nlp/prox-solver.hxx:564-582", "include/proxsuite-nlp/bcl-params.hpp"]}
{"id": "C26", "title": "Callbacks run once per iteration plus once at the end, in order", "statement": "Each registered callback is called num_iters + 1 times per solve, in registration order, with the current results.", "quantifier": "for every run", "why_tests_cant": "All runs.", "anchors": ["include/proxsuite-nlp/prox-solver.hxx:124, 465", "include/proxsuite-nlp/prox-solver.hpp:213-219, 282-286"]}
{"id": "C27", "title": "Inertia check", "statement": "checkInertia returns OK iff the signature has exactly ndx positive, nc negative and no zero entries; computeInertiaTuple counts correctly and rejects entries outside {-1,0,1}; HAS_ZEROS takes precedence over BAD.", "quantifier": "for every signature vector and every ndx, nc", "why_tests_cant": "All vectors.", "anchors": ["include/proxsuite-nlp/prox-solver.hxx:129-148", "include/proxsuite-nlp/ldlt-allocator.hpp:196-221"]}
{"id": "C28", "title": "Inertia correction leaves the KKT matrix unchanged", "statement": "After the regularisation loop the KKT matrix equals the assembled one, and the factorised matrix is the assembled one plus delta on the primal diagonal.", "quantifier": "for every matrix, every factorisation outcome: true in exact arithmetic, refuted in binary64", "why_tests_cant": "Rounding appears only for particular magnitudes.", "anchors": ["include/proxsuite-nlp/prox-solver.hxx:396-429"]}
{"id": "C29", "title": "KKT matrix is symmetric with the documented blocks", "statement": "assembleKktMatrix yields a symmetric matrix whenever the Hessians are, with lower right block -mu I (classic) or -mu/-mu/2 by active set (primal-dual).", "quantifier": "for every problem size, Hessian, Jacobian, active set", "why_tests_cant": "All sizes.", "anchors": ["include/proxsuite-nlp/prox-solver.hxx:490-526"]}
{"id": "C30", "title": "Merit function equals the primal-dual augmented Lagrangian", "statement": "For equality constraints the merit value is f + |c+mu lam_e|^2/(2mu) + |c+mu(lam_e-lam)|^2/(2mu).", "quantifier": "for every c, lam, lam_e, mu > 0", "why_tests_cant": "Identity over all vectors.", "anchors": ["include/proxsuite-nlp/pdal.hxx:14-29", "include/proxsuite-nlp/prox-solver.hxx:169-205"]}
{"id": "C31", "title": "Merit gradient is the derivative of the merit value", "statement": "merit_gradient and merit_dual_gradient are the partial derivatives of the merit value.", "quantifier": "for every differentiable problem and every point, with dual weight beta = 1/2; refuted for setDualPenalty(beta) with beta != 1/2", "why_tests_cant": "Derivative statement over all points and all beta.", "anchors": ["include/proxsuite-nlp/pdal.hxx:14-44", "include/proxsuite-nlp/prox-solver.hxx:169-205", "include/proxsuite-nlp/prox-solver.hpp:204 setDualPenalty"]}
{"id": "C32", "title": "Cost sums are linear", "statement": "CostSum value, gradient and Hessian are the weighted sums of those of the components, for any expression built with +, *, unary minus, +=, *=.", "quantifier": "for every expression tree of cost operations", "why_tests_cant": "All expression shapes.", "anchors": ["include/proxsuite-nlp/cost-sum.hpp", "include/proxsuite-nlp/cost-sum.hxx"]}
{"id": "C33", "title": "Adding a cost sum to itself", "statement": "c += c doubles the cost.", "quantifier": "for every cost sum (refuted: inserts a vector's own range while it grows, undefined behaviour)", "why_tests_cant": "Undefined behaviour may look right in a test.", "anchors": ["include/proxsuite-nlp/cost-sum.hpp:64-75"]}
{"id": "C34", "title": "Quadratic residual cost: gradient and Hessian belong to the queried point", "statement": "computeGradient(x) returns the gradient at x of 0.5 r'Wr + slope'r + c regardless of earlier calls.", "quantifier": "for every call history and weight matrix; holds when the last evaluation was at x and W is symmetric; refuted for stale evaluations and for non-symmetric W", "why_tests_cant": "Depends on the history of calls.", "anchors": ["include/proxsuite-nlp/modelling/costs/quadratic-residual.hxx:23-64"]}
{"id": "C35", "title": "Composition follows the chain rule", "statement": "compose(f,g)(x) = f(g(x)) with Jacobian Jf(g(x)) Jg(x); mismatching dimensions are rejected at construction.", "quantifier": "for every pair of functions; refuted for the dimension check on manifolds with nx != ndx", "why_tests_cant": "All function pairs.", "anchors": ["include/proxsuite-nlp/function-ops.hpp:14-49"]}
{"id": "C36", "title": "Finite differences have second-order error and are exact on quadratics", "statement": "With step h > 0, every column of the finite-difference Jacobian differs from the derivative along its axis by at most M h^2 / 6, where M bounds the third derivative along the axis on [-h, h]; it is exact for functions that are quadratic along the axes. The same holds for the finite-difference Hessian computed from the Jacobian of a user function.", "quantifier": "for every function, space, point, step size; refuted for the Hessian of a quadratic residual cost, whose gradient uses a stale residual", "why_tests_cant": "All functions and steps; a test compares with a tolerance at a few points.", "anchors": ["include/proxsuite-nlp/modelling/autodiff/finite-difference.hpp:29-68"]}
{"id": "C37", "title": "integrate and difference are mutually inverse", "statement": "integrate(x0, difference(x0, x1)) = x1 and difference(x0, integrate(x0, v)) = v on any space built from vector spaces, cartesian products and tangent bundles over bases that satisfy this law.", "quantifier": "for every nesting of products and bundles, every point and vector of the right size", "why_tests_cant": "All nestings.", "anchors": ["include/proxsuite-nlp/modelling/spaces/vector-space.hpp", "include/proxsuite-nlp/modelling/spaces/cartesian-product.hxx", "include/proxsuite-nlp/modelling/spaces/tangent-bundle.hxx"]}
{"id": "C38", "title": "Manifold Jacobians are the derivatives", "statement": "Jintegrate and Jdifference of flat nestings are the exact derivatives in each argument, with the block structure of the product.", "quantifier": "for every nesting of flat spaces", "why_tests_cant": "All nestings.", "anchors": ["include/proxsuite-nlp/modelling/spaces/cartesian-product.hxx", "include/proxsuite-nlp/modelling/spaces/tangent-bundle.hxx"]}
{"id": "C39", "title": "split and merge are inverse", "statement": "CartesianProduct::split followed by merge is the identity, and the components have their own dimensions.", "quantifier": "for every component list and every vector of size nx (resp. ndx)", "why_tests_cant": "All component lists.", "anchors": ["include/proxsuite-nlp/modelling/spaces/cartesian-product.hxx"]}
{"id": "C40", "title": "Interpolation hits its end points", "statement": "interpolate(x0, x1, 0) = x0 and interpolate(x0, x1, 1) = x1.", "quantifier": "for every space nesting; refuted for TangentBundle (velocity part reads the base coordinates)", "why_tests_cant": "All spaces and points.", "anchors": ["include/proxsuite-nlp/manifold-base.hxx:121-126", "include/proxsuite-nlp/modelling/spaces/tangent-bundle.hxx:81-89"]}
{"id": "C41", "title": "isNormalized of a product detects a bad component", "statement": "CartesianProduct::isNormalized(x) is true iff all components are normalised.", "quantifier": "for every product and point (refuted: |= starting from true)", "why_tests_cant": "Only shows for non-normalised inputs.", "anchors": ["include/proxsuite-nlp/modelling/spaces/cartesian-product.hpp:79", "include/proxsuite-nlp/modelling/spaces/cartesian-product.hxx"]}
{"id": "C42", "title": "Product operator keeps the written order", "statement": "(M * P) has M's coordinates first, then those of P.", "quantifier": "for every manifold M and product P (refuted)", "why_tests_cant": "Tests compare sizes only.", "anchors": ["include/proxsuite-nlp/modelling/spaces/cartesian-product.hpp:139-143"]}
{"id": "C43", "title": "BFGS update satisfies the secant equation and stays symmetric positive definite", "statement": "When s'y > 0 the updated Hessian approximation is symmetric, positive definite and maps s to y; otherwise the matrix is left unchanged.", "quantifier": "for every dimension, symmetric positive definite matrix, s, y and every sequence of updates", "why_tests_cant": "Unbounded update sequences, all dimensions.", "anchors": ["include/proxsuite-nlp/bfgs-strategy.hpp:34-81"]}
{"id": "C44", "title": "Block-structure algebra is sound", "statement": "If matrices have the structures (zero, diagonal, lower/upper triangular, dense) recorded for them, then transpose, sum and product have the structures returned by trans, add, mul.", "quantifier": "for every pair of matrices of every size", "why_tests_cant": "All matrices.", "anchors": ["src/block-kind.cpp:14-43"]}
{"id": "C45", "title": "Symbolic factorisation covers the numeric one", "statement": "After a successful llt_in_place the recorded structure contains the structure of the block LDLT factor of every matrix with the input structure; every array access is in bounds.", "quantifier": "for every block structure and every matrix with it", "why_tests_cant": "All structures.", "anchors": ["src/block-kind.cpp:148-212", "include/proxsuite-nlp/linalg/block-kind.hpp"]}
{"id": "C46", "title": "Structural symmetry check", "statement": "check_if_symmetric is true iff block (i,j) has the transposed structure of block (j,i).", "quantifier": "for every structure (refuted: compares kinds without transposing)", "why_tests_cant": "Only triangular kinds show it.", "anchors": ["src/block-kind.cpp:106-117"]}
{"id": "C47", "title": "Brute-force permutation is a permutation with minimal fill", "statement": "brute_force_best_permutation visits every permutation and returns one whose symbolic factor has the smallest count_nnz, when all symbolic factorisations succeed.", "quantifier": "for every structure and number of blocks", "why_tests_cant": "n! candidates for every n.", "anchors": ["src/block-kind.cpp:78-104"]}
{"id": "C48", "title": "Choosing a permutation twice", "statement": "setBlockPermutation can be called again at any time and the object describes the newly permuted matrix.", "quantifier": "for every call history (refuted once the pattern has been analysed)", "why_tests_cant": "Needs a call history.", "anchors": ["include/proxsuite-nlp/linalg/block-ldlt.hxx:13-58"]}
{"id": "C49", "title": "Scalar permutation induced by a block permutation is valid", "statement": "updateBlockPermutationMatrix yields a permutation of 0..n-1 that moves whole blocks.", "quantifier": "for every block size list (zero sizes included) and block permutation", "why_tests_cant": "All sizes.", "anchors": ["include/proxsuite-nlp/linalg/block-ldlt.hxx:43-58"]}
{"id": "C50", "title": "Dense LDLT factorises and solves", "statement": "DenseLDLT::compute followed by reconstructedMatrix gives back the input (lower triangle mirrored), and solveInPlace returns the solution of A x = b, whenever no pivot vanishes (and is above the tiny threshold for the solve).", "quantifier": "for every size, including the recursion above 128, and every symmetric matrix with non-zero leading pivots", "why_tests_cant": "All sizes and matrices.", "anchors": ["include/proxsuite-nlp/linalg/dense.hpp:44-217"]}
{"id": "C51", "title": "Factorisation failure is reported", "statement": "If the factorisation met a zero pivot then info() is not Success.", "quantifier": "for every matrix (refuted for DenseLDLT: always Success)", "why_tests_cant": "Singular matrices only.", "anchors": ["include/proxsuite-nlp/linalg/dense.hpp:44-87"]}
{"id": "C52", "title": "sign() describes the last factorised matrix", "statement": "DenseLDLT::sign() depends only on the matrix given to the last compute().", "quantifier": "for every sequence of compute calls (refuted: state carried over)", "why_tests_cant": "Needs two calls.", "anchors": ["include/proxsuite-nlp/linalg/dense.hpp:18-38, 164-217"]}
{"id": "C53", "title": "Bunch-Kaufman solve is exact", "statement": "If compute() succeeds then solveInPlace(b) returns x with A x = b, for every symmetric A (possibly indefinite).", "quantifier": "for every size, symmetric matrix and right-hand side, every pivot choice", "why_tests_cant": "All matrices.", "anchors": ["include/proxsuite-nlp/linalg/bunchkaufman.hpp:20-167, 344-418, 447-516"]}
{"id": "C54", "title": "Bunch-Kaufman signature is the inertia", "statement": "The signature computed from the factorisation has the inertia of the block diagonal factor.", "quantifier": "for every 1x1/2x2 block diagonal; refuted for large well-conditioned 2x2 pivots because the determinant of the inverse block is compared with machine epsilon", "why_tests_cant": "Scale dependent.", "anchors": ["include/proxsuite-nlp/ldlt-allocator.hpp:137-179"]}
{"id": "C55", "title": "A failed Bunch-Kaufman factorisation never passes the inertia check", "statement": "If compute() reports NumericalIssue then the signature contains a zero, so the solver regularises.", "quantifier": "for every matrix of size <= 32 (one unblocked panel); refuted above: a stale diagonal entry is read and an all-ones 33x33 matrix passes as positive definite", "why_tests_cant": "Needs exact singularity and n > 32.", "anchors": ["include/proxsuite-nlp/linalg/bunchkaufman.hpp:169-342", "include/proxsuite-nlp/ldlt-allocator.hpp:137-179", "include/proxsuite-nlp/prox-solver.hxx:396-429"]}
{"id": "C56", "title": "Structured products agree with the dense product", "statement": "gemmt(dst, lhs, rhs, kinds, alpha) adds alpha * lhs * rhs^T to dst for all structure combinations.", "quantifier": "for every size and all 25 kind pairs; refuted for Diag x TriU and Diag x TriL (size mismatch)", "why_tests_cant": "All sizes and kinds.", "anchors": ["include/proxsuite-nlp/linalg/gemmt.hpp"]}
{"id": "C57", "title": "BlockLDLT::solveInPlace reports failure", "statement": "It returns false if one of the two triangular solves fails, that is exactly if some diagonal block is zero or dense; the two results are or-ed, which is harmless because they agree.", "quantifier": "for every object whose transposed structure is in step with its structure, every right-hand side", "why_tests_cant": "Failing structures only.", "anchors": ["include/proxsuite-nlp/linalg/block-ldlt.hxx:72-98", "include/proxsuite-nlp/linalg/block-triangular.hpp:113-140"]}
{"id": "C58", "title": "Owned buffers are released once", "statement": "Copying, assigning and destroying BlockLDLT objects releases each buffer at most once.", "quantifier": "for every sequence of copy/assign/destroy (refuted for copy assignment)", "why_tests_cant": "Double free needs a history.", "anchors": ["include/proxsuite-nlp/linalg/block-ldlt.hpp:197-345"]}
{"id": "C59", "title": "polymorphic<T> has value semantics", "statement": "Copies are independent, moved-from objects are valueless, self-assignment is a no-op, every control block is destroyed exactly once.", "quantifier": "for every sequence of constructions, copies, moves, assignments, swaps and destructions", "why_tests_cant": "All operation histories.", "anchors": ["include/proxsuite-nlp/third-party/polymorphic_cxx14.hpp:91-463"]}
{"id": "C60", "title": "History callback stores per-iteration data", "statement": "After a solve with storage enabled, entry k of the history is the data of iteration k and recording is free of undefined behaviour.", "quantifier": "for every run (refuted: multiplier views alias the live result; address of element 0 of an empty vector)", "why_tests_cant": "Aliasing looks right when nothing changes.", "anchors": ["include/proxsuite-nlp/helpers/history-callback.hpp"]}
{"id": "C61", "title": "NaN guard", "statement": "check_value(x) is true iff some entry is NaN or infinite; solve never returns a point containing NaN or infinity: it throws instead.", "quantifier": "for every vector; every run with iterates produced by a step", "why_tests_cant": "All IEEE values.", "anchors": ["include/proxsuite-nlp/math.hpp:69-93", "include/proxsuite-nlp/prox-solver.hxx:350-351, 434, 457-463", "include/proxsuite-nlp/exceptions.hpp"]}
{"id": "C62", "title": "A NaN in the KKT matrix is never repaired", "statement": "A solver whose stored KKT matrix contains a NaN or an infinity completes no further solve, whatever the problem, the start and the options.", "quantifier": "for every problem, state, start and every arithmetic", "why_tests_cant": "Depends on state left behind by an earlier failure.", "anchors": ["include/proxsuite-nlp/prox-solver.hxx:350-351 (check before the matrix is assembled)", "include/proxsuite-nlp/prox-solver.hxx:371-394"]}
{"id": "C63", "title": "Parallel transport works on row blocks", "statement": "JintegrateTransport of a product transforms the rows of each component by that component only, a tangent bundle transforms the first half of the rows by its base and keeps the others, and flat spaces leave the matrix unchanged.", "quantifier": "for every nesting of spaces, every number of columns, every arithmetic", "why_tests_cant": "All nestings; needs non-trivial leaf transports to be visible.", "anchors": ["include/proxsuite-nlp/modelling/spaces/cartesian-product.hxx:159-177", "include/proxsuite-nlp/modelling/spaces/tangent-bundle.hxx:70-78", "include/proxsuite-nlp/modelling/spaces/vector-space.hpp:49-50"]}
{"id": "C64", "title": "Number of components of a product of products", "statement": "numComponents() of P * Q is numComponents() of P plus that of Q.", "quantifier": "for all products (refuted: list initialisation picks the initializer_list constructor and nests P)", "why_tests_cant": "Coordinates are the same, only the component structure shows it.", "anchors": ["include/proxsuite-nlp/modelling/spaces/cartesian-product.hpp:52-53, 145-151", "include/proxsuite-nlp/third-party/polymorphic_cxx14.hpp:287-306"]}
{"id": "C65", "title": "A rejected step is replaced by the minimiser of the interpolant", "statement": "With quadratic interpolation (or when only one usable sample is known) the next trial step minimises, over [contraction_min*alpha, contraction_max*alpha], the parabola through phi(0), phi'(0) and the rejected value. With two usable samples and cubic interpolation the local minimiser of the cubic is returned when it lies in that bracket.", "quantifier": "for all merit values, slopes, steps, brackets and (cubic) for any solver of the 2x2 system, over the reals", "why_tests_cant": "A continuum of samples; picking the other stationary point of the cubic still gives a step in the bracket and usually converges.", "anchors": ["include/proxsuite-nlp/linesearch-armijo.hpp:93-125", "include/proxsuite-nlp/linesearch-armijo.hpp:150-222 minimize_interpolant"]}
{"id": "C66", "title": "The Gauss-Newton Hessian is symmetric positive semidefinite", "statement": "For weighted sums (nested to any depth) of quadratic residual costs in Gauss-Newton mode, computeHessian after call at the same point returns a symmetric matrix, positive semidefinite when the weight matrices are and the factors are not negative.", "quantifier": "for every tree of sums, every residual with a correct Jacobian, every point of every space", "why_tests_cant": "All residuals and weights.", "anchors": ["include/proxsuite-nlp/modelling/costs/quadratic-residual.hxx:48-64", "include/proxsuite-nlp/cost-sum.hpp:55-60"]}
{"id": "C67", "title": "Least squares: the quadratic model is the cost", "statement": "For weighted sums of quadratic residual costs with affine residuals (linear functions, differences in flat spaces, compositions of these), cost(x + w) = value + gradient'w + 1/2 w' Hessian w with the returned value, gradient and Hessian.", "quantifier": "for every tree, point x and displacement w of every flat space, over the reals", "why_tests_cant": "All displacements, not only small ones.", "anchors": ["include/proxsuite-nlp/modelling/costs/quadratic-residual.hxx:23-64", "include/proxsuite-nlp/modelling/residuals/linear.hpp:14-60", "include/proxsuite-nlp/cost-sum.hpp:40-60"]}
{"id": "C68", "title": "Rigid transformation of a point: value and Jacobian", "statement": "RigidTransformationPoint returns t + R(q) p, and its Jacobian [R, -R skew(p)] is the derivative along every curve of poses with body velocity (v, o).", "quantifier": "for every point, pose with unit quaternion, velocity and curve", "why_tests_cant": "A continuum of poses and directions.", "anchors": ["include/proxsuite-nlp/modelling/residuals/rigid-transform-point.hpp:10-44"]}
{"id": "C69", "title": "Distance cost follows its target", "statement": "QuadraticDistanceCost(space, target, W) has value 1/2 d'Wd with d the difference from target to x; after updateTarget(y) it has the value for target y. A copy is independent of the original.", "quantifier": "for every space, target, weight, argument; refuted for copies, which share the residual object", "why_tests_cant": "Aliasing between copies is invisible until a target changes.", "anchors": ["include/proxsuite-nlp/modelling/costs/squared-distance.hpp:14-50", "include/proxsuite-nlp/modelling/residuals/state-residual.hpp:19-50"]}
{"id": "C70", "title": "The two quasi-Newton formulas invert the textbook ones", "statement": "If N is the inverse of the stored matrix and s'y > 0, the updated matrix is the inverse of N - N p p'N / p'Np + q q'/p'q, with (p, q) = (s, y) for the inverse-Hessian variant and (y, s) for the Hessian variant (so the Hessian variant is the DFP update).", "quantifier": "for every state, point, gradient and matrix with an inverse, over the reals", "why_tests_cant": "A continuum of matrices and steps; both formulas satisfy the secant equation, so secant tests do not tell them apart.", "anchors": ["include/proxsuite-nlp/bfgs-strategy.hpp:45-81"]}
{"id": "C71", "title": "Counting the entries of a structure", "statement": "count_nnz returns the number of entries that the structure allows to be non-zero, when diagonal and triangular kinds are only used for square blocks.", "quantifier": "for every block structure and list of block sizes; refuted for rectangular diagonal blocks", "why_tests_cant": "All sizes; the count decides which permutation is chosen.", "anchors": ["src/block-kind.cpp:119-146"]}
{"id": "C72", "title": "Allocation of the block factorisation", "statement": "create_default_block_structure describes every KKT matrix (dense in the variables, diagonal in the multipliers); allocating the block LDLT for any list of sizes finishes, in bounds, with a block permutation of least fill whose symbolic factorisation succeeds, and with the scalar permutation of that block permutation.", "quantifier": "for every list of primal and dual block sizes with at least one block", "why_tests_cant": "All lists of sizes; n! permutations.", "anchors": ["include/proxsuite-nlp/ldlt-allocator.hpp:46-132", "include/proxsuite-nlp/linalg/block-ldlt.hxx:25-58"]}
{"id": "C73", "title": "Block LDLT factorises and solves", "statement": "If the input structure has only zero, dense and square diagonal blocks with diagonal or dense diagonal blocks, and the renumbered matrix has a factorisation L D L' with non-zero pivots, BlockLDLT::compute succeeds and stores L and D, reconstructedMatrix gives the matrix back, and solveInPlace returns true and the solution.", "quantifier": "for every number and sizes of blocks, block permutation, matrix of the structure and right-hand side over the reals; refuted for structures with triangular blocks that the symbolic factorisation accepts", "why_tests_cant": "All block sizes, structures and permutations; sizes above the recursion threshold of the dense kernel included.", "anchors": ["include/proxsuite-nlp/linalg/block-ldlt.hpp:27-179, 312-344", "include/proxsuite-nlp/linalg/block-ldlt.hxx:60-98", "include/proxsuite-nlp/linalg/block-triangular.hpp:34-141", "include/proxsuite-nlp/linalg/gemmt.hpp"]}
{"id": "C74", "title": "Regularised KKT matrices pass the inertia check", "statement": "The block factorisation allocated for given block sizes, and the dense one, factorise every symmetric matrix that is positive definite in the variables and negative diagonal in the multipliers, under the block permutation chosen at allocation; the signature passes checkInertia, and the solve is exact.", "quantifier": "for every list of block sizes and every such matrix over the reals", "why_tests_cant": "A continuum of matrices and all sizes and permutations (existence of the unpivoted factorisation of quasi-definite matrices).", "anchors": ["include/proxsuite-nlp/ldlt-allocator.hpp:46-132, 183-221", "include/proxsuite-nlp/prox-solver.hxx:129-148", "include/proxsuite-nlp/linalg/block-ldlt.hpp:27-179, 312-344", "include/proxsuite-nlp/linalg/dense.hpp:44-217"]}
{"id": "C75", "title": "sign() of the block factorisation", "statement": "After compute on a fresh BlockLDLT, sign() says which signs occur among the pivots.", "quantifier": "for every structure of zero, dense and square diagonal blocks with at least two rows each; refuted for blocks of one row", "why_tests_cant": "All sizes and structures.", "anchors": ["include/proxsuite-nlp/linalg/block-ldlt.hpp:27-179", "include/proxsuite-nlp/linalg/dense.hpp:18-58"]}
{"id": "C76", "title": "Bunch-Kaufman succeeds exactly on nonsingular matrices", "statement": "BunchKaufman::compute always finishes without reading out of range, and reports Success if and only if the symmetric matrix is nonsingular.", "quantifier": "for every size (unblocked up to 32 rows, blocked above) and symmetric matrix over the reals", "why_tests_cant": "A continuum of matrices; sizes above the block size; which pivots are taken depends on the values.", "anchors": ["include/proxsuite-nlp/linalg/bunchkaufman.hpp:20-418, 639-662"]}
{"id": "C77", "title": "Meaning of the inertia check", "statement": "For a KKT matrix with blocks H, J and -D with D positive diagonal: the signature of LDL' factors passes checkInertia if and only if H + J' D^-1 J, the Hessian of the augmented Lagrangian, is positive definite; with the Bunch-Kaufman signature a passing check implies it (at most 32 rows, or a successful factorisation), and conversely the check passes unless the signature contains a zero.", "quantifier": "for every size, matrix and factorisation over the reals", "why_tests_cant": "A continuum of matrices (Sylvester's law of inertia).", "anchors": ["include/proxsuite-nlp/prox-solver.hxx:129-148, 396-429", "include/proxsuite-nlp/ldlt-allocator.hpp:137-221", "include/proxsuite-nlp/linalg/bunchkaufman.hpp"]}
{"id": "C78", "title": "The inertia correction with Bunch-Kaufman", "statement": "When the inertia correction of the solver stops with delta at most DELTA_MAX, the factorised matrix is the KKT matrix with delta added to the Hessian block, the corrected Hessian of the augmented Lagrangian is positive definite, and the factorisation solves every system exactly.", "quantifier": "for every KKT matrix of at most 32 rows, options with positive increments, and number of rounds, over the reals", "why_tests_cant": "A continuum of matrices and options; a loop of any length.", "anchors": ["include/proxsuite-nlp/prox-solver.hxx:376-429", "include/proxsuite-nlp/linalg/bunchkaufman.hpp", "include/proxsuite-nlp/ldlt-allocator.hpp:137-192"]}
{"id": "C79", "title": "Solutions of the KKT system descend", "statement": "If x solves the KKT system with right-hand side -g, the derivative along the primal part of x of the function with gradient g_x + J' D^-1 g_y equals minus the quadratic form of H + J' D^-1 J; it is negative when that form is positive definite and the primal part is not zero.", "quantifier": "for every size, KKT matrix with negative diagonal dual block, gradient and solution, over the reals", "why_tests_cant": "A continuum of matrices and vectors; sizes of any number.", "anchors": ["include/proxsuite-nlp/prox-solver.hxx:376-460, 528-544"]}
{"id": "C80", "title": "Bunch-Kaufman pivots grow slowly", "statement": "When compute() of the Bunch-Kaufman factorisation succeeds, every pivot of the elimination (the inverse of what is stored, of one or two rows) starting at row k is bounded by (1 + 1/alpha)^k times the largest entry of the lower triangle of A, alpha = (1 + sqrt 17) / 8, and pivots of two rows have a negative determinant.", "quantifier": "for every size (unblocked and blocked), matrix and bound on its entries, over the reals", "why_tests_cant": "A continuum of matrices of any size; the bound depends on all three comparisons of the pivot choice.", "anchors": ["include/proxsuite-nlp/linalg/bunchkaufman.hpp"]}
{"id": "C81", "title": "The Newton step is a descent direction of the merit function", "statement": "An exact solution of the regularised KKT system has a slope of the primal-dual merit function (stored gradients) between -a - 2q and -a - q, with a the form of the Hessian block plus J' D^-1 J at the step and q the squared dual gradient over mu; when that form is positive definite the slope is negative unless the gradients and the step are zero. Claimed for every state; refuted with the default KKT system for an inequality whose shifted values x and x - mu lam / 2 have different signs, proved when they lie on the same piece or with KKT_PRIMAL_DUAL.", "quantifier": "for every problem, product of sets, consistent state, regularisation and solution, over the reals", "why_tests_cant": "A continuum of states; the failing ones need a particular sign pattern of multiplier estimates.", "anchors": ["include/proxsuite-nlp/prox-solver.hxx:228-276, 302-361, 371-395, 430-460, 490-526"]}
{"id": "C82", "title": "The refinement loop keeps a descent direction", "statement": "iterativeRefinement returns the solution of the regularised system (refuted: the residual uses the matrix without the regularisation, and the default five passes multiply a step by 63). With an exact factorisation of the regularised matrix, delta >= 0 and a positive definite form, the step after any number of passes has negative slope unless everything is stationary; with delta = 0 it is the exact solution.", "quantifier": "for every number of passes, tolerance, regularisation, problem and consistent state, over the reals", "why_tests_cant": "Needs all numbers of passes and a continuum of matrices.", "anchors": ["include/proxsuite-nlp/prox-solver.hxx:396-429, 528-544"]}
{"id": "C83", "title": "A step of the inner loop decreases the merit function", "statement": "When the merit function can be evaluated along the step, the inertia correction ends within its bound and the factorisation solves exactly and reports the inertia, one step of the inner loop moves along a descent direction by the accepted length, and the recorded merit decreases by at least c1 times the predicted decrease, unless the length is alpha_min, the slope is under the threshold or the line search is out of evaluations. Bunch-Kaufman up to 32 rows is such a factorisation.", "quantifier": "for every problem, product of sets, consistent state, parameters and oracles, over the reals", "why_tests_cant": "Composes KKT assembly, inertia correction, refinement and line search over a continuum of states.", "anchors": ["include/proxsuite-nlp/prox-solver.hxx:371-484, 528-544", "include/proxsuite-nlp/linesearch-armijo.hpp:59-147"]}
{"id": "C84", "title": "The line search accepts a step on a smooth merit function, and not a short one", "statement": "If the merit along the direction lies below f(0) + d a + L/2 a^2 on [0,1], with slope d < 0, all steps up to ab = 2 (1 - c1) |d| / L satisfy the Armijo condition, and with enough evaluations and alpha_min small enough the search returns a step that satisfies it and is at least min(1, min(contraction_min, 1/2) ab).", "quantifier": "for every merit function under such a parabola, all options, all three interpolation modes and every answer of the 2x2 solver (NaN included)", "why_tests_cant": "Needs all smooth functions and all option values; interpolation branches depend on three successive values.", "anchors": ["include/proxsuite-nlp/linesearch-armijo.hpp:59-147", "include/proxsuite-nlp/linesearch-base.hpp"]}
{"id": "C85", "title": "One step per inner loop on quadratic problems", "statement": "On a convex quadratic problem with affine equality constraints the inner loop makes at most one step: it stops at the starting point if a stopping test holds there, and otherwise ends at the exact minimiser of the augmented Lagrangian, where the gradient of the Lagrangian vanishes and c(x) = mu (lam - lam_prev). The stored residuals are the exact ones.", "quantifier": "for every size, blocks of constraints, quadratic problem convex on the kernel of the constraints, state, parameters with an Armijo constant up to 1/2, and line-search options, over the reals", "why_tests_cant": "A continuum of problems and states; composes diagnosis, system assembly, inertia correction, refinement, line search and the second stopping test.", "anchors": ["include/proxsuite-nlp/prox-solver.hxx:278-488, 490-544", "include/proxsuite-nlp/linesearch-armijo.hpp:59-147"]}
{"id": "C86", "title": "The solver converges on quadratic problems", "statement": "On every convex quadratic problem with equality constraints that has a solution, solve() ends within R (T+1) + T outer iterations and one step more with both residuals at most target_tol, and reports SUCCESS. R and T count the reductions of mu and the acceptances in a row until the tolerances reach the target; with the default parameters they are 4 and 4, for first multipliers within 500 of the optimal ones. Refuted for SUCCESS when a residual equals the tolerance exactly: the inner loop accepts equality, the outer loop does not, and the solver returns UNINIT after all its iterations.", "quantifier": "for every size, problem, starting point, sets with any old penalty parameter, and parameters in the usual order, over the reals", "why_tests_cant": "Convergence over a continuum of problems and unbounded iterations; the exception is a set of measure zero.", "anchors": ["include/proxsuite-nlp/prox-solver.hxx:51-127, 150-167, 270-276, 363-367, 546-582"]}
{"id": "C87", "title": "Bunch-Kaufman serves the quadratic problems", "statement": "For a convex quadratic problem with at most 32 rows in the Newton system and any mu > 0 the Bunch-Kaufman factorisation of the Newton matrix passes the inertia test of the solver and solves every system exactly, unless the computed signature contains a zero.", "quantifier": "for every problem, mu and previous factorisation, over the reals", "why_tests_cant": "A continuum of matrices; the exception is C54.", "anchors": ["include/proxsuite-nlp/linalg/bunchkaufman.hpp", "include/proxsuite-nlp/ldlt-allocator.hpp:137-192", "include/proxsuite-nlp/prox-solver.hxx:129-148"]}
{"id": "C88", "title": "The neutral element of a manifold is its rest point", "statement": "neutral() is a point of size nx; integrating the zero vector from it stays there and its difference to itself is zero. On flat spaces it is the origin. The parts of the neutral element of a product are the neutral elements of the components, and in a tangent bundle it is the neutral element of the base followed by a zero velocity. Refuted: a product can be appended to itself (undefined unless empty).", "quantifier": "for every nested product and tangent bundle of vector spaces and external spaces that satisfy the assumptions on leaves; sizes and parts in every arithmetic", "why_tests_cant": "Nesting is unbounded; sizes of the external leaves are arbitrary.", "anchors": ["include/proxsuite-nlp/modelling/spaces/cartesian-product.hxx:8-18", "include/proxsuite-nlp/modelling/spaces/tangent-bundle.hxx:8-13", "include/proxsuite-nlp/manifold-base.hpp:27-29", "include/proxsuite-nlp/modelling/spaces/cartesian-product.hpp:37-41"]}
{"id": "C89", "title": "Constructors of functions and costs accept exactly the valid arguments", "statement": "Distance costs with identity weights have the value 1/2 |difference|^2, with the neutral element as default target; a function becomes a cost exactly if it has one output; the difference to a point is built exactly if the target is accepted by isNormalized; a linear function of the difference needs a target of size nx and has the value A difference + b. Refuted: the difference alone checks the size of its target.", "quantifier": "for every space, target, weights and heap of existing objects, over the reals", "why_tests_cant": "All spaces and all shared structures of objects.", "anchors": ["include/proxsuite-nlp/modelling/costs/squared-distance.hpp:26-45", "include/proxsuite-nlp/cost-function.hpp:13-22", "include/proxsuite-nlp/modelling/residuals/state-residual.hpp:33-41", "include/proxsuite-nlp/modelling/residuals/linear.hpp:52-60"]}
{"id": "C90", "title": "The Hessian of a quadratic residual cost without Gauss-Newton is exact", "statement": "With gauss_newton_ = false and a residual that provides exact first and second derivatives, computeHessian after a call at the same point returns the second derivative of the cost along every line, slope included, and vectorHessianProduct with multiplier a returns a times it. Refuted for the default of the constructor, which is Gauss-Newton.", "quantifier": "for every residual, weights (symmetric), slope, point and direction, over the reals", "why_tests_cant": "Second derivatives are limits; a continuum of points and directions.", "anchors": ["include/proxsuite-nlp/modelling/costs/quadratic-residual.hxx:48-64", "include/proxsuite-nlp/cost-function.hpp:75-79"]}
{"id": "C91", "title": "The problem behaves as if its functions had no memory", "statement": "Function objects keep residuals between calls and may be shared. If derivatives are asked only at the point of the last evaluation, every sequence of requests to the problem gives the values, gradients, Jacobians and Hessians that fresh objects would give; the inner loop asks in this order wherever its line search stops; and what is returned are the values and derivatives of the functions which the constructor and addConstraint were given, so that along every step the problem is as smooth as the theorems on the merit function ask. Refuted for other orders, and for a quadratic cost that serves as objective and, with another argument, inside a constraint.", "quantifier": "for every heap of shared objects, every number of constraints and every sequence of requests, over the reals", "why_tests_cant": "Unbounded sequences of requests and unbounded structures of shared objects; a continuum of points.", "anchors": ["include/proxsuite-nlp/problem-base.hpp:34-61, 76-104", "include/proxsuite-nlp/prox-solver.hxx:205-246, 278-305", "include/proxsuite-nlp/modelling/costs/quadratic-residual.hxx:20-64", "include/proxsuite-nlp/function-ops.hpp"]}
{"id": "C92", "title": "The proximal penalty follows its parameter and its target", "statement": "The penalty made by the constructor of the solver returns, after any sequence of changes of rho and of the target and any requests in between, the value rho/2 |x - target|^2, its gradient, and the Hessian rho du.dw of Gauss-Newton, with the rho and the target set last. Its values and gradients meet the assumptions that the theorems on the merit function make about the penalty.", "quantifier": "for every space, sequence of operations and starting parameter, for points near the target of the moment, over the reals", "why_tests_cant": "Unbounded sequences of updates; derivatives on a manifold are limits.", "anchors": ["include/proxsuite-nlp/prox-solver.hxx:17-31, 88-96, 291-298, 310-320, 557-562", "include/proxsuite-nlp/modelling/costs/squared-distance.hpp:26-60"]}
{"id": "C93", "title": "The example program poses the quadratic problem it means, and the solver solves it", "statement": "The objects created by examples/equality-qp.cpp answer every sequence of requests of the solver like the problem: minimise 1/2 x'Qx subject to A x + b = 0 (and with a slope and several linear constraints, like the problem with these). For a convex Q that is definite on the kernel of A the solver, run on them without proximal term, ends with residuals within the tolerance, after a number of iterations bounded in advance.", "quantifier": "for every size, Q, A, b, every heap of other objects and content of fresh memory, every sequence of requests in the order of the solver, over the reals", "why_tests_cant": "Every size and all matrices; the run of the program draws random data and checks no result.", "anchors": ["examples/equality-qp.cpp:30-65", "include/proxsuite-nlp/modelling/costs/squared-distance.hpp:26-37", "include/proxsuite-nlp/modelling/residuals/linear.hpp:27-37", "include/proxsuite-nlp/problem-base.hpp:34-61, 76-104", "include/proxsuite-nlp/prox-solver.hxx:33-200"]}
{"id": "C94", "title": "The dense and block-sparse factorisations do what the convergence theorems ask of them", "statement": "For a strongly convex objective (x'Qx >= c |x|^2) the unpivoted dense LDLT and the block LDLT with the structure allocated for the problem factor the matrix of every Newton step with pivots at least c on the primal and at most -mu on the dual coordinates, whatever the object held before: the signature passes the inertia test and the systems are solved exactly, so the solver converges on every such problem with no assumption on the factorisation. Refuted for pivots of at most 2^-1022, which pass the inertia test but are treated as zero by the solve.", "quantifier": "for every number of variables and constraints, every block structure of the allocator, Q, A, penalty parameter and previous contents of the factorisation object, over the reals", "why_tests_cant": "Every size and a continuum of matrices; the smallest pivot of a given matrix is not visible from outside.", "anchors": ["include/proxsuite-nlp/linalg/dense.hpp:13-195", "include/proxsuite-nlp/linalg/block-ldlt.hpp:312-344", "include/proxsuite-nlp/linalg/block-ldlt.hxx:72-98", "include/proxsuite-nlp/ldlt-allocator.hpp:95-190", "include/proxsuite-nlp/prox-solver.hxx:388-425, 525-545"]}
{"id": "C95", "title": "The result of the solver is near the solution", "statement": "Under the hypotheses of the convergence theorem, for x'Qx >= c |x|^2, the returned multipliers are no farther from the optimal ones than the initial ones, the squared distance of the returned point to the solution is at most n (tol/c)^2 + 2 sqrt(m) D tol / c, and its objective value differs from the optimal one by at most a multiple of the tolerance. The optimal pair of the theorems is the unique minimiser, and the numbers of iterations they mention exist for all parameters in the usual order.", "quantifier": "for every quadratic problem with equality constraints and strongly convex objective, every start and all parameters in the usual order, over the reals", "why_tests_cant": "The solver only reports residuals; the true solution is not known to a test of a general problem.", "anchors": ["include/proxsuite-nlp/prox-solver.hxx:33-200, 205-275", "include/proxsuite-nlp/pdal.hxx:12-40", "include/proxsuite-nlp/bcl-params.hpp"]}
{"id": "C96", "title": "With the dense factorisation the inertia test accepts only convex matrices", "statement": "For every matrix whose dual block is diagonal and negative, whatever its Hessian: if the signature of the dense LDLT passes the inertia test, no pivot was zero, the matrix is that of a convex augmented Lagrangian, and systems are solved exactly if no pivot is below 2^-1022; so the theorem on the decrease of the merit function holds with the dense factorisation. Refuted: the converse; a zero Hessian with a regular constraint is convex in that sense and is rejected for its zero first pivot.", "quantifier": "for every size, matrix and previous contents of the factorisation object, over the reals", "why_tests_cant": "The factorisation need not exist, so a test on definite matrices does not reach the case; a continuum of matrices.", "anchors": ["include/proxsuite-nlp/linalg/dense.hpp:13-195", "include/proxsuite-nlp/ldlt-allocator.hpp:181-187", "include/proxsuite-nlp/prox-solver.hxx:388-425", "include/proxsuite-nlp/ldlt-allocator.hpp:23-36"]}
{"id": "C97", "title": "Pivoted factorisations of other libraries do what the solver asks of them", "statement": "If the factorisation of ProxSuite returns a permutation with its inverse and the LDL' factors of the permuted matrix, the wrapper reconstructs the matrix, solves systems exactly unless a pivot is at most 2^-1022, and its signature passes the inertia test exactly for convex matrices of the regularised form. Every such factorisation, with any choice of pivots, is usable on strongly convex problems, and the solver converges with it. Refuted: sign() of the wrapper is not written by compute.", "quantifier": "for every size, matrix, permutation and right-hand side, over the reals; for every pivoted factorisation of the matrices of the problem", "why_tests_cant": "All permutations of all sizes; the library is optional and is not built by default.", "anchors": ["include/proxsuite-nlp/linalg/proxsuite-ldlt-wrap.hpp:17-38, 54-124", "include/proxsuite-nlp/linalg/ldlt-base.hpp:20-50", "include/proxsuite-nlp/ldlt-allocator.hpp:95-190", "include/proxsuite-nlp/prox-solver.hxx:388-425, 525-545"]}
{"id": "C98", "title": "With a proximal term one Newton step solves each subproblem exactly", "statement": "On a quadratic problem with positive semidefinite Hessian (possibly zero) and affine equality constraints, with proximal parameter rho > 0 and target t, the inner loop leaves the point alone because a stopping test holds, or makes one step to the exact minimiser of the augmented Lagrangian plus rho/2 |x - t|^2, and changes neither the parameters nor the target. Without constraints and with the target at the start, the objective falls by at least rho times the squared step. The penalty object that the solver constructs on a vector space has the value, gradient and Hessian assumed here.", "quantifier": "for every size, Q, q, A, b, block structure, rho, target, start and multipliers, and every factorisation that solves the systems of the problem, over the reals", "why_tests_cant": "Every size and all matrices, including singular ones.", "anchors": ["include/proxsuite-nlp/prox-solver.hxx:285-320, 330-545", "include/proxsuite-nlp/pdal.hxx:12-40", "include/proxsuite-nlp/modelling/costs/squared-distance.hpp:26-60"]}
{"id": "C99", "title": "The solver with a proximal term converges on convex quadratic problems", "statement": "On every quadratic problem with positive semidefinite Hessian and affine equality constraints that has a solution, the solver with a positive initial proximal parameter returns a point whose residuals are within the tolerance, after a number of outer and inner iterations bounded in advance, and its multipliers stay within a given distance of the optimal ones; no definiteness on the kernel of the constraints is needed, so this covers linear programs. The parameters must satisfy explicit inequalities, which the default ones with rho_init <= 1e-8 do for x'Qx >= |x|^2 and a start near the solution. With the dense factorisation nothing is assumed of the linear solver.", "quantifier": "for every size, Q, q, A, b, start, target, multipliers and all parameters meeting the inequalities, over the reals", "why_tests_cant": "A run is unbounded in size and starts from a continuum; the bound holds over all sequences of accepted and rejected iterations.", "anchors": ["include/proxsuite-nlp/prox-solver.hxx:51-127, 205-283, 547-582", "include/proxsuite-nlp/bcl-params.hpp:11-23", "include/proxsuite-nlp/prox-solver.hpp:66-142", "include/proxsuite-nlp/linalg/dense.hpp:13-195"]}
{"id": "C100", "title": "Settings made before a solve", "statement": "Calls of setPenalty and setProxParameter between the construction of the solver and solve, in any number and with any values, change neither the result nor the state nor the callbacks of solve, which starts from the constructor's mu_init and rho_init; so the two calls in examples/equality-qp.cpp and the one in examples/circle.cpp do nothing. Refuted: that solve centres the proximal term at the given starting point; the target is the one left by the last solve (the neutral point at first), and a first step can raise the objective.", "quantifier": "for every scalar type, problem, state, sequence of settings, oracle and argument", "why_tests_cant": "A test sees one problem; equality of whole runs for all settings is not observable.", "anchors": ["include/proxsuite-nlp/prox-solver.hxx:51-76, 547-562", "include/proxsuite-nlp/prox-solver.hpp:208-211", "examples/equality-qp.cpp:58-62", "examples/circle.cpp:97-100"]}
{"id": "C101", "title": "With inequality constraints one Newton step solves the subproblem once the active set is right", "statement": "Minimise 1/2 x'Qx + q'x subject to A x - b in C, with Q positive definite and C any product of equalities, inequalities and boxes, without a proximal term. If the points that the solver projects lie in the same pieces of C at the start and at the solution xs, ls of the subproblem of the method of multipliers, the inner loop leaves the point alone because a stopping test holds, or makes one step to exactly xs, ls; the reported residuals are those of the final point. If the shifted constraint value at xs is at distance g from the limits of C, every start near enough has this property, by an explicit bound.", "quantifier": "for every size, Q, q, A, b, C, block structure, penalty parameter, start and multipliers, and every factorisation that solves the systems for all choices of active rows (the dense one does), over the reals", "why_tests_cant": "All sizes and matrices, and all choices of active rows; finite convergence in one step is not visible in a residual under rounding.", "anchors": ["include/proxsuite-nlp/prox-solver.hxx:285-320, 330-545", "include/proxsuite-nlp/pdal.hxx:12-40", "include/proxsuite-nlp/modelling/constraints/negative-orthant.hpp", "include/proxsuite-nlp/modelling/constraints/box-constraint.hpp", "include/proxsuite-nlp/constraint-set.hpp:20-110"]}
{"id": "C102", "title": "The printed table", "statement": "Printing does not change a solve. At any level but QUIET a solve prints one record per iteration, numbered from one without gaps across the outer iterations, with titles at the top and above every 25th record, and a message at the end; each record has the residuals and the criterion of the point before its step, both above their tolerances, and the step length and merit value of the step, as the callbacks receive them. A solve that throws has printed the records of the steps before. Hence no record of a successful solve shows the residuals of its result. Refuted: that the level QUIET prints nothing, and that the level of a solve decides on the table; a quiet solve switches the table off for good.", "quantifier": "for every scalar type, problem, state, parameters and external code, every outcome", "why_tests_cant": "Output is not captured by tests; the numbering and the position of titles are claims on runs of every length.", "anchors": ["include/proxsuite-nlp/logger.hpp:12-79", "include/proxsuite-nlp/prox-solver.hxx:51-127, 467-478", "include/proxsuite-nlp/fwd.hpp:126"]}
{"id": "C103", "title": "Norms, closeness and value checks", "statement": "infty_norm of a vector and of a list of vectors is the largest absolute value of all entries, zero without entries, and is a norm. check_scalar is true exactly for NaN and infinities and agrees with check_value. scalar_close with precision e > 0 holds when the absolute or the relative error is below e, implies that one of them is below 2 e, is reflexive and symmetric on the reals, and never holds for e <= 0. sign has its usual values, and zero for NaN. Refuted: NaN entries show in the norm of a list of vectors (it is never NaN); scalar_close is transitive, and reflexive at infinity.", "quantifier": "for every vector, list of vectors, number and precision, over the reals and the reals with NaN and infinities", "why_tests_cant": "Continuum of arguments; tests use random finite vectors.", "anchors": ["include/proxsuite-nlp/math.hpp:50-98"]}
{"id": "C104", "title": "The inner loop with the primal-dual system terminates from every start", "statement": "Minimise 1/2 x'Qx + q'x + g(A x - b), with Q positive semidefinite and g given by any product of equalities, inequalities, boxes and the l1 penalty, with the system KKT_PRIMAL_DUAL and without proximal term. From every point and every multipliers the inner loop ends after at most N steps, where N is the start value of the merit function above a lower bound of the objective divided by an explicit decrease per step; it throws nothing, every line search succeeds, the merit function does not increase, the reported residuals are those of the final point, and one of the two stopping tests holds there. No knowledge of the active set is needed. The dense and the block-sparse factorisations meet the hypothesis on the linear solver when Q is positive definite, for every choice of active rows.", "quantifier": "for every size, Q, q, A, b, product of sets, block structure, penalty parameter, start and multipliers, and all line search options that reach an explicit step length, over the reals", "why_tests_cant": "Global convergence from a continuum of starts and over all sequences of active sets.", "anchors": ["include/proxsuite-nlp/prox-solver.hxx:285-320, 330-545", "include/proxsuite-nlp/pdal.hxx:12-40", "include/proxsuite-nlp/linesearch-armijo.hpp:18-237", "include/proxsuite-nlp/constraint-set.hpp:20-110", "include/proxsuite-nlp/linalg/dense.hpp:13-195", "include/proxsuite-nlp/linalg/block-ldlt.hpp"]}
{"id": "C105", "title": "What SUCCESS says about the objective", "statement": "With a convex objective, affine constraint functions and any constraint sets and l1 penalties, SUCCESS at x, l means that the constraint values are within the tolerance t of a point z of the sets and that no feasible point y with constraint values c(y) is better than x by more than t (|y - x|_1 + |l|_1) + (t / mu) |c(y) - z|_1, for the penalty parameter mu at the end. Refuted: SUCCESS means that x is nearly optimal; for a small mu_init the last term dominates, and the solver accepts the start -50 of: minimise x^2/2 subject to x <= 10.", "quantifier": "for every convex objective, affine constraint functions, product of sets, parameters, start, multipliers and external code, over the reals", "why_tests_cant": "A bound against all feasible points; the refutation needs a multiplier of the wrong complementarity at a small penalty parameter, which no test starts from.", "anchors": ["include/proxsuite-nlp/prox-solver.hxx:65-127, 239-320", "include/proxsuite-nlp/constraint-set.hpp:20-110", "include/proxsuite-nlp/modelling/constraints/l1-penalty.hpp"]}
{"id": "C106", "title": "The solver with the primal-dual system converges on strongly convex problems with inequality constraints", "statement": "Minimise 1/2 x'Qx + q'x subject to A x - b in C, where Q is at least c times the identity, C is any product of equalities, inequalities and boxes, and an optimal pair xs, ls exists, with the system KKT_PRIMAL_DUAL, the default multiplier update and no proximal term. Under explicit conditions on the parameters, from every start in explicit bounded sets around xs and ls the solver ends with SUCCESS after at most K outer iterations and (K + 1) N steps, with both residuals at most the target tolerance; K and N are explicit. The only exception is that the larger residual of some outer iteration is exactly the target tolerance. One outer iteration whose inner loop stops at the tolerance w moves the multipliers at most an explicit drift farther from ls, zero for w = 0, and so the exact method never increases the distance.", "quantifier": "for every size, Q, q, A, b, product of equalities, inequalities and boxes, block structure, start in the given sets, parameters meeting the conditions, and every factorisation that solves the systems, over the reals", "why_tests_cant": "Termination of the whole nested loop from a continuum of starts, over all sequences of active sets and all accepted and rejected multiplier updates.", "anchors": ["include/proxsuite-nlp/prox-solver.hxx:51-127, 129-545", "include/proxsuite-nlp/bcl-params.hpp:11-23", "include/proxsuite-nlp/pdal.hxx:12-40", "include/proxsuite-nlp/linesearch-armijo.hpp:18-237", "include/proxsuite-nlp/constraint-set.hpp:20-110"]}
{"id": "C107", "title": "The problem that the inner loop solves", "statement": "Minimise 1/2 x'Qx + q'x + g(A x - b), where g is given by any product of constraint sets and l1 penalties. The stopping criterion of the inner loop is zero exactly when x, l solves the subproblem of the method of multipliers: the gradient of the Lagrangian is zero and l is a subgradient of kap g at A x - b + mu (le - l), with kap = 1 for KKT_CLASSIC and kap = 2 for KKT_PRIMAL_DUAL. The weight does not matter for sets. Refuted: the criterion of KKT_PRIMAL_DUAL is that of the given problem for the l1 penalty, and a solve with default parameters and this system that returns SUCCESS has found the minimiser of 1/2 x^2 - 20 x + |x|.", "quantifier": "for every size, Q, q, A, b, product of sets, penalty parameter, point and multipliers, over the reals; every amount of fuel that suffices for the run of the refutation", "why_tests_cant": "An equivalence over a continuum of points; the residuals that tests look at are small at the wrong point as well.", "anchors": ["include/proxsuite-nlp/prox-solver.hxx:285-345", "include/proxsuite-nlp/pdal.hxx:12-46", "include/proxsuite-nlp/modelling/constraints/l1-penalty.hpp"]}
{"id": "C108", "title": "Steps that raise the merit function", "statement": "A solve of a strongly convex quadratic problem with one inequality constraint makes progress from every start: refuted for the default system KKT_CLASSIC. For: minimise 1/2 x^2 subject to x + 11 <= 0, from x = -8 with the multiplier -400 and default parameters (line search with bisection or quadratic interpolation), the step computed from the row that the classic shift leaves out is an ascent direction of the merit function; every iteration, for every limit N up to 100000, moves by the shortest step length 1e-6 and raises the merit function, and the solver returns MAX_ITERS_REACHED with the constraint still violated by more than 3. The same happens from zero multipliers: minimise 1/2 x^2 + 150 y^2 subject to x + 47 <= 0 and y - 2 x <= 236 from (0, 300); after a full step and a half step all steps are of the shortest length, for every N up to 50000, and the objective returned is more than three times the optimal one. In binary64 arithmetic this second run happens with all default parameters, cubic interpolation included. The reason in the line search, proved for every parabola: on a convex parabola that rises from the start it does not fail but returns the shortest length, where the function is above its start.", "quantifier": "for bisection and quadratic interpolation, every iteration limit N up to 100000 and every amount of fuel that suffices; for every rising convex parabola, over the reals", "why_tests_cant": "The runs need a point where the two shifts select different rows, a small part of the states; all tests look at runs that converge, and the claim is about every limit on the iterations.", "anchors": ["include/proxsuite-nlp/prox-solver.hxx:285-345, 345-545", "include/proxsuite-nlp/linesearch-armijo.hpp:18-237", "include/proxsuite-nlp/linesearch-base.hpp:19-22", "include/proxsuite-nlp/pdal.hxx:14-46"]}
{"id": "C109", "title": "The problem of the example program circle.cpp", "statement": "The objects created by examples/circle.cpp (a squared distance to p0 with identity weights, a difference to the neutral element, and a quadratic function of it with weights 2 I and constant -r^2, used as a constraint function) pose the problem: minimise 1/2 |x - p0|^2 subject to |x|^2 - r^2 <= 0. Cost, gradient x - p0, Hessian I, constraint value, Jacobian 2 x' and product 2 l I are returned to every sequence of requests in the order of the solver, with the caches of the objects in use. The first-order conditions of the problem have one solution, p0 when it lies in the disk and r p0 / |p0| otherwise, which is the closest point of the disk. When the solver returns SUCCESS on this problem with the negative orthant, the cost at the returned point plus (1/2 + l) times the squared distance to any point y of the disk is at most the cost at y plus terms proportional to the target tolerance.", "quantifier": "for every dimension, target, radius, content of the heap and of fresh memory, and every sequence of requests, over the reals", "why_tests_cant": "The example program is run by hand; its output is compared with nothing.", "anchors": ["examples/circle.cpp:44-76", "include/proxsuite-nlp/modelling/costs/squared-distance.hpp:20-45", "include/proxsuite-nlp/modelling/costs/quadratic-residual.hxx:8-64", "include/proxsuite-nlp/cost-function.hpp:60-80", "include/proxsuite-nlp/modelling/residuals/state-residual.hpp:25-50", "include/proxsuite-nlp/problem-base.hpp:25-127"]}
