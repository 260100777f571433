# Design of the machine-checked model of proxsuite-nlp

The source is `/repo` (C++17, header library plus `src/block-kind.cpp`), read as text.
The model is in `/verif/rocq/theories` (Coq 8.16.1, logical name `Verif`).

## 1. Approach

* **Model files** (`*_model.v`) hold small total Gallina functions only, one per C++ function, each
  with a comment citing the file and the lines it models and saying what is simplified.
* **Proof files** (`*_proofs.v`) hold the lemmas.
* **Specification files** (`*_spec.v`) hold readable definitions that do not use the helpers of the model.
* **Property files** (`*_props.v`) hold the property theorems only:
  each theorem closed by `exact lemma`, a
  `Print Assumptions`, and an `Example` with a concrete case that meets the hypotheses.

### Scalars
C++ `Scalar` is a template parameter (`double` in the bindings).  The model is parametrised by a
record `Sc` of scalar operations (`Scalar.v`).  Four instances are used:

| instance | carrier | used for |
|---|---|---|
| any `Sc` | arbitrary operations, no law assumed | structural theorems (loop bounds, flags, callbacks): valid for IEEE doubles too |
| `RSc` | Coq reals | exact-arithmetic theorems |
| `XSc` | reals plus NaN and infinities, no rounding, no signed zero | theorems where NaN paths matter (line search) |
| `QSc`, `FSc` | normalised rationals; IEEE binary64 as in the standard library's `SpecFloat` | executable examples and refutation witnesses |

Exact arithmetic is a simplification: rounding errors are not modelled in theorems over `RSc`/`XSc`.
Theorems over `FSc` are about true binary64 arithmetic (round to nearest even).

### Undefined behaviour
Out-of-range accesses, reading the own range of a growing vector, double release and size
mismatches are distinct outcomes (`None`, `UB ...`) in the models where they can occur.  Where a
model is about pure values (lists), size preconditions are explicit hypotheses.

### External calls
User functions (cost, constraints, residuals, Jacobians), Lie groups from pinocchio, `std::pow`,
the linear solver as seen from the outer algorithm and the merit function as seen from the line
search are arguments (oracles) of the model, universally quantified in the theorems.

## 2. Trusted base

* Coq 8.16.1's kernel (and its `vm_compute` virtual machine, used for witnesses).
* What `Print Assumptions` prints under each theorem: theorems over the reals depend on the axioms
  of the standard library's real numbers (`ClassicalDedekindReals.sig_forall_dec`,
  `ClassicalDedekindReals.sig_not_dec`, `FunctionalExtensionality.functional_extensionality_dep`)
  and possibly `Classical_Prop.classic` through the standard analysis library; all others are closed
  under the global context.  No axiom is added here.  Section 6 gives the result for each theorem.
* The reading of the C++ code: each definition cites its source, nothing is extracted or run.
* Semantics of Eigen expressions (products, triangular solves, `segment`, `lpNorm`), of the C++
  standard library and of compilers is taken from their documentation.
* The factorisations of other libraries (ProxSuite, `Eigen::LDLT`) appear only through the contracts
  `ps_factored` and `pivoted` (`PsLdlt_spec.v`), which are hypotheses of C97.

### Modelled and not modelled
Section 5 lists, per file of `/repo/include`, what is modelled.  Not modelled at all: the Python
bindings, the layout of printed text, `pinocchio` itself, `casadi` helpers, most examples and tests, compile-time template machinery, memory
layout and aliasing inside Eigen, performance.

## 3. Plan per property

The statements are in `properties.jsonl`, the theorems in section 6.

| id | property | model and proof plan |
|---|---|---|
| C01 | Line search returns a step in [alpha_min, 1] | `Armijo_model.v`: `run` over any `Sc` with a stateful merit oracle that may throw; invariant of both loops over `XSc`. |
| C02 | Line search: bounded number of merit evaluations | same model, trace of evaluated steps; induction on the loops. |
| C03 | Line search: sufficient decrease on exit | same model over `XSc`, loop invariant. |
| C04 | Line search: the returned value is the merit at the returned step | positive part by loop invariant; refutations by `vm_compute` over `FSc`. |
| C05 | Safeguarded interpolation stays in the bracket | case analysis over `XSc`. |
| C06 | Quadratic interpolation fits its data | field identity over `RSc`. |
| C07 | Cubic interpolation fits its data | refutation by a rational witness; also the corrected right-hand side proved. |
| C08 | Polynomial evaluation and derivative are right | list induction; `derivable_pt_lim` for the derivative. |
| C09 | Projection lands in the set and is the nearest point | `Cset_model.v`: inductive type of sets with nested products, lists of scalars; induction over the nesting. |
| C10 | Projection is idempotent and nonexpansive | as C09. |
| C11 | Moreau decomposition | as C09, with the normal cone spelled out as a variational inequality. |
| C12 | L1 penalty proximal operator is exact | one-dimensional convex argument summed over coordinates. |
| C13 | Projection Jacobian application agrees with the projection | coordinatewise derivative of the projection off the kinks, row masks on matrices. |
| C14 | A product of sets behaves like its components with the solver penalty | refutation with a product containing an l1 penalty; positive part for components that ignore mu. |
| C15 | Constraint segments tile the dual vector | `Problem_model.v`: induction on constraint list and on history. |
| C16 | Per-constraint multipliers are packed and read back unchanged | `Problem_model.v`: segment writes and reads. |
| C17 | The solver terminates within its budgets | `Solver_model.v`: outer and inner loop over any `Sc`, all calls as oracles; inertia loop over `RSc` with explicit fuel shown sufficient. |
| C18 | SUCCESS certifies an approximate KKT point | `Solver_model.v` with concrete residual computation; invariant that results hold the residuals of the returned point; then C09/C11 facts. |
| C19 | Convergence flag meaning | as C17. |
| C20 | Meeting the tolerance with equality is enough | the positive part by following one pass of the loops; refutation by running the model on a concrete problem. |
| C21 | Reported infeasibilities belong to the returned point | invariant for the positive part, refutation by run. |
| C22 | solve() depends only on its arguments | `Det_proofs.v`: simulation between two runs that differ in the overwritten members only; refutation by two runs on a concrete problem. |
| C23 | Penalty parameter stays in its safeguard interval and every set sees it | invariant over histories of penalty updates. |
| C24 | Penalty schedule is not monotone | closed form by induction on the number of failures. |
| C25 | Tolerances are safeguarded | invariant over histories, `Rpower` for std::pow. |
| C26 | Callbacks run once per iteration plus once at the end, in order | trace of callbacks in the solver model. |
| C27 | Inertia check | counting lemma. |
| C28 | Inertia correction leaves the KKT matrix unchanged | real arithmetic proof, binary64 witness. |
| C29 | KKT matrix is symmetric with the documented blocks | matrix entries as functions of indices. |
| C30 | Merit function equals the primal-dual augmented Lagrangian | vector identity. |
| C31 | Merit gradient is the derivative of the merit value | derivative over the reals for equality and for the projection-based sets; refutation for beta = 1. |
| C32 | Cost sums are linear | `Function_model.v`: expression trees. |
| C33 | Adding a cost sum to itself | `Function_model.v`: vector growth with an `UB` outcome, for every non-empty sum; evaluation with fuel for the cyclic sum. |
| C34 | Quadratic residual cost: gradient and Hessian belong to the queried point | state of the cached residual explicit. |
| C35 | Composition follows the chain rule | `Function_model.v`. |
| C36 | Finite differences have second-order error and are exact on quadratics | `Function_model.v`, finite differences along axes. |
| C37 | integrate and difference are mutually inverse | `Manifold_model.v`: inductive manifolds; oracles for Lie groups; induction over the nesting. |
| C38 | Manifold Jacobians are the derivatives | as C37, exact affine identities. |
| C39 | split and merge are inverse | as C37. |
| C40 | Interpolation hits its end points | as C37 plus refutation. |
| C41 | isNormalized of a product detects a bad component | refutation and description of the actual result. |
| C42 | Product operator keeps the written order | refutation by witness. |
| C43 | BFGS update satisfies the secant equation and stays symmetric positive definite | `Bfgs_model.v`: matrices as index functions with a dimension, quadratic forms; induction over update sequences. |
| C44 | Block-structure algebra is sound | `Symb_model.v`: predicates on matrices; finite case analysis with sums. |
| C45 | Symbolic factorisation covers the numeric one | `Symb_model.v`: block matrices over an abstract pivot inverse; induction on the number of blocks; bounds-checked array. |
| C46 | Structural symmetry check | refutation. |
| C47 | Brute-force permutation is a permutation with minimal fill | model of `std::next_permutation`, proof that the enumeration is complete, then fold-minimum. |
| C48 | Choosing a permutation twice | refutation by run. |
| C49 | Scalar permutation induced by a block permutation is valid | `Perm` proof. |
| C50 | Dense LDLT factorises and solves | `Ldlt_model.v`: loops as written; induction on columns and on the recursion. |
| C51 | Factorisation failure is reported | refutation. |
| C52 | sign() describes the last factorised matrix | refutation by two calls. |
| C53 | Bunch-Kaufman solve is exact | `Bk_model.v`: loops as written, invariant of the partial factorisation. |
| C54 | Bunch-Kaufman signature is the inertia | sign analysis of 2x2 blocks over the reals; refutation. |
| C55 | A failed Bunch-Kaufman factorisation never passes the inertia check | run of the blocked model on the 33x33 all-ones matrix; positive part for the unblocked one. |
| C56 | Structured products agree with the dense product | `Ldlt_model.v`: each specialisation as written. |
| C57 | BlockLDLT::solveInPlace reports failure | `Ldlt_model.v`: the result of the permutation call and of the back substitution followed through solveInPlace. |
| C58 | Owned buffers are released once | `Own_model.v`: heap of arrays with a double free outcome; invariant over programs. |
| C59 | polymorphic<T> has value semantics | `Poly_model.v`: heap of control blocks, simulation by a specification of values, over operation histories. |
| C60 | History callback stores per-iteration data | `Hist_model.v`: list of views into live data; induction on the calls; composed with the trace of C26. |
| C61 | NaN guard | predicate over `FSc`/`XSc`; solver model with exceptions. |
| C62 | A NaN in the KKT matrix is never repaired | invariant: an undefined entry of the KKT matrix stays undefined through assembly and correction. |
| C63 | Parallel transport works on row blocks | `Manifold_model.v`: row blocks of the matrix, induction over the nesting. |
| C64 | Number of components of a product of products | overload resolution of the initializer list written out, witness with two products. |
| C65 | A rejected step is replaced by the minimiser of the interpolant | `Armijo_model.v`: convexity of the quadratic; second derivative of the cubic. |
| C66 | The Gauss-Newton Hessian is symmetric positive semidefinite | `Function_model.v`: J'WJ as a square, induction over sums. |
| C67 | Least squares: the quadratic model is the cost | Taylor identity of a quadratic polynomial over lists. |
| C68 | Rigid transformation of a point: value and Jacobian | quaternion identities, derivative by `derivable_pt_lim`. |
| C69 | Distance cost follows its target | heap model: the residual object is shared by copies. |
| C70 | The two quasi-Newton formulas invert the textbook ones | Sherman-Morrison identity by sums over indices. |
| C71 | Counting the entries of a structure | counting the index pairs of a triangle. |
| C72 | Allocation of the block factorisation | `Symb_model.v`: allocation followed through the symbolic factorisation. |
| C73 | Block LDLT factorises and solves | `Ldlt_model.v`: induction on the blocks with the Schur complement; refutations by run. |
| C74 | Regularised KKT matrices pass the inertia check | quasi-definite matrices: every pivot of a leading principal block has the sign of its block. |
| C75 | sign() of the block factorisation | sign of the pivots read from the blocks; refutation by one-row blocks. |
| C76 | Bunch-Kaufman succeeds exactly on nonsingular matrices | `Bk_proofs.v`: the elimination stops early exactly with a zero column; kernel vector from it. |
| C77 | Meaning of the inertia check | `Inertia_proofs.v`: subspace dimension argument (no eigenvalues needed) between A and its congruent diagonal form. |
| C78 | The inertia correction with Bunch-Kaufman | C55, C76, C77 composed with the loop of C28. |
| C79 | Solutions of the KKT system descend | elimination of the dual part, quadratic form identity. |
| C80 | Bunch-Kaufman pivots grow slowly | `Bk_proofs.v`: bound of one step from the three comparisons of the choice; induction on the steps, unblocked and blocked. |
| C81 | The Newton step is a descent direction of the merit function | `Descent_proofs.v`: row equations of the system relate the stored gradients to the right-hand side on each piece; elimination of the dual part (C79). |
| C82 | The refinement loop keeps a descent direction | `Refine_proofs.v`: the loop is a sum of corrections c_(m+1) = F^-1 (delta c_m); each has a nonpositive slope because the Schur complement is symmetric positive definite. |
| C83 | A step of the inner loop decreases the merit function | C28, C82 and the acceptance test of C03 composed; `DescentX_proofs.v` shows the hypothesis on the factorisation for Bunch-Kaufman from C53, C77. |
| C84 | The line search accepts a step on a smooth merit function, and not a short one | `ArmijoS_proofs.v`: loop invariant relating the last two trial steps to powers of the contraction; the safeguarded step stays above a fixed fraction of the previous one. |
| C85 | One step per inner loop on quadratic problems | `Qp_spec.v` states the problem by entries; `QpD_proofs.v` computes the diagnosis of a pass in closed form, `QpT_proofs.v` the system and the step (refinement keeps an exact solution exact; the quadratic merit decreases by half the slope, so the full step is accepted). |
| C86 | The solver converges on quadratic problems | `QpC_proofs.v`: invariant of the outer loop (distance of the multipliers to the optimal ones does not grow, by monotonicity of the proximal step; tolerances bounded by powers) and a measure that falls with every iteration that does not converge. |
| C87 | Bunch-Kaufman serves the quadratic problems | From C53, C76, C77 with the convexity of the Newton matrix (`kmat_convex`). |
| C88 | The neutral element of a manifold is its rest point | Induction over the nested space, from the decomposition of products and bundles into two parts used for C37. |
| C89 | Constructors of functions and costs accept exactly the valid arguments | From the lemmas on heaps and representations of C34, C35 and C69. |
| C90 | The Hessian of a quadratic residual cost without Gauss-Newton is exact | Chain and product rule at every point of a line (`quad_second`), then the execution of `hess` step by step. |
| C91 | The problem behaves as if its functions had no memory | `Objects_model.v` runs the problem on the heap of `Function_model.v`; `Objects_proofs.v`: requests leave heaps that differ only in the caches, and each answer is determined by the represented function (derivatives along paths are unique), so it equals that of a fresh copy. |
| C92 | The proximal penalty follows its parameter and its target | `Prox_proofs.v`: invariant of the object (parameter, target, weights rho I, slope 0) kept by all operations, answers from C34, C35, C67. |
| C93 | The example program poses the quadratic problem it means, and the solver solves it | `Client_model.v` is the part of examples/equality-qp.cpp that builds the problem; `Client_proofs.v` runs the objects (Jacobian of the difference is the identity) and compares with `qp`; the theorems C91 and C86 do the rest. |
| C94 | The dense and block-sparse factorisations do what the convergence theorems ask of them | `Fac_model.v` has the list-level use of DenseLDLT and BlockLDLT by the solver; `Fac_proofs.v` bounds the pivots of a quasi-definite matrix from below by its margins (induction on the Schur complement, invariant under renumbering); `FacX_proofs.v` combines this with C50, C73, C74 and C86. |
| C95 | The result of the solver is near the solution | `QpN_proofs.v`: the quadratic form of x - xs is the product of the residuals with x - xs and l - ls; the outer loop keeps |l - ls| <= D (`QpC_proofs.v`), Young and Cauchy-Schwarz do the rest. |
| C96 | With the dense factorisation the inertia test accepts only convex matrices | `FacZ_proofs.v`: the unblocked factorisation either delivers LDL' factors or stops with a pivot that is exactly zero (column-by-column invariant), and a zero pivot is counted by the signature; so an accepted signature gives factors, and C77's congruence argument gives convexity. `Refine_proofs.v` restates C83 for factorisations faithful on accepted matrices. |
| C97 | Pivoted factorisations of other libraries do what the solver asks of them | `PsLdlt_model.v` has the wrapper with the external factorisation as a parameter, `PsLdlt_spec.v` its contract. LDL' factors with nonzero pivots are unique, so the pivots of a quasi-definite matrix in any order are those bounded by C94; the congruence carries the permutation for the inertia. |
| C98 | With a proximal term one Newton step solves each subproblem exactly | `QpR_proofs.v` rewrites diagnose, step and merit of the loop with rho > 0 as those of the problem with Hessian Q + rho I and slope q - rho t, and reuses the algebra of C85; `QpRO_proofs.v` reads the penalty off the object of C92 (velocities along unit vectors). |
| C99 | The solver with a proximal term converges on convex quadratic problems | `QpRC_proofs.v`: a step is a proximal point step for the KKT operator, which lowers rho |t - xs|^2 + mu |le - ls|^2 by rho |x - t|^2 + mu |l - le|^2; a rejection divides mu and adds to the bound at most k / mu_lower, acceptances after the tolerances are small either finish or use up the potential. Induction over the outer iterations with this bound. |
| C100 | Settings made before a solve | Equality of the states after the first lines of solve, for all settings (`Settings_proofs.v`); the refutation is a rational run. |
| C101 | With inequality constraints one Newton step solves the subproblem once the active set is right | `ActD_proofs.v` and `ActT_proofs.v` write diagnose, step and merit row by row with the coordinates of the set; on the pieces of the solution the merit function is a quadratic whose Newton step is xs - x, ls - l (`Act_proofs.v`), accepted with step length one. `ActF_proofs.v`: distance from the limits gives the pieces; dense factorisation and example in `ActX_proofs.v`. |
| C102 | The printed table | `Log_model.v` is solve with its output; erasing the output gives `Solver_model.v` (induction over both loops). The rows of a pass are read off `step_inv`; the position of the titles by induction on the number of rows. |
| C103 | Norms, closeness and value checks | Largest entry by induction over the folds; case analysis on the extended reals. |
| C104 | The inner loop with the primal-dual system terminates from every start | The primal-dual merit function is convex with a slope that bounds the criterion: `Glob_proofs.v` (algebra of the step: slope = -(d'Qd + ...), curvature along the step, Armijo test for steps up to abar), `GlobD_proofs.v` (diagnose and step row by row), `GlobT_proofs.v` (line search succeeds, one step decreases the merit by c1 low abar tol^2 / gam), `GlobF_proofs.v` (loop by induction on the remaining decrease), `GlobX_proofs.v` (both factorisations on the primal-dual matrix, constants, example). |
| C105 | What SUCCESS says about the objective | From the residuals of C18 (the multiplier is within t/mu of the subdifferential at z) and convexity: `Cert_proofs.v` (`gap`: first-order inequality of the objective, variational inequality of the proximal point, then term-by-term bounds); the refutations run the solver on a point whose residuals are below the tolerance, with C20. |
| C106 | The solver with the primal-dual system converges on strongly convex problems with inequality constraints | C104 for every inner loop, and an inexact Fejer argument for the multipliers: `Pdc_proofs.v` (monotonicity of the projection and strong convexity give |l - ls|^2 + |le - l|^2 <= |le - ls|^2 + error terms in the inner tolerance; `drift` bounds the growth, `point_near` the points, `prim_bound` the primal residual), `PdcO_proofs.v` (induction over the outer loop as in C86: every rejection lowers the penalty parameter, at the least one the tolerance is reached; acceptances shrink the tolerances), `PdcX_proofs.v` (example with explicit constants). |
| C107 | The problem that the inner loop solves | `Dbl_proofs.v`: the criterion is zero iff every row of both residuals is; a zero dual row says that l is mu/2 from the proximal point, which is the subgradient inequality with weight 2 (weight 1 with the classic rows). The run: the inner loop accepts x = 18, l = 2 at every penalty parameter, acceptances and rejections alternate until the parameter is below the tolerance. |
| C108 | Steps that raise the merit function | `Stall_proofs.v`: one step with the classic system for any line search (`cstep_p`); on a rising convex parabola all trial lengths are halved down to the shortest (`half_run`). The run: x = -8 t, l = -400 t with t = (1 - 1e-6)^k; while t > 7/8 the classic shift 7 - 8 t leaves the row out, and the shift 7 - 6 t of the merit function keeps it, so the slope is t (8400 - 8064 t) > 0. `Cold_proofs.v`: the run from zero multipliers. The full step makes both multipliers negative (-5300, -2700) at (-100, 9); the next step drops both rows and the line search halves it; then x = -100 t, y = 9 t, l = t (-5300, -2700) with t = (1 - 1e-6)^j / 2, where the classic shift 47 - 100 t leaves the first row out and the other, 47 - 73.5 t, keeps it. `Cold64_proofs.v`: the same problem run in software binary64 by the virtual machine of the kernel. |
| C109 | The problem of the example program circle.cpp | `Client_model.v` (`disk_program`), `Disk_spec.v`, `Disk_proofs.v`: the lemmas on a quadratic function of a difference of C93, for any target and constant; the requests follow from C91; the solution from p = (1 + 2 l) x, and the projection from |y - p|^2 = |x - p|^2 + |y - x|^2 + 2 l (|x|^2 - |y|^2 + |y - x|^2). `DiskS_proofs.v`: the same identity with the residuals left in, from the first-order conditions at SUCCESS of C18. |

## 4. Findings

Each line is a property that the faithful model does not have (with the theorem that shows it by a
witness), or a fact about the code met on the way.  "(read)" marks what was seen in the source but is not
the subject of a theorem.

### Line search (`linesearch-armijo.hpp`)
* A negative `alpha_min` and a merit that always throws: the first loop never ends (`C01_negative_alpha_min_refuted`).
* The returned value need not be the merit at the returned step: a NaN at the full step, a merit that always
  throws, and a merit that throws inside the loop each break the pair (`C04_nan_merit_refuted`,
  `C04_all_throw_refuted`, `C04_stale_value_refuted`).
* The right-hand side of the cubic interpolation has its two entries exchanged; the cubic misses both samples
  (`C07_cubic_refuted`; `C07_cubic_corrected_order` proves the repair).

### Constraint sets
* A box with lower > upper is accepted and its projection is not in the box (`C09_unordered_box_refuted`).
* A product of sets does not forward `setProxParameter`; an l1 penalty inside a product keeps its own mu
  (`C14_product_penalty_refuted`).  Its `mu_inv_` is uninitialised by default (read).
* `setProxParameter` writes into the sets of the problem, so two solvers on one problem share mu (read).

### Solver (`prox-solver.hxx`)
* The inner stopping test is `<=`, the outer one `<`: with an infeasibility equal to `target_tol` the solver
  repeats to `max_al_iters` and returns `UNINIT` (`C20_equality_refuted`; `C86_boundary` for every quadratic problem).
* `UNINIT` is also what exhausting `max_al_iters` or a zero budget returns (`C19_flag_meaning`,
  `C19_zero_budget`); `MAX_ITERS_REACHED` comes only from the inner loop.
* With `MAX_ITERS_REACHED` the reported infeasibilities are those of the previous iterate
  (`C21_max_iters_refuted`); in `PRIMAL` mode the multipliers change after the dual infeasibility was computed
  (`C21_primal_mode_refuted`).
* Omitting the initial multipliers, or giving ones of the wrong size, keeps those of the previous call
  (`C22_history_refuted`).
* `setPenalty` and `setProxParameter` called before `solve` have no effect, so the settings in
  `examples/equality-qp.cpp:60-61` and `examples/circle.cpp:99` are lost (`C100_settings_lost`).
* `solve` does not move the target of the proximal term to the start: the first subproblem is centred at the last
  accepted point of the previous solve, or at the neutral point, and its step can raise the objective
  (`C100_target_refuted`).
* The stopping test measures complementarity scaled by mu: with a small `mu_init` the solver returns SUCCESS at points far from
  optimal. For x^2/2 subject to x <= 10 with `mu_init` = 1e-8 it accepts the start x = -50 with multiplier 50 (objective 1250,
  optimum 0; `C105_optimal_refuted`), and likewise with the l1 penalty (`C105_l1_refuted`).
* With KKT_PRIMAL_DUAL a penalty counts twice. The merit function takes twice the Moreau envelope (`pdal.hxx:25`), and the right-hand side uses the multiplier
  of the halved parameter (`prox-solver.hxx:337-340`). For sets this changes nothing, but with the l1 penalty the inner loop solves the problem with the penalty doubled
  (`C107_criterion`). With default parameters the solver returns SUCCESS at 18 for: minimise 1/2 x^2 - 20 x + |x|; the minimiser is 19 (`C107_refuted`). KKT_CLASSIC has the right criterion.
* The default system KKT_CLASSIC can stall on a strongly convex problem: for minimise 1/2 x^2 subject to x + 11 <= 0 from x = -8 with the multiplier -400, every step is an ascent
  direction of the merit function, the line search answers with its shortest length 1e-6 instead of reporting a failure, and the solver returns MAX_ITERS_REACHED for every limit up to 100000 iterations
  (`C108_progress_refuted`, `C108_floor`). It also happens from zero multipliers: minimise 1/2 x^2 + 150 y^2 subject to x <= -47, y - 2 x <= 236 from (0, 300) takes two good steps and then only steps of length 1e-6
  (`C108_cold_refuted`; in binary64 with all default parameters `C108_binary64_refuted`). The classic shift selects the rows of the system, the shift with the multipliers those of the merit function. For KKT_PRIMAL_DUAL see C104 and C106.
* A solve that throws leaves NaN in the KKT matrix and every later solve throws or does not return
  (`C62_poisoned`).
* A negative `DELTA_INIT` makes the inertia loop endless (`C17_negative_delta_refuted`).
* The penalty is reset to `mu_init` after it reached its floor (`C24_penalty_schedule`).
* The diagonal of the KKT matrix drifts in binary64 (`C28_binary64_refuted`).
* `setDualPenalty(beta)` with `beta` other than 1/2 makes the merit gradient inconsistent with the value
  (`C31_dual_weight_refuted`).
* The inertia check ignores `info()` of the factorisation; with more than 32 rows a failed Bunch-Kaufman
  factorisation passes it (`C55_refuted`).
* `Results.converged` is `SUCCESS` before the first solve; a callback sees the new point with the
  infeasibilities of the previous one; `delta_init > delta_max` uses a factorisation of another matrix; the
  iterative refinement uses the unregularised matrix; `addConstraint` after `setup()` leaves the workspace
  stale (read, visible in `Solver_model.v`).
* A solve at level `QUIET` switches the table of the logger off for good (`C102_silenced`, `C102_level_refuted`), and still prints a message
  (`C102_quiet_refuted`). The residuals of a printed record belong to the point before the step, so that no record of a
  successful solve shows the residuals of its result (`C102_stale`). `print_callback` prints nothing (read).
* `infty_norm` of a `std::vector` of vectors is never NaN and so hides one (`C103_never_nan`, `C103_nan_refuted`); the comment of `check_scalar`
  says the contrary of what it returns (`C103_check_scalar`); `scalar_close(inf, inf)` is false (`C103_close_inf_refuted`).

### Costs and functions
* Derivatives of a quadratic residual cost use the residual of the last evaluation, wherever it was
  (`C34_any_history_refuted`); a shared cost object mixes points (`C34_sharing_refuted`); weights that are not
  symmetric give a wrong gradient (`C34_any_weights_refuted`).
* `c += c` inserts a range of the vector being grown into itself: undefined for every non-empty sum
  (`C33_self_addition_undefined`, `C33_doubling_refuted`); adding the own pointer makes evaluation endless
  (`C33_pointer_to_itself`).
* The dimension check of a composition compares with `nx` instead of `ndx`
  (`C35_dimension_check_refuted`); its vector-Hessian product is always zero (`C35_hessian_refuted`).
* The finite-difference Hessian of a quadratic residual cost is zero (`C36_quadratic_cost_refuted`).
* Copies of a squared distance cost share the target (`C69_copy_is_independent_refuted`).
* `ManifoldDifferenceToPoint` does not check the size of its target: on a vector space any vector is accepted and
  the evaluation is undefined (`C89_target_size_refuted`).
* `LinearFunctionDifferenceToPoint` checks the size of the target last; the constructor of a linear function
  does not compare the sizes of A and b; `.5 * c1 + c2` returns a reference to a moved temporary (read).
* The derivatives of a problem use the residuals of the last evaluation, whatever its point (`C91_any_order_refuted`). A
  quadratic cost used as objective and, composed with another function, inside a constraint spoils the gradient of the
  objective even in the order of the solver (`C91_sharing_refuted`).

### Manifolds
* `TangentBundle::interpolate` takes the velocities from the wrong coordinates (`C40_bundle_refuted`,
  `C40_bundle_velocity_lost`).
* `CartesianProduct::isNormalized` is always true (`C41_detects_bad_component_refuted`).
* `polymorphic * CartesianProduct` exchanges the factors (`C42_swapped_refuted`).
* `product.addComponent(product)` with itself iterates over the vector it grows (`C88_add_self_refuted`).
* `product * product` nests the left operand (`C64_component_count_refuted`).
* The BFGS update uses differences of coordinates of size nx, not tangent vectors (read), and the variant for
  the Hessian that the solver uses is the DFP formula (`C70_inverse_formula`).
* Changing `hess_approx` after `setup()` makes the strategy invalid; the next update throws
  (`C43_invalid_throws`).

### Symbolic linear algebra (`block-kind.cpp`, `ldlt-allocator.hpp`)
* The symbolic factor is not minimal (`C45_smallest_refuted`).
* The symmetry check compares kinds without transposing (`C46_refuted`).
* A second choice of a permutation permutes the factor of the first (`C48_refuted`).
* Without blocks `m_start_idx[0]` is written out of range (`C49_no_block_refuted`).
* `count_nnz` is wrong for rectangular triangular blocks (`C71_rectangular_refuted`).

### Step of the solver
* `iterativeRefinement` computes the residual with the matrix without the regularisation and corrects it with
  the factorisation of the regularised one. When the inertia correction has added delta > 0 the loop moves away
  from the regularised step: -126 instead of -2 in `C82_refuted`. It remains a descent direction
  (`C82_refined_step`).
* With the default `KKT_CLASSIC` system the step can be an ascent direction of the merit function although the
  inertia is right: an inequality active for the shifted value of the primal-dual estimate and inactive for the
  other (`C81_refuted`, slope +22). With `KKT_PRIMAL_DUAL` this cannot happen on convex quadratic problems, and the
  inner loop terminates from every start (`C104_inner_loop`).

### Factorisations
* `DenseLDLT::info()` is always `Success` (`C51_refuted`), its sign is that of an earlier matrix after a second
  `compute` (`C52_refuted`).
* `GemmT` on Diag x TriL and Diag x TriU multiplies matrices of different sizes (`C56_refuted`).
* Structures with triangular blocks are accepted by the symbolic and rejected by the numeric factorisation
  (`C73_refuted`).
* Blocks of one row break the sign of the block factorisation (`C75_refuted`).
* The implicit copy assignment of `BlockLDLT` leads to a double delete (`C58_assign_refuted`); permutations
  lose four arrays (`C58_leak_refuted`); the copy constructor drops the sign (read).
* The signature of Bunch-Kaufman compares the determinant of the inverted pivot with machine epsilon and
  reports zeros for well conditioned matrices (`C54_refuted`).
* A pivot of at most 2^-1022 passes the inertia test as positive or negative, but the solve treats it as zero and
  returns a wrong step (`C94_tiny_refuted`).
* The dense LDLT, without pivoting, rejects matrices that have the right inertia but a zero pivot, such as that of a zero
  Hessian with one regular constraint (`C96_complete_refuted`); the solver then regularises a convex problem.
* `sign()` of the ProxSuite wrapper is never written and `info()` always reports success (`C97_sign_refuted`).

### Helpers
* The history callback takes the address of element 0 of an empty vector on every call
  (`C60_undefined_refuted`); the stored multiplier views alias the live data (`C60_views_refuted`).
* `polymorphic`: the initializer-list constructor makes a `T` (`C59_initializer_list_refuted`), the
  allocator-extended move constructor tests the wrong trait (`C59_allocator_refuted`; `std::allocator` is not
  affected).

## 5. Coverage of the sources

Paths are below `include/proxsuite-nlp`.

| source | model | left out |
|---|---|---|
| `linesearch-base.hpp`, `linesearch-armijo.hpp` | `Armijo_model.v`, whole | |
| `constraint-set.hpp/.hxx`, `modelling/constraints/*.hpp` | `Cset_model.v`, whole | |
| `problem-base.hpp` | `Problem_model.v`, layout and views, functions as oracles of the solver; `Objects_model.v`, functions as objects in a heap (C91 relates both) | |
| `prox-solver.hpp/.hxx`, `pdal.hxx`, `results.hpp`, `workspace.hpp`, `bcl-params.hpp`, `exceptions.hpp` | `Solver_model.v`: solve, inner loop, multipliers, KKT assembly, inertia correction, merit value and derivative, penalty and tolerance updates, callbacks, NaN checks | timings; the factorisation is an oracle (instantiated in `Bk_model.v`, `Ldlt_model.v`) |
| `bfgs-strategy.hpp` | `Bfgs_model.v`, whole | |
| `function-base.hpp`, `function-ops.hpp`, `cost-function.hpp`, `cost-sum.hpp/.hxx`, `modelling/residuals/*`, `modelling/costs/*`, `modelling/autodiff/finite-difference.hpp` | `Function_model.v`: objects in a heap, values, derivatives, cached data | casadi wrapper (empty file) |
| `manifold-base.hpp/.hxx`, `modelling/spaces/vector-space.hpp`, `cartesian-product.*`, `tangent-bundle.*` | `Manifold_model.v`, all but `rand` | `rand` |
| `modelling/spaces/pinocchio-groups.hpp`, `multibody.hpp` | a leaf of `Manifold_model.v`: operations as oracles (pinocchio is external) | pinocchio |
| `linalg/block-kind.hpp`, `src/block-kind.cpp`, `ldlt-allocator.hpp` | `Symb_model.v` (structures, permutations, default structure, choice of the factorisation), `Bk_model.v` (signature) | printing of structures |
| `linalg/ldlt-base.hpp`, `dense.hpp`, `gemmt.hpp`, `block-triangular.hpp`, `block-ldlt.hpp/.hxx` | `Ldlt_model.v` (numeric), `Symb_model.v` (symbolic), `Own_model.v` (memory), `Fac_model.v` (use by the solver) | `Eigen::LDLT` (covered by the contract `pivoted`) |
| `linalg/bunchkaufman.hpp` | `Bk_model.v`, unblocked, blocked and solve, real scalars | complex scalars |
| `linalg/proxsuite-ldlt-wrap.hpp` | `PsLdlt_model.v`, whole | the external factorisation (a parameter with the contract `ps_factored`), stack memory |
| `helpers/history-callback.hpp` | `Hist_model.v`, whole | |
| `logger.hpp` | `Log_model.v`: lines and records of the output | layout of the columns |
| `helpers/print-callback.hpp`, `fmt-*.hpp` | | text output (print_callback is empty) |
| `third-party/polymorphic_cxx14.hpp` | `Poly_model.v`, whole | |
| `math.hpp`, `macros.hpp`, `fwd.hpp`, `context.hpp`, `version.hpp`, `*.txx` | `Math_model.v`; norms and NaN tests in `Scalar.v`, `Solver_model.v` | type aliases, explicit instantiations |
| `examples/equality-qp.cpp` | `Client_model.v`, construction of the problem | random data, the call of the solver with its settings |
| `examples/circle.cpp` | `Client_model.v` (`disk_program`), construction of the problem | printing, the call of the solver with its settings |

## 6. Theorem list and assumptions

Axioms, all from the standard library: D = `ClassicalDedekindReals.sig_forall_dec`, N = `ClassicalDedekindReals.sig_not_dec`,
F = `FunctionalExtensionality.functional_extensionality_dep`, C = `Classical_Prop.classic`; "none" means closed under the global context.

| id | status | theorem | file | axioms |
|---|---|---|---|---|
| C01 | proved | `C01_step_in_range` | `Armijo_props.v` | D N F |
| C01 | proved | `C01_terminates_binary64` | `Armijo_props.v` | none |
| C01 | proved | `C01_negative_alpha_min_refuted` | `Armijo_props.v` | none |
| C02 | proved | `C02_evaluation_count` | `Armijo_props.v` | D N F |
| C03 | proved | `C03_sufficient_decrease` | `Armijo_props.v` | D N F |
| C04 | proved | `C04_value_at_last_trial` | `Armijo_props.v` | none |
| C04 | proved | `C04_value_at_returned_step` | `Armijo_props.v` | D N F |
| C04 | proved | `C04_nan_merit_refuted` | `Armijo_props.v` | none |
| C04 | proved | `C04_all_throw_refuted` | `Armijo_props.v` | none |
| C04 | proved | `C04_stale_value_refuted` | `Armijo_props.v` | none |
| C05 | proved | `C05_bracket_any_scalar` | `Armijo_props.v` | none |
| C05 | proved | `C05_bracket` | `Armijo_props.v` | D N F |
| C05 | proved | `C05_quadratic_defined` | `Armijo_props.v` | D N F |
| C05 | proved | `C05_cubic_nan_iff` | `Armijo_props.v` | D N F |
| C06 | proved | `C06_quadratic_fits` | `Armijo_props.v` | D N F |
| C07 | proved | `C07_cubic_refuted` | `Armijo_props.v` | D N F |
| C07 | proved | `C07_cubic_fits_iff` | `Armijo_props.v` | D N F |
| C07 | proved | `C07_cubic_corrected_order` | `Armijo_props.v` | D N F |
| C08 | proved | `C08_evaluate` | `Armijo_props.v` | D N F |
| C08 | proved | `C08_derivative` | `Armijo_props.v` | D N F |
| C09 | proved | `C09_projection_nearest` | `Cset_props.v` | D N F |
| C09 | proved | `C09_projection_in_set` | `Cset_props.v` | D N F |
| C09 | proved | `C09_unordered_box_refuted` | `Cset_props.v` | D N F |
| C10 | proved | `C10_projection_idempotent` | `Cset_props.v` | D N F |
| C10 | proved | `C10_projection_fixes_set` | `Cset_props.v` | D N F |
| C10 | proved | `C10_projection_nonexpansive` | `Cset_props.v` | D N F |
| C10 | proved | `C10_projection_inplace` | `Cset_props.v` | D N F |
| C11 | proved | `C11_moreau_decomposition` | `Cset_props.v` | D N F |
| C12 | proved | `C12_prox_minimiser` | `Cset_props.v` | D N F |
| C12 | proved | `C12_envelope_value` | `Cset_props.v` | D N F |
| C13 | proved | `C13_projection_jacobian` | `Cset_props.v` | D N F |
| C14 | proved | `C14_product_penalty_refuted` | `Cset_props.v` | D N F |
| C14 | proved | `C14_product_penalty_hard_sets` | `Cset_props.v` | D N F |
| C14 | proved | `C14_product_blocks` | `Cset_props.v` | D N F |
| C15 | proved | `C15_segments_tile` | `Problem_props.v` | none |
| C15 | proved | `C15_segments_consecutive` | `Problem_props.v` | none |
| C15 | proved | `C15_total` | `Problem_props.v` | none |
| C15 | proved | `C15_views_tile` | `Problem_props.v` | none |
| C16 | proved | `C16_pack_roundtrip` | `Problem_props.v` | none |
| C16 | proved | `C16_count_mismatch_throws` | `Problem_props.v` | none |
| C16 | proved | `C16_returns_only_matching` | `Problem_props.v` | none |
| C17 | proved | `C17_terminates` | `Solver_props.v` | D N F |
| C17 | proved | `C17_budgets` | `Solver_props.v` | none |
| C17 | proved | `C17_negative_delta_refuted` | `Solver_props.v` | D N F |
| C18 | proved | `C18_success_is_kkt` | `Solver_props.v` | D N F |
| C19 | proved | `C19_flag_meaning` | `Solver_props.v` | none |
| C19 | proved | `C19_zero_budget` | `Solver_props.v` | none |
| C20 | proved | `C20_start_accepted` | `Solver_props.v` | D N F |
| C20 | proved | `C20_equality_refuted` | `Solver_props.v` | none |
| C21 | proved | `C21_reported_infeasibilities` | `Solver_props.v` | D N F |
| C21 | proved | `C21_max_iters_refuted` | `Solver_props.v` | none |
| C21 | proved | `C21_primal_mode_refuted` | `Solver_props.v` | none |
| C22 | proved | `C22_same_result` | `Det_props.v` | none |
| C22 | proved | `C22_history_refuted` | `Solver_props.v` | none |
| C23 | proved | `C23_penalty_safeguard` | `Solver_props.v` | D N F |
| C24 | proved | `C24_penalty_schedule` | `Solver_props.v` | D N F |
| C25 | proved | `C25_tolerance_floors` | `Solver_props.v` | D N F |
| C25 | proved | `C25_success_tightens` | `Solver_props.v` | D N F |
| C26 | proved | `C26_callbacks` | `Solver_props.v` | none |
| C27 | proved | `C27_inertia_check` | `Solver_props.v` | none |
| C28 | proved | `C28_matrix_restored` | `Solver_props.v` | D N F |
| C28 | proved | `C28_binary64_refuted` | `Solver_props.v` | none |
| C29 | proved | `C29_kkt_symmetric` | `Solver_props.v` | D N F |
| C29 | proved | `C29_dual_diagonal` | `Solver_props.v` | D N F |
| C30 | proved | `C30_merit_value` | `Merit_props.v` | D N F |
| C31 | proved | `C31_merit_derivative` | `Merit_props.v` | D N F |
| C31 | proved | `C31_dual_weight_refuted` | `Merit_props.v` | D N F |
| C32 | proved | `C32_sum_value` | `Function_props.v` | D N F |
| C32 | proved | `C32_expressions` | `Function_props.v` | D N F |
| C32 | proved | `C32_add_component` | `Function_props.v` | D N F |
| C32 | proved | `C32_scale_in_place` | `Function_props.v` | D N F |
| C32 | proved | `C32_sum_gradient` | `Function_props.v` | D N F |
| C32 | proved | `C34_derivatives_after_call` | `Function_props.v` | D N F |
| C33 | proved | `C33_self_addition_undefined` | `Function_props.v` | D N F |
| C33 | proved | `C33_doubling_refuted` | `Function_props.v` | D N F |
| C33 | proved | `C33_pointer_to_itself` | `Function_props.v` | D N F |
| C33 | proved | `C33_add_other_sum` | `Function_props.v` | D N F |
| C34 | proved | `C34_derivatives_after_call` | `Function_props.v` | D N F |
| C34 | proved | `C34_constructed` | `Function_props.v` | D N F |
| C34 | proved | `C34_any_history_refuted` | `Function_props.v` | D N F |
| C34 | proved | `C34_any_weights_refuted` | `Function_props.v` | D N F |
| C34 | proved | `C34_sharing_refuted` | `Function_props.v` | D N F |
| C35 | proved | `C35_construction` | `Function_props.v` | D N F |
| C35 | proved | `C35_value` | `Function_props.v` | D N F |
| C35 | proved | `C35_chain_rule` | `Function_props.v` | D N F |
| C35 | proved | `C35_dimension_check_refuted` | `Function_props.v` | D N F |
| C35 | proved | `C35_hessian_refuted` | `Function_props.v` | D N F |
| C36 | proved | `C36_jacobian_error` | `Function_props.v` | D N C F |
| C36 | proved | `C36_exact_on_quadratics` | `Function_props.v` | D N C F |
| C36 | proved | `C36_hessian_error` | `Function_props.v` | D N C F |
| C36 | proved | `C36_quadratic_cost_refuted` | `Function_props.v` | D N F |
| C37 | proved | `C37_difference_of_integrate` | `Manifold_props.v` | D N F |
| C37 | proved | `C37_integrate_of_difference` | `Manifold_props.v` | D N F |
| C37 | proved | `C37_flat` | `Manifold_props.v` | D N F |
| C38 | proved | `C38_Jintegrate` | `Manifold_props.v` | D N F |
| C38 | proved | `C38_Jdifference` | `Manifold_props.v` | D N F |
| C38 | proved | `C38_flat` | `Manifold_props.v` | D N F |
| C39 | proved | `C39_split_merge` | `Manifold_props.v` | none |
| C39 | proved | `C39_split_merge_vector` | `Manifold_props.v` | none |
| C40 | proved | `C40_end_points` | `Manifold_props.v` | D N F |
| C40 | proved | `C40_affine` | `Manifold_props.v` | D N F |
| C40 | proved | `C40_bundle_refuted` | `Manifold_props.v` | D N F |
| C40 | proved | `C40_bundle_velocity_lost` | `Manifold_props.v` | D N F |
| C41 | proved | `C41_accepts_everything` | `Manifold_props.v` | none |
| C41 | proved | `C41_detects_bad_component_refuted` | `Manifold_props.v` | D N C F |
| C41 | proved | `C41_bundle` | `Manifold_props.v` | none |
| C42 | proved | `C42_written_order` | `Manifold_props.v` | none |
| C42 | proved | `C42_swapped_refuted` | `Manifold_props.v` | D N C F |
| C42 | proved | `C42_swapped` | `Manifold_props.v` | none |
| C43 | proved | `C43_formula` | `Bfgs_props.v` | D N F |
| C43 | proved | `C43_secant` | `Bfgs_props.v` | D N F |
| C43 | proved | `C43_stays_positive_definite` | `Bfgs_props.v` | D N F |
| C43 | proved | `C43_invalid_throws` | `Bfgs_props.v` | D N F |
| C44 | proved | `C44_transpose` | `Symb_props.v` | D |
| C44 | proved | `C44_sum` | `Symb_props.v` | D F |
| C44 | proved | `C44_product` | `Symb_props.v` | D C F |
| C44 | proved | `C44_smallest` | `Symb_props.v` | D C F |
| C45 | proved | `C45_in_bounds` | `Symb_props.v` | none |
| C45 | proved | `C45_covers` | `Symb_props.v` | D C F |
| C45 | proved | `C45_smallest_refuted` | `Symb_props.v` | D F |
| C46 | proved | `C46_compares_kinds` | `Symb_props.v` | none |
| C46 | proved | `C46_without_triangles` | `Symb_props.v` | none |
| C46 | proved | `C46_refuted` | `Symb_props.v` | none |
| C47 | proved | `C47_minimal_fill` | `Symb_props.v` | none |
| C48 | proved | `C48_first_call` | `Symb_props.v` | none |
| C48 | proved | `C48_refuted` | `Symb_props.v` | none |
| C49 | proved | `C49_scalar_permutation` | `Symb_props.v` | none |
| C49 | proved | `C49_no_block_refuted` | `Symb_props.v` | none |
| C50 | proved | `C50_dense_ldlt` | `Ldlt_props.v` | D N F |
| C50 | proved | `C50_tiny_pivots` | `Ldlt_props.v` | D N F |
| C51 | proved | `C51_always_success` | `Ldlt_props.v` | none |
| C51 | proved | `C51_refuted` | `Ldlt_props.v` | D N F |
| C52 | proved | `C52_first_compute` | `Ldlt_props.v` | D N F |
| C52 | proved | `C52_refuted` | `Ldlt_props.v` | D N F |
| C53 | proved | `C53_solve` | `Bk_props.v` | D N F |
| C54 | proved | `C54_signature` | `Bk_props.v` | D N F |
| C54 | proved | `C54_refuted` | `Bk_props.v` | D N F |
| C55 | proved | `C55_failure_detected` | `Bk_props.v` | D N F |
| C55 | proved | `C55_refuted` | `Bk_props.v` | none |
| C56 | proved | `C56_structured_product` | `Ldlt_props.v` | D N C F |
| C56 | proved | `C56_square` | `Ldlt_props.v` | D N C F |
| C56 | proved | `C56_refuted` | `Ldlt_props.v` | D N F |
| C57 | proved | `C57_reports_failure` | `Ldlt_props.v` | D N F |
| C58 | proved | `C58_released_once` | `Own_props.v` | none |
| C58 | proved | `C58_assign_refuted` | `Own_props.v` | none |
| C58 | proved | `C58_leak_refuted` | `Own_props.v` | none |
| C59 | proved | `C59_value_semantics` | `Poly_props.v` | none |
| C59 | proved | `C59_all_destroyed` | `Poly_props.v` | none |
| C59 | proved | `C59_independent` | `Poly_props.v` | none |
| C59 | proved | `C59_strong_guarantee` | `Poly_props.v` | none |
| C59 | proved | `C59_self_assignment` | `Poly_props.v` | none |
| C59 | proved | `C59_moved_from_valueless` | `Poly_props.v` | none |
| C59 | proved | `C59_allocator_refuted` | `Poly_props.v` | none |
| C59 | proved | `C59_initializer_list_refuted` | `Poly_props.v` | none |
| C60 | proved | `C60_records` | `Hist_props.v` | none |
| C60 | proved | `C60_reads_in_bounds` | `Hist_props.v` | none |
| C60 | proved | `C60_history_of_solve` | `Hist_props.v` | none |
| C60 | proved | `C60_undefined_refuted` | `Hist_props.v` | none |
| C60 | proved | `C60_views_alias` | `Hist_props.v` | none |
| C60 | proved | `C60_views_refuted` | `Hist_props.v` | none |
| C61 | proved | `C61_guard` | `Solver_props.v` | D N F |
| C61 | proved | `C61_finite_point` | `Solver_props.v` | D N F |
| C62 | proved | `C62_poisoned` | `Solver_props.v` | none |
| C63 | proved | `C63_transport_product` | `Manifold_props.v` | none |
| C63 | proved | `C63_transport_bundle` | `Manifold_props.v` | none |
| C63 | proved | `C63_transport_flat` | `Manifold_props.v` | D N F |
| C64 | proved | `C64_component_count_refuted` | `Manifold_props.v` | D N F |
| C64 | proved | `C64_component_count` | `Manifold_props.v` | none |
| C65 | proved | `C65_quadratic_minimiser` | `Armijo_props.v` | D N F |
| C65 | proved | `C65_cubic_local_minimiser` | `Armijo_props.v` | D N F |
| C66 | proved | `C66_symmetric_semidefinite` | `Function_props.v` | D N F |
| C67 | proved | `C67_quadratic_model_exact` | `Function_props.v` | D N F |
| C68 | proved | `C68_value` | `Function_props.v` | D N F |
| C68 | proved | `C68_jacobian` | `Function_props.v` | D N F |
| C68 | proved | `C68_usable` | `Function_props.v` | D N F |
| C69 | proved | `C69_constructed` | `Function_props.v` | D N F |
| C69 | proved | `C69_value` | `Function_props.v` | D N F |
| C69 | proved | `C69_update_target` | `Function_props.v` | D N F |
| C69 | proved | `C69_copy_is_independent_refuted` | `Function_props.v` | D N F |
| C70 | proved | `C70_inverse_formula` | `Bfgs_props.v` | D N F |
| C71 | proved | `C71_count` | `Symb_props.v` | none |
| C71 | proved | `C71_rectangular_refuted` | `Symb_props.v` | none |
| C72 | proved | `C72_default_structure` | `Symb_props.v` | none |
| C72 | proved | `C72_allocation` | `Symb_props.v` | none |
| C73 | proved | `C73_block_ldlt` | `Ldlt_props.v` | D N C F |
| C73 | proved | `C73_refuted` | `Ldlt_props.v` | none |
| C74 | proved | `C74_kkt_block` | `Ldlt_props.v` | D N C F |
| C74 | proved | `C74_kkt_dense` | `Ldlt_props.v` | D N F |
| C75 | proved | `C75_block_sign` | `Ldlt_props.v` | D N C F |
| C75 | proved | `C75_refuted` | `Ldlt_props.v` | none |
| C76 | proved | `C76_success_iff_nonsingular` | `Bk_props.v` | D N F |
| C77 | proved | `C77_ldlt` | `Bk_props.v` | D N F |
| C77 | proved | `C77_bunch_kaufman` | `Bk_props.v` | D N F |
| C78 | proved | `C78_inertia_correction` | `Bk_props.v` | D N F |
| C79 | proved | `C79_descent` | `Bk_props.v` | D F |
| C80 | proved | `C80_pivot_growth` | `Bk_props.v` | D N F |
| C81 | proved | `C81_descent` | `Descent_props.v` | D N F |
| C81 | proved | `C81_refuted` | `Descent_props.v` | D N F |
| C82 | proved | `C82_refined_step` | `Descent_props.v` | D N F |
| C82 | proved | `C82_refuted` | `Descent_props.v` | D N F |
| C83 | proved | `C83_merit_decrease` | `Descent_props.v` | D N F |
| C83 | proved | `C83_bunch_kaufman` | `Descent_props.v` | D N F |
| C84 | proved | `C84_smooth_merit` | `ArmijoS_props.v` | D N F |
| C85 | proved | `C85_one_step` | `Qp_props.v` | D N F |
| C86 | proved | `C86_converges` | `Qp_props.v` | D N C F |
| C86 | proved | `C86_default_params` | `Qp_props.v` | D N C F |
| C86 | proved | `C86_boundary` | `Qp_props.v` | D N C F |
| C86 | proved | `C86_refuted` | `Qp_props.v` | D N C F |
| C87 | proved | `C87_bunch_kaufman` | `Qp_props.v` | D N F |
| C88 | proved | `C88_neutral` | `Ctor_props.v` | D N F |
| C88 | proved | `C88_flat` | `Ctor_props.v` | D N F |
| C88 | proved | `C88_product` | `Ctor_props.v` | none |
| C88 | proved | `C88_bundle` | `Ctor_props.v` | none |
| C88 | proved | `C88_add_self_refuted` | `Ctor_props.v` | D N F |
| C89 | proved | `C89_distance_neutral` | `Ctor_props.v` | D N F |
| C89 | proved | `C89_distance` | `Ctor_props.v` | D N F |
| C89 | proved | `C89_downcast` | `Ctor_props.v` | D N F |
| C89 | proved | `C89_difference` | `Ctor_props.v` | D N F |
| C89 | proved | `C89_linear_difference` | `Ctor_props.v` | D N F |
| C89 | proved | `C89_linear_difference_size` | `Ctor_props.v` | D N F |
| C89 | proved | `C89_target_size_refuted` | `Ctor_props.v` | D N F |
| C90 | proved | `C90_exact_hessian` | `Ctor_props.v` | D N F |
| C90 | proved | `C90_default_refuted` | `Ctor_props.v` | D N F |
| C91 | proved | `C91_memoryless` | `Objects_props.v` | D N F |
| C91 | proved | `C91_solver_order` | `Objects_props.v` | D N F |
| C91 | proved | `C91_cost` | `Objects_props.v` | D N F |
| C91 | proved | `C91_constraints` | `Objects_props.v` | D N F |
| C91 | proved | `C91_smooth` | `Objects_props.v` | D N F |
| C91 | proved | `C91_constructed` | `Objects_props.v` | D N F |
| C91 | proved | `C91_added` | `Objects_props.v` | D N F |
| C91 | proved | `C91_any_order_refuted` | `Objects_props.v` | D N F |
| C91 | proved | `C91_sharing_refuted` | `Objects_props.v` | D N F |
| C92 | proved | `C92_penalty` | `Objects_props.v` | D N F |
| C92 | proved | `C92_along` | `Objects_props.v` | D N F |
| C93 | proved | `C93_example_program` | `Client_props.v` | D N F |
| C93 | proved | `C93_sloped` | `Client_props.v` | D N F |
| C93 | proved | `C93_requests` | `Client_props.v` | D N F |
| C93 | proved | `C93_converges` | `Client_props.v` | D N C F |
| C94 | proved | `C94_dense` | `Fac_props.v` | D N F |
| C94 | proved | `C94_block` | `Fac_props.v` | D N C F |
| C94 | proved | `C94_dense_converges` | `Fac_props.v` | D N C F |
| C94 | proved | `C94_block_converges` | `Fac_props.v` | D N C F |
| C94 | proved | `C94_tiny_refuted` | `Fac_props.v` | D N F |
| C95 | proved | `C95_near` | `QpN_props.v` | D N C F |
| C95 | proved | `C95_minimiser` | `QpN_props.v` | D F |
| C95 | proved | `C95_iterations` | `QpN_props.v` | D N C F |
| C96 | proved | `C96_dense_sound` | `FacZ_props.v` | D N F |
| C96 | proved | `C96_dense_faithful` | `FacZ_props.v` | D N F |
| C96 | proved | `C96_merit_decrease` | `FacZ_props.v` | D N F |
| C96 | proved | `C96_complete_refuted` | `FacZ_props.v` | D N F |
| C97 | proved | `C97_object` | `PsLdlt_props.v` | D N F |
| C97 | proved | `C97_proxsuite_pivoted` | `PsLdlt_props.v` | D N F |
| C97 | proved | `C97_handles` | `PsLdlt_props.v` | D N F |
| C97 | proved | `C97_converges` | `PsLdlt_props.v` | D N C F |
| C97 | proved | `C97_sign_refuted` | `PsLdlt_props.v` | D N F |
| C98 | proved | `C98_one_step` | `QpR_props.v` | D N F |
| C98 | proved | `C98_descends` | `QpR_props.v` | D N F |
| C98 | proved | `C98_object` | `QpR_props.v` | D N F |
| C99 | proved | `C99_converges` | `QpR_props.v` | D N C F |
| C99 | proved | `C99_default` | `QpR_props.v` | D N C F |
| C99 | proved | `C99_dense_converges` | `QpR_props.v` | D N C F |
| C100 | proved | `C100_settings_lost` | `Settings_props.v` | none |
| C100 | proved | `C100_target_refuted` | `Settings_props.v` | none |
| C101 | proved | `C101_one_step` | `Act_props.v` | D N F |
| C101 | proved | `C101_local` | `Act_props.v` | D N F |
| C101 | proved | `C101_dense` | `Act_props.v` | D N F |
| C102 | proved | `C102_run_unchanged` | `Log_props.v` | none |
| C102 | proved | `C102_text` | `Log_props.v` | none |
| C102 | proved | `C102_stale` | `Log_props.v` | none |
| C102 | proved | `C102_silenced` | `Log_props.v` | none |
| C102 | proved | `C102_level_refuted` | `Log_props.v` | none |
| C102 | proved | `C102_quiet_refuted` | `Log_props.v` | none |
| C103 | proved | `C103_norm` | `Math_props.v` | D N F |
| C103 | proved | `C103_never_nan` | `Math_props.v` | D N F |
| C103 | proved | `C103_nan_refuted` | `Math_props.v` | D N F |
| C103 | proved | `C103_check_scalar` | `Math_props.v` | D N F |
| C103 | proved | `C103_close` | `Math_props.v` | D N F |
| C103 | proved | `C103_close_transitive_refuted` | `Math_props.v` | D N F |
| C103 | proved | `C103_close_inf_refuted` | `Math_props.v` | D N F |
| C103 | proved | `C103_sign` | `Math_props.v` | D N F |
| C104 | proved | `C104_inner_loop` | `Glob_props.v` | D N F |
| C104 | proved | `C104_dense` | `Glob_props.v` | D N F |
| C104 | proved | `C104_block` | `Glob_props.v` | D N C F |
| C104 | proved | `C104_constants` | `Glob_props.v` | D F |
| C105 | proved | `C105_gap` | `Cert_props.v` | D N F |
| C105 | proved | `C105_optimal_refuted` | `Cert_props.v` | D N C F |
| C105 | proved | `C105_l1_refuted` | `Cert_props.v` | D N C F |
| C106 | proved | `C106_solve` | `Pdc_props.v` | D N C F |
| C106 | proved | `C106_multipliers` | `Pdc_props.v` | D N F |
| C107 | proved | `C107_criterion` | `Dbl_props.v` | D N F |
| C107 | proved | `C107_refuted` | `Dbl_props.v` | D N C F |
| C108 | proved | `C108_floor` | `Stall_props.v` | D N F |
| C108 | proved | `C108_progress_refuted` | `Stall_props.v` | D N C F |
| C108 | proved | `C108_cold_refuted` | `Stall_props.v` | D N C F |
| C108 | proved | `C108_binary64_refuted` | `Stall64_props.v` | none |
| C109 | proved | `C109_disk` | `Disk_props.v` | D N F |
| C109 | proved | `C109_requests` | `Disk_props.v` | D N F |
| C109 | proved | `C109_solution` | `Disk_props.v` | D N F |
| C109 | proved | `C109_projection` | `Disk_props.v` | D F |
| C109 | proved | `C109_success` | `Disk_props.v` | D N F |

## 7. Record of the wrong programs tried

`seeded/LOG.jsonl` was written by a script that added a line only when every expected theorem failed. Edits that survived were left out, so the log
overstated how often wrong programs were caught. Twelve survivals found in the saved outputs have been added at the end of the file. Some follow an
edit that was caught later, after a theorem was added or tightened. Others were never caught: `sig_loop`, `tiny`, `allocate_bldlt` and the edit of
`first_loop` (logged as "main loop"). The last one changes the search for a value without an exception, which is not used by the theorem it was aimed
at; it was not run against the theorems of C01 and C02. One further survival (`dsolve`, pivots below the threshold, outside the hypotheses of C50)
could not be matched to its edit. Outputs of older runs were not all kept, so other survivals may be missing. Each run built only the
files chosen for it, so `theorems_failed` is not the full list of theorems an edit breaks.
