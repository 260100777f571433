{
 "claims": [
  {
   "property": "C01",
   "status": "proved",
   "theorems": [
    "C01_step_in_range",
    "C01_terminates_binary64",
    "C01_negative_alpha_min_refuted"
   ],
   "note": "Over extended reals with NaN and infinities (range and termination) and in binary64 (termination). FINDING: with a negative alpha_min and a merit that always throws the first loop never ends."
  },
  {
   "property": "C02",
   "status": "proved",
   "theorems": [
    "C02_evaluation_count"
   ],
   "note": "Evaluation count is the length of the recorded trace of trial steps."
  },
  {
   "property": "C03",
   "status": "proved",
   "theorems": [
    "C03_sufficient_decrease"
   ],
   "note": "Merit values may also be NaN or infinite."
  },
  {
   "property": "C04",
   "status": "proved",
   "theorems": [
    "C04_value_at_last_trial",
    "C04_value_at_returned_step",
    "C04_nan_merit_refuted",
    "C04_all_throw_refuted",
    "C04_stale_value_refuted"
   ],
   "note": "REFUTED without conditions: a NaN merit at the full step, a merit that always throws, and a merit that throws inside the loop each give a pair (step, value) that does not belong together. Proved when no evaluation throws (last trial step) and for finite values with bisection or quadratic interpolation (returned step)."
  },
  {
   "property": "C05",
   "status": "proved",
   "theorems": [
    "C05_bracket_any_scalar",
    "C05_bracket",
    "C05_quadratic_defined",
    "C05_cubic_nan_iff"
   ],
   "note": "Bracket for any 2x2 solver; exact NaN condition for the cubic scheme."
  },
  {
   "property": "C06",
   "status": "proved",
   "theorems": [
    "C06_quadratic_fits"
   ],
   "note": "Over the reals."
  },
  {
   "property": "C07",
   "status": "proved",
   "theorems": [
    "C07_cubic_refuted",
    "C07_cubic_fits_iff",
    "C07_cubic_corrected_order"
   ],
   "note": "REFUTED: right-hand side entries are swapped, the cubic misses both samples unless v0 - d0 a0 = v1 - d0 a1. The corrected order fits."
  },
  {
   "property": "C08",
   "status": "proved",
   "theorems": [
    "C08_evaluate",
    "C08_derivative"
   ],
   "note": "Over the reals, for every degree."
  },
  {
   "property": "C09",
   "status": "proved",
   "theorems": [
    "C09_projection_nearest",
    "C09_projection_in_set",
    "C09_unordered_box_refuted"
   ],
   "note": "Over the reals, for every nesting of box/orthant/equality/product. FINDING: a box with lower > upper is accepted by the constructor and its projection is not in the set (C09_unordered_box_refuted)."
  },
  {
   "property": "C10",
   "status": "proved",
   "theorems": [
    "C10_projection_idempotent",
    "C10_projection_fixes_set",
    "C10_projection_nonexpansive",
    "C10_projection_inplace"
   ],
   "note": "Idempotence for sets (no l1 block); nonexpansiveness also with l1 blocks; the aliased in-place call gives the same result."
  },
  {
   "property": "C11",
   "status": "proved",
   "theorems": [
    "C11_moreau_decomposition"
   ],
   "note": "Normal cone membership is the variational inequality; with l1 blocks it is the mu-scaled subgradient inequality."
  },
  {
   "property": "C12",
   "status": "proved",
   "theorems": [
    "C12_prox_minimiser",
    "C12_envelope_value"
   ],
   "note": "Strong-convexity inequality, hence minimality and uniqueness; envelope value equals the minimum. Proved for all sets and nested products whose l1 blocks carry mu."
  },
  {
   "property": "C13",
   "status": "proved",
   "theorems": [
    "C13_projection_jacobian"
   ],
   "note": "derivable_pt_lim for every row and column, off the kinks."
  },
  {
   "property": "C14",
   "status": "proved",
   "theorems": [
    "C14_product_penalty_refuted",
    "C14_product_penalty_hard_sets",
    "C14_product_blocks"
   ],
   "note": "REFUTED as stated: setProxParameter on a product is not forwarded, an l1 component inside a product keeps its own parameter. Proved for components that ignore mu (all but l1)."
  },
  {
   "property": "C15",
   "status": "proved",
   "theorems": [
    "C15_segments_tile",
    "C15_segments_consecutive",
    "C15_total",
    "C15_views_tile"
   ],
   "note": "For every history of addConstraint calls; C++ int modelled without overflow."
  },
  {
   "property": "C16",
   "status": "proved",
   "theorems": [
    "C16_pack_roundtrip",
    "C16_count_mismatch_throws",
    "C16_returns_only_matching"
   ],
   "note": "A multiplier of the wrong size is undefined behaviour in release builds (outcome UB), not an exception."
  },
  {
   "property": "C17",
   "status": "proved",
   "theorems": [
    "C17_terminates",
    "C17_budgets",
    "C17_negative_delta_refuted"
   ],
   "note": "Extended reals with NaN and infinities, every problem, user function and linear solver. FINDING: a negative DELTA_INIT makes the inertia loop endless."
  },
  {
   "property": "C18",
   "status": "proved",
   "theorems": [
    "C18_success_is_kkt"
   ],
   "note": "Over the reals, default (NEWTON) multiplier mode; residuals defined by an independent specification."
  },
  {
   "property": "C19",
   "status": "proved",
   "theorems": [
    "C19_flag_meaning",
    "C19_zero_budget"
   ],
   "note": "In every arithmetic. FINDING: exhausting max_al_iters, or a zero budget, ends with UNINIT."
  },
  {
   "property": "C20",
   "status": "proved",
   "theorems": [
    "C20_start_accepted",
    "C20_equality_refuted"
   ],
   "note": "REFUTED at equality with target_tol: the inner test is <=, the outer test <, so the solver spins to max_al_iters and returns UNINIT. Proved for residuals strictly below the tolerance."
  },
  {
   "property": "C21",
   "status": "proved",
   "theorems": [
    "C21_reported_infeasibilities",
    "C21_max_iters_refuted",
    "C21_primal_mode_refuted"
   ],
   "note": "REFUTED for MAX_ITERS_REACHED (infeasibilities of the previous iterate) and for the PRIMAL multiplier mode (multipliers changed after the residual). Proved for SUCCESS in NEWTON mode."
  },
  {
   "property": "C22",
   "status": "proved",
   "theorems": [
    "C22_same_result",
    "C22_history_refuted"
   ],
   "note": "REFUTED: when the initial multipliers are omitted (or have the wrong size) the multipliers of the previous call are kept, so equal calls give different results. Proved for calls with multipliers of the full size after any history of calls that returned, for a solver whose KKT matrix is finite, without proximal term (or with equal targets) and without quasi-Newton Hessian."
  },
  {
   "property": "C23",
   "status": "proved",
   "theorems": [
    "C23_penalty_safeguard"
   ],
   "note": "Over the reals."
  },
  {
   "property": "C24",
   "status": "proved",
   "theorems": [
    "C24_penalty_schedule"
   ],
   "note": "Closed form over any number of failed outer iterations. FINDING: after the floor the parameter is reset to mu_init."
  },
  {
   "property": "C25",
   "status": "proved",
   "theorems": [
    "C25_tolerance_floors",
    "C25_success_tightens"
   ],
   "note": "pow is an oracle bounded by 1 on (0,1]; shown for the real power."
  },
  {
   "property": "C26",
   "status": "proved",
   "theorems": [
    "C26_callbacks"
   ],
   "note": "In every arithmetic. FINDING: a callback sees the new iterate together with the infeasibilities of the previous one."
  },
  {
   "property": "C27",
   "status": "proved",
   "theorems": [
    "C27_inertia_check"
   ],
   "note": "Every signature, including entries outside {-1,0,1} (assertion failure)."
  },
  {
   "property": "C28",
   "status": "proved",
   "theorems": [
    "C28_matrix_restored",
    "C28_binary64_refuted"
   ],
   "note": "Exact over the reals; REFUTED in binary64 (adding and subtracting delta does not restore the diagonal)."
  },
  {
   "property": "C29",
   "status": "proved",
   "theorems": [
    "C29_kkt_symmetric",
    "C29_dual_diagonal"
   ],
   "note": "Over the reals."
  },
  {
   "property": "C30",
   "status": "proved",
   "theorems": [
    "C30_merit_value"
   ],
   "note": "Over the reals."
  },
  {
   "property": "C31",
   "status": "proved",
   "theorems": [
    "C31_merit_derivative",
    "C31_dual_weight_refuted"
   ],
   "note": "Proved for beta = 1/2 and every constraint set; REFUTED for setDualPenalty(1)."
  },
  {
   "property": "C32",
   "status": "proved",
   "theorems": [
    "C32_sum_value",
    "C32_expressions",
    "C32_add_component",
    "C32_scale_in_place",
    "C32_sum_gradient",
    "C34_derivatives_after_call"
   ],
   "note": "Over the reals; objects live in a heap and may be shared. The Hessian of a sum in Gauss-Newton mode is the weighted sum of the forms (C34_derivatives_after_call on XSum). Gradient after an evaluation at the same point (see C34)."
  },
  {
   "property": "C33",
   "status": "proved",
   "theorems": [
    "C33_self_addition_undefined",
    "C33_doubling_refuted",
    "C33_pointer_to_itself",
    "C33_add_other_sum"
   ],
   "note": "REFUTED: for every non-empty sum c += c inserts a range of the vector that grows (undefined behaviour); adding the pointer to itself makes evaluation endless. Proved for another sum."
  },
  {
   "property": "C34",
   "status": "proved",
   "theorems": [
    "C34_derivatives_after_call",
    "C34_constructed",
    "C34_any_history_refuted",
    "C34_any_weights_refuted",
    "C34_sharing_refuted"
   ],
   "note": "REFUTED for stale evaluations, for weights that are not symmetric, and for a cost object shared between two points. Proved after a call at x followed by any derivative requests at x, on every space and expression."
  },
  {
   "property": "C35",
   "status": "proved",
   "theorems": [
    "C35_construction",
    "C35_value",
    "C35_chain_rule",
    "C35_dimension_check_refuted",
    "C35_hessian_refuted"
   ],
   "note": "Chain rule and value proved. REFUTED: the dimension check compares with nx instead of ndx (Jacobian product undefined), and the vector-Hessian product of a composition is always zero."
  },
  {
   "property": "C36",
   "status": "proved",
   "theorems": [
    "C36_jacobian_error",
    "C36_exact_on_quadratics",
    "C36_hessian_error",
    "C36_quadratic_cost_refuted"
   ],
   "note": "Error bound M h^2/6 over the reals, any space. REFUTED for the Hessian of quadratic residual costs (stale residual)."
  },
  {
   "property": "C37",
   "status": "proved",
   "theorems": [
    "C37_difference_of_integrate",
    "C37_integrate_of_difference",
    "C37_flat"
   ],
   "note": "Every nesting; external Lie groups enter as leaves satisfying the law (shown for SO(2))."
  },
  {
   "property": "C38",
   "status": "proved",
   "theorems": [
    "C38_Jintegrate",
    "C38_Jdifference",
    "C38_flat"
   ],
   "note": "Derivative along curves, every nesting over leaves whose Jacobians are derivatives (shown for SO(2)); plus or minus identity on flat spaces."
  },
  {
   "property": "C39",
   "status": "proved",
   "theorems": [
    "C39_split_merge",
    "C39_split_merge_vector"
   ],
   "note": "In every arithmetic, points and tangent vectors; wrong size throws."
  },
  {
   "property": "C40",
   "status": "proved",
   "theorems": [
    "C40_end_points",
    "C40_affine",
    "C40_bundle_refuted",
    "C40_bundle_velocity_lost"
   ],
   "note": "REFUTED for TangentBundle: the velocity part is interpolated from the first coordinates of the points. Proved for every space that is not itself a bundle."
  },
  {
   "property": "C41",
   "status": "proved",
   "theorems": [
    "C41_accepts_everything",
    "C41_detects_bad_component_refuted",
    "C41_bundle"
   ],
   "note": "REFUTED: the accumulator starts at true and is combined with |=, so the result is always true."
  },
  {
   "property": "C42",
   "status": "proved",
   "theorems": [
    "C42_written_order",
    "C42_swapped_refuted",
    "C42_swapped"
   ],
   "note": "REFUTED for polymorphic * CartesianProduct (factors swapped). Proved for the other three operators."
  },
  {
   "property": "C43",
   "status": "proved",
   "theorems": [
    "C43_formula",
    "C43_secant",
    "C43_stays_positive_definite",
    "C43_invalid_throws"
   ],
   "note": "Over the reals. The Hessian variant (the one the solver uses) is the DFP formula, see C70."
  },
  {
   "property": "C44",
   "status": "proved",
   "theorems": [
    "C44_transpose",
    "C44_sum",
    "C44_product",
    "C44_smallest"
   ],
   "note": ""
  },
  {
   "property": "C45",
   "status": "proved",
   "theorems": [
    "C45_in_bounds",
    "C45_covers",
    "C45_smallest_refuted"
   ],
   "note": "The recorded structure contains the factor, but is not minimal below a dense pivot."
  },
  {
   "property": "C46",
   "status": "proved",
   "theorems": [
    "C46_compares_kinds",
    "C46_without_triangles",
    "C46_refuted"
   ],
   "note": "REFUTED: kinds are compared without transposing; right when no off-diagonal block is triangular."
  },
  {
   "property": "C47",
   "status": "proved",
   "theorems": [
    "C47_minimal_fill"
   ],
   "note": "Fill is measured by count_nnz, see C71. The number of iterations is bounded by n^n in the model (fuel)."
  },
  {
   "property": "C48",
   "status": "proved",
   "theorems": [
    "C48_first_call",
    "C48_refuted"
   ],
   "note": "REFUTED: a second call permutes the factor of the first."
  },
  {
   "property": "C49",
   "status": "proved",
   "theorems": [
    "C49_scalar_permutation",
    "C49_no_block_refuted"
   ],
   "note": "REFUTED without blocks: m_start_idx[0] is written out of range; proved with at least one block."
  },
  {
   "property": "C50",
   "status": "proved",
   "theorems": [
    "C50_dense_ldlt",
    "C50_tiny_pivots"
   ],
   "note": "Over the reals, every size including the recursion above 128; C50_tiny_pivots: what solve returns when pivots are below the threshold."
  },
  {
   "property": "C51",
   "status": "proved",
   "theorems": [
    "C51_always_success",
    "C51_refuted"
   ],
   "note": "REFUTED: compute reports Success for every input, in every arithmetic."
  },
  {
   "property": "C52",
   "status": "proved",
   "theorems": [
    "C52_first_compute",
    "C52_refuted"
   ],
   "note": "REFUTED for a second compute on the same object; proved for the first."
  },
  {
   "property": "C53",
   "status": "proved",
   "theorems": [
    "C53_solve"
   ],
   "note": "Over the reals, every size (unblocked and blocked)."
  },
  {
   "property": "C54",
   "status": "proved",
   "theorems": [
    "C54_signature",
    "C54_refuted"
   ],
   "note": "REFUTED: a well conditioned matrix gets a signature of zeros when the determinant of an inverted 2x2 pivot is below machine epsilon. Proved: without zeros in it the signature is the inertia."
  },
  {
   "property": "C55",
   "status": "proved",
   "theorems": [
    "C55_failure_detected",
    "C55_refuted"
   ],
   "note": "REFUTED above 32 rows: the 33x33 matrix of ones fails to factorise and its signature passes the inertia check. Proved up to 32 rows."
  },
  {
   "property": "C56",
   "status": "proved",
   "theorems": [
    "C56_structured_product",
    "C56_square",
    "C56_refuted"
   ],
   "note": "REFUTED for Diag x TriL and Diag x TriU: operands of different sizes for every square size above one. The sizes for which the other pairs are right are listed in the specification."
  },
  {
   "property": "C57",
   "status": "proved",
   "theorems": [
    "C57_reports_failure"
   ],
   "note": "Objects whose transposed structure is in step (what the constructor, the first setBlockPermutation and findSparsifyingPermutation produce)."
  },
  {
   "property": "C58",
   "status": "proved",
   "theorems": [
    "C58_released_once",
    "C58_assign_refuted",
    "C58_leak_refuted"
   ],
   "note": "REFUTED for the implicit copy assignment (double delete) and as to release: the permutation functions lose four arrays. Proved for every program without assignment."
  },
  {
   "property": "C59",
   "status": "proved",
   "theorems": [
    "C59_value_semantics",
    "C59_all_destroyed",
    "C59_independent",
    "C59_strong_guarantee",
    "C59_self_assignment",
    "C59_moved_from_valueless",
    "C59_allocator_refuted",
    "C59_initializer_list_refuted"
   ],
   "note": "REFUTED for unusual allocators (the allocator-extended move constructor tests the wrong trait) and for the initializer-list constructor (makes a T, not a U). Proved for allocators that are always equal or propagate alike."
  },
  {
   "property": "C60",
   "status": "proved",
   "theorems": [
    "C60_records",
    "C60_reads_in_bounds",
    "C60_history_of_solve",
    "C60_undefined_refuted",
    "C60_views_alias",
    "C60_views_refuted"
   ],
   "note": "REFUTED: the multiplier views alias the live results, and every call takes the address of element 0 of an empty vector. Proved for the copies."
  },
  {
   "property": "C61",
   "status": "proved",
   "theorems": [
    "C61_guard",
    "C61_finite_point"
   ],
   "note": "Extended reals."
  },
  {
   "property": "C62",
   "status": "proved",
   "theorems": [
    "C62_poisoned"
   ],
   "note": "In every arithmetic. FINDING: a NaN left in the KKT matrix by a solve that threw makes every later solve throw or never return normally."
  },
  {
   "property": "C63",
   "status": "proved",
   "theorems": [
    "C63_transport_product",
    "C63_transport_bundle",
    "C63_transport_flat"
   ],
   "note": "In every arithmetic."
  },
  {
   "property": "C64",
   "status": "proved",
   "theorems": [
    "C64_component_count_refuted",
    "C64_component_count"
   ],
   "note": "REFUTED under the C++ rules for list initialisation (CWG 2137); coordinates are unaffected."
  },
  {
   "property": "C65",
   "status": "proved",
   "theorems": [
    "C65_quadratic_minimiser",
    "C65_cubic_local_minimiser"
   ],
   "note": "Over the reals; the cubic itself is the one the code builds (see C07 for its coefficients)."
  },
  {
   "property": "C66",
   "status": "proved",
   "theorems": [
    "C66_symmetric_semidefinite"
   ],
   "note": "Every nesting of sums, every space."
  },
  {
   "property": "C67",
   "status": "proved",
   "theorems": [
    "C67_quadratic_model_exact"
   ],
   "note": "Over the reals, flat spaces."
  },
  {
   "property": "C68",
   "status": "proved",
   "theorems": [
    "C68_value",
    "C68_jacobian",
    "C68_usable"
   ],
   "note": "Unit quaternions for the Jacobian; the value for every quaternion."
  },
  {
   "property": "C69",
   "status": "proved",
   "theorems": [
    "C69_constructed",
    "C69_value",
    "C69_update_target",
    "C69_copy_is_independent_refuted"
   ],
   "note": "REFUTED for copies: they share the residual, so updateTarget on a copy moves the original. Proved for one object."
  },
  {
   "property": "C70",
   "status": "proved",
   "theorems": [
    "C70_inverse_formula"
   ],
   "note": "Over the reals."
  },
  {
   "property": "C71",
   "status": "proved",
   "theorems": [
    "C71_count",
    "C71_rectangular_refuted"
   ],
   "note": ""
  },
  {
   "property": "C72",
   "status": "proved",
   "theorems": [
    "C72_default_structure",
    "C72_allocation"
   ],
   "note": ""
  },
  {
   "property": "C73",
   "status": "proved",
   "theorems": [
    "C73_block_ldlt",
    "C73_refuted"
   ],
   "note": "REFUTED for structures with triangular blocks: the symbolic factorisation accepts some that the numeric one rejects or multiplies with operands of different sizes. Proved for structures of zero, dense and square diagonal blocks."
  },
  {
   "property": "C74",
   "status": "proved",
   "theorems": [
    "C74_kkt_block",
    "C74_kkt_dense"
   ],
   "note": "Over the reals; the solve needs pivots above the threshold 2^-1022."
  },
  {
   "property": "C75",
   "status": "proved",
   "theorems": [
    "C75_block_sign",
    "C75_refuted"
   ],
   "note": "REFUTED for blocks of one row; proved for blocks of at least two rows."
  },
  {
   "property": "C76",
   "status": "proved",
   "theorems": [
    "C76_success_iff_nonsingular"
   ],
   "note": "Over the reals."
  },
  {
   "property": "C77",
   "status": "proved",
   "theorems": [
    "C77_ldlt",
    "C77_bunch_kaufman"
   ],
   "note": "Over the reals."
  },
  {
   "property": "C78",
   "status": "proved",
   "theorems": [
    "C78_inertia_correction"
   ],
   "note": "Over the reals, at most 32 rows (C55 shows why)."
  },
  {
   "property": "C79",
   "status": "proved",
   "theorems": [
    "C79_descent"
   ],
   "note": "Over the reals."
  },
  {
   "property": "C80",
   "status": "proved",
   "theorems": [
    "C80_pivot_growth"
   ],
   "note": "Over the reals."
  },
  {
   "property": "C81",
   "status": "proved",
   "theorems": [
    "C81_descent",
    "C81_refuted"
   ],
   "note": "REFUTED with the default KKT system when the two shifted values of an inequality lie on different sides. Proved when they agree, and for the primal-dual system. Over the reals; pdal_beta = 1/2."
  },
  {
   "property": "C82",
   "status": "proved",
   "theorems": [
    "C82_refined_step",
    "C82_refuted"
   ],
   "note": "REFUTED as to the solution of the regularised system. Proved: descent after any number of passes; exact when delta = 0. Over the reals."
  },
  {
   "property": "C83",
   "status": "proved",
   "theorems": [
    "C83_merit_decrease",
    "C83_bunch_kaufman"
   ],
   "note": "Over the reals; hypotheses on the factorisation met by Bunch-Kaufman up to 32 rows."
  },
  {
   "property": "C84",
   "status": "proved",
   "theorems": [
    "C84_smooth_merit"
   ],
   "note": "Over the reals extended by infinities and NaN."
  },
  {
   "property": "C85",
   "status": "proved",
   "theorems": [
    "C85_one_step"
   ],
   "note": "Over the reals; vector space, no proximal term, exact factorisation (C87 for Bunch-Kaufman, C94 for dense and block-sparse)."
  },
  {
   "property": "C86",
   "status": "proved",
   "theorems": [
    "C86_converges",
    "C86_default_params",
    "C86_boundary",
    "C86_refuted"
   ],
   "note": "REFUTED as to SUCCESS when a residual equals the tolerance exactly. Proved otherwise, residuals in every case, for every problem that answers like a quadratic one. Over the reals; vector space, no proximal term, exact factorisation (C87, C94)."
  },
  {
   "property": "C87",
   "status": "proved",
   "theorems": [
    "C87_bunch_kaufman"
   ],
   "note": "Over the reals, at most 32 rows."
  },
  {
   "property": "C88",
   "status": "proved",
   "theorems": [
    "C88_neutral",
    "C88_flat",
    "C88_product",
    "C88_bundle",
    "C88_add_self_refuted"
   ],
   "note": "REFUTED for appending a product to itself. The rest is proved."
  },
  {
   "property": "C89",
   "status": "proved",
   "theorems": [
    "C89_distance_neutral",
    "C89_distance",
    "C89_downcast",
    "C89_difference",
    "C89_linear_difference",
    "C89_linear_difference_size",
    "C89_target_size_refuted"
   ],
   "note": "REFUTED: ManifoldDifferenceToPoint accepts a target of the wrong size on a vector space. The rest is proved."
  },
  {
   "property": "C90",
   "status": "proved",
   "theorems": [
    "C90_exact_hessian",
    "C90_default_refuted"
   ],
   "note": "REFUTED for the default (Gauss-Newton) mode; proved for gauss_newton_ = false."
  },
  {
   "property": "C91",
   "status": "proved",
   "theorems": [
    "C91_memoryless",
    "C91_solver_order",
    "C91_cost",
    "C91_constraints",
    "C91_smooth",
    "C91_constructed",
    "C91_added",
    "C91_any_order_refuted",
    "C91_sharing_refuted"
   ],
   "note": "REFUTED for arbitrary order of requests and for a quadratic cost reached with two arguments. Proved for the order of the solver without such sharing. Over the reals; Hessians by Gauss-Newton, or of user functions that do not read their output argument."
  },
  {
   "property": "C92",
   "status": "proved",
   "theorems": [
    "C92_penalty",
    "C92_along"
   ],
   "note": "Over the reals; points near the target."
  },
  {
   "property": "C93",
   "status": "proved",
   "theorems": [
    "C93_example_program",
    "C93_sloped",
    "C93_requests",
    "C93_converges"
   ],
   "note": "Over the reals. Convergence under the hypotheses of C86 (no proximal term, exact factorisation, met by C87 and C94); the proximal parameter that the program sets has no effect (C100)."
  },
  {
   "property": "C94",
   "status": "proved",
   "theorems": [
    "C94_dense",
    "C94_block",
    "C94_dense_converges",
    "C94_block_converges",
    "C94_tiny_refuted"
   ],
   "note": "REFUTED for pivots of at most 2^-1022. Proved for a convexity constant and a least penalty parameter above it. Over the reals."
  },
  {
   "property": "C95",
   "status": "proved",
   "theorems": [
    "C95_near",
    "C95_minimiser",
    "C95_iterations"
   ],
   "note": "Over the reals; hypotheses of C86 (factorisation by C87 or C94)."
  },
  {
   "property": "C96",
   "status": "proved",
   "theorems": [
    "C96_dense_sound",
    "C96_dense_faithful",
    "C96_merit_decrease",
    "C96_complete_refuted"
   ],
   "note": "REFUTED as to completeness: a convex matrix with a zero pivot is rejected. Soundness is proved for every matrix of the regularised form. Over the reals."
  },
  {
   "property": "C97",
   "status": "proved",
   "theorems": [
    "C97_object",
    "C97_proxsuite_pivoted",
    "C97_handles",
    "C97_converges",
    "C97_sign_refuted"
   ],
   "note": "REFUTED for sign() of the wrapper. The rest is proved under the contract ps_factored of the external factorisation, which is code of another library. Over the reals."
  },
  {
   "property": "C98",
   "status": "proved",
   "theorems": [
    "C98_one_step",
    "C98_descends",
    "C98_object"
   ],
   "note": "Over the reals; vector space, exact factorisation (met by the dense one, C94)."
  },
  {
   "property": "C99",
   "status": "proved",
   "theorems": [
    "C99_converges",
    "C99_default",
    "C99_dense_converges"
   ],
   "note": "Over the reals; vector space; the solver reports SUCCESS unless a residual equals the tolerance exactly (C86)."
  },
  {
   "property": "C100",
   "status": "proved",
   "theorems": [
    "C100_settings_lost",
    "C100_target_refuted"
   ],
   "note": "REFUTED as to the centre of the proximal term. The statement on settings is proved for every scalar type."
  },
  {
   "property": "C101",
   "status": "proved",
   "theorems": [
    "C101_one_step",
    "C101_local",
    "C101_dense"
   ],
   "note": "Over the reals; vector space, KKT_CLASSIC, no proximal term, no l1 penalty."
  },
  {
   "property": "C102",
   "status": "proved",
   "theorems": [
    "C102_run_unchanged",
    "C102_text",
    "C102_stale",
    "C102_silenced",
    "C102_level_refuted",
    "C102_quiet_refuted"
   ],
   "note": "REFUTED as to the level QUIET and as to the level deciding on the table. The rest holds in every arithmetic; the layout of numbers in columns is left out."
  },
  {
   "property": "C103",
   "status": "proved",
   "theorems": [
    "C103_norm",
    "C103_never_nan",
    "C103_nan_refuted",
    "C103_check_scalar",
    "C103_close",
    "C103_close_transitive_refuted",
    "C103_close_inf_refuted",
    "C103_sign"
   ],
   "note": "REFUTED for NaN in lists of vectors and for transitivity of scalar_close and its value at infinity."
  },
  {
   "property": "C104",
   "status": "proved",
   "theorems": [
    "C104_inner_loop",
    "C104_dense",
    "C104_block",
    "C104_constants"
   ],
   "note": "Over the reals; vector space, KKT_PRIMAL_DUAL, no proximal term; the inner tolerance must not be below sqrt(gam dphi_thresh)."
  },
  {
   "property": "C105",
   "status": "proved",
   "theorems": [
    "C105_gap",
    "C105_optimal_refuted",
    "C105_l1_refuted"
   ],
   "note": "REFUTED: SUCCESS means nearly optimal (small mu_init, multipliers given). The bound is proved over the reals, default multiplier update, vector space."
  },
  {
   "property": "C106",
   "status": "proved",
   "theorems": [
    "C106_solve",
    "C106_multipliers"
   ],
   "note": "Over the reals; vector space, KKT_PRIMAL_DUAL, MM_NEWTON, no proximal term, no l1 penalty; existence of an optimal pair is a hypothesis. The case of a residual exactly equal to the target tolerance is stated as the second alternative."
  },
  {
   "property": "C107",
   "status": "proved",
   "theorems": [
    "C107_criterion",
    "C107_refuted"
   ],
   "note": "REFUTED: with KKT_PRIMAL_DUAL the l1 penalty counts twice. The criterion is characterised over the reals for both systems; vector space, no proximal term."
  },
  {
   "property": "C108",
   "status": "proved",
   "theorems": [
    "C108_floor",
    "C108_progress_refuted",
    "C108_cold_refuted",
    "C108_binary64_refuted"
   ],
   "note": "REFUTED for KKT_CLASSIC, the default system: over the reals with bisection or quadratic interpolation (with the cubic one the exact cubic coefficient is zero on the run, a division 0/0), and in binary64 with all default parameters, cubic interpolation included (its 2x2 system solved by Cramer's rule instead of the QR of Eigen)."
  },
  {
   "property": "C109",
   "status": "proved",
   "theorems": [
    "C109_disk",
    "C109_requests",
    "C109_solution",
    "C109_projection",
    "C109_success"
   ],
   "note": "Over the reals. C109_success is about any problem with the answers of the disk problem and the negative orthant, and the default multiplier update; it assumes nothing on the linear solver, and that the returned vectors have the sizes of the problem. It says nothing on whether SUCCESS is reached."
  }
 ]
}