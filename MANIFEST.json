{
 "claims": [
  {
   "property": "C01",
   "status": "proved",
   "theorems": [
    "C01_moveLeftIf",
    "C01_moveRightIf",
    "C01_stableMoveLeftIf",
    "C01_stableMoveRightIf",
    "libstdcxx_partition_meets_contract"
   ],
   "note": "For every std::partition meeting the C++ contract; the contract is shown to hold for the libstdc++ algorithm."
  },
  {
   "property": "C02",
   "status": "partial",
   "theorems": [
    "C02_moveIntersectionLeft_partial",
    "C02_moveIntersectionLeftStable_partial",
    "C02_moveIntersectionLeft_refuted"
   ],
   "note": "Proved for every non-empty p. Refuted for empty p: the code returns base.size()."
  },
  {
   "property": "C03",
   "status": "proved",
   "theorems": [
    "C03_moveIntersectionRight",
    "C03_moveIntersectionRightStable"
   ],
   "note": ""
  },
  {
   "property": "C04",
   "status": "partial",
   "theorems": [
    "C04_leftStable_keeps_order_of_base",
    "C04_rightStable_keeps_order_of_base",
    "C04_order_of_p_refuted"
   ],
   "note": "The documented order (that of p) is refuted; proved instead that the order of base is kept."
  },
  {
   "property": "C05",
   "status": "proved",
   "theorems": [
    "C05_difference",
    "C05_intersect",
    "C05_difference_intersect_complementary",
    "C05_isIntersectionEmpty"
   ],
   "note": ""
  },
  {
   "property": "C06",
   "status": "partial",
   "theorems": [
    "C06_always_a_partition",
    "C06_setStable_partial",
    "C06_setUnstable",
    "C06_setStable_refuted"
   ],
   "note": "Partition claim and setUnstable for every history; setStable for every non-empty set. setStable({}) is refuted: everything becomes stable."
  },
  {
   "property": "C07",
   "status": "partial",
   "theorems": [
    "C07_stability_update_partial",
    "C07_stability_values",
    "C07_empty_basis_all_stable",
    "C07_stability_update_refuted"
   ],
   "note": "Proved for every non-empty basic set; with an empty one every variable is declared stable (refuted)."
  },
  {
   "property": "C08",
   "status": "proved",
   "theorems": [
    "C08_conservative_step_within_bounds"
   ],
   "note": "IEEE binary64 with rounding: every entry is within its bounds or NaN."
  },
  {
   "property": "C09",
   "status": "proved",
   "theorems": [
    "C09_conservative_step_exact"
   ],
   "note": "Exact arithmetic."
  },
  {
   "property": "C10",
   "status": "proved",
   "theorems": [
    "C10_aggressive_step_within_bounds",
    "C10_aggressive_step_is_projection"
   ],
   "note": "Bounds in binary64 (unless NaN); projection in exact arithmetic."
  },
  {
   "property": "C11",
   "status": "partial",
   "theorems": [
    "C11_largestStep_bounded",
    "C11_stepUpToBounds",
    "C11_largestStep_zero_bound",
    "C11_largestStep_zero_entry_refuted"
   ],
   "note": "Bounded versions in full; the two-argument version for strictly positive p. Refuted for an entry at zero that decreases (it is ignored)."
  },
  {
   "property": "C12",
   "status": "proved",
   "theorems": [
    "C12_fractionToTheBoundary",
    "C12_fractionToTheBoundary_constraints",
    "C12_fractionToTheLowerBoundary"
   ],
   "note": ""
  },
  {
   "property": "C13",
   "status": "proved",
   "theorems": [
    "C13_brent_inside_and_no_worse"
   ],
   "note": ""
  },
  {
   "property": "C14",
   "status": "partial",
   "theorems": [
    "C14_brent_terminates",
    "C14_brent_budget_partial",
    "C14_brent_budget_refuted"
   ],
   "note": "Termination for every input; the evaluation budget for maxiters >= 1. For maxiters = 0 the unsigned counter wraps (refuted)."
  },
  {
   "property": "C15",
   "status": "partial",
   "theorems": [
    "C15_golden_inside",
    "C15_golden_terminates_partial",
    "C15_golden_terminates_refuted"
   ],
   "note": "Inside the interval always; terminates for tol >= 2e-12 (exact arithmetic). Refuted in binary64 for tol = 1e-14 (endless loop)."
  },
  {
   "property": "C16",
   "status": "proved",
   "theorems": [
    "C16_rational_recovers",
    "C16_farey_terminates",
    "C16_no_overflow"
   ],
   "note": "Recovery in exact arithmetic; termination and absence of integer overflow in every arithmetic."
  },
  {
   "property": "C17",
   "status": "partial",
   "theorems": [
    "C17_rational_denominator_partial",
    "C17_rational_denominator_small",
    "C17_rational_denominator_refuted",
    "C17_rationalize_entrywise"
   ],
   "note": "Proved for |x| < maxden+1. Refuted for every larger |x|: the denominator is zero and rationalize writes infinities."
  },
  {
   "property": "C18",
   "status": "partial",
   "theorems": [
    "C18_rational_close_partial",
    "C18_rational_close_large_partial",
    "C18_rational_closest_refuted"
   ],
   "note": "Error bound and closest on its side; closest overall is refuted."
  },
  {
   "property": "C19",
   "status": "proved",
   "theorems": [
    "C19_clean_matrix",
    "C19_clean_matrix_keeps_largest",
    "C19_clean_matrix_idempotent",
    "C19_clean_vector",
    "C19_clean_matrix_unchanged_or_zero"
   ],
   "note": ""
  },
  {
   "property": "C20",
   "status": "proved",
   "theorems": [
    "C20_multiply"
   ],
   "note": ""
  },
  {
   "property": "C21",
   "status": "proved",
   "theorems": [
    "C21_inverseShermanMorrison",
    "C21_inverseShermanMorrison_posdef"
   ],
   "note": ""
  },
  {
   "property": "C22",
   "status": "proved",
   "theorems": [
    "C22_bfgs_secant",
    "C22_bfgs_symmetric",
    "C22_bfgs_update_posdef",
    "C22_bfgs_posdef"
   ],
   "note": ""
  },
  {
   "property": "C23",
   "status": "partial",
   "theorems": [
    "C23_assign_square",
    "C23_assign_diagonal",
    "C23_assign_zero_refuted"
   ],
   "note": "Square and one-column operands proved; the empty operand is refuted (target left unchanged)."
  },
  {
   "property": "C24",
   "status": "partial",
   "theorems": [
    "C24_fixed_assign",
    "C24_fixed_copy_refuted",
    "C24_ensureMinimumDimension"
   ],
   "note": "Assignment of expressions and assignOrError proved; assignment of a FixedMatrix to a FixedMatrix silently resizes (refuted)."
  },
  {
   "property": "C25",
   "status": "partial",
   "theorems": [
    "C25_compute_partial",
    "C25_compute_full_row_rank",
    "C25_all_rows_iff",
    "C25_zero_rows_refuted"
   ],
   "note": "R invertible, Q a permutation and the first rank(A) rows of R*A*Q are [I S], for every LU factorization; all rows for full row rank. The zero rows are refuted for rank-deficient A."
  },
  {
   "property": "C26",
   "status": "proved",
   "theorems": [
    "C26_swap"
   ],
   "note": "The rows of R*A*Q below the basic ones are covered by C25."
  },
  {
   "property": "C27",
   "status": "partial",
   "theorems": [
    "C27_history_partial",
    "C27_history_full_row_rank",
    "C27_all_rows_iff",
    "C27_zero_rows_refuted"
   ],
   "note": "In full for matrices of full row rank; otherwise the rows beyond the basic ones are zero exactly when the block Lnb of the factorization is (C27_all_rows_iff), so that they are never zero for [4 2; 2 1], whatever the calls (refuted)."
  },
  {
   "property": "C28",
   "status": "partial",
   "theorems": [
    "C28_sorted",
    "C28_exchange_optimal_partial",
    "C28_maximum_weight_basis_partial",
    "C28_threshold_refuted"
   ],
   "note": "Sorted always; exchange-optimal and of maximum total weight when no nonzero pivot is below the threshold; refuted otherwise, for every positive threshold."
  },
  {
   "property": "C29",
   "status": "proved",
   "theorems": [
    "C29_reset"
   ],
   "note": ""
  },
  {
   "property": "C30",
   "status": "partial",
   "theorems": [
    "C30_extended_partial",
    "C30_ordering_and_cleanup",
    "C30_exchange_optimal_partial",
    "C30_all_rows_iff",
    "C30_zero_rows_refuted"
   ],
   "note": "The basic rows always; the rows beyond them are zero exactly when the blocks Lnb of both factorizations are (refuted otherwise). The history enters through the states of the two echelonizers."
  },
  {
   "property": "C31",
   "status": "partial",
   "theorems": [
    "C31_numEquations_partial",
    "C31_numEquations_refuted"
   ],
   "note": "Right after an update with non-empty J; stale after an update with empty J (refuted)."
  },
  {
   "property": "C32",
   "status": "proved",
   "theorems": [
    "C32_canonical_view",
    "C32_error"
   ],
   "note": "Every implementation of std::partition; refused exactly when a basic variable is unstable."
  },
  {
   "property": "C33",
   "status": "partial",
   "theorems": [
    "C33_nonsingular_partial",
    "C33_eps0",
    "C33_nonsingular_refuted"
   ],
   "note": "Every nonsingular system whose right-hand side is resolved (no pivot at most eps times its eliminated right-hand side); refuted otherwise: A=I, b=1/eps gives x=0."
  },
  {
   "property": "C34",
   "status": "partial",
   "theorems": [
    "C34_dependent_partial",
    "C34_zero_refuted",
    "C34_one_equation_refuted"
   ],
   "note": "n<>1 and resolved right-hand sides; refuted: a discarded unknown is not set to zero, and one equation 0*x=0 divides by zero."
  },
  {
   "property": "C35",
   "status": "partial",
   "theorems": [
    "C35_accessors_partial",
    "C35_accessors_refuted"
   ],
   "note": "Q() returns P: a factorization exactly when the two permutations act alike on the columns; refuted in general."
  },
  {
   "property": "C36",
   "status": "partial",
   "theorems": [
    "C36_fullspace_partial",
    "C36_eps0",
    "C36_matrix",
    "full_piv_exists",
    "C36_refuted"
   ],
   "note": "All dimensions, right-hand sides that are resolved; refuted otherwise, for every positive eps and every pivot order: the identity of order two with right-hand side 1/eps gives zero."
  },
  {
   "property": "C37",
   "status": "partial",
   "theorems": [
    "C37_nullspace_partial",
    "C37_reduced",
    "C37_eps0",
    "C37_refuted"
   ],
   "note": "All dimensions and splits, right-hand sides that are resolved; refuted otherwise as C36. The reduced matrix is shown nonsingular whenever the system is."
  },
  {
   "property": "C38",
   "status": "partial",
   "theorems": [
    "C38_rangespace_off_by",
    "C38_rangespace_partial",
    "C38_rangespace_refuted"
   ],
   "note": "Correct without basic explicit variables; refuted with them: M33 is assembled with the wrong sign; the exact error is proved."
  },
  {
   "property": "C39",
   "status": "partial",
   "theorems": [
    "C39_master_equations",
    "C39_solve_partial",
    "C39_all_rows_partial",
    "C39_refuted"
   ],
   "note": "Every canonical solution is mapped to a solution of the master equations with the rows of W combined by R; all rows of W when the system is consistent and rank Wx equals the number of basic variables; refuted when a row of W depends on p only. C39_solve_partial inherits the limits of C36-C38."
  },
  {
   "property": "C40",
   "status": "partial",
   "theorems": [
    "C40_full_null_agree_partial",
    "C40_full_range_agree_partial",
    "C40_agree_refuted"
   ],
   "note": "Fullspace and Nullspace agree; Rangespace agrees without basic explicit variables and is refuted with them."
  },
  {
   "property": "C41",
   "status": "proved",
   "theorems": [
    "C41_product",
    "C41_product_transpose",
    "C41_vector_roundtrip"
   ],
   "note": ""
  },
  {
   "property": "C42",
   "status": "proved",
   "theorems": [
    "C42_residuals"
   ],
   "note": "Exact arithmetic, canonical views as provided by C68."
  },
  {
   "property": "C43",
   "status": "proved",
   "theorems": [
    "C43_small_error_is_kkt"
   ],
   "note": "Variables that are basic and on a bound are the exception discussed in C45."
  },
  {
   "property": "C44",
   "status": "partial",
   "theorems": [
    "C44_nan_partial",
    "C44_nan_refuted"
   ],
   "note": "A NaN in the largest error of x is reported; a NaN in the error of p (or w) is dropped by std::max (refuted)."
  },
  {
   "property": "C45",
   "status": "partial",
   "theorems": [
    "C45_bound_optimality_partial",
    "C45_bound_optimality_refuted"
   ],
   "note": "All variables except basic ones on their bounds, for which the sign of s is not checked (refuted)."
  },
  {
   "property": "C46",
   "status": "partial",
   "theorems": [
    "C46_all_constraints_partial",
    "C46_all_constraints_refuted"
   ],
   "note": "Linearly independent constraints; dependent ones are ignored (refuted)."
  },
  {
   "property": "C47",
   "status": "proved",
   "theorems": [
    "C47_bounds",
    "C47_sizes"
   ],
   "note": "Any arithmetic with a total order outside NaN, in particular binary64; NaN entries are exempt as stated."
  },
  {
   "property": "C48",
   "status": "partial",
   "theorems": [
    "C48_terminates_partial",
    "C48_terminates_refuted"
   ],
   "note": "At most maxiters+1 iterations; the bound maxiters is refuted for every maxiters."
  },
  {
   "property": "C49",
   "status": "partial",
   "theorems": [
    "C49_success_sound",
    "C49_failure_partial",
    "C49_failure_refuted"
   ],
   "note": "Success is sound. A calculation that converges in iteration maxiters+1 is reported as failed (refuted)."
  },
  {
   "property": "C50",
   "status": "partial",
   "theorems": [
    "C50_transform",
    "C50_no_transform",
    "C50_nan_refuted"
   ],
   "note": "\"Not larger\" holds as \"not >\"; a NaN error is accepted (refuted for \"<=\")."
  },
  {
   "property": "C51",
   "status": "proved",
   "theorems": [
    "C51_backtrack",
    "C51_feasible_unchanged"
   ],
   "note": "Exact arithmetic with infinite bounds."
  },
  {
   "property": "C52",
   "status": "proved",
   "theorems": [
    "C52_linesearch",
    "C52_stays_in_bounds"
   ],
   "note": "Exact arithmetic, error a function of the point. LineSearch is not called by ErrorControl at this commit."
  },
  {
   "property": "C53",
   "status": "partial",
   "theorems": [
    "C53_result_error_refuted",
    "C53_never_set"
   ],
   "note": "Refuted: the field keeps its initial value 0."
  },
  {
   "property": "C54",
   "status": "partial",
   "theorems": [
    "C54_reuse_partial",
    "C54_rate_refuted",
    "C54_flags_refuted"
   ],
   "note": "The convergence history does not influence the outcome; rate and the success flags keep information of earlier solves (refuted)."
  },
  {
   "property": "C55",
   "status": "partial",
   "theorems": [
    "C55_failure_refuted"
   ],
   "note": "Refuted: the success flags are never consulted."
  },
  {
   "property": "C56",
   "status": "partial",
   "theorems": [
    "C56_matrices_partial",
    "C56_matrices_refuted"
   ],
   "note": "Every block except rows of be in the columns of the slacks xbg, which is never written: refuted when the matrix was used before."
  },
  {
   "property": "C57",
   "status": "partial",
   "theorems": [
    "C57_slack_partial",
    "C57_objective",
    "C57_kkt_partial",
    "C57_slack_refuted"
   ],
   "note": "Equivalent when that uninitialised block is zero (C56); refuted otherwise."
  },
  {
   "property": "C58",
   "status": "partial",
   "theorems": [
    "C58_layout",
    "C58_layout_f_v",
    "C58_flag_partial",
    "C58_flag_refuted"
   ],
   "note": "Layout proved; a failure of he is overwritten by the flag of hg (refuted)."
  },
  {
   "property": "C59",
   "status": "proved",
   "theorems": [
    "C59_roundtrip",
    "C59_complete",
    "C59_indices",
    "C59_sensitivity"
   ],
   "note": "State, index sets and sensitivities."
  },
  {
   "property": "C60",
   "status": "partial",
   "theorems": [
    "C60_copy_partial",
    "C60_copy_refuted"
   ],
   "note": "Problem::operator= drops r, f, he, hg, v (refuted); all other members, State and Sensitivity are copied."
  },
  {
   "property": "C61",
   "status": "partial",
   "theorems": [
    "C61_zeros",
    "C61_equations_partial",
    "C61_solution_partial",
    "C61_stability_partial",
    "C61_stability_refuted",
    "C61_metastable_refuted"
   ],
   "note": "Holds without meta-stable variables, or when their derivatives are zero; setting the derivatives of meta-stable variables to zero after the solution breaks the constraints (refuted), and ds/dc misses the term H*dx/dc (refuted)."
  },
  {
   "property": "C62",
   "status": "partial",
   "theorems": [
    "C62_header",
    "C62_aligned_partial",
    "C62_separator_refuted",
    "C62_long_value_refuted"
   ],
   "note": "Aligned without separators or with columns of one width; after a separator the widths of the wrong columns are used (refuted)."
  },
  {
   "property": "C63",
   "status": "partial",
   "theorems": [
    "C63_arguments_partial",
    "C63_arguments_refuted"
   ],
   "note": "f, he, hg, v receive the user variables; r receives the slacks as well (refuted)."
  },
  {
   "property": "C64",
   "status": "proved",
   "theorems": [
    "C64_golden_finds_minimum"
   ],
   "note": "Exact arithmetic."
  },
  {
   "property": "C65",
   "status": "partial",
   "theorems": [
    "C65_rank_partial",
    "C65_tiny_matrix_has_rank_zero",
    "C65_rank_refuted"
   ],
   "note": "Proved for maximal pivot >= 10 eps; refuted below, where the rank is always 0."
  },
  {
   "property": "C66",
   "status": "proved",
   "theorems": [
    "C66_brent_finds_minimum"
   ],
   "note": "Exact arithmetic."
  },
  {
   "property": "C67",
   "status": "proved",
   "theorems": [
    "C67_echelonizerW"
   ],
   "note": "Exact arithmetic; LU through its contract."
  },
  {
   "property": "C68",
   "status": "proved",
   "theorems": [
    "C68_update_total"
   ],
   "note": "Every implementation of std::partition."
  },
  {
   "property": "C69",
   "status": "partial",
   "theorems": [
    "C69_evaluations_partial",
    "C69_evaluations_refuted"
   ],
   "note": "Holds without a transformation function; after a rejected transformation F is updated at the unclamped Newton step (refuted)."
  },
  {
   "property": "C70",
   "status": "partial",
   "theorems": [
    "C70_unset_partial",
    "C70_unset_refuted",
    "C70_set_never_empty"
   ],
   "note": "A function object that holds nothing would be refused, but none ever does: a function never set holds a do-nothing default and is accepted (refuted)."
  },
  {
   "property": "C71",
   "status": "proved",
   "theorems": [
    "C71_names",
    "C71_wrong_size"
   ],
   "note": ""
  },
  {
   "property": "C72",
   "status": "proved",
   "theorems": [
    "C72_table",
    "C72_wrong_size"
   ],
   "note": "Together with C62 for the columns."
  },
  {
   "property": "C73",
   "status": "partial",
   "theorems": [
    "C73_last_line_partial",
    "C73_last_line_refuted"
   ],
   "note": "Holds on success; on failure the point of the iteration before is shown (refuted)."
  },
  {
   "property": "C74",
   "status": "partial",
   "theorems": [
    "C74_accumulated_partial",
    "C74_accumulated_refuted"
   ],
   "note": "The per-derivative counters and times, the time of sensitivities and the error parts are not accumulated (refuted)."
  },
  {
   "property": "C75",
   "status": "partial",
   "theorems": [
    "C75_success_partial",
    "C85_weak_refuted"
   ],
   "note": "Exact arithmetic, points without NaN or infinity, no user convergence check. Missing: basic variables on a bound are excepted from the sign condition (needed, C45); the constraints are bounded only when there are as many basic variables as constraints (needed, C46); the master matrix must not hold spoiled memory (needed, C56)."
  },
  {
   "property": "C76",
   "status": "partial",
   "theorems": [
    "C76_kkt_accepted_partial",
    "C76_bounds_only_refuted"
   ],
   "note": "Proved when there is a basic variable, the tolerance is above round-off level and the Newton direction is zero at the solution; refuted for problems without constraints whose solution lies on a bound: solve never succeeds."
  },
  {
   "property": "C77",
   "status": "proved",
   "theorems": [
    "C77_rate",
    "C77_too_few"
   ],
   "note": ""
  },
  {
   "property": "C78",
   "status": "partial",
   "theorems": [
    "C78_flag_partial",
    "C54_flags_refuted"
   ],
   "note": "Missing: earlier evaluations of problems with other numbers of constraints and parameters, for which it is refuted (C54_flags_refuted). Nothing consults the flag (C55)."
  },
  {
   "property": "C79",
   "status": "partial",
   "theorems": [
    "C79_basic_variables_partial",
    "C28_threshold_refuted"
   ],
   "note": "Exact arithmetic. Missing: pivots below the threshold (C28_threshold_refuted)."
  },
  {
   "property": "C80",
   "status": "partial",
   "theorems": [
    "C80_newton_partial",
    "C80_refuted"
   ],
   "note": "Exact arithmetic. Restricted to as many basic variables as constraints (C46), right-hand sides resolved by the LU solver (refuted otherwise: the equations are regular and the direction is zero) and, for Rangespace, no basic explicit variables (refuted in C38). The effect of the removal of round-off is bounded, and zero without cancellation."
  },
  {
   "property": "C81",
   "status": "partial",
   "theorems": [
    "C81_one_iteration_partial",
    "C81_user_partial",
    "C92_threshold_refuted"
   ],
   "note": "Exact arithmetic, no transformation; restrictions of C80, and of C76 at the solution. Refuted when no Newton equation is resolved: an unconstrained quadratic problem is never solved from points with |x| >= 1/eps."
  },
  {
   "property": "C82",
   "status": "partial",
   "theorems": [
    "C82_echelonizer",
    "C82_basis_partial",
    "C28_threshold_refuted"
   ],
   "note": "Exact arithmetic; contracts of FullPivLU (exact rank) and std::sort as hypotheses, both shown satisfiable. The statement on the basic variables is for every threshold below all nonzero coefficients (resolved_by). Missing: smaller coefficients (C28_threshold_refuted)."
  },
  {
   "property": "C83",
   "status": "partial",
   "theorems": [
    "C83_contract",
    "C83_success_partial",
    "C83_kkt_accepted_partial",
    "C85_weak_refuted",
    "C76_bounds_only_refuted"
   ],
   "note": "Exact arithmetic; missing as in C75 and C76, without their hypotheses on the echelonizer and the number of basic variables."
  },
  {
   "property": "C84",
   "status": "partial",
   "theorems": [
    "C84_state_partial",
    "C84_constrained_partial",
    "C84_bounds_only_refuted"
   ],
   "note": "Exact arithmetic, returned points without NaN or infinity; the master matrix must not hold spoiled memory (C56). Refuted for problems without basic variables: there no variable is ever unstable, so jlu and juu stay empty for variables held by their bounds."
  },
  {
   "property": "C85",
   "status": "partial",
   "theorems": [
    "C85_success_partial",
    "C85_weak_refuted"
   ],
   "note": "Exact arithmetic, no user convergence check; any threshold in the echelonizer, as long as no nonzero coefficient of the constraints solved for basic variables is below it (well_pivoted, with the code's 1e-8 in C85_case). Refuted for smaller coefficients: on a convex problem solve reports success at a point with an arbitrarily large derivative of the Lagrange function of the wrong sign."
  },
  {
   "property": "C86",
   "status": "partial",
   "theorems": [
    "C86_equations_partial",
    "C86_derivative_partial",
    "C86_nonlinear_refuted"
   ],
   "note": "Exact arithmetic, finite returned points with independent active constraints where the differentiated conditions have one solution, no nonzero coefficient below the threshold of the echelonizer (well_pivoted), no equation of the reduced system discarded (C33; always so with eps = 0). The matrix sc is not covered (C61). Refuted for nonlinear constraints: the second derivatives of he and hg are left out, so the derivatives are wrong unless the Jacobians do not change to first order."
  },
  {
   "property": "C87",
   "status": "partial",
   "theorems": [
    "C87_local_partial",
    "C87_eventually_partial",
    "C87_rate",
    "C87_quadratic",
    "C87_curved_refuted"
   ],
   "note": "Exact arithmetic, fullspace and nullspace methods, no nonzero coefficient below the threshold of the echelonizer around the solution (well_pivoted), constraints independent around the solution, starting points with the held variables on their bounds; the curvature of the constraints, weighted with the multipliers, must be small against the conditioning (kappa C <= 1/8). Refuted without that: the Newton equations leave out the second derivatives of the constraints, and from arbitrarily near a strict minimum with correct derivatives the iterations move away."
  },
  {
   "property": "C88",
   "status": "partial",
   "theorems": [
    "C88_evaluations",
    "C88_transformed",
    "C88_counters_refuted"
   ],
   "note": "The numbers of evaluations are proved for every number system and arbitrary functions. The last sentence is refuted: the counters and times of the Result are 0 after every calculation."
  },
  {
   "property": "C89",
   "status": "proved",
   "theorems": [
    "C89_solve",
    "C89_sens"
   ],
   "note": "Exact arithmetic, deterministic functions; the linear solver and the echelonizer are arbitrary."
  },
  {
   "property": "C90",
   "status": "partial",
   "theorems": [
    "C90_previous_partial",
    "C90_slack_refuted",
    "C90_stale_refuted"
   ],
   "note": "Exact arithmetic. They are basic variables of the previous evaluation, different from each other and indices of the master problem. Refuted: they may be slack variables, beyond the end of x, and they need not be basic at the point of evaluation."
  },
  {
   "property": "C91",
   "status": "partial",
   "theorems": [
    "C91_success_partial",
    "C91_maximum_refuted"
   ],
   "note": "Exact arithmetic, convex problems, independent active constraints at the returned point, no nonzero coefficient there below the threshold of the echelonizer (well_pivoted), no user check of convergence. Refuted without convexity: the Newton step looks for any stationary point, and from arbitrarily near a local minimum solve reports success at the maximum."
  },
  {
   "property": "C92",
   "status": "partial",
   "theorems": [
    "C92_equality_partial",
    "C92_cycle_refuted",
    "C92_threshold_refuted"
   ],
   "note": "Exact arithmetic. With equality constraints only and threshold zero in the LU solver: success in one iteration at the only minimiser, from every initial point, provided no basic solution is lost to the round-off cleaning. Refuted with a positive threshold eps: min (x0^2+x1^2)/2 is never solved from points with |x0|, |x1| >= 1/eps, for any number of iterations. Refuted with bounds: on a strictly convex problem with independent constraints the iterations alternate between two points for ever, with and without fixing variables on bounds."
  },
  {
   "property": "C93",
   "status": "partial",
   "theorems": [
    "C93_backtrack",
    "C93_finite",
    "C93_zero_fraction",
    "C93_overflow_refuted",
    "C93_blocked_leaves_refuted",
    "C93_misses_bound_refuted",
    "C93_frozen_refuted",
    "C93_frozen_exact"
   ],
   "note": "Binary64 with rounding to nearest in every operation of the step (no fused multiply-add), arbitrary Newton directions; no transformation function in C93_finite. Finite iterates and the step up to rounding are proved. Refuted: the limiting variable need not end on its bound, a held variable can leave its bound, and a problem solved in two iterations in exact arithmetic is never solved in double precision: the step fraction becomes 0 and no variable moves again."
  },
  {
   "property": "C94",
   "status": "partial",
   "theorems": [
    "C94_conservative",
    "C94_aggressive",
    "C94_fraction",
    "C94_factor_refuted",
    "C94_fraction_denormal_refuted"
   ],
   "note": "Binary64, rounding to nearest in every operation (no fused multiply-add), entries up to 2^1019. Refuted: the factor of the conservative step can be 1 where exact arithmetic gives less than 3/4 (a violation below half a unit in the last place is not noticed; the result is still within the bounds), and fractionToTheBoundary fails when the factor is denormal, which C94_fraction excludes."
  },
  {
   "property": "C95",
   "status": "partial",
   "theorems": [
    "C95_success",
    "C95_constraints",
    "C95_rounding",
    "C95_solve",
    "C95_left_to_right",
    "C95_cancellation_refuted",
    "C95_overflow_refuted"
   ],
   "note": "For every order of evaluation, with or without fused multiply-add. Assumes that the data are numbers, that no computed residual is NaN (C44_refuted: such a residual does not show in the error) and that the reference values |R||awstar| of the round-off filter do not overflow; C95_overflow_refuted shows that this is needed. The constraints are bounded row by row after multiplication by R, plus the defect of the computed canonical form; C95_constraints gives the constraints themselves when R is nonsingular. C95_cancellation_refuted: without the rounding term the claim is false."
  },
  {
   "property": "C96",
   "status": "partial",
   "theorems": [
    "C96_last_two",
    "C96_history",
    "C96_new",
    "C96_consistent",
    "C96_assertions",
    "C96_zero_refuted",
    "C96_nan_asserts"
   ],
   "note": "The last clause is refuted: a first error of zero violates the assertion errorfirst > 0, and NaN violates error >= 0. C96_assertions gives exactly when the assertions hold."
  },
  {
   "property": "C97",
   "status": "partial",
   "theorems": [
    "C97_brent",
    "C97_golden",
    "C97_brent_nan",
    "C97_brent_overflow_refuted",
    "C97_brent_values_refuted",
    "C97_brent_nan_refuted",
    "C97_golden_overflow_refuted"
   ],
   "note": "Rounding to nearest in every operation (no fused multiply-add). Brent: ends up to 2^200, function values numbers up to 2^400, tolerances from 2^-40 to 2^100; golden section: any function, ends up to 2^1020, tolerances from 2e-12. Refuted without bounds on the ends: the midpoint or the width of the interval overflows and the result is outside. Refuted without a bound on the function values: finite values of about 2^1023 on [-1,8] make Brent return a point outside. A function that is NaN at the right end: Brent returns the right end, whatever it evaluated (C97_brent_nan), so its result need not have the least evaluated value."
  },
  {
   "property": "C98",
   "status": "partial",
   "theorems": [
    "C98_refuted",
    "C98_quadratic_partial"
   ],
   "note": "Refuted for every tolerance by a smooth convex problem with one linear constraint: a step is taken before the error is looked at, and that step can lead away for ever. Proved for equality-constrained quadratic programs (one iteration, same point); near regular solutions C87 applies, at exact solutions C76. Missing: other classes of problems."
  },
  {
   "property": "C99",
   "status": "partial",
   "theorems": [
    "C99_same_partial",
    "C99_exact_partial",
    "C99_no_linear_constraint_refuted",
    "C99_no_basic_variable_refuted",
    "C99_nan_refuted",
    "C99_pivots"
   ],
   "note": "Exact description for problems with a linear constraint and a basic variable at every evaluation: same result unless an iterate before the last has a NaN, then the debug build aborts. Refuted for problems without linear constraints (always aborts), for zero constraint matrices and for NaN. Missing: the assertions inside Eigen and of the output table; pivots in floating point."
  },
  {
   "property": "C100",
   "status": "partial",
   "theorems": [
    "C100_same_partial",
    "C100_state_partial",
    "C100_refuted"
   ],
   "note": "Same outcome, result and values from any two memories a Solver can have (whole state if the values are finite) for problems that do not have both linear equality and linear inequality constraints. Refuted with both: after another problem, solve reports success at a point that violates the constraint x = 1 by 1/2, where a new solver finds x = 1. Copies of a Solver (deep copies of all members) have the same memory. Missing: the output table."
  },
  {
   "property": "C101",
   "status": "partial",
   "theorems": [
    "C101_swap",
    "C101_drift_partial",
    "C101_weights",
    "C101_exact",
    "C101_refuted"
   ],
   "note": "In binary64: entrywise bound of R*A*Q - [I S] for one exchange, and for any sequence of exchanges, reorderings and cleanups with multipliers at most G and numbers at most mu: (1+G)^n (D0 + n*err). updateWithPriorityWeights is such a sequence. Refuted without a bound on the multipliers: for a 3 x 6 matrix with entries of at most 1, exact initial R, S, Q, one call of updateWithPriorityWeights makes three variables with linearly dependent columns basic, each pivot above the threshold 1e-8 as computed. Missing: the rounding errors of compute (the LU factorisation), which enter as D0."
  },
  {
   "property": "C102",
   "status": "partial",
   "theorems": [
    "C102_rational",
    "C102_rounded",
    "C102_rationalize",
    "C102_large_refuted"
   ],
   "note": "In binary64. Fractions with numerator and denominator up to n <= 2^25 are recovered from every double within 1/(8 n^2) (relative above one), which includes the nearest double for n <= 2^24. Refuted for n of about 2^27.3 (the argument n is an unsigned of 32 bits): an earlier fraction with the same computed value is returned."
  },
  {
   "property": "C103",
   "status": "partial",
   "theorems": [
    "C103_one_row_partial",
    "C103_bounds_refuted",
    "C103_row_refuted"
   ],
   "note": "Holds for one linear equality constraint that every point within the bounds violates by more than the tolerance and the round-off level allow; for more constraints C83_success_partial bounds the violations at a reported solution. Refuted (a) for bounds that exclude each other (in release builds; a debug build stops at the assertion BacktrackSearch.cpp:62) and (b) for a row of zeros with a nonzero right-hand side: from every initial point one iteration ends with success."
  },
  {
   "property": "C104",
   "status": "proved",
   "theorems": [
    "C104_maxiters",
    "C104_tolerance",
    "C104_failure",
    "C104_maxiters_any",
    "C104_tolerance_any",
    "C104_failure_any"
   ],
   "note": "For Solver::solve with arbitrary echelonizer, Newton directions, transformation and convergence check; the theorems _any say it for every number system, binary64 included."
  },
  {
   "property": "C105",
   "status": "partial",
   "theorems": [
    "C105_resume_partial",
    "C105_resume_any_partial",
    "C105_resume_refuted"
   ],
   "note": "Holds when the point returned by the first call does not meet the tolerance and the components depend on the present point only (an echelonizer without memory of earlier points), in every number system. Refuted: a calculation that meets the tolerance in the iteration in which the limit stops it is reported as failed, and the second call moves on to another point."
  },
  {
   "property": "C106",
   "status": "partial",
   "theorems": [
    "C106_error",
    "C106_left_to_right",
    "C106_pair",
    "C106_roundoff_refuted",
    "C106_exact_refuted",
    "C106_overflow_refuted"
   ],
   "note": "The error bound holds for every order of evaluation, fused or not, if the reference value |A||x| does not overflow; two products that cancel give zero. Refuted: eight products that cancel leave a round-off error that is not removed; an entry computed without rounding is removed; an overflow of |A||x| removes an entry of any size."
  },
  {
   "property": "C107",
   "status": "partial",
   "theorems": [
    "C107_threshold",
    "C107_largest",
    "C107_idempotent",
    "C107_vector",
    "C107_infinite_refuted"
   ],
   "note": "Proved for matrices of finite numbers; vectors are matrices with one column. Refuted: one infinite entry makes the threshold infinite, and every entry is set to zero, the infinite one included."
  },
  {
   "property": "C108",
   "status": "partial",
   "theorems": [
    "C108_returns",
    "C108_never",
    "C108_solver",
    "C108_where",
    "C108_state",
    "C108_bounds_partial",
    "C108_inside_partial",
    "C108_inside_refuted",
    "C108_next_partial"
   ],
   "note": "Refuted: with a transformation that declines the step, the functions are evaluated at the Newton point before it is put back within the bounds, and functions that throw only outside the bounds make solve throw. The later call is compared with a new solver for functions and an echelonizer that depend on the point only, and without a convergence check."
  },
  {
   "property": "C109",
   "status": "partial",
   "theorems": [
    "C109_linear_partial",
    "C109_irrelevant",
    "C109_same",
    "C109_large_zero",
    "C109_units_refuted"
   ],
   "note": "Linear as long as LU::solve discards no equation. Refuted: whether an equation is discarded depends on the magnitude of the right-hand side, so in large enough units of the parameter (a factor of 1/eps for unit pivots) the sensitivities are zero."
  },
  {
   "property": "C110",
   "status": "proved",
   "theorems": [
    "C110_bounds",
    "C110_sensitivities",
    "C110_constant",
    "C110_evaluated_any"
   ],
   "note": "The Newton direction and the convergence check are arbitrary functions of the state of the residual function. C110_evaluated_any holds in every number system and with every transformation."
  },
  {
   "property": "C111",
   "status": "partial",
   "theorems": [
    "C111_maxiters",
    "C111_unsuccessful_refuted"
   ],
   "note": "The part on larger limits is proved. Refuted: sensitivities are computed whether or not the calculation succeeded; stopped by the limit, every calculation returns the same State and sensitivities with succeeded = false."
  }
 ]
}