{
 "claims": [
  {
   "property": "C01",
   "status": "proved",
   "theorems": [
    "C01_genus_exact"
   ],
   "note": "all m>=2, n>=2 without 64-bit overflow of m*n"
  },
  {
   "property": "C02",
   "status": "proved",
   "theorems": [
    "C02_number_of_differentials"
   ],
   "note": ""
  },
  {
   "property": "C03",
   "status": "proved",
   "theorems": [
    "C03_differentials_are_the_holomorphic_ones"
   ],
   "note": ""
  },
  {
   "property": "C04",
   "status": "partial",
   "theorems": [
    "C04_initialisation_safe",
    "C04_initialisation_safe_refuted",
    "C04_accepted_curves_are_not_degenerate",
    "C04_degree_is_the_degree"
   ],
   "note": "REFUTED in general: constant polynomials divide by zero, linear polynomials request a negative allocation; proved safe from degree 2 on"
  },
  {
   "property": "C05",
   "status": "proved",
   "theorems": [
    "C05_enough_generators"
   ],
   "note": ""
  },
  {
   "property": "C06",
   "status": "proved",
   "theorems": [
    "C06_round_trip",
    "C06_every_polynomial_has_a_text",
    "C06_trailing_blank_refuted"
   ],
   "note": "for the term forms c, x, c*x, x^e, c*x^e; a blank after a final x is rejected (C06_trailing_blank_refuted), blanks are only claimed between terms"
  },
  {
   "property": "C07",
   "status": "partial",
   "theorems": [
    "C07_last_term_wins_partial",
    "C07_sum_refuted"
   ],
   "note": "REFUTED: repeated monomials overwrite, signs do not multiply, large coefficients are clamped, the target is not reset; exact semantics proved (last term wins)"
  },
  {
   "property": "C08",
   "status": "partial",
   "theorems": [
    "C08_terminates_and_reads_in_bounds",
    "C08_memory_safe_partial",
    "C08_memory_safety_refuted"
   ],
   "note": "reads and termination proved for every text; coefficient writes REFUTED for negative or overflowing exponents; proved safe otherwise"
  },
  {
   "property": "C09",
   "status": "proved",
   "theorems": [
    "C09_xgcd_contract_satisfiable",
    "C09_reduction_is_congruence"
   ],
   "note": ""
  },
  {
   "property": "C10",
   "status": "proved",
   "theorems": [
    "C10_base_change_unimodular"
   ],
   "note": ""
  },
  {
   "property": "C11",
   "status": "proved",
   "theorems": [
    "C11_reduction_terminates_in_bounds",
    "C11_outcomes_for_every_matrix",
    "C11_small_rank_leaves_the_matrix_refuted"
   ],
   "note": "rank hypothesis stated as 2g rows without linear relation; also: for every antisymmetric matrix the only failure is leaving the matrix, which does happen when the rank is too small (..._refuted)"
  },
  {
   "property": "C12",
   "status": "proved",
   "theorems": [
    "C12_block_diagonal"
   ],
   "note": ""
  },
  {
   "property": "C13",
   "status": "partial",
   "theorems": [
    "C13_canonical_basis_partial",
    "C13_blocks_are_units_partial",
    "C13_sign_refuted"
   ],
   "note": "REFUTED for general forms unimodular modulo their radical (wrong sign, C13_sign_refuted); proved when r = 2g, and up to sign in general. C63 discharges the hypotheses for the intersection matrix of every curve: blocks are units, and +1 when gcd(m,n) is 1 or m. See C75 for when the matrix holds the true intersection numbers."
  },
  {
   "property": "C14",
   "status": "partial",
   "theorems": [
    "C14_self_check_structure_partial",
    "C14_self_check_accepts_every_result",
    "C14_self_check_refuted"
   ],
   "note": "REFUTED: the check ignores the value of the blocks; what it does check is characterised"
  },
  {
   "property": "C15",
   "status": "proved",
   "theorems": [
    "C15_loops_are_the_rows",
    "C15_indices_and_coefficients_in_range"
   ],
   "note": "loops of the base change; alpha from even rows, beta from odd rows"
  },
  {
   "property": "C16",
   "status": "partial",
   "theorems": [
    "C16_small_coefficients_keep_their_value_partial",
    "C16_large_coefficients_become_pointers_refuted"
   ],
   "note": "REFUTED: coefficients in [2^62,2^63) pass the check and are then read through an fmpz pointer as pointers; proved for values below 2^62"
  },
  {
   "property": "C17",
   "status": "proved",
   "theorems": [
    "C17_antisymmetric_small_entries",
    "C17_input_of_reduction"
   ],
   "note": "closed form of the whole matrix for every edge list and every shift data; also stated as input of the symplectic reduction"
  },
  {
   "property": "C18",
   "status": "proved",
   "theorems": [
    "C18_table_of_intersections",
    "C18_self_intersections",
    "C18_deck_invariance"
   ],
   "note": "entries characterised by iff on (v-u) mod m; the sheet numbers and orientation are those returned by the angle computation"
  },
  {
   "property": "C19",
   "status": "proved",
   "theorems": [
    "C19_no_other_failure",
    "C19_no_rejected_pair",
    "C19_incident_pairs_have_a_block"
   ],
   "note": "for every edge list: no fault, only abort is the angle computation's; for every tree the builder returns, incident pairs get a block"
  },
  {
   "property": "C20",
   "status": "proved",
   "theorems": [
    "C20_common_start",
    "C20_end_to_start",
    "C20_values_at_the_ends",
    "C20_intersection_matrix_always_computed"
   ],
   "note": "exact arithmetic: the roots are distinct complex numbers and every ydata comes from the model of ydata_init_edge; the integer is shown to be the sheet number, and the whole intersection matrix of every built tree is computed without abort"
  },
  {
   "property": "C21",
   "status": "proved",
   "theorems": [
    "C21_spanning_tree",
    "C21_candidate_edges"
   ],
   "note": "any permutation, NaN weights allowed"
  },
  {
   "property": "C22",
   "status": "proved",
   "theorems": [
    "C22_maximal_bottleneck",
    "C22_edge_weight",
    "C22_sort_contract_satisfiable"
   ],
   "note": "bottleneck maximality for every threshold; NaN excluded by hypothesis"
  },
  {
   "property": "C23",
   "status": "partial",
   "theorems": [
    "C23_worst_edge",
    "C23_second_computation",
    "C23_zero_weight_refuted"
   ],
   "note": "REFUTED for zero weights (C23_zero_weight_refuted): 0 is used as 'not set'. Proved for nonzero non-NaN weights on a fresh tree, and for a second computation"
  },
  {
   "property": "C24",
   "status": "partial",
   "theorems": [
    "C24_circular_refuted",
    "C24_common_point_refuted",
    "C24_sort_unique_partial",
    "C24_exact_points_partial"
   ],
   "note": "REFUTED: pairwise disjoint balls compare in a circle for every enclosing 30-bit subtraction, and overlapping ones are below each other both ways; the partial theorems give existence, uniqueness and lexicographic order of the sorted list when real parts are separated or equal"
  },
  {
   "property": "C25",
   "status": "partial",
   "theorems": [
    "C25_order_changes_refuted",
    "C25_same_order_partial"
   ],
   "note": "REFUTED: the only admissible orders at two precisions differ; holds when real parts are separated or equal at both precisions"
  },
  {
   "property": "C26",
   "status": "proved",
   "theorems": [
    "C26_period_of_a_loop"
   ],
   "note": "exact complex numbers instead of balls"
  },
  {
   "property": "C27",
   "status": "proved",
   "theorems": [
    "C27_period_matrix_is_base_change"
   ],
   "note": "exact complex numbers instead of balls; base change entries below FLINT's small-integer limit (see C16)"
  },
  {
   "property": "C28",
   "status": "proved",
   "theorems": [
    "C28_polynomial_shift",
    "C28_shift_of_moments",
    "C28_shift_back"
   ],
   "note": "Every vector, slice and shift, exact complex arithmetic; closed form, action on the moments of any functional linear on polynomials, and inverse."
  },
  {
   "property": "C29",
   "status": "proved",
   "theorems": [
    "C29_multiply_by_geometric",
    "C29_add_geometric",
    "C29_add_alternating_geometric",
    "C29_empty_slice_refuted"
   ],
   "note": "The three helpers on every slice of length >= 1, with the final value of the running factor; an empty slice has its first entry modified (C29_empty_slice_refuted), which no accepted curve triggers since every count is >= 1 (C03)."
  },
  {
   "property": "C30",
   "status": "proved",
   "theorems": [
    "C30_rescaled_to_the_edge"
   ],
   "note": "Every curve, every edge a<>b, every family of functionals linear on polynomials; exact complex arithmetic."
  },
  {
   "property": "C31",
   "status": "partial",
   "theorems": [
    "C31_turn_partial",
    "C31_sqrt_turn_partial",
    "C31_one_turn",
    "C31_def",
    "C31_limits",
    "C31_logarithms",
    "C31_choice_partial",
    "C31_choice_gc_partial",
    "C31_turn_refuted",
    "C31_sqrt_turn_refuted",
    "C31_no_point_refuted"
   ],
   "note": "REFUTED in full: when the product of the factors is exactly a negative real number reached from the upper half plane the counted turn is one too many (C31_turn_refuted at the central DE node, C31_sqrt_turn_refuted at every GC node in ]0,1[), and for curves with two branch points the loop starts from a constant that is not a point (C31_no_point_refuted). Strongest true statements: equality whenever the product is not a negative real, error of at most one turn otherwise; def and logarithm evaluations always agree. Balls are exact numbers in this model."
  },
  {
   "property": "C32",
   "status": "proved",
   "theorems": [
    "C32_partition_of_the_other_roots",
    "C32_arrangement"
   ],
   "note": "arbitrary sign oracle, any number of roots"
  },
  {
   "property": "C33",
   "status": "proved",
   "theorems": [
    "C33_edge_constant",
    "C33_curve_equation",
    "C33_root_product"
   ],
   "note": "arbitrary sign oracle for the branch; curve equation for every complex t"
  },
  {
   "property": "C34",
   "status": "partial",
   "theorems": [
    "C34_bound_partial",
    "C34_magnitude_partial",
    "C34_subdivision_partial",
    "C34_exact",
    "C34_magnitude_exact",
    "C34_magnitude_ends",
    "C34_rounded_refuted",
    "C34_rounded_partial"
   ],
   "note": "REFUTED with the actual roundings (C34_rounded_refuted: at 64 bits the pieces of 1 +- 2^-35 miss its left end). Proved for every depth when each subdivision covers its ball, hence in exact arithmetic; under an explicit condition on the rounding errors; and with the actual roundings for the call the program makes, 30 pieces of an interval that is not thin and at most 14 of the 20 levels (C34_rounded_partial)."
  },
  {
   "property": "C35",
   "status": "partial",
   "theorems": [
    "C35_first_piece",
    "C35_maximum_refuted",
    "C35_golden_ends",
    "C35_minimum_partial"
   ],
   "note": "REFUTED: only the first piece is ever examined (C35_first_piece) and the comparison looks for a minimum (C35_maximum_refuted). Proved: the search ends, stays in the interval, and finds the minimum of a function that decreases then increases."
  },
  {
   "property": "C36",
   "status": "proved",
   "theorems": [
    "C36_gauss_chebyshev_abscissae"
   ],
   "note": "table of gc_int_init for every n>=1, both parities"
  },
  {
   "property": "C37",
   "status": "proved",
   "theorems": [
    "C37_sum_over_all_nodes"
   ],
   "note": "exact real/complex arithmetic; the value at the middle node is computed by another routine, assumed to agree with y(0) (C33)"
  },
  {
   "property": "C38",
   "status": "proved",
   "theorems": [
    "C38_exact_on_polynomials",
    "C38_computed_moments_exact"
   ],
   "note": "rule exact for degree < 2n as an improper integral (Coquelicot), and for the computed moments"
  },
  {
   "property": "C39",
   "status": "partial",
   "theorems": [
    "C39_too_few_points_refuted",
    "C39_decreasing_requests_partial"
   ],
   "note": "REFUTED: C39_too_few_points_refuted shows for every curve that a larger request keeps the smaller scheme; the partial theorem covers non-increasing requests"
  },
  {
   "property": "C40",
   "status": "partial",
   "theorems": [
    "C40_enough_points",
    "C40_same_scheme_option_refuted"
   ],
   "note": "REFUTED with the same-scheme option (C40_same_scheme_option_refuted: the first scheme is kept although it has too few points). Proved for all histories without that option."
  },
  {
   "property": "C41",
   "status": "proved",
   "theorems": [
    "C41_each_edge_once"
   ],
   "note": "for any permutation returned by qsort and any integration routine"
  },
  {
   "property": "C42",
   "status": "partial",
   "theorems": [
    "C42_sum_over_nodes_partial",
    "C42_last_node_missing_refuted"
   ],
   "note": "REFUTED: the sum stops at |k| <= N-1 (C42_sum_over_nodes_partial gives its exact value); the documented sum over |k|<=N always differs"
  },
  {
   "property": "C43",
   "status": "partial",
   "theorems": [
    "C43_radius_refuted",
    "C43_within_two_partial",
    "C43_m1_refuted",
    "C43_m1_partial",
    "C43_other_exponents_refuted"
   ],
   "note": "REFUTED: for all usable parameters the radius is smaller than the published bound (C43_radius_refuted), the constant M1 is not a bound when a real part exceeds 1 (C43_m1_refuted), and for m > 2 the radius, computed for j = 1, is exceeded by any factor by the first omitted term for j = m-1 (C43_other_exponents_refuted). Proved instead: the radius is at least half the published bound, and M1 is valid when the real parts are in [-1,1]."
  },
  {
   "property": "C44",
   "status": "partial",
   "theorems": [
    "C44_radius_partial",
    "C44_tolerance_partial",
    "C44_ellipse_refuted"
   ],
   "note": "REFUTED in general: C44_ellipse_refuted gives branch points and a precision for which the ellipse chosen contains a branch point, so that the radius bounds nothing. Proved: when the ellipse avoids the branch points the radius is at least the published bound (and, C61, at least the true error), and when the product of the half sums is at most 4^prec times the 2d-th power of the smallest one (within_reach) the loop ends in at most two rounds with a radius at most twice the tolerance. C77 shows curves without this condition for which the loop aborts or never ends. Balls of relative width 2^-32 are exact numbers here; C72 has the version on balls."
  },
  {
   "property": "C45",
   "status": "proved",
   "theorems": [
    "C45_real_reduction",
    "C45_success"
   ],
   "note": "exact arithmetic over any closed numerical field; LU decompositions are oracles that only succeed on invertible matrices"
  },
  {
   "property": "C46",
   "status": "partial",
   "theorems": [
    "C46_value_returned_refuted",
    "C46_not_a_solution_refuted"
   ],
   "note": "REFUTED for every size: the value returned is -A^-1 B, or (if the in-place division of the library overwrites its divisor first) that times (-1)^n det A; the first theorem gives it exactly, by Cayley-Hamilton"
  },
  {
   "property": "C47",
   "status": "partial",
   "theorems": [
    "C47_strategies_partial",
    "C47_last_strategy_refuted"
   ],
   "note": "REFUTED through the last strategy (diag(1,i)); proved for all the other strategies, and singular matrices always abort"
  },
  {
   "property": "C48",
   "status": "proved",
   "theorems": [
    "C48_switch_set",
    "C48_verbose",
    "C48_any_order",
    "C48_method"
   ],
   "note": "Flag word as read from any list of well formed options; integration method as chosen in aj_struct.c:80. C51_well_formed_partial ties the options to the words of the command line."
  },
  {
   "property": "C49",
   "status": "partial",
   "theorems": [
    "C49_untouched",
    "C49_own_data",
    "C49_fields",
    "C49_printed",
    "C49_worst_edge_refuted"
   ],
   "note": "Proved for every flag word: results excluded by the flags are untouched, every announced result and everything printed is computed in this run. REFUTED for tree->r and tree->min, which keep the minimum over earlier runs of the same structure."
  },
  {
   "property": "C50",
   "status": "partial",
   "theorems": [
    "C50_count_partial",
    "C50_no_compute_partial",
    "C50_leak_refuted"
   ],
   "note": "REFUTED: every compute call loses blocks (integrals initialised twice, rho and psi of shift_number, edge data with --tree, loops of earlier runs, temporaries of tau). Proved for every sequence of calls: no double or invalid clear, and the exact number of unreleased blocks."
  },
  {
   "property": "C51",
   "status": "partial",
   "theorems": [
    "C51_well_formed_partial",
    "C51_any_words_partial",
    "C51_missing_value_refuted"
   ],
   "note": "REFUTED: an option that expects a value, given last, dereferences the null pointer that ends argv (C51_missing_value_refuted). Proved for all argument vectors: nothing else is read out of bounds, the loop ends, and the null pointer is only read in that case."
  },
  {
   "property": "C52",
   "status": "partial",
   "theorems": [
    "C52_coeffs",
    "C52_xn1",
    "C52_bern",
    "C52_exp_degree_refuted",
    "C52_bernrev_refuted",
    "C52_default_refuted",
    "C52_settings",
    "C52_leftover_refuted",
    "C52_documented_option_refuted"
   ],
   "note": "REFUTED for --exp (degree n-1), --bernrev (leading coefficient dropped), the default polynomial (x^5-1, documented x^5+1), two polynomial options in a row (leftover coefficients), --exprev and --quiet (rejected). Proved for --coeffs, --xn1 and --bern, and for the other settings (degree of the covering, precision, digits, bench, printer: the last option given wins, C52_settings)."
  },
  {
   "property": "C53",
   "status": "partial",
   "theorems": [
    "C53_largest_radius_partial",
    "C53_exact_matrix_refuted"
   ],
   "note": "REFUTED position: for a matrix of exact entries the position printed is (-1,-1). Proved otherwise: value and first position of the largest radius."
  },
  {
   "property": "C54",
   "status": "proved",
   "theorems": [
    "C54_two_branch_points",
    "C54_integral"
   ],
   "note": "closed form and placement for an arbitrary function Gamma; for the Gamma function (characterized by Bohr and Mollerup, existence proved) the value is the integral of (1-t^2)^(-j/m)"
  },
  {
   "property": "C55",
   "status": "partial",
   "theorems": [
    "C55_first_edge_partial",
    "C55_radius_of_another_edge_refuted"
   ],
   "note": "REFUTED: with equal requests the second edge gets the first edge's radius; holds for the first edge"
  },
  {
   "property": "C56",
   "status": "proved",
   "theorems": [
    "C56_truncation"
   ],
   "note": "For all parameters such that 2 alpha lambda cosh(Nh) >= 1, the condition of the published lemma."
  },
  {
   "property": "C57",
   "status": "partial",
   "theorems": [
    "C57_parameters_partial",
    "C57_aborts"
   ],
   "note": "Proved for the first exponent, j = 1, with M1 and M2 as factors; the code takes M1 = M2 = 1 and one exponent for all j (see C43_other_exponents_refuted)."
  },
  {
   "property": "C58",
   "status": "proved",
   "theorems": [
    "C58_strip"
   ],
   "note": "The distances are those of the principal values of asinh and atanh; doubles are exact numbers."
  },
  {
   "property": "C59",
   "status": "proved",
   "theorems": [
    "C59_extra_precision",
    "C59_precision_of_integrals"
   ],
   "note": "Arithmetic is exact apart from the upward rounding of the magnitudes and the approximate logarithm, which are arbitrary functions satisfying one inequality each. The factor 2 (i+1) comes from |1 - zeta^-j| <= 2 and from the number of terms, which extraprec_tree ignores."
  },
  {
   "property": "C60",
   "status": "partial",
   "theorems": [
    "C60_working_precision_refuted",
    "C60_short_edge_partial"
   ],
   "note": "REFUTED: for y^2 = x^3 - K^2 x with K = 4^(prec+12) every choice of edges gives a precision <= 0 (extraprec_tree is negative for large roots). Proved when an edge of the tree has length at most 2."
  },
  {
   "property": "C61",
   "status": "partial",
   "theorems": [
    "C61_error_partial",
    "C61_tolerance_partial"
   ],
   "note": "Fully proved analytically (no cited quadrature theorem): the distance between the computed sum and the improper integral is at most the radius returned, for any number of points at least the requested one, with exact arithmetic. Missing: the hypothesis that the ellipse avoids the branch points is needed since C44_ellipse_refuted shows that the code may choose an ellipse containing some; C61_tolerance_partial gives a sufficient condition on the precision. Ball rounding inside the sum is not modelled."
  },
  {
   "property": "C62",
   "status": "partial",
   "theorems": [
    "C62_edge_partial",
    "C62_tree_partial",
    "C62_precision_partial"
   ],
   "note": "Proved end to end for m = 2 with exact arithmetic in the sums (radius of the quadrature included): parameters, scheme cache, nodes, roots (both evaluations), moments, rescaling. Hypotheses that the code does not ensure: the ellipse avoids the branch points (C44_ellipse_refuted), the scheme kept has enough points (C39_too_few_points_refuted), and with the evaluation by turns the product of the factors is not exactly a negative real number at a node (C31_sqrt_turn_refuted). C62_precision_partial replaces the first by a condition on the working precision. Ball rounding is not modelled."
  },
  {
   "property": "C63",
   "status": "proved",
   "theorems": [
    "C63_curve_reduces",
    "C63_curve_periods"
   ],
   "note": "every curve, tree, sort and weight; exact complex branch points; the sign of a block is only determined when gcd(m,n) is 1 or m. The basis is canonical for the computed matrix, which is the matrix of intersection numbers exactly when the edges of the tree do not cross (C75)."
  },
  {
   "property": "C64",
   "status": "partial",
   "theorems": [
    "C64_spread_partial",
    "C64_periods_partial"
   ],
   "note": "End to end for m = 2: with exact arithmetic on the centres, every entry of both period matrices is within 4(i+1)2^-prec times the norm of the cycle of the exact period on a basis symplectic for the computed intersection matrix (true intersection numbers iff edges do not cross, C75). C64_spread_partial replaces the condition on the scaled points by one on the distances between the branch points. Missing: ball arithmetic (radii of the operations; see C72), branch points spread so widely that the search fails (C77), edges integrated with fewer points than they ask for (C39 shows this may happen), and m > 2 (double-exponential integration, C66)."
  },
  {
   "property": "C65",
   "status": "partial",
   "theorems": [
    "C65_rule_error",
    "C65_edge_partial"
   ],
   "note": "C65_rule_error is complete: no cited quadrature theorem, the bound is that of the published theorem with a factor 4/3 on the discretization error. C65_edge_partial: for an edge, with exact arithmetic on the centres; the constant is not explicit (the code takes the maximum M as 1, see C43), rounding is not modelled, and with the evaluation of roots by quadrants the product of the factors must not be negative."
  },
  {
   "property": "C66",
   "status": "partial",
   "theorems": [
    "C66_periods_partial"
   ],
   "note": "End to end for every m, from the branch points to both period matrices, with exact arithmetic on the centres, on a basis symplectic for the computed intersection matrix (see C75). Missing: an explicit constant, ball rounding, weights so wrong that a branch point inside an edge does not weigh less than one off an edge (SpecFree.tells_apart). For j > 1 the rate is really lower than 2^-p: see C43_other_exponents_refuted."
  },
  {
   "property": "C67",
   "status": "proved",
   "theorems": [
    "C67_edges_free",
    "C67_exact_weights",
    "C67_rounded_weights",
    "C67_parameters"
   ],
   "note": "The weights are any numbers that are smaller for branch points inside an edge than for branch points off an edge (tells_apart); C67_exact_weights and C67_rounded_weights: so are the exact weights of both rules, and those known up to an error eps when no branch point comes closer than eps. This discharges the hypotheses of C57 and C58 on the distances and that of C61, C62 and C64 that half_sum exceeds 1."
  },
  {
   "property": "C68",
   "status": "partial",
   "theorems": [
    "C68_periods_partial"
   ],
   "note": "Enclosure of the periods by the balls returned, for every sound ball arithmetic. Missing: the conditions on turns (C71), on the number of points of a reused scheme, on directions, and on the radius are hypotheses; the code checks none of them."
  },
  {
   "property": "C69",
   "status": "partial",
   "theorems": [
    "C69_periods_partial"
   ],
   "note": "Enclosure for every exponent with the double-exponential rule. Missing: the radius computed by the code is a hypothesis (C43 shows it is not always valid), as are the conditions on turns and directions."
  },
  {
   "property": "C70",
   "status": "partial",
   "theorems": [
    "C70_intersections_partial"
   ],
   "note": "On balls the data and intersections are computed or the program aborts, never a fault or an endless loop; equality with the exact matrix under a condition on directions that the code does not check."
  },
  {
   "property": "C71",
   "status": "partial",
   "theorems": [
    "C71_roots",
    "C71_turns_partial",
    "C71_turns_refuted"
   ],
   "note": "REFUTED for the method by turns: a sound ball arithmetic and balls for which the returned ball misses the product. Proved without condition for the other two evaluations, and for turns when the balls do not straddle the real axis."
  },
  {
   "property": "C72",
   "status": "partial",
   "theorems": [
    "C72_radius_partial",
    "C72_periods_partial"
   ],
   "note": "C72_radius_partial: for every ball arithmetic meeting the contracts and every choice of ellipse made on doubles, if the ellipse returned is at most the lower bound r0 then the error with n points is at most 2^-prec and at most the radius returned, for all the points of the balls; C72_periods_partial: the period balls of C68 with these parameters, without any assumption on the radius. Missing: the code does not compare the ellipse with r0 (C44_ellipse_refuted shows that the choice may exceed it), and the conditions of C68 on turns, directions and number of points remain."
  },
  {
   "property": "C73",
   "status": "partial",
   "theorems": [
    "C73_tau_partial",
    "C73_periods_partial",
    "C73_charpoly_refuted"
   ],
   "note": "proved for the complex solver and the two reductions to real matrices, for every library that meets the contract, and composed with the hyperelliptic period balls of C72 (C73_periods_partial). REFUTED for the method by the characteristic polynomial: C73_charpoly_refuted."
  },
  {
   "property": "C74",
   "status": "partial",
   "theorems": [
    "C74_strip_partial",
    "C74_rule_partial",
    "C74_lower_exponents_refuted"
   ],
   "note": "REFUTED for exponents below the largest (C74_lower_exponents_refuted: too small by any factor, with the parameters the program chooses). Proved: the bound over the whole strip and the resulting error of the rule, exactly for the largest exponent and up to a power of the distance from 0 to the sides for smaller ones. Exponent 1/m (j = 1), the one the code evaluates."
  },
  {
   "property": "C75",
   "status": "partial",
   "theorems": [
    "C75_number_unique",
    "C75_matrix_partial",
    "C75_right_iff_apart",
    "C75_points_on_a_line",
    "C75_matrix_refuted",
    "C75_basis_partial",
    "C75_basis_refuted"
   ],
   "note": "REFUTED when two edges of the tree cross (C75_matrix_refuted, C75_basis_refuted: seven points, genus 3, Gauss-Chebychev weights; the entry is 0 instead of +-2 and the basis is not canonical). Proved: the matrix is the one of the intersection numbers if and only if the edges do not cross, for every curve and both rules; unconditionally for points on a line and for at most two edges; the number is unique. The intersection number is defined by local crossings (SpecCross), not by homology. The refutations hold for all weights that compare as the exact ones up to 1/200, so for rounded ones."
  },
  {
   "property": "C76",
   "status": "partial",
   "theorems": [
    "C76_meeting_partial",
    "C76_apart_refuted"
   ],
   "note": "REFUTED (C76_apart_refuted): in the tree of 10, 11, -10, -11, 24i, -24i, 100i with Gauss-Chebychev weights the edges 10 to -10 and 24i to -24i cross. Proved: a common point of two edges is an end of both or a transversal crossing inside both of edges without common end. The refutation holds for all weights that compare as the exact ones up to 1/200, so for rounded ones."
  },
  {
   "property": "C77",
   "status": "partial",
   "theorems": [
    "C77_spread_partial",
    "C77_cubic",
    "C77_abort_refuted",
    "C77_endless_refuted"
   ],
   "note": "REFUTED twice. C77_abort_refuted: for every precision >= 8 an integer quintic with real roots (one pair of roots of size about 2^(prec+13)) for which the whole integration aborts, working precision included, for all weights that compare as the half sums up to 1/2 and every sort. C77_endless_refuted: for every precision >= 8 five real branch points for which the search never ends; here the 32-bit balls and doubles of the search are exact numbers, the fixed point is that of the exact search. Proved: C77_spread_partial ends in two rounds with a radius of at most twice the tolerance whenever (2 hi/lo)^(n-2) <= 4^prec for the largest and smallest distances hi and lo of the branch points; C77_cubic: always, with one other point. The general condition used by C44, C61, C62 and C64 is within_reach (SpecGc): product of the half sums at most 4^prec r^(2g)."
  },
  {
   "property": "C78",
   "status": "partial",
   "theorems": [
    "C78_gc_partial",
    "C78_de_partial",
    "C78_only_roots",
    "C78_leading_refuted",
    "C78_tau_partial"
   ],
   "note": "REFUTED: C78_leading_refuted (y^2 = 2x^3-2x, every precision from 4 bits: the first entry is further than 1/2 from every period). The code uses the roots of f only (C78_only_roots), so the rows are those of the monic curve: C78_gc_partial and C78_de_partial give the factor s^j, exact for monic f; the small period matrix is right (C78_tau_partial, up to the last strategy of C47). Missing as in C64 and C66: explicit constants for the double exponential rule, all edges free of negative products."
  },
  {
   "property": "C79",
   "status": "partial",
   "theorems": [
    "C79_matrix_partial",
    "C79_one_row_refuted",
    "C79_nan_refuted",
    "C79_tree",
    "C79_loop"
   ],
   "note": "REFUTED in two cases: a matrix with one row (every curve of genus 1) is read by PARI/GP as a vector, not as a matrix (C79_one_row_refuted), and an entry that is not a number is printed as 0 (C79_nan_refuted). Proved without bound on sizes: matrices with two rows or more and finite midpoints are read back entry by entry (C79_matrix_partial), trees and loops too (C79_tree, C79_loop). The conversion of a number to decimal digits is an assumption on Arb."
  },
  {
   "property": "C80",
   "status": "partial",
   "theorems": [
    "C80_balls_partial",
    "C80_two_points_partial"
   ],
   "note": "Proved for every curve y^m = f(x) with f of degree 2 and m >= 3 (any genus): the matrix A returned is invertible, A tau = B has exactly one solution, and it is symmetric with positive definite imaginary part; on balls, the balls of tau contain this matrix if one of the first three solving methods succeeds (see C73). Missing: degree 3 and more, where the bilinear relations of Riemann are not proved for the integrals."
  },
  {
   "property": "C81",
   "status": "proved",
   "theorems": [
    "C81_periods",
    "C81_monic"
   ],
   "note": "exact values with the Gamma function as oracle arb_gamma_fmpq; the factor s^j for other leading coefficients is the defect of C78"
  },
  {
   "property": "C82",
   "status": "proved",
   "theorems": [
    "C82_balls"
   ],
   "note": "for every enclosure of the roots; the only other outcome is an abort on a ball too large. The functions of Arb are oracles with the contract that results enclose exact values; the factor s^j for other leading coefficients is the defect of C78"
  },
  {
   "property": "C83",
   "status": "partial",
   "theorems": [
    "C83_basis_partial",
    "C83_rejects_other_matrices",
    "C83_symplectic_refuted"
   ],
   "note": "REFUTED as stated (C83_symplectic_refuted): the pivot search only accepts entries equal to 1, and for a unimodular 4x4 form without such an entry the function returns the identity. Proved for every antisymmetric matrix: the function stops, the result is unimodular and either is a symplectic basis or leaves only entries of absolute value at least 2 (one of them nonzero) beside the pairs found. Missing: that the intersection matrices of curves never reach the second case."
  },
  {
   "property": "C84",
   "status": "proved",
   "theorems": [
    "C84_one_branch",
    "C84_which_branch",
    "C84_same_as_logarithms_refuted"
   ],
   "note": "For every edge between two branch points. C84_same_as_logarithms_refuted records that the two evaluations of the package differ by a root of unity for some edges (the constant does not depend on t). AC_mthRoot3 is not called and not modelled."
  },
  {
   "property": "C85",
   "status": "proved",
   "theorems": [
    "C85_spanning_tree",
    "C85_shortest",
    "C85_edges_apart",
    "C85_numbers"
   ],
   "note": "For all points. The edges and weights are computed from points in low precision; the theorem on meetings is about any points whose triangles these compare correctly, in particular the points themselves."
  },
  {
   "property": "C86",
   "status": "proved",
   "theorems": [
    "C86_schemes"
   ],
   "note": "For all points. For double-exponential integration the parameter may equal the number of the edge, as the code compares with lt only."
  },
  {
   "property": "C87",
   "status": "proved",
   "theorems": [
    "C87_intersection_matrix"
   ],
   "note": "For all branch points; no hypothesis that edges do not cross, unlike C75 for the C library."
  },
  {
   "property": "C88",
   "status": "proved",
   "theorems": [
    "C88_paths",
    "C88_ramification_points"
   ],
   "note": "For all points and base points. Whether the elementary integrals are right is not part of this property."
  },
  {
   "property": "C89",
   "status": "proved",
   "theorems": [
    "C89_differentials",
    "C89_same_as_library"
   ],
   "note": "For all degrees."
  },
  {
   "property": "C90",
   "status": "proved",
   "theorems": [
    "C90_hyperelliptic_basis",
    "C90_basis_of_unimodular_parts"
   ],
   "note": "For all branch points and m = 2. For m > 2 the principal parts need not be unimodular, and what remains of the basis is C83."
  },
  {
   "property": "C91",
   "status": "proved",
   "theorems": [
    "C91_branches_are_the_solutions",
    "C91_near_a_branch_point",
    "C91_always_answers",
    "C91_random_point"
   ],
   "note": "For all curves and all x."
  },
  {
   "property": "C92",
   "status": "partial",
   "theorems": [
    "C92_test_compares_absolute_values",
    "C92_points_accepted_partial",
    "C92_turned_points_accepted",
    "C92_other_points_refused_refuted"
   ],
   "note": "The code violates this: the test compares |y| only, so any y turned by an angle is accepted (refuted). Proved: the exact set of accepted points, and that the points of the curve are accepted."
  },
  {
   "property": "C93",
   "status": "partial",
   "theorems": [
    "C93_degrees",
    "C93_sum",
    "C93_calls_leave_divisors_alone_partial",
    "C93_first_argument_changed",
    "C93_base_point_remembered",
    "C93_same_answer_after_other_calls_refuted"
   ],
   "note": "The code violates this: '+' changes its first argument, so SE_AbelJacobi with a base point leaves its divisor with degree zero and ignores the base point of a later call (refuted). Proved: the degrees after any session, the sum, and that nothing else is changed."
  },
  {
   "property": "C94",
   "status": "proved",
   "theorems": [
    "C94_sum_over_points",
    "C94_additive",
    "C94_points_and_base_points"
   ],
   "note": "For all divisors and whatever the integrals are."
  },
  {
   "property": "C95",
   "status": "proved",
   "theorems": [
    "C95_integrals_over_an_edge",
    "C95_constant_of_the_sheet",
    "C95_gauss_chebyshev_same"
   ],
   "note": "For all branch points, all m and all linear functionals; numbers are exact, the error of the quadrature is not part of it."
  },
  {
   "property": "C96",
   "status": "proved",
   "theorems": [
    "C96_double_exponential",
    "C96_last_node_missing_refuted",
    "C96_gauss_chebyshev",
    "C96_gauss_jacobi"
   ],
   "note": "C96_last_node_missing_refuted shows that the double exponential sum leaves out the last node and its opposite"
  },
  {
   "property": "C97",
   "status": "proved",
   "theorems": [
    "C97_double_exponential",
    "C97_gauss_jacobi",
    "C97_nearest_branch_point"
   ],
   "note": "as for the periods, the double exponential sum leaves out the outermost nodes"
  },
  {
   "property": "C98",
   "status": "partial",
   "theorems": [
    "C98_hyperelliptic_periods",
    "C98_periods_partial",
    "C98_small_matrix_of_points",
    "C98_big_matrix_of_points",
    "C98_leading_coefficient_of_points_refuted",
    "C98_integration_type"
   ],
   "note": "Proved for hyperelliptic curves; for m > 2 the base of the loops is not shown to be symplectic (C90). The claim on the option LeadingCoeff of the call with points is refuted (se_period_matrix.m:28-32)."
  },
  {
   "property": "C99",
   "status": "proved",
   "theorems": [
    "C99_reduction",
    "C99_ramification_points_exact",
    "C99_point_at_infinity"
   ],
   "note": "The statement about ramification points is for runs that end; that they exist is shown for y^2 = 4x(x-1)(x-3). The case gcd(m,n) > 1 is not covered."
  },
  {
   "property": "C100",
   "status": "partial",
   "theorems": [
    "C100_coefficients",
    "C100_points",
    "C100_sum",
    "C100_value_partial",
    "C100_value_refuted"
   ],
   "note": "That the stored value is the image of the point is false of the code: C100_value_refuted. C100_value_partial gives the exact difference and the degrees for which it vanishes. That the Abel-Jacobi map vanishes on principal divisors is a hypothesis, and the map of the counterexample is one with these properties, not shown to be that of the curve. The branch for m/gcd = 1 is the subject of C101."
  },
  {
   "property": "C101",
   "status": "partial",
   "theorems": [
    "C101_points",
    "C101_values_partial",
    "C101_leading_coefficient_refuted"
   ],
   "note": "False of the code for leading coefficients other than 1: C101_leading_coefficient_refuted. C101_values_partial is the claim for an identity change matrix. That the Abel-Jacobi map vanishes on principal divisors and that the integrals are those of the curve (C97) are hypotheses; the map of the counterexample is one with these properties, not shown to be that of the curve."
  },
  {
   "property": "C102",
   "status": "partial",
   "theorems": [
    "C102_symplectic_basis",
    "C102_odd_dimension",
    "C102_error_refuted",
    "C102_wrong_basis_refuted",
    "C102_endless_refuted"
   ],
   "note": "False of the code for the condition its comment states: C102_error_refuted, C102_wrong_basis_refuted, C102_endless_refuted. C102_symplectic_basis is the claim for matrices with invertible leading blocks; that the intersection matrices of trees have this property is not proved here."
  },
  {
   "property": "C103",
   "status": "partial",
   "theorems": [
    "C103_isSymplectic",
    "C103_mumford_basis",
    "C103_sign_search",
    "C103_bases",
    "C103_edges_in_loops",
    "C103_even_degree_refuted",
    "C103_CtoAB_refuted",
    "C103_symplectic_inverse_partial",
    "C103_symplectic_inverse_refuted"
   ],
   "note": "False of the code where refuted: C103_even_degree_refuted, C103_CtoAB_refuted, C103_symplectic_inverse_refuted. That test_all_signs_C finds signs for the intersections of every tree of a hyperelliptic curve is not proved; its comment says it does not."
  },
  {
   "property": "C104",
   "status": "proved",
   "theorems": [
    "C104_max_spanning",
    "C104_max_spanning_gc",
    "C104_odd_degree",
    "C104_even_degree",
    "C104_error"
   ],
   "note": "The values tau_edge and r_edge are arbitrary weights here."
  },
  {
   "property": "C105",
   "status": "partial",
   "theorems": [
    "C105_loop_coordinates",
    "C105_symplectic_coordinates",
    "C105_even_degree_refuted"
   ],
   "note": "False of the code for even degree: C105_even_degree_refuted. The two other theorems are the claim for odd degree."
  },
  {
   "property": "C106",
   "status": "proved",
   "theorems": [
    "C106_edge_integrals",
    "C106_polshift"
   ],
   "note": "Rounding and the choice of the number of nodes (gc_n) are not modelled."
  },
  {
   "property": "C107",
   "status": "proved",
   "theorems": [
    "C107_points",
    "C107_period_sums",
    "C107_same_branch"
   ],
   "note": "Rounding and the choice of the step and the number of points (integration_parameters) are not modelled."
  },
  {
   "property": "C108",
   "status": "proved",
   "theorems": [
    "C108_abel_jacobi",
    "C108_branch_point_error"
   ],
   "note": "Rounding and the choice of the step and the number of points are not modelled."
  },
  {
   "property": "C109",
   "status": "proved",
   "theorems": [
    "C109_differentials",
    "C109_derivative",
    "C109_even_points",
    "C109_odd_points",
    "C109_odd_points_refuted"
   ],
   "note": "C109_odd_points_refuted: homog is wrong for odd degree unless a = 0 (infinity is sent to 0 in place of a/c). moebius_matrix_old and the comparison of period matrices printed by moebius_action are not modelled."
  },
  {
   "property": "C110",
   "status": "proved",
   "theorems": [
    "C110_old_and_new",
    "C110_affine",
    "C110_zero_error"
   ],
   "note": "The equality is of the polynomials of the rows at every point."
  },
  {
   "property": "C111",
   "status": "proved",
   "theorems": [
    "C111_mod_lattice",
    "C111_choice",
    "C111_abel_jacobi",
    "C111_branch_point",
    "C111_upper_sheet",
    "C111_reduction_matrix"
   ],
   "note": "That the integrals to the branch points and the stored images are those of the curve is a hypothesis of C111_abel_jacobi. Of hcUpperSheet, flags other than 0 and 1 are not modelled. That the matrix built in hcInit is invertible is a hypothesis of C111_reduction_matrix."
  }
 ]
}