{"id": "C01", "title": "Genus is the Riemann-Hurwitz genus", "statement": "After a curve y^m = f(x) with m>=2 and deg f = n>=1 is initialised, the stored genus g satisfies 2g = (m-1)(n-1) - gcd(m,n) + 1 exactly (the integer division loses nothing) and g >= 0.", "quantifier": "every degree n>=1 and every exponent m>=2 (no bound)", "why_tests_cant": "infinitely many (m,n); parity of the numerator is an arithmetic theorem, tests only sample it", "anchors": ["arb/se_curve.c:sec_init", "arb/abel_jacobi.h:sec_t"]}
{"id": "C02", "title": "Number of stored differentials equals the genus", "statement": "The numbers ni[0..nj-1] of differentials stored per power of y add up to exactly the genus, so the period matrix is g x g.", "quantifier": "every n>=2 and m>=2", "why_tests_cant": "a lattice point count depending on gcd(m,n); needs a summation theorem for all (m,n)", "anchors": ["arb/se_curve.c:sec_init", "arb/abel_jacobi.h:jmin", "arb/abel_jacobi.h:imax"]}
{"id": "C03", "title": "Stored differentials are exactly the holomorphic ones", "statement": "The pairs (i,j) enumerated by the library (1<=i<=ni for that j, j1<=j<m) are exactly those with 1<=i<=n-1, 1<=j<=m-1 and m*i + gcd(m,n) <= j*n, i.e. the holomorphic x^(i-1)dx/y^j; every enumerated j has at least one i and the counts never decrease with j.", "quantifier": "every n>=2, m>=2 and every pair (i,j)", "why_tests_cant": "unbounded family of index sets; boundary cases depend on divisibility", "anchors": ["arb/se_curve.c:sec_init", "arb/abel_jacobi.h:jmin", "arb/abel_jacobi.h:imax"]}
{"id": "C04", "title": "Curve initialisation is safe for every polynomial", "statement": "Initialising a curve from any polynomial and exponent either yields a curve or aborts cleanly: no division by zero, no undefined shift and no absurd allocation size.", "quantifier": "every degree (including constant and zero polynomials) and every m", "why_tests_cant": "the failing degrees are corner cases that ordinary curves never exercise", "anchors": ["arb/se_curve.c:sec_init", "arb/abel_jacobi.h:jmin"]}
{"id": "C05", "title": "Enough homology generators", "statement": "The number of tree edges times (m-1) is at least 2g, equals 2g when gcd(m,n)=m (n-2 edges) and equals 2g+gcd(m,n)-1 otherwise; hence the rows used for the 2g basis cycles always exist.", "quantifier": "every n>=2, m>=2", "why_tests_cant": "counting identity over all (m,n)", "anchors": ["arb/aj_struct.c:abel_jacobi_init_poly", "arb/symplectic_basis.c:symplectic_basis", "arb/spanning_tree.c:tree_init"]}
{"id": "C06", "title": "Polynomial text round trip", "statement": "Reading back the textual form of an integer polynomial (terms c*x^e separated by + and -, any order, optional blanks between terms) yields the same polynomial, for coefficients fitting in a machine word.", "quantifier": "every polynomial with word-size coefficients and every admissible printing", "why_tests_cant": "infinitely many strings", "anchors": ["arb/parse.c:fmpz_poly_parse", "arb/parse.c:accept_term"]}
{"id": "C07", "title": "A parsed sum of terms denotes the sum", "statement": "When the parser accepts a string, the polynomial obtained is the sum of the signed terms that appear in it, also when a monomial is repeated, when signs are doubled, or when the target polynomial already had coefficients.", "quantifier": "every accepted string and every previous content of the polynomial", "why_tests_cant": "infinitely many strings; failing ones look unusual", "anchors": ["arb/parse.c:fmpz_poly_parse", "arb/parse.c:accept_term"]}
{"id": "C08", "title": "The parser is total and memory safe", "statement": "For every NUL-terminated string the parser terminates, never reads past the terminator, and never writes a coefficient at a negative or out of range index.", "quantifier": "every string", "why_tests_cant": "arbitrary malformed input", "anchors": ["arb/parse.c:fmpz_poly_parse", "arb/parse.c:accept_term"]}
{"id": "C09", "title": "Symplectic reduction is a congruence", "statement": "After reducing an antisymmetric integer matrix M, the returned pair (P, M') satisfies M' = P * M * transpose(P), whatever the path of swaps, sign changes, transvections and Bezout steps taken.", "quantifier": "every size, every antisymmetric integer matrix, every g", "why_tests_cant": "the number of steps is data dependent and unbounded", "anchors": ["arb/symplectic_reduction.c:symplectic_reduction", "arb/fmpz_mat_extras.c"]}
{"id": "C10", "title": "The base change is unimodular", "statement": "The base change returned by symplectic reduction is invertible over the integers, so the new cycles generate the same lattice as the old ones.", "quantifier": "every size and every input matrix", "why_tests_cant": "determinant of a product of unboundedly many steps", "anchors": ["arb/symplectic_reduction.c:symplectic_reduction", "arb/symplectic_reduction.c:bezout_step"]}
{"id": "C11", "title": "Symplectic reduction terminates in bounds when the rank suffices", "statement": "On an antisymmetric integer matrix of rank at least 2g the reduction terminates, never indexes outside the matrix and never divides by zero.", "quantifier": "every antisymmetric matrix of rank >= 2g", "why_tests_cant": "while-loop with data dependent number of rounds; pivot search walks downwards without bound check", "anchors": ["arb/symplectic_reduction.c:symplectic_reduction", "arb/symplectic_reduction.c:pivot_line"]}
{"id": "C12", "title": "The reduced matrix is block diagonal", "statement": "After the reduction, rows and columns 0..2g-1 consist of g blocks [[0,d],[-d,0]] with d nonzero on the diagonal and zeros everywhere else.", "quantifier": "every antisymmetric matrix of rank >= 2g", "why_tests_cant": "unbounded sizes and entries", "anchors": ["arb/symplectic_reduction.c:symplectic_reduction"]}
{"id": "C13", "title": "The cycles returned are a canonical symplectic basis", "statement": "When the input form is unimodular modulo its radical with rank 2g (as an intersection form on generators of the homology is), every block of the reduced form is [[0,1],[-1,0]]: intersection number +1 between the i-th A and the i-th B cycle.", "quantifier": "every such form, any number of generators", "why_tests_cant": "depends on sign bookkeeping along every possible elimination path", "anchors": ["arb/symplectic_reduction.c:symplectic_reduction", "arb/symplectic_basis.c:symplectic_basis"]}
{"id": "C14", "title": "The self-check of the reduction detects every failure", "statement": "The test run on the reduced matrix accepts it only if it is block diagonal with blocks [[0,1],[-1,0]].", "quantifier": "every integer matrix and g", "why_tests_cant": "a checker must be right on every matrix, not on the tested ones", "anchors": ["arb/fmpz_mat_extras.c:is_symplectic_j"]}
{"id": "C15", "title": "Loops are a faithful sparse form of base change rows", "statement": "Each returned loop, read as a sum of coeff * (edge index, shift), equals the corresponding row of the base change matrix; coefficients are nonzero, edge indices and shifts are in range and strictly increasing; alpha loops come from even rows, beta loops from odd rows.", "quantifier": "every base change matrix, every g and m", "why_tests_cant": "unbounded sizes", "anchors": ["arb/symplectic_basis.c:symplectic_basis", "arb/symplectic_basis.c:set_loops", "arb/symplectic_basis.c:count_coeffs"]}
{"id": "C16", "title": "Every loop coefficient accepted is used with its value", "statement": "Whenever the loop extraction accepts a coefficient (does not abort), the period computation multiplies by that integer.", "quantifier": "every integer coefficient", "why_tests_cant": "boundary of machine-word encodings", "anchors": ["arb/symplectic_basis.c:set_loops", "arb/period_matrix.c:periods_loop", "arb/abel_jacobi.h:loop_t"]}
{"id": "C17", "title": "The intersection matrix is antisymmetric with entries -1,0,1", "statement": "The intersection matrix built from a tree and any shift data is antisymmetric, has zero diagonal and entries in {-1,0,1}.", "quantifier": "every m>=2, every tree, all shifts", "why_tests_cant": "unbounded m and number of edges; off-by-one modular cases", "anchors": ["arb/intersections_tree.c:intersection_tree", "arb/intersections_tree.c:fill_block"]}
{"id": "C18", "title": "Intersection numbers depend on the sheet difference only", "statement": "The intersection number of the k-th shift of one elementary cycle with the l-th shift of another depends only on (l-k) mod m (deck invariance), is +1 exactly when l-k = sp, -1 exactly when l-k = sm (mod m), with (sp,sm) the pair of the published table for the relative position of the two edges; edges without common end point have intersection zero.", "quantifier": "every m>=2, every pair of edges, every pair of shifts 0<=k,l<m-1", "why_tests_cant": "unbounded m", "anchors": ["arb/intersections_tree.c:intersection_tree", "arb/intersections_tree.c:fill_block"]}
{"id": "C19", "title": "No edge pair of a computed tree is rejected", "statement": "For the trees the library builds, the 'invalid tree' abort is unreachable, all matrix writes are in bounds and every incident pair of edges gets its block.", "quantifier": "every tree produced by the tree builder", "why_tests_cant": "every number of points and every weight order", "anchors": ["arb/intersections_tree.c:intersection_tree", "arb/spanning_tree.c:spanning_tree"]}
{"id": "C20", "title": "The relative sheet number is an integer", "statement": "For exact data the angle computation used for two edges with a common end point gives an exact integer (so the unique-integer abort happens only by lack of precision): rho + m*psi is an integer whenever the two branch values satisfy the curve equation.", "quantifier": "all complex numbers satisfying the relation and every m", "why_tests_cant": "uncountably many configurations", "anchors": ["arb/intersections_tree.c:shift_number", "arb/intersections_tree.c:arb_angle"]}
{"id": "C21", "title": "The chosen edges form a spanning tree", "statement": "For n points, the edge list computed is connected, acyclic, has each edge joining an already reached point a to a new point b, and reaches every point when n-1 edges are requested - whatever order the sort returned, even with NaN weights.", "quantifier": "every n>=2, every weight function, every permutation a sort may return", "why_tests_cant": "all permutations and sizes", "anchors": ["arb/spanning_tree.c:spanning_tree", "arb/spanning_tree.c:edges_init", "arb/spanning_tree.c:edge_cmp"]}
{"id": "C22", "title": "The spanning tree is maximal", "statement": "When weights are comparable and the sort is correct, the tree has maximal bottleneck: for any two points no path in the complete graph has a larger minimal weight than the tree path, and at each step the best available edge is taken.", "quantifier": "every n and weight function", "why_tests_cant": "exponentially many spanning trees", "anchors": ["arb/spanning_tree.c:spanning_tree"]}
{"id": "C23", "title": "Reported worst edge of the tree", "statement": "After building the tree the reported minimum weight and index identify an edge of the tree of smallest weight.", "quantifier": "every weight function and every previous content of the tree", "why_tests_cant": "special values (zero weight, repeated calls)", "anchors": ["arb/spanning_tree.c:spanning_tree"]}
{"id": "C24", "title": "Branch points are totally ordered", "statement": "The comparison used to sort branch points is a strict total order on pairwise distinguishable points, so that the result of sorting does not depend on the sort algorithm or on the order in which the root finder returned them.", "quantifier": "every pair and triple of complex balls", "why_tests_cant": "non-transitive triples only appear for overlapping balls", "anchors": ["arb/utils.c:acb_cmp_lex", "arb/aj_struct.c:acb_branch_points"]}
{"id": "C25", "title": "Edges denote the same roots at both precisions", "statement": "The root indices chosen when building the tree at low precision denote the same roots after the roots are recomputed and sorted at the working precision.", "quantifier": "every pair of root enclosures at two precisions", "why_tests_cant": "depends on ties in the real parts that no finite test set covers", "anchors": ["arb/aj_struct.c:abel_jacobi_compute", "arb/aj_struct.c:acb_branch_points", "arb/utils.c:acb_cmp_lex"]}
{"id": "C26", "title": "Period of a loop", "statement": "The i,j coordinate of the period of a loop is the sum over its terms of coeff * zeta^(-shift*j) * (elementary integral of that edge and coordinate), zeta = exp(2 pi I/m).", "quantifier": "every loop, every m, every table of elementary integrals", "why_tests_cant": "unbounded loops and modular exponents", "anchors": ["arb/period_matrix.c:periods_loop"]}
{"id": "C27", "title": "The period matrix is the base change applied to the generators' periods", "statement": "Column i of the A (resp. B) period matrix is the row 2i (resp. 2i+1) of the symplectic base change applied to the vector of periods of all shifted elementary cycles.", "quantifier": "every base change, tree and integral table", "why_tests_cant": "end to end composition over unbounded sizes", "anchors": ["arb/period_matrix.c:period_matrix", "arb/symplectic_basis.c:symplectic_basis"]}
{"id": "C28", "title": "Polynomial shift of moments", "statement": "The in-place moment shift replaces x_l by sum_i binom(l,i) c^(l-i) x_i for all l < len: if x_l = L(t^l) for a linear functional L, it becomes L((t+c)^l); shifting by -c undoes it.", "quantifier": "every length and every c", "why_tests_cant": "unbounded length", "anchors": ["arb/constants.c:acb_vec_polynomial_shift"]}
{"id": "C29", "title": "Geometric scaling helpers", "statement": "The geometric helpers multiply entry k by c0*c^k, add c0*c^k, or add c0*(-c)^k, for every length, touching exactly the entries 0..len-1.", "quantifier": "every length >= 1 and all c0, c", "why_tests_cant": "unbounded length; alternating signs", "anchors": ["arb/constants.c:acb_vec_mul_geom", "arb/constants.c:acb_vec_add_geom_arb", "arb/constants.c:acb_vec_sub_geom_arb"]}
{"id": "C30", "title": "Elementary integrals are rescaled to the edge", "statement": "From raw moments L_j(t^l) on [-1,1] the library produces, for each differential x^i dx/y^j of its list, (1-zeta^(-j)) / C^j * h * L_j((h(t+u))^i) with h=(b-a)/2 and u=(b+a)/(b-a): the loop integral in the original coordinate.", "quantifier": "every list of differentials, all a,b,C and all moment values", "why_tests_cant": "composition of in-place shifts and geometric factors over unbounded index sets", "anchors": ["arb/constants.c:integrals_edge_factors", "arb/constants.c:integrals_edge_factors_gc"]}
{"id": "C31", "title": "Fast root product agrees with the definition", "statement": "The fast evaluation of the product of m-th roots by tracking the winding of the product equals the product of principal m-th roots, whenever it does not ask for the fallback.", "quantifier": "every m>=2, all points and all x in ]-1,1[", "why_tests_cant": "failing cases are measure zero (product exactly on the cut)", "anchors": ["arb/mth_root_pol.c:acb_prod_turn", "arb/mth_root_pol.c:mth_root_pol_turn", "arb/mth_root_pol.c:sqrt_pol_turn"]}
{"id": "C32", "title": "Partition of the transformed roots", "statement": "The n-2 remaining roots are mapped by x -> (2x-a-b)/(b-a) and stored so that the first n1 are exactly those not known to have non-positive real part; no root is lost, duplicated or mixed with a and b.", "quantifier": "every n>=2, every pair of distinct indices, every sign oracle", "why_tests_cant": "every interleaving of the two-ended fill", "anchors": ["arb/ydata.c:ab_points"]}
{"id": "C33", "title": "Edge constant solves the curve equation", "statement": "The edge constant C satisfies C^m = (-1)^(n1+1) ((b-a)/2)^n whichever branch of the root is taken, so that f(x(t)) = (1-t^2) * (C * product of m-th roots(t))^m for all t (f monic).", "quantifier": "all root configurations, all m>=2, all t", "why_tests_cant": "uncountable input space", "anchors": ["arb/ydata.c:constant_cab", "arb/ydata.c:ydata_init_edge"]}
{"id": "C34", "title": "Bounds by subdivision are valid", "statement": "When the maximisation by subdivision returns, the returned ball contains f(x) for every x of the input interval; subdivision covers the interval.", "quantifier": "every function with sound enclosures, every interval, every depth", "why_tests_cant": "continuum of points and unbounded recursion pattern", "anchors": ["arb/mag_func.c:arb_bound_func_arb", "arb/mag_func.c:arb_subdivide"]}
{"id": "C35", "title": "Low precision maximum search explores the whole interval", "statement": "The golden section helper searches every one of the n subintervals and returns a point of the interval at least as good as all those examined.", "quantifier": "every function, interval and number of pieces", "why_tests_cant": "a function peaked outside the first piece is needed to see the failure", "anchors": ["arb/mag_func_d.c:max_func_d_gs", "arb/mag_func_d.c:golden_search"]}
{"id": "C36", "title": "Gauss-Chebyshev abscissae", "statement": "The precomputed table holds, at index k, cos((2k+1) pi/(2n)) for every k below the floor of n/2; no slot is left unwritten and no write is out of bounds, whatever the parity of n.", "quantifier": "every n >= 1", "why_tests_cant": "index arithmetic by parity and bit tricks over all n", "anchors": ["arb/gc_int.c:gc_int_init", "arb/gc_int.c:_arb_vec_cos_pi"]}
{"id": "C37", "title": "Gauss-Chebyshev sums run over all n nodes", "statement": "Using only half of the nodes and symmetry, the accumulated moments equal the full n-node Gauss-Chebyshev sum (pi/n times the sum over all n nodes of t^i/y(t)) for each i, for odd and even n.", "quantifier": "every n>=1, every number of moments, every integrand value", "why_tests_cant": "parity cases over all n", "anchors": ["arb/integrals_gc.c:gc_integrals_precomp", "arb/constants.c:acb_vec_sub_geom_arb"]}
{"id": "C38", "title": "Gauss-Chebyshev quadrature is exact on polynomials", "statement": "With exact arithmetic and constant y the n-point sum of t^k equals the integral of t^k/sqrt(1-t^2) for all k<2n.", "quantifier": "every n and every k<2n", "why_tests_cant": "unbounded n", "anchors": ["arb/gc_int.c:gc_int_init", "arb/integrals_gc.c:gc_integrals_precomp"]}
{"id": "C39", "title": "Reused Gauss-Chebyshev scheme has enough points", "statement": "When a scheme computed for one edge is reused for another, it has at least as many points as the error bound added for that edge assumes.", "quantifier": "every sequence of requested point numbers", "why_tests_cant": "depends on the order and sizes of the requests", "anchors": ["arb/integrals_gc.c:integrals_tree_gc"]}
{"id": "C40", "title": "Reused double-exponential scheme has enough points", "statement": "When a double-exponential scheme is reused for another edge it has at least as many points as that edge requested, and its step is compatible with its recorded error.", "quantifier": "every sequence of requested point numbers", "why_tests_cant": "unsigned wrap-around in the comparison; every history", "anchors": ["arb/integrals_de.c:integrals_tree_de"]}
{"id": "C41", "title": "Each edge is integrated exactly once into its own row", "statement": "Whatever order the edges are processed in, every row of the table of integrals is written once, with the integrals of the edge of the same index.", "quantifier": "every permutation of the edges", "why_tests_cant": "every order a sort may return", "anchors": ["arb/integrals_gc.c:integrals_tree_gc", "arb/integrals_de.c:integrals_tree_de"]}
{"id": "C42", "title": "Double-exponential sums match the documented rule", "statement": "The double-exponential sum uses the nodes tanh(lambda sinh(k h)) for |k| <= N where N is the number of points for which the truncation error was bounded.", "quantifier": "every N>=1", "why_tests_cant": "an off-by-one in the last node is below any test tolerance", "anchors": ["arb/integrals_de.c:de_integrals_precomp", "arb/de_int.c:de_int_init", "arb/de_params.c:de_error"]}
{"id": "C43", "title": "Double-exponential error radius dominates the published bound", "statement": "The radius added to double-exponential integrals is at least the published error bound for the same M1, M2 and step.", "quantifier": "all positive parameters", "why_tests_cant": "inequality between real functions of many variables", "anchors": ["arb/de_params.c:de_error", "arb/de_params.c:de_constant_b", "arb/de_params.c:de_constant_m1"]}
{"id": "C44", "title": "Gauss-Chebyshev parameters guarantee the tolerance", "statement": "For the chosen radius and number of points the published error bound 2 pi M/(exp(2 r n)-1) is at most a fixed multiple of 2^-prec, and the majorant used is a valid bound of the integrand on the ellipse.", "quantifier": "all positive parameters and all root configurations outside the ellipse", "why_tests_cant": "continuum of parameters", "anchors": ["arb/gc_params.c:gc_params", "arb/gc_params.c:choose_r", "arb/gc_params.c:maj_yr"]}
{"id": "C45", "title": "Small period matrix solves A tau = B (real reduction)", "statement": "Solving the complex system through two real inversions returns X with A X = B whenever it reports success.", "quantifier": "every size and every invertible system on which the intermediate inverses exist", "why_tests_cant": "all matrices", "anchors": ["arb/tau_matrix.c:acb_mat_solve_real"]}
{"id": "C46", "title": "Small period matrix solves A tau = B (characteristic polynomial fallback)", "statement": "The fallback through the characteristic polynomial returns X with A X = B.", "quantifier": "every size >= 1 and every invertible A", "why_tests_cant": "all matrices; the fallback only runs when everything else failed", "anchors": ["arb/tau_matrix.c:acb_mat_solve_charpoly"]}
{"id": "C47", "title": "Every solving strategy gives the same matrix", "statement": "Whichever strategy succeeds first, the small period matrix returned is the one of the first A tau = B solution, and failure of all of them aborts.", "quantifier": "every outcome pattern of the strategies", "why_tests_cant": "rarely executed fallbacks", "anchors": ["arb/tau_matrix.c:acb_mat_solve_multi", "arb/tau_matrix.c:tau_matrix"]}
{"id": "C48", "title": "Option flags are independent", "statement": "Repeating the verbose option any number of times changes no other option; the integration method depends only on m, n and the DE option; switches compose in any order.", "quantifier": "every sequence of options", "why_tests_cant": "all sequences", "anchors": ["arb/abel_jacobi.h", "arb/example/periods.c:main", "arb/aj_struct.c:abel_jacobi_init_poly"]}
{"id": "C49", "title": "Computation stages respect the flags", "statement": "With no-integrals the integrals, periods and tau are not touched; with no-AB no periods and no tau; with no-tau no tau; otherwise each stage only reads data produced by an earlier stage of the same run.", "quantifier": "every flag word", "why_tests_cant": "all flag combinations", "anchors": ["arb/aj_struct.c:abel_jacobi_compute"]}
{"id": "C50", "title": "Every acquired resource is released exactly once", "statement": "Over initialise, compute (any number of times, any flags) and clear, every matrix, vector and scheme initialised is cleared exactly once.", "quantifier": "every flag word and any number of compute calls", "why_tests_cant": "leaks and double frees depend on flag paths", "anchors": ["arb/aj_struct.c", "arb/tau_matrix.c:acb_mat_solve_real", "arb/homol.c", "arb/gc_int.c:gc_int_clear"]}
{"id": "C51", "title": "The command line never reads past its arguments", "statement": "For every argument vector the example program reads only existing arguments.", "quantifier": "every argument vector", "why_tests_cant": "all argument vectors", "anchors": ["arb/example/periods.c:main"]}
{"id": "C52", "title": "Command line polynomials are those documented", "statement": "--coeffs n followed by n+1 values gives the polynomial with those coefficients in the documented order; the Bernoulli and exponential families and their reversed variants have the documented degree.", "quantifier": "every n and all coefficient lists", "why_tests_cant": "all n", "anchors": ["arb/example/periods.c:main", "arb/example/periods.c:pol_bern", "arb/example/periods.c:pol_exp"]}
{"id": "C53", "title": "Reported worst error is the largest radius", "statement": "The error report prints the largest radius over all entries of the matrix and its position.", "quantifier": "every matrix", "why_tests_cant": "all matrices; ties and all-exact matrices", "anchors": ["arb/utils.c:acb_mat_print_error"]}
{"id": "C54", "title": "Closed form for two branch points", "statement": "For a curve with two branch points, the raw integral of the differential dx/y^j is set to sqrt(pi) Gamma(1-j/m)/Gamma(3/2-j/m), for every holomorphic j, and no other entry is written.", "quantifier": "every m with two branch points", "why_tests_cant": "index arithmetic over all m", "anchors": ["arb/integrals_de.c:integral_d2"]}
{"id": "C55", "title": "An edge's integrals carry their own error radius", "statement": "The error radius added to the integrals of an edge is the one computed from the branch points of that edge, also when a precomputed scheme is reused.", "quantifier": "every sequence of edges and requested point numbers", "why_tests_cant": "depends on every history of reuse", "anchors": ["arb/integrals_de.c:integrals_edge_de", "arb/integrals_de.c:integrals_tree_de"]}
{"id": "C56", "title": "Terms left out of the double-exponential sum are bounded", "statement": "For every bounded integrand factor and every number of further terms, the terms of index beyond N of the double-exponential sum are in total at most the published truncation bound.", "quantifier": "every step, lambda, exponent, cut-off, number of further terms and function bounded on [-1,1]", "why_tests_cant": "an infinite tail and a continuum of parameters", "anchors": ["arb/de_int.c:de_int_init", "arb/de_params.c:de_error", "doc/sec_paper/NumericalIntegration.tex"]}
{"id": "C57", "title": "Double-exponential parameters guarantee the tolerance", "statement": "The strip width, step and number of points chosen for a precision satisfy the conditions of the published theorem, so that the published bound is at most a fixed multiple of 2^-prec; the routine stops exactly when a branch point lies on the edge.", "quantifier": "all branch point configurations, m and precisions", "why_tests_cant": "continuum of parameters and unbounded precision", "anchors": ["arb/de_params_d.c:de_params_d", "arb/de_params.c:de_params"]}
{"id": "C58", "title": "No branch point inside the integration strip", "statement": "For the strip width chosen, the change of variable u = tanh(lambda sinh z) has no pole in the strip and its image contains none of the other branch points.", "quantifier": "every configuration of branch points outside the edge and every point of the strip", "why_tests_cant": "the strip is a continuum", "anchors": ["arb/de_params_d.c:de_params_d"]}
{"id": "C59", "title": "The extra precision compensates the rescaling of the edges", "statement": "The working precision chosen for the integration is the precision asked for plus a number of bits E such that 2^E bounds the modulus of every coefficient binom(i,l) ((a+b)/(b-a))^(i-l) ((b-a)/2)^(i+1) / C^j through which the moments of an edge enter its integrals. Hence, if the moments of an edge are known with absolute error kappa 2^-(working precision), the integrals of x^i dx / y^j over the edge are known with absolute error at most 2 (i+1) kappa 2^-(precision asked for).", "quantifier": "every exponent m, every degree n, all distinct branch points, every set of edges between them, every edge of the set, every differential of the basis, all moment vectors and all upward roundings of the magnitudes", "why_tests_cant": "the bound ranges over real branch points and all differentials; a test sees a few curves", "anchors": ["arb/ydata.c: mag_constants_edge, mag_constants_tree, extraprec_tree", "arb/aj_struct.c: abel_jacobi_compute", "arb/constants.c: integrals_edge_factors"]}
{"id": "C60", "title": "The working precision is positive", "statement": "For every positive precision asked for, the precisions derived from it for the branch points and for the integration are positive (an Arb precision must be at least 2).", "quantifier": "every squarefree polynomial of genus at least 1 and every precision", "why_tests_cant": "it depends on the size of the roots, which is unbounded", "anchors": ["arb/ydata.c: extraprec_tree", "arb/aj_struct.c: abel_jacobi_compute (lines 107-114)"]}
{"id": "C61", "title": "The Gauss-Chebyshev moments are within the radius returned", "statement": "For each edge of a hyperelliptic curve (m = 2), the moments integral over ]-1,1[ of t^i dt / (sqrt(1-t^2) ytilde(t)) exist, and the value computed by the Gauss-Chebyshev sum with the number of points chosen by the parameter function (or more) differs from the exact improper integral by at most the error radius that is added to the result; when the precision is large enough compared with the branch points the error is at most 2 * 2^-precision.", "quantifier": "every list of branch points off the segment, every number of points of each sign, every precision, every moment and every number of points at least the one chosen", "why_tests_cant": "the true value of the integral is not available to a test, and the branch points form a continuum", "anchors": ["arb/integrals_gc.c: gc_integrals_precomp, gc_integrals, integrals_edge_gc", "arb/gc_params.c: gc_params", "arb/gc_int.c: gc_int_init"]}
{"id": "C62", "title": "The edge integrals of a hyperelliptic curve contain the true integrals", "statement": "For a curve y^2 = prod (x - x_k), the ball computed for an edge (a, b) of the tree and the differential x^i dx / y contains twice the integral of x^i dx / y from a to b, along one fixed branch of y that is continuous on the edge and whose limits at the ends are the ones used to compute the intersection numbers; and if the working precision is large enough compared with the branch points, the centre of the ball is at most 4 (i+1) 2^-prec away from it, where prec is the precision asked for.", "quantifier": "every squarefree polynomial of degree at least 3, every edge and every tree, every differential, every order of the edges, every precision, and every scheme kept from another edge with enough points", "why_tests_cant": "the exact integral is not available to a test; the statement ranges over all polynomials and precisions", "anchors": ["arb/integrals_gc.c: integrals_edge_gc, integrals_tree_gc, gc_integrals_precomp", "arb/gc_params.c: gc_params", "arb/ydata.c: ydata_init_edge, extraprec_tree", "arb/constants.c: integrals_edge_factors"]}
{"id": "C63", "title": "The cycles of every curve are reduced to a symplectic basis", "statement": "For every set of distinct branch points and every tree of edges the library may choose on them, the intersection matrix of the cycles is computed, its reduction ends without fault, the base change is unimodular, and the reduced matrix consists of g blocks of intersection number +1 or -1 followed by rows of zeros, where g is the genus of the curve; the intersection numbers are all +1 when gcd(m, n) is 1 or m. In particular both period matrices are computed unless a coefficient of the base change does not fit a machine integer.", "quantifier": "every list of distinct branch points, every exponent m, every order in which the sort returns the edges, every weight of the edges, every answer of the sign tests, every extended gcd", "why_tests_cant": "branch points form a continuum and m and n are unbounded; that the form has rank 2g and no elementary divisor other than 1 is a theorem on all trees", "anchors": ["arb/intersections_tree.c: intersection_tree", "arb/symplectic_reduction.c: symplectic_reduction", "arb/symplectic_basis.c: symplectic_basis", "arb/se_curve.c: sec_init", "arb/period_matrix.c: period_matrix"]}
{"id": "C64", "title": "Periods of a hyperelliptic curve are those of a symplectic basis, to the precision asked for", "statement": "For a curve y^2 = f(x) with distinct branch points, the two period matrices returned hold, for each differential x^i dx/y and each cycle of a symplectic basis of the homology, the integral of the differential over the cycle, to within 4 (i+1) 2^-prec times the sum of the absolute values of the coordinates of the cycle on the tree; if a coordinate does not fit in a machine integer, the program stops instead of returning matrices.", "quantifier": "every list of at least three distinct branch points, every order chosen by the sorting routine, every weight of the edges, every precision", "why_tests_cant": "the statement compares every returned entry with an exact integral for every curve and every precision; tests compare a few curves with stored digits", "anchors": ["arb/aj_struct.c: abel_jacobi_compute", "arb/integrals_gc.c: integrals_tree_gc", "arb/symplectic_basis.c: symplectic_basis", "arb/period_matrix.c: period_matrix", "arb/intersections_tree.c: intersection_tree"]}
{"id": "C65", "title": "Double-exponential sums converge to the integrals of the differentials", "statement": "For every edge that does not go through another branch point, the sum of weighted values computed by the double-exponential rule differs from the improper integral of x^i dx / y^j by at most the truncation error plus 4/3 of the discretization error of the published theorem; so at every precision the computation of the integrals of the edge ends, and its error on x^i dx / y^j is at most a constant times 2^(-p (m-j)/(m-1)), p being the working precision.", "quantifier": "every exponent m, every list of distinct branch points, every edge free of other branch points, every differential, every precision, every choice of root evaluation", "why_tests_cant": "a limit over all precisions and a bound over a continuum of branch points; tests compare finitely many integrals", "anchors": ["arb/de_int.c: de_int_init", "arb/integrals_de.c: integrals_edge_de, de_integrals_precomp", "arb/de_params_d.c: de_params_d", "arb/constants.c: integrals_edge_factors"]}
{"id": "C66", "title": "Periods of a superelliptic curve tend to those of a basis of the homology", "statement": "For a curve y^m = f(x) with distinct branch points integrated by the double-exponential rule, the computation ends at every precision p, and each entry of both period matrices, for the differential x^i dx / y^j and the k-th cycle of the basis found, differs from the integral of the differential over the cycle by at most K 2^(-p (m-j)/(m-1)) times the sum of the absolute values of the coordinates of the cycle, where K depends on the curve only; if a coordinate does not fit in a machine integer, the program stops instead of returning matrices.", "quantifier": "every exponent m, every list of at least three distinct branch points, every order chosen by the sorting routine, every precision, every choice of root evaluation, with or without sharing of the scheme between edges", "why_tests_cant": "the statement compares every returned entry with an exact integral for every curve and every precision", "anchors": ["arb/aj_struct.c: abel_jacobi_compute", "arb/integrals_de.c: integrals_tree_de", "arb/spanning_tree.c: spanning_tree", "arb/symplectic_basis.c: symplectic_basis", "arb/period_matrix.c: period_matrix"]}
{"id": "C67", "title": "No edge of the tree goes through another branch point", "statement": "Whatever the position of the branch points, aligned or not, no edge chosen for the tree has another branch point on it, with the weights of either integration method; hence each scaled branch point is off the segment [-1,1], the parameters of the double-exponential rule are found without an abort, and the ellipses of Gauss-Chebychev are not flat.", "quantifier": "every list of at least three distinct branch points, every order chosen by the sorting routine among edges of equal weight", "why_tests_cant": "branch points form a continuum; aligned points are exceptional and are not met by random tests", "anchors": ["arb/spanning_tree.c: spanning_tree, edges_init, endvalues_edge", "arb/spanning_tree.c: param_de_tau, param_gc_r", "arb/de_params_d.c: de_params_d"]}
{"id": "C68", "title": "Period balls of a hyperelliptic curve contain the periods", "statement": "If the balls given for the branch points contain distinct points, then each entry of both period matrices returned for y^2 = f(x) is a ball that contains the exact period of the corresponding differential on the corresponding cycle of one and the same basis of the homology, whatever the roundings inside the ball operations; otherwise the program stops.", "quantifier": "every ball arithmetic whose operations enclose the exact ones, every list of input balls with distinct points in them, every precision, every choice of square root, every order chosen by the sorting routine", "why_tests_cant": "an enclosure must hold for every rounding, every curve and every point of the input balls; a test compares finitely many balls with each other", "anchors": ["arb/aj_struct.c: abel_jacobi_compute", "arb/integrals_gc.c: integrals_edge_gc, gc_integrals_precomp", "arb/ydata.c: tree_ydata_init", "arb/intersections_tree.c: intersection_tree", "arb/period_matrix.c: period_matrix"]}
{"id": "C69", "title": "Period balls of a superelliptic curve contain the periods", "statement": "The same for y^m = f(x) integrated by the double-exponential rule, if the radius added for an edge is at least the error of the rule on the edges that use it: each entry of both period matrices is a ball that contains the exact period.", "quantifier": "every exponent m, every ball arithmetic whose operations enclose the exact ones, every list of input balls with distinct points in them, every precision, every choice of root evaluation, with or without sharing of the scheme between edges", "why_tests_cant": "an enclosure must hold for every rounding, every curve and every point of the input balls", "anchors": ["arb/integrals_de.c: integrals_edge_de, de_integrals_precomp", "arb/de_int.c: de_int_init", "arb/mth_root_pol.c: mth_root_pol_prod, mth_root_pol_turn", "arb/period_matrix.c: period_matrix"]}
{"id": "C70", "title": "Intersections computed on balls are the exact ones, or the program stops", "statement": "Whatever the size of the balls, the data of the edges and the intersection matrix are computed without an out-of-bounds access and without an endless loop, or the program stops; when the matrix is computed it is that of the exact branch points.", "quantifier": "every ball arithmetic whose operations enclose the exact ones, every list of input balls with distinct points in them, every exponent, every tree chosen by the program, every precision", "why_tests_cant": "balls of every size and position must be considered; a wrong integer in the matrix is a wrong basis", "anchors": ["arb/ydata.c: ydata_init_edge, constant_cab", "arb/intersections_tree.c: acb_vec_angle, shift_number, is_neg_abad, intersection_tree"]}
{"id": "C71", "title": "Roots of products evaluated on balls contain the exact ones", "statement": "On balls, the product of the m-th roots of the factors returned by each of the three evaluations (root by root, through logarithms, by counting turns around 0) contains the exact product of principal roots.", "quantifier": "every ball arithmetic whose operations enclose the exact ones, every list of balls, every exponent, every position of the points", "why_tests_cant": "the count of turns fails only on balls that straddle the real axis, which random points do not give", "anchors": ["arb/mth_root_pol.c: mth_root_pol_def, mth_root_pol_prod, mth_root_pol_turn, sqrt_pol_turn, acb_vec_prod_turn, sgn_imag"]}
{"id": "C72", "title": "Number of points and radius computed on balls are valid for every point of the balls", "statement": "The number of points and the error radius returned for an edge by the Gauss-Chebyshev parameter search, computed on 32-bit balls and on doubles, are valid for all the branch points that the balls contain: with at least that number of points every moment is within 2^-prec of its integral, and within the radius returned. Hence the period balls of a hyperelliptic curve computed with these parameters contain the periods.", "quantifier": "every ball arithmetic whose operations enclose the exact ones, every choice of ellipse made on doubles, all balls, every precision and number of moments", "why_tests_cant": "depends on rounding errors and on a heuristic choice in double precision, for a continuum of positions of the branch points", "anchors": ["arb/gc_params.c: gc_params, arb_func_r_gc, arb_vec_r, maj_yr, choose_r", "arb/integrals_gc.c: integral_gc"]}
{"id": "C73", "title": "The balls of the small period matrix contain the exact matrix, for all matrices in the period balls", "statement": "When the small period matrix is computed from balls of A- and B-periods by the complex solver or by one of the two reductions to real matrices, every matrix of A-periods contained in the balls is invertible, and the returned balls contain the entries of the unique matrix t with A t = B, whatever A and B in the balls. The fourth method, based on the characteristic polynomial, should satisfy the same (it does not). Combined with the computation of the periods: from balls of branch points to balls of tau.", "quantifier": "every ball arithmetic and matrix library whose functions enclose the exact ones, every genus, all balls", "why_tests_cant": "a continuum of matrices in the balls, and the fallback methods are only reached when the solver fails", "anchors": ["arb/tau_matrix.c: tau_matrix, acb_mat_solve_multi, acb_mat_solve_real, acb_mat_solve_charpoly"]}
{"id": "C74", "title": "The constant M2 bounds the differentials over the whole strip", "statement": "The bound computed by a search along one side of the integration strip, on a quarter of it and with the points replaced by their absolute values, is at least |x^i/y| at every point of the image of the strip, for every differential x^i dx/y that is integrated with it; so with the number of points chosen for the precision the double exponential rule is within a constant times this bound times 2^-prec of every such integral. (The bound is computed for the largest exponent only: it holds for it, and for smaller ones only up to a power of the distance from 0 to the sides.)", "quantifier": "every list of points outside the strip, every exponent, every sound evaluation on balls, every point of the strip", "why_tests_cant": "a maximum over an unbounded domain that is only searched on a quarter of its boundary; needs the maximum principle", "anchors": ["arb/de_params.c: de_constant_m2, max_f, de_error, de_params", "arb/mag_func.c: arb_bound_func_arf"]}
{"id": "C75", "title": "The intersection matrix holds the intersection numbers of the loops", "statement": "For every curve and every tree the builder returns, the entry of the intersection matrix for loop u of edge k and loop v of edge l is the intersection number, on the Riemann surface y^m = prod (x - x_k), of the two loops lifted over the edges: counted by their crossings at common branch points, where y is a coordinate and one of them is moved slightly to its left, and at the points where the edges cross. So the cycles chosen by the reduction form a canonical basis for the intersection numbers. (Refuted when two edges of the tree cross: the matrix is right exactly when they do not.)", "quantifier": "all branch points, all m >= 2, both sets of weights, every sort, every pair of loops", "why_tests_cant": "the surface and the sheets change with every configuration, and a wrong entry gives a period matrix of the right shape on a wrong basis; crossing edges are rare in random tests", "anchors": ["arb/intersections_tree.c: intersection_tree, shift_number", "arb/spanning_tree.c: spanning_tree", "arb/symplectic_reduction.c: symplectic_reduction"]}
{"id": "C76", "title": "Edges of the spanning tree meet only at common branch points", "statement": "Two edges of the tree returned for distinct branch points have no point in common except an end of both, so that the tree is embedded in the plane. (Refuted: with the weights of Gauss-Chebychev two edges of the tree of seven points cross. Proved: two edges that meet elsewhere cross transversally inside both and share no end; on a line, or with two edges, they do not.)", "quantifier": "all branch points, both sets of weights, every sort and every number of edges", "why_tests_cant": "depends on real comparisons between all triples of points; random configurations almost never show a crossing", "anchors": ["arb/spanning_tree.c: spanning_tree, param_edge, edges_init"]}
{"id": "C77", "title": "The search for Gauss-Chebychev parameters ends with parameters", "statement": "For every hyperelliptic curve with distinct branch points and every precision, the search for the ellipse and the number of points of each edge ends and returns parameters: it neither aborts nor runs for ever when no branch point is on the edge. (Refuted twice: for every precision of at least 8 bits there is an integer polynomial for which the program aborts because a radius becomes the logarithm of a negative number, and there are five real branch points for which the search with exact numbers comes back to the same radius for ever. Proved: it ends in two rounds when the ratio of the distances of the branch points is at most a power of the tolerance, and always for one other point.)", "quantifier": "all branch points, edges, precisions and numbers of rounds", "why_tests_cant": "termination of a search over real numbers; the failing configurations depend on the precision", "anchors": ["arb/gc_params.c: gc_params, maj_yr, choose_r", "arb/integrals_gc.c: integrals_tree_gc"]}
{"id": "C78", "title": "The period matrices are those of the polynomial given, whatever its leading coefficient", "statement": "For every squarefree integer polynomial f the two period matrices computed for y^m = f(x) hold the integrals of the differentials x^i dx / y^j of this curve over the cycles of the basis, also when f is not monic. (Refuted: only the roots of f are used, so the row of x^i dx / y^j is multiplied by s^j, where s^m is the leading coefficient; for y^2 = 2x^3 - 2x the first entry is at a distance of more than 1/2 from every period at every precision. Proved: this is the only error, the small period matrix is not affected, and monic polynomials are treated correctly.)", "quantifier": "all polynomials, exponents, precisions, and all sheets and cycles of the curve", "why_tests_cant": "a statement about integrals over all cycles of the curve; a wrong constant factor in each row still gives a symmetric small period matrix, so consistency checks pass", "anchors": ["arb/aj_struct.c: abel_jacobi_init_poly, abel_jacobi_compute", "arb/se_curve.c: sec_init_poly", "arb/example/periods.c: main"]}
{"id": "C79", "title": "Printed matrices and trees read back", "statement": "The text printed with option --gp is read by PARI/GP as the matrix of the midpoints, entry by entry, up to the decimal rounding; the text printed with option --tree is read as the list of the edges; the text of a loop determines the loop. (Refuted in two cases: a matrix with one row, as for every curve of genus 1, is read as a vector and not as a matrix; an entry that is not a number is printed as 0.)", "quantifier": "all matrices (any size, any finite midpoints), all trees, all loops", "why_tests_cant": "signs, zero parts, separators and exponents combine in unboundedly many ways, and the reading depends on all of the text", "anchors": ["arb/utils.c: _acb_vec_arf_printd, acb_mat_print_gp", "arb/spanning_tree.c: tree_print", "arb/homol.c: loop_print", "arb/example/periods.c: main (option --gp, --tree)"]}
{"id": "C80", "title": "The small period matrix is a Riemann matrix", "statement": "For the two period matrices A and B computed for the curve, A is invertible, and the solution tau of A tau = B is symmetric with positive definite imaginary part, so that it is a point of the Siegel upper half space and theta functions at tau converge.", "quantifier": "all exponents, all squarefree polynomials, and all choices made by the oracles (order of the roots, sort, extended gcd)", "why_tests_cant": "a quadratic relation between all the entries, for matrices of unbounded size; a test sees finitely many curves at a finite precision", "anchors": ["arb/aj_struct.c: abel_jacobi_compute", "arb/integrals_de.c: integral_d2", "arb/symplectic_reduction.c: symplectic_reduction", "arb/period_matrix.c: period_matrix"]}
{"id": "C81", "title": "Exact periods for two branch points", "statement": "For a curve y^m = f(x) with f monic of degree 2 and m >= 3, computed without option --de, the period matrices hold the integrals of the differentials dx / y^j over a symplectic basis of cycles, with no error of discretization: whatever the precision, the only error is that of the ball operations. If f is not monic the row of dx / y^j is multiplied by s^j, s^m the leading coefficient.", "quantifier": "all m >= 3, all squarefree polynomials of degree 2, all exponents j, all cycles", "why_tests_cant": "an identity between improper integrals and Gamma values, for every exponent j/m and every cycle of a basis of unbounded size", "anchors": ["arb/integrals_de.c: integral_d2", "arb/aj_struct.c: abel_jacobi_init_poly, abel_jacobi_compute"]}
{"id": "C82", "title": "Balls of the periods for two branch points", "statement": "For a curve y^m = f(x) with f monic of degree 2 and m >= 3, computed without option --de: whatever the precision and the size of the balls found for the roots, the program stops with an error message because a ball is too large, or it returns balls, each of which contains the period of the curve for its differential and its cycle. No other condition is needed. If f is not monic the row of dx / y^j contains s^j times the period, s^m the leading coefficient.", "quantifier": "all m >= 3, all squarefree polynomials of degree 2, all precisions, all balls that contain the roots, all rounding errors that Arb allows", "why_tests_cant": "it quantifies over every enclosure of the roots and every rounding of the ball operations; a test sees one centre and one radius", "anchors": ["arb/integrals_de.c: integral_d2", "arb/aj_struct.c: abel_jacobi_compute", "arb/ydata.c: ydata_init_edge", "arb/period_matrix.c: period_matrix"]}
{"id": "C83", "title": "Symplectic basis of the Magma package", "statement": "For every antisymmetric integer matrix K, the Magma function SymplecticBasis(K) stops and returns a unimodular matrix S such that S K S^T is the standard form: identity and minus identity in the blocks of the g cycles A and the g cycles B, zero elsewhere. Other square matrices are rejected.", "quantifier": "all square integer matrices, of every size", "why_tests_cant": "the reduction only looks for entries equal to 1; whether one always turns up depends on every intermediate matrix, for all sizes and entries", "anchors": ["magma/se_periods/se_symplectic_basis.m: SymplecticBasis", "magma/se_periods/se_symplectic_basis.m: RS_InplaceMoveToPositivePivot", "magma/se_periods/se_symplectic_basis.m: RS_FindSmallestElementPosition"]}
{"id": "C84", "title": "One branch along an edge in the Magma package", "statement": "Along an edge that contains no other branch point, the values AC_mthRoot returns for the parameters t in [-1,1] are those of one continuous function, and with the constant stored in the edge they are m-th roots of 2^n f(x)/(1-t^2). The evaluation AC_mthRoot2 by logarithms returns the same values up to one fixed root of unity per edge, which is 1 except when the first two points are real and lie behind the edge.", "quantifier": "all m >= 2, all finite lists of at least three points, all pairs of points, all t in [-1,1]", "why_tests_cant": "the winding number is updated from signs of imaginary parts at every factor: a mistake shows only for some position of all the points and of t", "anchors": ["magma/se_periods/se_anal_cont.m: AC_mthRoot, AC_mthRoot2, ImSgn", "magma/se_periods/se_spanning_tree.m: EdgeData", "magma/se_periods/se_help_funcs.m: SortByRealPart"]}
{"id": "C85", "title": "Shortest spanning tree of the Magma package", "statement": "SE_Curve always finds a spanning tree: n-1 edges, each from a point already reached to a new one, reaching all branch points. No other connected set of edges has a smaller total length. Consequently no branch point lies inside an edge and two edges never meet except at a common end, and the numbers stored with the edges and with the tree (worst and best edge) are the exact least distances of the other points, with which the integration parameters always exist.", "quantifier": "all finite lists of distinct branch points, both integration types, any order of edges of equal length, any approximation of the branch points that compares sides of triangles correctly", "why_tests_cant": "a tree with a crossing or a point inside an edge occurs for special positions only; the C library, which grows its tree by other weights, does return crossing edges (C75)", "anchors": ["magma/se_periods/se_spanning_tree.m: SpanningTree, RS_CompareEdge, DE_Edge_Weight, GJ_Edge_Weight, FlipEdge"]}
{"id": "C86", "title": "Integration schemes of the Magma package", "statement": "For all branch points the Magma package finds its integration schemes without failing an assertion or reading out of range, and gives each edge of the tree the scheme with the largest parameter that the edge allows: at most the number stored with the edge (less than it and more than 1 for Gauss-Jacobi integration, positive for double-exponential integration), so that no other branch point lies inside the domain for which the number of integration points is chosen.", "quantifier": "all finite lists of at least three distinct branch points, all exponents, both integration types, any order of edges of equal length", "why_tests_cant": "a scheme whose parameter is too large for one edge gives periods that are wrong in the last digits for that edge only; which edges share a scheme depends on thresholds between real numbers", "anchors": ["magma/se_periods/se_spanning_tree.m: GJ_Params_Tree, DE_Params_Tree, SpanningTree", "magma/se_periods/se_help_funcs.m: IntGroups"]}
{"id": "C87", "title": "Intersection matrix of the Magma package", "statement": "For all branch points and all exponents the Magma package computes its intersection matrix without an error, and each entry is the intersection number of the two loops lifted over edges of its tree, on the sheets that the stored data of the edges define.", "quantifier": "all finite lists of at least three distinct branch points with a low precision copy that orders the sides of triangles alike, all m >= 2, both integration types, any order of edges of equal length", "why_tests_cant": "a wrong sign or shift at one angle between two edges gives a matrix that still looks plausible; the cases depend on arguments of complex numbers and on which sheet the root is on at each end", "anchors": ["magma/se_periods/se_intersection.m: SE_IntersectionMatrix, SE_IntersectionNumber", "magma/se_periods/se_period_matrix.m: SE_PeriodMatrix", "magma/se_periods/se_spanning_tree.m: TreeData"]}
{"id": "C88", "title": "Paths of the Abel-Jacobi map of the Magma package", "statement": "For all branch points and every base point, the matrix of paths that the Magma package computes from its tree has in row i the one combination of edges that goes from the base point to the i-th branch point; so the vector of a ramification point is, modulo periods, the value of the Abel-Jacobi map, whenever the elementary integrals are right modulo periods.", "quantifier": "all finite lists of at least two branch points, both integration types, any order of edges of equal length, every base point, all elementary integrals, all lattices", "why_tests_cant": "which edges start or end at which point depends on the tree; a wrong direction of one edge changes only the rows behind it", "anchors": ["magma/se_periods/se_abel_jacobi.m: SE_TreeMatrix, SE_RamificationPoints_AJM"]}
{"id": "C89", "title": "Genus and holomorphic differentials of the Magma package", "statement": "For all degrees m and n, creating a curve with the Magma package is refused exactly if m < 2 or n < 3; otherwise its genus g has 2g = (m-1)(n-1) - gcd(m,n) + 1, its list of differentials describes exactly the holomorphic differentials x^(i-1) dx / y^j, they number g, its list of exponents has the exponent j of each of them in order, and all of this is the same as what the C library computes.", "quantifier": "all degrees m and n (all integers); for the agreement with the C library the degrees its machine integers can hold", "why_tests_cant": "the rounding of the first exponent and of each count depends on gcd(m,n) and on the remainders of j n modulo m, for all m and n", "anchors": ["magma/se_periods/se_curve.m: SE_Curve (Genus, HolomorphicDifferentials)"]}
{"id": "C90", "title": "The Magma package finds a symplectic basis for every hyperelliptic curve", "statement": "For y^2 = f(x) with at least three distinct roots, whatever they are, the Magma package computes the spanning tree, the data of its edges, the intersection matrix and a base change without failing; the matrix is that of the intersection numbers of the lifted loops, and the base change is an integer matrix with an integer inverse after which the first g loops and the next g loops meet as in the standard form and the remaining ones meet none, where g = (n-1) div 2 is the genus. (For matrices that do not come from a curve this fails: C83.)", "quantifier": "all sequences of at least three distinct complex branch points, all results of the sort, both integration types", "why_tests_cant": "the search of the package only uses entries equal to 1; that such entries never run out before the rank is reached is a statement about the trees of all sets of points", "anchors": ["magma/se_periods/se_symplectic_basis.m: SymplecticBasis", "magma/se_periods/se_intersection.m: SE_IntersectionMatrix", "magma/se_periods/se_spanning_tree.m: SpanningTree, TreeData"]}
{"id": "C91", "title": "The Magma package lists exactly the points of the curve above x", "statement": "For every curve y^m = f(x) and every x that is a branch point or at least the error of the curve away from all of them, SE_Branches answers with a list of m values, which contains every solution of y^m = f(x) and nothing else, without repetition unless x is a branch point; closer to a branch point it answers with the values above that branch point; it never fails; and a random point is on the curve.", "quantifier": "all degrees m >= 2, leading coefficients, branch points and complex numbers x", "why_tests_cant": "it is about every complex x and every f, including those near the branch cut of the logarithm", "anchors": ["magma/se_periods/se_abel_jacobi.m: SE_Branches", "magma/se_periods/se_curve.m: SE_RandomPoint", "magma/se_periods/se_help_funcs.m: Distance"]}
{"id": "C92", "title": "Which points the Magma package accepts in a divisor", "statement": "A point (x, y) given to SE_Divisor is accepted if it is on the curve and refused if it is further than the error from the curve.", "quantifier": "all curves y^m = f(x), all x that are branch points or at least the error of the curve away from them, all y", "why_tests_cant": "it is about all points of the plane, on the curve or not", "anchors": ["magma/se_periods/se_curve.m: IsPoint, SE_Divisor"]}
{"id": "C93", "title": "Divisors of the Magma package are values", "statement": "After any sequence of calls the degree of each divisor is the sum of its multiplicities, the sum of two divisors has the points of both, no call changes a divisor that existed before, and the Abel-Jacobi map of a divisor with a given base point does not depend on the calls made before.", "quantifier": "all sequences of calls of SE_Divisor, '+' and SE_AbelJacobi, on all curves", "why_tests_cant": "it is about all histories; each call alone gives the right answer", "anchors": ["magma/se_periods/se_curve.m: SE_Divisor, '+'", "magma/se_periods/se_abel_jacobi.m: SE_AbelJacobi (with base point)"]}
{"id": "C94", "title": "The Abel-Jacobi map of the Magma package is a homomorphism", "statement": "For every divisor of degree zero SE_AbelJacobi answers with 2g numbers between -1/2 and 1/2 which are, up to integers, the sum over its points of the multiplicity times the value of the point: the value stored for a point at infinity, that of the next branch point for a finite point, plus the lattice coordinates of the integral between them unless they are closer than the error; the map is additive and independent of the order of the points; with two points P and Q the answer is the value of Q minus that of P.", "quantifier": "all curves, all divisors of degree zero, all integrals", "why_tests_cant": "it is about all divisors, and about reductions modulo the lattice at several places", "anchors": ["magma/se_periods/se_abel_jacobi.m: SE_AbelJacobi, PeriodLatticeReduction"]}
{"id": "C95", "title": "Integrals over the edges and loops of the Magma package", "statement": "From the quadrature sums over [-1,1] the package computes the integrals of all holomorphic differentials x^(i-1) dx/y^j along the edge, on the sheet that the data of the edge fix and the intersection numbers use, and the integrals over the m-1 loops around the edge; for m = 2 the separate Gauss-Chebyshev code gives the same numbers.", "quantifier": "all lists of at least three branch points, all pairs of distinct points, all m >= 2, all quadratures (linear functionals)", "why_tests_cant": "it is an identity for all edges, exponents and branches of the logarithm; a wrong sheet shows only for some positions of the points", "anchors": ["magma/se_periods/se_de_int.m: DE_Integrals_Factor", "magma/se_periods/se_gj_int.m: GC_Intergrals_Factor, GJ_Integrals_Tree", "magma/se_periods/se_help_funcs.m: PolynomialShiftVector"]}
{"id": "C96", "title": "Quadrature sums of the Magma package", "statement": "On every edge with no other branch point on its segment the package computes, for one continuous branch Y of the curve over the edge, the double exponential sum over the nodes |k| <= N-1, the N-point Gauss-Chebyshev sum (m = 2) or the symmetric Gauss-Jacobi sum of every holomorphic differential x^i dx/Y^j, and no run fails. The double exponential scheme has the nodes |k| <= N, but the two outermost ones are never summed, which changes the value.", "quantifier": "all lists of at least three branch points, all clear edges, all m >= 2, all steps, lambda and numbers of nodes, all Gauss-Jacobi nodes in ]-1,1[ and weights", "why_tests_cant": "it is an identity for all curves and all schemes; near-correct sums (a wrong sign at -x, a missing node, a wrong sheet) agree with the integral to many digits", "anchors": ["magma/se_periods/se_de_int.m: DE_IntegrationPoints, DE_Integrals, DE_Integrals_Edge", "magma/se_periods/se_gj_int.m: GC_Integrals, GC_Integrals_Edge, GJ_IntegrationPoints (Chebyshev abscissas), GJ_Integrals, GJ_Integrals_Edge"]}
{"id": "C97", "title": "Abel-Jacobi integrals to a point of the curve (Magma package)", "statement": "For a point (p,py) of y^m = lc*prod(x-x_k) and a branch point x_a such that no other branch point lies on the segment from x_a to p (in particular for the nearest one), the package finds the sheet of the curve over this segment that ends in py, even if py is given with an error of argument below pi/m, and returns the double exponential sum (nodes |k| <= N-1) or the Gauss-Jacobi sum of every holomorphic differential x^i dx/y^j along this sheet, leading coefficient included; no run fails.", "quantifier": "all lists of at least three branch points, all m >= 2, all nonzero leading coefficients, all points other than the branch point, all steps, lambda, numbers of nodes, all Gauss-Jacobi nodes in ]-1,1[ and weights", "why_tests_cant": "the sheet is chosen by rounding a difference of two principal arguments; a wrong choice on some configuration of points gives a value that is plausible and only wrong by a root of unity", "anchors": ["magma/se_periods/se_de_int.m: DE_IntegrationPoints (ExtraFactors), DE_Integrals_Factor_AJM, DE_Integrals_AJM, DE_Integrals_Edge_AJM", "magma/se_periods/se_gj_int.m: GJ_Integrals_AJM, GJ_Integrals_Edge_AJM", "magma/se_periods/se_spanning_tree.m: EdgeData (edge to a point)", "magma/se_periods/se_curve.m: DifferentialChangeMatrix", "magma/se_periods/se_abel_jacobi.m: SE_AbelJacobi (lines 178, 236)"]}
{"id": "C98", "title": "The period matrices of the Magma package are the sums over a symplectic basis of the loops, and the leading coefficient is dropped for lists of points", "statement": "For y^2 = f(x) with at least three distinct branch points SE_BigPeriodMatrix always ends, for every choice of integration schemes that fits. Its g rows are the holomorphic differentials and its 2g columns a symplectic basis of the loops: the entry of x^i dx/y is the sum over the loops of the basis vector of the quadrature sums along the edges, on the same sheets for which the intersection numbers were counted, with y^2 = lc * prod (x - x_i). For y^m = f(x) the call ends with an error or with matrices of the same kind for the base that was found. If returned, the small period matrix takes the A-columns to the B-columns and is symmetric up to the error, and the reduction matrix gives the coordinates of every vector of C^g in the 2g columns. SE_SmallPeriodMatrix on a list of points equals the one on the polynomial for every leading coefficient. SE_BigPeriodMatrix on a list of points ignores the option LeadingCoeff, so that its rows are off by the factor lc^(j/m).", "quantifier": "every list of at least three distinct points and their low precision versions, every m >= 2, every leading coefficient, every integration type and family of schemes, every sort, rank and inverse that do what they say, every error bound", "why_tests_cant": "Every step has a hidden choice: the tree, the sheet over each edge, the order of the loops in the matrix, the base of the loops. A wrong index between period table and intersection matrix still gives matrices of the right size, and often even ones with positive imaginary part. The dropped option is only seen by comparing the two calls for a leading coefficient other than one.", "anchors": ["magma/se_periods/se_period_matrix.m: SE_BigPeriodMatrix, SE_SmallPeriodMatrix, SE_PeriodMatrix", "magma/se_periods/se_de_int.m: DE_Integrals_Tree", "magma/se_periods/se_gj_int.m: GJ_Integrals_Tree", "magma/se_periods/se_curve.m: SE_Curve"]}
{"id": "C99", "title": "Reduction modulo periods is faithful in the Magma package, and for coprime degrees the fractions stored for the ramification points are exact", "statement": "PeriodLatticeReduction returns 2g numbers between -1/2 and 1/2 that are the coordinates of the vector up to a period; two vectors differ by a period exactly when the returned numbers differ by integers, and the 2g columns of the period matrix are linearly independent over the reals whenever the reduction matrix exists. For y^m = f(x) with m and n = deg f coprime, the fractions with denominator at most m that are stored in place of the images of the ramification points under the Abel-Jacobi map are exact: the entry of point i has a denominator that divides m, lies between -1/2 and 1/2 and equals the integral along the path of the tree from the base point to point i up to a period, whatever the errors of the quadrature rules are. The entry for the point at infinity does not depend on the coefficients that Xgcd finds: it is the only value, modulo periods, that m times gives 0 and n times gives the sum of the ramification points.", "quantifier": "every vector, every period matrix with a reduction matrix; every list of at least three distinct points, m >= 2 coprime to their number, every leading coefficient, base point, family of schemes, sort, rank, inverse and best approximation that do what they say", "why_tests_cant": "BestApproximation always returns some fraction, also when the number it is given is wrong; that the number is within rounding of a multiple of 1/m depends on the relation between the integrals along the edges and the base of the loops, for every tree and base. A test compares with other values of the same program.", "anchors": ["magma/se_periods/se_abel_jacobi.m: SE_RamificationPoints_AJM, SE_TreeMatrix", "magma/se_periods/se_abel_jacobi.m: PeriodLatticeReduction", "magma/se_periods/se_period_matrix.m: SE_PeriodMatrix"]}
{"id": "C100", "title": "The Abel-Jacobi images of the points at infinity in the Magma package are right only for some degrees, and depend on which point is asked for first", "statement": "For y^m = lc prod (x - x_i) with delta = gcd(m,n) points at infinity, SE_AJM_InftyPoints(k) should store the image of the k-th point at infinity modulo periods. The number stored as the sum of all these points is that sum, whatever coefficients Xgcd finds. The affine points the code computes for the k-th point are exactly the points of the curve outside the axes at which the function r - r(k) - t of the code vanishes. The value stored by the first call differs from the image of the point by (1+b) times the sum of the points at infinity, where b is the coefficient of n the code uses: it is right if m/delta divides n/delta + 1, in particular for m/delta = 2, and wrong if (1+b) times the sum is not a period. Where it is wrong the stored values also depend on the order of the calls.", "quantifier": "every list of distinct points, every m with delta >= 2 and m/delta >= 2, every leading coefficient, pair of coefficients from Xgcd, point k, state of the list of known values, and map that vanishes on the divisors of the functions involved", "why_tests_cant": "the images of points at infinity have no closed form to compare with, the values look equally plausible when they are wrong, and the order of calls in which the last point is obtained by subtraction hides the error: the values always add up to the stored sum", "anchors": ["magma/se_periods/se_infty_points.m: SE_AJM_InftyPoints", "magma/se_periods/se_abel_jacobi.m: SE_RamificationPoints_AJM"]}
{"id": "C101", "title": "When m divides n the Magma package gets the points at infinity right for monic polynomials only", "statement": "For y^m = lc prod (x - x_i) with n points, m dividing n and the sum of the x_i not zero, one call of SE_AJM_InftyPoints stores the images of all m points at infinity under the Abel-Jacobi map: the affine points it integrates to are exactly the points of the curve with y = w x^(n/m), x not zero, w^m = lc, and multiplying their integrals by roots of unity gives the other points, each stored at its place. This holds when the change matrix of the differentials is the identity, as for lc = 1. In general it fails: the integrals are reduced modulo periods without that matrix, by which SE_AbelJacobi multiplies.", "quantifier": "every list of branch points whose length is a multiple of m, every m, reduction matrix, coefficients of Xgcd, list of exponents, and map that vanishes on the divisors of the functions involved and is given at affine points by the integrals", "why_tests_cant": "values of points at infinity cannot be looked up, and curves in tests tend to be monic; the relation between the sheets, the order of the list and the sign of the powers must hold for every m and n", "anchors": ["magma/se_periods/se_infty_points.m: SE_AJM_InftyPoints (lines 49-162)", "magma/se_periods/se_abel_jacobi.m: SE_AbelJacobi (line 236), PeriodLatticeReduction", "magma/se_periods/se_curve.m: DifferentialChangeMatrix"]}
{"id": "C102", "title": "The symplectic reduction of the GP scripts is right for matrices with unimodular leading blocks, and only there", "statement": "symplectic_reduction(M) in gp/periods.gp and gp/gcperiods.gp ends without an error and returns P with transpose(P) M P = [0,1;-1,0] for every antisymmetric integral matrix of dimension 2g whose leading blocks of even dimension are invertible over the integers, as for the intersections of the edges of a growing tree. The comment in the code only asks for an invertible antisymmetric matrix; under that condition it may stop with an error (for the canonical form itself), return vectors that are no symplectic basis, or never end.", "quantifier": "every g, every antisymmetric integral matrix of dimension 2g, every function bezout", "why_tests_cant": "pivots and operations depend on all entries; for trees from random points the failing branches are never reached, and matrices of every dimension must be covered", "anchors": ["gp/periods.gp: symplectic_reduction (lines 706-781)", "gp/gcperiods.gp: symplectic_reduction (lines 351-427)"]}
{"id": "C103", "title": "Base changes between edges of the tree and the loops A_i, B_i in the GP scripts", "statement": "isSymplectic(M) holds exactly for symplectic matrices. If MumfordABtoC returns R then transpose(R) I R = [0,1;-1,0] for the intersection matrix I of the tree; the search over signs is complete. For 2g+1 branch points, CtoABp writes each edge, modulo 2, as a chain of loops with the same ends. CtoABp is wrong for 2g+2 points, CtoAB is wrong for every reading modulo 2, and symplectic_inverse is the inverse only if the blocks outside the diagonal are equal.", "quantifier": "every g, every integral matrix, every tree, every intersection matrix", "why_tests_cant": "the search has 2^(4g^2) cases at most, and block formulas that are wrong in general agree with the right ones for small or symmetric cases", "anchors": ["gp/periods.gp: isSymplectic, symplectic_inverse, CtoABp, CtoAB, int_ABp_ref, ABtoABp, ABptoAB, test_all_signs_C, MumfordABtoC", "gp/test.gp: matJ"]}
{"id": "C104", "title": "The spanning trees of the GP scripts have the largest possible least weight", "statement": "max_spanning(A,k) and max_spanning_gc(A,k) return, for 1 <= k <= n-1 edges on n points (k = n-1 if omitted), a tree that starts with the heaviest edge and grows by the heaviest edge to a new point, together with its least weight; edges go from left to right in the first, from a point reached before in the second. With the 2g edges the period computation asks for, no set of edges linking all 2g+1 points, or all but one of 2g+2 points, has a larger least weight. With fewer than two points or k >= n they stop with an error.", "quantifier": "every number of points, every weights and positions, every order of equal weights in the sort, every number of edges", "why_tests_cant": "optimality ranges over all sets of edges and all weights; ties depend on the sort", "anchors": ["gp/periods.gp: max_spanning (lines 627-660)", "gp/gcperiods.gp: max_spanning_gc (lines 172-207)"]}
{"id": "C105", "title": "Images of Weierstrass points under the Abel-Jacobi map in the GP scripts", "statement": "For curves of odd degree, AJWeierstrass(C) returns for each Weierstrass point the coordinates, 0 or 1/2 in the symplectic basis of C, of its image under the Abel-Jacobi map with the chosen origin, up to periods; AJWeierstrass(C,1) returns such coordinates in the basis of loops around the edges of the tree. For even degree this is false: the tree leaves out one point, and its column is that of the root of the tree.", "quantifier": "every genus, every tree, every order and direction of its edges, every origin, every basis change, all integrals of differential forms along the edges", "why_tests_cant": "holds for every tree and every origin; the wrong column for even degree is a valid half period, of another point", "anchors": ["gp/periods.gp: AJWeierstrass (lines 959-997)"]}
{"id": "C106", "title": "Gauss-Chebyshev integration along an edge in the GP scripts", "statement": "For branch points A of y^2 = f(x), two of them a and b with no other on the segment between them, integrals_edge_gc returns for j < g the n-point Gauss-Chebyshev sums for the integrals of x^j dx/y from a to b, all for one and the same branch y that is continuous along the edge, and the limits of this branch at both ends divided by h^2 sqrt(1-t^2), up to the factor i. polshift shifts moments: sums of t_k x_k^j become sums of t_k (x_k+c)^j.", "quantifier": "every number of branch points in the complex plane, every pair of them without another between, every genus, every number of nodes, every parameter t on the edge", "why_tests_cant": "a wrong sign or branch of one factor only shows for some positions of the branch points; holds for all positions", "anchors": ["gp/gcperiods.gp: sqrt_affinereduction_gc, integrals_gc, ab_points_gc, polshift, integrals_edge_gc (lines 27-98)"]}
{"id": "C107", "title": "Double exponential integration along an edge in the GP scripts", "statement": "For branch points A of y^2 = f(x), two of them a and b with no other on the segment between them, int_periods_affinereduction with the table of integration_points_thsh(h, N, lambda) returns for j < g the trapezoidal sums of step h with 2N+1 points for the integrals of x^j dx/y from a to b after the substitution t = tanh(lambda sinh s), all for one and the same branch y that is continuous along the edge. The values returned for both ends are the ones integrals_edge_gc returns: both methods integrate on the same branch.", "quantifier": "every number of branch points in the complex plane, every pair of them without another between, every genus at least 1, every step, number of points and lambda", "why_tests_cant": "a wrong weight, sign or branch of one factor only shows for some positions of the branch points; holds for all positions and all steps", "anchors": ["gp/periods.gp: make_Aprim (lines 194-206), integration_points_thsh (236-255), sqrt_affinereduction (279-309), int_periods_affinereduction (318-365)"]}
{"id": "C108", "title": "Integration from a point of the curve to a branch point in the GP scripts", "statement": "For a point P = (p, y_p) on y^2 = f(x), p no branch point, and a branch point a such that no other is on the segment from a to p, int_AbelJacobi_affinereduction returns for j < g the double exponential sums for the integrals of x^j dx/y from P to the branch point, on the one continuous branch y with y(p) = y_p. A point p that is a branch point is an error.", "quantifier": "every number of branch points in the complex plane, every point of the curve and branch point with nothing between, both sheets, every genus at least 1, every step, number of points and lambda", "why_tests_cant": "a wrong sheet, power of the scale or direction only shows for some positions or parities of the degree; holds for all", "anchors": ["gp/periods.gp: make_Aprim (lines 194-206), integration_points_thsh (236-255), int_AbelJacobi_affinereduction (376-415)"]}
{"id": "C109", "title": "Moebius transformations of curves in the GP scripts", "statement": "moebius_matrix(m, g) for m = [a,b;c,d] expresses the pull-backs of X^k dX/Y on the curve transformed by X = (ax+b)/(cx+d), Y = y/(cx+d)^(g+1) in terms of the x^l dx/y. homog(m, A) gives the branch points of the transformed curve, also when one of them goes to infinity, if their number is even; if it is odd, so that infinity is a branch point, its image is taken to be 0 in place of a/c and the result is right if and only if a = 0.", "quantifier": "every invertible complex matrix, every genus, every list of branch points, every point of the curve off the pole", "why_tests_cant": "depends on the parity of the degree and on whether a point goes to infinity; holds for all matrices and points", "anchors": ["gp/periods.gp: homog (lines 1325-1335), moebius_matrix (1374-1389)"]}
{"id": "C110", "title": "The older calculation of the Moebius action in the GP scripts", "statement": "For every invertible matrix moebius_matrix_old, which composes affine maps and the inversion, gives row by row the same polynomial as moebius_matrix up to one non-zero constant. For an affine map X = ax + b it is exactly the matrix of the pull-backs of X^k dX/Y with Y = sqrt(a^n) y, a point of the curve with the branch points a p + b. The zero matrix is an error.", "quantifier": "every invertible complex matrix, every genus and degree, every row, every point", "why_tests_cant": "the cases c = 0 and c <> 0 take different paths and the order of the factors only shows for general matrices; holds for all", "anchors": ["gp/periods.gp: invert_mat, homot_mat, moebius_matrix_old (lines 1350-1372)"]}
{"id": "C111", "title": "The Abel-Jacobi map of the GP scripts", "statement": "hcModABlattice reduces a vector modulo the periods to coordinates in [0,1) that depend only on its class. choose_integration_path picks a branch point whose path is good enough for the precomputed points or the best of all. hcAbelJacobi gives for a point P = (x,y) the reduced coordinates of the integral from P to the base point, the same whichever branch point is chosen, and for a branch point its stored image. A point given by its x alone is completed by hcUpperSheet to a point with y^2 = f(x), with either choice of cuts, and the inverse of the real matrix that hcInit builds from the periods is the one hcModABlattice needs.", "quantifier": "every genus, period matrix with its inverse, list of branch points, point off them or one of them, every value of tau and of the path weights", "why_tests_cant": "the branch point chosen depends on the point, the result must not; holds for all choices and all lattices", "anchors": ["gp/periods.gp: choose_integration_path (lines 803-823), hcModABlattice (824-830), hcAbelJacobi (838-859)", "gp/periods.gp: hcUpperSheet (lines 432-441), hcInit (1277-1284)"]}
