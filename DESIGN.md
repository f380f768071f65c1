# Formal model of hcperiods (arb/) in Rocq (Coq 8.16.1)

Scope: the C library in `/repo/arb` (and its command line example
`/repo/arb/example/periods.c`), and, from C83 on, functions of the independent
implementation `/repo/magma/se_periods`; from C102 on, functions of the GP scripts in `/repo/gp`.

## Method

* Every C function that is modelled becomes a total Gallina function.
  A loop becomes structural recursion, a fold, or recursion on explicit fuel
  with a distinct out-of-fuel outcome which the theorems exclude.
* Undefined behaviour (out of bounds access, division by zero, wrong pointer
  reinterpretation) and `abort()` are distinct outcomes (`Ub`, `Abort`).
* Machine integers: unbounded `Z`/`nat`, except where a property is about the
  machine encoding (slong clamps in the parser, fmpz small/pointer encoding,
  unsigned wrap-around in the scheme cache).
* External libraries (FLINT, Arb, libc) are represented by their documented
  contract: `fmpz` = Z; `fmpz_xgcd`/`fmpz_fdiv_q`/`fmpz_mod`; `qsort` returns an
  arbitrary permutation (any list that is a permutation of its input, sorted
  when the comparator is consistent); ball arithmetic is either exact
  (real/complex numbers) or an abstract sound enclosure.
* File layout: `theories/Model*.v` hold definitions only, with the cited lines;
  `theories/Spec*.v` hold the small independent specifications;
  `theories/Proof*.v` hold lemmas; `theories/Prop*.v` hold only the property
  theorems closed by `exact`, the witnesses showing that the hypotheses are
  satisfiable, and `Print Assumptions`.
* If the code violates a property, the theorem is named `..._refuted`, gives a
  concrete witness, and the strongest true variant is proved beside it.

## Plan per property

| id | modelled | proof |
|----|----------|-------|
| C01 | sec_init arithmetic | parity by cases on m, n and gcd |
| C02 | jmin, imax, ni table | pairing j <-> m-j of floor sums (counting lattice points) |
| C03 | same | division bounds |
| C04 | sec_init with outcomes | refuted for degree 0 / 1, proved for n>=2, m>=2 |
| C05 | tree size in abel_jacobi_init_poly | arithmetic with gcd |
| C06 | parser over a character list | induction on the printed terms |
| C07 | parser | refuted (repeated monomials overwrite; doubled signs), exact semantics proved |
| C08 | parser with outcomes | termination by structural recursion; negative exponent refuted |
| C09 | fmpz_mat_extras + symplectic_reduction over function matrices | invariant M = P M0 P^T preserved by every step |
| C10 | same | P has an explicit two-sided integer inverse (invariant) |
| C11 | same with fuel and Ub outcome | measure |pivot|; rank argument for pivot search; UB witness when the rank is too small |
| C12 | same | loop invariant on cleared rows |
| C13 | same | refuted (sign -1); |d|=1 proved for unimodular forms |
| C14 | is_symplectic_j | characterisation; refuted for value 1 |
| C15 | count_coeffs, set_loops, symplectic_basis | induction over the row |
| C16 | fmpz encoding | refuted by a 2^62 coefficient |
| C17, C18 | fill_block, intersection_tree | modular arithmetic, case analysis |
| C19 | intersection_tree on trees built by spanning_tree | tree invariant (b is new) |
| C20 | shift_number, arb_angle over R/C | exponentials: e(m psi + rho)=1 implies integer |
| C21, C22 | edges_init, spanning_tree with arbitrary sort result | invariants over the outer loop; cut property |
| C23 | tree->r, tree->min | refuted (zero weight, second call); proved otherwise |
| C24, C25 | acb_cmp_lex on rational boxes | order laws on points; refuted on balls |
| C26, C27 | periods_loop, period_matrix, set_loops | induction, sums over C |
| C28, C29, C30 | constants.c | induction over in-place updates; linear functional |
| C31 | mth_root_pol.c over R/C | winding invariant; refuted on the cut |
| C32 | ab_points | induction over the two-ended fill |
| C33 | constant_cab, ydata_init_edge over C | power identities, product over roots |
| C34 | arb_subdivide, arb_bound_func_arb over abstract enclosures | induction on the work stack |
| C35 | max_func_d_gs, golden_search | refuted |
| C36, C37, C38 | gc_int.c, gc_integrals_precomp | index arithmetic; trigonometric sums |
| C39, C40, C41 | integrals_tree_gc / _de | history invariants; refuted for GC |
| C42, C43 | de_int, de_integrals_precomp, de_error | index sets; real inequalities (refuted) |
| C44 | gc_params formulas over R | real inequalities |
| C45, C46, C47 | tau_matrix.c over an arbitrary field with mathcomp | block algebra; Cayley-Hamilton |
| C48, C49, C50 | flags, abel_jacobi_compute as a trace of events | bit algebra, trace induction |
| C51, C52 | example/periods.c main | refuted; exact semantics |
| C53 | acb_mat_print_error | induction row-major |
| C54 | integral_d2 | closed form and placement of the factors, for an arbitrary function Gamma; with the Gamma function the value is the integral (C81) |
| C55 | integrals_tree_de with a kept scheme | history of the cache; refuted for equal requests |
| C56 | truncation of the double-exponential sum | comparison of a decreasing sum with an integral |
| C57 | de_params_d | real inequalities; abort iff a distance is not positive |
| C58 | de_params_d, choice of the strip | the change of variable is injective on the strip |
| C59, C60 | mag_constants_edge, mag_constants_tree, extraprec_tree, precision choice of abel_jacobi_compute | binomial sums; witness with large roots |
| C61 | gc_integrals_precomp, gc_params against improper integrals | trigonometric approximation of 1/ytilde, exactness of the rule |
| C62 | integrals_edge_gc, integrals_tree_gc, ydata, constants | C61 transported by the rescaling of each edge |
| C63 | sec_init, spanning_tree, tree_ydata_init, intersection_tree, symplectic_reduction, symplectic_basis, period_matrix composed | planar order of the tree (lexicographic order of paths) turns the intersection matrix into the difference of two Toeplitz forms, whose radical over Z/p is computed |
| C64 | hyperelliptic curves, end to end: tree (ModelTree), data of the edges (ModelEdge), intersections (ModelInter), reduction (ModelSymp), Gauss-Chebyshev moments (ModelErr), edge factors (ModelVec), loops (ModelBasis), period matrices (ModelPeriod); the specification adds the period of a cycle and the size of its coordinates (SpecHyp) | composition of C63, C62, C59, C44; partial: the hypotheses of C62 on the working precision and on the number of points, and exact arithmetic on centres |
| C65 | edge integrals by the double exponential rule over R and C (ModelDeq on top of ModelQuad, ModelDe, ModelCache); the specification is the improper integral along the edge on a continuous branch (SpecDeq) | the integrand is holomorphic in the strip |Im z| < r0 (Hol files): contour shift, trapezoidal rule, bounds of the published theorem; partial for the edge: constant not explicit |
| C66 | superelliptic curves, end to end, with the double exponential rule: weights, tree, data of the edges, scheme cache, integrals, reduction, loops, period matrices | composition of C65, C67, C63, C59; the cache keeps a scheme for a smaller strip, still convergent; partial: as C65 |
| C67 | spanning_tree with weights that tell points inside an edge from points off it, such as `half_sum` and `de_tau` of their positions, exact or rounded (SpecFree) | an edge with a point on it is heavier than the two halves, which the tree would have joined first; induction on the number of points between |
| C68 | the whole hyperelliptic computation as a program over an arbitrary ball arithmetic (ModelBall), contract of Arb as the records `sound` and `widens` (SpecBall) | simulation of the exact program by the ball program, each step enclosing; the error radius absorbs the error of the rule (C61); instance: discs (ProofMid); partial: conditions on turns, radii and directions are hypotheses |
| C69 | the same with the double exponential rule, for every m | simulation and C65; partial: the radius is a hypothesis |
| C70 | ydata_init_edge, constant_cab, acb_vec_angle, shift_number, is_neg_abad on balls | simulation; the angle found on balls differs by at most one turn, compensated by the sign test; partial: condition on directions |
| C71 | mth_root_pol_def, mth_root_pol_prod, mth_root_pol_turn, sqrt_pol_turn on balls | simulation; the count of turns is refuted on discs that straddle the axis |
| C72 | gc_params on balls (ModelBallGc) with the contract `rsound` of the functions on real balls; the search on doubles is an arbitrary function | the ellipse does not overlap the balls and is below the smallest bound, so it avoids all their points; partial: the code does not compare it with that bound |
| C73 | tau_matrix.c on matrices of balls (ModelBallTau) with the contract `msound` of Arb's linear algebra | the real block elimination is proved exact and injective for all matrices, then enclosed; the method by the characteristic polynomial is refuted |
| C74 | de_constant_m2 (ModelDeM2) over the search of ModelMag | maximum modulus for polynomials on compact sets with the closed image of the strip, reduction to a quarter by symmetry, and the error theorem of C66; partial: for i below the largest exponent the bound is divided by a power of the distance from 0 to the sides, and is refuted without it |
| C75 | loops lifted over the edges, their crossings at branch points and inside edges (SpecCross), against intersection_of_data | angles of the directions given by C20, rays at a branch point as slots on a circle; uniqueness of the number; partial: right exactly when edges do not cross, refuted on seven points, with the consequence for the basis |
| C76 | spanning_tree with ordered weights | edges free of other points (C67) that meet are not parallel; forced edges across cuts (C22) give a crossing for seven points; partial |
| C77 | gc_params (ModelGc) on the edges of the tree, from the polynomial for the abort | the product of the half sums splits along the points near the circle; a radius that is a fixed point of two rounds (intermediate value theorem) and forced edges across cuts (C22) for the refutations; partial |
| C78 | the stages put together from the coefficients to the period matrices (ModelRun); integrals on y^m = f(x) with the coefficients of f (SpecLead) | multiplying a sheet by s divides the integrals by s^j, then C64 and C66; on y^2 = 2x^3-2x the sheets over the two edges are real and imaginary of constant sign, and the integral is at least pi; partial |
| C79 | characters written by acb_mat_print_gp, tree_print and loop_print (ModelOut); reader for numbers, sums, products, vectors and matrices of PARI/GP (SpecOut) | tokens of a printed entry, then induction on the entries of a row, on the rows, on the edges and on the terms of a loop; partial |
| C80 | the run for two branch points (ModelTwo: integral_d2, then the same stages as C78); Riemann matrices (SpecRiem) | explicit reduction of the intersection matrix of one edge (a chain), roots of unity give a solution of K X = E, from which the two bilinear relations of Riemann follow, then symmetry and positivity; degree 3 and more missing; partial |
| C81 | the run for two branch points (ModelTwo), Gamma by the characterization of Bohr and Mollerup (SpecGamma) | integration by parts and monotonicity: the quotient of the integral of (1-t^2)^(s-1) by Gamma(s)/Gamma(s+1/2) has period 1 and varies slowly, so it is constant, and its values at 1/2 and 1 give sqrt(pi); existence of Gamma by the limit of Gauss; then the sheet over the edge is a constant times (1-t^2)^(1/m) |
| C82 | the run for two branch points on balls (ModelBallTwo), from the coefficients to both matrices, branch points computed twice at different precisions and in any order | the run on balls follows the exact run of C81 step by step (simulation of C68-C70; with one edge no direction is read), so that each ball contains the value of C81; the quotient is the Riemann matrix of C80 |
| C83 | SymplecticBasis of the Magma package (ModelMaSymp) | the reduction steps of C12 give an invariant (rows before the pivot are hyperbolic pairs or null up to leftover entries); dichotomy for every antisymmetric matrix; refuted for a unimodular form without an entry 1; partial |
| C84 | ImSgn, AC_mthRoot, AC_mthRoot2, SortByRealPart, EdgeData of the Magma package (ModelMaRoot) | invariant of the loop: sum of the arguments = argument of the product + pi times the winding number; the first factor may have a wrong declared sign, which shifts the result by one root of unity, the same for all t; continuity of the product of principal roots along a line |
| C85 | SpanningTree, RS_CompareEdge, FlipEdge, DE_Edge_Weight, GJ_Edge_Weight of the Magma package (ModelMaTree) | invariant of the loop (marks = points of the tree, each edge a shortest one leaving the tree); exchange argument for the total length; an edge that is the longest side of a triangle of branch points cannot be chosen, and of two crossing segments one is the longest side of a triangle with an end of the other |
| C86 | IntGroups, GJ_Params_Tree, DE_Params_Tree (ModelMaGroups) on the tree of C85 | groups of an increasing function are separated, so the parameters ascend; the loop down stops at the largest allowed |
| C87 | SE_IntersectionMatrix, SE_IntersectionNumber, the loop over pairs of edges and TreeData (ModelMaInter) on the tree of C85 with the roots of C84 | rounding is exact because the powers of the two directions at a common end differ by the angle of the edges; edges never cross by C85; then the local crossings of C75 |
| C88 | SE_TreeMatrix and the sums of SE_RamificationPoints_AJM (ModelMaPath) on the tree of C85 | invariant of the loop over edges: rows of reached points have the right boundary; a chain of tree edges without boundary is zero |
| C89 | degrees, genus and the loop over the exponents in SE_Curve (ModelMaDiff) | induction on the loop; the sum of floor((jn - d)/m) from C01; ceiling and floor related by division with remainder |
| C90 | the tree, the edge data, the intersection matrix and the reduction (ModelMaTree, ModelMaRoot, ModelMaInter, ModelMaSymp), for m = 2 | the matrix is that of a plane tree up to signs; induction on the tree: every principal part has a radical vector or is saturated modulo every integer; the reduction keeps the remaining rows in the span of a principal part, so that the entries left are 0, 1 or -1; the rank from the radical (as in C63) |
| C91 | SE_Branches, Distance and SE_RandomPoint (ModelMaPoint) | the principal root solves the equation; two solutions differ by a root of unity; the minimum by induction |
| C92 | IsPoint (ModelMaPoint) | the test is characterised: it compares absolute values; points of the curve pass, and a point far from the curve that passes is given |
| C93 | SE_Divisor, '+' and the callers of SE_AbelJacobi, with divisors as objects in a heap (ModelMaDivisor) | invariant of all sessions by induction; frame of each call; the two calls that change their argument are shown |
| C94 | SE_AbelJacobi and PeriodLatticeReduction (ModelMaDivisor) | linearity of the lattice coordinates; the loop over the points by induction; each reduction changes the value by an integer |
| C95 | DE_Integrals_Factor and GC_Intergrals_Factor on the data of EdgeData (ModelMaFactor) | moments of a linear functional through the shifts and products, block by block; principal logarithm of (b-a)/2 against that of b-a; one constant for periods and intersection numbers |
| C96 | DE_IntegrationPoints, DE_Integrals, GC_Integrals, GJ_Integrals and their _Edge versions (ModelMaSum) | loops add known terms to each block; nodes equal those of the double exponential map; the rules are linear, so the factors of C95 give the sum of the differential on the sheet of C95; two outermost nodes of the scheme shown to matter |
| C97 | ExtraFactors, DE_Integrals_AJM, DE_Integrals_Factor_AJM, GJ_Integrals_AJM, edge to a point, change matrix (ModelMaAjm) | sums equal those of C96 for the root divided by (1-x)^(1/m); the value at the end is a positive multiple of a root of the equation, so the rounded difference of arguments is the index of the sheet up to multiples of m |
| C98 | period matrices of the Magma package from the branch points; refuted: the leading coefficient for lists of points | composition of C83, C87, C90, C95, C96: induction over the edges and over the table of periods; rank of a form with a symplectic basis by dependence of too many integer vectors; uniqueness of inverses |
| C99 | reduction modulo periods; ramification points and infinity for coprime degrees | inverse of the real embedding of the period matrix; m times an edge is a sum of its loops (telescoping, sum of the roots of unity), the loops are integer combinations of the columns by the inverse of the unimodular base; Bezout |
| C100 | Abel-Jacobi images of the points at infinity, m/gcd > 1 | parametrisation of the curve by r and t and its inverse with Bezout coefficients; linear algebra modulo integers with the divisors of x - x_i, y, x and r - r(k) - t; counterexample y^6 = (x-1)...(x-8) |
| C101 | Abel-Jacobi images of the points at infinity, m dividing n | divisors of y/(w x^N) minus a root of unity, induction over the points with the loop of C94, powers of the roots of unity; counterexample y^2 = 4x(x+2)(x-3)(x-4) |
| C102 | symplectic reduction of the GP scripts | invariant: the matrix is the Gram matrix of the columns of P, P is triangular with diagonal 1 or -1; the pivot divides the entries of a primitive vector, so it is 1 or -1; counterexamples by computation, and by induction for the endless loop |
| C103 | base changes between edges and loops in the GP scripts | block identities of matrices as sums over indices; the search is shown to run through all sign patterns by binary expansion; ends of chains by closed forms of the floor divisions; counterexamples by computation |
| C104 | spanning trees of the GP scripts | invariant: the marks are the points reached, without repetition, one more than edges; the scan of the sorted vector finds the heaviest edge leaving them; cut argument for optimality, with two points inside and two outside when one point is left out |
| C105 | Abel-Jacobi images of Weierstrass points in the GP scripts | integrals are vectors of complex numbers, half chains up to periods; induction along the tree with C104's invariant; change of basis by exchanging sums; elliptic curve with periods 1, i as counterexample |
| C106 | Gauss-Chebyshev integration along an edge in the GP scripts | complex numbers of Coquelicot, principal roots; each factor is continuous on lines of constant imaginary part; in-place loops by invariants on moments |
| C107 | Double exponential integration along an edge in the GP scripts | the derivative of tanh(lambda sinh s) by Coquelicot; loops by induction; the branch of C106 |
| C108 | Integration from a point of the curve to a branch point in the GP scripts | as C107 with one factor sqrt(1+t); the sign from y_p / y_p1 = +-sqrt 2 |
| C109 | Moebius transformations of curves in the GP scripts | polynomials by coefficients, induction over the factors; for odd degree the exact condition and a refutation |
| C110 | The older calculation of the Moebius action in the GP scripts | values of the rows as polynomials, binomial formula |
| C111 | The Abel-Jacobi map of the GP scripts | loop invariant for the choice; fractional parts modulo integers; integrals and stored images are parameters (C108, C105) |

## What is modelled, file by file

"exact" means that Arb balls are replaced by exact real or complex numbers in that part.

| file of `/repo/arb` | modelled in | simplifications |
|---|---|---|
| `se_curve.c` | ModelCurve | `slong` unbounded; allocation of a negative size is a fault |
| `aj_struct.c` | ModelStage, ModelRes, ModelCurve, ModelExtra, ModelRun | results are symbolic values in ModelStage, blocks of memory in ModelRes, exact numbers in ModelRun |
| `parse.c` | ModelParse | `sscanf` on a list of characters |
| `fmpz_mat_extras.c`, `symplectic_reduction.c` | ModelSymp | `fmpz` = Z; `fmpz_xgcd` is any function that meets its contract; `fmpz_mat_print_gp` is disabled by `#if 0` |
| `symplectic_basis.c`, `homol.c` | ModelBasis, ModelRes | encoding of small `fmpz` modelled (C16); `loop_print` in ModelOut |
| `intersections_tree.c` | ModelInter (integers), ModelEdge (angles) | exact; `arb_get_si` of an exact integer |
| `spanning_tree.c` | ModelTree, ModelDeq (`param_de_tau`), SpecGc (`param_gc_r` is `half_sum`) | weights are doubles without arithmetic (a total order with NaN), arbitrary except in C64, C66, C67 and C75 to C77, where they are smaller for points inside an edge than for points off it, or compare as the exact values up to an error; `tree_print` in ModelOut, with the result of the conversion `%lf` as an argument |
| `ydata.c` | ModelEdge, ModelVec, ModelExtra | exact, sign tests are oracles; rounding of magnitudes is any upper bound |
| `mth_root_pol.c` | ModelTurn, ModelEdge, ModelQuad | exact, sign tests are oracles where they may be undecided |
| `constants.c` | ModelVec, ModelPeriod | exact; `integrals_edge_factors_gc` is not called by the program and not modelled |
| `period_matrix.c` | ModelPeriod | exact |
| `tau_matrix.c` | ModelTau | exact, over any numerical closed field |
| `gc_int.c`, `integrals_gc.c`, `gc_params.c` | ModelQuad, ModelGc, ModelErr, ModelCache | exact; the loop of gc_params on real numbers |
| `de_int.c`, `integrals_de.c` | ModelQuad, ModelCache, ModelDeq, ModelTwo | exact; `arb_tanh_cosh2` (disabled by the preprocessor) not modelled |
| `de_params.c`, `de_params_d.c` | ModelDe, ModelDeM2 | doubles are real numbers; in ModelDe the maximum over the strip is an argument, ModelDeM2 models de_constant_m2 with the evaluation on balls as an enclosing function; unused estimates de_distance_d, de_constant_m_d not modelled |
| `mag_func.c`, `mag_func_d.c` | ModelMag, ModelMagRound | interval function = abstract enclosure; roundings of arb_subdivide modelled with Flocq |
| `utils.c` | ModelCmp, ModelPrint, ModelOut | random generators for the tests not modelled; `arf_printd` is any function that writes nonzero numbers in decimal notation with their sign (C79) |
| `example/periods.c` | ModelCli | text of the usage message not modelled |

Not modelled at all: `arb/test`, `arb/profile`, `arb/bench`, debug output,
the functions of `magma/` and `gp/` that the next table does not list, and the rounding inside Arb's ball operations.  ModelBall models `constants.c`,
`mth_root_pol.c`, `gc_int.c`, `de_int.c`, `integrals_gc.c`, `integrals_de.c`, `ydata.c`,
`intersections_tree.c` and `period_matrix.c` a second time, as programs over an arbitrary ball
arithmetic (the record `arith`, one field per function of Arb that is called).  The theorems C68 to
C73 hold for every arithmetic that meets the contract `sound` and `widens` of SpecBall, which are
hypotheses of the theorems; ProofMid builds an arithmetic that meets them.  ModelBallGc does the
same for `gc_params.c`, with the contract `rsound` of SpecBallGc (met in ProofMid3), and ModelBallTau for
`tau_matrix.c`, with the contract `msound` of SpecBallTau (met in ProofMid4).

The Magma package `magma/se_periods` implements the same computation independently.  Its functions are
modelled one by one (files `ModelMa*`), with exact real and complex numbers:

| file of `/repo/magma/se_periods` | modelled in | simplifications |
|---|---|---|
| `se_symplectic_basis.m` | ModelMaSymp | indices from 0; operations on B, rows of G and columns of G done for one pair of indices after the other |
| `se_anal_cont.m` (AC_mthRoot, AC_mthRoot2), `se_help_funcs.m` (SortByRealPart), `se_spanning_tree.m` (EdgeData) | ModelMaRoot | exact; principal Log, Arg and Sqrt; AC_mthRoot3 and ACRec (not called) not modelled |
| `se_spanning_tree.m` (SpanningTree, RS_CompareEdge, FlipEdge, weights) | ModelMaTree | exact real distances; Sort is any sort that never puts a longer edge before a shorter one (its comparison has no answer for equal lengths) |
| `se_spanning_tree.m` (GJ_Params_Tree, DE_Params_Tree), `se_help_funcs.m` (IntGroups) | ModelMaGroups | exact reals; the bounds M, M1, M2 of the integrand stored beside the parameters are not modelled |
| `se_intersection.m`, the loop over pairs of edges in `se_period_matrix.m`, TreeData in `se_spanning_tree.m` | ModelMaInter | exact complex numbers; Round is applied to exact integers only |
| `se_abel_jacobi.m` (SE_TreeMatrix, sums of SE_RamificationPoints_AJM) | ModelMaPath | exact complex numbers, one component at a time; the reduction and the rational approximation of the result are not part of it |
| `se_curve.m` (degrees, genus, holomorphic differentials) | ModelMaDiff | exact integers; the entries of the diagonal matrix are not computed, only the length its construction needs is checked |
| `se_abel_jacobi.m` (SE_Branches), `se_curve.m` (IsPoint, SE_RandomPoint), `se_help_funcs.m` (Distance) | ModelMaPoint | exact complex numbers; Min gives its first position as second value; the drawing of the random x is not modelled |
| `se_curve.m` (SE_Divisor, '+'), `se_abel_jacobi.m` (PeriodLatticeReduction, SE_AbelJacobi) | ModelMaDivisor | objects are positions in a heap; exact numbers; the integrals from a branch point to a point and the values at infinity are parameters; the choice of the integration scheme and of the precision is not modelled |
| `se_de_int.m` (DE_Integrals_Factor), `se_gj_int.m` (GC_Intergrals_Factor), `se_help_funcs.m` (PolynomialShiftVector) | ModelMaFactor | exact numbers; the vector is not written back where it is not read again; the list of counts replaces its length as loop bound |
| `se_de_int.m` (DE_IntegrationPoints, DE_Integrals, DE_Integrals_Edge), `se_gj_int.m` (GC_Integrals, GC_Integrals_Edge, Chebyshev abscissas of GJ_IntegrationPoints, GJ_Integrals, GJ_Integrals_Edge) | ModelMaSum | exact numbers; step, lambda, number of points and Gauss-Jacobi nodes and weights are parameters; without the factors for the Abel-Jacobi map |
| `se_de_int.m` (ExtraFactors, DE_Integrals_Factor_AJM, DE_Integrals_AJM, DE_Integrals_Edge_AJM), `se_gj_int.m` (GJ_Integrals_AJM, GJ_Integrals_Edge_AJM), `se_curve.m:276-277`, `se_abel_jacobi.m:236` | ModelMaAjm | exact numbers; one point of multiplicity 1; step, lambda, number of points and Gauss-Jacobi nodes and weights are parameters; increase of precision not modelled |
| `se_period_matrix.m` (18-199), `se_de_int.m` (318-328), `se_gj_int.m` (519-535), `se_curve.m` (101-120) | ModelMaPeriod | exact numbers, no changes of precision; Rank and inverse are parameters with a specification; the choice of schemes is a parameter; verbose output left out |
| `se_abel_jacobi.m` (104-127) | ModelMaRam | exact numbers; BestApproximation is a parameter with a specification, the coefficient of Xgcd an argument |
| `se_infty_points.m` (15-55, 164-200) | ModelMaInfty | exact numbers; roots of polynomials and SE_AbelJacobi of divisors are parameters; the branch for m/gcd = 1 (56-162) enters as a parameter |
| `se_infty_points.m` (49-162) | ModelMaGood | exact numbers; roots of polynomials and integrals of edges are parameters; choice of schemes and increase of precision left out |
| `gp/periods.gp` (706-781), `gp/gcperiods.gp` (351-427) | ModelGpSymp | matrices are functions of column and row; fuel for the loops; GP errors are faults; printing left out |
| `gp/periods.gp` (783-801, 1064-1208), `gp/test.gp` (408) | ModelGpMum | matrices are functions of row and column; the inverse of a matrix is a parameter with M * inverse(M) = 1; printing left out |
| `gp/periods.gp` (627-660), `gp/gcperiods.gp` (172-207) | ModelGpTree | weights and real parts are only compared, so integers; vecsort is a parameter that permutes and sorts; an index 0 is a fault |
| `gp/periods.gp` (959-997) | ModelGpAJ | coordinates in units of 1/2; the inverse matrix is a parameter; that half a loop is the integral along its edge is a hypothesis |
| `gp/gcperiods.gp` (27-98) | ModelGpGc | exact complex numbers; number of nodes is a parameter; division by zero is an abort; the branch for flag = 0 is unreachable (line 31) and left out |
| `gp/periods.gp` (196-206, 236-258, 276-305, 314-356, 367-415) | ModelGpDe | exact numbers; step and number of points are parameters; division by zero is an abort; the branch for product = 0 is unreachable (line 278) and left out, as is the code after return in int_AbelJacobi_affinereduction |
| `gp/periods.gp` (1325-1336, 1374-1389) | ModelGpMoeb | exact complex numbers; the product of the powers of two linear polynomials is taken factor by factor |
| `gp/periods.gp` (1351-1372) | ModelGpMoeb2 | exact complex numbers; principal square root; binomial is the recursive function of SpecVec; division by zero is an abort |
| `gp/periods.gp` (432-441, 803-830, 838-859, 1277-1284) | ModelGpHc | exact real numbers; tau_3, the integrals and the stored images are parameters; hcUpperSheet only with flags 0 and 1; the inverse of the matrix of hcInit is a hypothesis |

## Trusted base

* Coq's kernel (8.16.1) and the standard library.  No axiom is added.  `Print Assumptions`
  stands after every theorem in the `Prop*.v` files; the axioms that occur are those of the standard
  library's real numbers, functional extensionality and excluded middle, as listed below.
* The Examples C98_nonvacuous and C99_nonvacuous (lemmas `oracles_exist`, `best_exists`), and no theorem, use
  `constructive_indefinite_description` of the standard library's ClassicalEpsilon, to choose functions Rank,
  inverse and BestApproximation that meet their specification.
* vcheck also counts as `library_axioms` the constants sealed by module signatures in the
  standard library's definition of R and in mathcomp (`finfun`, `perm`, `imset`, ...).  They
  are definitions hidden behind a signature, not axioms, and `Print Assumptions` does not list them.
  mathcomp is used in ModelTau, SpecTau, ProofTau, PropTau, PropLeadTau only; Flocq in the Mag files only;
  Coquelicot for complex numbers, derivatives and improper integrals.
* The reading of the C code into Gallina (each definition cites its lines).
* The contracts assumed for FLINT, Arb and libc: `fmpz_xgcd` (SpecSymp.xgcd_ok), `qsort` returns a
  permutation of its input, sorted when the comparison is an order (SpecTree.qsort_ok), ball
  functions enclose the exact values (SpecBall.sound, SpecBall.widens, SpecBallGc.rsound, SpecBallTau.msound, SpecBallTwo.gsound for `arb_gamma_fmpq` and `arb_const_sqrt_pi`), `arb_gamma_fmpq` is any function with positive values in C80, the Gamma function in C81 and C82.

### Axioms per theorem (output of `Print Assumptions`)

The names stand for `ClassicalDedekindReals.sig_forall_dec`, `ClassicalDedekindReals.sig_not_dec`,
`FunctionalExtensionality.functional_extensionality_dep` and `Classical_Prop.classic`, all from the
standard library.

* **no axiom**: C15_loops_are_the_rows, C15_indices_and_coefficients_in_range, C16_small_coefficients_keep_their_value_partial, C39_too_few_points_refuted, C39_decreasing_requests_partial, C40_enough_points, C40_same_scheme_option_refuted, C41_each_edge_once, C55_first_edge_partial, C55_radius_of_another_edge_refuted, C48_switch_set, C48_verbose, C48_any_order, C48_method, C52_documented_option_refuted, C01_genus_exact, C02_number_of_differentials, C03_differentials_are_the_holomorphic_ones, C04_initialisation_safe, C04_initialisation_safe_refuted, C04_accepted_curves_are_not_degenerate, C04_degree_is_the_degree, C05_enough_generators, C32_arrangement, C103_isSymplectic, C103_mumford_basis, C103_sign_search, C103_bases, C103_edges_in_loops, C103_even_degree_refuted, C103_CtoAB_refuted, C103_symplectic_inverse_partial, C103_symplectic_inverse_refuted, C102_symplectic_basis, C102_odd_dimension, C102_error_refuted, C102_wrong_basis_refuted, C102_endless_refuted, C104_max_spanning, C104_max_spanning_gc, C104_odd_degree, C104_even_degree, C104_error, C17_antisymmetric_small_entries, C17_input_of_reduction, C18_table_of_intersections, C18_self_intersections, C18_deck_invariance, C19_no_other_failure, C19_no_rejected_pair, C19_incident_pairs_have_a_block, C78_tau_partial, C89_differentials, C89_same_as_library, C100_coefficients, C90_basis_of_unimodular_parts, C83_basis_partial, C83_rejects_other_matrices, C83_symplectic_refuted, C79_loop, C06_round_trip, C06_every_polynomial_has_a_text, C07_last_term_wins_partial, C07_sum_refuted, C06_trailing_blank_refuted, C08_terminates_and_reads_in_bounds, C08_memory_safe_partial, C08_memory_safety_refuted, C50_count_partial, C50_no_compute_partial, C50_leak_refuted, C49_untouched, C49_own_data, C49_fields, C49_printed, C49_worst_edge_refuted, C09_xgcd_contract_satisfiable, C09_reduction_is_congruence, C10_base_change_unimodular, C11_reduction_terminates_in_bounds, C11_outcomes_for_every_matrix, C11_small_rank_leaves_the_matrix_refuted, C12_block_diagonal, C13_canonical_basis_partial, C13_blocks_are_units_partial, C13_sign_refuted, C14_self_check_structure_partial, C14_self_check_accepts_every_result, C14_self_check_refuted, C45_real_reduction, C45_success, C46_value_returned_refuted, C46_not_a_solution_refuted, C47_strategies_partial, C47_last_strategy_refuted, C21_spanning_tree, C21_candidate_edges, C22_maximal_bottleneck, C22_edge_weight, C22_sort_contract_satisfiable, C23_worst_edge, C23_second_computation, C23_zero_weight_refuted.

* `sig_forall_dec`: C16_large_coefficients_become_pointers_refuted, C111_reduction_matrix.

* `functional_extensionality_dep`: C51_well_formed_partial, C51_any_words_partial, C51_missing_value_refuted, C52_coeffs, C52_xn1, C52_bern, C52_exp_degree_refuted, C52_bernrev_refuted, C52_default_refuted, C52_settings, C52_leftover_refuted.

* `sig_forall_dec`, `functional_extensionality_dep`: C24_circular_refuted, C24_common_point_refuted, C24_sort_unique_partial, C24_exact_points_partial, C25_order_changes_refuted, C25_same_order_partial, C76_meeting_partial, C67_edges_free, C105_loop_coordinates, C105_symplectic_coordinates, C105_even_degree_refuted, C106_polshift, C111_mod_lattice, C111_choice, C111_abel_jacobi, C111_branch_point, C109_derivative, C93_sum, C93_first_argument_changed, C100_sum, C99_reduction, C99_point_at_infinity, C34_bound_partial, C34_magnitude_partial, C34_subdivision_partial, C34_exact, C34_magnitude_exact, C34_magnitude_ends, C79_matrix_partial, C79_one_row_refuted, C79_nan_refuted, C79_tree, C53_largest_radius_partial, C53_exact_matrix_refuted, C28_polynomial_shift, C28_shift_of_moments, C28_shift_back, C29_multiply_by_geometric, C29_add_geometric, C29_add_alternating_geometric, C29_empty_slice_refuted.

* `sig_forall_dec`, `sig_not_dec`, `functional_extensionality_dep`: C75_number_unique, C76_apart_refuted, C107_points, C109_differentials, C109_even_points, C97_nearest_branch_point, C94_sum_over_points, C94_additive, C35_first_piece, C35_maximum_refuted, C35_golden_ends, C35_minimum_partial, C26_period_of_a_loop, C27_period_matrix_is_base_change, C36_gauss_chebyshev_abscissae, C37_sum_over_all_nodes, C54_two_branch_points, C30_rescaled_to_the_edge.

* `sig_forall_dec`, `sig_not_dec`, `classic`, `functional_extensionality_dep`: C111_upper_sheet, C68_periods_partial, C69_periods_partial, C70_intersections_partial, C71_roots, C71_turns_partial, C71_turns_refuted, C72_radius_partial, C72_periods_partial, C73_tau_partial, C73_periods_partial, C73_charpoly_refuted, C82_balls, C80_balls_partial, C75_matrix_partial, C75_right_iff_apart, C75_points_on_a_line, C75_matrix_refuted, C75_basis_partial, C75_basis_refuted, C43_radius_refuted, C43_within_two_partial, C43_m1_refuted, C43_m1_partial, C43_other_exponents_refuted, C56_truncation, C57_parameters_partial, C57_aborts, C58_strip, C74_strip_partial, C74_rule_partial, C74_lower_exponents_refuted, C65_rule_error, C65_edge_partial, C66_periods_partial, C67_exact_weights, C67_rounded_weights, C67_parameters, C32_partition_of_the_other_roots, C33_edge_constant, C33_curve_equation, C33_root_product, C20_common_start, C20_end_to_start, C20_values_at_the_ends, C20_intersection_matrix_always_computed, C61_error_partial, C61_tolerance_partial, C62_edge_partial, C62_tree_partial, C62_precision_partial, C59_extra_precision, C59_precision_of_integrals, C60_working_precision_refuted, C60_short_edge_partial, C44_radius_partial, C44_tolerance_partial, C44_ellipse_refuted, C77_spread_partial, C64_spread_partial, C77_cubic, C77_abort_refuted, C77_endless_refuted, C107_period_sums, C107_same_branch, C108_abel_jacobi, C108_branch_point_error, C106_edge_integrals, C109_odd_points, C109_odd_points_refuted, C110_old_and_new, C110_affine, C110_zero_error, C64_periods_partial, C63_curve_reduces, C63_curve_periods, C78_gc_partial, C78_de_partial, C78_only_roots, C78_leading_refuted, C97_double_exponential, C97_gauss_jacobi, C93_degrees, C93_calls_leave_divisors_alone_partial, C93_base_point_remembered, C93_same_answer_after_other_calls_refuted, C94_points_and_base_points, C95_integrals_over_an_edge, C95_constant_of_the_sheet, C95_gauss_chebyshev_same, C101_points, C101_values_partial, C101_leading_coefficient_refuted, C86_schemes, C100_points, C100_value_partial, C100_value_refuted, C87_intersection_matrix, C90_hyperelliptic_basis, C88_paths, C88_ramification_points, C98_hyperelliptic_periods, C98_periods_partial, C98_small_matrix_of_points, C98_big_matrix_of_points, C98_leading_coefficient_of_points_refuted, C98_integration_type, C91_branches_are_the_solutions, C91_near_a_branch_point, C91_always_answers, C91_random_point, C92_test_compares_absolute_values, C92_points_accepted_partial, C92_turned_points_accepted, C92_other_points_refused_refuted, C99_ramification_points_exact, C84_one_branch, C84_which_branch, C84_same_as_logarithms_refuted, C96_double_exponential, C96_last_node_missing_refuted, C96_gauss_chebyshev, C96_gauss_jacobi, C85_spanning_tree, C85_shortest, C85_edges_apart, C85_numbers, C34_rounded_refuted, C34_rounded_partial, C38_exact_on_polynomials, C38_computed_moments_exact, C42_sum_over_nodes_partial, C42_last_node_missing_refuted, C80_two_points_partial, C31_turn_partial, C31_sqrt_turn_partial, C31_one_turn, C31_def, C31_limits, C31_logarithms, C31_choice_partial, C31_choice_gc_partial, C31_turn_refuted, C31_sqrt_turn_refuted, C31_no_point_refuted, C54_integral, C81_periods, C81_monic.
