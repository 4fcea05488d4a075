{"id": "C01", "title": "IEEE-754 classification is exact", "statement": "For every 64-bit pattern stored in a double, zIsInf returns +1 / -1 exactly for the two infinities and 0 otherwise, zIsNan is true exactly for the NaN patterns, and zIsFinite is true exactly for the remaining ones.", "quantifier": "all 2^64 bit patterns of a double (little-endian layout)", "why_tests_cant": "2^64 patterns, including all NaN payloads, cannot be enumerated by a test suite", "anchors": ["src/zm_ieee.c: zIsInf, zIsNan", "include/zm/zm_ieee.h: zIsFinite"]}
{"id": "C02", "title": "Integer power by squaring", "statement": "zPowN(x,n) is the n-fold product x*x*...*x for every real x and every unsigned n, and performs no more than 2*log2(n)+2 multiplications.", "quantifier": "all x and all unsigned exponents n", "why_tests_cant": "the exponent range is the whole unsigned type; squaring bugs hide in particular bit patterns", "anchors": ["src/zm_misc.c: zPowN"]}
{"id": "C03", "title": "Combinatorics functions agree with their mathematical definition", "statement": "zPermutation(n,i) = n!/(n-i)!, zFactorial(n) = n!, zCombination(n,i) = zCombinationRecursive(n,i) = n!/(i!(n-i)!) for 0<=i<=n, zCombinationSeries(n,size,c) writes exactly the n-th Pascal row; for arguments outside 0<=i<=n they return 0.", "quantifier": "all n and i (including i<0, i>n), exact arithmetic", "why_tests_cant": "infinite family of (n,i); in-place Pascal update is order sensitive", "anchors": ["src/zm_misc.c: zPermutation, zFactorial, zCombination, zCombinationRecursive, zCombinationSeries"]}
{"id": "C04", "title": "Line through two points", "statement": "zLine(x,x0,y0,x1,y1) returns the value at x of the straight line through (x0,y0) and (x1,y1): in particular y0 at x0 and y1 at x1, whenever x0 /= x1.", "quantifier": "all points with distinct abscissae and all x", "why_tests_cant": "a test with x0=0 or y0=0 cannot distinguish the sign of the mixed term", "anchors": ["src/zm_misc.c: zLine"]}
{"id": "C05", "title": "Raw vector operations: result, aliasing and frame", "statement": "Each element-wise raw vector operation (copy, zero, shift, add, sub, reverse, multiply, divide, amplify, concatenate, ...) writes to each of the `size` cells of its destination the value computed from the ORIGINAL contents of its operands, also when the destination is the same array as one or both operands, leaves every other memory cell unchanged, and never touches memory outside [0,size) of its arguments.", "quantifier": "all sizes, all memory contents, all aliasing patterns dest = src1 and/or dest = src2", "why_tests_cant": "aliasing and frame conditions range over all memory layouts", "anchors": ["src/zm_raw_vec.c: zRawVecCopy ... zRawVecCatDRC", "include/zm/zm_raw_vec.h"]}
{"id": "C06", "title": "In-place matrix transpose", "statement": "zRawMatTDRC applied to an r x c row-major array permutes it, using no other memory cell, into the c x r row-major array of its transpose; applying it again with c x r restores the original.", "quantifier": "all r, c and all contents (any element type)", "why_tests_cant": "cycle-following in-place transposition fails only for particular (r,c) cycle structures", "anchors": ["src/zm_raw_mat.c: zRawMatTDRC"]}
{"id": "C07", "title": "Block get/put on strided matrices", "statement": "zRawMatGet / Put / TGet / TPut copy exactly the addressed block (resp. its transpose): get after put returns the block put, and all elements outside the block, including row padding, are unchanged; row/column swaps exchange exactly the two rows/columns.", "quantifier": "all matrix sizes, block positions within bounds, contents", "why_tests_cant": "sizes/positions unbounded; frame conditions", "anchors": ["src/zm_raw_mat.c: zRawMatGet, zRawMatPut, zRawMatTGet, zRawMatTPut, zRawMatSwapRow, zRawMatSwapCol"]}
{"id": "C08", "title": "Matrix products compute the mathematical product", "statement": "zRawMulMatVec, zRawMulMatTVec, zRawMulMatMat, zRawMulMatMatT, zRawMulMatTMat, zRawVecDyad and the quadratic products write A x, A^T x, A B, A B^T, A^T B, v1 v2^T for all sizes when the destination does not overlap the operands, touching no other memory.", "quantifier": "all sizes and contents, disjoint destination", "why_tests_cant": "all sizes; transposed index arithmetic wrong only for non-square shapes", "anchors": ["src/zm_raw_mat.c: zRawMulMatVec ... zRawVecDyad"]}
{"id": "C09", "title": "Compensated summation is transparent", "statement": "zRawVecElemSum / zRawVecInnerProd / zDataSum and relatives, which carry a running compensation term, return in exact arithmetic exactly the sum (resp. the inner product) of the elements for every length.", "quantifier": "all lengths and all element values, exact real arithmetic", "why_tests_cant": "unbounded length; the compensation term must cancel for all prefixes", "anchors": ["src/zm_raw_vec.c: zRawVecInnerProd, zRawVecSqrNorm, zRawVecWSqrNorm", "src/zm_raw_mat.c: zRawMatTrace, zRawMatColInnerProd", "src/zm_stat.c: zDataSum"]}
{"id": "C10", "title": "Bounds-checked element access never leaves the vector", "statement": "The size-checked vector and matrix accessors and mutators (zVecSwap, zVecElem get/put blocks, zMatSwapRow, zMatSwapCol, zMatGetRow ...) either report an error and leave the object unchanged, or perform the access strictly inside the object's buffer, for every integer index argument.", "quantifier": "all index arguments including negative and equal-to-size, all object sizes", "why_tests_cant": "the failing index is a single boundary value per size; out-of-bounds access need not crash a test", "anchors": ["src/zm_vec.c: zVecSwap, zVecGet, zVecPut", "src/zm_mat.c: zMatSwapRow, zMatSwapCol, zMatGet, zMatPut"]}
{"id": "C11", "title": "Operations on resized matrices use the logical size", "statement": "Functions on a zMat whose logical column size is smaller than its allocated capacity (after zMatSetColSize / zMatResize) depend only on the logical rows x cols elements and not on stale data beyond them.", "quantifier": "all capacities, logical sizes and stale contents", "why_tests_cant": "requires all combinations of capacity vs. logical size and of stale data", "anchors": ["src/zm_mat.c: zMatNorm, zMatInfNorm, zMatSetColSizeNC"]}
{"id": "C12", "title": "Polynomial addition, subtraction and multiplication are ring operations", "statement": "For every pair of polynomials, zPexAdd, zPexSub and zPexMul return a polynomial whose value at every point is the sum, difference, product of the values of the operands, and whose size matches dimensions max / max / sum.", "quantifier": "all coefficient vectors of all dimensions, all evaluation points", "why_tests_cant": "infinitely many polynomials and points", "anchors": ["src/zm_pex.c: zPexAdd, zPexSub, zPexMul, zPexVal"]}
{"id": "C13", "title": "Polynomial division", "statement": "zPexDiv(f,g) yields q and r with f = q*g + r identically and dim(r) < dim(g) (or r = 0 when g is constant), for every f and every g whose leading coefficient is nonzero.", "quantifier": "all dividend/divisor pairs with nonzero leading divisor coefficient", "why_tests_cant": "unbounded degrees", "anchors": ["src/zm_pex.c: zPexDiv"]}
{"id": "C14", "title": "Polynomial calculus and expansion", "statement": "zPexDif is the formal derivative, zPexIntg a formal antiderivative with zPexDif(zPexIntg p) = p, zPexDifVal(p,k,x) is the value at x of the k-th derivative, zPexModulo(p,a) returns p(x+a)-coefficients, and zPexExp of a root list is the monic polynomial prod (x - r_i).", "quantifier": "all polynomials, orders k, points", "why_tests_cant": "unbounded degree and order", "anchors": ["src/zm_pex.c: zPexDif, zPexIntg, zPexDifVal, zPexModulo, zPexExp"]}
{"id": "C15", "title": "Polynomial degree normalisation is memory safe", "statement": "zPexRgl removes exactly the (negligible) leading coefficients without changing the polynomial function and never reads outside the coefficient array, for every polynomial including the zero polynomial.", "quantifier": "all polynomials including identically-zero ones", "why_tests_cant": "the failing inputs are the all-negligible polynomials; an out-of-bounds read need not crash", "anchors": ["src/zm_pex.c: zPexRgl"]}
{"id": "C16", "title": "Complex arithmetic obeys the field laws", "statement": "zComplexCMul, CDiv, Inv, Add, Sub, Mul, Conj, SqrAbs realise the field of complex numbers: multiplication is associative/commutative/distributive, division inverts multiplication by every nonzero (non-negligible) number, conjugation is a ring morphism, SqrAbs multiplicative, integer power is repeated multiplication; in-place use of the destination gives the same result.", "quantifier": "all complex operands, all aliasing of destination with operands", "why_tests_cant": "infinite domain, aliasing", "anchors": ["src/zm_complex_arith.c: zComplexAdd ... zComplexPowN", "include/zm/zm_complex.h"]}
{"id": "C17", "title": "Closed-form polynomial equation solvers return the roots", "statement": "zQESolve(a,b,c) stores two complex numbers x1,x2 with a(x-x1)(x-x2) = a x^2+b x+c identically for all a /= 0, b, c; zCESolve stores three such roots for every cubic.", "quantifier": "all coefficient triples/quadruples with nonzero leading coefficient", "why_tests_cant": "infinite domain; degenerate coefficients (b=c=0) are a measure-zero set missed by random tests", "anchors": ["src/zm_complex_pe.c: zQESolve, zCESolve"]}
{"id": "C18", "title": "Sequence queue is FIFO", "statement": "A zSeq behaves as a FIFO queue under any history of zSeqEnqueue / zSeqDequeue, zSeqDequeue on the empty sequence reports NULL, and zSeqJump(k) returns the k-th oldest frame, saturating to the newest one past the end.", "quantifier": "all finite histories of operations, all jump steps", "why_tests_cant": "unbounded histories", "anchors": ["src/zm_seq.c: zSeqEnqueue, zSeqDequeue, zSeqJump"]}
{"id": "C19", "title": "Vector list search and statistics", "statement": "zVecListNN / zVecAddrListNN return an element of the list whose distance to the query is the minimum over all the elements, together with that distance; list mean/sum are the element-wise mean/sum.", "quantifier": "all lists and query points", "why_tests_cant": "unbounded lists", "anchors": ["src/zm_vec_list.c: zVecListNN", "src/zm_mva.c: zVecListMean, zVecListSum"]}
{"id": "C20", "title": "kd-tree nearest neighbour is exact", "statement": "For every sequence of insertions into a zVecTree and every query, zVecTreeNN returns a stored vector whose distance to the query is minimal among all the stored vectors, and its distance.", "quantifier": "all insertion histories, dimensions and query points", "why_tests_cant": "pruning errors show up only for special geometric configurations; unbounded histories", "anchors": ["src/zm_vec_tree.c: zVecTreeAdd, zVecTreeNN"]}
{"id": "C21", "title": "Graph search returns a minimum-cost path", "statement": "zGraphSearchDijkstra / zGraphSearchAStar (with a consistent cost estimate) return the cost of, and a node list describing, a minimum-cost path between the two given nodes for every finite graph with nonnegative arc costs in which the goal is connected to the start.", "quantifier": "all graphs, costs and start/goal pairs", "why_tests_cant": "infinitely many graphs; direction of arcs matters only in asymmetric graphs", "anchors": ["src/zm_graph_search.c: zGraphSearchAStar, zGraphSearchDijkstra", "src/zm_graph.c"]}
{"id": "C22", "title": "Pivoting keeps a valid row permutation", "statement": "Whatever the matrix, every sequence of zMatPivoting / zMatPivotingDiag steps keeps the index array a permutation of 0..n-1, so each row is used exactly once, and the matrix data itself is not moved.", "quantifier": "all matrices and all step sequences", "why_tests_cant": "unbounded histories of swaps", "anchors": ["src/zm_le_pivot.c: zMatPivoting, zMatPivotingDiag"]}
{"id": "C23", "title": "Gauss elimination solves the equation", "statement": "When zLESolveGauss returns an answer x for a square system, A x = b holds exactly in real arithmetic; it reports failure when it meets a pivot column of negligible entries; it terminates after exactly n pivots without any out-of-bounds access.", "quantifier": "all n, all A, b (real arithmetic), tolerance as parameter", "why_tests_cant": "all sizes and all matrices, including those requiring row exchanges", "anchors": ["src/zm_le.c: zLESolveGaussDST, zLESolveGauss", "src/zm_le_pivot.c: zMatVecSweepOut"]}
{"id": "C24", "title": "Triangular solves", "statement": "zLESolveL (with row index) and zLESolveU return x with L x = P b resp. U x = b for every triangular matrix with nonzero diagonal.", "quantifier": "all n, all triangular matrices, all index permutations", "why_tests_cant": "unbounded sizes", "anchors": ["src/zm_le.c: zLESolveL, zLESolveU, zLESolveLU"]}
{"id": "C25", "title": "LU decomposition reproduces the matrix", "statement": "zMatDecompLU(m,l,u,idx) yields L (unit-pattern lower triangular up to the row permutation idx) and U upper triangular with L*U = M, and returns the rank, for every matrix.", "quantifier": "all sizes and matrices, including rank-deficient and non-square", "why_tests_cant": "rank-deficient corner cases; unbounded size", "anchors": ["src/zm_le_lu.c: zMatDecompLUDST, zMatDecompLU"]}
{"id": "C26", "title": "Cholesky decomposition reproduces the matrix", "statement": "For every symmetric positive (semi)definite matrix on which zMatDecompCholesky succeeds, the result satisfies L L^T = M.", "quantifier": "all sizes, all symmetric matrices accepted", "why_tests_cant": "unbounded size", "anchors": ["src/zm_le_lu.c: zMatDecompCholeskyDST, zMatDecompCholesky"]}
{"id": "C27", "title": "Tridiagonal solver", "statement": "If zLETridiagSolve returns an answer, it satisfies all n tridiagonal equations; negligible pivots are reported.", "quantifier": "all n, all bands and right-hand sides", "why_tests_cant": "unbounded size; the last pivot is a boundary case", "anchors": ["src/zm_le_tridiag.c: zLETridiagSolveDST, zLETridiagSolve"]}
{"id": "C28", "title": "Determinant", "statement": "zMatDet returns the determinant of every square matrix (exact arithmetic): zero for singular ones and the signed product for the others.", "quantifier": "all square matrices of all sizes", "why_tests_cant": "the early exit on a small running product is wrong only for badly scaled matrices", "anchors": ["src/zm_le_mat_inv.c: zMatDetDST, zMatDet"]}
{"id": "C29", "title": "Inverse matrix and inverse-multiply", "statement": "zMatInv / zMulInvMatMat return X with M X = I resp. M1 X = M2, and report failure for singular matrices.", "quantifier": "all square matrices of all sizes", "why_tests_cant": "singular inputs are measure zero", "anchors": ["src/zm_le_mat_inv.c: zMatInv, zMulInvMatMat, zMulMatInvMat, zMatInvHotelling"]}
{"id": "C30", "title": "Balancing does not change the solution", "statement": "zMatVecBalancing and relatives rescale rows/columns so that the solution of the balanced system, rescaled by s, solves the original system.", "quantifier": "all systems", "why_tests_cant": "infinite family of systems", "anchors": ["src/zm_le.c: zMatVecBalancingDST, zMatVecRowBalancingDST, zMatColBalancingDST"]}
{"id": "C31", "title": "FFT equals the DFT", "statement": "zFFT of a real series of any length n (any factorisation) returns exactly the discrete Fourier transform X_k = (2/n) sum_j x_j exp(2 pi i jk/n), X_0 = (1/n) sum_j x_j, so that a harmonic A cos + B sin of frequency 0 < k < n/2 shows as A + iB; zFFT2 is the transform of the rows followed by that of the columns.", "quantifier": "all lengths n >= 1 (not only powers of two) and all data", "why_tests_cant": "mixed-radix recursion has different code path per factorisation of n", "anchors": ["src/zm_data_fft.c: zFFT"]}
{"id": "C32", "title": "Inverse FFT restores the data", "statement": "zFFTInv(zFFT(x)) = x for every length and every real series (exact arithmetic); same for the 2-D transforms.", "quantifier": "all lengths and data", "why_tests_cant": "all factorisations of n", "anchors": ["src/zm_data_fft.c: zFFT, zFFTInv, zFFT2, zFFT2Inv"]}
{"id": "C33", "title": "Interpolation segment search", "statement": "For every strictly increasing knot sequence and every t, zIPDataSeg terminates and returns the index i of the segment with t_i <= t < t_{i+1}, saturating to the first/last segment outside the range, with all the array reads in bounds.", "quantifier": "all knot sequences with at least two points, all t", "why_tests_cant": "binary search boundary errors depend on size and position", "anchors": ["src/zm_ip.c: zIPDataSeg"]}
{"id": "C34", "title": "Linear interpolation", "statement": "zIPLin interpolators pass through all the given points, are affine between consecutive knots (hence continuous), and report the exact segment slope as velocity.", "quantifier": "all knot sequences and values, all t", "why_tests_cant": "all sizes and positions", "anchors": ["src/zm_ip_lin.c"]}
{"id": "C35", "title": "Lagrange interpolation", "statement": "zIPLagrange interpolators pass through all the given points and reproduce every polynomial of degree < n exactly; velocity and acceleration are its exact derivatives.", "quantifier": "all knot sets with distinct abscissae, all t", "why_tests_cant": "all sizes", "anchors": ["src/zm_ip_lagrange.c"]}
{"id": "C36", "title": "Spline interpolation", "statement": "zIPSpline interpolators pass through all the points with continuous first and second derivatives at the interior knots and satisfy the requested end conditions (clamped velocity or free = zero acceleration) at both ends.", "quantifier": "all knot sequences, values and edge types", "why_tests_cant": "all sizes; wrong coefficients at one end are visible only for free ends", "anchors": ["src/zm_ip_spline.c: zIPCreateSpline"]}
{"id": "C37", "title": "Akima and PCHIP interpolation", "statement": "zIPAkima and zIPPCHIP interpolators pass through all the points with continuous first derivative; data on a straight line are reproduced as that straight line; PCHIP is monotone on monotone data.", "quantifier": "all knot sequences and values", "why_tests_cant": "all sizes and data; degenerate weights only for collinear data", "anchors": ["src/zm_ip_akima.c", "src/zm_ip_spline.c: zIPCreatePCHIP"]}
{"id": "C38", "title": "Polynomial interpolation with boundary conditions", "statement": "zPexIPCreateBoundary produces a polynomial curve with the requested value, velocity and acceleration at both the beginning and the end, with the given coefficients of the orders between; the least-squares variant satisfies the boundary conditions as well. A zero duration is rejected.", "quantifier": "all terms T /= 0, boundary values, free coefficients and samples", "why_tests_cant": "infinite family of boundary values", "anchors": ["src/zm_ip_pex.c: zPexIPCreateBoundary, zPexIPCreateBounderyLSM"]}
{"id": "C39", "title": "Trapezoidal velocity profile", "statement": "A created profile starts at distance 0 with velocity v0, ends at the requested distance with velocity vT at its duration, is continuous in distance and velocity, and never exceeds the maximum velocity/acceleration given.", "quantifier": "all parameter combinations accepted by the constructor, all t", "why_tests_cant": "all real parameter combinations and time points", "anchors": ["src/zm_ip_trvelprof.c"]}
{"id": "C40", "title": "Clothoid start point", "statement": "zClothoidXY at s=0 returns the start point (x0,y0) given to the clothoid.", "quantifier": "all clothoid parameters", "why_tests_cant": "a test with x0=y0 cannot distinguish the coordinates", "anchors": ["src/zm_ip_clothoid.c: zClothoidXY"]}
{"id": "C41", "title": "B-spline basis", "statement": "For every nondecreasing knot vector with a nonempty domain (clamped at its ends for the end points) and every parameter in it, and positive weights, the segment search finds the knot span containing the parameter, basis functions are nonnegative, vanish outside their span, sum to one, and B-spline/NURBS curves interpolate the end control points and stay in the range of the control points.", "quantifier": "all orders, knot vectors, control points, parameters", "why_tests_cant": "multiplicity patterns of knots and all parameters", "anchors": ["src/zm_nurbs.c: zBSplineParamKnotInit, zBSplineParamSeg, zBSplineParamBasis, zNURBSVec, zBSplineVec"]}
{"id": "C42", "title": "Formula parser respects precedence and associativity", "statement": "For every arithmetic expression tree, scanning a fully standard token sequence printing it (with the documented precedence) and evaluating the parsed term gives the standard-precedence value of the expression.", "quantifier": "all expression token sequences of any length and nesting", "why_tests_cant": "unbounded expressions", "anchors": ["src/zm_parse.c"]}
{"id": "C43", "title": "Simplex method is sound", "statement": "When zLPSolveSimplex reports success, the answer is a feasible point of A x = b, x >= 0 and its cost is minimal among all the feasible points (with exact arithmetic); infeasible problems are reported.", "quantifier": "all A, b, c of all sizes", "why_tests_cant": "infinitely many programs; redundant constraint rows are special", "anchors": ["src/zm_opt_lp_simplex.c: zLPSolveSimplex"]}
{"id": "C44", "title": "Lemke's method is sound", "statement": "When zLCPSolveLemke reports success, w = M z + q, w >= 0, z >= 0, w^T z = 0.", "quantifier": "all M, q of all sizes", "why_tests_cant": "all pivoting histories", "anchors": ["src/zm_opt_lcp_lemke.c: zLCPSolveLemke"]}
{"id": "C45", "title": "LP standard-form conversion is equivalent", "statement": "zLPIneq2Std and zLPUnb2Std produce a standard-form program whose feasible set projects exactly onto that of the original and has the same objective.", "quantifier": "all programs of all sizes", "why_tests_cant": "all sizes and all feasible points", "anchors": ["src/zm_opt_lp_stdcnv.c"]}
{"id": "C46", "title": "Quadratic program helpers", "statement": "zQuadraticValue(q,c,x) = 1/2 x^T Q x + c^T x; the LCP built from a QP is its KKT system; the conjugate-gradient solver answers a point whose gradient Q x + c is within the tolerance, never worse than the start, and needs no more than n iterations for n variables.", "quantifier": "all problem data, all iteration counts", "why_tests_cant": "all sizes and iteration histories", "anchors": ["src/zm_opt_qp.c"]}
{"id": "C47", "title": "Line search keeps the minimiser bracketed", "statement": "Golden section and trisection searches keep, at every iteration, an interval inside the initial one that contains the minimiser of a unimodal function, and shrink it geometrically.", "quantifier": "all unimodal functions, intervals, tolerances, iteration counts", "why_tests_cant": "all functions and all iteration histories", "anchors": ["src/zm_opt_line.c: zOptLineGoldenSection, zOptLineTrisection, zOptLineBrent"]}
{"id": "C48", "title": "Scalar root finding keeps the bracket", "statement": "zNLE_Bisec (and secant/regula-falsi/van Wijngaarden-Dekker-Brent) started from a sign-changing bracket return a point of the bracket at which |f|<=tol, or a point of a sign-changing interval shrunk by the iterations; the value returned is always one at which the function was tested.", "quantifier": "all continuous functions, brackets, tolerances, random sequences", "why_tests_cant": "all functions and all random-number histories", "anchors": ["src/zm_nle_se.c: zNLE_Bisec, zNLE_Secant, zNLE_RF, zNLE_VDB"]}
{"id": "C49", "title": "Numerical quadrature exactness", "statement": "Rectangular/trapezoidal/quadratic integrators accumulate exactly the integral of piecewise constant/linear/quadratic interpolants (through the last three samples once there are three) for any sequence of samples and steps.", "quantifier": "all sample histories and step sequences", "why_tests_cant": "unbounded histories", "anchors": ["src/zm_intg.c"]}
{"id": "C50", "title": "ODE integrators reproduce polynomials of their order", "statement": "One Euler/Heun/RK4/Runge-Kutta-Gill/embedded step integrates dx/dt = f(t) exactly for every polynomial f up to the method's order minus one, and x' = lambda x up to the Taylor polynomial of the method's order; weights are consistent.", "quantifier": "all polynomials, step sizes, start times, system dimensions", "why_tests_cant": "all right-hand sides of the class", "anchors": ["src/zm_ode_euler.c", "src/zm_ode_heun.c", "src/zm_ode_rk4.c", "src/zm_ode_rkg.c", "src/zm_ode_erk.c", "src/zm_ode_adams.c"]}
{"id": "C51", "title": "Second-order ODE integrators", "statement": "The symplectic and leapfrog updates are time-reversible/area preserving and exact for constant acceleration as documented.", "quantifier": "all states, step sizes and step counts", "why_tests_cant": "unbounded step counts", "anchors": ["src/zm_ode2.c"]}
{"id": "C52", "title": "Sample statistics", "statement": "zDataMean/Var, zVecListMean/Cov: mean minimises squared deviation, variance is nonnegative and shift invariant, covariance is symmetric positive semidefinite.", "quantifier": "all nonempty data sets of all sizes and dimensions", "why_tests_cant": "unbounded data", "anchors": ["src/zm_stat.c", "src/zm_mva.c"]}
{"id": "C53", "title": "Extremum search returns the first extremal element", "statement": "zDataMax / zDataMin / zDataAbsMax / zDataAbsMin (and the zVec wrappers) return the extremal value and the smallest index attaining it; the value bounds all elements.", "quantifier": "all nonempty arrays", "why_tests_cant": "unbounded arrays; ties", "anchors": ["src/zm_stat.c: zDataMax, zDataMin, zDataAbsMax, zDataAbsMin"]}
{"id": "C54", "title": "Histogram accounts for every datum", "statement": "Each datum inside [min,max) is counted in exactly the bin whose interval [BinMin(i),BinMax(i)) contains it; the bin counts sum to the number of data in range; consecutive bins tile [min,max].", "quantifier": "all data sets and bin counts", "why_tests_cant": "bin boundary values and rounding", "anchors": ["src/zm_stat_histogram.c"]}
{"id": "C55", "title": "RRT tree invariants", "statement": "After any sequence of random extensions, the RRT is a tree rooted at the start: every node except the root has a parent already in the tree, edge lengths equal the metric distance and do not exceed eps, each added node passed the collision check, and following parents from any node reaches the start; RRT* rewiring keeps it a tree and never increases the cost of a node's path.", "quantifier": "all sample sequences, metrics, collision checkers", "why_tests_cant": "random histories are unbounded", "anchors": ["src/zm_rrt.c"]}
{"id": "C56", "title": "Growing neural gas graph invariants", "statement": "After any history of adaptations, edges connect two distinct live units, the edge list and units' incidence lists agree, every unit has at least one edge, and there are at least two units.", "quantifier": "all sample histories and parameters", "why_tests_cant": "unbounded histories; removal of aged edges", "anchors": ["src/zm_gng.c"]}
{"id": "C57", "title": "K-means keeps a partition", "statement": "Every (re)assignment step of k-means clustering keeps the clusters a partition of the input points, each moved point goes to a nearest core, and reclustering stops only when every point is in a cluster with nearest core.", "quantifier": "all point sets, cluster counts and distance functions", "why_tests_cant": "unbounded inputs and iteration histories", "anchors": ["src/zm_mva_cluster.c"]}
{"id": "C58", "title": "Jacobi eigenvalue iteration is an orthogonal similarity", "statement": "After any number of rotations of zMatSymEigJacobi, V is orthogonal and V^T M V equals the current matrix, so that at convergence M = V diag V^T up to the tolerance.", "quantifier": "all symmetric matrices and all rotation histories", "why_tests_cant": "unbounded iteration histories", "anchors": ["src/zm_mat_eig.c: zMatSymEigJacobi"]}
{"id": "C59", "title": "Complex vectors: conjugate pairing and conversions", "statement": "zCVecConjPair only permutes the vector and on success leaves real numbers and adjacent conjugate pairs; real/complex conversions round-trip; element-wise complex vector operations agree with the scalar ones.", "quantifier": "all complex vectors", "why_tests_cant": "all sizes/permutations", "anchors": ["src/zm_cvec.c"]}
{"id": "C60", "title": "LQ decomposition reproduces the matrix", "statement": "zMatDecompLQ yields L lower triangular and Q with orthonormal rows with L Q = M, returning the rank, for every matrix.", "quantifier": "all sizes and matrices incl. rank-deficient", "why_tests_cant": "rank-deficient corner cases", "anchors": ["src/zm_le_lq.c"]}
{"id": "C61", "title": "Data smoothing/peak/segment utilities", "statement": "zDataSelect (k-th order statistic/median), sorting with index, peak detection and Ramer-Douglas-Peucker simplification return what they document for every data array: the selected element is the k-th smallest, peaks are exactly the local maxima, the simplified polyline keeps the end points and stays within the tolerance.", "quantifier": "all arrays", "why_tests_cant": "unbounded arrays", "anchors": ["src/zm_data.c", "src/zm_vec_list.c: zVecListRDP"]}
{"id": "C62", "title": "Smoothstep is a monotone C0 step with the advertised derivative", "statement": "zSmoothStep(x,order) is continuous in x, non-decreasing, stays in [0,1], is 0 for x<=0 and 1 for x>=1, and zSmoothStepDif(x,order) is its derivative at every x strictly inside (0,1).", "quantifier": "all real x and all orders", "why_tests_cant": "continuum of x and all orders", "anchors": ["src/zm_misc.c: zSmoothStep, zSmoothStepDif"]}
{"id": "C63", "title": "Size-checked vector and matrix arithmetic", "statement": "The size-checked operations on vectors and matrices (add, subtract, reverse, scale, divide, amplify, concatenate, matrix products) perform the operation exactly when all operand sizes fit (and the divisor is not negligible), and otherwise answer NULL leaving every memory cell unchanged; they never access memory outside the operands.", "quantifier": "all object sizes, contents, capacities and alias patterns", "why_tests_cant": "a missing size comparison shows only for particular size combinations", "anchors": ["src/zm_vec.c: zVecAdd ... zVecCat", "src/zm_mat.c: zMatAdd ... zMatCat, zMulMatVec ... zMulMatTMatMat"]}
{"id": "C64", "title": "In-place matrix-vector product", "statement": "zMulMatVecDRC / zMulMatTVecDRC replace v by M v (M^T v), computed from the original v, and change nothing else; mismatching sizes are reported and leave v unchanged.", "quantifier": "all matrices and vectors", "why_tests_cant": "all sizes; the temporary hides the failure of the inner product", "anchors": ["src/zm_mat.c: zMulMatVecDRC, zMulMatTVecDRC"]}
{"id": "C65", "title": "Projection, orthogonalization and distance to an edge", "statement": "zVecProj(v,n) is the multiple of n whose difference from v is orthogonal to n, zVecOrthogonalize returns that difference, and zVecEdgeDist is the minimal distance from the point to the edge.", "quantifier": "all vectors of all dimensions", "why_tests_cant": "continuum of inputs, all dimensions", "anchors": ["src/zm_vec.c: zVecProj, zVecOrthogonalize, zVecEdgeDist"]}
{"id": "C66", "title": "Structural predicates of matrices", "statement": "zMatEqual, zMatIsDiag, zMatIsIdent and zMatIsSymmetric answer true exactly when every (relevant) element satisfies the condition.", "quantifier": "all sizes, capacities and contents", "why_tests_cant": "a skipped element is only seen with the right witness", "anchors": ["src/zm_mat.c: zMatEqual, zMatIsDiag, zMatIsIdent, zMatIsSymmetric"]}
{"id": "C67", "title": "Sweep-out keeps the solutions", "statement": "zMatMatSweepOut / zMatVecSweepOut on a non-zero entry (r,c) leave the unit vector e_r in column c of the coefficient matrix, answer the pivot, and keep exactly the solutions of the linear system; on a zero entry nothing changes.", "quantifier": "all matrices, right-hand sides and pivot positions", "why_tests_cant": "infinitely many systems and solution vectors", "anchors": ["src/zm_le_pivot.c: zMatMatSweepOut, zMatVecSweepOut"]}
{"id": "C68", "title": "Printed polynomial denotes the polynomial", "statement": "zPexSExpr writes an expression (signed terms: number, variable, power) whose value at every x is the value of the polynomial.", "quantifier": "all polynomials and all arguments x", "why_tests_cant": "every pattern of zero, unit, negative and positive coefficients is a different path", "anchors": ["src/zm_pex.c: zPexSExpr"]}
{"id": "C69", "title": "Interpolator values at the given points", "statement": "zIPSecVel and zIPSecAcc of point i give the velocity and the acceleration that zIPVel and zIPAcc give at the time of point i.", "quantifier": "all interpolator kinds, all point sequences and all i", "why_tests_cant": "one wrong end point or sign is visible only at one index of one interpolator kind", "anchors": ["src/zm_ip_spline.c: _zIPSecVelSpline, _zIPSecAccSpline, _zIPSecAccPCHIP", "src/zm_ip_lin.c: _zIPSecVelLinear", "src/zm_ip_akima.c: _zIPSecVelAkima", "src/zm_ip_lagrange.c"]}
{"id": "C70", "title": "Least-squares polynomial", "statement": "zPexIPCreateLSM gives, among all polynomials of the order, one with the smallest sum of squared errors at the samples.", "quantifier": "all orders, durations /= 0 and sample sequences of equal sizes", "why_tests_cant": "no test compares with every other polynomial", "anchors": ["src/zm_ip_pex.c: zPexIPCreateLSM"]}
{"id": "C71", "title": "Generalized Fresnel integral", "statement": "zFresnelIntgGen(x,f0,f1,f2) gives the integrals from 0 to x of the sine and the cosine of f0 + f1 t + f2 t^2, given that zFresnelIntgPI_2 gives the normalized ones.", "quantifier": "all x, f0, f1, f2 of either sign", "why_tests_cant": "three branches, signs and scalings over a continuum", "anchors": ["src/zm_sf_fresnel.c: zFresnelIntgScale, zFresnelIntgGen"]}
{"id": "C72", "title": "Clothoid tangents and chord", "statement": "A created clothoid leaves with the angle f0, arrives with the angle f1, and its end points are as far apart as the given ones.", "quantifier": "all end points, angles and numbers of iterations of the search", "why_tests_cant": "the search may stop anywhere", "anchors": ["src/zm_ip_clothoid.c: zClothoidCreateSegment, zClothoidXY"]}
{"id": "C73", "title": "Derivatives of B-spline and NURBS curves", "statement": "Between two knots the derivative functions give the derivatives of any order of the basis functions, of the B-spline curve and of the NURBS curve; a NURBS derivative of an order above order+1 is rejected.", "quantifier": "all orders, knot vectors, control points, weights above the tolerance, parameters and orders of differentiation", "why_tests_cant": "derivative formulas over a continuum; the recursion for the rational curve mixes all lower derivatives", "anchors": ["src/zm_nurbs.c: zBSplineParamBasisDiff, zBSplineVecDiff, zNURBSVecDiff"]}
{"id": "C74", "title": "Scaling knots is a change of the parameter", "statement": "Scaling the knots to an interval maps the first knot to its start and the last to its end by an increasing affine map, and the curve with the scaled knots takes the same points at the mapped parameters.", "quantifier": "all knot vectors whose range exceeds the tolerance, all intervals, control points and parameters", "why_tests_cant": "equality of two curves over a continuum", "anchors": ["src/zm_nurbs.c: zBSplineParamKnotNormalize, zBSplineParamKnotScale"]}
{"id": "C75", "title": "Discrete and chi-squared distributions", "statement": "The binomial probabilities over 0..n are nonnegative and sum to 1, the Poisson probabilities are nonnegative and sum to 1, and the chi-squared cumulative function starts at 0, is the integral of its density, never decreases and stays in [0,1).", "quantifier": "all numbers of trials, probabilities, rates, arguments and (even) degrees of freedom", "why_tests_cant": "infinite sums and a continuum of arguments", "anchors": ["src/zm_stat.c: zBinDistrib, zPoissonDistrib, zChi2CumDistrib, zChi2Distrib"]}
{"id": "C76", "title": "Savitzky-Golay smoothing reproduces polynomials", "statement": "Smoothing a sequence sampled from a polynomial of at most the given degree returns the sequence unchanged, its velocity version returns the derivative, peak detection on it finds the sign changes of the derivative, and neither reads or writes outside the arrays.", "quantifier": "all polynomials up to the degree, all lengths and window sizes", "why_tests_cant": "all lengths; the window at the end of the data decides about out-of-bounds reads", "anchors": ["src/zm_data.c: zDataSmoothSG, zDataSmoothVelSG, zDataPeakSG"]}
{"id": "C77", "title": "Multistep solvers are exact on polynomials", "statement": "With a history that holds the exact preceding derivatives (Adams) or values (Gear), an update integrates polynomial solutions up to the number of steps exactly and keeps the history in that state; a fresh solver starts accordingly.", "quantifier": "all numbers of steps (Gear: 1 to 6), polynomials, times and step lengths", "why_tests_cant": "the weights are computed for an arbitrary number of steps; every step length and polynomial is an input", "anchors": ["src/zm_ode_adams.c: _zODESetWeightAdams, zODEUpdateAdams", "src/zm_ode_gear.c: zODECreateGear, zODEUpdateGear"]}
{"id": "C78", "title": "Step-size control covers the interval", "statement": "An update of the embedded methods terminates and consists of steps of the method with the higher-order weights that cover [t,t+dt] without gap or overlap, each either within the error tolerance or of the minimal length; deferred correction covers the interval with accepted extrapolated steps of a raised order.", "quantifier": "all right-hand sides, states, times and step lengths", "why_tests_cant": "unbounded recursion driven by the right-hand side", "anchors": ["src/zm_ode_erk.c: _zODEUpdateERK", "src/zm_ode_dc.c: zODEUpdateDC"]}
{"id": "C79", "title": "Implicit solvers satisfy their equations", "statement": "When the nonlinear solver finds a zero, the updates of the backward Euler, trapezoidal, Gauss and Radau methods are steps of the implicit Runge-Kutta methods of these names, which have order 1, 2, 4 and 3.", "quantifier": "all right-hand sides, states, times and step lengths", "why_tests_cant": "continuum of inputs; coefficients are spread over several functions", "anchors": ["src/zm_ode_beuler.c: zODEUpdateBEuler, zODEUpdateTR", "src/zm_ode_bk4.c: zODEUpdateGauss, zODEUpdateRadau"]}
{"id": "C80", "title": "Simultaneous equation solvers report success only at a solution", "statement": "zNLESolve (Newton-Raphson, Broyden) returns a nonnegative count only when every equation is met within tol at the variables left behind, with *err half the weighted sum of squares there; without a user Jacobian the numerical one approximates the matrix of partial derivatives; Broyden's method solves regular affine equations in one iteration and its update fulfils the secant condition; zSSSolve answers an iterate of f, near to the fixed point of a contraction.", "quantifier": "all equations, weights, Jacobians, direction solvers, sizes, iteration counts", "why_tests_cant": "all functions and all iteration histories", "anchors": ["src/zm_nle_dm.c", "src/zm_nle_ss.c: zSSSolve"]}
{"id": "C81", "title": "Singular value decomposition", "statement": "zMatSVD returns the rank r, an orthogonal u, singular values that are positive and descending up to r and zero after it, and r unit rows v with s_a v_a = (u^T m)_a, orthogonal to each other up to the tolerance, such that u diag(sv) v = m up to the tolerances.", "quantifier": "all sizes and matrices incl. rank-deficient, tall and wide ones", "why_tests_cant": "continuum of matrices; rank decisions and iteration histories differ for each", "anchors": ["src/zm_mat_eig.c: zMatSVD, _zMatSVDSort"]}
{"id": "C82", "title": "X-means and indices of a clustering", "statement": "zVecMultiClusterXMeans ends for every test function and leaves a partition of the points into non-empty clusters, dividing a cluster only when the test finds the division better and neither part is more than ten times the other; the silhouette of a point compares its mean distance to its own cluster with that to the nearest other one and, like the mean silhouette, is in [-1,1]; the evenness is the ratio of the largest size to the smallest, at least 1, and 1 exactly for equal sizes.", "quantifier": "all point sets, test functions, random sequences, partitions and iteration limits", "why_tests_cant": "the recursion depth and the partitions depend on all points and draws", "anchors": ["src/zm_mva_cluster.c: zVecMultiClusterXMeans, zVecMultiClusterMeanSilhouette, zVecMultiClusterEvenness"]}
{"id": "C83", "title": "Growing neural gas learns inside the data", "statement": "In every network each sample is attributed to the nearest unit and the second nearest, the unit at which the network grows has the greatest accumulated error, and for every history of samples in a box and parameters with coefficients in [0,1] and non-negative ratios (the defaults among them) all units stay in the box and all errors are non-negative.", "quantifier": "all sample histories, parameters, dimensions", "why_tests_cant": "unbounded histories", "anchors": ["src/zm_gng.c", "zGNGInit", "zGNGUpdate"]}
{"id": "C84", "title": "RANSAC loses no sample and refits its best candidate", "statement": "For every set of samples, every user-defined fitting and error function and every random stream, RANSAC splits the samples without loss into inliers and the rest; the inliers are exactly the samples whose error is below twice the threshold for the candidate, the candidate is the model of one of the nt trials (each fitted to ns drawn samples) with the greatest number of samples below the threshold, or the given model if no trial has any, and the result is fitted to the inliers; the automatic setting never draws more than half of the samples, and the returned inliers are within the doubled threshold of the returned model.", "quantifier": "all sample lists, model types, fit and error functions, random streams, numbers of samples and trials, thresholds", "why_tests_cant": "unbounded lists and random streams", "anchors": ["src/zm_mva_ransac.c", "zRANSAC", "zRANSACSaveInlier", "zRANSACAuto", "zRANSACSaveInlierAuto"]}
{"id": "C85", "title": "Particle swarm search stays in the box and never loses its records", "statement": "For every objective function, box, number of particles, gains and random stream with numbers in [0,1], after any number of rounds every particle and every particle's record lies in the box, a record's value is the value of the function at the record and not worse than at the particle's position, speeds respect the limit, and records never get worse; the solver ends within the limit of rounds with an answer in the box, it stops early only when every particle is at rest, and the reported value is the value of the function at the answer and the best value of all points evaluated.", "quantifier": "all functions, boxes, numbers of particles and rounds, gains and random streams", "why_tests_cant": "unbounded rounds and random streams", "anchors": ["src/zm_opt_pso.c", "zOptSolvePSO"]}
{"id": "C86", "title": "Nelder-Mead search is a run of simplex moves and returns the best vertex", "statement": "For every objective function and box the method performs reflections, expansions, contractions and crunches of the simplex spanned by the middle of the box and its offsets along the axes; an answer is the vertex of least value of a simplex whose size is within the tolerance, the reported value is the value of the function at the answer and not greater than at any starting vertex, failure is reported only after the full number of iterations, bounds of other sizes are rejected, the run ends within the limit of iterations and the answer lies in the box.", "quantifier": "all functions, boxes, dimensions, tolerances and limits", "why_tests_cant": "unbounded sequences of simplices, arbitrary functions", "anchors": ["src/zm_opt_nm.c", "zOptSolveNM"]}
{"id": "C87", "title": "The genetic algorithm keeps a sorted, normalised population in the box and its best individual", "statement": "For every objective function, box, population size, rate and random stream, after any number of generations the population has its size, every gene lies in the box, the individuals are sorted by their value, fitnesses are the distances from the worst value normalised to sum 1 (or all 1), the reported value is the value of the first individual and the least of the population; survivors that do not mutate are in the next generation, every child is bred from the previous generation, the best value never gets worse, and the solver returns the best individual of the last generation with its value.", "quantifier": "all functions, boxes, population sizes, rates, numbers of generations and random streams", "why_tests_cant": "unbounded generations and random streams, in-place quicksort on any population", "anchors": ["src/zm_opt_ga.c", "zOptSolveGA", "zOptGAReproduce", "zOptGARand"]}
{"id": "C88", "title": "Oscillators lock to their drive, conserve energy and start where they are told", "statement": "A Kuramoto oscillator never deviates from its natural rotation by more than the gain times the elapsed time, whatever the inputs; driven by a rotation whose frequency differs from its own by less than the gain, its delay converges to the locking angle from every start but the opposite phase, monotonically. A van der Pol oscillator is created unless its term is tiny, outputs its initial value, is odd, stays at rest, keeps its energy within a constant factor for ever without damping, and is drawn to its amplitude with damping.", "quantifier": "all parameters, starts, inputs and numbers of steps", "why_tests_cant": "limits and unbounded numbers of steps", "anchors": ["src/zm_oscil_kura.c", "src/zm_oscil_vdp.c", "zOscUpdate", "zOscInit", "zOscOutput", "zOscCreateKura", "zOscCreateVDP"]}
{"id": "C89", "title": "Random numbers stay in the support of their distribution, for every stream", "statement": "Whatever the generator draws, the derived random numbers are defined (no division by zero) and in the support of their distribution: gamma, chi-squared, exponential, Weibull and F not negative, beta and power in [0,1], triangular in [-1,1]; the binomial number is the number of draws below p, the Poisson number the number of factors that keep the product above 1, the geometric number inverts the distribution function and is at least 1, the normal numbers come in pairs that are the coordinates of one Box-Muller point, t and Cauchy numbers are finite.", "quantifier": "all streams of draws in [0,1), all parameters in the domain of the distribution", "why_tests_cant": "universally quantified over infinite random streams", "anchors": ["src/zm_rand.c", "zRandGamma", "zRandBeta", "zRandFD", "zRandND0", "zRandT", "zRandBinom", "zRandPoisson", "zRandGeo"]}
{"id": "C90", "title": "The generalized linear solvers return the unique optimum of the problem they solve", "statement": "For matrices of any size and any weights: the norm-minimizing solver returns the one solution with the least weighted norm (among all solutions, or measured from a reference vector), the error-minimizing solver the one vector with the least weighted residual, and the singularity-robust solvers the one minimum of the weighted residual plus the weighted (or referred) bias; a null answer is given only if the rows (columns) are dependent; arguments whose sizes do not fit are rejected and the answer is left alone.", "quantifier": "all matrices, right-hand sides, references and positive weights (or none), of any size", "why_tests_cant": "optimality is a claim over all vectors, for every matrix", "anchors": ["src/zm_le_gen.c", "zLESolveNormMin", "zLESolveRefNormMin", "zLESolveErrorMin", "zLESolveSRBias", "zLESolveSR", "zLESolveSRAux", "zLESolveSRRef"]}
{"id": "C91", "title": "The Moore-Penrose solvers return the least-norm least-squares vector", "statement": "For every matrix of any size and rank: the solver with the Moore-Penrose inverse returns the one vector with the least (weighted) norm among those with the least (weighted) residual, which without weights is the product of the Moore-Penrose inverse and the right-hand side; with an auxiliary vector the norm is measured from it; the null-space matrix is the projector onto the null space; the variants by LU decomposition and by singular values give the same.", "quantifier": "all matrices of any size and rank, right-hand sides, positive weights (or none) and auxiliary vectors", "why_tests_cant": "optimality is a claim over all vectors, for every matrix", "anchors": ["src/zm_le_gen.c", "zLESolveMP_LQ", "zLESolveMP_LU", "zLESolveMP_SVD", "zLESolveMPNull", "zLESolveMPAux"]}
{"id": "C92", "title": "The Lyapunov solver returns the unique solution, and fails only if there is none or several", "statement": "For all square matrices of one size an answer X satisfies X A + A^T X = B and is the only matrix that does so (hence symmetric for symmetric B); a null answer means that the homogeneous equation has a solution that is not zero; matrices whose sizes do not fit are rejected.", "quantifier": "all square matrices a and b of any size", "why_tests_cant": "holds for every matrix; uniqueness is a claim over all matrices", "anchors": ["src/zm_le_lyapnov.c", "zLELyapnovSolve"]}
{"id": "C93", "title": "The Moore-Penrose inverse satisfies the four Penrose relations and is returned with its rank", "statement": "For every matrix of any size and rank the computed matrix X satisfies A X A = A, X A X = X, and A X and X A are symmetric, and it is the only one; the returned number is the rank; the variant with null space returns X A - I in addition; the product variant returns X times the given matrix; the Penrose iteration, whenever it ends, returns the same.", "quantifier": "all matrices of any size and rank", "why_tests_cant": "holds for every matrix; uniqueness is a claim over all matrices", "anchors": ["src/zm_le_mat_mpinv.c", "zMatMPInv", "zMatMPInvNull", "zMulMPInvMatMat", "zMatMPInvPenrose"]}
{"id": "C94", "title": "The DIRECT optimizer returns the best centre of a partition of the search domain", "statement": "For every function and box, after any number of rounds the points evaluated are the centres of cells that cover the domain without overlap. A run that ends before the limit of iterations returns a point of the domain with its value, which is the least over all centres of the partition (never more than the value at the middle of the domain), and the cell of the answer is as small as the tolerance asks. Each round cuts the best of the largest cells, the best of all cells, and between them those with the steepest descent; the directions with better sides keep the larger pieces. (Refuted at the limit of iterations.)", "quantifier": "all functions, boxes of any dimension, tolerances and numbers of iterations", "why_tests_cant": "covering and non-overlap are claims over all points of the domain and all histories of the search", "anchors": ["src/zm_opt_direct.c", "zOptSolveDIRECT"]}
{"id": "C95", "title": "The DIRECT optimizer ends within a bound that depends only on the dimension and the tolerance", "statement": "For every function, also if it is not continuous, the search ends by itself after at most (3^(dim*level)-1)/2 rounds, level being the number of times the tolerance divides the unit edge by three; it never reads outside its lists; bounds of different sizes are rejected.", "quantifier": "all functions, boxes, tolerances, and limits of iterations above the bound", "why_tests_cant": "termination is a claim over all functions", "anchors": ["src/zm_opt_direct.c", "zOptSolveDIRECT"]}
{"id": "C96", "title": "Numerical solutions of polynomial equations are roots of the polynomial", "statement": "zPexBH rejects a vector with fewer entries than the degree and otherwise always returns; when it prints no iteration warning, the polynomial equals a_n times the product of (x - z_i) over the n returned numbers up to the remainders of the successive divisions, each bounded by the tolerance times the gradient of the remainder; with exact convergence the n returned numbers are all the roots with their multiplicities. When zPexDKA prints no warning, the real and imaginary parts of the polynomial at each of the n returned numbers are within the tolerance, and every returned number comes from n points on a circle about the centre of gravity of the roots by simultaneous Weierstrass corrections. Returned numbers only lose real or imaginary parts that are negligible.", "quantifier": "all coefficient arrays with a nonzero leading coefficient, all degrees, tolerances, iteration limits, answer vectors; any scalar type for termination and memory safety", "why_tests_cant": "Tests solve a few polynomials whose roots are known; they do not cover all coefficients, multiple roots, or a vanishing determinant in the correction", "anchors": ["src/zm_pex_eq.c: zPexBH, zPexBHDST, zPexDKA", "src/zm_complex.c: zComplexTouchup", "include/zm/zm_pex_eq.h"]}
{"id": "C97", "title": "The Chebyshev interpolator passes through its points", "statement": "For at least two points at different times, zIPCreateChebyshev followed by zIPVec gives a curve through all points, and this curve is the polynomial of degree below the number of points through them, written with Chebyshev polynomials of the time scaled to [-1,1]; zIPVel and zIPAcc are its first and second derivative, at any time and at the data points. No access leaves the arrays.", "quantifier": "all sequences of at least two points of one dimension, all times, tolerances; any scalar type for memory safety", "why_tests_cant": "Tests compare a few sampled curves; the interpolation conditions and the derivative recurrences must hold for every degree and time", "anchors": ["src/zm_ip_chebyshev.c: zIPCreateChebyshev", "include/zm/zm_ip.h"]}
{"id": "C98", "title": "Fourier series answer the trigonometric sum and its derivatives", "statement": "zFourierAlloc gives the zero series; zFourierSetSinCoeff and zFourierSetCosCoeff with a valid index replace that coefficient (the sine coefficient of the constant term stays 0) and do nothing with an invalid one; zFourierVal(t) is the sum of a_i sin(i t) + b_i cos(i t), periodic with 2 pi; zFourierVel is the derivative of zFourierVal and zFourierAcc the derivative of zFourierVel.", "quantifier": "all numbers of terms, coefficients, indices (also negative and too large), times", "why_tests_cant": "Tests sample a few series at a few times; a derivative relation and periodicity range over all times, coefficients and numbers of terms", "anchors": ["src/zm_fourier.c: zFourierAlloc, zFourierVal, zFourierVel, zFourierAcc", "include/zm/zm_fourier.h: zFourierSetSinCoeff, zFourierSetCosCoeff"]}
{"id": "C99", "title": "Error, gamma and beta functions", "statement": "zErfN(x,n) with n >= 0 differs from the error function 2/sqrt(pi) times the integral of exp(-t^2) from 0 to x by at most the first omitted term of the series, so it converges for every x as n grows; it is odd in x; with n < 0 it is 0. For positive arguments zGamma is positive and approximates the gamma function, zLnGamma is its logarithm, and zBeta(z,w) = zGamma(z) zGamma(w) / zGamma(z+w) is positive and symmetric.", "quantifier": "all real x, all n; all positive arguments of the gamma and beta functions", "why_tests_cant": "Tests compare a few tabulated values; the error bound and the functional relations range over all arguments and numbers of terms", "anchors": ["src/zm_sf_erf.c: zErfN", "src/zm_sf_gamma.c: zGamma, zLnGamma, zBeta"]}
{"id": "C100", "title": "Fresnel integrals within the tolerance", "statement": "For |x| <= 1.5, when zFresnelIntgPI_2(x) answers true, both answers differ from the integrals of sin(pi t^2/2) and cos(pi t^2/2) from 0 to x by at most the tolerance times the larger of them, and with the tolerance of the library it always answers true; the answers are odd in x for every x. zFresnelIntgScale(x,f) has the same accuracy for sin(f t^2), cos(f t^2) in the corresponding range, and an error at most tol |x|^3/3 and tol^2 |x|^5/10 for a negligible f.", "quantifier": "all x up to 1.5 in absolute value (any x for the symmetry), all tolerances from 1e-30 to 1/2, all f, iteration limits of at least 60 for the convergence", "why_tests_cant": "Tests compare a few values; the truncation error and the termination must hold for every argument", "anchors": ["src/zm_sf_fresnel.c: zFresnelIntgPI_2, zFresnelIntgScale, zFresnelIntg"]}
{"id": "C101", "title": "Quadratic programming by the active set method", "statement": "zQPSolveASM(q,c,a,b,ans,&cost) with a symmetric positive definite q ends; when it answers true, ans minimises x^T q x / 2 + c^T x over the points with a x >= b and cost is the value there. It answers false when no point meets the constraints, when q is not symmetric or not positive semidefinite, and when the sizes do not agree.", "quantifier": "all numbers of variables and constraints, all real q, c, a, b, all small tolerances, every order in which an index is inserted into a set", "why_tests_cant": "Optimality is a statement about all feasible points, and the path of the active set depends on the data; tests try random problems of one shape", "anchors": ["src/zm_opt_qp_asm.c: zQPSolveASM"]}
{"id": "C102", "title": "Linear complementarity problem by the interior point method", "statement": "zLCPSolveIP(m,q,w,z) with a positive semidefinite m: when it answers true, w and z are not negative, w = m z + q and w^T z = 0 up to the tolerance; a problem with a solution is answered true. It answers false when the sizes do not agree and touches nothing outside its arguments. The residual m z + q - w at any time is the initial residual times the product of (1 - step length), whatever the accuracy of the linear solver.", "quantifier": "all sizes, all real m and q, all tolerances, all answers of the elimination (any pivot order); all scalar types for the memory safety", "why_tests_cant": "The path of the iterates depends on all the data; tests try problems of one shape, on which the step lengths happen to lie between 0 and 1", "anchors": ["src/zm_opt_lcp_ip.c: zLCPSolveIP"]}
{"id": "C103", "title": "Descent method: the objective falls and an answer is stationary", "statement": "zOptDMSolve with any choice of direction and line search, from any start: when it answers a number, the variables are (within the tolerance) a stationary point of the objective, *eval is the objective there, and it is not above the value at the start; otherwise it answers -1 after at most iter iterations. Each line search ends, with a step that reduces the objective in proportion to the step length and the slope.", "quantifier": "all dimensions, all objective and gradient functions, all starts, tolerances, step limits and iteration limits, runs of any length", "why_tests_cant": "Every iterate depends on the objective; tests run one smooth objective to the end and look at the result only", "anchors": ["src/zm_opt_dm.c: zOptDMSolve, zOptDMCreate, zOptDMAssignSD, zOptDMAssignLM, zOptDMAssignCG, _zOptDMStepNoc, _zOptDMStepDS, _zOptDMStepMT, _zOptDMStepBrent, _zOptDMStepPlain"]}
{"id": "C104", "title": "Variable metric method: the estimate of the inverse Hessian", "statement": "Each update of the variable metric method (zOptDMAssignVM, \"DFP\" or \"BFGS\") keeps the estimate symmetric, makes it map the last change of the gradient to the last step, and keeps it positive definite, so that the next direction descends; \"DFP\" updates by the formula of Davidon, Fletcher and Powell, anything else by that of Broyden, Fletcher, Goldfarb and Shanno.", "quantifier": "all dimensions, all estimates, steps and changes of the gradient; all objectives and gradient functions for one iteration", "why_tests_cant": "Positive definiteness is a statement about all vectors and is lost or kept over a history of updates", "anchors": ["src/zm_opt_dm.c: zOptDMAssignVM, _zOptDMUpdateDFP, _zOptDMUpdateBFGS, _zOptDMVecVM"]}
{"id": "C105", "title": "Descent method without derivatives", "statement": "Without a gradient (Hessian) function the descent method uses central differences: the variables are restored after them, the gradient is exact for a quadratic objective and off by at most M eps^2/6 when the third derivative is bounded by M, the Hessian is exact for a quadratic objective.", "quantifier": "all dimensions, all objectives that depend on their arguments only, all points; all quadratic objectives; all objectives with a bounded third derivative", "why_tests_cant": "The error bound quantifies over all smooth functions and points", "anchors": ["src/zm_opt_dm.c: _zOptDMGradNG, _zOptDMHessNG"]}
{"id": "C106", "title": "Primal-dual interior point method for linear programs", "statement": "zLPSolvePDIP_PC(A,b,c,ans,cost) for min c^T x, A x = b, x >= 0: true is answered only with an optimal nonnegative x and its cost, false is answered for an unsolvable program; on the way every iterate stays positive, and each step reduces the residual of the constraints by the factor of the step length, which is the longest one (up to 1) that keeps the iterate nonnegative.", "quantifier": "all numbers of equations and unknowns, all coefficients with independent rows, runs of any length", "why_tests_cant": "Positivity and the residual are invariants of a run whose length and iterates depend on real coefficients; optimality quantifies over every feasible point", "anchors": ["src/zm_opt_lp_pdip.c: zLPSolvePDIP_PC, _zLP_PDIPInit, _zLP_PDIPEqLUDecomp, _zLP_PDIPEqLU, _zLP_PDIP_PCErr, _zLP_PDIP_PCStep, _zLP_PDIP_PCCorrect"]}
{"id": "C107", "title": "Gaussian mixtures by expectation maximization", "statement": "zGMMCreateEM(gmm,points) of samples that lie in no common hyperplane: it answers a mixture with positive weights of sum 1 and symmetric positive definite covariances; each of its iterations keeps this and does not lower the likelihood of the samples; the log-likelihood it reports is that of the mixture; zGMMAIC and zGMMBIC are the criteria of Akaike and Bayes of it.", "quantifier": "all dimensions, numbers of components and samples, all samples in no hyperplane, all random draws of the K-means initialisation, runs of any length", "why_tests_cant": "That a step never lowers the likelihood is an inequality between sums of logarithms of exponentials for all real data; positive definiteness must be kept over runs of any length", "anchors": ["src/zm_mva_gmm.c: zGMMInit, zGMMCreateEM, _zGMMCreateEMExpect, _zGMMCreateEMMaximize, _zGMMLogLikelihood, _zGMMUnitEstim, _zGMMUnitPDF, _zGMMUnitLoadedCov, zGMMAIC, zGMMBIC", "src/zm_mva_cluster.c: zVecMultiClusterKMeans"]}
{"id": "C108", "title": "Linear programming in two variables by Megiddo and Dyer", "statement": "After zLPMegiddoDyerInit, SetCostCoefficient(c1,c2) and AddConstraint for each a1 x1 + a2 x2 <= b, zLPMegiddoDyerSolve and zLPMegiddoDyerSolveDirect end; if they answer true, (x1,x2) satisfies all constraints, no point that satisfies them has a lower cost c1 x1 + c2 x2, and the cost reported is that of (x1,x2); if they report no solution, no point satisfies the constraints; if they report an infinite solution, the cost does not increase along a whole direction of the feasible region. The order of the constraints does not matter.", "quantifier": "all costs, all finite lists of constraints in all orders, whatever pair of lines the median function picks in each round", "why_tests_cant": "The method throws constraints away round by round, so that the answer is right only if no discarded one can matter, for any number of constraints and rounds and any geometry of the lines; optimality quantifies over all points of the plane", "anchors": ["src/zm_opt_lp_megiddodyer.c: zLPMegiddoDyerInit, zLPMegiddoDyerSetCostCoefficient, zLPMegiddoDyerAddConstraint, zLPMegiddoDyerSolve, zLPMegiddoDyerSolveDirect", "include/zm/zm_opt_lp_megiddodyer.h: zLPMegiddoDyer"]}
{"id": "C109", "title": "Bessel functions of integer order", "statement": "zBesselJ(n,x), zBesselY(n,x), zBesselI(n,x), zBesselK(n,x) compute the Bessel functions and the modified Bessel functions of order n >= 0 (NAN for n < 0, and for x <= 0 in the case of Y and K) to nearly double precision at every x: no read outside the coefficient tables, J_n and I_n have the parity of n, and the values obey the recurrences in n.", "quantifier": "all orders n and all real arguments x", "why_tests_cant": "Each function is pieced together from some hundred coefficients over dozens of intervals; a wrong digit or a wrong interval boundary shows only on that interval, and the error of the recurrences depends on n and x together", "anchors": ["src/zm_sf_bessel.c: zBesselJ0, zBesselJ1, zBesselJ, zBesselY0, zBesselY1, zBesselY, zBesselI0, zBesselI1, zBesselI, zBesselK0, zBesselK1, zBesselK, _zBesselRec"]}
{"id": "C110", "title": "Hessenberg form is an orthogonal similarity transformation", "statement": "For every square matrix m, zMatToHessenberg(m,h,p) ends and stores in h an upper Hessenberg matrix (tridiagonal when m is symmetric) and in p an orthogonal matrix with m = p h p^T; arguments whose sizes do not fit are rejected and nothing else is.", "quantifier": "all square matrices of all sizes, with and without the optional destinations", "why_tests_cant": "Orthogonality and similarity are products of as many reflections as the matrix has columns and must hold for every matrix, including those with empty columns; the retry loop ends for no test one thinks of writing but hangs on others", "anchors": ["src/zm_mat_eig.c: zMatToHessenberg, _zMatHouseholder, _zMatHouseholderVec"]}
{"id": "C111", "title": "Eigenvalues by the double QR method and by bisection", "statement": "zMatEigDQR(m,eigval,iter) stores all eigenvalues of every square matrix m, and zMatSymEigBisec(m,eigval,eigbase) those of every symmetric one, without touching memory outside the matrices.", "quantifier": "all square matrices of all sizes, all iteration limits", "why_tests_cant": "An access one row below the matrix is invisible in most runs; which elements are touched depends on the shrinking window of the iteration", "anchors": ["src/zm_mat_eig.c: zMatEigDQR, _zMatEigDQRHouseholder, zMatSymEigBisec, _zMatSymEigBisecRange"]}
{"id": "C112", "title": "Power method, singular values and condition number", "statement": "zMatEigPower returns the dominant eigenvalue of a symmetric matrix and zMatEigPowerInv the one of least modulus; zMatSingularValueMax and zMatSingularValueMin return the greatest and the least singular value of every matrix, zMatCondNum their ratio (HUGE_VAL for a singular matrix).", "quantifier": "all matrices, all random start vectors, all iteration limits", "why_tests_cant": "The start is random, the answer depends on it and on the gap between the eigenvalues; the error bound must hold for every start and every number of rounds", "anchors": ["src/zm_mat_eig.c: zMatEigPower, zMatEigPowerInv, zMatSingularValueMax, zMatSingularValueMin, zMatCondNum, _zMatSingularValueMat", "src/zm_raw_vec.c: zRawVecNormalize"]}
{"id": "C113", "title": "Gauss-Seidel's method converges to the solution", "statement": "For every square matrix whose columns are strictly diagonally dominant, zLESolveGaussSeidel converges to the solution of a x = b from every start, at a rate that depends only on the dominance, and stops without a warning after enough sweeps; whenever it stops without a warning the residual of the answer is bounded by the tolerance times the sums of the rows. Arguments whose sizes do not fit are rejected.", "quantifier": "all systems of all sizes and all start vectors", "why_tests_cant": "A test runs some systems; convergence from every start, and the loss of it through the exchange of rows that the function performs, concern every matrix.", "anchors": ["src/zm_le.c: zLESolveGaussSeidel"]}
{"id": "C114", "title": "Hotelling's iteration converges to the inverse", "statement": "For every nonsingular square matrix zMatInvHotelling converges quadratically to the inverse and ends without a warning when enough iterations are allowed; an answer without a warning satisfies |m x - 1| <= tolerance in every element; a singular matrix is never inverted without a warning; arguments whose sizes do not fit are rejected.", "quantifier": "all square matrices of all sizes, tolerances and numbers of iterations", "why_tests_cant": "Convergence for every nonsingular matrix rests on the choice of the first matrix, and how far the matrix that is returned is from the one that was tested shows only near the tolerance.", "anchors": ["src/zm_le_mat_inv.c: zMatInvHotelling"]}
{"id": "C115", "title": "LU decomposition with residual iteration, and the combined matrix and vector solution, solve the system", "statement": "For every square matrix zLESolveLURI either refuses (only when the matrix is singular up to the tolerance) or returns the solution of a x = b, with a residual not larger than that of the plain LU solution; zMulInvMatMatAndVec returns a^-1 b and a^-1 v of the same system or refuses a singular one; arguments whose sizes do not fit are rejected.", "quantifier": "all systems of all sizes", "why_tests_cant": "The residual iteration changes the answer by rounding errors only; which of the iterates it keeps is not visible for systems with small condition numbers.", "anchors": ["src/zm_le.c: zLESolveLURI, zLEResidual", "src/zm_le_mat_inv.c: zMulInvMatMatAndVec, zMulInvMatMatAndVecNC"]}
{"id": "C116", "title": "Principal component analysis finds uncorrelated directions and counts them by the ratio of variance", "statement": "For every list of points of the same size, zVecListPCA returns the mean, an orthogonal matrix whose columns are the directions of the components, and as scores the variances of the points along them, which add up to the total variance; the projections on different directions are uncorrelated up to the tolerance; dropping components loses exactly the sum of their scores; the answer is the number of components needed for the ratio asked for; results of other sizes are refused with -1.", "quantifier": "all nonempty lists of points of all dimensions, all ratios", "why_tests_cant": "A test checks a few clouds of points; that the components decorrelate every cloud and that the count is right for every ratio concern all inputs, and the order of the scores depends on the rotations of the iteration.", "anchors": ["src/zm_mva.c: zVecListPCA", "src/zm_mat_eig.c: zMatSymEigJacobi"]}
{"id": "C117", "title": "Generated normal vectors have the mean and the covariance asked for", "statement": "For every mean and every symmetric positive semidefinite covariance matrix, zVecListGenRandND generates the number of vectors asked for; each is the mean plus one fixed linear map of the normal random numbers, so that vectors made from uncorrelated numbers of mean zero and variance one have the mean and the covariance given, also when the covariance is singular; sizes that do not fit, and matrices which are no covariance, are refused.", "quantifier": "all dimensions, means, covariance matrices of all ranks, counts and streams of random numbers", "why_tests_cant": "A statistical test sees only estimates of the moments, for a few matrices; singular, zero or indefinite matrices take different branches of the decomposition.", "anchors": ["src/zm_mva.c: zVecListGenRandND", "src/zm_le_lu.c: zMatDecompCholeskyAlloc, zMatDecompCholeskyAndResize"]}
{"id": "C118", "title": "Complex matrices: elementwise operations, rows and columns, products and conversions", "statement": "For every matrix, vector and memory state: sums, differences, negation, real and complex multiples and quotients of complex matrices store exactly the elementwise result in the destination, in place or not, and change nothing else; rows and columns are read and replaced without touching the others; the product with a vector is the sum of products; conversions from and to real arrays keep every element; the squared norm is the sum of squared moduli and normalisation gives norm one; tests against a tolerance look at every element; sizes that do not fit, indices out of range and tiny divisors are refused.", "quantifier": "all sizes, contents, positions in memory, indices, factors and tolerances", "why_tests_cant": "A test uses a few sizes and distinct operands; aliasing, every index, and matrices whose rows have spare capacity are further dimensions of the input space.", "anchors": ["src/zm_cmat.c: zCMatAdd, zCMatSub, zCMatRev, zCMatMul, zCMatDiv, zCMatCMul, zCMatCDiv, zCMatCopy, zCMatZero, zMatToCMat, zCMatGetRow, zCMatGetCol, zCMatPutRow, zCMatPutCol, zCMatIsTol, zCMulMatVec", "src/zm_cvec.c: zCVecCopy, zVecToCVec, zCVecToReVec, zCVecToImVec, zCVecEqual, zCVecIsTol, zCVecSqrNorm, zCVecNormalize", "src/zm_complex.c: zComplexValIsIncluded"]}
{"id": "C119", "title": "Eigenvalues of a symmetric tridiagonal matrix by bisection are complete, ordered and accurate", "statement": "For every symmetric matrix in tridiagonal form: the sign count at a shift equals the number of eigenvalues above the shift; the search range contains every eigenvalue; the bisection returns all eigenvalues in descending order, counted with multiplicity, each within the width of the last interval; and it terminates.", "quantifier": "all sizes, all symmetric tridiagonal matrices and shifts, all numbers of bisection steps", "why_tests_cant": "A test bisects a few random matrices whose eigenvalues are simple and lie strictly inside of the range; that counts are right for every shift, and what happens at vanishing minors, at the ends of the range and for multiple eigenvalues, needs an argument about all matrices.", "anchors": ["src/zm_mat_eig.c: zMatSymEigBisec, _zMatSymEigBisecRange, _zMatSymEigBisecSturm, _zMatSymEigBisecOne, _zMatSymEigBisecRec"]}
{"id": "C120", "title": "Scalar functions: phase, cycloid, sigmoid, cube root, rounding and comparison", "statement": "For every real argument: normalising a phase returns the unique value in (-pi, pi] that differs from it by whole turns; the cycloid is the trace of a rolling wheel, starts and ends at rest, moves forward and is symmetric; the sigmoid increases from 0 to 1, is the inverse of the logit and has the derivative s(1-s); the cube root corrects an inexact power so that its relative error is cubed; the rest of a division lies between zero and the divisor; rounding yields a nearest integer; equality up to a tolerance is reflexive and symmetric.", "quantifier": "all real arguments, all approximations of the power function within a tenth", "why_tests_cant": "Tests compare a few values with a library; that a phase is unique for every angle, that the correction improves every approximation, and the behaviour next to one half, below zero and beyond the range of int, are statements about all arguments.", "anchors": ["src/zm_misc.c: zPhaseNormalize, zCycloidX, zCycloidY, zSigmoid, zCbrt, zEqual", "include/zm/zm_misc.h: zSgn, zCeil, zRound, zFruct"]}
{"id": "C121", "title": "Nearest neighbour on a NURBS curve", "statement": "For every well-formed NURBS curve and every point: the search terminates with a parameter of the curve and the curve point at it, and no curve point is nearer to the given one than the returned one, up to the tolerance.", "quantifier": "all well-formed curves, all points, all bounds on the number of passes", "why_tests_cant": "A test tries a few smooth curves with one near branch; the answer depends on the shape of the distance over the whole parameter range, and what happens with several near branches or an asymmetric distance is a matter of all curves.", "anchors": ["src/zm_nurbs.c: zNURBSVecNN"]}
{"id": "C122", "title": "Linear sums, vector rings, vector arrays, reordering in place", "statement": "zVecCats adds a linear combination of the given vectors to the destination and zVecLinearSum assigns it; zVecRingCat and zVecRingLinearSum do so with the vectors of a ring from its head on; zVecRingFill and zVecArrayFill make every vector of the ring or array equal to the given one; zVecReorderDRC permutes the elements along the index. Nothing else is changed, and a size mismatch is reported and changes nothing.", "quantifier": "all numbers of terms, all sizes, all coefficients, all positions of the ring head, all aliasing between the arguments", "why_tests_cant": "Tests sum two or three distinct vectors of equal size; the property is about every number of terms, every head position, and calls in which the destination is one of the terms.", "anchors": ["src/zm_vec.c: zVecCats, zVecLinearSum, zVecReorder, zVecReorderDRC", "src/zm_vec_ring.c: zVecRingFill, zVecRingCat, zVecRingLinearSum", "src/zm_vec_array.c: zVecArrayFill"]}
{"id": "C123", "title": "Complex numbers printed and read back", "statement": "zComplexFromStr reads a real number, a multiple of i, and a sum or difference of both, each with an optional sign and with the coefficient one left out; what zComplexFPrint writes is read back by zComplexFromStr as the same number; no string makes it write outside its buffers.", "quantifier": "all complex numbers whose numerals survive printf and atof, all signs, all strings", "why_tests_cant": "A test reads a handful of literals; the round trip has to hold for every combination of signs, zero and unit parts, and the buffer limit for every string.", "anchors": ["src/zm_complex.c: zComplexFromStr, zComplexFPrint, _zComplexImFPrint"]}
{"id": "C124", "title": "Eigenvectors of the bisection method", "statement": "For a symmetric matrix with its eigenvalues, the i-th column computed by shifted inverse iteration is an eigenvector for the i-th eigenvalue.", "quantifier": "all sizes, all matrices, all lists of eigenvalues, all random starts, all numbers of repeated shifts", "why_tests_cant": "A test checks a few random matrices with well separated eigenvalues; what the repeated shift does when a shifted matrix is singular depends on all spectra.", "anchors": ["src/zm_mat_eig.c: _zMatSymEigBisecR, zMatSymEigBisec"]}
{"id": "C125", "title": "X-means: the test by the Bayesian information criterion", "statement": "zVecMultiClusterXMeansBIC keeps a cluster exactly when the Bayesian information criterion of one normal density is less than that of the mixture of the two parts, for every set of samples.", "quantifier": "all clusters and divisions into two, all dimensions of the core, all errors", "why_tests_cant": "A test looks at one data set; the equivalence of the formula with the criterion is a statement about all samples, and the degenerate clusters are not met by random data.", "anchors": ["src/zm_mva_cluster.c: zVecMultiClusterXMeansBIC, _zVecMultiClusterXMeansCheckBIC, _zVecClusterXMeansPDF"]}
{"id": "C126", "title": "Compensated sums in rounded arithmetic", "statement": "In floating-point arithmetic without overflow, zDataSum, zRawVecInnerProd and zRawVecWSqrNorm return the exact sum of their (rounded) terms, disturbed at most by the rounding errors of the correction terms, and rounded once: the rounding errors of the running sum do not enter the answer, however many terms there are. If the correction terms are exact the answer is the correctly rounded sum.", "quantifier": "all roundings of the reals (any function), all lengths, all data", "why_tests_cant": "A test sums some data in one precision; the bound is for every length and every rounding, and a sign error in the correction is invisible on data whose partial sums are exact.", "anchors": ["src/zm_stat.c: zDataSum", "src/zm_raw_vec.c: zRawVecInnerProd, zRawVecWSqrNorm"]}
{"id": "C127", "title": "Vectors and matrices in files", "statement": "A vector or a matrix printed by zVecFPrint / zMatFPrint is read back by zVecFScan / zMatFScan with its sizes and its elements to ten digits, and the reader stops right behind it. If the file ends early the elements read are in place, the others are zero, and the warning tells how many were read.", "quantifier": "all sizes, all elements, all continuations of the file, all places where the file ends", "why_tests_cant": "A test reads a few files; the round trip is for every size and every rest of the file, and the number in the warning of a matrix is right for square matrices.", "anchors": ["src/zm_vec.c: zVecFScan, zVecFPrint", "src/zm_mat.c: zMatFScan, zMatFPrint", "src/zm_raw_vec.c: zRawVecFPrint, zRawVecValueFPrint", "src/zm_raw_mat.c: zRawMatFPrint"]}
{"id": "C128", "title": "Extreme elements and the picture of a matrix", "statement": "zMatElemMax, zMatElemMin, zMatElemAbsMax and zMatElemAbsMin return the extreme value and the position where it occurs first in the order of the rows. zMatImg draws every matrix without reading outside its patterns, one character per element, which shows the sign and the nearest quarter of the greatest magnitude of every element that is not tiny.", "quantifier": "all matrices of all sizes", "why_tests_cant": "A test shows some pictures; the index into the patterns depends on the quotient of every element by the greatest magnitude, and ties and small negative elements are rare in test data.", "anchors": ["src/zm_mat.c: zMatElemMax, zMatElemMin, zMatElemAbsMax, zMatElemAbsMin, zMatImg", "include/zm/zm_misc.h: zIsMax, zIsAbsMax, zRound"]}
{"id": "C129", "title": "Polynomials in files", "statement": "A polynomial printed by zPexFPrint is read back by zPexFScan with its degree and its coefficients to ten digits, and the reader stops right behind it; a file that ends early leaves zeros and one warning with the number of coefficients read; the reading of every file is defined.", "quantifier": "all degrees, all coefficients, all continuations of the file, all places where the file ends", "why_tests_cant": "A test reads a few files; the claim is for every degree and every rest of the file, and the file without a degree makes the code use a variable without a value, which may look right.", "anchors": ["src/zm_pex.c: zPexFScan, zPexFPrint"]}
