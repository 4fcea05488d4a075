# Formal model of mi-lib/zm in Rocq — design

## 1. Approach

* Every model file (`rocq/theories/*_Model.v`) is a set of small, total,
  computable Gallina functions, one per C function, each with a comment citing
  the file and lines of /repo it models and every simplification made.
* **One text, several number systems.**  Numerical code is written once over a
  record of scalar operations (`Scalar.v`: `Scalar T`).  It is instantiated at
  - an arbitrary type `T` with no laws: structural theorems (copy, transpose,
    swap, permutation, frames, queue, tree shape) hold for `double` bit for bit;
  - the reals `R` (idealised exact arithmetic): "solves the equation",
    "interpolates", "is a root" are theorems about exact arithmetic — rounding is
    NOT modelled there, this is part of the trusted base;
  - primitive binary64 floats (`PrimFloat`): executable; used for refutation
    witnesses, i.e. concrete doubles on which the code violates a property.
* **Undefined behaviour is an outcome.**  Memory accesses are checked; an access
  out of bounds (or a NULL dereference) yields `UB`, never a default value.
  Theorems say `= Ok ...`, so memory safety is part of each of them.
* **Two memory levels.**  `zm_raw_*` is modelled over a block memory
  (pointer = block + offset) so that aliasing and frame conditions are
  statements about memory.  Algorithms above (`zm_le*`, `zm_pex`, ...) are
  modelled on values (lists / row-major matrix records) with checked indexing;
  there the objects passed are assumed to be distinct objects.
* C `int` is modelled by `nat`/`Z` without overflow (object sizes are assumed
  below 2^31), except where the property is about bit patterns (C01).
* The tolerance `zTOL` is a parameter of the model wherever it is compared
  against, so that theorems can state what happens for every tolerance.
* When the faithful model violates the property, the full property is refuted
  (`..._refuted`, with a witness) and the strongest true version is proved
  (`..._partial` or under an explicit guard).

File naming: `X_Model.v` (model), `X_Spec.v` (small independent specification
when needed), `X_Proofs.v` (lemmas), `X_Props.v` (only the property theorems,
each closed by `exact`, followed by `Print Assumptions`, and non-vacuity
examples).

## 2. Plan per property

| id | what is modelled | how it is proved |
|----|------------------|------------------|
| C01 | byte tests of zIsInf/zIsNan on 8 bytes | equality with Flocq's classification of all 64-bit words |
| C02 | zPowN loop | induction on binary exponent |
| C03 | combinatorial loops over R | induction, comparison with factorial/Pascal recursion |
| C04 | zLine | algebra; refutation witness |
| C05 | raw vector loops on block memory | loop invariant, any element type |
| C06 | cycle-following transpose | permutation-cycle invariant, any element type |
| C07 | block get/put/swap on block memory | loop invariants with frames |
| C08 | product loops on block memory | loop invariants over R |
| C09 | compensated sums | invariant "compensation = 0" over R |
| C10 | checked accessors of zVec/zMat | case analysis on index; refutations |
| C11 | zMat capacity vs logical size | non-interference; refutation |
| C12–C15 | zm_pex.c on coefficient lists | Horner / convolution induction |
| C16–C17 | complex arithmetic and solvers over R | field/nsatz-style algebra, cases |
| C18 | zSeq on the list contract of ZEDA | refinement to a FIFO list |
| C19 | list NN | induction |
| C20 | kd-tree insertion and NN | tree invariant by induction over insertions, NN by structural induction |
| C21 | A*/Dijkstra loop | standard Dijkstra invariant |
| C22–C30 | elimination, LU, Cholesky, tridiagonal, det, inverse, balancing | loop invariants over R with matrices as index functions |
| C31–C32 | mixed-radix FFT recursion over R with roots of unity | strong induction on n |
| C33–C40 | interpolators | algebra + segment search invariant |
| C41 | Cox–de Boor recursion | induction on order |
| C42 | shift/reduce parser on token lists | induction on expression trees |
| C43–C47 | LP/LCP tableau, conversions, CG, line search | tableau equivalence invariant, duality |
| C48 | bracketing root finders | interval invariant over iterations |
| C49–C51 | integrators | algebra, induction over step sequences |
| C52–C54, C61 | data statistics, histogram, selection, peaks | induction over arrays |
| C55–C57 | RRT, GNG, k-means state machines | invariant by induction over operation histories |
| C58 | Jacobi rotations | invariant V^T M V = D over rotation histories |
| C59 | complex vector utilities | permutation invariants |
| C60 | LQ Gram–Schmidt | loop invariant; refutation for rank deficiency |

## 3. Trusted base

* Coq 8.16.1 kernel (and `vm_compute` for closed computations).
* Axioms: those printed by `Print Assumptions` under each theorem — only the
  standard library's real-number axioms (`ClassicalDedekindReals.sig_forall_dec`,
  `sig_not_dec`, `functional_extensionality_dep`, `classic`) and the primitive
  float/int operations.  No axiom of our own.
* The reading of the C code: the model is tied to the code only by the line
  citations.
* ZEDA (external dependency, not in the repository): lists, arrays, rings,
  index arrays, memory allocation (calloc, zero-filled) are assumed to behave as
  their documented contract; allocation failure is not modelled unless stated.
* Compiler, libm (sqrt, sin, cos, ... are their real counterparts), file I/O:
  not modelled.

## 4. What is modelled

Each model definition cites the lines it models; a simplification is stated in
that comment.  Modelled so far:

* `zm_ieee.c` byte tests (Ieee_Model), `zm_misc.c` (Misc_Model), `zm_raw.h`/
  `zm_raw_vec.c`/`zm_raw_mat.c` on block memory (Raw_Model), `zm_vec.c`/`zm_mat.c`
  object operations on block memory with capacities (VecMat_Model), `zm_vec.c`
  smoothing and differentials used by Tdrc_Model.
* `zm_pex.c` (Pex_Model), complex numbers, vectors and polynomial roots
  (Complex_Model), sequences, vector lists, kd-tree (Collect_Model).
* `zm_le_pivot.c`, `zm_le.c` (balancing, Gauss, L, U, LU), `zm_le_tridiag.c`,
  `zm_le_lu.c`, `zm_le_mat_inv.c` (determinant, adjugate, inverse) (LE_Model).
* `zm_graph.c`, `zm_graph_search.c` (Graph_Model), `zm_data_fft.c` (FFT_Model),
  the string expression of polynomials in `zm_pex.c` (PexStr_Model).
* `zm_ip.c`, `zm_ip_lin.c`, `zm_ip_lagrange.c`, `zm_ip_spline.c`, `zm_ip_akima.c`
  (IP_Model; without the acceleration at a point of Akima).
* `zm_ip_pex.c`, `zm_ip_trvelprof.c`, `zm_ip_clothoid.c`, and from `zm_sf_fresnel.c`
  the scaled and the generalized integral (Curve_Model; the series and the continued
  fraction of zFresnelIntgPI_2 are a parameter, taken exact in the theorems).
* `zm_nurbs.c` knots, segment search, bases, curves and their derivatives (Nurbs_Model;
  without nearest neighbours, slices and file formats).
* `zm_stat.c` (without the normal distribution and odd chi-squared), `zm_stat_histogram.c`,
  `zm_mva.c` and `zm_data.c` (Stat_Model; the conversion of double to int is a parameter,
  the sorting functions of ZEDA are a parameter with a contract).
* `zm_nle_se.c`, `zm_opt_line.c` (Root_Model; the random numbers and the function are parameters)
* `zm_opt_qp.c`, `zm_opt_lp_stdcnv.c` (Qp_Model; vector and matrix operations in Vop.v)
* `zm_nle_dm.c` (Newton-Raphson, Broyden, numerical Jacobian; without the descent methods of zm_opt_dm.c),
  `zm_nle_ss.c` (Nle_Model; the direction of Newton-Raphson is a parameter)
* `zm_mat_eig.c` (all but the eigenvectors of zMatEig and the search of the bisection method), `zm_le_lq.c` (Eig_Model)
* `zm_opt_lp_simplex.c` and `zm_opt_lcp_lemke.c` (Lp_Model; Lemke's method, which has no limit of iterations, is
  given a fuel whose exhaustion is reported as still running)
* `zm_mva_cluster.c` (Cluster_Model; printing and the BIC test of X-means are left out, the test is a
  parameter; samples are addresses, the methods are parameters with the default ones given; random numbers are
  parameters)
* `zm_rrt.c` (Rrt_Model; pointers to nodes are indices in the list, allocation succeeds; distance, extension,
  collision check, goal check and the random samples are parameters; the greedy extension and the shortcut
  are bounded by a fuel)
* `zm_gng.c` (Gng_Model; cells have addresses and a freed cell cannot be read, allocation succeeds; printing is
  left out; samples are arguments; the loop of zGNGInit is bounded by a fuel)
* `zm_parse.c` (Parse_Model; the scanner of numbers of ZEDA is a parameter with the contract `scans`; libm, the
  remainder of ints and zFactorial are parameters; loops have fuel, its exhaustion is the outcome `Running`; messages
  and the release of memory are not modelled)
* `zm_mva_ransac.c` (Ransac_Model; samples are addresses; fit and error functions, the random numbers and ZEDA's list
  splice are parameters)
* `zm_opt_pso.c` (Pso_Model; random numbers are parameters; the aliasing of the best vector with the record of a particle
  is modelled)
* `zm_opt_nm.c` (Nm_Model; the objective and ZEDA's index sort are parameters; the unbounded expansion loop has a fuel, and a
  run that uses it up has the distinct outcome `Running`)
* `zm_opt_ga.c` (Ga_Model; the quicksort is modelled index by index; random numbers and the conversion of double to int are
  parameters)
* `zm_oscil_kura.c`, `zm_oscil_vdp.c` (Osc_Model; the table of functions is resolved; sin is a parameter)
* `zm_rand.c` (Rand_Model; ZEDA's generator is an arbitrary stream; libm functions are parameters whose contracts hold
  only inside of their domains; division by zero and an exhausted rejection loop are distinct outcomes)
* `zm_le_gen.c` (Gen_Model, section Solvers; weighted norm/error minimization, singularity-robust solvers, the
  Moore-Penrose family on top of the LQ/LU decompositions), `zm_le_lyapnov.c`, `zm_le_mat_mpinv.c` (the Penrose iteration with
  fuel); zMatSVD is a parameter of zLESolveMP_SVD
- **DIRECT** (`Direct_Model.v`): all of `zm_opt_direct.c` except printing, allocation failure and a negative number of levels or
  iterations; pow(3.0,n) is the exact power.  The specification (`Direct_Spec.v`) is the partition of the unit cube into cells.
- `PexEq_*`, `PexEq2/3_Proofs` (C96): src/zm_pex_eq.c entire and zComplexTouchup/zCVecTouchup (zm_complex.c, zm_cvec.c). A quotient by zero is modelled as never within a tolerance (as in IEEE arithmetic), for the touch-up and for the singular determinant of the Bairstow correction; pow, cos, sin and 2 pi are parameters; ZITERWARN is a Boolean in the result.
- `Cheb_*`, `Cheb2/3_Proofs` (C97): src/zm_ip_chebyshev.c entire, on top of the interpolator data of `IP_Model` and zMatInv/zMulInvMatMat of `LE_Model`. Allocation succeeds.
- `Four_*` (C98): src/zm_fourier.c and the coefficient macros of include/zm/zm_fourier.h. sin and cos are parameters (the functions of the reals in the theorems); int products that overflow are UB. Not modelled: printing.
- `Sf_*`, `Sf2_Proofs` (C99, C100): src/zm_sf_erf.c, src/zm_sf_gamma.c, and zm_sf_fresnel.c except the continued fraction _zFresnelIntgLentz (a parameter). exp and log are parameters (those of the reals in the theorems), zPI and zPI_2 are pi and pi/2, decimal literals are exact quotients, int does not overflow.
- `Asm_*`, `Asm2_Proofs`, `Asm3_Proofs`, `Stab_Proofs` (C101): src/zm_opt_qp_asm.c. The tableau of the first phase is that of `Lp_Model`. zIndexInsertVal is a parameter of which only the multiset of the result is used; zIndexRemoveVal removes the value. HUGE_VAL is None. `Stab_Proofs` shows that the result of a program that only compares values with the tolerance is the same for all small tolerances; `Small_Props` uses it to carry the exact theorems C23, C25, C26, C28, C29 over to every small positive tolerance.
- `Lcpip_*`, `Lcpip2_Proofs` (C102): src/zm_opt_lcp_ip.c. The pivot index that the workspace keeps from one elimination to the next is threaded through. zTOL appears as two parameters, one for the convergence test and the touch-up and one for the elimination. The list of the step lengths and the flag of the iteration warning are returned for the statements only.
- `Dm_*`, `Dm2_Proofs`, `Dm3_Proofs` (C103-C105): src/zm_opt_dm.c. The objective and the derivative functions are pure. The loops that the code does not bound get a fuel, and running out of it is a separate result; theorems hold for every fuel. A singular matrix in the Levenberg-Marquardt direction, whose failure the code ignores, is undefined behaviour in the model. The uninitialised first value of the trial objective is 0; no modelled path reads it because the first step length 1 is above zTOL.
- `Pdip_*` (C106): src/zm_opt_lp_pdip.c. How the run ended and the step lengths, which the code does not report, are extra results of the model. The tolerance of the touch-up and of the three linear solvers are separate parameters (all zTOL in the code). The undefined order of equal pivots in the pseudo inverse of the initial point is a parameter (any permutation).
- `Gmm_*` (C107): src/zm_mva_gmm.c without printing. The tolerance of the linear algebra and of K-means (both zTOL), the tolerance of the likelihood, exp, log, 2 pi and HUGE_VAL are parameters; the flag of convergence, which the code does not report, is an extra result of the model. `C107_*` is over the reals with exp, ln and PI of the standard library.
- `Mega_*` (C108): src/zm_opt_lp_megiddodyer.c without the functions under DEBUG. Lists of ZEDA are Coq lists, pointers are cells with unique numbers, infinite values are None, the median function of ZEDA is a parameter assumed to permute its list and to answer one of its elements. `C108_solve_partial` and `C108_direct_partial` are over the reals; the refutations are runs in exact rational arithmetic.
- `Bes_*` (C109): src/zm_sf_bessel.c, complete. `Bes_Tables.v` holds the coefficient tables, copied digit by digit from the source as (integer, power of ten). exp, log, sin, cos and zTOL are parameters. Conversion to int is modelled as truncation below the number of blocks; anything else is UB. The accuracy theorems compare the tables with truncated power series by integer arithmetic on whole intervals (`chk`, proved sound in Bes2_Proofs).
- `Hess_*` (C110-C112): the rest of src/zm_mat_eig.c except eigenvectors (_zMatEigVecReal, _zMatEigVecComplex, zMatEig) and the bisection search after its range. The random start vector is an argument. A column that needs more than the given number of retries is HessEndless, more rounds of the double QR method than given DqrEndless. The eigenvector argument of zMatEigPowerInv is left alone where the code does not compute it; HUGE_VAL is None.
- `Iter_*` (C113-C115): zLESolveGaussSeidel, zLEResidual, zLESolveLURI (src/zm_le.c), zMatInvHotelling, zMulInvMatMatAndVec (src/zm_le_mat_inv.c). Z_MAX_ITER_NUM and HUGE_VAL are arguments; the warning about the number of iterations is a boolean of the answer. The vector of zMulInvMatMatAndVec is modelled as one more column of the matrix.
- `Pca_*` (C116, C117): zVecListPCA, zVecListGenRandND (src/zm_mva.c), zMatDecompCholeskyAlloc, zMatDecompCholeskyAndResize (src/zm_le_lu.c). The random numbers are an argument. Pca_Spec defines projections, averages and expectations (linear functionals of random variables).
- `Cmat_*` (C118): src/zm_cmat.c (without allocation, random matrices and printing) and the copy, conversion, comparison, norm and normalisation of src/zm_cvec.c, zComplexValIsIncluded. The memory of cells is that of `Complex_Model`. The macros zCMatCMulDRC, zCMatCDivDRC, zCVecCMulDRC and zCVecCDivDRC expand to the functions for real factors and do not compile with a complex one; they are not modelled. Cmat_Spec states what a matrix or vector holds after a call and that nothing else has changed.
- `Sturm_*` (C119): src/zm_mat_eig.c:376-438 and 484-487, the eigenvalue part of zMatSymEigBisec after zMatToHessenberg (`Hess_Model`). The out-of-bounds element read by the range is an argument. The loop that ends when the width no longer changes is given a number of steps, the recursion a depth with its own outcome for exceeding it. Sturm_Spec defines the number of eigenvalues above a shift without determinants or pivots. The inverse iteration for the eigenvectors (zm_mat_eig.c:440-472) is not modelled.
- `Func_*` (C120): the remaining scalar functions of src/zm_misc.c and the macros zSgn, zCeil, zRound, zFruct of include/zm/zm_misc.h. Functions of libm are arguments of the model; the theorems instantiate them with the functions on real numbers (atan2 as defined in `Complex_Model`), the cube root takes any approximation of the power function.
- `Near_*` (C121): src/zm_nurbs.c:273-309 on top of `Nurbs_Model`. The bound on the number of passes is an argument.
- `VSum_*` (C122): src/zm_vec.c:246-269, 449-488, src/zm_vec_ring.c, src/zm_vec_array.c (without allocation). The vectors live in a store of names, so that aliasing is visible. ZEDA's ring (cell (head+i) mod size) and array (head is the last cell) are trusted.
- `CStr_*` (C123): src/zm_complex.c:42-62, 70-94. printf("%.10g"), atof and ZEDA's zSNumToken are parameters with a stated contract.
- `BisV_*` (C124): src/zm_mat_eig.c:441-472. zMatInv, zMatEigPower and the random start are parameters with stated contracts.
- `Bic_*` (C125): src/zm_mva_cluster.c:796-822 on top of `Cluster_Model`; exp and log are parameters, instantiated with those of the reals.
- `Rnd_*` (C126): no code of its own; zDataSum of `Stat_Model` and the inner products of `Raw_Model` in arithmetic with an arbitrary rounding of every operation.
- `Scan_*` (C127): src/zm_vec.c:636-663, src/zm_mat.c:1037-1068, src/zm_raw_vec.c:326-343, src/zm_raw_mat.c:471-483, src/zm_seq.c:93-143, on lists of numbers; zVecValueFScan and the ZTK readers are not modelled.
- `Img_*` (C128): src/zm_mat.c:399-417, 1070-1092; include/zm/zm_misc.h:43-57, 108; the conversion to int is that of `Stat3_Proofs` (undefined outside 32 bits).
- `Pexs_*` (C129): src/zm_pex.c:341-369 on top of `Scan_Model`; zPexFromZTK is not modelled.
* `zm_intg.c`, `zm_ode*.c`, `zm_ode2.c` (Ode_Model; the nonlinear solver is a parameter; recursions
  are bounded by a fuel whose exhaustion is `UB`).

Where the model is at the value level (LE_Model and later), objects passed to one
call are distinct and elements are accessed through checked accessors (Fmat.v): an
access outside the logical size is `UB`.

Assumptions about the environment, besides those of section 3: `memcpy` between
overlapping areas is `UB`; zListForEach visits from tail to head; zArrayAlloc and
zArray2Alloc with a size of 0 give a NULL buffer; libm functions are their real
counterparts in theorems over R.

Not modelled: printing and file formats,
_zFresnelIntgLentz, app/, test/, example/, and everything
not yet listed above.
