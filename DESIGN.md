# Formal model of tylerjarvis/RootFinding in Rocq

## 1. Approach

The model is written in Gallina as total, computable functions that mirror the
Python functions branch by branch.  Python exceptions are values of an error
type.  Unbounded recursion and loops take a `fuel : nat` and return a
distinguished `OutOfFuel` value, which every theorem excludes explicitly (a
theorem talks about runs that return) or, for termination properties, proves
not to occur.  Calls to external numerical kernels are *function parameters*;
the contract assumed of them is a hypothesis visible in the theorem, and an
`Example` beside it shows that the contract can be met.

### One model, several arithmetics

Code that computes with floats is written once, over a record of operations
`Num T` (add, sub, mul, div, opp, abs, <, <=, ==, literals, 2^floor(log2)).
Instances:

* `R_num`   - exact real arithmetic (stdlib `Reals`): used for soundness theorems;
* `Q_num`   - exact rationals: executable, used for counterexamples by `vm_compute`
  and carried over to the reals by transfer lemmas (`Transfer.v`, `QuadTransfer.v`,
  `SolverTransfer.v`, `CombinedTransfer.v`);
* `F_num`   - primitive binary64 floats: executable, used for rounding counterexamples
  and for C22, C23;
* `B64_num` - reals rounded to binary64 (Flocq `round radix2 (FLT_exp (-1074) 53) ZnearestE`).

Properties that are structural (order of sub-boxes, shared endpoints, merging,
final step, bookkeeping) are proved for *every* `Num T`.

### Arrays

An n-d numpy array is a record `{shp : list nat; dat : list T}` in C (row-major)
order.  `tget`/`tbuild` read and build; `ravel`, slices, transposes used by the code
are expressed with them.  1-D work arrays are lists with functional update.
Objects whose arrays are shared and changed in place (TrackedInterval, the degs
argument of interval_approximate_nd, the list of mon_combos, memoised results) have
heap or state-passing models.  The polynomial denoted by a tensor (the specification)
is `cheb_eval M x = sum over all multi-indices I of M[I] * prod_j T_{I_j}(x_j)`.

## 2. Per property: what is modelled and how it is proved

| id | what is modelled | how proved |
|----|------------------|------------|
| C01 | solvePolyRecursive and everything below it over `Num`, SVD as a parameter | induction on fuel; invariant "Ms within errors of f o phi on the current box" over the reals |
| C02, C59, C60 | solve() of Combined_Solver, approximator as a parameter with contract `closeOn` | induction on fuel on top of C01 |
| C03 | TrackedInterval final interval and point | invariant over the solver recursion |
| C04 | constant-term check | triangle inequality over the multi-index sum |
| C05-C07, C46 | quadratic_check_2D/3D/nd, get_fixed_vars | descent to a face: every point of the box is dominated by an examined candidate |
| C08, C55 | same, at solver level too | witness in exact rationals, transferred to the reals |
| C09, C10, C47, C52, C53 | BoundingIntervalLinearSystem, linearCheck1, getLinearTerms | linear algebra over R with the SVD contract |
| C11, C12 | TransformChebInPlace1D and both error-free versions | loop invariant on the work arrays; bound on U_k for the dropped tail |
| C13 | getTransformationError | witness |
| C14 | TransformChebInPlaceND, transformCheb | multi-index sum split along an axis |
| C15-C17, C56, C57 | getSubdivisionIntervals/Dims, getInverseOrder | generic arithmetic; permutation proof; witness in nine dimensions |
| C18 | trimMs | loop invariant |
| C19-C21, C54 | TrackedInterval (functional) and a heap model with array addresses | induction on histories |
| C22, C23 | TwoSum, Split, TwoProd | Flocq, on primitive floats |
| C24, C25, C66 | merge loop, isExteriorInterval | measure and invariant; witness |
| C26-C28 | final-step part of solvePolyRecursive, tail of solveChebyshevSubdivision | induction on fuel |
| C29-C31 | solve argument handling and the split of a box | case analysis; witnesses |
| C32 | transform of ChebyshevApproximator | algebra; any monotone rounding; float witness |
| C33, C34 | interval_approximate_nd | discrete orthogonality of cosines, per axis |
| C35-C39 | getApproxError, getFinalDegree, convergence tests, constant test | direct; witnesses |
| C61-C65 | chebApproximate and getChebyshevDegrees | aliasing of T_k on the grid; descent; witnesses |
| C40-C45, C58 | polynomial.py | Clenshaw/Horner invariants, multi-index sums |
| C48 | RootTracker | induction on histories of calls |
| C49, C50 | Term, mon_combos, mon_combosHighest, num_mons, num_mons_full | order theory; enumeration with the list changed in place |
| C51 | Memoize, memoize | induction on histories, stateful wrapped function |
| C67-C69 | OneDimension.py: solve, multPower, divPower, multCheb, getXinv, divCheb; matrices as functions of row and column, filled by the same strided slices; real coefficients, complex zeros (Coquelicot's C) | left and right eigenvectors of the companion matrices are Horner and geometric sequences; left eigenvectors of the colleague matrix are multiples of T_k(x); the division matrix is shown to be (a multiple of) its inverse; left and right eigenvalues agree by a dimension argument. The exact eigenvalue routines are contracts, shown to exist |
| C70 | argument checks of solve; integer dtype as a flag; division by a zero pivot as a separate outcome | case analysis |
| C71-C73 | IntervalChecks.py: constant_term_check, check_interval, quadratic_check with its 2-D, 3-D and n-D versions on a list of sub-intervals; rank test and linear solver as parameters | the descent argument of C05-C07 repeated on boxes; in the n-D version it needs equal sides, and a four-variable counterexample is computed over Q and transferred |
| C74 | getBoundingInterval (2-D and n-D), improveBound, getBoundingParallelogram, mergeIntervals, boundingIntervalWidthAndBoundCheck; scipy.linalg.solve as a parameter | each interval contains every point near all the linear parts; a strict error leaves room to move each coordinate, so the intersection has positive width; corners of the parallelepiped by convexity |
| C75-C77 | IntervalData: mask, area, polishing flag and logs; get_subintervals line by line; masks as flat lists | the 2^n halves cover the cube; induction over the polynomials for the mask; the volumes of the halves add up by induction over the dimension; induction over the calls |
| C78-C79 | ProjectiveSpace.py: pad_with_zeros, roots_at_inf, common_root_at_inf on real arrays, complex points; the one-variable solver of C67 | the antidiagonal is the top form of the homogenised polynomial; its zeros with y = 1 are those of a one-variable polynomial, the others need y = 0; counterexamples by computation |
| C80 | utils.mon_mult2 with mon_mult1 and fold_in_dir on tensors; the numpy version decides whether a list of slices is an index | 2 T_m T_i = T_(m+i) + T_|m-i| along one axis, then induction over the axes |
| C81-C83 | utils.solve_linear, get_var_list, triangular_solve, inverse_P; LinearProjection.rref, nullspace; LU with partial pivoting and triangular solves written out | invariants of elimination (row operations keep the kernel, unit columns on the left), back substitution by induction, determinant-free uniqueness; refutations by computation or for all systems |
| C84 | the whole subdivision solver and solve, as for C01 and C02 | induction on the recursion bound; invariant: a zero in the box, coefficients of positive degree in variable d vanish, side d at least 1e-9 long; a zero column makes the last singular value zero, so no stop and no zoom in dimension d |
| C85 | arrays, permutation_array, all_permutations, memoize_permutaions, mons_ordered on exponent lists | columns of degree d+1 in k+1 variables = columns of degree d times the first variable, then columns in k variables; the columns divisible by a variable are, in order, the columns of lower degree times it; invariant of the dictionary: every array is right for its key |
| C86 | TrackedInterval.__contains__, size, overlapsWith, isPoint on the interval of a history of sub-boxes | the interval is the box of images of [-1,1]^n (C19); each query is then a coordinatewise statement, by induction over the coordinates |
| C87 | bounding_parallelepiped (corners, edge points, np.unique, two QR factorisations) and the map T of project_down | every zero in the cube is a convex combination of zeros on the edges of the cube, by moving along a coordinate until a face is met and induction on the free coordinates; the bounds per direction of Q cover the combination |
| C88 | all of M_maker.py: the dictionaries of values and coefficients, reuse of the half grid, block copy, FFT, the search over the degrees | every stored entry equals the freshly computed one; the real FFT of the block copy is the interpolation of C33; the sum of the distances of the degrees to the limit decreases in every round |
| C89 | newton_polish and getRootSample with their calls of polynomial objects and gradients; np.linalg.solve and the draws are parameters | C40 and C45 give values and gradients; the directional derivative is the product with the gradient; Taylor's formula of second order; induction over the steps and over the draws |
| C90 | makePolyCoeffMatrix with str.split, slicing, int and negative subscripts; float is a parameter | lemmas on splitting joined strings; the list of powers as a function; every store changes one entry; the sum over the indices is a sum over the terms |
| C91 | the class Tolerances with its __dict__ as an ordered dictionary; nested sequences as values | invariant of the attributes: the lists under the plural names never change and everything else is a number; induction over the calls |
| C92 | householder, condeig, condeigs over the complex numbers; qr, solve_triangular and svd are parameters | the reflector turns A into block triangular form; left eigenvectors of the blocks; lengths are unchanged by unitary matrices |
| C93 | row_linear_dependencies over the reals; the pivoted QR decomposition is a parameter | the last columns of Q span the left kernel; their pivot columns form an invertible block, so the other rows are independent |
| C94 | the quadratic checks of QuadraticCheck.py and IntervalChecks.py (models of C05-C07 and C72) | every examined point lies in the box and is a value of the part of degree at most two; the examined points contain its extrema (the descent of C07) |
| C95 | linearCheck1 (model of C08) | the two cases of the code are one absolute-value inequality; induction over the rows |
| C96 | the constant-term check (model of C04) at the primitive floats | relative error of every addition (Flocq), induction over the summation tree; +infinity makes the comparison false; the lost zeros by computation and the intermediate value theorem |
| C97 | sortRoots; argsort, the seed and the generator are parameters | two sorted permutations of the same list with distinct keys are equal |
| C98 | row_swap_matrix, sorted_polys_monomial; argsort is a parameter | fancy indexing by a permutation permutes; the keys are sorted by the contract |
| C99 | match_poly_dimensions on references into a store | induction over the list; leading axes of length 1 leave the sum unchanged, cleaning by C42 |
| C100 | clean_zeros_from_matrix | entrywise; |T_k| <= 1 on the cube |
| C101 | divides, quotient | induction over the exponents |
| C102 | build_macaulay and its helpers; argsort is a parameter | the row of a monomial multiple evaluates to the product (C85 and the multiplication lemmas); fancy indexing by the sorted positions of the terms |
| C103 | the three reductions, the four multiplication-matrix builders and multiplication up to the call of msroots; LAPACK is a parameter | the vector of monomials at a zero is in the null space; a counting argument shows that the Bezout number of columns remain; shifting a monomial of lower degree multiplies its value by the variable |
| C104 | sort_eigs, msroots, multiplication as a whole; eig, schur and get_Q_c are parameters | the first nonzero entries of the eigenvectors in the Schur basis give a flag, so all matrices are triangular there with the joint eigenvalues in the same places; nearest matching is exact; orthogonality undoes the rotation; C103 supplies the eigenvectors |
| C105 | mon_combos_limited, the monomial lists and trim_coeffs | induction over the shape for the monomials; invariant of the cutting loop: entries of total degree above k are zero except the corner, error = old error + what was cut; refutation by x + c T2(x)T2(y) |
| C106 | the memoised work arrays, values_arr and chebyshev_block_copy as state transitions, with uninitialised memory as a parameter | invariant over event lists: side of the first and of the present array; per copy three cases (fits, too small, between) |
| C107 | interval_approximate_nd, full_cheb_approximate, interval_approximate_1d on top of C106 | the copied block is the mirrored block, so the discrete cosine argument of C88 applies; refutation by T_4g - 1; coefficient 0 as a function of the memory |
| C108 | subdivision_solve_1d with its trimming loop and error test, good_zeros_1d, and subdivide_to_linear for one function of one variable | induction over the remaining levels with the list of leaves as witness; interpolation C107, companion zeros C67; x^(deg+1) has a positive error on every interval because T_k(y) grows no faster than (3y)^k |
| C109 | subdivision_solve_nd, get_abs_approx_tol, good_zeros_nd, zeros_in_interval, track_interval, and subdivide_to_linear for several functions | induction over the depth, generic in the number of levels, with the list of finished boxes as witness; sub-boxes from C76; a split halves at least the shares stated there, so 3/4 of the volume per level |
| C110 | the same, for affine functions | the approximation of an affine function is exact (C107), trimming removes everything above degree one (C105), solve_linear returns the zero (C81); at most two passes; work array from the history invariant of C106 |
| C111 | the same functions; specification `SubNdSolvedSpec.v` | the induction of C109 with the invariant that degrees stay between 2 and deg and the work array keeps its side; interpolants from C107, trimming from C105, the zero from C81; the refutation follows one call by hand: the spike of C105 is the interpolant and its top coefficient disappears |
| C112 | `PolyrootsModel.v`: eigensolve, the loop over the polynomials and np.unique; specification `PolyrootsSpec.v` | zeros of one polynomial from C67 and C68; induction over the list with the invariant that the present list holds the ends of chains, sorted; several variables from C104 and C81; the refutation uses zeros 5e-11 apart |
| C113 | chebApproximate and solve() of ApproxModel/CombinedModel together (no new model) | ApproxExact.v: on a grid fine enough the coefficients are those of the polynomial, so their averages along a variable are slice sums; getFinalDegree then finds the degree, a rate above 1 and the error formula is positive; closeOn follows and C02 applies (ApproxExactProps.v) |
| C114 | the subdivision solver and solve() of SolverModel/CombinedModel (no new model) | AffineProofs.v: closed form of one reduction step for an affine polynomial; before the final step either the ratio error/slope doubles or the next step changes nothing, so the zoom loop stops by itself; in the final step the box shrinks by 2^-51 each time until it is a point (AffineProps.v) |
| C115 | solve() and chebApproximate of CombinedModel/ApproxModel (no new model) | AffineSolveProps.v: the degree search stops at degree 1 and the error estimate is a closed formula (one_call of ApproxOne.v with two terms); then C114, or the constant-term check discards the box |
| C116 | solveChebyshevSubdivision and everything below it (no new model) | ScaleTransform.v: the coordinate transforms are linear in the coefficients; ScaleProofs.v: the linear bound, the constant and quadratic checks (through the exactness theorem C94) and the trimming; a zero row makes the matrix singular, so the unscaled row is never used; ScaleSolve.v: induction on the recursion; ScaleProps.v: the statement |
| C117 | solveChebyshevSubdivision and solve (no new model) | NoRootProps.v: the constant check computes the comparison of the statement; a continuous function on the cube that stays away from 0 has one sign (intermediate value theorem along segments), so the exactness theorem C94 applies; then one step of the recursion |
| C118 | solveChebyshevSubdivision and solve (no new model) | SymMatrix.v: a matrix with permuted and negated rows has the same extreme singular values (they are the extremes of the norm of Ax on unit vectors) and the correspondingly permuted inverse, for any two decompositions; SymProofs.v: each check and the linear bound are invariant; SymSolve.v: zoom loop, subdivision and induction over the recursion; SymProps.v, SymTopProps.v: the statements |
| C119 | PerturbModel.v: cheb_perturbation2, cheb_perturbation3, mons_1D and the dictionary mon_dict | PerturbProps.v: the loop writes each array position at most once (the reflection is injective on each side of k), so the permuted row evaluates to the sum over the written monomials; product formula of Chebyshev polynomials; the monomial lists from C85 |
| C120 | PermChebModel.v: all_permutations_cheb, with permutation_array and inverse_P from PermModel.v and the reflection arrays from PerturbModel.v | PermChebProps.v: each of the three arrays is a reindexing of the sum over monomials (shift, shift back, reflection of degree 0); loop invariant: every entry of the dictionary multiplies, and its first array shifts; higher powers by composing shifts and C119 |

Statements known to be false of the unchanged code are proved as `..._refuted`
theorems with a concrete witness; what is true instead is a separate theorem.
No property is listed as not expressible.

## 3. Which parts of the code are modelled

Modelled, function by function (each definition cites lines):

* `Combined_Solver.py`: solve (10-200).
* `ChebyshevSubdivisionSolver.py`: error-free transformations, the three 1-D transforms, the n-D
  transform, getTransformationError, TrackedInterval, getLinearTerms, linearCheck1,
  BoundingIntervalLinearSystem, trimMs, getSubdivisionDims, getSubdivisionIntervals, getInverseOrder,
  zoomInOnIntervalIter, isExteriorInterval, solvePolyRecursive, solveChebyshevSubdivision.
* `QuadraticCheck.py`: all of it.
* `ChebyshevApproximator.py`: all of it (9-450).
* `polynomial.py`: Polynomial, MultiCheb, MultiPower (construction, cleaning, padding, evaluation,
  grids, arithmetic, equality, gradient, to_cheb).
* `RootTracker.py`: all of it.
* `utils.py`: Memoize, memoize, Term, mon_combos, mon_combosHighest, num_mons, num_mons_full.
* `OneDimension.py`: all functions.
* `IntervalChecks.py`: all functions except the printing and plotting methods and the unused slices_max_min_check; polishing only as a flag.
* `ProjectiveSpace.py`: all functions; real coefficients, exact arithmetic.
* `utils.py`: Memoize, memoize, Term, mon_combos, mon_combosHighest, num_mons, num_mons_full, match_size, transform, get_var_list, mon_mult2, solve_linear, triangular_solve, inverse_P; exact arithmetic.
* `LinearProjection.py`: rref, nullspace; exact arithmetic.
* `utils.py`: arrays, permutation_array, all_permutations, memoize_permutaions, mons_ordered (`PermModel.v`).
* `LinearProjection.py`: bounding_parallelepiped and the map T of project_down, in two or more variables (`ParModel.v`); `scipy.linalg.qr` is a parameter with contracts `pivotedQR`, `plainQR`.
* `M_maker.py`: all of it (`MakerModel.v`); warnings are left out, scipy's `fftn` is modelled by its defining sum.
* `utils.py`: newton_polish and getRootSample (`NewtonModel.v`), over the reals (the code computes with complex arrays).
* `utils.py`: first_x and makePolyCoeffMatrix (`ParseModel.v`); integers are unbounded, strings are ASCII.
* `utils.py`: isNumOrBool and Tolerances (`TolModel.v`); the three names that would replace a counter are outside the model.
* `utils.py`: condeig, condeigs, householder (`CondModel.v`), for matrices of size at least 2.
* `utils.py`: row_linear_dependencies (`DepModel.v`).
* `utils.py`: clean_zeros_from_matrix, divides, quotient, sorted_polys_monomial, row_swap_matrix, match_poly_dimensions, sortRoots (`UtilModel.v`).
* `MacaulayReduce.py`: lines 18-204; `Multiplication.py`: 15-342, 424-486, 532-624 (`MacaulayModel.v`, `MsModel.v`).
* `subdivision.py`: 833-971 (trim_coeffs and its helpers, `TrimcModel.v`).
* `subdivision.py`: 210-519 (work arrays, block copy, approximation in n and in one variable, `SubApproxModel.v`).
* `subdivision.py`: 973-1086 and the one-variable path of subdivide_to_linear 95-208 (`SubOneModel.v`).
* `subdivision.py`: 522-831 and the path of subdivide_to_linear for several functions, 116-210 (`SubNdModel.v`).
* `polyroots.py`: eigensolve (`PolyrootsModel.v`)

Not modelled:

* `ChebyshevSubdivisionSolver.py`: getTransformPoints (called by nothing), __repr__ and __str__.
* The rest of `Multiplication.py`, `polyroots.py`, `subdivision.py`: import `is_power` from `polynomial.py`, which does not
  define it, directly or through each other; they cannot be imported at this commit.  The parts of these modules
  in the list above are modelled as text.
* The rest of `MacaulayReduce.py`, of `LinearProjection.py` and of `utils.py` (parts of the
  previous version): not reachable from the public solve().
* `Tester.py`, `_stability.py`, `_timing.py`, `old_code/`: scripts.
* numba compilation, numpy dtype promotion and complex numbers, printing and verbose output, timing and depth
  warnings, NaN propagation in the real-number instance (places where Python would produce NaN or inf are
  separate branches of the model), overflow in `B64_num`.

External routines that are parameters, and their contracts:

* `np.linalg.svd`: returns a singular value decomposition (`SvdExample.v` builds one for 1x1 and 2x2; `SvdProofs.v` proves
  that every square matrix has one, and `ExtProps.v` that one choice of all routines meets the contracts in every dimension).
* `qr`, `qr(pivoting=True)`, `svd`, `solve_triangular`, `cond` in the Macaulay reduction: contract `lapackOK` (`MacaulayRed.v`);
  `someLapack_ok` in `MacaulayExists.v` meets it in every dimension.
* `eig`, `schur` in msroots: contracts `eigOK` and `schurOK` (`MsSpec.v`); `someEig_ok` and `someSchur_ok` in `MsExists.v` meet them in
  every dimension.
* `np.linalg.matrix_rank`, `np.linalg.solve`: contract `sym_solver_ok` (`GaussExample.v` meets it in every
  dimension); C55 shows what a thresholded rank does.
* `scipy.linalg.solve`: contract `lasolve_ok` (its answer solves the system, and it answers only when the
  kernel is trivial; `SubcheckStrict.v` meets it in every dimension).
* `np.linalg.solve` in newton_polish: contract `solverOK` (an answer solves the system, a system with exactly one solution
  is answered; `NewtonMore.v` meets it in every dimension). `np.random.rand`: any draws.
* `scipy.linalg.qr(pivoting=True)` in row_linear_dependencies: contract `pivotedQR` (`DepProps.v`, met for two equal rows).
* `scipy.linalg.qr`, `solve_triangular`, `svd` in condeig: contracts `qrOK`, `triOK`, `svdOK` (`CondProps.v`, met for 2x2
  matrices).
* `np.argsort`: some permutation that sorts; `set` iteration: order of small integers, C56 shows where it matters.
* user functions: arbitrary functions; in solve() the approximator's contract is `closeOn` (C02), and
  C61, C62 say when the modelled approximator meets it.
* `np.linalg.eigvals`, `scipy.linalg.eig` on one-variable companion matrices: exactly the eigenvalues, left
  eigenvectors (`spectrum`, `leftSpectrum`; existence proved, with `constructive_indefinite_description` only in
  the examples).
* cos, the d-th root and the acceptance of an object as a function in the approximator.
* scipy `dctn`, `convolve`, numpy `chebder`, `polyder`, `np.unique`, `comb`: written out as the sums or loops
  they compute.

## 4. Trusted base

* Coq 8.16.1 kernel (incl. `vm_compute`, and primitive floats and integers where the list below shows them).
* The axioms that `Print Assumptions` lists for each theorem (next table); all are the standard library's.
* The model's fidelity to the Python source.

* **A**: no axioms (closed under the global context)
* **B**: `ClassicalDedekindReals.sig_forall_dec`, `FunctionalExtensionality.functional_extensionality_dep`
* **C**: `ClassicalDedekindReals.sig_forall_dec`, `ClassicalDedekindReals.sig_not_dec`, `FunctionalExtensionality.functional_extensionality_dep`
* **D**: `ClassicalDedekindReals.sig_forall_dec`, `ClassicalDedekindReals.sig_not_dec`, `Classical_Prop.classic`, `FunctionalExtensionality.functional_extensionality_dep`
* **E**: `ClassicalDedekindReals.sig_forall_dec`, `ClassicalDedekindReals.sig_not_dec`, `ClassicalEpsilon.constructive_indefinite_description`, `Classical_Prop.classic`, `FunctionalExtensionality.functional_extensionality_dep`
* **F**: `ClassicalDedekindReals.sig_forall_dec`, `ClassicalDedekindReals.sig_not_dec`, `Classical_Prop.classic`, `FunctionalExtensionality.functional_extensionality_dep`, `IndefiniteDescription.constructive_indefinite_description`
* **G**: `PrimFloat.abs`, `PrimFloat.add`, `PrimFloat.div`, `PrimFloat.eqb`, `PrimFloat.float`, `PrimFloat.frshiftexp`, `PrimFloat.ldshiftexp`, `PrimFloat.leb`, `PrimFloat.ltb`, `PrimFloat.mul`, `PrimFloat.of_uint63`, `PrimFloat.opp`, `PrimFloat.sub`, `PrimInt63.eqb`, `PrimInt63.int`, `PrimInt63.land`, `PrimInt63.lor`, `PrimInt63.lsl`, `PrimInt63.lsr`, `PrimInt63.sub`
* **H**: `ClassicalDedekindReals.sig_forall_dec`, `ClassicalDedekindReals.sig_not_dec`, `Classical_Prop.classic`, `FloatAxioms.Prim2SF_SF2Prim`, `FloatAxioms.Prim2SF_valid`, `FloatAxioms.SF2Prim_Prim2SF`, `FunctionalExtensionality.functional_extensionality_dep`, `PrimFloat.abs`, `PrimFloat.add`, `PrimFloat.div`, `PrimFloat.eqb`, `PrimFloat.float`, `PrimFloat.frshiftexp`, `PrimFloat.ldshiftexp`, `PrimFloat.leb`, `PrimFloat.ltb`, `PrimFloat.mul`, `PrimFloat.normfr_mantissa`, `PrimFloat.of_uint63`, `PrimFloat.opp`, `PrimFloat.sub`, `PrimInt63.eqb`, `PrimInt63.int`, `PrimInt63.land`, `PrimInt63.lor`, `PrimInt63.lsl`, `PrimInt63.lsr`, `PrimInt63.sub`
* **I**: `ClassicalDedekindReals.sig_forall_dec`, `ClassicalDedekindReals.sig_not_dec`, `Classical_Prop.classic`, `FloatAxioms.Prim2SF_SF2Prim`, `FloatAxioms.Prim2SF_valid`, `FloatAxioms.SF2Prim_Prim2SF`, `FloatAxioms.add_spec`, `FloatAxioms.sub_spec`, `FunctionalExtensionality.functional_extensionality_dep`, `PrimFloat.abs`, `PrimFloat.add`, `PrimFloat.div`, `PrimFloat.eqb`, `PrimFloat.float`, `PrimFloat.frshiftexp`, `PrimFloat.ldshiftexp`, `PrimFloat.leb`, `PrimFloat.ltb`, `PrimFloat.mul`, `PrimFloat.normfr_mantissa`, `PrimFloat.of_uint63`, `PrimFloat.opp`, `PrimFloat.sub`, `PrimInt63.eqb`, `PrimInt63.int`, `PrimInt63.land`, `PrimInt63.lor`, `PrimInt63.lsl`, `PrimInt63.lsr`, `PrimInt63.sub`
* **J**: `ClassicalDedekindReals.sig_forall_dec`, `ClassicalDedekindReals.sig_not_dec`, `Classical_Prop.classic`, `FloatAxioms.Prim2SF_SF2Prim`, `FloatAxioms.Prim2SF_valid`, `FloatAxioms.SF2Prim_Prim2SF`, `FloatAxioms.mul_spec`, `FloatAxioms.sub_spec`, `FunctionalExtensionality.functional_extensionality_dep`, `PrimFloat.abs`, `PrimFloat.add`, `PrimFloat.div`, `PrimFloat.eqb`, `PrimFloat.float`, `PrimFloat.frshiftexp`, `PrimFloat.ldshiftexp`, `PrimFloat.leb`, `PrimFloat.ltb`, `PrimFloat.mul`, `PrimFloat.normfr_mantissa`, `PrimFloat.of_uint63`, `PrimFloat.opp`, `PrimFloat.sub`, `PrimInt63.eqb`, `PrimInt63.int`, `PrimInt63.land`, `PrimInt63.lor`, `PrimInt63.lsl`, `PrimInt63.lsr`, `PrimInt63.sub`
* **K**: `ClassicalDedekindReals.sig_forall_dec`, `ClassicalDedekindReals.sig_not_dec`, `Classical_Prop.classic`, `FloatAxioms.Prim2SF_SF2Prim`, `FloatAxioms.Prim2SF_valid`, `FloatAxioms.SF2Prim_Prim2SF`, `FloatAxioms.abs_spec`, `FloatAxioms.add_spec`, `FloatAxioms.ltb_spec`, `FloatAxioms.sub_spec`, `FunctionalExtensionality.functional_extensionality_dep`, `PrimFloat.abs`, `PrimFloat.add`, `PrimFloat.div`, `PrimFloat.eqb`, `PrimFloat.float`, `PrimFloat.frshiftexp`, `PrimFloat.ldshiftexp`, `PrimFloat.ltb`, `PrimFloat.normfr_mantissa`, `PrimFloat.of_uint63`, `PrimFloat.opp`, `PrimFloat.sub`, `PrimInt63.eqb`, `PrimInt63.int`, `PrimInt63.land`, `PrimInt63.lor`, `PrimInt63.lsl`, `PrimInt63.lsr`, `PrimInt63.sub`
* **L**: `ClassicalDedekindReals.sig_forall_dec`, `ClassicalDedekindReals.sig_not_dec`, `Classical_Prop.classic`, `FloatAxioms.Prim2SF_SF2Prim`, `FloatAxioms.Prim2SF_valid`, `FloatAxioms.SF2Prim_Prim2SF`, `FloatAxioms.abs_spec`, `FloatAxioms.add_spec`, `FloatAxioms.ltb_spec`, `FloatAxioms.sub_spec`, `FunctionalExtensionality.functional_extensionality_dep`, `PrimFloat.abs`, `PrimFloat.add`, `PrimFloat.div`, `PrimFloat.eqb`, `PrimFloat.float`, `PrimFloat.frshiftexp`, `PrimFloat.ldshiftexp`, `PrimFloat.leb`, `PrimFloat.ltb`, `PrimFloat.mul`, `PrimFloat.normfr_mantissa`, `PrimFloat.of_uint63`, `PrimFloat.opp`, `PrimFloat.sub`, `PrimInt63.eqb`, `PrimInt63.int`, `PrimInt63.land`, `PrimInt63.lor`, `PrimInt63.lsl`, `PrimInt63.lsr`, `PrimInt63.sub`

| property | theorem | file | assumptions |
|---|---|---|---|
| C01 | `C01_no_root_is_lost` | SolverProps.v | D |
| C01 | `C01_externals_exist` | ExtProps.v | E |
| C02 | `C02_solve_loses_no_root` | CombinedProps.v | D |
| C03 | `C03_roots_lie_in_their_boxes` | SolverProps.v | D |
| C04 | `C04_constant_check_discards_only_rootfree_boxes` | LinearProps.v | D |
| C05 | `C05_quadratic_check_2D_sound` | QuadProps.v | D |
| C06 | `C06_quadratic_check_3D_sound` | QuadProps.v | D |
| C07 | `C07_quadratic_check_nd_sound` | QuadProps.v | D |
| C08 | `C08_nonstrict_tolerance_refuted` | QuadProps.v | D |
| C08 | `C08_solver_loses_root_refuted` | SolverProps.v | D |
| C09 | `C09_linear_reduction_keeps_every_root` | LinearProps.v | D |
| C09 | `C09_svd_exists` | ExtProps.v | D |
| C10 | `C10_linear_reduction_returns_a_subbox` | LinearProps.v | D |
| C11 | `C11_transform_is_composition` | TransformProps.v | D |
| C11 | `C11_nothing_dropped_for_moderate_alpha` | TransformProps.v | D |
| C11 | `C11_array_accesses_in_bounds` | TransformProps.v | A |
| C12 | `C12_dropped_tail_bound` | TransformProps.v | D |
| C12 | `C12_charged_error_covers_small_axes` | TransformProps.v | D |
| C13 | `C13_charged_error_is_no_bound_refuted` | TransformProps.v | D |
| C14 | `C14_only_one_axis_changes` | TransformProps.v | D |
| C14 | `C14_composes_in_one_coordinate` | TransformProps.v | D |
| C14 | `C14_composes_within_bound` | TransformProps.v | D |
| C14 | `C14_whole_system` | TransformProps.v | D |
| C14 | `C14_identity_and_constant_axes` | TransformProps.v | A |
| C15 | `C15_split_shares_endpoints` | SubdivProps.v | A |
| C15 | `C15_split_leaves_no_gap` | SubdivProps.v | A |
| C16 | `C16_children_match_their_boxes` | SubdivProps.v | D |
| C17 | `C17_subdivision_dimensions` | SubdivProps.v | A |
| C17 | `C17_some_dimension_is_split` | SubdivProps.v | D |
| C17 | `C17_which_dimensions_are_split` | SubdivRule.v | D |
| C18 | `C18_trimming_accounts_for_its_error` | TrimProps.v | D |
| C19 | `C19_interval_is_composed_transforms` | IntervalProps.v | D |
| C20 | `C20_objects_behave_as_values` | IntervalProps.v | A |
| C20 | `C20_copies_are_independent` | IntervalProps.v | A |
| C21 | `C21_top_interval_is_original_refuted` | IntervalProps.v | D |
| C22 | `C22_TwoSum_is_error_free` | EftProps.v | I |
| C22 | `C22_no_overflow` | EftProps.v | I |
| C23 | `C23_Split_is_error_free` | EftProps.v | J |
| C23 | `C23_TwoProd_is_error_free` | EftProps.v | J |
| C23 | `C23_TwoProdWithSplit_is_error_free` | EftProps.v | J |
| C23 | `C23_no_overflow` | EftProps.v | J |
| C24 | `C24_combining_terminates` | MergeProps.v | A |
| C24 | `C24_combining_loses_nothing` | MergeProps.v | D |
| C24 | `C24_boxes_left_alone_are_disjoint` | MergeProps.v | D |
| C25 | `C25_combined_boxes_are_disjoint_refuted` | MergeProps.v | D |
| C26 | `C26_final_step_reports_the_box` | SolverProps.v | A |
| C26 | `C26_final_step_at_most_one` | SolverProps.v | A |
| C26 | `C26_final_step_flags` | SolverProps.v | A |
| C27 | `C27_one_root_per_box_without_duplicates` | SolverProps.v | A |
| C27 | `C27_one_root_per_box_refuted` | SolverProps.v | D |
| C28 | `C28_warnings_are_exact` | SolverProps.v | A |
| C29 | `C29_invalid_arguments_raise` | CombinedProps.v | D |
| C29 | `C29_valid_arguments_are_accepted` | CombinedProps.v | D |
| C29 | `C29_scalars_are_broadcast` | CombinedProps.v | D |
| C30 | `C30_split_point_inside_iff` | CombinedProps.v | B |
| C30 | `C30_returning_calls_search_inside` | CombinedProps.v | D |
| C30 | `C30_split_stays_in_box_refuted` | CombinedProps.v | D |
| C31 | `C31_unit_box_is_exact` | CombinedProps.v | D |
| C31 | `C31_nearly_unit_box_refuted` | CombinedProps.v | D |
| C32 | `C32_transform_is_the_affine_map_onto` | ApproxProps.v | D |
| C32 | `C32_transform_monotone_in_any_rounding` | ApproxProps.v | D |
| C32 | `C32_transform_keeps_the_ends_refuted` | ApproxProps.v | G |
| C33 | `C33_interpolates_at_every_grid_point` | ApproxProps.v | D |
| C33 | `C33_reproduces_every_polynomial_of_these_degrees` | ApproxProps.v | D |
| C34 | `C34_leaves_its_argument_alone_refuted` | ApproxProps.v | D |
| C34 | `C34_zero_degrees_become_one` | ApproxProps.v | D |
| C35 | `C35_error_estimate_is_the_documented_sum` | ApproxProps.v | D |
| C35 | `C35_error_estimate_nonnegative_and_monotone` | ApproxProps.v | D |
| C35 | `C35_error_estimate_bounds_the_neglected_coefficients` | ApproxProps.v | D |
| C36 | `C36_reported_error_is_nonnegative_refuted` | ApproxProps.v | D |
| C36 | `C36_solve_keeps_the_root_refuted` | ApproxProps.v | D |
| C37 | `C37_degree_selection_keeps_every_significant_coefficient` | ApproxProps.v | D |
| C37 | `C37_rate_reaches_epsilon` | ApproxProps.v | D |
| C38 | `C38_started_converging_means_the_last_five_are_small` | ApproxProps.v | D |
| C38 | `C38_has_converged_means_all_differences_are_small` | ApproxProps.v | D |
| C39 | `C39_independent_coordinate_is_reported_constant` | ApproxProps.v | D |
| C39 | `C39_reported_constant_means_constant_refuted` | ApproxProps.v | D |
| C39 | `C39_solve_keeps_the_root_refuted` | ApproxProps.v | D |
| C40 | `C40_MultiCheb_call` | PolyProps.v | D |
| C40 | `C40_MultiPower_call` | PolyProps.v | D |
| C41 | `C41_MultiCheb_add` | PolyProps.v | D |
| C41 | `C41_MultiCheb_sub` | PolyProps.v | D |
| C41 | `C41_MultiPower_add` | PolyProps.v | D |
| C41 | `C41_MultiPower_sub` | PolyProps.v | D |
| C41 | `C41_MultiPower_mul` | PolyProps.v | D |
| C42 | `C42_cleaning_preserves_the_polynomial` | PolyProps.v | D |
| C43 | `C43_to_cheb_is_exact` | PolyProps.v | D |
| C44 | `C44_equality_is_closeness` | PolyProps.v | D |
| C44 | `C44_equality_is_reflexive` | PolyProps.v | D |
| C44 | `C44_equality_symmetric_refuted` | PolyProps.v | D |
| C44 | `C44_equality_transitive_refuted` | PolyProps.v | D |
| C44 | `C44_same_function_equal_refuted` | PolyProps.v | D |
| C45 | `C45_MultiCheb_gradient` | PolyProps.v | D |
| C45 | `C45_MultiPower_gradient` | PolyProps.v | D |
| C45 | `C45_grad_rejects_wrong_length_refuted` | PolyProps.v | D |
| C46 | `C46_fixed_vars_enumerates_faces` | QuadProps.v | A |
| C47 | `C47_linear_terms_are_linear_coefficients` | LinearProps.v | A |
| C48 | `C48_balance` | TrackerProps.v | D |
| C48 | `C48_intervals_and_methods_in_step` | TrackerProps.v | D |
| C48 | `C48_balance_after_polish_refuted` | TrackerProps.v | D |
| C48 | `C48_every_root_accounted_for` | TrackerProps.v | D |
| C48 | `C48_boundary_roots_survive` | TrackerProps.v | D |
| C48 | `C48_every_root_kept_refuted` | TrackerProps.v | D |
| C48 | `C48_no_root_twice_refuted` | TrackerProps.v | D |
| C48 | `C48_potential_roots_kept` | TrackerProps.v | D |
| C48 | `C48_intervals_match_roots` | TrackerProps.v | D |
| C48 | `C48_intervals_match_roots_always_refuted` | TrackerProps.v | D |
| C48 | `C48_polish_intervals` | TrackerProps.v | D |
| C49 | `C49_lt_is_grevlex` | TermProps.v | A |
| C49 | `C49_other_orders` | TermProps.v | A |
| C49 | `C49_strict_total_order` | TermProps.v | A |
| C49 | `C49_comparisons_agree` | TermProps.v | A |
| C49 | `C49_multiplication_keeps_order` | TermProps.v | A |
| C49 | `C49_one_is_smallest` | TermProps.v | A |
| C49 | `C49_no_infinite_descent` | TermProps.v | A |
| C49 | `C49_order_on_mixed_lengths_refuted` | TermProps.v | A |
| C50 | `C50_mon_combos_lists_degree_at_most` | TermProps.v | A |
| C50 | `C50_mon_combosHighest_lists_degree_exactly` | TermProps.v | A |
| C50 | `C50_counts` | TermProps.v | A |
| C50 | `C50_argument_changed_only_in_one_variable` | TermProps.v | A |
| C50 | `C50_any_start_list_refuted` | TermProps.v | A |
| C51 | `C51_both_memoisers_agree` | MemoProps.v | A |
| C51 | `C51_transparent` | MemoProps.v | A |
| C51 | `C51_first_value_is_repeated` | MemoProps.v | A |
| C51 | `C51_called_once_per_key` | MemoProps.v | A |
| C51 | `C51_transparent_for_every_function_refuted` | MemoProps.v | A |
| C51 | `C51_results_are_fresh_refuted` | MemoProps.v | A |
| C52 | `C52_condition_number_never_widens` | LinearProps.v | D |
| C53 | `C53_unchanged_interval_keeps_every_root` | LinearProps.v | D |
| C54 | `C54_final_interval_for_other_top_boxes_refuted` | IntervalProps.v | D |
| C55 | `C55_rank_threshold_unsound_refuted` | QuadProps.v | D |
| C56 | `C56_set_order_up_to_eight` | SubdivProps.v | A |
| C56 | `C56_children_in_nine_dimensions_refuted` | SubdivProps.v | D |
| C57 | `C57_subdividing_a_point_raises` | SubdivProps.v | D |
| C58 | `C58_evaluate_grid` | PolyProps.v | D |
| C59 | `C59_points_in_boxes_in_search_box` | CombinedProps.v | D |
| C59 | `C59_no_points_iff_no_boxes` | CombinedProps.v | D |
| C60 | `C60_returned_boxes_are_small` | CombinedProps.v | D |
| C61 | `C61_reported_error_bounds_the_error_refuted` | ApproxProps.v | D |
| C61 | `C61_solve_finds_the_roots_refuted` | ApproxProps.v | D |
| C62 | `C62_interpolation_error_is_twice_the_tail` | ApproxProps.v | D |
| C62 | `C62_reported_error_bounds_half_the_error` | ApproxProps.v | D |
| C62 | `C62_reported_error_bounds_the_error_refuted` | ApproxProps.v | D |
| C62 | `C62_approximation_meets_the_contract_of_solve` | ApproxProps.v | D |
| C63 | `C63_terminates_on_polynomials` | ApproxProps.v | D |
| C63 | `C63_terminates_on_the_zero_function_refuted` | ApproxProps.v | D |
| C63 | `C63_terminates_on_nonzero_polynomials_refuted` | ApproxProps.v | D |
| C63 | `C63_solve_terminates_refuted` | ApproxProps.v | D |
| C64 | `C64_argument_errors` | ApproxProps.v | D |
| C65 | `C65_result_is_a_series_in_as_many_variables` | ApproxProps.v | D |
| C66 | `C66_interior_results_are_strictly_inside` | SepProps.v | D |
| C66 | `C66_interior_results_do_not_touch_neighbours` | SepProps.v | D |
| C67 | `C67_power_zeros` | OneDProps.v | D |
| C67 | `C67_multiplicity_at_origin` | OneDProps.v | D |
| C67 | `C67_zero_last_coefficient_refuted` | OneDProps.v | D |
| C68 | `C68_chebyshev_zeros` | OneDProps.v | D |
| C69 | `C69_division_matrix_zeros` | OneDProps.v | D |
| C69 | `C69_zero_at_origin_refuted` | OneDProps.v | D |
| C69 | `C69_constant_refuted` | OneDProps.v | D |
| C70 | `C70_matrix_choice` | OneDProps.v | D |
| C70 | `C70_integer_coefficients_refuted` | OneDProps.v | D |
| C70 | `C70_zero_last_chebyshev_coefficient` | OneDProps.v | D |
| C71 | `C71_constant_term_check_sound` | SubcheckProps.v | D |
| C71 | `C71_check_interval` | SubcheckProps.v | D |
| C72 | `C72_thrown_subintervals_have_no_zero` | SubcheckProps.v | D |
| C73 | `C73_cubes_have_no_zero` | SubcheckProps.v | D |
| C73 | `C73_four_variables_refuted` | SubcheckProps.v | D |
| C74 | `C74_bounding_interval_keeps_every_common_zero` | SubcheckProps.v | D |
| C74 | `C74_exact_series_lose_the_zero_refuted` | SubcheckProps.v | D |
| C75 | `C75_subintervals_cover_every_common_zero` | SubcheckProps.v | D |
| C76 | `C76_volume_balance` | SubcheckProps.v | D |
| C76 | `C76_volume_balance_of_a_search` | SubcheckProps.v | D |
| C77 | `C77_calls_do_not_influence_each_other` | SubcheckProps.v | D |
| C78 | `C78_roots_at_infinity` | ProjProps.v | D |
| C78 | `C78_constant_refuted` | ProjProps.v | D |
| C78 | `C78_small_coefficient_refuted` | ProjProps.v | D |
| C78 | `C78_degree_above_the_array_refuted` | ProjProps.v | D |
| C78 | `C78_homogeneous_refuted` | ProjProps.v | D |
| C79 | `C79_tests_exchanged_coordinates` | ProjProps.v | D |
| C79 | `C79_symmetric_second_polynomial` | ProjProps.v | D |
| C79 | `C79_common_root_missed_refuted` | ProjProps.v | D |
| C79 | `C79_common_root_invented_refuted` | ProjProps.v | D |
| C79 | `C79_return_root` | ProjProps.v | D |
| C80 | `C80_chebyshev_product` | MonMultProps.v | D |
| C80 | `C80_power_product` | MonMultProps.v | D |
| C80 | `C80_new_numpy_refuted` | MonMultProps.v | D |
| C81 | `C81_root_is_the_only_zero` | LinAlgProps.v | D |
| C81 | `C81_empty_means_no_zero` | LinAlgProps.v | D |
| C81 | `C81_too_many_roots_refuted` | LinAlgProps.v | D |
| C81 | `C81_short_first_axis_refuted` | LinAlgProps.v | D |
| C81 | `C81_short_last_axis_refuted` | LinAlgProps.v | A |
| C82 | `C82_reduced_echelon_form` | LinAlgProps.v | D |
| C82 | `C82_square_refuted` | LinAlgProps.v | D |
| C82 | `C82_zero_row_refuted` | LinAlgProps.v | D |
| C83 | `C83_same_solutions` | LinAlgProps.v | D |
| C83 | `C83_inconsistency_hidden_refuted` | LinAlgProps.v | D |
| C83 | `C83_overdetermined_refuted` | LinAlgProps.v | D |
| C83 | `C83_new_numpy_refuted` | LinAlgProps.v | A |
| C83 | `C83_nullspace` | LinAlgProps.v | D |
| C84 | `C84_solver_never_returns` | EndlessProps.v | D |
| C84 | `C84_solve_never_returns` | EndlessProps.v | D |
| C85 | `C85_mons_ordered` | PermProps.v | A |
| C85 | `C85_permutation_array_multiplies_by_a_variable` | PermProps.v | A |
| C85 | `C85_permutations_multiply` | PermProps.v | A |
| C85 | `C85_only_such_arrays_are_stored` | PermProps.v | A |
| C85 | `C85_too_high_degree_cut_off_refuted` | PermProps.v | A |
| C85 | `C85_degree_zero_refuted` | PermProps.v | A |
| C85 | `C85_memoisation_is_transparent` | PermProps.v | A |
| C85 | `C85_memoisation_of_further_arguments_refuted` | PermProps.v | A |
| C86 | `C86_contains_exactly_the_points` | IntervalQueries.v | D |
| C86 | `C86_size_is_the_volume` | IntervalQueries.v | D |
| C86 | `C86_overlap_is_a_common_point` | IntervalQueries.v | D |
| C86 | `C86_is_point` | IntervalQueries.v | D |
| C87 | `C87_covers_every_zero_in_the_cube` | ParProps.v | D |
| C87 | `C87_consists_of_zeros` | ParProps.v | D |
| C87 | `C87_always_answers` | ParProps.v | D |
| C87 | `C87_tiny_coefficients_refuted` | ParProps.v | D |
| C87 | `C87_projection_map_in_three_variables` | ParProps.v | D |
| C87 | `C87_projection_map_covers_refuted` | ParProps.v | D |
| C88 | `C88_returns_the_interpolant` | MakerProps.v | D |
| C88 | `C88_stored_values_change_nothing` | MakerMore.v | A |
| C88 | `C88_stops_at_once_when_the_guess_is_good` | MakerMore.v | D |
| C88 | `C88_polynomials_are_recovered` | MakerMore.v | D |
| C88 | `C88_error_bounds_the_distance_of_the_two_approximations` | MakerMore.v | D |
| C88 | `C88_error_bounds_the_distance_to_the_function_refuted` | MakerMore.v | D |
| C88 | `C88_reported_degrees_refuted` | MakerMore.v | D |
| C88 | `C88_rejected_arguments` | MakerMore.v | D |
| C88 | `C88_stored_values_in_one_variable` | MakerValues.v | D |
| C88 | `C88_stored_values_in_two_variables_refuted` | MakerValues.v | D |
| C88 | `C88_polynomial_object_in_several_variables_refuted` | MakerValues.v | D |
| C89 | `C89_runs_newtons_method` | NewtonProps.v | D |
| C89 | `C89_residual_is_second_order` | NewtonProps.v | D |
| C89 | `C89_simple_zero_is_returned` | NewtonProps.v | D |
| C89 | `C89_degree_one_systems_are_solved` | NewtonProps.v | D |
| C89 | `C89_result_is_a_zero_refuted` | NewtonMore.v | D |
| C89 | `C89_sample_of_points` | NewtonMore.v | D |
| C89 | `C89_sample_returns_unless_a_draw_raises` | NewtonMore.v | D |
| C89 | `C89_sample_of_degree_one` | NewtonMore.v | D |
| C89 | `C89_sample_of_zeros_refuted` | NewtonMore.v | D |
| C89 | `C89_rejected_arguments` | NewtonErr.v | D |
| C90 | `C90_entries` | ParseProps.v | A |
| C90 | `C90_value_in_reversed_variables` | ParseProps.v | D |
| C90 | `C90_value_refuted` | ParseProps.v | D |
| C90 | `C90_like_terms_refuted` | ParseProps.v | D |
| C90 | `C90_repeated_variable_refuted` | ParseProps.v | D |
| C90 | `C90_negative_power_refuted` | ParseProps.v | D |
| C91 | `C91_rounds` | TolProps.v | A |
| C91 | `C91_tolDict` | TolProps.v | A |
| C91 | `C91_rejected` | TolProps.v | A |
| C91 | `C91_plural_names_refuted` | TolProps.v | A |
| C91 | `C91_nested_values_refuted` | TolProps.v | A |
| C92 | `C92_householder` | CondProps.v | C |
| C92 | `C92_householder_of_zero` | CondProps.v | C |
| C92 | `C92_condition_number` | CondProps.v | C |
| C92 | `C92_infinite_condition_number` | CondProps.v | D |
| C92 | `C92_zero_vector` | CondProps.v | C |
| C92 | `C92_vector_condition_number` | CondProps.v | D |
| C92 | `C92_all_condition_numbers` | CondProps.v | C |
| C93 | `C93_every_row_once` | DepProps.v | B |
| C93 | `C93_independent_and_dependent_rows` | DepProps.v | B |
| C93 | `C93_small_rows_refuted` | DepProps.v | B |
| C94 | `C94_quadratic_check_is_exact` | SharpProps.v | D |
| C94 | `C94_subinterval_check_is_exact` | SharpProps.v | D |
| C95 | `C95_linear_check_is_exact` | SharpProps.v | D |
| C96 | `C96_any_summation_order` | FloatProps.v | K |
| C96 | `C96_constant_check_is_safe_with_a_margin` | FloatProps.v | L |
| C96 | `C96_solve_loses_zeros_refuted` | FloatProps.v | H |
| C97 | `C97_same_roots_in_order` | UtilProps.v | D |
| C97 | `C97_canonical_order` | UtilProps.v | D |
| C97 | `C97_ties_refuted` | UtilProps.v | D |
| C97 | `C97_generator_reset` | UtilProps.v | D |
| C98 | `C98_row_swap_sorts_the_rows` | UtilProps.v | D |
| C98 | `C98_row_swap_echelon` | UtilProps.v | D |
| C98 | `C98_polys_sorted_by_terms` | UtilProps.v | D |
| C99 | `C99_dimensions_matched` | UtilProps.v | D |
| C99 | `C99_argument_unusable_refuted` | UtilProps.v | D |
| C99 | `C99_raises_only_without_polynomials` | UtilProps.v | D |
| C100 | `C100_small_entries_are_cleared` | UtilProps.v | D |
| C101 | `C101_divides_means_divides` | UtilProps.v | B |
| C102 | `C102_the_rows_are_the_multiples` | MacaulayProps.v | D |
| C102 | `C102_chebyshev_needs_the_old_indexing` | MacaulayProps.v | D |
| C102 | `C102_the_power_basis_runs_under_both` | MacaulayProps.v | D |
| C103 | `C103_common_zeros_are_joint_eigenvalues` | MacaulayProps.v | D |
| C103 | `C103_no_exception` | MacaulayProps.v | D |
| C103 | `C103_gives_up` | MacaulayProps.v | D |
| C104 | `C104_joint_eigenvalues` | MsProps.v | C |
| C104 | `C104_all_common_zeros` | MsProps.v | D |
| C104 | `C104_linear_systems` | MsProps.v | D |
| C104 | `C104_no_zero_refuted` | MsProps.v | D |
| C104 | `C104_errors` | MsProps.v | D |
| C105 | `C105_monomials_of_one_degree` | TrimcProps.v | A |
| C105 | `C105_trimming_accounts_up_to_the_top_coefficient` | TrimcProps.v | D |
| C105 | `C105_reported_error_covers_the_trimming_refuted` | TrimcProps.v | D |
| C105 | `C105_linear_arrays_are_erased` | TrimcProps.v | D |
| C106 | `C106_copy_after_every_history` | SubApproxProps.v | A |
| C106 | `C106_copies_up_to_the_first_degree` | SubApproxProps.v | A |
| C106 | `C106_copy_of_twice_the_degree_refuted` | SubApproxProps.v | A |
| C106 | `C106_the_first_call_fixes_the_size` | SubApproxProps.v | A |
| C107 | `C107_interpolates` | SubApproxMore.v | D |
| C107 | `C107_the_error_estimate` | SubApproxMore.v | D |
| C107 | `C107_error_bounds_the_distance_to_the_function_refuted` | SubApproxMore.v | D |
| C107 | `C107_first_approximation_depends_on_uninitialised_memory` | SubApproxMore.v | D |
| C107 | `C107_one_variable` | SubApproxMore.v | D |
| C108 | `C108_search` | SubOneProps.v | F |
| C108 | `C108_polynomials_up_to_the_degree` | SubOneProps.v | F |
| C108 | `C108_every_answer_is_a_zero_refuted` | SubOneProps.v | F |
| C108 | `C108_no_zero_is_lost_refuted` | SubOneProps.v | D |
| C109 | `C109_the_search_ends` | SubNdProps.v | D |
| C109 | `C109_what_is_found` | SubNdProps.v | D |
| C110 | `C110_linear_systems` | SubNdProps.v | D |
| C111 | `C111_what_a_solved_box_means` | SubNdSolvedProps.v | D |
| C111 | `C111_returned_roots_are_zeros_refuted` | SubNdSolvedProps.v | D |
| C112 | `C112_common_zeros_are_chains` | PolyrootsProps.v | D |
| C112 | `C112_common_zeros` | PolyrootsProps.v | D |
| C112 | `C112_one_polynomial` | PolyrootsProps.v | D |
| C112 | `C112_answers_near_all_polynomials_refuted` | PolyrootsProps.v | D |
| C112 | `C112_several_variables` | PolyrootsNdProps.v | D |
| C112 | `C112_no_zero_in_the_box_refuted` | PolyrootsNdProps.v | D |
| C113 | `C113_approximation_is_exact` | ApproxExactProps.v | D |
| C113 | `C113_approximation_returns` | ApproxExactProps.v | D |
| C113 | `C113_solve_loses_no_root` | ApproxExactProps.v | D |
| C114 | `C114_solver_finds_the_zero` | AffineProps.v | D |
| C114 | `C114_solver_finds_nothing_else` | AffineProps.v | D |
| C114 | `C114_solve_finds_the_zero` | AffineProps.v | D |
| C114 | `C114_default_call` | AffineProps.v | D |
| C115 | `C115_any_affine_function` | AffineSolveProps.v | D |
| C115 | `C115_no_zero_no_root` | AffineSolveProps.v | D |
| C116 | `C116_units_do_not_matter` | ScaleProps.v | D |
| C117 | `C117_solver_returns_nothing` | NoRootProps.v | D |
| C117 | `C117_solve_returns_nothing` | NoRootProps.v | D |
| C118 | `C118_order_does_not_matter` | SymProps.v | D |
| C118 | `C118_signs_do_not_matter` | SymProps.v | D |
| C118 | `C118_solve_order_does_not_matter` | SymTopProps.v | D |
| C119 | `C119_reflection_arrays` | PerturbProps.v | B |
| C119 | `C119_multipliers` | PerturbProps.v | A |
| C120 | `C120_chebyshev_multiplication_arrays` | PermChebProps.v | B |

## 5. Files (rocq/theories)

`*Model.v` model files, `*Spec.v` specifications, `*Props.v` property theorems with the specification vocabulary
they need, an `Example` meeting the hypotheses and `Print Assumptions`; the others hold lemmas.

| file | contents |
|---|---|
| Num.v | Arithmetic used by the model |
| RSum.v | Finite sums of reals (specification side) |
| Cheb.v | Chebyshev polynomials (specification) |
| Tensor.v | Arrays |
| PolySpec.v | What a coefficient tensor means (specification side, over R) |
| TransformModel.v | Model of the Chebyshev change of variables |
| TransformProofs.v | Proofs about the 1-D Chebyshev change of variables |
| TransformExactProofs.v | The error-free versions of the 1-D transform, over the reals |
| TransformNDProofs.v | The n-D transform acts along one axis (any arithmetic), and its meaning (reals) |
| Transfer.v | Transfer between arithmetics |
| TransformChebProofs.v | Whole-system transform: every axis, with the charged error |
| TransformChecked.v | Array accesses of the 1-D transforms stay in bounds |
| TransformProps.v | Property theorems C11, C12, C13, C14: the Chebyshev change of variables |
| IntervalModel.v | Model of TrackedInterval (yroots/ChebyshevSubdivisionSolver.py, lines 376-576) |
| IntervalProofs.v | Tracked intervals over the reals |
| HeapModel.v | TrackedInterval objects with shared arrays |
| HeapProofs.v | Objects with shared arrays behave like values under the solver's discipline |
| IntervalProps.v | Properties of tracked intervals: C19, C20, C21, C54 |
| PartProofs.v | A polynomial minus a few of its terms |
| LinearModel.v | Model of the linear reduction (yroots/ChebyshevSubdivisionSolver.py, lines 578-753) and of the |
| LinearProofs.v | The linear reduction over the reals |
| SvdExample.v | Singular value decompositions of 1x1 and 2x2 matrices |
| SystemSpec.v | What it means for a list of Chebyshev tensors to approximate a system of functions |
| LinearProps.v | Properties of the constant-term check and the linear reduction: C04, C09, C10, C47, C52, C53 |
| QuadModel.v | Model of yroots/QuadraticCheck.py (lines 1-687) |
| QuadDescent.v | Minima of quadratic functions on a cube |
| QuadProofs.v | Quadratic checks: shared lemmas and the 2-D and 3-D versions |
| Quad3Proofs.v | The 3-D quadratic check |
| QuadNdProofs.v | The n-D quadratic check and the enumeration of faces |
| QuadNdFaces.v | The n-D quadratic check: every face is examined, or is degenerate or indefinite |
| QuadTransfer.v | The quadratic checks commute with maps between arithmetics |
| GaussExample.v | A rank test and a linear solver meeting the contract used for the n-D quadratic check |
| QuadProps.v | Property theorems C05, C06, C07, C08, C46, C55: the quadratic checks |
| SolverModel.v | Model of the subdivision solver (yroots/ChebyshevSubdivisionSolver.py, lines 12-44, 896-1464) |
| TrimProofs.v | trimMs keeps its error account |
| OrderProofs.v | Dimension orders: argsort, sets, and the reordering of getInverseOrder |
| SubdivProofs.v | Subdivision: dimensions, pairing of polynomials and boxes (any arithmetic) |
| SubdivReal.v | Subdivision over the reals: the children cover the box, and each child's polynomials |
| ZoomProofs.v | The zoom loop keeps every root and keeps the approximation valid (over the reals) |
| MergeProofs.v | Merging of touching intervals: termination (any arithmetic), containment (reals) |
| SolverProofs.v | The recursive solver keeps every root (over the reals) |
| SolverTransfer.v | The solver commutes with maps between arithmetics (plain transforms, exact = false) |
| ExtExample.v | Concrete external routines |
| FinalProofs.v | The final step keeps every box, in any arithmetic |
| SolverProps.v | Property theorems C01, C03, C08 (solver level), C26, C27, C28: the subdivision solver |
| SplitProofs.v | The boxes of one subdivision step, in any arithmetic |
| SubdivProps.v | Property theorems C15, C16, C17, C56: one subdivision step |
| SubdivRule.v | C17: which dimensions are split, and in which order |
| TrimProps.v | Property theorem C18: trimming |
| MergeProps.v | Property theorems C24, C25: combining touching boxes |
| EftProofs.v | Error-free transformations in binary64 |
| EftProps.v | Property theorems C22, C23: the error-free transformations are error-free |
| PolyModel.v | Model of yroots/polynomial.py: MultiCheb and MultiPower objects |
| PolyEval.v | Evaluation of polynomial objects over the reals |
| PolyArith.v | Cleaning, padding, sums and products of coefficient tensors over the reals |
| PolyCheb.v | Power to Chebyshev conversion is exact over the reals |
| PolyGrad.v | Gradients of polynomial objects are the partial derivatives |
| PolyProps.v | Property theorems C40-C45, C58: MultiCheb and MultiPower objects |
| CombinedModel.v | Model of yroots/Combined_Solver.py (solve, lines 10-200) |
| CombinedSpec.v | What solve() is asked to do: vocabulary for the statements about Combined_Solver.solve |
| CombinedProofs.v | Lemmas about the model of Combined_Solver.solve |
| CombinedTransfer.v | solve() commutes with maps between arithmetics (exact = false) |
| CombinedProps.v | Property theorems C02, C29, C30, C31, C59, C60: Combined_Solver.solve |
| ApproxModel.v | Model of yroots/ChebyshevApproximator.py (lines 9-450) |
| ApproxDct.v | Discrete orthogonality of the cosines at the Chebyshev grid |
| ApproxInterp.v | interval_approximate_nd computes the Chebyshev interpolant (over R) |
| ApproxError.v | Error of the interpolant and the estimate of getApproxError (over R) |
| ApproxDegree.v | Degree selection: what the tests decide, and when the doubling loop ends (over R) |
| ApproxTerm.v | The doubling loop ends for every polynomial that is not 0 at the upper corner, never for 0 (over R) |
| ApproxPoly.v | A polynomial object on any box is a Chebyshev series of the same shape (over R) |
| ApproxOne.v | One function of one variable given as a finite Chebyshev series: what chebApproximate computes (over R) |
| ApproxLoss.v | Calls of chebApproximate and solve() that go wrong: worked out over R |
| ApproxCall.v | Whole calls of chebApproximate: arguments, shape of the result, endless calls, aliasing |
| ApproxProps.v | Property theorems C32-C39, C61-C65: ChebyshevApproximator |
| SepProofs.v | Interior results lie strictly inside the box they were found in |
| SepProps.v | Property theorems C66: results that are not sent to the combining step |
| TrackerModel.v | Model of yroots/RootTracker.py |
| TrackerProofs.v | Lemmas about the root tracker |
| TrackerProps.v | C48: what the root tracker keeps |
| TermModel.v | Model of the class Term and of the monomial enumerations of yroots/utils.py |
| TermProofs.v | Lemmas about terms and monomial enumerations |
| TermProps.v | C49 (order of terms) and C50 (enumeration of monomials) |
| MemoModel.v | Model of the memoisers of yroots/utils.py |
| MemoProps.v | C51: memoised functions |
| OneDSpec.v | What the one-variable root finder is for: complex zeros, eigenvalues |
| OneDModel.v | Model of yroots/OneDimension.py: zeros of one polynomial in one variable |
| OneDProofs.v | Lemmas about the model of OneDimension.py |
| OneDCheb.v | Eigenvalues of the colleague matrix and of its inverse |
| OneDLink.v | multCheb, divCheb and solve |
| OneDProps.v | Properties C67-C70: zeros of one polynomial in one variable (OneDimension.py) |
| SubcheckModel.v | Model of yroots/IntervalChecks.py (lines 20-284 and 396-1401) |
| SubcheckBox.v | Minima of quadratic functions on a box |
| SubcheckQuad.v | The sub-interval checks of IntervalChecks.py: every face of the box is examined, or is |
| SubcheckNd.v | The n-D sub-interval check on boxes whose sides are all the same interval |
| SubcheckProofs.v | Sub-interval checks: a sub-interval that is thrown out contains no zero |
| SubcheckBound.v | Bounding intervals: every common zero lies in a bounding interval of positive size |
| SubcheckBoundN.v | Bounding intervals in n dimensions |
| SubcheckStrict.v | With a strict error bound the bounding interval never collapses, and keeps every common zero |
| SubcheckCover.v | get_subintervals: covering, area bookkeeping, independence of the past |
| SubcheckTransfer.v | The sub-interval checks and the bounding intervals commute with maps between arithmetics |
| SubcheckProps.v | Property theorems C71 - C77: the interval checks of IntervalChecks.py |
| ProjSpec.v | Roots at infinity of a polynomial in two variables. Independent of the model |
| ProjModel.v | Model of yroots/ProjectiveSpace.py: roots at infinity of polynomials in two variables |
| ProjProofs.v | Roots at infinity: proofs |
| ProjProps.v | Properties C78 and C79: roots at infinity (ProjectiveSpace.py) |
| MonMultModel.v | Model of monomial multiplication, yroots/utils.py lines 538-570 and 618-746 |
| MonMultProofs.v | Monomial multiplication is exact |
| MonMultProps.v | Property C80: multiplication by a monomial (utils.mon_mult2) |
| LinAlgSpec.v | Vocabulary for linear systems (specification side) |
| LinAlgModel.v | Model of the linear-system helpers: utils.py lines 164-185 (inverse_P), 290-299 (get_var_list), 339-393 (triangular_solve), |
| LinAlgProofs.v | Linear systems: elimination keeps the solutions, back substitution finds them |
| LinAlgProofs2.v | Reduced echelon forms: triangular_solve and rref |
| LinAlgProps.v | Properties C81, C82, C83: linear systems (utils.solve_linear, utils.triangular_solve, LinearProjection.rref and nullspace) |
| EndlessProofs.v | Systems that do not depend on one of the variables: the recursion of the subdivision solver has no end |
| EndlessProps.v | Property theorem C84: no answer for a system that does not depend on one of its variables |
| PermModel.v | Model of the permutation arrays of yroots/utils.py: arrays (lines 908-937), permutation_array (942-974), |
| PermProofs.v | Lemmas about the permutation arrays |
| PermProps.v | C85: the permutation arrays multiply a row of a Macaulay matrix by a monomial |
| IntervalQueries.v | C86: the questions a tracked interval answers |
| ParModel.v | Model of LinearProjection.py lines 89-92 (the map T of project_down) and 153-226 (bounding_parallelepiped) |
| ParProofs.v | Proofs about bounding_parallelepiped |
| ParProps.v | Property C87: bounding_parallelepiped covers the part of a hyperplane inside the hypercube (LinearProjection.py) |
| MakerModel.v | Model of yroots/M_maker.py (all of it): Chebyshev approximation with stored values |
| MakerProofs.v | M_maker: stored values, the block copy and the Fourier sum |
| MakerRun.v | M_maker: the search for good degrees |
| MakerProps.v | Properties of M_maker (C88) |
| MakerMore.v | More properties of M_maker (C88) |
| MakerValues.v | M_maker: the stored values, and polynomial objects in several variables (C88) |
| NewtonModel.v | Model of utils.py lines 1260-1310 (newton_polish) and 1311-1343 (getRootSample) |
| NewtonProofs.v | Newton's method: derivatives along lines |
| NewtonProps.v | Properties of newton_polish and getRootSample (C89) |
| NewtonMore.v | newton_polish and getRootSample, continued (C89): a solver for the examples, a cycle, and the sample of zeros |
| ParseModel.v | Model of utils.py lines 442-536: first_x, makePolyCoeffMatrix. A Python string is a list of characters |
| ParseProofs.v | Specification and lemmas for makePolyCoeffMatrix (C90) |
| ParseProps.v | Properties of makePolyCoeffMatrix (C90) |
| TolModel.v | Model of utils.py lines 1358-1458: isNumOrBool and the class Tolerances |
| TolProps.v | Properties of the class Tolerances (C91) |
| CondModel.v | Model of utils.py lines 1461-1498: condeig, condeigs and householder |
| CondProofs.v | Complex vectors and the Householder reflector |
| CondProps.v | Properties of householder, condeig and condeigs (C92) |
| NewtonErr.v | newton_polish: the arguments it does not take (C89) |
| DepModel.v | Model of utils.py lines 301-336: row_linear_dependencies |
| DepProps.v | Properties of row_linear_dependencies (C93) |
| QuadSharpSpec.v | What the quadratic checks compare |
| QuadSharp.v | The quadratic checks answer exactly: they accept whenever the part of degree at most two clears |
| SubcheckSharp.v | The sub-interval checks answer exactly too |
| SharpProps.v | Property theorems C94 and C95: the checks are exact |
| FloatSpec.v | Specification for C96: sums of binary64 numbers in any order |
| FloatCheck.v | Rounding errors of the constant-term check |
| FloatProps.v | Property theorems C96: the constant-term check in binary64 arithmetic |
| UtilModel.v | Model of small helpers of yroots/utils.py: clean_zeros_from_matrix, divides, quotient, sorted_polys_monomial, |
| UtilProps.v | Property theorems C97-C101: helpers of utils.py |
| SvdProofs.v | Singular value decompositions exist |
| ExtProps.v | The contracts of the external routines can be met in every dimension |
| MacaulayModel.v | Model of the Macaulay-matrix solver: yroots/MacaulayReduce.py lines 18-204 and yroots/Multiplication.py lines 99-254, 424-486, 532-624 |
| MacaulaySpec.v | What the Macaulay-matrix solver is for: polynomials of several complex variables, joint eigenvalues |
| MacaulayProofs.v | Lemmas about the rows of the Macaulay matrix |
| MacaulayBuild.v | The Macaulay matrix: its columns and rows |
| MacaulayRed.v | Reduction of the Macaulay matrix: what the factorizations do to a null vector |
| MacaulayEig.v | From a null vector of the Macaulay matrix to a joint eigenvector of the Moller-Stetter matrices |
| MacaulayCount.v | Sizes: the Macaulay matrix of a square system has at least as many rows as the monomials outside the Bezout box |
| MacaulayEnd.v | From common zeros to joint eigenvectors, and the absence of exceptions |
| MacaulayExists.v | The factorisations the Macaulay solver relies on exist for every matrix: QR, QR with pivots, right singular vectors |
| MacaulayProps.v | Properties of the Macaulay-matrix solver: C102 and C103 |
| MsModel.v | Model of Multiplication.py lines 256-342 (sort_eigs, get_Q_c, msroots) and of multiplication (15-97) as a whole |
| MsSpec.v | What the eigenvalue routines return. Independent of the model |
| MsProofs.v | Joint eigenvalues: greedy matching, simultaneous triangular form, msroots |
| MsRoots.v | msroots returns the joint eigenvalues |
| MsExists.v | Eigenvalues and Schur forms exist: the contracts of MsSpec can be met in every dimension |
| MsProps.v | Properties of msroots and multiplication: C104 |
| TrimcModel.v | Model of yroots/subdivision.py lines 833-971: trim_coeffs and the monomials of one degree |
| TrimcProofs.v | Trimming coefficient arrays: which monomials, which entries, which error |
| TrimcProps.v | Property theorems C105: trim_coeffs of subdivision.py |
| SubApproxModel.v | Model of yroots/subdivision.py, lines 210-519: Chebyshev approximation with a shared work array |
| SubApproxProofs.v | Proofs about the shared work array of subdivision.py |
| SubApproxProps.v | Property theorems C106: the shared work array of subdivision.py |
| SubApproxMore.v | Property theorems C107: Chebyshev approximation in subdivision.py |
| SubOneModel.v | Model of the one-variable solver of yroots/subdivision.py (lines 116-210 and 973-1086) |
| SubOneSpec.v | Words for the one-variable solver of subdivision.py. Independent of the model |
| SubOneProofs.v | Proofs about the one-variable solver of subdivision.py |
| SubOneProps.v | Property theorems C108: the one-variable solver of subdivision.py |
| SubNdModel.v | Model of the solver in several variables of yroots/subdivision.py (lines 116-210, 522-660 and 662-831) |
| SubNdSpec.v | Words for the solver in several variables of subdivision.py. Independent of its control flow |
| SubNdProofs.v | Proofs about the solver in several variables of subdivision.py |
| SubNdLinear.v | Linear systems in the solver in several variables of subdivision.py |
| SubNdProps.v | Property theorems C109 and C110: the solver in several variables of subdivision.py |
| SubNdSolvedSpec.v | What it means that the solver in several variables of subdivision.py has solved a box. Independent of its control flow |
| SubNdSolved.v | What a solved box means in the solver in several variables of subdivision.py |
| SubNdSolvedProps.v | Property theorem C111: what a solved box means in the solver in several variables of subdivision.py |
| PolyrootsModel.v | Model of yroots/polyroots.py: eigensolve. The module imports is_power from polynomial.py, which does not define it at this commit, so it is |
| PolyrootsSpec.v | What eigensolve of polyroots.py is for, in one variable. Independent of the model's control flow |
| PolyrootsProps.v | Property theorem C112: eigensolve of polyroots.py |
| PolyrootsNdProps.v | Property theorem C112: eigensolve of polyroots.py, several variables |
| ApproxExactSpec.v | Polynomials of low degree in every variable: vocabulary for property C113 |
| ApproxExact.v | The approximator on polynomials of low degree (over R) |
| ApproxExactProps.v | Property theorems C113: the approximator and the whole solver on polynomials of low degree |
| AffineProofs.v | One affine function of one variable: the run of the subdivision solver (over the reals) |
| AffineProps.v | Property theorems C114: one affine function of one variable is solved completely |
| AffineSolveProps.v | Property theorems C115: solve, with its own approximator, on every function that is affine on the interval |
| ScaleTransform.v | Multiplying a coefficient array by a constant: the transforms are linear |
| ScaleProofs.v | Multiplying the polynomials and their errors by powers of two does not change what the subdivision solver does |
| ScaleSolve.v | Powers of two: the zoom loop, the subdivision and the recursion |
| ScaleProps.v | Property C116: the units of the equations do not matter |
| NoRootProps.v | Property theorems C117: an equation that visibly has no zero ends the search at once |
| SymMatrix.v | The singular value decomposition of a matrix with its rows permuted and negated |
| SymProofs.v | Reordering the equations and changing their signs: the parts of the subdivision solver |
| SymSolve.v | Reordering the equations and changing their signs: the zoom loop, the subdivision and the recursion |
| SymProps.v | Property C118: neither the order nor the signs of the equations matter |
| SymTopProps.v | Property C118, continued: the order of the functions given to solve() does not matter |
| PerturbModel.v | Model of the reflection arrays of the Chebyshev Macaulay matrix, yroots/utils.py: cheb_perturbation3 (lines 1043-1077), |
| PerturbProps.v | Property C119: the reflection arrays give the reflected half of a Chebyshev product |
| PermChebModel.v | Model of all_permutations_cheb, yroots/utils.py lines 1148-1212 |
| PermChebProps.v | Property C120: the arrays of all_permutations_cheb multiply a row by a Chebyshev polynomial of one variable |

## 6. Tests of the theorems against wrong programs

`seeded/LOG.jsonl` has one line per seeded bug: the definition edited, the edit, the claim it breaks, the theorems
that stopped proving, and any theorem tightened because it still proved.
