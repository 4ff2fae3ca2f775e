{"id": "C01", "title": "Subdivision solver never loses a root", "statement": "Let Ms be n Chebyshev coefficient tensors of dimension n and errors be bounds on |f_i(x)-Ms_i(x)| over [-1,1]^n (strict bounds if a quadratic check may run, see C08). If solveChebyshevSubdivision(Ms, errors, returnBoundingBoxes=True) returns, then every common zero of f_1..f_n in [-1,1]^n lies in (the final interval of) at least one returned bounding box. Computation over the reals; axis sizes at most 10^15 with exact=True and at most 7 with exact=False (for large sizes the charged transformation error is not an upper bound, see C12 and C13).", "quantifier": "all dimensions n, all coefficient tensors with axis sizes within the stated limits, all true functions f within the error bounds, all roots, all option flags (exact/constant_check/quadratic checks), all recursion depths, every behaviour of the SVD, rank, linear solver, argsort and set-iteration routines that meets its contract", "why_tests_cant": "The recursion tree depends on the input; a lost root only shows on inputs where a check or a transformed polynomial is wrong by a small margin.", "anchors": ["yroots/ChebyshevSubdivisionSolver.py:solveChebyshevSubdivision", "yroots/ChebyshevSubdivisionSolver.py:solvePolyRecursive", "yroots/ChebyshevSubdivisionSolver.py:zoomInOnIntervalIter", "yroots/ChebyshevSubdivisionSolver.py:getSubdivisionIntervals"]}
{"id": "C02", "title": "solve() never loses a root when it returns", "statement": "If solve(funcs,a,b,returnBoundingBoxes=True) returns without raising, and every approximation it used is within its reported error on the box it was made for, every common root of funcs in the box [a,b] lies in one of the returned bounding boxes.", "quantifier": "all functions, all boxes a<=b, all minBoundingIntervalSize, all re-solve / re-split recursion depths", "why_tests_cant": "The outer re-solve recursion and the 2^n split only trigger on particular box sizes; coverage of every point cannot be sampled.", "anchors": ["yroots/Combined_Solver.py:solve"]}
{"id": "C03", "title": "Reported roots lie in their own reported boxes", "statement": "Over the reals, every point reported by solveChebyshevSubdivision for a bounding interval (its final point, or each of its possible duplicate roots) lies inside that interval's final interval, and the final interval lies inside [-1,1]^n with lower bound <= upper bound in each dimension.", "quantifier": "all inputs for which the solver returns, all returned intervals", "why_tests_cant": "Needs an invariant over arbitrarily long transform histories, including clamped empty intervals of the final step.", "anchors": ["yroots/ChebyshevSubdivisionSolver.py:TrackedInterval.getFinalInterval", "yroots/ChebyshevSubdivisionSolver.py:TrackedInterval.getFinalPoint", "yroots/ChebyshevSubdivisionSolver.py:solveChebyshevSubdivision"]}
{"id": "C04", "title": "Constant-term check only discards root-free boxes", "statement": "If the constant-term test discards a box then the approximated function has no zero in that box, for any true function within the stated error.", "quantifier": "all coefficient tensors of every dimension, all errors, all functions within the error, all points of the box", "why_tests_cant": "Universal over a continuum of points and functions.", "anchors": ["yroots/ChebyshevSubdivisionSolver.py:solvePolyRecursive"]}
{"id": "C05", "title": "2-D quadratic check only discards root-free boxes", "statement": "If quadratic_check on a 2-D tensor returns True with tolerance tol, then no function g with |g(x)-p(x)| < tol on [-1,1]^2 has a zero there.", "quantifier": "all 2-D tensors of all shapes, all tol, all functions, all points", "why_tests_cant": "Soundness is an optimisation statement over a continuum; tests only sample points.", "anchors": ["yroots/QuadraticCheck.py:quadratic_check_2D"]}
{"id": "C06", "title": "3-D quadratic check only discards root-free boxes", "statement": "Same statement for 3-D tensors: interior, face, edge and vertex candidates examined by quadratic_check_3D are enough.", "quantifier": "all 3-D tensors of all shapes, all tol, all functions, all points", "why_tests_cant": "Six cofactor formulas and degenerate (singular) cases interact; tests sample a null set.", "anchors": ["yroots/QuadraticCheck.py:quadratic_check_3D"]}
{"id": "C07", "title": "n-D quadratic check only discards root-free boxes", "statement": "Same statement for the generic n-dimensional version, for every dimension n >= 1, whatever the linear solver returns on non-singular systems as long as it solves them.", "quantifier": "all dimensions, tensors, tolerances, functions, points", "why_tests_cant": "Unbounded dimension.", "anchors": ["yroots/QuadraticCheck.py:quadratic_check_nd", "yroots/QuadraticCheck.py:get_fixed_vars"]}
{"id": "C08", "title": "Quadratic check is not safe when the error bound is attained (tol not strict)", "statement": "The claim 'quadratic_check may be called with any valid bound |g-p| <= tol' is false: with tol=0 there is a polynomial having a root in the box which the check reports as root-free, and the whole subdivision solver then returns no root for it.", "quantifier": "existence of a counterexample input", "why_tests_cant": "A random test never hits equality of the extreme value and the sum of the other coefficients.", "anchors": ["yroots/QuadraticCheck.py:quadratic_check_2D", "yroots/ChebyshevSubdivisionSolver.py:solvePolyRecursive"]}
{"id": "C09", "title": "Linear-system box reduction keeps every root", "statement": "Whenever BoundingIntervalLinearSystem reports changed=True, every root in [-1,1]^n of functions within the given errors lies in the returned interval; when it reports throwOut there is none. Holds for well- and ill-conditioned linear parts.", "quantifier": "all systems, errors, SVD outputs meeting the SVD contract", "why_tests_cant": "Row/column power-of-two scaling, two different reductions and clipping are composed; the statement is over all systems.", "anchors": ["yroots/ChebyshevSubdivisionSolver.py:BoundingIntervalLinearSystem", "yroots/ChebyshevSubdivisionSolver.py:linearCheck1", "yroots/ChebyshevSubdivisionSolver.py:getLinearTerms"]}
{"id": "C10", "title": "Linear-system box reduction returns a sub-box of [-1,1]^n", "statement": "When the interval reduction reports a changed, not thrown-out interval, its bounds satisfy -1 <= lower <= upper <= 1 in every dimension.", "quantifier": "all inputs", "why_tests_cant": "Holds only because of the clipping order for all values, infinities included.", "anchors": ["yroots/ChebyshevSubdivisionSolver.py:BoundingIntervalLinearSystem"]}
{"id": "C11", "title": "Chebyshev change of variables is exact composition", "statement": "Over the reals the 1-D transform applied to coefficients c with scale alpha and shift beta returns coefficients of x -> p(alpha*x+beta) exactly when no trailing entry is dropped, and never reads or writes outside its arrays.", "quantifier": "all degrees, all coefficient vectors, all alpha, beta", "why_tests_cant": "Unbounded degree, three rotating work arrays with stale contents.", "anchors": ["yroots/ChebyshevSubdivisionSolver.py:TransformChebInPlace1D", "yroots/ChebyshevSubdivisionSolver.py:TransformChebInPlace1DErrorFree", "yroots/ChebyshevSubdivisionSolver.py:TransformChebInPlace1DErrorFreeSplit"]}
{"id": "C12", "title": "Dropped trailing entries stay within an explicit bound", "statement": "Over the reals, for -1<=alpha*x+beta<=1 the transform's result differs from p(alpha*x+beta) by at most tau*(N-1)(N-2)/2 * sum|c| (tau=1e-16; N the axis size); so it is within the charged error N*2^-52*sum|c| for all N <= 7, and always when exact=True for N < 10^15.", "quantifier": "all coefficient vectors, alpha, beta, x, N", "why_tests_cant": "Bound is over a continuum and unbounded degree.", "anchors": ["yroots/ChebyshevSubdivisionSolver.py:TransformChebInPlace1D", "yroots/ChebyshevSubdivisionSolver.py:getTransformationError"]}
{"id": "C13", "title": "Charged transformation error is not an upper bound in general", "statement": "getTransformationError claims to be 'an upper bound on the error of transforming'. Even in exact real arithmetic this is false: there are a degree, an interval and a polynomial for which the value after the transform differs from the true value by more than the charged error.", "quantifier": "existence of a counterexample", "why_tests_cant": "Needs a high degree and a tiny interval near the boundary.", "anchors": ["yroots/ChebyshevSubdivisionSolver.py:getTransformationError", "yroots/ChebyshevSubdivisionSolver.py:TransformChebInPlace1D"]}
{"id": "C14", "title": "n-D transform acts on one axis only", "statement": "TransformChebInPlaceND along axis d composes the polynomial with alpha*x_d+beta in coordinate d and leaves other coordinates and the sizes of the other axes unchanged; the axis size never grows; identity and constant axes are returned unchanged.", "quantifier": "all shapes, dimensions, axes, alpha, beta", "why_tests_cant": "Transpose / inverse transpose bookkeeping for arbitrary dimension.", "anchors": ["yroots/ChebyshevSubdivisionSolver.py:TransformChebInPlaceND", "yroots/ChebyshevSubdivisionSolver.py:transformCheb", "yroots/ChebyshevSubdivisionSolver.py:transformChebToInterval"]}
{"id": "C15", "title": "Subdivision leaves no gap, in any arithmetic", "statement": "The boxes produced by one subdivision step have, in each split dimension, bitwise equal shared endpoints and the outer endpoints of the parent exactly, so that a point of the parent box is always in a child - whatever rounding the arithmetic performs, provided the shared midpoint is computed between the endpoints.", "quantifier": "all parents, all split dimension sets, every arithmetic (not only exact reals)", "why_tests_cant": "Depends on evaluating the same floating expression for both neighbours; a gap of one ulp is invisible to tests.", "anchors": ["yroots/ChebyshevSubdivisionSolver.py:getSubdivisionIntervals", "yroots/ChebyshevSubdivisionSolver.py:TrackedInterval.addTransform"]}
{"id": "C16", "title": "Sub-polynomials are paired with their own sub-box", "statement": "After subdivision the j-th list of polynomials is the system restricted to the j-th returned interval, although every polynomial is subdivided in its own dimension order and then reordered.", "quantifier": "all dimensions, all per-polynomial orders that are permutations of the same set of dimensions", "why_tests_cant": "The reordering permutation is over 2^k lists for every k and every order.", "anchors": ["yroots/ChebyshevSubdivisionSolver.py:getSubdivisionIntervals", "yroots/ChebyshevSubdivisionSolver.py:getInverseOrder", "yroots/ChebyshevSubdivisionSolver.py:getSubdivisionDims"]}
{"id": "C17", "title": "Subdivision dimensions are consistent", "statement": "getSubdivisionDims returns, for every polynomial, a duplicate-free ordering of one common set of valid dimensions which is non-empty whenever the box has positive width in a retained dimension, so the 'Subdivision Dimensions are invalid' error can never be raised from the solver.", "quantifier": "all shapes, boxes and levels", "why_tests_cant": "Unbounded dimension and data dependent filtering.", "anchors": ["yroots/ChebyshevSubdivisionSolver.py:getSubdivisionDims", "yroots/ChebyshevSubdivisionSolver.py:getSubdivisionIntervals"]}
{"id": "C18", "title": "Trimming accounts for its error", "statement": "After trimMs each polynomial differs from the one before by at most the amount its error entry grew, the growth is strictly less than relApproxTol*error+absApproxTol unless nothing was trimmed, no axis shrinks below 3, and sizes never grow.", "quantifier": "all tensors, errors, tolerances", "why_tests_cant": "Nested data dependent loops over all axes.", "anchors": ["yroots/ChebyshevSubdivisionSolver.py:trimMs"]}
{"id": "C19", "title": "Tracked interval equals composed transforms", "statement": "Starting from [-1,1]^n, after any sequence of addTransform calls with subintervals of [-1,1]^n, the stored interval and the interval recomputed from the recorded transforms (getFinalInterval) agree over the reals and both are nested in every earlier interval.", "quantifier": "all call histories, all dimensions", "why_tests_cant": "Unbounded histories.", "anchors": ["yroots/ChebyshevSubdivisionSolver.py:TrackedInterval.addTransform", "yroots/ChebyshevSubdivisionSolver.py:TrackedInterval.getFinalInterval"]}
{"id": "C20", "title": "Copies of tracked intervals are independent", "statement": "Mutating a copy (addTransform, startFinalStep) never changes the original's interval, transforms or the shared top interval, for every history of copies and mutations; so the reported final interval is always relative to the unchanged top box.", "quantifier": "all interleavings of copy / addTransform / startFinalStep on a heap of aliased arrays", "why_tests_cant": "Aliasing bugs show only for particular histories.", "anchors": ["yroots/ChebyshevSubdivisionSolver.py:TrackedInterval.copy", "yroots/ChebyshevSubdivisionSolver.py:TrackedInterval.__init__", "yroots/ChebyshevSubdivisionSolver.py:TrackedInterval.addTransform"]}
{"id": "C21", "title": "A directly constructed tracked interval corrupts its top interval", "statement": "The claim 'topInterval is the original interval before any changes' is false for a TrackedInterval on which addTransform is called without an intermediate copy: topInterval and interval are the same array, so topInterval changes and getFinalInterval applies the transforms to the already shrunken box.", "quantifier": "existence of a history", "why_tests_cant": "Only visible when the object is used without copy, which the solver avoids.", "anchors": ["yroots/ChebyshevSubdivisionSolver.py:TrackedInterval.__init__", "yroots/ChebyshevSubdivisionSolver.py:TrackedInterval.addTransform", "yroots/ChebyshevSubdivisionSolver.py:TrackedInterval.getFinalInterval"]}
{"id": "C22", "title": "TwoSum is error-free", "statement": "In binary64 round-to-nearest-even without overflow, TwoSum(a,b) returns x,y with x the rounded sum and x+y=a+b exactly.", "quantifier": "all pairs of doubles (no overflow)", "why_tests_cant": "2^128 pairs.", "anchors": ["yroots/ChebyshevSubdivisionSolver.py:TwoSum", "yroots/ChebyshevSubdivisionSolver.py:TwoSum_NoNumba"]}
{"id": "C23", "title": "Split and TwoProd are error-free", "statement": "In binary64 round-to-nearest-even without overflow (and with the product above the underflow threshold), Split(a) returns x+y=a and TwoProd(a,b)/TwoProdWithSplit return x,y with x the rounded product and x+y=a*b exactly.", "quantifier": "all pairs of doubles in range", "why_tests_cant": "2^128 pairs.", "anchors": ["yroots/ChebyshevSubdivisionSolver.py:Split", "yroots/ChebyshevSubdivisionSolver.py:TwoProd", "yroots/ChebyshevSubdivisionSolver.py:TwoProdWithSplit"]}
{"id": "C24", "title": "Combining touching boxes loses nothing and terminates", "statement": "The loop that merges touching exterior intervals always terminates, and every interval present before is contained in an interval present after; merged intervals stay inside the parent box; intervals that were left alone are pairwise disjoint (touching ones are merged).", "quantifier": "all lists of intervals, all dimensions", "why_tests_cant": "Index manipulation with deletion and append while iterating.", "anchors": ["yroots/ChebyshevSubdivisionSolver.py:solvePolyRecursive", "yroots/ChebyshevSubdivisionSolver.py:TrackedInterval.overlapsWith"]}
{"id": "C25", "title": "Combining does not guarantee disjoint boxes", "statement": "The assumption written in the code ('We can assume that nothing in these has to be recombined') is false: there are three boxes for which the merge loop ends with two boxes that still overlap.", "quantifier": "existence of a counterexample", "why_tests_cant": "Needs a particular order and geometry of three boxes.", "anchors": ["yroots/ChebyshevSubdivisionSolver.py:solvePolyRecursive"]}
{"id": "C26", "title": "Final step never discards a box", "statement": "Once a box has entered the final step and passed the entry checks, it is reported: exactly one interval with the same pre-final box is returned, whatever the zero-error zooming and subdividing find; if nothing was found below it, it is flagged possibleExtraRoot.", "quantifier": "all systems, all final-step recursion depths", "why_tests_cant": "Depends on every path through the recursion.", "anchors": ["yroots/ChebyshevSubdivisionSolver.py:solvePolyRecursive", "yroots/ChebyshevSubdivisionSolver.py:TrackedInterval.canThrowOut", "yroots/ChebyshevSubdivisionSolver.py:zoomInOnIntervalIter"]}
{"id": "C27", "title": "Roots and boxes are not in one-to-one correspondence", "statement": "The claim that solveChebyshevSubdivision/solve return exactly one root per bounding box is false when a box has two or more possible duplicate roots; it does hold (same length, same order) when no returned interval has possible duplicate roots, and there are never more boxes than roots.", "quantifier": "all results / existence of a counterexample", "why_tests_cant": "Occurs only after subdivision inside the final step.", "anchors": ["yroots/ChebyshevSubdivisionSolver.py:solveChebyshevSubdivision", "yroots/Combined_Solver.py:solve"]}
{"id": "C28", "title": "Extra/duplicate root warnings are exact", "statement": "solveChebyshevSubdivision warns about extra (duplicate) roots if and only if some returned interval is flagged as possibly extra (has possible duplicates).", "quantifier": "all results", "why_tests_cant": "Must hold for all recursion outcomes.", "anchors": ["yroots/ChebyshevSubdivisionSolver.py:solveChebyshevSubdivision"]}
{"id": "C29", "title": "solve rejects invalid arguments and only those", "statement": "solve raises ValueError exactly when a function is not callable, the bound lists differ in length, or some lower bound exceeds the upper bound (and the approximator/solver report no error); scalars are broadcast to all dimensions.", "quantifier": "all argument combinations", "why_tests_cant": "Universal over argument space.", "anchors": ["yroots/Combined_Solver.py:solve", "yroots/ChebyshevApproximator.py:chebApproximate"]}
{"id": "C30", "title": "Splitting a full-size box can leave the search box", "statement": "The claim that the fallback split only searches inside [a,b] is false: the split point (a+b)*0.5123... lies outside [a,b] for e.g. [100,101], so the recursive call raises ValueError; it lies inside exactly under an explicit condition on a and b.", "quantifier": "all a<=b; existence of counterexample", "why_tests_cant": "Only for boxes far from the origin and when the first solve returns the whole box.", "anchors": ["yroots/Combined_Solver.py:solve"]}
{"id": "C31", "title": "Nearly-unit boxes are solved on the wrong box", "statement": "For MultiPower/MultiCheb inputs and bounds merely close to [-1,1] (np.allclose) the coefficients are used unrescaled but results are rescaled to [a,b]: roots are then reported at the wrong place and roots outside [-1,1] are missed, although the same function passed as a plain callable is handled correctly.", "quantifier": "existence of a counterexample; and exactness for the exact unit box", "why_tests_cant": "Needs bounds within 1e-5 of +-1 but not equal.", "anchors": ["yroots/Combined_Solver.py:solve"]}
{"id": "C32", "title": "Affine map onto the search interval", "statement": "transform(x,a,b) maps -1 to a, 1 to b, is monotone and onto [a,b] over the reals, and its inverse is unique when a<b; in every monotone rounding it is still monotone. In binary64 the endpoint property is false: transform(-1,a,b) can differ from a.", "quantifier": "all a<=b and all x; existence of a double counterexample", "why_tests_cant": "Continuum / ulp-level behaviour.", "anchors": ["yroots/ChebyshevApproximator.py:transform"]}
{"id": "C33", "title": "Chebyshev interpolation matches the function at the grid", "statement": "interval_approximate_nd returns the coefficients of the tensor-product polynomial that equals f at every Chebyshev grid point of the box (degrees >= 1), and reproduces every polynomial of at most those degrees.", "quantifier": "all functions, degrees, dimensions, boxes", "why_tests_cant": "DCT identity for every degree and dimension.", "anchors": ["yroots/ChebyshevApproximator.py:interval_approximate_nd"]}
{"id": "C34", "title": "interval_approximate_nd changes its degs argument", "statement": "The claim that interval_approximate_nd does not modify its arguments is false: degree-0 entries of degs are overwritten by 1 in place, which chebApproximate then feeds to the error estimate.", "quantifier": "all degs with a zero entry", "why_tests_cant": "Side effect on an argument.", "anchors": ["yroots/ChebyshevApproximator.py:interval_approximate_nd", "yroots/ChebyshevApproximator.py:chebApproximate"]}
{"id": "C35", "title": "Approximation error estimate: closed form and sign", "statement": "getApproxError equals the sum over nonempty subsets of dimensions as documented, is non-negative and monotone in the epsilons when all rates exceed 1, and bounds the neglected coefficients of any series that decays geometrically at the stated rate.", "quantifier": "all dims, degrees, rates > 1", "why_tests_cant": "Universal over dimension.", "anchors": ["yroots/ChebyshevApproximator.py:getApproxError"]}
{"id": "C36", "title": "Approximation error estimate can be negative", "statement": "The claim that getApproxError returns an upper bound of an error (hence non-negative) is false for the values getFinalDegree produces: when every coefficient is below twice machine epsilon the rate is below 1 and the reported error is negative.", "quantifier": "existence of a counterexample", "why_tests_cant": "Needs functions with tiny coefficients.", "anchors": ["yroots/ChebyshevApproximator.py:getApproxError", "yroots/ChebyshevApproximator.py:getFinalDegree"]}
{"id": "C37", "title": "Degree selection keeps every significant coefficient", "statement": "getFinalDegree returns a degree such that every coefficient beyond it is at most epsVal (or below tol when the degree is 0), the coefficient at a degree >= 2 exceeds epsVal, and the degree is below the length of the series.", "quantifier": "all coefficient sequences", "why_tests_cant": "Universal.", "anchors": ["yroots/ChebyshevApproximator.py:getFinalDegree"]}
{"id": "C38", "title": "Convergence tests mean what they say", "statement": "startedConverging is true iff the last five coefficients (or all if fewer) are below tol; hasConverged is true iff every coefficient of the second series differs from the zero-padded first by less than tol.", "quantifier": "all arrays", "why_tests_cant": "Universal.", "anchors": ["yroots/ChebyshevApproximator.py:startedConverging", "yroots/ChebyshevApproximator.py:hasConverged"]}
{"id": "C39", "title": "Constant-dimension test is one-sided", "statement": "A function that does not depend on a coordinate and is nonzero at the two probe points is always reported constant in it; the converse is false: there is a function depending on the coordinate which is reported constant.", "quantifier": "all functions / existence", "why_tests_cant": "A sampled test cannot decide it.", "anchors": ["yroots/ChebyshevApproximator.py:checkConstantInDimension"]}
{"id": "C40", "title": "Polynomial objects evaluate to their mathematical value", "statement": "Calling a MultiCheb (MultiPower) at a point returns sum c_I prod T_{I_j}(x_j) (sum c_I prod x_j^{I_j}) over the reals; a point of wrong length raises ValueError.", "quantifier": "all shapes, dims, points", "why_tests_cant": "Universal over shapes.", "anchors": ["yroots/polynomial.py:MultiCheb.__call__", "yroots/polynomial.py:MultiPower.__call__", "yroots/polynomial.py:chebval", "yroots/polynomial.py:polyval"]}
{"id": "C41", "title": "Polynomial arithmetic is homomorphic", "statement": "Evaluation commutes with + and - of MultiCheb and MultiPower and with * of MultiPower, for operands of different shapes too.", "quantifier": "all operand shapes and points", "why_tests_cant": "Padding and convolution index arithmetic in every dimension.", "anchors": ["yroots/polynomial.py:MultiCheb.__add__", "yroots/polynomial.py:MultiPower.__add__", "yroots/polynomial.py:MultiPower.__sub__", "yroots/polynomial.py:MultiPower.__mul__", "yroots/polynomial.py:match_size"]}
{"id": "C42", "title": "Cleaning zeros preserves the polynomial", "statement": "clean_coeff terminates, never changes any value of the polynomial, never empties an axis, and afterwards every axis of size >1 has a non-zero last slice.", "quantifier": "all tensors", "why_tests_cant": "Nested loops.", "anchors": ["yroots/polynomial.py:Polynomial.clean_coeff"]}
{"id": "C43", "title": "Power to Chebyshev conversion is exact", "statement": "Over the reals MultiPower.to_cheb returns a tensor of the same shape whose Chebyshev evaluation equals the power evaluation everywhere.", "quantifier": "all shapes, dims", "why_tests_cant": "Recurrence with strided slices for every degree.", "anchors": ["yroots/polynomial.py:MultiPower.to_cheb"]}
{"id": "C44", "title": "Polynomial equality is not an equivalence", "statement": "== on polynomials is reflexive but neither symmetric nor transitive (np.allclose), and equal functions may compare unequal.", "quantifier": "existence of counterexamples; reflexivity for all", "why_tests_cant": "Tolerance edge cases.", "anchors": ["yroots/polynomial.py:Polynomial.__eq__"]}
{"id": "C45", "title": "Gradient is the derivative", "statement": "MultiCheb.grad and MultiPower.grad return the partial derivatives of the evaluated polynomial.", "quantifier": "all shapes, dims, points", "why_tests_cant": "Universal.", "anchors": ["yroots/polynomial.py:MultiCheb.grad", "yroots/polynomial.py:MultiPower.grad"]}
{"id": "C46", "title": "Subinterval enumeration for faces is complete", "statement": "get_fixed_vars lists every non-empty proper subset of the variables exactly once, larger subsets first.", "quantifier": "all dims", "why_tests_cant": "Unbounded dimension.", "anchors": ["yroots/QuadraticCheck.py:get_fixed_vars"]}
{"id": "C47", "title": "Linear terms are the linear coefficients", "statement": "getLinearTerms(M)[k] is the coefficient of T_1(x_k), or 0 if M is constant in x_k, for every shape.", "quantifier": "all shapes", "why_tests_cant": "Row-major stride arithmetic in every dimension.", "anchors": ["yroots/ChebyshevSubdivisionSolver.py:getLinearTerms"]}
{"id": "C48", "title": "Root tracker bookkeeping stays balanced", "statement": "For every history of add_roots / add_root / add_potential_roots / keep_possible_duplicates calls on a RootTracker, the number of stored intervals equals the number of stored methods and equals the number of roots plus potential roots; every root handed in is stored, or kept as a possible duplicate, or lies strictly inside a box named in one of the calls, so after keep_possible_duplicates a root on a common face of boxes is never missing. Without potential roots the i-th interval and method are the ones handed in with the i-th root. Potential roots are always kept. get_polish_intervals returns each stored interval once, sorted. After get_polish_intervals the balance is false, because potential roots are kept while their intervals are deleted; and a root on a common face is stored once per side.", "quantifier": "all operation histories", "why_tests_cant": "It ranges over all histories of calls, with arbitrary boxes and roots.", "anchors": ["yroots/RootTracker.py:RootTracker"]}
{"id": "C49", "title": "Monomial order is a strict total order", "statement": "For monomials in the same number of variables, comparing Terms with < is the graded reverse lexicographic order: a strict total order, unchanged by multiplying both sides by a monomial, with ==, >, >=, <= saying the same thing, 1 the smallest monomial and no infinite descending chain; the other two values of the order parameter give lexicographic and graded lexicographic order. Terms in different numbers of variables are not ordered.", "quantifier": "all terms of every dimension", "why_tests_cant": "It ranges over all monomials in any number of variables.", "anchors": ["yroots/utils.py:Term"]}
{"id": "C50", "title": "Monomial enumeration is complete and duplicate free", "statement": "mon_combos([0]*n, d) (mon_combosHighest) lists exactly the exponent vectors of n variables of total degree at most (exactly) d, each once and in lexicographic order, and num_mons_full (num_mons) is their number. The list passed in is left unchanged for n >= 2 and overwritten for n = 1.", "quantifier": "all dims and degrees", "why_tests_cant": "Dimensions and degrees are unbounded, and the recursion changes a shared list in place.", "anchors": ["yroots/utils.py:mon_combos", "yroots/utils.py:mon_combosHighest", "yroots/utils.py:num_mons"]}
{"id": "C51", "title": "Memoisation is transparent", "statement": "A memoised function returns what the function returns, or raises what it raises, in every history of calls, for a function that does not tell equal keys apart; once it has returned for a key the function is not called for that key again and the same value is returned ever after, also for functions that draw random numbers. The two memoisers behave alike. It is false for functions that tell 1 from 1.0 or True, and results that are mutable objects are shared between callers.", "quantifier": "all call histories", "why_tests_cant": "It ranges over all functions and all histories of calls.", "anchors": ["yroots/utils.py:memoize", "yroots/utils.py:Memoize"]}
{"id": "C52", "title": "Condition number never widens the reduced interval", "statement": "The claim 'widthToAdd grows with the condition number' is false: the ratio used is smallest/largest singular value, at most 1, so the added width is always exactly 2*2^-52.", "quantifier": "all linear parts", "why_tests_cant": "Never visible in results of a well-conditioned test.", "anchors": ["yroots/ChebyshevSubdivisionSolver.py:BoundingIntervalLinearSystem"]}
{"id": "C53", "title": "Interval returned without change still contains every root", "statement": "Although for an ill-conditioned linear part the two passes of BoundingIntervalLinearSystem share and overwrite one array, the interval returned together with changed=False still contains every root of functions within the given errors, except when all linear coefficients are zero: then every bound is NaN and the call reports neither a change nor a throw-out.", "quantifier": "all systems, errors, functions within the errors, SVD outputs meeting the SVD contract", "why_tests_cant": "Depends on aliasing of two arrays and on a volume threshold, for all inputs; the solver ignores the interval in that case.", "anchors": ["yroots/ChebyshevSubdivisionSolver.py:BoundingIntervalLinearSystem"]}
{"id": "C54", "title": "Final interval is only meaningful for the top box [-1,1]^n", "statement": "The claim 'getFinalInterval returns the current interval for any top interval the object was created with' is false: for the top interval [0,2] and one addTransform([-1,0]) the stored interval is [0,1] but getFinalInterval returns [-1/2,1/2].", "quantifier": "existence of a counterexample (contrast with C19, which holds for every history from [-1,1]^n)", "why_tests_cant": "All callers in the package start from [-1,1]^n, so tests never construct another top interval", "anchors": ["yroots/ChebyshevSubdivisionSolver.py:TrackedInterval.getFinalInterval", "yroots/ChebyshevSubdivisionSolver.py:TrackedInterval.addTransform"]}
{"id": "C55", "title": "The n-dimensional quadratic check is not safe with a thresholded rank test", "statement": "The claim 'quadratic_check in four or more dimensions returns True only if there is no root, provided the tolerance is a strict bound' is false when the rank test treats eigenvalues below max|eigenvalue|*size*2^-52 as zero, as numpy.linalg.matrix_rank does: there is a 4-variable polynomial with a root at the origin and a positive tolerance for which the check returns True. With an exact rank test the same call returns False.", "quantifier": "existence of a counterexample input", "why_tests_cant": "The discarded critical point only matters if two curvatures differ by a factor of 2^51, which no random test produces.", "anchors": ["yroots/QuadraticCheck.py:quadratic_check_nd"]}
{"id": "C56", "title": "Sub-boxes and sub-polynomials are mismatched in nine dimensions", "statement": "getSubdivisionIntervals splits the boxes in the iteration order of a Python set of axis numbers and the polynomials in increasing axis order. In up to eight dimensions the two orders agree. The claim that the j-th polynomials always belong to the j-th box is false in nine dimensions: splitting axes 1 and 8, CPython's set iterates 8 before 1, and a child gets the polynomials of another child's box.", "quantifier": "all sets of axis numbers below 8 (positive part); existence of a 9-dimensional counterexample", "why_tests_cant": "Depends on the hash-table layout of the interpreter's set and on which axes are split; tests run in low dimensions.", "anchors": ["yroots/ChebyshevSubdivisionSolver.py:getSubdivisionIntervals"]}
{"id": "C57", "title": "Subdividing a box that has collapsed to a point raises", "statement": "In two or more dimensions and at depth at most 5, getSubdivisionIntervals on a box of zero width in every dimension always raises (IndexError) instead of returning the box; the solver reaches this state for roots just outside a corner when constant_check is off.", "quantifier": "all systems, all zero-width boxes, all depths at most 5", "why_tests_cant": "Needs a zoom that ends exactly at a corner.", "anchors": ["yroots/ChebyshevSubdivisionSolver.py:getSubdivisionIntervals", "yroots/ChebyshevSubdivisionSolver.py:getSubdivisionDims", "yroots/ChebyshevSubdivisionSolver.py:getInverseOrder"]}
{"id": "C58", "title": "evaluate_grid gives the values on the grid", "statement": "Calling evaluate_grid of a MultiCheb or MultiPower in n variables with a matrix of m points with n columns returns an array of shape (m,...,m) whose entry (i_1,...,i_n) is the value of the polynomial at the point whose j-th coordinate is entry i_j of column j.", "quantifier": "all coefficient shapes, dimensions, matrices of points", "why_tests_cant": "must hold for every shape, dimension and number of points", "anchors": ["yroots/polynomial.py:MultiCheb.evaluate_grid", "yroots/polynomial.py:MultiPower.evaluate_grid"]}
{"id": "C59", "title": "Reported roots lie in their boxes, boxes in the search box", "statement": "Whenever solve(funcs,a,b,returnBoundingBoxes=True) returns, every returned point lies in its bounding box, every bounding box lies inside [a,b] with lower bounds at most upper bounds, every returned box carries at least one point, and there are no points exactly when there are no boxes.", "quantifier": "all functions, boxes, options, recursion depths; all approximations of admissible shape", "why_tests_cant": "The recursion of re-solves and splits composes affine maps arbitrarily often; tests see a few compositions.", "anchors": ["yroots/Combined_Solver.py:solve", "yroots/ChebyshevApproximator.py:transform"]}
{"id": "C60", "title": "Returned boxes are small", "statement": "Every bounding box returned by solve has, along at least one axis, a length of at most minBoundingIntervalSize times the largest of 1 and the magnitudes of that axis's search bounds.", "quantifier": "all functions, boxes, non-negative minBoundingIntervalSize, recursion depths", "why_tests_cant": "Depends on every path through the re-solve recursion, including splits.", "anchors": ["yroots/Combined_Solver.py:solve"]}
{"id": "C61", "title": "Reported approximation error is not a bound", "statement": "The claim that the error returned by chebApproximate bounds the difference between the function and the returned series is false: T_33 on [-1,1] is approximated by x with an error below 1e-30, and solve() then reports a single box around 0 and misses the other 32 roots.", "quantifier": "existence of a function, for every tolerance in (0,1)", "why_tests_cant": "A test shows that one function is approximated well; that the stated error is a bound is a claim about all functions, and its failure is caused by aliasing on two specific grids.", "anchors": ["yroots/ChebyshevApproximator.py:getChebyshevDegrees", "yroots/ChebyshevApproximator.py:chebApproximate", "yroots/Combined_Solver.py:solve"]}
{"id": "C62", "title": "Size of the approximation error", "statement": "For a function that is a Chebyshev series on the box, the error of the interpolant is at most twice the sum of the absolute values of the coefficients beyond the chosen degrees; if these decay at the rate and from the level found by the degree search, it is at most twice the reported error, and the factor 2 cannot be dropped. With any error above that bound, the result is an approximation of the kind solve() needs in order to lose no root.", "quantifier": "all functions given by finite Chebyshev series, all degrees, boxes, dimensions", "why_tests_cant": "The bound has to hold at every point of the box for every function; the sampled points of a test are not the worst ones.", "anchors": ["yroots/ChebyshevApproximator.py:interval_approximate_nd", "yroots/ChebyshevApproximator.py:getApproxError", "yroots/ChebyshevApproximator.py:chebApproximate"]}
{"id": "C63", "title": "Termination of the degree search", "statement": "chebApproximate returns for every polynomial object that is not zero at the upper corner of the box. It never returns for the zero function, nor for the nonzero polynomial x(T_4(y)-T_6(y)) on [-1,1]^2, and solve() does not return on a system containing it.", "quantifier": "all polynomial objects, dimensions, boxes; existence of functions with endless search", "why_tests_cant": "A test cannot observe that a loop never ends, nor that it ends on every polynomial.", "anchors": ["yroots/ChebyshevApproximator.py:getChebyshevDegrees", "yroots/ChebyshevApproximator.py:chebApproximate"]}
{"id": "C64", "title": "Argument errors of chebApproximate", "statement": "chebApproximate raises the not-callable, length-mismatch, inverted-interval and wrong-number-of-arguments errors exactly when, checked in this order, the function is not callable, the bounds have different lengths, some lower bound exceeds its upper bound, or the function does not take as many arguments as there are bounds.", "quantifier": "all functions, bounds, tolerances", "why_tests_cant": "The equivalence is over all argument combinations, including the order of the checks.", "anchors": ["yroots/ChebyshevApproximator.py:chebApproximate"]}
{"id": "C65", "title": "Shape of the approximation", "statement": "Whenever chebApproximate returns, the coefficients form a well-formed array with one axis per variable and one more entry per axis than the chosen degree, and the error is the documented estimate for the chosen degrees with zeros replaced by ones.", "quantifier": "all functions, boxes, tolerances", "why_tests_cant": "Holds for every function and every path through the degree search.", "anchors": ["yroots/ChebyshevApproximator.py:chebApproximate", "yroots/ChebyshevApproximator.py:getApproxError"]}
{"id": "C66", "title": "Boxes left out of the combining step cannot touch a neighbour", "statement": "When a box is subdivided, only results touching the boundary of the piece they were found in take part in combining. Every other result lies strictly inside its piece, in every coordinate and on both sides, and therefore has no point in common with any result of another piece: no pair of touching boxes from different pieces is overlooked.", "quantifier": "every system, error vector, options, tracked box outside the final step, subdivision and depth, over the reals", "why_tests_cant": "a missed face only shows when a root happens to lie on that face of a cut; the claim is about every cut of every recursion", "anchors": ["yroots/ChebyshevSubdivisionSolver.py:isExteriorInterval", "yroots/ChebyshevSubdivisionSolver.py:solvePolyRecursive"]}
{"id": "C67", "title": "One-variable power polynomials: solve returns exactly the zeros", "statement": "For a MultiPower in one variable with a nonzero last coefficient, OneDimension.solve returns exactly the complex zeros of the polynomial, with both matrices (MSmatrix 0 and -1) and both ways to read the zeros (eigenvalues and eigenvectors), provided the eigenvalue routines are exact. No entry is inf or nan, and the origin is listed with its multiplicity. When the last coefficient is zero (clean_zeros=False) the origin is reported although it need not be a zero.", "quantifier": "every degree, every list of real coefficients, both matrices, both reading modes, every exact eigenvalue routine", "why_tests_cant": "A companion matrix with one wrong index still has plausible eigenvalues on symmetric or low-degree inputs; correctness is an identity for every degree and every coefficient list.", "anchors": ["yroots/OneDimension.py:solve", "yroots/OneDimension.py:multPower", "yroots/OneDimension.py:divPower"]}
{"id": "C68", "title": "One-variable Chebyshev series: solve returns exactly the zeros", "statement": "For a MultiCheb in one variable with a nonzero last coefficient, OneDimension.solve with the default matrix returns exactly the complex zeros of the series, with both reading modes, provided the eigenvalue routines are exact. The eigenvector mode does not conjugate its quotients; the set of zeros is still right because the coefficients are real.", "quantifier": "every degree, every list of real coefficients, both reading modes, every exact eigenvalue routine", "why_tests_cant": "The colleague matrix has special entries in its first and last columns whose effect depends on the degree; tests sample a few degrees.", "anchors": ["yroots/OneDimension.py:solve", "yroots/OneDimension.py:multCheb"]}
{"id": "C69", "title": "The division matrix for Chebyshev series finds the zeros unless the origin is one", "statement": "For a Chebyshev series of degree at least one that is not zero at the origin, solve with MSmatrix=-1 returns exactly its complex zeros, whether or not the value at the origin exceeds 1 in size. If the series vanishes at the origin no other zero is ever returned: every entry is 0, inf or nan. A constant raises IndexError, where the default matrix returns no zeros.", "quantifier": "every degree, every list of real coefficients, both reading modes, every exact eigenvalue routine (for the failing half: every routine at all)", "why_tests_cant": "The matrix has a sign pattern on every odd diagonal and every even column, rescaled by a threshold on p(0); only a proof for all degrees covers the pattern.", "anchors": ["yroots/OneDimension.py:solve", "yroots/OneDimension.py:divCheb", "yroots/OneDimension.py:getXinv"]}
{"id": "C70", "title": "One-variable solve: which arguments are refused", "statement": "OneDimension.solve raises ValueError exactly when MSmatrix is neither 0 nor -1. A polynomial built from integer coefficients, of degree two or more with nonzero first and last coefficient, is always refused with a TypeError, because the constructor does not convert it. A Chebyshev series of at least three coefficients whose last one is zero is always refused.", "quantifier": "every polynomial, every MSmatrix, both reading modes, any behaviour of the eigenvalue routines", "why_tests_cant": "The refusals depend on dtype and trailing zeros, which tests with hand-written float coefficients do not vary.", "anchors": ["yroots/OneDimension.py:solve", "yroots/OneDimension.py:multPower", "yroots/OneDimension.py:multCheb", "yroots/polynomial.py:Polynomial.__init__"]}
{"id": "C71", "title": "The constant-term interval check never discards an interval with a zero", "statement": "If constant_term_check(coeff, tol) returns False, no function within tol of the Chebyshev series has a zero on [-1,1]^n. IntervalData.check_interval returns True exactly when one of its checks returns False, and then adds the volume of the interval to the volume done, except while polishing, when nothing is recorded.", "quantifier": "every dimension, every coefficient array, every tolerance, every function within the tolerance, every list of checks", "why_tests_cant": "'No zero anywhere in the cube' is a statement about infinitely many points and functions.", "anchors": ["yroots/IntervalChecks.py:constant_term_check", "yroots/IntervalChecks.py:IntervalData.check_interval"]}
{"id": "C72", "title": "The sub-interval quadratic check never discards a part with a zero (up to three variables)", "statement": "For one, two or three variables: where quadratic_check(coeff, mask, tol, ...) returns True for a sub-interval, that sub-interval was still set in the mask, and no function strictly within tol of the series has a zero in it. This holds for any boxes inside the cube, not only for the halves used by the solver.", "quantifier": "every series in one, two or three variables, every tolerance, every list of boxes, every mask, every function strictly within the tolerance", "why_tests_cant": "The check looks at finitely many critical points of the quadratic part; that these suffice on every box, in every degenerate case, is a theorem about all polynomials.", "anchors": ["yroots/IntervalChecks.py:quadratic_check", "yroots/IntervalChecks.py:quadratic_check_2D", "yroots/IntervalChecks.py:quadratic_check_3D", "yroots/IntervalChecks.py:quadratic_checkND"]}
{"id": "C73", "title": "From four variables on the sub-interval check is only right on cubes", "statement": "quadratic_check in n variables never discards a box with a zero when all sides of the box have the same bounds. The solver's sub-intervals are not of this kind: the bounds used for a fixed variable are those of the variable with that position in the list of fixed variables. In four variables all sixteen sub-intervals of the cube are discarded for a polynomial that has a zero, so the search ends with no root.", "quantifier": "every dimension and every series (sound half); one polynomial in four variables, any state of the object (failing half)", "why_tests_cant": "The existing tests use two and three variables, or boxes where the mixed-up bounds agree.", "anchors": ["yroots/IntervalChecks.py:quadratic_checkND", "yroots/IntervalChecks.py:get_fixed_vars", "yroots/IntervalChecks.py:IntervalData.get_subintervals"]}
{"id": "C74", "title": "The bounding interval keeps every common zero when the errors are strict", "statement": "If every function is strictly within its error of its series on [-1,1]^n, the interval returned by getBoundingInterval contains every common zero, lies in [-1,1]^n and has positive volume. With errors that are reached the interval may collapse to the point 0: for the exact linear series x - 3/10 and y - 1/5 with errors 0, get_subintervals returns no interval and the zero is lost.", "quantifier": "every dimension, every system, every choice and order of the two reduction methods, every exact linear solver", "why_tests_cant": "The interval is built by intersecting bounds over all corners of a parallelepiped; containment is a statement about all systems and all zeros.", "anchors": ["yroots/IntervalChecks.py:getBoundingInterval", "yroots/IntervalChecks.py:improveBound2D", "yroots/IntervalChecks.py:improveBoundND", "yroots/IntervalChecks.py:getBoundingParallelogram2D", "yroots/IntervalChecks.py:getBoundingParallelogramND", "yroots/IntervalChecks.py:mergeIntervals", "yroots/IntervalChecks.py:boundingIntervalWidthAndBoundCheck"]}
{"id": "C75", "title": "Subdividing loses no common zero (up to three variables)", "statement": "For up to three variables, or any number when the checks are switched off: if the errors are strict, every common zero of the functions in [a,b] lies in one of the intervals returned by get_subintervals(a, b, polys, errors, runChecks), whichever reduction methods are on and whatever happened in earlier calls.", "quantifier": "every box, every system, every choice of reductions, both settings of runChecks, every earlier history, every common zero", "why_tests_cant": "It ranges over all systems and all zeros, including those on the boundary between the halves.", "anchors": ["yroots/IntervalChecks.py:IntervalData.get_subintervals", "yroots/IntervalChecks.py:IntervalData.__init__"]}
{"id": "C76", "title": "Volume bookkeeping of the subdivision", "statement": "After get_subintervals returns, the volume recorded as done plus the volume of the returned intervals equals the volume recorded before plus the volume of [a,b]; every returned interval is a box inside [a,b]. Hence over any search the volume recorded is the volume searched minus the volume still to do, and no part is counted twice.", "quantifier": "every dimension, every box, every system, all behaviours of the numerical routines, every sequence of calls", "why_tests_cant": "Double counting shows only for particular combinations of checks discarding the same part, over a whole history.", "anchors": ["yroots/IntervalChecks.py:IntervalData.get_subintervals", "yroots/IntervalChecks.py:IntervalData.track_interval", "yroots/IntervalChecks.py:IntervalData.track_interval_bounded"]}
{"id": "C77", "title": "Calls of get_subintervals do not influence each other", "statement": "The intervals returned by get_subintervals, and the volume it records, depend only on its arguments: two objects of the same dimension in any two states give the same answer or raise the same error.", "quantifier": "every two states of the object, every argument, all behaviours of the numerical routines", "why_tests_cant": "The object carries a mask that is overwritten in place; a stale entry shows only after particular histories.", "anchors": ["yroots/IntervalChecks.py:IntervalData.get_subintervals"]}
{"id": "C78", "title": "roots_at_inf lists precisely the roots at infinity", "statement": "If the total degree d >= 1 of a real polynomial in x and y is the larger side of its coefficient array less one, and its coefficient of x^d is zero or above 1e-8 in size, then every point (x, y) returned by roots_at_inf is a root at infinity, and every root at infinity is a multiple of a returned point. Outside these conditions it fails: for a nonzero constant, for a coefficient of x^d below 1e-8, and for arrays smaller than the degree, even homogeneous ones such as x^3 y - x y^3, where (1, 1) is missing.", "quantifier": "every real coefficient array of the stated kind, every complex point; all exact eigenvalue routines", "why_tests_cant": "Completeness speaks about all complex points and all polynomials; the existing tests look at five polynomials.", "anchors": ["yroots/ProjectiveSpace.py:roots_at_inf", "yroots/ProjectiveSpace.py:pad_with_zeros", "yroots/OneDimension.py:solve"]}
{"id": "C79", "title": "common_root_at_inf tests the second polynomial with x and y exchanged", "statement": "common_root_at_inf([f, g]) returns True exactly when some root at infinity (x, 1) of f makes the top form of g at (1, x) at most 1e-8 in size, or (1, 0) is a root of f and the top form of g at (1, 0) is that small. So a common root at infinity is always found when the top form of g is symmetric in x and y, and not otherwise: f = g = x - 2y gives False, and x - 2y with 2x - y gives True although they share no root at infinity. With return_root=True the result is the pair (True, root), root being one of those of f, or the single value False.", "quantifier": "every pair of real polynomials whose degree shows in the array; all exact eigenvalue routines", "why_tests_cant": "The existing tests happen to use symmetric second polynomials; the exchange shows only over all pairs.", "anchors": ["yroots/ProjectiveSpace.py:common_root_at_inf", "yroots/ProjectiveSpace.py:roots_at_inf"]}
{"id": "C80", "title": "mon_mult2 multiplies by a monomial exactly", "statement": "For a polynomial given as a coefficient array and a monomial given by its exponents, mon_mult2 returns the coefficients of the product, at every point and with no coefficient lost: in the power basis always, in the Chebyshev basis when numpy still accepts a list of slices as an index. With the numpy pinned in requirements.txt it does not, and the Chebyshev case raises IndexError for every monomial other than 1.", "quantifier": "every array, every exponent vector of its dimension, every point, both numpy behaviours", "why_tests_cant": "The product law is an identity of polynomials of every size and dimension, and the failure depends on the numpy version.", "anchors": ["yroots/utils.py:mon_mult2"]}
{"id": "C81", "title": "solve_linear returns a point precisely when it is the only common zero", "statement": "For n linear polynomials in n variables, as coefficient arrays with every side at least 2, solve_linear returns a point if and only if the point is their only common zero; an empty answer means there is no common zero. The answer 'infinitely many roots' is not reliable: y = 1 with y = 2 gives it although there is no root. Arrays with a side of length 1, which is what cleaning leaves of a polynomial without that variable, are misread: x = 1/2 with y = 1/2 is reported to have no root, and a last side of length 1 raises IndexError.", "quantifier": "every system of n linear polynomials in n variables, every point; exact arithmetic", "why_tests_cant": "Uniqueness ranges over all points, and the claim over all systems of all dimensions, singular ones included.", "anchors": ["yroots/utils.py:solve_linear", "yroots/utils.py:get_var_list"]}
{"id": "C82", "title": "triangular_solve reduces an echelon form without changing its solutions", "statement": "For a matrix in row echelon form without zero rows, triangular_solve returns the reduced row echelon form: same pivot columns, unit pivots, zeros above them, same solutions. With a zero row it is wrong: a square matrix is always answered with the identity, which loses every nonzero solution, and a matrix that is not square raises ValueError.", "quantifier": "every m x n matrix in echelon form, every vector; exact arithmetic", "why_tests_cant": "Equality of the solution sets is a statement about all vectors and all matrices of all sizes and pivot patterns.", "anchors": ["yroots/utils.py:triangular_solve", "yroots/utils.py:inverse_P"]}
{"id": "C83", "title": "rref and nullspace keep the solutions of a linear system that has one", "statement": "rref returns rows with unit columns on the left and a permutation of the columns that leaves the constants in place; every solution of the system, reordered, solves the rows returned, and if the system has a solution then the rows returned have no other ones. nullspace applies it to one row per linear polynomial, so the rows describe the common zeros. Systems without a solution are not recognised: the rows returned can always be solved. If there are more equations than unknowns and they determine a single point, rref raises ValueError. With numpy 1.24 or later every call raises AttributeError.", "quantifier": "every m x n matrix, every vector, every list of linear polynomials; exact arithmetic", "why_tests_cant": "It compares solution sets for all matrices of all shapes and ranks; consistency of a system is not visible on finitely many points.", "anchors": ["yroots/LinearProjection.py:rref", "yroots/LinearProjection.py:nullspace"]}
{"id": "C84", "title": "A system that leaves out a variable and has a zero is never answered", "statement": "A user expects every call to return or to fail at once. It does not: if none of the n >= 2 functions depends on variable d, where d is not the last variable, and they have a common zero in the box, then the subdivision solver returns no result at any recursion depth (in Python: it ends in RecursionError or does not end). Dimension d is no longer split once its ends are within 1e-8, can never be reduced by the linear check, and so never becomes a point; a box holding a zero is never discarded. The same for solve with Chebyshev polynomials on [-1,1]^n.", "quantifier": "every dimension n >= 2, every d < n-1, every system of polynomial approximations independent of variable d with a common zero, every setting, every recursion depth; exact arithmetic", "why_tests_cant": "That no recursion depth is enough is a statement about an infinite family of runs; a test can only show that one depth was not enough.", "anchors": ["yroots/ChebyshevSubdivisionSolver.py:solvePolyRecursive", "yroots/ChebyshevSubdivisionSolver.py:getSubdivisionDims", "yroots/ChebyshevSubdivisionSolver.py:BoundingIntervalLinearSystem", "yroots/ChebyshevSubdivisionSolver.py:TrackedInterval.isPoint", "yroots/Combined_Solver.py:solve"]}
{"id": "C85", "title": "Permutation arrays multiply Macaulay rows by monomials", "statement": "mons_ordered(k, D) lists every monomial of degree at most D once, by degree and then lexicographically. all_permutations(deg, k, D) has an array P for every monomial x^w of degree at most deg, P is a permutation of the columns, and row[P] is the row of x^w * p for the row of every polynomial p with deg p + deg w <= D. Products of higher degree are not cut off but come back in wrong columns, D = 0 is not served in two or more variables, and the memoised version is transparent for calls with three arguments only, because further arguments are not part of its key.", "quantifier": "every number of variables, every degree bound, every matrix degree D >= 1, every polynomial over every coefficient type, every history of earlier calls", "why_tests_cant": "The arrays are built by a recursion over degree and number of variables; that each of them is the right permutation for all sizes is an inductive statement.", "anchors": ["yroots/utils.py:arrays", "yroots/utils.py:permutation_array", "yroots/utils.py:all_permutations", "yroots/utils.py:memoize_permutaions", "yroots/utils.py:mons_ordered"]}
{"id": "C86", "title": "The questions a tracked interval answers", "statement": "After any sequence of steps from the whole box to a sub-box, 'point in interval' holds exactly for the points the interval stands for, size() is the volume (2^n for [-1,1]^n, multiplied by the share each step keeps), overlapsWith is true exactly when the two intervals have a common point, and isPoint is true exactly when any two points of the interval differ by less than 10^-32 in every coordinate.", "quantifier": "every number of variables, every sequence of sub-boxes, every point, every pair of such intervals", "why_tests_cant": "The interval is the composition of arbitrarily many affine maps; agreement of the queries with the set of points it represents must hold for every composition.", "anchors": ["yroots/ChebyshevSubdivisionSolver.py:TrackedInterval.__contains__", "yroots/ChebyshevSubdivisionSolver.py:TrackedInterval.size", "yroots/ChebyshevSubdivisionSolver.py:TrackedInterval.overlapsWith", "yroots/ChebyshevSubdivisionSolver.py:TrackedInterval.isPoint"]}
{"id": "C87", "title": "The bounding parallelepiped of a linear polynomial covers its zeros in the cube", "statement": "For a linear polynomial in n >= 2 variables with no nonzero coefficient of absolute value at most 1e-8, bounding_parallelepiped answers, every zero of the polynomial in [-1,1]^n lies in the returned parallelepiped, and every point of the parallelepiped is a zero of the polynomial. With a coefficient of at most 1e-8 zeros can be missed. The map of the parallelepiped used by the projection agrees with it in three variables and misses zeros in two.", "quantifier": "every number of variables, every linear polynomial, every zero in the cube, every pivoted QR factorisation", "why_tests_cant": "The section of a cube by a hyperplane has infinitely many points and its shape changes with the coefficients; coverage is a convexity argument over all of them.", "anchors": ["yroots/LinearProjection.py:bounding_parallelepiped", "yroots/LinearProjection.py:project_down"]}
{"id": "C88", "title": "M_maker returns the interpolant at the degrees its search ends with", "statement": "For every function, box of one to ten dimensions, first guess of at least 1, limit and tolerance, M_maker ends. Its M is the only Chebyshev series of the final degrees that agrees with the function on the Chebyshev grid of the box, M2 is the one of twice the degrees, err is the sum of the absolute differences of their coefficients and bounds their distance on the whole box. The search ends because all degrees are at the limit, because err is insignificant, or because doubling no single degree matters. Reusing stored values never changes an answer, and a polynomial within the first guess is returned exactly with err 0. err does not bound the distance to the function, degs is wrong for a guess above the limit, values_block can belong to other degrees in two variables, and polynomial objects of several variables raise when the first guess is not enough.", "quantifier": "every function or polynomial object, every box, every first guess, limit and tolerance, every sequence of requests", "why_tests_cant": "The search and the reuse of values depend on the function; correctness of the reuse has to hold for every history of requests and every function.", "anchors": ["yroots/M_maker.py:M_maker", "yroots/M_maker.py:M_maker.find_good_approx", "yroots/M_maker.py:M_maker.interval_approximate_nd", "yroots/M_maker.py:M_maker.chebyshev_block_copy", "yroots/M_maker.py:M_maker.error_test"]}
{"id": "C89", "title": "newton_polish runs Newton's method; getRootSample collects where it ends", "statement": "For every square system of polynomial objects and every starting point, newton_polish either raises LinAlgError or returns the end of a run of Newton's method: at each point a step along which the derivative of every polynomial cancels its value, at most niter steps, stopping after the first step shorter than tol. When it stopped for that reason the values at the result are at most half a bound of the second derivatives times the square of tol. A simple zero is returned unchanged and a system of degree one with one zero is solved from everywhere. Nothing tells when the iteration did not converge: for x^3-2x+2 from 0 the answer is 0, where the value is 2. getRootSample returns points of the cube, at least 1e-5 apart, each the end of a run from a drawn point, and misses no draw that ended in the cube; one draw at which newton_polish raises makes the whole call raise; the points need not be zeros.", "quantifier": "every system of n MultiCheb or MultiPower objects in n variables, every start, iteration limit and tolerance, every sequence of draws", "why_tests_cant": "Convergence depends on the system and the start, and the draws are random.", "anchors": ["yroots/utils.py:newton_polish", "yroots/utils.py:getRootSample"]}
{"id": "C90", "title": "makePolyCoeffMatrix reads every polynomial of the documented syntax", "statement": "Every string of the documented syntax, with any number of terms, variables and powers, is accepted, whatever numbers are used. The array has one axis per variable, each just long enough for the largest power, with the last variable first, and the entry at the reversed powers is the coefficient of the last term with these powers. If no term repeats a variable and no two terms have the same powers, evaluating the array at the reversed point gives the value of the written polynomial. So x0+2x1 becomes 2*x0+x1 for a MultiPower object, x0+x0 becomes x0 and x0*x0 becomes x0. A negative power is not refused but counts from the end of the axis, so in x0^2+5x0^-1 the second term replaces the first.", "quantifier": "every list of terms with any coefficient texts that float accepts, any digits for the variables and powers, every point", "why_tests_cant": "The strings are unbounded; tests show a few of them.", "anchors": ["yroots/utils.py:makePolyCoeffMatrix", "yroots/utils.py:first_x"]}
{"id": "C91", "title": "Tolerances walks through its lists of tolerances", "statement": "For every set of keyword arguments that are numbers or sequences of numbers of one common length L (1 if there is no sequence), with different names none of which is the plural of another, the constructor succeeds and nextTols answers True exactly L times and False ever after. After the k-th True every tolerance has its k-th value, a single number has the same value in all rounds, and after the last round the values stay. getTolDict always shows the complete lists under the plural names and nothing else. Sequences of different lengths raise ValueError and other objects TypeError. With names tol and tols the values of tol are lost after the first round, and a sequence of sequences can raise IndexError in the second round.", "quantifier": "every number of tolerances, every names, values and lengths, any number of calls of nextTols", "why_tests_cant": "The object rewrites its own attributes in every round, under names derived from the names the caller chose.", "anchors": ["yroots/utils.py:Tolerances", "yroots/utils.py:isNumOrBool"]}
{"id": "C92", "title": "Condition numbers of eigenvalues and eigenvectors", "statement": "For every complex vector x other than zero, householder(x) is Hermitian and unitary and sends x to a multiple of the first unit vector of the same length; for the zero vector it is NaN. For every complex matrix A of size at least 2 and every eigenpair (eig, x), condeig(A, eig, x) is |y||x|/|y^H x| for every left eigenvector y of eig not orthogonal to x, and such a y exists whenever it answers; it raises LinAlgError exactly when some left eigenvector is orthogonal to x (the condition number is infinite) and ValueError exactly for x = 0. With condvec=True the second number is 1/s where s is the least length of the component orthogonal to x of (A - eig) w over the unit vectors w orthogonal to x. condeigs gives the condition numbers of the eigenvalues in order.", "quantifier": "every size, every complex matrix, every eigenpair, every QR, triangular solver and smallest singular value that meet their contracts", "why_tests_cant": "The left eigenvector is never computed: that the answer is the quotient is an identity about all matrices.", "anchors": ["yroots/utils.py:householder", "yroots/utils.py:condeig", "yroots/utils.py:condeigs"]}
{"id": "C93", "title": "Independent and dependent rows of a matrix", "statement": "For every matrix, row_linear_dependencies puts every row index in exactly one of its two lists. If no diagonal entry of the pivoted QR factor lies strictly between 0 and the accuracy, the rows of the first list are linearly independent, every row of the second list is a linear combination of them, and the third answer is None exactly when all rows are independent. A row shorter than the accuracy is reported as removable although removing it changes the rank.", "quantifier": "every number of rows and columns, every real matrix, every accuracy, every pivoted QR decomposition that meets its contract", "why_tests_cant": "That two QR decompositions find a basis of the row space is a statement about all matrices, whatever their rank.", "anchors": ["yroots/utils.py:row_linear_dependencies"]}
{"id": "C94", "title": "The quadratic checks are exact", "statement": "quadratic_check answers True exactly when, on the whole cube, the terms of degree at most two stay at or above the sum of the absolute values of all other coefficients plus the tolerance, or at or below minus that sum. The same holds for each sub-interval of the other quadratic check, up to three variables or on boxes whose sides are all the same interval. So the checks never miss an exclusion that this comparison can give.", "quantifier": "every number of variables, every coefficient array, every tolerance, every box with ordered bounds, every rank test and symmetric solver that meet their contracts", "why_tests_cant": "That the examined points contain the minimum and the maximum of the quadratic part on every box is a statement about all quadratic polynomials; a check that misses exclusions still returns right answers in every test, only later.", "anchors": ["yroots/QuadraticCheck.py:quadratic_check", "yroots/QuadraticCheck.py:quadratic_check_2D", "yroots/QuadraticCheck.py:quadratic_check_3D", "yroots/QuadraticCheck.py:quadratic_check_nd", "yroots/IntervalChecks.py:quadratic_check"]}
{"id": "C95", "title": "The bounds from single equations are the tightest", "statement": "For every list of equations and every variable, a value lies between the bounds linearCheck1 returns for that variable exactly when no equation with a nonzero coefficient of the variable excludes it: what remains of the total error after that coefficient and the constant can still bring the equation to zero.", "quantifier": "every number of rows and variables, all linear coefficients, constants and total errors, every value of the variable", "why_tests_cant": "Bounds that are too wide are still right; only a statement about all values on both sides of the bounds shows that nothing is lost.", "anchors": ["yroots/ChebyshevSubdivisionSolver.py:linearCheck1"]}
{"id": "C96", "title": "The constant-term check in floating-point arithmetic", "statement": "Run on binary64 numbers, with the absolute values summed in any order, the constant-term check of the subdivision solver discards only boxes without a common zero as soon as every error bound exceeds the true approximation error by (k+2) 2^-53 (sum of the absolute coefficients + error bound), k the number of coefficients. Overflow is harmless. The bound 2^-52 that solve uses for polynomials leaves no such margin: there is a polynomial with two zeros inside [-1,1] for which solve returns no root.", "quantifier": "every number of variables, all arrays of finite binary64 coefficients, all finite error bounds, every order of summation, all functions within the true error of the polynomials", "why_tests_cant": "Rounding errors depend on all bits of all coefficients and on the order of summation; a lost root shows up only for coefficients that nearly balance.", "anchors": ["yroots/ChebyshevSubdivisionSolver.py:solvePolyRecursive", "yroots/Combined_Solver.py:solve"]}
{"id": "C97", "title": "sortRoots puts equal lists of roots in the same order", "statement": "sortRoots returns the given roots, ordered by their product with a random vector that depends on the seed only. Two lists that hold the same roots come out identical, whatever their order, the sorting algorithm and the earlier state of the random generator, if different roots have different products with the vector; with equal products they need not. A call with at least one root leaves numpy's global generator in a state that depends on the seed only.", "quantifier": "all lists of roots in any dimension, every seed, every generator, every pair of sorting routines that meet the contract of argsort", "why_tests_cant": "The claim is about every pair of orders of every list of roots; a test sees one order and one seed.", "anchors": ["yroots/utils.py:sortRoots"]}
{"id": "C98", "title": "Rows and polynomials are only reordered", "statement": "row_swap_matrix returns the same rows with their first nonzero columns in ascending order, so the linear system keeps its solutions, and in echelon form if no two rows start in the same column; it raises an exception exactly when a row is zero. sorted_polys_monomial returns the same polynomials with ascending numbers of nonzero terms.", "quantifier": "all matrices, all lists of polynomials, every sorting routine that meets the contract of argsort", "why_tests_cant": "The claim covers all matrices and every way ties may be broken by an unstable sort.", "anchors": ["yroots/utils.py:row_swap_matrix", "yroots/utils.py:sorted_polys_monomial"]}
{"id": "C99", "title": "match_poly_dimensions adds leading variables, in place", "statement": "match_poly_dimensions gives every polynomial of the list as many variables as the largest one. The new variables come first and the polynomial does not depend on them. The list returned holds the very objects that were passed in, also when one occurs several times; they are changed, so that calling them on points with their former number of coordinates raises an error. Other objects are not touched. It raises ValueError exactly when the list is empty.", "quantifier": "all lists of references to power or Chebyshev polynomials of any dimensions, with repetitions", "why_tests_cant": "Values of a polynomial at all points, and all ways in which objects can be shared.", "anchors": ["yroots/utils.py:match_poly_dimensions", "yroots/polynomial.py:Polynomial"]}
{"id": "C100", "title": "clean_zeros_from_matrix clears exactly the small entries", "statement": "clean_zeros_from_matrix sets exactly the entries smaller in size than the accuracy to zero and keeps the others. The Chebyshev polynomial with these coefficients changes by at most the number of entries times the accuracy on the cube. Repeating the call changes nothing.", "quantifier": "all coefficient arrays, every accuracy (also negative)", "why_tests_cant": "The bound holds at every point of the cube for every array.", "anchors": ["yroots/utils.py:clean_zeros_from_matrix"]}
{"id": "C101", "title": "divides and quotient agree with division of monomials", "statement": "divides(a, b) is true exactly when the monomial with exponents b is the one with exponents a times another monomial; quotient(b, a) gives the exponents of that monomial.", "quantifier": "all pairs of exponent tuples of the same length", "why_tests_cant": "All tuples of all lengths.", "anchors": ["yroots/utils.py:divides", "yroots/utils.py:quotient"]}
{"id": "C102", "title": "The Macaulay matrix holds exactly the multiples of the polynomials", "statement": "For polynomials of degree at least 1, build_macaulay returns one row for each polynomial and each monomial that keeps the product within the degree D = sum of the degrees - number of polynomials + 1, and one column for each monomial of degree at most D, by descending degree; the first cut columns are those of degree D (cut is 0 if D is 1). Each row, read as a polynomial, is the monomial times the polynomial. With a numpy that refuses a list of slices as an index (1.23 and later), a Chebyshev system in two or more variables with a polynomial of degree below D raises IndexError; the power basis is not affected.", "quantifier": "all nonempty lists of power or Chebyshev polynomials of degree at least 1 in any number of variables, every sorting routine that meets the contract of argsort", "why_tests_cant": "The claim covers all systems of all degrees and dimensions and the value of every row at every complex point.", "anchors": ["yroots/MacaulayReduce.py:build_macaulay", "yroots/MacaulayReduce.py:add_polys", "yroots/MacaulayReduce.py:find_degree", "yroots/utils.py:mon_combosHighest"]}
{"id": "C103", "title": "Common zeros are joint eigenvalues of the multiplication matrices", "statement": "For a square system of polynomials of degree at least 1, the multiplication matrices that the svd, qrt and tvb methods build have as many rows as the product of the degrees (the Bezout number), and for every common zero z there is one nonzero vector that is a left eigenvector of each matrix, with the coordinates of z as eigenvalues: no common zero is lost. For svd and qrt this needs that the null space of the Macaulay matrix is no larger than the Bezout number. In two or more variables the reduction never raises an exception: it returns matrices or reports an ill-conditioned step.", "quantifier": "all square systems of power or Chebyshev polynomials in any number of variables, all complex common zeros, all three methods, every bound on the condition number, all LAPACK routines that meet their contracts", "why_tests_cant": "A test sees some systems; the claim covers all degrees, dimensions, zeros and all factorizations LAPACK may return.", "anchors": ["yroots/Multiplication.py:multiplication", "yroots/Multiplication.py:ms_matrices", "yroots/Multiplication.py:ms_matrices_cheb", "yroots/Multiplication.py:ms_matrices_p", "yroots/Multiplication.py:ms_matrices_p_cheb", "yroots/MacaulayReduce.py:reduce_macaulay_svd", "yroots/MacaulayReduce.py:reduce_macaulay_qrt", "yroots/MacaulayReduce.py:reduce_macaulay_tvb"]}
{"id": "C104", "title": "multiplication returns all common zeros of a system with Bezout-many zeros", "statement": "For a square system in two or more variables with a polynomial of degree at least 2 and as many different common zeros as the product of the degrees, multiplication either reports an ill-conditioned reduction or returns exactly the common zeros, each once (with return_all_roots=False exactly those whose coordinates have absolute value at most 1), for each of the three methods. This needs that the fixed random direction tells the zeros apart and, for svd and qrt, that the null space of the Macaulay matrix is no larger than the number of zeros. msroots returns precisely the joint eigenvalues when there are as many as rows. A linear system gives its only common zero, whatever the method string. A linear system without zeros gives an array of length one that holds no number, not an empty one. A single polynomial raises NameError; an unknown method raises ValueError unless all polynomials are linear.", "quantifier": "all square systems of power or Chebyshev polynomials, all three methods, all orders in which the eigenvalue routine returns the eigenvalues, all unitary matrices schur may return, every orthogonal rotation and direction that separates the zeros", "why_tests_cant": "The eigenvalues of the single matrices come in arbitrary order and may coincide; that the greedy matching pairs them correctly for every system is a statement about all orders and all Schur bases.", "anchors": ["yroots/Multiplication.py:multiplication", "yroots/Multiplication.py:msroots", "yroots/Multiplication.py:sort_eigs", "yroots/Multiplication.py:get_Q_c"]}
{"id": "C105", "title": "trim_coeffs cuts high degrees and reports the error, except for the top coefficient", "statement": "mon_combos_limited lists every exponent vector of the given degree that fits into the shape, once each. trim_coeffs, for arrays in two or more variables with the same number of entries (at least 3) along every axis, leaves each array alone with an error above its tolerance, or returns a smaller array: coefficients whose total degree is below its side are unchanged, those above are zero, the error has grown by what was cut and is within abs_approx_tol + rel_approx_tol*inf_norm, and no further degree could be cut. On the cube the function changes by at most the growth of the error plus the absolute value of the coefficient of highest degree in all variables; the flag is True exactly when all errors are within tolerance. That the reported error alone bounds the change is false: the top coefficient is dropped without being counted, however large it is. A 2 by 2 array is never kept: it is rejected or comes back as zero.", "quantifier": "all numbers of variables from two on, all sides from three on, all real coefficients, errors, norms and tolerances, all points of the cube", "why_tests_cant": "The claim is about the value of the trimmed polynomial at every point and for every coefficient array; tests on decaying coefficients do not see the uncounted top coefficient.", "anchors": ["yroots/subdivision.py:trim_coeffs", "yroots/subdivision.py:mon_combos_limited", "yroots/subdivision.py:mon_combos_limited_wrap", "yroots/subdivision.py:initial_mons", "yroots/utils.py:slice_top"]}
{"id": "C106", "title": "The shared work array: a copied block is the mirrored one while the array is large enough", "statement": "chebyshev_block_copy continues a block of function values at Chebyshev points to the 2*deg periodic values per axis that the Fourier transform expects. The work array is module state: it is chosen by the first call of subdivide_to_linear with that number of variables and grows with the blocks copied since. After every history of calls and copies in one process, copying a block of degree deg in n variables returns the mirrored block when the array has side at least 2*deg or at most deg; in particular for every degree up to the first call's plus 3. It is false that every copy is the mirrored block: right after a first call with degree deg at least 4, copying a block of degree 2*deg returns uninitialised memory wherever all positions are at most 2*deg. A later call with another degree keeps using the size of the first call.", "quantifier": "all histories of calls and copies with any numbers of variables, degrees and block contents; all contents of uninitialised memory", "why_tests_cant": "The result depends on the whole history of the process through module-level dictionaries; tests start from a fresh import and see memory that happens to be zero.", "anchors": ["yroots/subdivision.py:chebyshev_block_copy", "yroots/subdivision.py:values_arr", "yroots/subdivision.py:initialize_values_arr", "yroots/subdivision.py:block_copy_slicers", "yroots/subdivision.py:subdivide_to_linear"]}
{"id": "C107", "title": "Chebyshev approximation in subdivision.py interpolates; the error estimate and its limits", "statement": "After every history of the process that leaves a work array of suitable side, interval_approximate_nd returns the coefficients of the unique polynomial of the given degree that agrees with the function on the Chebyshev grid of the box, and the largest absolute value there. full_cheb_approximate then compares the interpolants of degree g and 2g: its error is the sum of the absolute coefficient differences, it bounds their distance on the whole box, and the distance to the function when the function is a polynomial of degree at most 2g per variable; the approximation is returned exactly when the error is within abs_approx_tol + rel_approx_tol*inf_norm. It is false that the error bounds the distance to every function: a multiple of T_4g - 1 is taken for 0 with error 0. The first approximation in a process, with degree 4 or more, reads uninitialised memory: for every function and bound some contents give a larger error. In one variable interval_approximate_1d returns the interpolating coefficients, the norm, and whether positive and non-positive values occur on the grid.", "quantifier": "all functions, boxes, degrees, tolerances, histories and contents of uninitialised memory; all points of the box", "why_tests_cant": "The distance to the function ranges over all points and functions, and the result depends on the history of the process and on memory the program never wrote.", "anchors": ["yroots/subdivision.py:interval_approximate_nd", "yroots/subdivision.py:full_cheb_approximate", "yroots/subdivision.py:interval_approximate_1d", "yroots/subdivision.py:chebyshev_block_copy"]}
{"id": "C108", "title": "Solving one function of one variable in subdivision.py: what is covered, what is found, what is lost", "statement": "With exact arithmetic and exact eigenvalues, and one set of tolerances (the default), the one-variable search from [a, b] ends with intervals that lie one after the other from a to b, so every point of [a, b] belongs to one. Each was either solved or given up, and an interval given up is no longer than (b-a)*0.5139^53. On a solved interval the points handed to the root tracker are exactly the images of the real parts of those zeros of a polynomial of degree at most deg that lie within the stated tolerance of [-1, 1]; the polynomial is within a stated error of the function at the Chebyshev points of degree 2*deg, on the whole interval if the function is a polynomial of degree at most 2*deg, and that error is at most abs_approx_tol + rel_approx_tol*(largest value seen), or macheps. The interval list, the calls to the tracker and the returned roots are determined by this. A polynomial of degree between 1 and deg whose top Chebyshev coefficient is at least the tolerance is solved at once, and every zero in [a, b] is returned. It is false that no zero is lost: for every degree and absolute tolerance some K*x^(deg+1) returns nothing on [-1, 1]. It is false that every answer is a zero: x^2 + 10^-11 has none, and with the default tolerances 0 is returned.", "quantifier": "all functions, intervals a < b, degrees, tolerances and exact eigenvalue routines", "why_tests_cant": "The chain of intervals, the error on the whole interval and completeness range over all functions and points; tests compare a few known zero sets.", "anchors": ["yroots/subdivision.py:subdivision_solve_1d", "yroots/subdivision.py:good_zeros_1d", "yroots/subdivision.py:subdivide_to_linear", "yroots/subdivision.py:interval_approximate_1d", "yroots/RootTracker.py:RootTracker.add_roots"]}
{"id": "C109", "title": "The solver in several variables of subdivision.py: it ends, and everything it returns is accounted for", "statement": "For two or more functions and a box, with one set of tolerances and exact arithmetic, the recursion always ends: at most 106 nested calls, whatever the functions and the linear algebra do. When the call returns, the stored boxes and the calls to the root tracker are given by one list of finished boxes: each lies in the search box widened by 1.1e-9 of its width, each returned root was handed over for a solved box, and the potential roots are exactly the midpoints of the boxes that were given up, in order. A returned root is in the search box widened by 5e-10 of its width and 1e-9. A box that was given up has at most (3/4)^52*(1+1e-9)^n of the volume of the search box. The area recorded by the progress counter is at least that of the search box and at most (1+1e-9)^(2n) times it.", "quantifier": "all functions, boxes, dimensions n >= 2, degrees, target degrees, tolerances, interval reductions, contents of uninitialised memory and answers of the linear algebra and of the Macaulay solver", "why_tests_cant": "The depth of the recursion and the boxes visited depend on the functions and on every intermediate answer; tests follow a few of them.", "anchors": ["yroots/subdivision.py:subdivide_to_linear", "yroots/subdivision.py:subdivision_solve_nd", "yroots/subdivision.py:good_zeros_nd", "yroots/subdivision.py:zeros_in_interval", "yroots/subdivision.py:get_abs_approx_tol", "yroots/IntervalChecks.py:IntervalData.track_interval", "yroots/RootTracker.py:RootTracker"]}
{"id": "C110", "title": "The solver in several variables of subdivision.py solves linear systems completely", "statement": "Let n >= 2 affine functions have exactly one common zero. With exact arithmetic, target_deg >= 1, non-negative tolerances (target_tol at least macheps unless trust_small_evals is set), degree at least 2 and room for four times the degree in the work array of the process (and for 12 when check_eval_error is set), the call returns without an exception and without potential roots. It returns exactly the zero when the zero is in the search box, nothing when a coordinate of it is outside by more than 1e-9 plus 5e-10 of the width, and never anything else. In a new process there is room for degrees 2 and 3, and for 12 with degree 3.", "quantifier": "all systems of n affine functions with one common zero, boxes, tolerances, interval reductions, contents of uninitialised memory and earlier calls in the same process", "why_tests_cant": "Completeness ranges over all systems, boxes and histories of the process; a test fixes one of each, and the answer for larger degrees depends on memory the test does not control.", "anchors": ["yroots/subdivision.py:subdivide_to_linear", "yroots/subdivision.py:subdivision_solve_nd", "yroots/subdivision.py:full_cheb_approximate", "yroots/subdivision.py:trim_coeffs", "yroots/subdivision.py:good_zeros_nd", "yroots/subdivision.py:zeros_in_interval", "yroots/utils.py:solve_linear"]}
{"id": "C111", "title": "What a solved box means in the solver in several variables of subdivision.py", "statement": "After a call for n >= 2 functions that returns (exact arithmetic, degree at least 2, room for four times the degree in the work array of the process, and for 12 when check_eval_error is set), every box that was solved, as stored and so widened by 5e-10 of its width on each side, is solved in this sense. Each function has a linear polynomial on the box that differs from it, at the Chebyshev points of degree 4 and on the whole box if the function is a polynomial of degree at most 4 in each variable there, by at most target_tol + rel_approx_tol*(largest value on that grid) + the absolute coefficient of T_2(x_1)...T_2(x_n) in the interpolant of degree 2; target_tol is the one given, or a larger one if check_eval_error is set. If these polynomials have no common zero, nothing is handed over for the box. Otherwise they have exactly one, nothing else is handed over, and it is handed over when it lies in the box before widening. As MultiCheb at this commit does not take lead_term, no box is solved by Macaulay matrices, so every returned root comes from such a box. It is false that a returned root is a zero up to the tolerances, or that a zero in the box is returned or lies in a box that was given up: with degree 2 in a new process x + K*T_2(x)*T_2(y) and y give the only root (0, 0), where the first function is K, for every K; for K = 1 the zero (-1/2, 0) in the box is lost.", "quantifier": "all functions, boxes, dimensions n >= 2, degrees at least 2, target degrees, tolerances, interval reductions, contents of uninitialised memory, earlier calls in the same process, and answers of the linear algebra; for the false claims, every K and every choice of these", "why_tests_cant": "The relation between functions and roots must hold for every box the search ends in; a test sees the final roots of a few functions and not the boxes, and the dropped coefficient shows only on functions chosen for it.", "anchors": ["yroots/subdivision.py:subdivide_to_linear", "yroots/subdivision.py:subdivision_solve_nd", "yroots/subdivision.py:full_cheb_approximate", "yroots/subdivision.py:trim_coeffs", "yroots/subdivision.py:good_zeros_nd", "yroots/utils.py:solve_linear"]}
{"id": "C112", "title": "Common zeros returned by eigensolve of polyroots.py", "statement": "One variable, exact eigenvalue routines, floating-point coefficients with nonzero last one, MSmatrix 0 (or -1 for the power basis), eigenvalues or eigenvectors. For one polynomial eigensolve returns exactly its zeros. For two or more it returns, in increasing order by real then imaginary part and without repetition, exactly the last members of chains: one zero of each polynomial in the order given, each within 1e-10 of the one before. So every common zero is returned and every answer is a zero of the last polynomial, and if different zeros of the polynomials are at least 1e-10 apart, the answer is exactly the common zeros. It is false that answers are near zeros of all polynomials: for every distance there is a list of linear polynomials whose only answer is further than that from the zero of the first; and the answer depends on the order of the list. Several variables: for a square system with the Bezout number of different zeros, told apart by the random direction, eigensolve raises ConditioningError, or returns exactly the zeros (those with all coordinates of modulus at most 1 unless return_all_roots), each once, or raises IndexError; the last exactly when return_all_roots is off and no zero qualifies. It is false that an empty array is returned in that case: x + y = 4, x = y raises IndexError.", "quantifier": "all lists of polynomials of any length and degree in the power or the Chebyshev basis, exact eigenvalue routines, and for several variables all square systems with simple finite zeros, linear algebra routines meeting their contracts, methods and condition bounds", "why_tests_cant": "The drift of the tolerance along the list grows without bound with the number of polynomials, and exactness must hold for every list; tests check a few pairs whose common zeros are known.", "anchors": ["yroots/polyroots.py:eigensolve", "yroots/OneDimension.py:solve", "yroots/Multiplication.py:multiplication"]}
{"id": "C113", "title": "Polynomials of low degree are approximated exactly, and solve() loses none of their common zeros", "statement": "Let every function passed to solve() be, on every box it searches, a polynomial of degree at most 5 in each variable (at most 2 when there are more than 5 variables), whose top coefficients in each variable are not below the tolerances and which visibly varies through the approximator's test point. Then chebApproximate returns coefficients of exactly that polynomial with a positive error bound, it does return when the polynomial is nonzero at the upper corner, and solve() with this approximator reports a box around every common zero in the given box.", "quantifier": "every dimension, every box, every such polynomial, every fuel, every linear-programming or linear-algebra backend meeting its contract, every minimal size", "why_tests_cant": "The claim joins the adaptive degree search, the grids of all sizes it visits, the averaging over the other variables and the whole subdivision; a test fixes one polynomial and one box.", "anchors": ["yroots/ChebyshevApproximator.py:chebApproximate", "yroots/ChebyshevApproximator.py:getChebyshevDegrees", "yroots/ChebyshevApproximator.py:getFinalDegree", "yroots/ChebyshevApproximator.py:getApproxError", "yroots/Combined_Solver.py:solve"]}
{"id": "C114", "title": "An affine function of one variable is solved completely: one root, one box, no warning", "statement": "For f(x) = c0 + c1*x with c1 nonzero and its zero in [-1,1], the subdivision solver returns exactly one root and exactly one box and raises no extra- or duplicate-root warning; the box contains the zero and its width is at most 2.05*(error/|c1| + 2^-49); with the final step on, the root is within 1e-32 of the zero. If |c0| > |c1| + error it returns nothing. A call solve(f, a, b) whose approximation is affine returns exactly one root, within (b-a)/2*1e-32 of the zero, in a box no wider than the minimal size; in particular solve(f, -1, 1) with f given in either basis and |c1| >= 1e-9 does.", "quantifier": "every c0, c1, positive error, every solver option with at least one zoom allowed, every interval a < b, every linear-algebra backend meeting its contract, every recursion bound above a threshold", "why_tests_cant": "The number of zoom steps is unbounded as error/|c1| shrinks, and the result has to be exactly one box for every position of the zero, including zeros on the boundary of the box where clipping happens; a test fixes a few lines.", "anchors": ["yroots/ChebyshevSubdivisionSolver.py:solveChebyshevSubdivision", "yroots/ChebyshevSubdivisionSolver.py:solvePolyRecursive", "yroots/ChebyshevSubdivisionSolver.py:zoomInOnIntervalIter", "yroots/ChebyshevSubdivisionSolver.py:BoundingIntervalLinearSystem", "yroots/Combined_Solver.py:solve"]}
{"id": "C115", "title": "solve() on any function that is affine on the interval: the zero, or nothing", "statement": "If a Python function g equals L + K*x on [a,b], its zero -L/K lies in [a,b] (the ends included) and |K|(b-a)/2 >= 1e-9, then solve(g, a, b), with the default tolerances and the package's own approximator, terminates with exactly one root, within (b-a)/2*1e-32 of -L/K, in one box that contains the zero and is no wider than 1e-5*max(|a|,|b|,1), without splitting the interval. If instead |g| >= 1e-18 on the whole of [a,b], and g is not constant at the approximator's tolerance, it returns no root.", "quantifier": "every callable g, every L, K, every interval a < b, every linear-algebra backend meeting its contract, every recursion bound above a threshold", "why_tests_cant": "It joins the degree search, the interpolation, the error estimate and the subdivision for every slope, offset and interval; a test runs a few lines on a few intervals.", "anchors": ["yroots/Combined_Solver.py:solve", "yroots/ChebyshevApproximator.py:chebApproximate", "yroots/ChebyshevApproximator.py:getChebyshevDegrees", "yroots/ChebyshevApproximator.py:getApproxError", "yroots/ChebyshevSubdivisionSolver.py:solveChebyshevSubdivision"]}
{"id": "C116", "title": "The units of the equations do not matter to the subdivision solver", "statement": "Multiplying each polynomial together with its error bound by its own power of two (positive or negative exponent, different for each equation) leaves the outcome of solveChebyshevSubdivision unchanged in every respect: the same roots in the same order, the same bounding boxes, the same warnings, the same exception or the same failure to finish within the recursion bound.", "quantifier": "every number of variables, every degree, every coefficient, every list of integer exponents, every option, every recursion bound, every linear-algebra backend meeting its contract", "why_tests_cant": "Every decision of the solver (throwing out, trimming, zooming, stopping, choosing the dimensions to split) compares quantities that scale with the equations; that none of them uses an absolute threshold on a coefficient has to hold along every path of the recursion, also where an equation has no linear part and its row is left unscaled.", "anchors": ["yroots/ChebyshevSubdivisionSolver.py:solveChebyshevSubdivision", "yroots/ChebyshevSubdivisionSolver.py:solvePolyRecursive", "yroots/ChebyshevSubdivisionSolver.py:BoundingIntervalLinearSystem", "yroots/ChebyshevSubdivisionSolver.py:trimMs", "yroots/ChebyshevSubdivisionSolver.py:TransformChebInPlaceND", "yroots/QuadraticCheck.py:quadratic_check"]}
{"id": "C117", "title": "An equation that visibly has no zero ends the search at once", "statement": "If the approximation of one of the functions has a constant term larger than all its other coefficients plus the error bound, or if its terms of degree at most two stay, on the whole box, at least as far from zero as the remaining coefficients and the error bound together can reach, then the subdivision solver returns no root, no box and no warning, and solve() returns no roots after searching the given box once - whatever the other equations are.", "quantifier": "every number of variables (three for the quadratic part in solve()), every system, every position of the equation in the list, every degree, every error bound, every box, every linear-algebra backend meeting its contract", "why_tests_cant": "The quadratic check only looks at finitely many points (corners, critical points on faces); that these decide about the whole box, for every coefficient pattern including the degenerate ones, is a statement about a continuum of systems. A missed case shows only as extra work or as spurious boxes.", "anchors": ["yroots/ChebyshevSubdivisionSolver.py:solvePolyRecursive", "yroots/ChebyshevSubdivisionSolver.py:solveChebyshevSubdivision", "yroots/QuadraticCheck.py:quadratic_check", "yroots/Combined_Solver.py:solve"]}
{"id": "C118", "title": "Neither the order nor the signs of the equations matter", "statement": "Listing the polynomials (each with its own error bound) in another order, or negating any of them, leaves the outcome of solveChebyshevSubdivision unchanged in every respect: the same roots in the same order, the same bounding boxes, the same warnings, the same exception or the same failure to finish within the recursion bound. Passing the functions to solve() in another order gives the same roots, the same boxes and the same searched intervals.", "quantifier": "every number of variables, every degree, every coefficient, every permutation, every choice of signs, every option, every recursion bound, every linear-algebra backend meeting its contract (also one whose singular vectors depend on the order of the rows)", "why_tests_cant": "There are n! orders and 2^n sign patterns for each system, and the singular value decomposition may return different factors for a reordered matrix; that the conditioning test, the parallelepiped bound and the per-coordinate bounds do not depend on them is a statement about all matrices and all decompositions, along every path of the recursion.", "anchors": ["yroots/ChebyshevSubdivisionSolver.py:solveChebyshevSubdivision", "yroots/ChebyshevSubdivisionSolver.py:solvePolyRecursive", "yroots/ChebyshevSubdivisionSolver.py:BoundingIntervalLinearSystem", "yroots/ChebyshevSubdivisionSolver.py:getSubdivisionDims", "yroots/Combined_Solver.py:solve"]}
{"id": "C119", "title": "The reflection arrays give the reflected half of a Chebyshev product", "statement": "Multiplying a polynomial in the Chebyshev basis by T_k of one variable gives half the polynomial with all degrees in that variable raised by k plus half the one with them reflected to |degree - k|. For the dictionary and monomial lists all_permutations_cheb uses, cheb_perturbation2 and cheb_perturbation3 never raise, and permuting the coefficient row of any polynomial whose product fits the matrix with the two returned arrays gives, added up, exactly the reflected part. mons_1D lists the multipliers of degree 2 up to the given degree, once each.", "quantifier": "every number of variables, every variable, every matrix degree D >= 1, every multiplier degree k >= 1, every polynomial of degree at most D - k, every point", "why_tests_cant": "An index that is wrong, written twice or left at 0 shows only for the polynomials with a coefficient there; the arrays have to be right for every dimension and degree, including the monomials whose reflection falls outside the dictionary and is skipped.", "anchors": ["yroots/utils.py:cheb_perturbation2", "yroots/utils.py:cheb_perturbation3", "yroots/utils.py:mons_1D", "yroots/utils.py:all_permutations_cheb"]}
{"id": "C120", "title": "The Chebyshev multiplication arrays multiply by T_k of a variable", "statement": "all_permutations_cheb(deg, dim, matrixDegree) returns, and for every variable and every k from 1 to deg (always for k = 1) its dictionary has an entry for the k-th power of that variable with three arrays of row length. Permuting the coefficient row of a Chebyshev polynomial p with each of the three arrays and adding the three rows gives the row of 2 T_k(variable) p, for every p whose product fits the matrix degree.", "quantifier": "every number of variables, every matrix degree >= 1, every deg, every variable and exponent in range, every polynomial of degree at most matrixDegree - k, every point", "why_tests_cant": "The arrays of the variables themselves are built by other code (inverse permutation with cleared top degrees, masks) than those of the higher powers; whether the cleared and masked positions are right in every dimension and degree needs an argument about all monomials.", "anchors": ["yroots/utils.py:all_permutations_cheb", "yroots/utils.py:permutation_array", "yroots/utils.py:inverse_P", "yroots/utils.py:cheb_perturbation2", "yroots/utils.py:cheb_perturbation3"]}
