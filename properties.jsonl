{"id": "C01", "title": "Evaluation is the Chebyshev series", "statement": "Calling a chebtech (clenshaw) with coefficients c at a point x returns sum_k c_k T_k(x), for one column and, column by column, for several.", "quantifier": "every coefficient array with at least one row, every number of columns, every list of real evaluation points", "why_tests_cant": "The loop is a backward recurrence stepping by two with a parity fix-up; every length has its own number of iterations and every x its own value.", "anchors": ["funpy/cheb/detail.pyx: clenshaw, clenshaw_scalar, clenshaw_vector", "funpy/cheb/chebtech.py: __call__"]}
{"id": "C02", "title": "Values at the Chebyshev points", "statement": "Converting coefficients to values returns exactly the values of the series at the second-kind Chebyshev points in ascending order.", "quantifier": "every coefficient column of length at least one and every grid index", "why_tests_cant": "The transform is a DCT with scaling and a flip: the identity must hold for all lengths and indices, unit tests sample a few.", "anchors": ["funpy/cheb/detail.pyx: polyval", "funpy/cheb/pts.py: chebpts_type2_compute"]}
{"id": "C03", "title": "Coefficient/value transforms are mutually inverse", "statement": "coeffs -> values -> coeffs and values -> coeffs -> values both return the array they started from.", "quantifier": "every array of every length", "why_tests_cant": "Discrete orthogonality for every length N; a factor wrong only at the ends or for one parity passes sampled lengths.", "anchors": ["funpy/cheb/detail.pyx: polyfit, polyval"]}
{"id": "C04", "title": "Prolongation keeps the function", "statement": "Prolonging to a length not smaller than the current one does not change the value at any point; prolonging to a smaller length keeps exactly the leading coefficients; the result always has the requested number of rows (zero when negative).", "quantifier": "every column, every requested length (also negative), every point", "why_tests_cant": "All pairs of lengths.", "anchors": ["funpy/cheb/detail.pyx: prolong", "funpy/cheb/chebtech.py: prolong"]}
{"id": "C05", "title": "diff is the derivative", "statement": "diff(f, n) evaluates at every point to the n-th derivative, for every order n >= 1 including orders not smaller than the length (then it is the zero function), of f after its documented simplification (trailing coefficients of size at most eps^(2/5) dropped); of f itself when the last coefficient exceeds eps^(2/5).", "quantifier": "every coefficient column, every order n>=1, every real point", "why_tests_cant": "The recurrence runs with stride two and special-cases short inputs; correct samples do not fix all lengths and orders.", "anchors": ["funpy/cheb/chebtech.py: diff", "funpy/cheb/diff.py: computeDerCoeffs"]}
{"id": "C06", "title": "diff of order zero", "statement": "diff(f, n=0) returns f itself.", "quantifier": "every function", "why_tests_cant": "A boundary value of a parameter; an existing test suite does not exercise it.", "anchors": ["funpy/cheb/chebtech.py: diff"]}
{"id": "C07", "title": "sum is the definite integral", "statement": "sum(f) equals the integral of f over [-1, 1] for every column.", "quantifier": "every coefficient column of every length", "why_tests_cant": "Exactness for every degree.", "anchors": ["funpy/cheb/chebtech.py: sum"]}
{"id": "C08", "title": "cumsum is the antiderivative vanishing at the left end", "statement": "cumsum(f) has value 0 at -1 and equals the integral of f from -1 to x: exactly (with derivative f everywhere) when the result needed no simplification, in particular when the last coefficient is large enough, and otherwise within 2 (dropped terms) eps^(2/5).", "quantifier": "every coefficient column, every point", "why_tests_cant": "Every length and parity; the constant is an alternating sum over all coefficients.", "anchors": ["funpy/cheb/chebtech.py: cumsum"]}
{"id": "C09", "title": "inner is the L2 inner product", "statement": "inner(f,g) is the matrix of the integrals over [-1,1] of the product of each column of f with each column of g, with no quadrature error.", "quantifier": "every pair of columns of any lengths", "why_tests_cant": "Exactness needs the number of quadrature nodes to exceed the degree of the product for every pair of lengths.", "anchors": ["funpy/cheb/chebtech.py: inner", "funpy/cheb/pts.py: quadwts"]}
{"id": "C10", "title": "Clenshaw-Curtis weights are exact", "statement": "The n quadrature weights integrate every polynomial of degree below n exactly over [-1,1], and are symmetric.", "quantifier": "every n>=1 and every polynomial of degree below n", "why_tests_cant": "An identity in n, computed by an FFT of a folded moment vector.", "anchors": ["funpy/cheb/pts.py: quadwts"]}
{"id": "C11", "title": "Addition, subtraction, negation are pointwise", "statement": "f+g, f-g, -f, f += g and the sum with a number or a row of numbers evaluate pointwise to the sum/difference/negation, whatever the two lengths and with a one-column second operand broadcast (up to the documented snap of sums below 0.2 eps vscale to the zero function).", "quantifier": "every pair of functions of any lengths, every point", "why_tests_cant": "Length alignment, constant handling and zero snapping interact for all pairs of lengths.", "anchors": ["funpy/cheb/ufuncs.pyx: add, subtract, negative"]}
{"id": "C12", "title": "Multiplication is pointwise", "statement": "f*g evaluates at every point to f(x) g(x) up to the dropping of trailing product coefficients of size at most eps^(2/5), exactly when nothing is dropped; number*f, f/number and products with a one-column constant scale; one-column operands are broadcast.", "quantifier": "every pair of functions of any lengths, every point", "why_tests_cant": "The product is a circular convolution of even extensions: aliasing must be absent for all pairs of lengths.", "anchors": ["funpy/cheb/ufuncs.pyx: multiply, coeff_times, coeff_times_main"]}
{"id": "C13", "title": "Multiplying by a constant multi-column function", "statement": "f*g returns the pointwise product also when g is a constant (length one) function with several columns.", "quantifier": "every pair of multi-column functions with equal column counts", "why_tests_cant": "Depends on the one branch taken when a length is one.", "anchors": ["funpy/cheb/ufuncs.pyx: multiply"]}
{"id": "C14", "title": "standardChop is total and in range", "statement": "For every coefficient vector and tolerance in (0,1), standardChop returns a cutoff between 0 and n; tol >= 1 gives 0; fewer than 17 coefficients give n (not happy); the zero vector gives 0; every variable is assigned before it is read and every array access is in bounds.", "quantifier": "every real vector, every tolerance", "why_tests_cant": "Array accesses run with bounds checks disabled (cython); an out of range index for one data-dependent plateau would be silent memory corruption.", "anchors": ["funpy/cheb/detail.pyx: standardChop"]}
{"id": "C15", "title": "standardChop does not depend on scale", "statement": "Multiplying all coefficients by a nonzero constant does not change the cutoff (the tolerance is relative).", "quantifier": "every vector, every nonzero constant", "why_tests_cant": "A relation between two runs over all inputs.", "anchors": ["funpy/cheb/detail.pyx: standardChop"]}
{"id": "C16", "title": "simplify returns a prefix", "statement": "simplify returns a leading part of the (zero padded) coefficients: retained coefficients are unchanged; no column is altered.", "quantifier": "every coefficient array, every tolerance", "why_tests_cant": "Cutoff is data dependent over all arrays.", "anchors": ["funpy/cheb/detail.pyx: simplify_coeffs"]}
{"id": "C17", "title": "simplify never lengthens", "statement": "simplify never returns a longer coefficient array than it was given.", "quantifier": "every coefficient array, every tolerance", "why_tests_cant": "The off by one appears only for unresolved functions.", "anchors": ["funpy/cheb/detail.pyx: simplify_coeffs"]}
{"id": "C18", "title": "Interval map is a bijection", "statement": "The forward map sends [-1,1] onto [a,b] with end points to end points, the backward map is its two-sided inverse and the stored derivative is the derivative of the forward map.", "quantifier": "every a<b and every point", "why_tests_cant": "Real-valued identity on all intervals.", "anchors": ["funpy/mapping.py: Mapping"]}
{"id": "C19", "title": "Calculus on an arbitrary interval", "statement": "For a Fun on [a,b]: diff gives the n-th derivative, sum the integral over [a,b], cumsum the antiderivative vanishing at a, inner the L2(a,b) product.", "quantifier": "every interval a<b, every coefficient column, every order n>=1", "why_tests_cant": "The power of the interval half length must match the order for all orders and intervals.", "anchors": ["funpy/fun.py: diff, sum, cumsum, inner, __call__"]}
{"id": "C20", "title": "Arithmetic rejects mismatched domains", "statement": "A binary operation between Funs whose domains differ by more than the tolerance is rejected.", "quantifier": "every pair of domains", "why_tests_cant": "The check is a one-sided comparison; only one of the two orders is wrong.", "anchors": ["funpy/fun.py: __array_ufunc__"]}
{"id": "C21", "title": "flatten / from_coeffs round trip", "statement": "Flattening the coefficients of a function and rebuilding it from the flat vector with the same number of columns returns the same coefficients; conversely too.", "quantifier": "every n x m coefficient array", "why_tests_cant": "Index arithmetic for all shapes.", "anchors": ["funpy/fun.py: flatten, from_coeffs"]}
{"id": "C22", "title": "Reflection and end point values", "statement": "flipud(f)(x) = f(-x) at every x; lval(f)=f(-1), rval(f)=f(1).", "quantifier": "every coefficient column, every point", "why_tests_cant": "Alternating signs for all lengths.", "anchors": ["funpy/cheb/chebtech.py: flipud, lval, rval"]}
{"id": "C23", "title": "Ultraspherical differentiation matrix", "statement": "The order-m differentiation matrix maps Chebyshev coefficients of every polynomial p of degree below n to the coefficients of its m-th derivative in the ultraspherical C^(m) basis.", "quantifier": "every n, m and every coefficient vector of length n", "why_tests_cant": "A banded matrix identity in n and m.", "anchors": ["funpy/colloc/ultraS/matrices.py: diffmat"]}
{"id": "C24", "title": "Ultraspherical conversion matrices", "statement": "The conversion matrix from C^(k1) (Chebyshev T if 0) to C^(k2) coefficients preserves the represented function, and the inverse conversion undoes it.", "quantifier": "every size n, every k1<=k2, every coefficient vector", "why_tests_cant": "Products of banded matrices over all n and k.", "anchors": ["funpy/colloc/ultraS/matrices.py: convertmat, convertmat_inv", "funpy/colloc/ultraS/transform.py: spconvert, spconvert_inv"]}
{"id": "C25", "title": "Multiplication matrix", "statement": "The order-0 multiplication matrix of a polynomial f applied to Chebyshev coefficients of g gives the leading coefficients of f g.", "quantifier": "every f, every g, every size", "why_tests_cant": "Toeplitz plus Hankel structure for all sizes.", "anchors": ["funpy/colloc/ultraS/matrices.py: multmat"]}
{"id": "C26", "title": "Next power of two", "statement": "findNextPowerOf2(n) is the least power of two not smaller than n, for n >= 2.", "quantifier": "every integer n >= 2", "why_tests_cant": "Bit tricks over all integers.", "anchors": ["funpy/colloc/tools.py", "funpy/support/tools.py: findNextPowerOf2"]}
{"id": "C27", "title": "Sparse column / row edits", "statement": "Deleting a column of a CSC matrix, deleting rows of a CSR matrix by mask and appending rows to a CSR matrix give the matrix a dense delete/append gives.", "quantifier": "every well-formed CSR/CSC matrix and every index", "why_tests_cant": "Three coupled arrays; errors need particular fill patterns.", "anchors": ["funpy/colloc/sparse/csr.py", "funpy/colloc/sparse/csc.py"]}
{"id": "C28", "title": "delete_row_csr removes exactly one row", "statement": "delete_row_csr(A, i) leaves a well-formed CSR matrix equal to A without row i.", "quantifier": "every well-formed CSR matrix and every row index", "why_tests_cant": "The index array is sliced by the row number rather than by the entry count; which matrices survive depends on fill.", "anchors": ["funpy/colloc/sparse/csr.py: delete_row_csr"]}
{"id": "C29", "title": "Fourier value/coefficient transforms", "statement": "trigtech coefficient->value and value->coefficient transforms are mutually inverse and the values are those of the trigonometric polynomial at the n equispaced points of [-1,1).", "quantifier": "every complex array of every length (even and odd)", "why_tests_cant": "Shifts and sign alternations depend on parity, for all n.", "anchors": ["funpy/trig/transform.py: vals2coeffs, coeffs2vals"]}
{"id": "C30", "title": "Fourier evaluation", "statement": "Horner evaluation of a trigtech at x equals sum_k c_k exp(i pi k x) (with the symmetric cosine convention for the highest mode of an even length).", "quantifier": "every coefficient column, every real x", "why_tests_cant": "Parity dependent recurrence for all lengths.", "anchors": ["funpy/trig/eval.py: horner"]}
{"id": "C31", "title": "Fourier prolongation keeps the function", "statement": "Prolonging a trigtech to a larger length leaves its values unchanged; prolonging to a smaller length keeps exactly the low frequencies.", "quantifier": "every column, every larger length, every point", "why_tests_cant": "The highest mode of an even length must be split; four parity combinations for all lengths.", "anchors": ["funpy/trig/trigtech.py: prolong"]}
{"id": "C32", "title": "Fourier derivative", "statement": "trigtech diff of order n is the n-th derivative.", "quantifier": "every column of every length, every order, every point", "why_tests_cant": "All lengths and orders.", "anchors": ["funpy/trig/trigtech.py: diff"]}
{"id": "C33", "title": "Fourier cumsum", "statement": "cumsum of a mean-zero trigtech has derivative f and vanishes at the left end, and does not modify f.", "quantifier": "every mean-zero coefficient column", "why_tests_cant": "Index bookkeeping differs for even and odd lengths.", "anchors": ["funpy/trig/trigtech.py: cumsum"]}
{"id": "C34", "title": "Fourier number / function arithmetic", "statement": "number / f and number ** f evaluate pointwise to number/f(x) and number**f(x).", "quantifier": "every number and function", "why_tests_cant": "Operand order.", "anchors": ["funpy/trig/ufuncs.py: true_divide, power"]}
{"id": "C35", "title": "Fourier real part and conjugate", "statement": "np.real(f)(x) is the real part of f(x), np.imag(f)(x) the imaginary part, np.conj(f)(x) and conj(f)(x) of funpy.trig.trigtech its complex conjugate, up to the construction tolerance.", "quantifier": "every trigtech", "why_tests_cant": "Threshold branches decide by sign-less comparison.", "anchors": ["funpy/trig/trigtech.py: real, imag, conj, __array_ufunc__"]}
{"id": "C36", "title": "Givens rotations", "statement": "givensAlgorithm(f,g) returns c,s,r with c f + s g = r, -s f + c g = 0, c^2+s^2 = 1.", "quantifier": "every pair of reals", "why_tests_cant": "Scaling loops and sign branches over all magnitudes.", "anchors": ["funpy/linalg/helpers.py: givensAlgorithm"]}
{"id": "C37", "title": "Hessenberg determinant", "statement": "slogdet_hessenberg returns sign and log-modulus of the determinant of every upper Hessenberg matrix, and detH its determinant.", "quantifier": "every size and every matrix", "why_tests_cant": "Determinant identity for all n.", "anchors": ["funpy/linalg/helpers.py: slogdet_hessenberg, detH"]}
{"id": "C38", "title": "Permutation parity", "statement": "minimumSwaps returns the least number of swaps sorting a permutation, so its parity is the sign of the permutation.", "quantifier": "every permutation of every length", "why_tests_cant": "All permutations.", "anchors": ["funpy/linalg/helpers.py: minimumSwaps"]}
{"id": "C39", "title": "LU with complete pivoting", "statement": "The factors satisfy P A Q = L U with unit lower triangular L and upper triangular U.", "quantifier": "every square matrix whose elimination completes", "why_tests_cant": "All sizes and pivot orders.", "anchors": ["funpy/linalg/lucp.py"]}
{"id": "C40", "title": "Bordered solves", "statement": "The block elimination solvers return (x, y) solving the bordered system [[A,b],[c^T,d]] exactly whenever the inner solver is exact and the pivots used are nonzero.", "quantifier": "every size, matrix, border and right hand side", "why_tests_cant": "Algebraic identity over all data.", "anchors": ["funpy/linalg/bem_solve.py", "funpy/linalg/bemw_solve.py"]}
{"id": "C41", "title": "Null vectors of the bordered solver", "statement": "nullspace() returns a nonzero vector of the kernel of a singular matrix.", "quantifier": "every singular matrix with regular border", "why_tests_cant": "All data.", "anchors": ["funpy/linalg/bem_solve.py: nullspace, nullspace_adj"]}
{"id": "C42", "title": "Newton error-oriented iteration stops correctly", "statement": "NLEQ-ERR stops after at most the maximal number of iterations, reports success only if the last (simplified) Newton correction is below the tolerance and keeps the damping factor in [lambda_min, 1].", "quantifier": "every residual, every linear solver behaviour (any sequence of norms), every starting value", "why_tests_cant": "Control flow over every sequence of norms.", "anchors": ["funpy/newton/nleq_err.py"]}
{"id": "C43", "title": "Deflated Jacobian", "statement": "The deflated linear operator is the derivative of the deflated residual.", "quantifier": "every state, direction and set of known solutions", "why_tests_cant": "Identity over all data.", "anchors": ["funpy/newton/deflated_residual.py", "funpy/newton/deflation.py"]}
{"id": "C44", "title": "Functional rows", "statement": "The row vector of the functional u -> integral of f u applied to the coefficients of u equals that integral.", "quantifier": "every f, every u of length n", "why_tests_cant": "Quadrature exactness depends on both lengths.", "anchors": ["funpy/functional.py"]}
{"id": "C45", "title": "Adaptive sampling on nested grids", "statement": "Refining n to 2n-1 points by resampling only the new points yields exactly the values of the sampled function on the full new grid.", "quantifier": "every function, every n, any number of refinements", "why_tests_cant": "Interleaving for all n and histories of refinements.", "anchors": ["funpy/cheb/refine.py"]}
{"id": "C46", "title": "Parameter namespace stays in sync", "statement": "After removing functions/parameters from a state its namespace lists exactly the current names, each once.", "quantifier": "every history of additions and removals", "why_tests_cant": "Histories.", "anchors": ["funpy/vectorspaces/base_state.py: sync_ns", "funpy/vectorspaces/namespace.py"]}
{"id": "C47", "title": "State vectors form a vector space with flatten/from_coeffs round trips", "statement": "Arithmetic on continuation states acts componentwise, norm/inner are the weighted sums, and from_coeffs(flatten(u)) = u.", "quantifier": "every state and every number of parameters", "why_tests_cant": "All shapes.", "anchors": ["funpy/vectorspaces/base_state.py", "funpy/vectorspaces/cont_state.py"]}
{"id": "C48", "title": "Restriction to a subinterval", "statement": "restrict(f,[a,b]) evaluates at x in [-1,1] to f at the image of x under the affine map onto [a,b], for every number of columns.", "quantifier": "all functions, all -1 <= a < b <= 1", "why_tests_cant": "real-valued end points and arbitrary coefficients", "anchors": ["funpy/cheb/chebtech.py restrict"]}
{"id": "C49", "title": "Adaptive construction", "statement": "Constructing a function from a callable samples it on nested grids up to maxLength, always terminates, and returns the interpolant with trailing coefficients below tolerance dropped: the result agrees with the sampled function at the grid points (and everywhere for a polynomial) within the stated tolerance; when unhappy the full interpolant on the largest admissible grid is kept.", "quantifier": "all callables, tolerances and maximal lengths", "why_tests_cant": "the callable is an arbitrary function and the number of refinements depends on it", "anchors": ["funpy/cheb/refine.py get_n, Refine", "funpy/cheb/chebtech.py __init__, populate"]}
{"id": "C50", "title": "Stacking and column access", "statement": "hstack(f1,...,fk) is the function whose columns are those of the arguments in order, whatever their lengths; f[i] is column i and an index out of range is rejected.", "quantifier": "all non-empty lists of functions, all indices", "why_tests_cant": "unbounded number and lengths of operands", "anchors": ["funpy/cheb/chebtech.py hstack, __getitem__"]}
{"id": "C51", "title": "Copies are equal", "statement": "A deep copy has the same coefficients and the same parameters (eps, hscale, maxLength, happiness).", "quantifier": "all functions", "why_tests_cant": "must hold for every state of the object", "anchors": ["funpy/cheb/chebtech.py __deepcopy__"]}
{"id": "C52", "title": "numpy.add with an output argument", "statement": "numpy.add(f, g, out=h) stores f+g in h.", "quantifier": "all f, g, h", "why_tests_cant": "every combination of operands", "anchors": ["funpy/cheb/ufuncs.pyx add"]}
{"id": "C53", "title": "Barycentric evaluation matrix", "statement": "The barycentric matrix for points y, Chebyshev points on [a,b] and their weights maps the values of every polynomial of degree below N to its values at y, for every y including the nodes themselves (no division by zero leaks into the result).", "quantifier": "all N >= 2, a < b, all y, all polynomials", "why_tests_cant": "every evaluation point, including exact coincidence with nodes", "anchors": ["funpy/cheb/pts.py bary_weights, barymat_impl, scaleNodes"]}
{"id": "C54", "title": "Spectral differentiation matrices", "statement": "diffmat(x, k) applied to the values of a polynomial of degree below N at the Chebyshev points of [a,b] gives the values of its k-th derivative there, for every order k.", "quantifier": "all N >= 2, k >= 0, a < b, all polynomials", "why_tests_cant": "all orders and sizes", "anchors": ["funpy/cheb/diff.py diffmat"]}
{"id": "C55", "title": "First-kind quadrature", "statement": "The weights returned with the first-kind Chebyshev points integrate polynomials of degree below N exactly.", "quantifier": "all N", "why_tests_cant": "all polynomials", "anchors": ["funpy/cheb/pts.py chebpts_type1"]}
{"id": "C56", "title": "Boundary-row helpers", "statement": "For a vector made of n_eqn equal blocks, remove_bc returns the blocks without their first bw entries, get_bc the first bw entries of every block, replace_bc the blocks shifted up by bw and padded with zeros.", "quantifier": "every vector, number of blocks and bw not above the block length", "why_tests_cant": "index arithmetic over all block shapes", "anchors": ["funpy/colloc/tools.py: remove_bc, replace_bc, get_bc"]}
{"id": "C57", "title": "Numeric helpers", "statement": "round_up returns the least multiple of the divisor not below the number, secant the zero of the line through two points, moving_average the mean of every window, find_nearest an entry of least distance.", "quantifier": "every array and number meeting the preconditions", "why_tests_cant": "all arrays and window lengths", "anchors": ["funpy/support/tools.py: round_up, secant, moving_average, find_nearest, find_nearest_idx"]}
{"id": "C58", "title": "Sparse clean-up and row permutation", "statement": "eliminate_zeros(A, e) zeroes exactly the entries below e in modulus and stores no zero; flip_rows(A, p) has row p[k] of A in position k.", "quantifier": "every well-formed matrix without repeated stored entries, every threshold and permutation", "why_tests_cant": "all sparsity patterns", "anchors": ["funpy/colloc/sparse/csr.py: eliminate_zeros_csr, flip_rows", "funpy/colloc/sparse/csc.py: eliminate_zeros_csc, flip_cols"]}
{"id": "C59", "title": "Fourier evaluation is repeatable", "statement": "Evaluating a trigtech does not change it: evaluating twice at the same point gives the same value.", "quantifier": "every trigtech, every point", "why_tests_cant": "In-place changes show only for some lengths and flags.", "anchors": ["funpy/trig/eval.py: horner, horner_vec_real", "funpy/trig/trigtech.py: __call__"]}
{"id": "C60", "title": "Fourier inner product", "statement": "inner(f, g) is the integral over one period of f times the conjugate of g.", "quantifier": "every pair of columns of any lengths", "why_tests_cant": "All lengths and parities; aliasing.", "anchors": ["funpy/trig/trigtech.py: inner"]}
{"id": "C61", "title": "Fourier addition and scaling", "statement": "f+g, f-g, -f, f+a, f*a and f/a evaluate pointwise, and real operands give a function flagged real.", "quantifier": "every pair of consistent trigtechs, every number", "why_tests_cant": "All lengths and parities, flag combinations.", "anchors": ["funpy/trig/ufuncs.py: add, subtract, negative, multiply, true_divide"]}
{"id": "C62", "title": "Fourier simplify", "statement": "simplify keeps the coefficients of all frequencies below a cutoff and drops only pairs of total modulus at most tol^(2/5).", "quantifier": "every column, every tolerance in (0,1)", "why_tests_cant": "The cutoff is data dependent.", "anchors": ["funpy/trig/trig_simplify.py: simplify_coeffs"]}
{"id": "C63", "title": "Fourier circular shift", "statement": "circshift(f, a)(x) = f(x - a).", "quantifier": "every column, shift and point", "why_tests_cant": "All lengths and shifts.", "anchors": ["funpy/trig/operations.py: circshift"]}
{"id": "C64", "title": "Circular convolution", "statement": "circconv(f, g)(x) is the integral over one period of f(x - t) g(t).", "quantifier": "every pair of columns of equal length, every x", "why_tests_cant": "All lengths.", "anchors": ["funpy/trig/operations.py: circconv"]}
{"id": "C65", "title": "Fourier sampling", "statement": "Sampling and nested refinement give the function's values at the equispaced points of the grid.", "quantifier": "every periodic function, every grid size", "why_tests_cant": "All grid sizes.", "anchors": ["funpy/trig/refine.py", "funpy/trig/trigtech.py"]}
{"id": "C66", "title": "Fourier product", "statement": "f*g evaluates to the pointwise product up to the coefficients dropped by simplification.", "quantifier": "every pair of trigtechs", "why_tests_cant": "Aliasing depends on the parities of the lengths; equal operands take another branch.", "anchors": ["funpy/trig/ufuncs.py: multiply"]}
{"id": "C67", "title": "Fourier integral", "statement": "sum(f) is the integral of f over one period.", "quantifier": "every column of every length", "why_tests_cant": "All lengths and parities.", "anchors": ["funpy/trig/trigtech.py: sum"]}
{"id": "C68", "title": "Fourier coefficient prolongation helpers", "statement": "The functions prolong and prolong_coeffs return N coefficients of the same function for every N not below the length.", "quantifier": "every column, every N", "why_tests_cant": "Parity combinations.", "anchors": ["funpy/trig/trig_simplify.py: prolong", "funpy/trig/trigtech.py: prolong_coeffs"]}
{"id": "C69", "title": "Multiplication matrix in higher ultraspherical bases", "statement": "For lam >= 2 the multiplication matrix of f maps C^(lam) coefficients of g to the leading C^(lam) coefficients of f g, up to trailing C^(lam) coefficients of f below the given tolerance.", "quantifier": "every lam >= 2, every size k, every f with at most k coefficients, every g, every tolerance", "why_tests_cant": "A matrix three-term recurrence on a truncated operator, for all sizes, bases and functions; truncation errors must not reach the kept block.", "anchors": ["funpy/colloc/ultraS/matrices.py: multmat"]}
{"id": "C70", "title": "Integration row", "statement": "The first entry of the integration matrix applied to Chebyshev coefficients is the integral of the function over [-1,1]; all other entries are zero.", "quantifier": "every size and coefficient vector", "why_tests_cant": "An integral identity for every polynomial.", "anchors": ["funpy/colloc/ultraS/matrices.py: intmat"]}
{"id": "C71", "title": "Border updates", "statement": "After any sequence of update_row and update_col calls a bordered solver behaves like one constructed from the current borders.", "quantifier": "every sequence of updates, every size and number of borders", "why_tests_cant": "Ranges over all histories of updates; cached factors must be refreshed in every one of them.", "anchors": ["funpy/linalg/bem_solve.py: update_row, update_col", "funpy/linalg/bemw_solve.py: update_row, update_col, prepare"]}
{"id": "C72", "title": "QR solver", "statement": "For a square matrix A factored by QR: solve and solve_adj return the solutions of A x = b and A^T y = b when R has no zero on its diagonal; null() returns a nonzero right and a unit left null vector up to the last diagonal entry of R; particular and particular_adj return a solution up to the component along the null vector and raise exactly when that component exceeds tol.", "quantifier": "every order, every factorisation allowed by LAPACK's contract, every right hand side and tolerance", "why_tests_cant": "Permutation and transposition conventions must agree for all pivot orders and sizes.", "anchors": ["funpy/linalg/qr_solve.py: QR.solve, solve_adj, null, particular, particular_adj"]}
{"id": "C73", "title": "QR determinant", "statement": "QR.det returns the determinant of A, sign included; with one column more than rows, that of A without the column pivoted last.", "quantifier": "every order and pivot order", "why_tests_cant": "The sign combines the parity of an arbitrary permutation with the number of reflections.", "anchors": ["funpy/linalg/qr_solve.py: QR.det, det_sign", "funpy/linalg/helpers.py: minimumSwaps"]}
{"id": "C74", "title": "Bordered determinant", "statement": "BEM.det returns the determinant of the bordered matrix.", "quantifier": "every order, matrix and border", "why_tests_cant": "Determinant identity for all orders.", "anchors": ["funpy/linalg/bem_solve.py: det"]}
{"id": "C75", "title": "QRCholesky solve returns the shortest solution", "statement": "For a dense full row rank matrix A, QRCholesky(A).solve(b) returns x with A x = b; when A is square that is the solution, when A has more columns than rows x is the solution of least Euclidean norm (the pseudo-inverse). tangent_vector (one more column than rows) is a unit vector of the kernel.", "quantifier": "every full row rank m x n matrix with m <= n, every right hand side", "why_tests_cant": "a minimality claim over all other solutions, and over all matrices and deficiencies; a test with one extra column passes although two extra columns fail", "anchors": ["funpy/linalg/qr_chol.py: QRCholesky.__init__, solve_nonsingular_dense, solve_singular_dense, tangent_vector"]}
{"id": "C76", "title": "QRCholesky's numerical rank does not depend on the scale of the matrix", "statement": "The numerical rank QRCholesky determines with tolerance eps counts the leading diagonal entries of R above eps times the first; multiplying the matrix by a nonzero number does not change it.", "quantifier": "every diagonal of R, every eps > 0, every scaling", "why_tests_cant": "holds for matrices whose first pivot is 1, which tests tend to use", "anchors": ["funpy/linalg/qr_chol.py: QRCholesky.pseudo_rank"]}
{"id": "C77", "title": "QRCholesky determinants", "statement": "QRCholesky(A).det() is det A for square A. For a matrix with one column more than rows detH() is the determinant of the matrix without its last column, whatever column exchanges the factorisation made.", "quantifier": "every real matrix, every pivoting", "why_tests_cant": "the sign depends on the permutation and the number of reflections for every size", "anchors": ["funpy/linalg/qr_chol.py: QRCholesky.det, QRCholesky.detH", "funpy/linalg/helpers.py: minimumSwaps, slogdet_hessenberg", "funpy/linalg/qr.py: qr"]}
{"id": "C78", "title": "Null vectors by complete pivoting", "statement": "right_null_vector(A) of a square matrix of rank n-1 is a unit vector v with A v = 0, and A is not changed by the call.", "quantifier": "every square real matrix with a one dimensional kernel, every pivot order", "why_tests_cant": "gathering and scattering by a permutation agree for exchanges of two columns; only longer cycles tell them apart", "anchors": ["funpy/linalg/nullspace.py: null_vector, right_null_vector", "funpy/linalg/lucp.py: lucp"]}
{"id": "C79", "title": "Bordered systems from one factorisation", "statement": "solve(A,b,c,d,f), solve_null_nonsing (both systems) and BMatrix.solve / solve_null return the solution of the bordered system, also when A itself is singular (BMatrix).", "quantifier": "every order, matrix, border and right hand side for which the bordered matrix is non-singular, every pivot order", "why_tests_cant": "permutation conventions must agree for every pivot order", "anchors": ["funpy/linalg/brd_solve.py: solve, solve_null_nonsing, permutation, BMatrix"]}
{"id": "C80", "title": "brd_null_simp solves the bordered null problem", "statement": "brd_null_simp(A,b,c,d) returns the solution of the bordered system with right hand side (0,...,0,1).", "quantifier": "every order, matrix and border for which the bordered matrix is non-singular", "why_tests_cant": "only pivot orders that are not of order two show the difference", "anchors": ["funpy/linalg/brd_solve.py: brd_null_simp, solve_nonsing, LUCP"]}
{"id": "C81", "title": "Sign and logarithm of a sparse determinant", "statement": "logdet(M) returns the sign of det M and log|det M|.", "quantifier": "every non-singular sparse matrix, every row and column ordering SuperLU picks", "why_tests_cant": "the sign is the parity of two permutations chosen by the library", "anchors": ["funpy/linalg/helpers.py: logdet, logdet_detail_superlu, minimumSwaps"]}
{"id": "C82", "title": "In-place state arithmetic is all or nothing", "statement": "x += y (and the other in-place operations) on states either performs the componentwise operation on every parameter and function of x, keeping its weights and its namespace, or raises and leaves x unchanged.", "quantifier": "every pair of states, every failing or succeeding function operation", "why_tests_cant": "Exceptions in the middle of an update: every component and every failure point.", "anchors": ["funpy/vectorspaces/base_state.py: __array_ufunc__"]}
{"id": "C83", "title": "Iterating over a state or a function", "statement": "for c in x visits every column once, in order, and nested loops over the same object visit every pair.", "quantifier": "every number of columns", "why_tests_cant": "The iteration state is stored in the object; all interleavings.", "anchors": ["funpy/vectorspaces/base_state.py: __iter__, __next__", "funpy/fun.py: __iter__, __next__"]}
{"id": "C84", "title": "Namespaces are not shared by accident", "statement": "Assigning a parameter in the namespace of the result of an arithmetic operation, a copy or zeros_like does not change the operands.", "quantifier": "every state, every later assignment", "why_tests_cant": "Aliasing over histories.", "anchors": ["funpy/vectorspaces/base_state.py: __array_ufunc__, __deepcopy__, zeros_like, __setitem__"]}
{"id": "C85", "title": "Changing the continuation parameter keeps all parameter values", "statement": "from_state(x, name, value) gives a state whose parameter dictionary is that of x with name set to value, each name listed once, and leaves x unchanged.", "quantifier": "every state, every parameter name", "why_tests_cant": "All names and dictionaries.", "anchors": ["funpy/vectorspaces/cont_state.py: from_state", "funpy/vectorspaces/tp_cont_state.py: from_state", "funpy/vectorspaces/base_state.py: items"]}
{"id": "C86", "title": "Arithmetic with tangents", "statement": "The sum of two Moore-Penrose states has the sum of the states and a tangent of norm one in the direction of the sum of the tangents.", "quantifier": "every pair of states with tangents, every inner product", "why_tests_cant": "All data.", "anchors": ["funpy/vectorspaces/mp_state.py: __array_ufunc__", "funpy/vectorspaces/base_state.py: normalize"]}
{"id": "C87", "title": "Saving and loading", "statement": "Reading a function or continuation state back from the HDF5 file it was written to gives the same coefficients, domain, parameter, weights and namespace.", "quantifier": "every function and continuation state", "why_tests_cant": "All data.", "anchors": ["funpy/fun.py: writeHDF5, from_hdf5", "funpy/cheb/chebtech.py: writeHDF5, from_hdf5", "funpy/vectorspaces/cont_state.py: from_hdf5", "funpy/vectorspaces/base_state.py: writeHDF5"]}
{"id": "C88", "title": "Quasi-Newton steps inside NLEQ-ERR", "statement": "QNERR started by NLEQ-ERR after a full Newton step ends after at most its maximal number of iterations (plus one), performs Broyden's method with exact arithmetic (each step solves the Broyden system whose matrix satisfies the secant condition), and reports success only if its last step is below the tolerance.", "quantifier": "every residual, invertible Jacobian, inner product, starting point", "why_tests_cant": "Quantifies over all nonlinear problems; each step depends on the whole history of steps.", "anchors": ["funpy/newton/qnerr.py"]}
{"id": "C89", "title": "Newton.solve(method='qnerr')", "statement": "QNERR called on its own accepts a correction only if its norm is below the tolerance, measures the contraction by the ratio of norms, and reports failure of the linear solver or a stop by the callback as failure.", "quantifier": "every problem and scaling", "why_tests_cant": "All problems and failure points.", "anchors": ["funpy/newton/qnerr.py", "funpy/newton/newton.py: solve"]}
{"id": "C90", "title": "Standard Newton iteration", "statement": "newton_standard makes at most miter steps, reports success only after a Newton correction below the tolerance, and reports failure (never raises) if a linear system cannot be solved.", "quantifier": "every residual, solver behaviour, callback and starting point", "why_tests_cant": "All sequences of solver results.", "anchors": ["funpy/newton/newton_standard.py"]}
{"id": "C91", "title": "The initial guess is not modified", "statement": "Solving a nonlinear system leaves the state passed as the initial guess unchanged.", "quantifier": "every problem and guess", "why_tests_cant": "Depends on the iteration history.", "anchors": ["funpy/newton/newton_standard.py", "funpy/newton/nleq_err.py"]}
{"id": "C92", "title": "Quasi-Newton only after full steps", "statement": "NLEQ-ERR starts QNERR only after an undamped step (lambda = 1), the case for which the secant condition holds.", "quantifier": "every run of NLEQ-ERR", "why_tests_cant": "All histories of the damping strategy.", "anchors": ["funpy/newton/nleq_err.py"]}
{"id": "C93", "title": "Results of NLEQ-ERR reach the caller", "statement": "Newton.solve and NewtonSeeker.solve with method 'nleq' return the state, success flag and iteration count computed by NLEQ-ERR.", "quantifier": "every run", "why_tests_cant": "All results.", "anchors": ["funpy/newton/newton.py: solve", "funpy/newton/newton_seeker.py: solve"]}
{"id": "C94", "title": "Iterative linear solver GBIT", "statement": "gbit ends after at most max_iter (+1) iterations; its steps are those of the good Broyden method; success means that the next correction is below the requested tolerance; an exact initial guess is accepted; a diverging iteration is abandoned.", "quantifier": "every linear operator, preconditioner, right hand side, guess, inner product and parameters", "why_tests_cant": "All operators and all histories of steps and restarts.", "anchors": ["funpy/linalg/gbit.py"]}
{"id": "C95", "title": "GIANT-GBIT stops correctly", "statement": "giant_gbit stops after at most max_iter + 1 iterations, keeps the damping factor in [lambda_min, 1], and reports success exactly when the returned state has a (simplified) correction below the tolerance.", "quantifier": "every residual, every behaviour of the linear solver, every starting value", "why_tests_cant": "All nonlinear problems and all sequences of solver results.", "anchors": ["funpy/newton/giant.py"]}
{"id": "C96", "title": "Deflation removes known solutions only", "statement": "The deflation factor is the product of shift + 1/|u-k|^power; away from the known solutions the deflated residual vanishes exactly where the residual does, and it stays bounded away from zero near a known solution of order at most the power.", "quantifier": "every residual, every set of known solutions, every u, shift >= 0 and power", "why_tests_cant": "A statement about all points near every root.", "anchors": ["funpy/newton/deflation.py: deflation", "funpy/newton/deflated_residual.py: rhs", "funpy/newton/NewtonSystem.py: rhs"]}
{"id": "C97", "title": "Deflated preconditioner", "statement": "The preconditioner of the deflated operator applies the inverse of eta P + F(u) d (Sherman-Morrison).", "quantifier": "every preconditioner P, residual, functional and vector", "why_tests_cant": "Identity over all data.", "anchors": ["funpy/newton/FrechetDeflatedPrecond.py", "funpy/newton/deflated_residual.py: DeflatedResidualPrecond"]}
{"id": "C98", "title": "Weighted functional rows", "statement": "Functional(f, weighted=True) applied to the coefficients of u is the integral of f u with the Chebyshev weight, summed over the columns.", "quantifier": "every f and u of the same shape", "why_tests_cant": "All lengths and numbers of columns.", "anchors": ["funpy/functional.py: Functional"]}
{"id": "C99", "title": "Functional leaves its argument alone", "statement": "Building Functional(f, n=...) does not change f.", "quantifier": "every f, every n", "why_tests_cant": "Aliasing: the damage shows only in later uses of f.", "anchors": ["funpy/functional.py: Functional", "funpy/fun.py: prolong", "funpy/colloc/coeffsDiscretization.py: convertToFunctional"]}
{"id": "C100", "title": "Constraint rows in coefficient space", "statement": "The row obtained from a value-space functional (boundary condition) by the discretisation, applied to Chebyshev coefficients, equals the functional applied to the values at the Chebyshev points.", "quantifier": "every functional row, every number of points and equations, every coefficient vector", "why_tests_cant": "Identity over all sizes and data.", "anchors": ["funpy/colloc/coeffsDiscretization.py: convertFunctional"]}
{"id": "C101", "title": "Functions representing functionals", "statement": "Turning a coefficient row into a function and building the functional of that function gives the row back, and conversely.", "quantifier": "every row, every function, every size", "why_tests_cant": "Round trip over all data.", "anchors": ["funpy/colloc/coeffsDiscretization.py: toFunction", "funpy/functional.py"]}
{"id": "C102", "title": "Clenshaw-Curtis weights are positive", "statement": "All quadrature weights are positive, so quadrature of a function bounded by B on [-1,1] is at most 2B in absolute value.", "quantifier": "every number of points, every function", "why_tests_cant": "All N.", "anchors": ["funpy/cheb/pts.py: quadwts"]}
{"id": "C103", "title": "Operator block matrix", "statement": "The matrix built for a linear differential/integral operator block a_0 u + a_1 u' + ... + sum ic_k * int int_k u, applied to the Chebyshev coefficients of u, gives the C^(K) coefficients of L[u] whenever the products fit in n coefficients, and in general gives the first coefficients (index i with i + 2K < n) exactly.", "quantifier": "every interval, size n, order, coefficient functions and u", "why_tests_cant": "All sizes and all coefficient functions.", "anchors": ["funpy/colloc/ultraS/ultraS.py: quasi2diffmat", "funpy/colloc/ultraS/matrices.py: diffmat, convertmat, multmat, intmat, reduceOne"]}
{"id": "C104", "title": "Solutions of the assembled system", "statement": "A coefficient vector solves matrix x = right hand side of the discretised system exactly when the function satisfies every constraint and the residual L[u] - f has no C^(K) coefficient below n - K; the matrix is square exactly with K constraints per function.", "quantifier": "every system size, n, K, operator, constraints, right hand side", "why_tests_cant": "All systems and data.", "anchors": ["funpy/colloc/OpDiscretization.py: matrix", "funpy/colloc/coeffsDiscretization.py: reduce, project_vector, convertFunctional", "funpy/colloc/ultraS/ultraS.py"]}
{"id": "C105", "title": "Adjoint matrices", "statement": "Building the matrix with adjoint=True discretises the formal adjoint sum_j (-1)^j (a_j v)^(j) plus the transposed integral terms.", "quantifier": "every operator and function", "why_tests_cant": "All operators.", "anchors": ["funpy/colloc/ultraS/ultraS.py: quasi2diffmat(adjoint=True)"]}
{"id": "C106", "title": "Operator arithmetic", "statement": "Sums, negatives, differences and products of operator blocks and systems act as the corresponding combination of the operators.", "quantifier": "every pair of operators, every function", "why_tests_cant": "All operators.", "anchors": ["funpy/colloc/quasiOpBlock.py: QuasiOpBlock.__add__, __neg__, __sub__", "funpy/colloc/quasiOp.py: QuasiOp.__add__, __mul__"]}
{"id": "C107", "title": "Constraint rows", "statement": "The row produced for a scalar constraint g(u) = value with affine g is the derivative of the constraint residual, so that a Newton step removes the residual.", "quantifier": "every affine constraint, every required value, every size", "why_tests_cant": "All functionals and values.", "anchors": ["funpy/colloc/chebOpConstraint.py: residual, linearize"]}
{"id": "C108", "title": "Eigenvalue pencil", "statement": "(lambda, u) is an eigenpair of the discrete pencil exactly when u satisfies the homogeneous constraints and L[u] - lambda u has no C^(K) coefficient below n - K.", "quantifier": "every operator, constraint set, size and real lambda", "why_tests_cant": "All operators and sizes.", "anchors": ["funpy/colloc/eig.py", "funpy/colloc/OpDiscretization.py: matrix"]}
{"id": "C109", "title": "Adaptive solver", "statement": "SolverAdaptive.solve always returns; the sizes tried are strictly increasing and at least the size of the guess; success means that the last Newton run converged and the returned state is its result or within eps of it; failure returns the guess of the last run; it stops early only after agreement or max_fail_steps initial failures.", "quantifier": "every Newton solver (converging or not), every state, size and option", "why_tests_cant": "Quantifies over all behaviours of the inner solver.", "anchors": ["funpy/colloc/adapt.py: SolverAdaptive.n_disc, solve"]}
{"id": "C110", "title": "Nested grids", "statement": "The Chebyshev grids used by the adaptive solver are nested.", "quantifier": "every size of the initial guess", "why_tests_cant": "All sizes.", "anchors": ["funpy/colloc/adapt.py: SolverAdaptive.n_disc"]}
{"id": "C111", "title": "Adaptive refinement ends on agreement", "statement": "The adaptive solver ends before the last size with success only if two successive approximations differ by less than eps.", "quantifier": "every Newton solver", "why_tests_cant": "All solvers, including ones that work in place.", "anchors": ["funpy/colloc/adapt.py: SolverAdaptive.solve"]}
{"id": "C112", "title": "Fourier operator matrix", "statement": "The matrix trigspec assembles for a periodic linear differential-integral-nonlocal operator maps the n Fourier coefficients of u to the n Fourier coefficients of L[u].", "quantifier": "every interval, number of coefficients, operator block (any order, coefficient functions of any length, non-local terms) and every u", "why_tests_cant": "All sizes, orders, coefficient lengths and functions; both truncation branches of the multiplication matrix.", "anchors": ["funpy/colloc/trigspec/trigspec.py: trigspec.diff, int, mult, aggregation, quasi2diffmat", "funpy/colloc/trigspec/matrices.py: diffmat, multmat, intmat, aggmat", "funpy/colloc/ultraS/transform.py: sptoeplitz"]}
{"id": "C113", "title": "Periodic systems are Galerkin", "statement": "For an m x m system the assembled matrix applied to the stacked coefficients gives the Fourier coefficients of every component of L[u]; the solutions of the discrete system are exactly the trigonometric polynomials whose residual is orthogonal to the n exponentials; with constant coefficients they solve the equation.", "quantifier": "every system size, discretization size, operator and right side", "why_tests_cant": "All sizes and all operators.", "anchors": ["funpy/colloc/coeffsDiscretization.py: instantiate, matrix", "funpy/colloc/trigspec/trigspec.py: reduce, quasi2diffmat"]}
{"id": "C114", "title": "Aggregation operator", "statement": "aggregation(m) is the m-th derivative of u -> 1/2 int_0^1 u(x+r)-u(x-r) dr on every interval.", "quantifier": "every interval, size, u and m in {0,1}", "why_tests_cant": "All intervals, sizes and functions.", "anchors": ["funpy/colloc/trigspec/trigspec.py: aggregation", "funpy/colloc/trigspec/matrices.py: gen_m0, gen_m1, aggmat"]}
{"id": "C115", "title": "Adjoint of a periodic operator", "statement": "The matrix built with adjoint=True represents the adjoint operator: int L[u] w = int u L*[w].", "quantifier": "every operator, size and pair of functions", "why_tests_cant": "All operators and functions.", "anchors": ["funpy/colloc/coeffsDiscretization.py: instantiate(adjoint=True)", "funpy/colloc/trigspec/trigspec.py: quasi2diffmat"]}
{"id": "C116", "title": "Newton-Gauss tangent", "statement": "The tangent LinearSolverNGSchur computes is the unit vector in the kernel of [Fu Fa] that points in the direction of the old tangent.", "quantifier": "every invertible Fu, every Fa, every old tangent not orthogonal to the kernel, in any inner product space", "why_tests_cant": "All operators, spaces and tangents.", "anchors": ["funpy/linalg/schur_solve.py: LinearSolverNGSchur.__init__, new_tangent, tangent_vector"]}
{"id": "C117", "title": "Newton-Gauss correction", "statement": "LinearSolverNGSchur.solve returns the solution of the linearised equation in the hyperplane orthogonal to the tangent.", "quantifier": "every operator, tangent and right side", "why_tests_cant": "All operators and right sides.", "anchors": ["funpy/linalg/schur_solve.py: solve"]}
{"id": "C118", "title": "Bifurcation points by bordering", "statement": "bif_pt and bif_dir return the solution of the doubly bordered system with right side (0,0,1).", "quantifier": "every operator, border vectors and sizes", "why_tests_cant": "All operators, borders and numbers of equations.", "anchors": ["funpy/linalg/schur_solve.py: bif_pt, bif_dir, prolong"]}
{"id": "C119", "title": "Fold solver", "statement": "FoldSolver.solve and solve_adj return the solution of the bordered fold system.", "quantifier": "every right side and every bordered solver", "why_tests_cant": "All inputs.", "anchors": ["funpy/linalg/fold_solve.py: FoldSolver.solve, solve_adj"]}
{"id": "C120", "title": "Exact linear solver", "statement": "ExactLinearSolver.solve(b) returns the projected solution of A x = b for the methods 'lu' and 'qr'.", "quantifier": "every matrix and right side", "why_tests_cant": "All matrices.", "anchors": ["funpy/linalg/exact_linear_solver.py: ExactLinearSolver"]}
{"id": "C121", "title": "Newton-Gauss operators", "statement": "For the continuation corrector and its preconditioner, _matvec is the product with to_matrix() and _rmatvec is the adjoint.", "quantifier": "every derivative matrix, parameter derivative and vector of any size", "why_tests_cant": "All sizes and entries.", "anchors": ["funpy/newton/newton_gauss.py: NewtonGaussContinuationCorrector, NewtonGaussContinuationCorrectorPrecond"]}
{"id": "C122", "title": "Roots: completeness", "statement": "f.roots() returns every zero of f in its domain [a,b].", "quantifier": "every function (any coefficients, any interval), any number of columns", "why_tests_cant": "All functions; zeros anywhere in the interval, any number of splittings.", "anchors": ["funpy/cheb/detail.pyx: roots_main, roots_scalar, roots, fft_weights", "funpy/cheb/chebtech.py: roots", "funpy/fun.py: roots"]}
{"id": "C123", "title": "Roots: soundness", "statement": "Every value f.roots() returns is a zero of f and lies in the domain.", "quantifier": "every function", "why_tests_cant": "All functions.", "anchors": ["funpy/cheb/detail.pyx: roots_main"]}
{"id": "C124", "title": "Roots: accuracy", "statement": "The values returned by f.roots() are zeros up to the tolerance of f.", "quantifier": "every function and tolerance", "why_tests_cant": "All functions and tolerances.", "anchors": ["funpy/cheb/detail.pyx: roots_main, roots_scalar", "funpy/cheb/chebtech.py: roots"]}
{"id": "C125", "title": "Roots of several columns", "statement": "f.roots() returns one array of roots per column for every function with several columns.", "quantifier": "every function with any number of columns", "why_tests_cant": "All functions.", "anchors": ["funpy/cheb/detail.pyx: roots, roots_scalar"]}
{"id": "C126", "title": "Minimum and maximum", "statement": "minandmax returns the minimum and the maximum of every column over the interval, and points where they are attained.", "quantifier": "every function with any number of columns", "why_tests_cant": "All functions: the extrema may lie anywhere.", "anchors": ["funpy/cheb/minmax.py: minmaxCol", "funpy/cheb/chebtech.py: minandmax"]}
{"id": "C127", "title": "QR: orthonormal factors", "statement": "Q, R = qr(F): the columns of Q are orthonormal in L2 of the domain of F, R is upper triangular with non-negative diagonal, and F still represents the same functions afterwards.", "quantifier": "every function with several columns on any interval, any tolerance", "why_tests_cant": "All column counts, coefficients and intervals; the loss of orthogonality of a reflection shows only for special columns.", "anchors": ["funpy/qr.py: abstractQR", "funpy/cheb/qr.py: qr", "funpy/cheb/chebtech.py: qr", "funpy/fun.py: qr"]}
{"id": "C128", "title": "QR: product", "statement": "Q, R = qr(F): F = Q R.", "quantifier": "every function with several columns, any scale", "why_tests_cant": "All functions; fails only for special scales.", "anchors": ["funpy/qr.py: abstractQR", "funpy/cheb/qr.py: qr", "funpy/fun.py: qr"]}
{"id": "C129", "title": "QR: always defined", "statement": "qr(F) returns a factorisation for every F.", "quantifier": "every function with any number of columns", "why_tests_cant": "All functions.", "anchors": ["funpy/cheb/qr.py: qr", "funpy/cheb/chebtech.py: qr, __init__"]}
{"id": "C130", "title": "QR: Q is an ordinary function", "statement": "The Q returned by qr(F) can be used like every other Fun (differentiated, simplified, prolonged).", "quantifier": "every function with a factorisation", "why_tests_cant": "All functions.", "anchors": ["funpy/cheb/qr.py: qr", "funpy/cheb/detail.pyx: simplify_coeffs, prolong"]}
{"id": "C131", "title": "L^p norm for even p", "statement": "norm(f, p) for even p is the p-th root of the sum over the columns of the integrals of |f|^p over the domain.", "quantifier": "every Chebyshev function, interval, column count and even p", "why_tests_cant": "All functions; aliasing shows only for special ones.", "anchors": ["funpy/fun.py: norm, norm2", "funpy/cheb/ufuncs.pyx: power, absolute"]}
{"id": "C132", "title": "L^1 norm and absolute value", "statement": "norm(f, 1) is the sum over the columns of the integrals of |f|; abs(f) and the norms of odd index are defined for every f.", "quantifier": "every Chebyshev function and interval", "why_tests_cant": "All functions and lengths.", "anchors": ["funpy/fun.py: norm, norm2", "funpy/cheb/ufuncs.pyx: power, absolute"]}
{"id": "C133", "title": "Maximum norm", "statement": "norm(f, inf) is the largest |f(x)| over the domain and the columns.", "quantifier": "every Chebyshev function and interval", "why_tests_cant": "All functions; fails only for special positions of the critical points.", "anchors": ["funpy/fun.py: norm, minandmax", "funpy/cheb/chebtech.py: minandmax"]}
{"id": "C134", "title": "Weighted norm", "statement": "norm(f, weighted=True) is the L2 norm with the Chebyshev weight; a weighted norm with p != 2 is rejected.", "quantifier": "every Chebyshev function and interval", "why_tests_cant": "All functions.", "anchors": ["funpy/fun.py: norm, innerw"]}
{"id": "C135", "title": "Sobolev norms", "statement": "wkpnorm(f, p, k)^p (h1norm, h2norm for k=1,2) is the sum of the p-th powers of the L^p norms of f and its first k derivatives.", "quantifier": "every Chebyshev function, even p, every k", "why_tests_cant": "All functions and k.", "anchors": ["funpy/fun.py: wkpnorm, h1norm, h2norm, norm2"]}
{"id": "C136", "title": "Signed norm", "statement": "sturm_norm(f) is plus or minus norm(f), with the sign of f' at the left end.", "quantifier": "every Chebyshev function", "why_tests_cant": "All functions; fails only where f' vanishes at the end.", "anchors": ["funpy/fun.py: sturm_norm"]}
{"id": "C137", "title": "normalize", "statement": "normalize(f) is a multiple of f with L2 norm one.", "quantifier": "every non-zero Chebyshev function", "why_tests_cant": "All functions.", "anchors": ["funpy/fun.py: normalize, norm"]}
{"id": "C138", "title": "Elementwise numpy functions", "statement": "For a numpy function u, np.u(f) is the function u(f(x)) on the domain of f.", "quantifier": "every function f and every real u", "why_tests_cant": "All functions; aliasing shows only for special ones.", "anchors": ["funpy/cheb/chebtech.py: chebtech.__array_ufunc__", "funpy/fun.py: Fun.__array_ufunc__"]}
{"id": "C139", "title": "Quotients", "statement": "f/g and a/g are the pointwise quotients where g has no zero, for every combination of column counts that f*g accepts.", "quantifier": "every pair of functions on one domain", "why_tests_cant": "All functions and lengths.", "anchors": ["funpy/cheb/ufuncs.pyx: true_divide"]}
{"id": "C140", "title": "numpy.true_divide with an output argument", "statement": "np.true_divide(x1, x2, out=h) stores x1/x2 in h; f /= a divides f by a.", "quantifier": "every function, number and output function", "why_tests_cant": "All functions; the case out != x1 is not exercised by the operators.", "anchors": ["funpy/cheb/ufuncs.pyx: true_divide", "funpy/fun.py: Fun.__array_ufunc__"]}
{"id": "C141", "title": "compose", "statement": "compose(f, u) is x -> u(f(x)) on the domain of f.", "quantifier": "every function, domain and u", "why_tests_cant": "All domains; correct on [-1,1] only.", "anchors": ["funpy/fun.py: compose, get_composer, Fun.__init__"]}
{"id": "C142", "title": "Inverse of a mapping", "statement": "Mapping.inv() is the inverse map of the mapping.", "quantifier": "every interval", "why_tests_cant": "All intervals.", "anchors": ["funpy/mapping.py: Mapping.inv, Mapping.__init__"]}
{"id": "C143", "title": "Constant functions", "statement": "zeros_like(f), ones_like(f), zeros(n), ones(n), asfun(number) are the constant functions with the right columns and domain.", "quantifier": "every function, n, interval and number", "why_tests_cant": "All shapes.", "anchors": ["funpy/fun.py: zeros_like, ones_like, zeros, ones, asfun"]}
{"id": "C144", "title": "Conversion between ultraspherical bases", "statement": "ultra2ultra(c, l1, l2) are the coefficients, in the ultraspherical basis of order l2, of the function with coefficients c in the basis of order l1; shape is kept, converting back gives c, and from_ultra(v, k, lam) is the k-column function with these coefficients on the given domain.", "quantifier": "every coefficient array, every pair of non-negative integer orders, every domain", "why_tests_cant": "All lengths and orders.", "anchors": ["funpy/ultra.py: ultra2ultra, jac2jac, scl", "funpy/fun.py: Fun.from_ultra"]}
{"id": "C145", "title": "Conversions leave their argument alone", "statement": "ultra2ultra(c, l1, l2) and from_ultra(v, k, lam) return a new array and leave the caller's coefficient array unchanged.", "quantifier": "every coefficient array and pair of orders", "why_tests_cant": "All arrays; the returned values are right, only the argument shows it.", "anchors": ["funpy/ultra.py: ultra2ultra, jac2jac", "funpy/fun.py: Fun.from_ultra", "funpy/colloc/ultraS/ultraS.py: ultraS.toFunctionIn"]}
{"id": "C146", "title": "The two conversion implementations agree", "statement": "For two or more coefficients, ultra2ultra and the (inverse) sparse conversion matrices of the ultraspherical discretization give the same coefficients.", "quantifier": "every length >= 2 and every pair of orders", "why_tests_cant": "All sizes and orders.", "anchors": ["funpy/ultra.py: ultra2ultra", "funpy/colloc/ultraS/matrices.py: convertmat, convertmat_inv"]}
{"id": "C147", "title": "Fourier collocation differentiation matrices", "statement": "trigcolloc diffmat(n, m) maps the values of every trigonometric polynomial with n coefficients at the n equispaced points to the values of its m-th derivative at these points.", "quantifier": "every n >= 1, order m >= 0 and trigonometric polynomial", "why_tests_cant": "All sizes, orders and polynomials.", "anchors": ["funpy/colloc/trigcolloc/matrices.py: diffmat"]}
{"id": "C148", "title": "trigtech differentiation matrices", "statement": "trigtech.diffmat(n, k) maps the values of every trigonometric polynomial with n coefficients at the n equispaced points to the values of its k-th derivative at these points.", "quantifier": "every n >= 1, order k >= 0 and trigonometric polynomial", "why_tests_cant": "All sizes, orders and polynomials.", "anchors": ["funpy/trig/trigtech.py: diffmat"]}
{"id": "C149", "title": "Chebyshev collocation objects", "statement": "A chebcolloc2 object built from the values of polynomials of degree below N at the N second-kind points of [a,b] evaluates to these polynomials everywhere in [a,b] and raises outside; np.diff(f, n=k) is the object of their k-th derivatives; f[j] is the object of the j-th one.", "quantifier": "every N >= 1, interval, list of polynomials, order k and point", "why_tests_cant": "All polynomials, orders and points.", "anchors": ["funpy/colloc/chebcolloc/chebcolloc2.py: __call__, eval, diffmat, diff, __getitem__", "funpy/colloc/valsDiscretization.py: valsDiscretization", "funpy/cheb/diff.py: diffmat"]}
{"id": "C150", "title": "Compiled linearisation", "statement": "For every system of differential equations given as source strings, the coefficients compiled by Source.compile, multiplied by the derivatives of a direction and summed over unknowns and orders, give the derivative of the residual in that direction at every point; the coefficients depend only on x, the unknowns, the constant functions and the parameters.", "quantifier": "every list of equations and constraints in the grammar (x, parameters, constant functions, unknowns and their derivatives, sums, products, powers, quotients, sin, cos, exp, D), every smooth state and direction, every point where the residual is defined", "why_tests_cant": "All expressions, states, directions and points.", "anchors": ["funpy/colloc/source/compiler.py: Source.compile, linearize, get_diff_order", "funpy/colloc/source/OperatorSource.py: OperatorSource.action", "funpy/colloc/source/DiffOperatorSource.py: DiffOperatorSource"]}
{"id": "C151", "title": "Compiled second derivative", "statement": "When the differential order found by the compiler covers every unknown (see C150), the compiled bilinear form of an equation at directions v and w is the derivative in direction w of the directional derivative in direction v of that equation.", "quantifier": "every equation in the grammar, smooth state, pair of smooth directions and point where the residual is defined", "why_tests_cant": "All expressions, states and directions.", "anchors": ["funpy/colloc/source/compiler.py: bilinear, compile_fold", "funpy/colloc/source/OperatorSource.py: OperatorSource.biaction"]}
{"id": "C152", "title": "Compiled parameter derivative", "statement": "The function compiled for a continuation parameter returns the derivative of every component of the residual (equation plus constraint) with respect to this parameter.", "quantifier": "every equations, constraints, parameter, smooth state and point", "why_tests_cant": "All expressions and parameters.", "anchors": ["funpy/colloc/source/compiler.py: compile_dp", "funpy/colloc/pDerivative.py: DerivativeFunctional"]}
{"id": "C153", "title": "Compiled parameter derivative of the linearisation", "statement": "The function compiled for a continuation parameter returns the derivative with respect to this parameter of the directional derivative of the residual.", "quantifier": "every equations, constraints, parameter, direction, smooth state and point", "why_tests_cant": "All expressions, directions and parameters.", "anchors": ["funpy/colloc/source/compiler.py: bilinear_dp", "funpy/colloc/linearFunctional.py: linearFunctional"]}
{"id": "C154", "title": "Choosing the parameter of a derivative", "statement": "Calling a compiled parameter derivative with pname returns the derivative with respect to pname, with respect to the current continuation parameter if no name is given, and raises KeyError if none was compiled for it.", "quantifier": "every set of compiled parameters, current parameter and requested name", "why_tests_cant": "All tables and names.", "anchors": ["funpy/colloc/pDerivative.py: DerivativeFunctional.__call__", "funpy/colloc/linearFunctional.py: linearFunctional.__call__, call_dict"]}
{"id": "C155", "title": "Compiled adjoint of the second derivative", "statement": "The compiled adjoint form at p and phi is the L2 adjoint of w -> F_uu[p, w] applied to phi: the integral of phi.F_uu[p,w] equals the integral of its product with w for every w vanishing at the ends.", "quantifier": "every system in the grammar, smooth state, p, phi and w", "why_tests_cant": "All systems and directions.", "anchors": ["funpy/colloc/source/compiler.py: bilinear (adjoint=True)", "funpy/colloc/source/OperatorSource.py: OperatorSource.transpose"]}
{"id": "C156", "title": "Compiled linearisation of integral terms", "statement": "For an equation with terms m(x) * Integral(f(u,x)) the compiled block, local coefficients plus integral operators v -> c(x) * integral of d v, gives the derivative of the residual in every direction.", "quantifier": "every equation in the grammar with any number of integral terms, every smooth state and direction, every domain and point, whether or not the installed sympy splits integrals of sums", "why_tests_cant": "All equations, states, directions and domains.", "anchors": ["funpy/colloc/source/compiler.py: linearize", "funpy/colloc/source/IntegralOperatorSource.py: IntegralOperatorSource", "funpy/colloc/linBlock.py: LinBlock"]}
{"id": "C157", "title": "Newton correction solves the linearised equations", "statement": "For equations given as source strings, a Chebyshev state u and a vector D solving the system assembled by ChebOp.discretize(u) for the right hand side projected by the discretisation, the functions with coefficients D satisfy the boundary rows, and the derivative of the residual in direction D equals the residual at u up to ultraspherical coefficients that vanish below index n-2K (below n-K when all products fit into n coefficients), K being the compiled order. For polynomial equations the compiled coefficients and the residual are always Chebyshev series.", "quantifier": "every system in the grammar with an order found by the compiler, every domain, smooth state, number n of coefficients, boundary rows and solution of the assembled system", "why_tests_cant": "All systems, states, directions and sizes at once; relates symbolic differentiation to the assembled matrix.", "anchors": ["funpy/colloc/source/compiler.py: Source.compile, linearize", "funpy/colloc/linBlock.py: quasi", "funpy/colloc/rhs.py: Residual.update", "funpy/colloc/ultraS/ultraS.py: quasi2diffmat", "funpy/colloc/OpDiscretization.py: matrix"]}
{"id": "C158", "title": "A copy of an operator equals the operator", "statement": "copy.deepcopy(op) has the same functions, constant functions, operators, kernels, parameters, equations, constraints, boundary conditions, domain, discretisation size and tolerances as op.", "quantifier": "every ChebOp object", "why_tests_cant": "the attributes range over an unbounded space and the loss depends on which ones were set", "anchors": ["funpy/colloc/chebOp.py: ChebOp.__init__, __deepcopy__"]}
{"id": "C159", "title": "compile brings the system up to date", "statement": "After any history of assignments to op.eqn, calls of compile, setDisc, op(u) and discretize, a further op.compile(par, fold, bif) leaves a compiled system for the present equations with the requested parts; and the system in force after a history is that of a definite call of it.", "quantifier": "every operator and every finite history of calls", "why_tests_cant": "histories are unbounded", "anchors": ["funpy/colloc/chebOp.py: compile, discretize"]}
{"id": "C160", "title": "The residual reported is that of the whole equation", "statement": "op.residual(u) is computed from the residual of the compiled equations at u, whatever calls came before; the operator and its compiled system agree on the discretisation size.", "quantifier": "every operator, every residual and every history of calls", "why_tests_cant": "degrees and histories are unbounded", "anchors": ["funpy/colloc/chebOp.py: setDisc, __call__, residual, discretize", "funpy/colloc/rhs.py: Residual.update", "funpy/colloc/LinSys.py: setDisc"]}
{"id": "C161", "title": "Saving and loading an operator", "statement": "op.writeHDF5 followed by readHDF5 into a fresh ChebOp() gives an operator with the same equations, names, parameters, sizes and tolerances.", "quantifier": "every operator", "why_tests_cant": "names and equations have unbounded length", "anchors": ["funpy/colloc/chebOp.py: writeHDF5, readHDF5"]}
{"id": "C162", "title": "Constraints are part of the equations solved", "statement": "If constraints are given with the equations, each Newton step solves (in coefficient space, exactly up to the boundary rows) the linearisation at u of the sum of the i-th equation and the i-th constraint, with right-hand side the sum of their residuals; every list of constraints is accepted.", "quantifier": "every system of equations, every list of constraints, every state and size", "why_tests_cant": "orders, sizes and coefficient lists are unbounded", "anchors": ["funpy/colloc/LinSys.py: quasi, update_partial", "funpy/colloc/rhs.py: Residual.update", "funpy/colloc/quasiOp.py: __add__", "funpy/colloc/quasiOpBlock.py: __add__", "funpy/colloc/source/compiler.py: compile"]}
{"id": "C163", "title": "The generated Python code computes the equation", "statement": "The Python function generated for an equation, for the coefficient of a derivative or for an integral term, applied to functions on the operator's domain, returns a function on that domain equal to the mathematical expression (diff = derivative, int(e) = integral over the domain, int(e,(x,lo,hi)) = integral between the bounds).", "quantifier": "every expression built from numbers, parameters, x, unknown functions, arithmetic, elementary functions, derivatives and integrals", "why_tests_cant": "expressions are unbounded trees; whether a value is a number or a function is decided at run time", "anchors": ["funpy/cbcode.py: FunPyPrinter", "funpy/colloc/source/NonlinearOperatorSource.py: NonlinearFunctionSource.emit_detail", "funpy/colloc/source/DiffOperatorSource.py: emit", "funpy/colloc/source/IntegralOperatorSource.py: emit", "funpy/colloc/source/support.py: sympy_base_program", "funpy/fun.py: asfun"]}
{"id": "C164", "title": "An operator is evaluated with the parameters of the state it is given", "statement": "op.discretize(u), op(u) and op.residual(u) compute with the parameter values stored in the state u (continuation parameters and namespace); without a state, with the values in op.parameter_names.", "quantifier": "every operator, every state, every finite history of compile, discretize, op(u), residual and assignments to parameter_names", "why_tests_cant": "histories are unbounded and the values in force depend on all earlier calls", "anchors": ["funpy/colloc/chebOp.py: compile, discretize, __call__, residual", "funpy/colloc/LinSysBase.py: setParameters, setParametersPartial", "funpy/colloc/LinSys.py: update, update_partial, quasi", "funpy/vectorspaces/base_state.py: items, update_items"]}
{"id": "C165", "title": "With one coefficient the linear system is the operator on constants", "statement": "When an operator is discretised with n = 1 the matrix maps a vector of constants to the values of the linearised operator on these constant functions (integrals taken over the operator's domain), the transpose is returned as adjoint, and the operator is left unchanged.", "quantifier": "every system with constant coefficients, every domain, every vector of constants", "why_tests_cant": "systems and numbers of integral terms are unbounded, the domain ranges over all intervals", "anchors": ["funpy/colloc/realDiscretization.py: realDiscretization", "funpy/colloc/chebOp.py: discretize_system", "funpy/colloc/quasiOpBlock.py: QuasiOpBlock"]}
{"id": "C166", "title": "Tiling by reflections", "statement": "Reflection(f)(x, n) evaluates on f's domain the continuous function glued from n copies of f squeezed to width 1/n and alternately reflected: every point gets a value of f, the two sides of every tile end mirror each other, the integral is kept, and one tile (n = 1) is f itself, more tiles starting the same way.", "quantifier": "every function, every number of tiles, every evaluation point", "why_tests_cant": "functions, tile numbers and points are unbounded; the floating masks are closed intervals that overlap", "anchors": ["funpy/support/reflection.py: Reflection"]}
{"id": "C167", "title": "Handles and names of the generated code", "statement": "Compiling an operator of any shape leaves it holding, for every coefficient, integral term, residual component, derivative in a parameter, constraint and boundary condition, the generated function that computes exactly that; and when the generated functions run they find under the user's names the user's constant functions and parameter values.", "quantifier": "all numbers of equations, unknowns, derivative orders, integral terms, constraints, boundary conditions and (continuation) parameters, all names", "why_tests_cant": "The names of the generated functions are built from printed indices and share one dictionary with each other and with the user's names; two blocks of a large system have the same name, and whether that or a user's name does harm depends on the order of executions and lookups for every shape.", "anchors": ["funpy/colloc/LinSys.py:LinSys.build", "funpy/colloc/linOp.py:LinOp.build", "funpy/colloc/linBlock.py:LinBlock.build", "funpy/colloc/rhs.py:Residual.build", "funpy/colloc/linearFunctional.py:linearFunctional.build", "funpy/colloc/pDerivative.py:DerivativeFunctional.build", "funpy/colloc/source/OperatorSourceBlock.py:OperatorSourceBlock.emit", "funpy/colloc/source/DiffOperatorSource.py", "funpy/colloc/source/IntegralOperatorSource.py", "funpy/colloc/source/BoundaryConditionsSource.py", "funpy/colloc/source/compiler.py:Source.compile"]}
{"id": "C168", "title": "Accuracy of evaluation in floating point", "statement": "In double precision the computed value of a Chebyshev series of n coefficients at a point of [-1, 1] is the exact value of a series whose coefficients differ by at most about 24 n^2 2^-53 times the sum of the absolute coefficients, so that the value is that accurate; on [a, b] the error of the map adds a term with the factor (|a|+|b|)/(b-a).", "quantifier": "all coefficient vectors up to length 2^24, all double points and domains, every choice of fused or separate operations by the compiler", "why_tests_cant": "A rounding error analysis must hold for all coefficients, points, lengths and compiler choices; a test compares a few values with a reference.", "anchors": ["funpy/cheb/detail.pyx:clenshaw_scalar", "funpy/cheb/detail.pyx:clenshaw_vector", "funpy/fun.py:Fun.__call__", "funpy/mapping.py:Mapping", "setup.py"]}
{"id": "C169", "title": "Accuracy of the definite integral in floating point", "statement": "In double precision np.sum of a function returns its integral up to about 6 n 2^-53 times the sum of the absolute coefficients (times the length of the domain), in whatever order the library adds up the products.", "quantifier": "all double coefficient vectors up to length 2^24, all double domains, all orders of summation, with or without fused operations", "why_tests_cant": "The order of summation inside a matrix product is not specified and depends on library, size and hardware; tests see one of them.", "anchors": ["funpy/cheb/chebtech.py:sum", "funpy/fun.py:sum"]}
{"id": "C170", "title": "A function can be evaluated at every point of its domain", "statement": "f(x) returns a value for every double x with a <= x <= b, in particular at both ends and at the function's own sample points.", "quantifier": "all double domains, all coefficient vectors, all lists of points in the domain", "why_tests_cant": "Whether the mapped end point is rounded above one depends on the last bits of the ends of the domain; tests use domains with small integer ends.", "anchors": ["funpy/fun.py:Fun.__call__", "funpy/mapping.py:Mapping"]}
{"id": "C171", "title": "Exact laws of evaluation in floating point", "statement": "In double precision, without any error: a constant has its value everywhere, prolongation by zeros changes no value, the values of -f are minus the values of f, and an even function has even values.", "quantifier": "all coefficient vectors, all double points, every choice of fused or separate operations", "why_tests_cant": "The laws must hold bit for bit for all coefficients and points.", "anchors": ["funpy/cheb/detail.pyx:clenshaw_scalar", "funpy/cheb/detail.pyx:clenshaw_vector", "funpy/cheb/detail.pyx:prolong"]}
{"id": "C172", "title": "Sample grids do not depend on what happened before", "statement": "The points a function is sampled at, and the points f.x it reports, are the Chebyshev points (on the function's domain) after any history of constructions, requests for points, cache evictions and in-place operations on arrays the user was given.", "quantifier": "all histories of constructions, point requests and in-place writes, all sizes and domains, all callables", "why_tests_cant": "The grids are shared objects in a cache of limited size; whether an in-place operation somewhere changes a later construction depends on the whole history.", "anchors": ["funpy/cheb/pts.py:chebpts_type2_compute", "funpy/cheb/pts.py:scaleNodes", "funpy/cheb/refine.py:Refine", "funpy/cheb/chebtech.py:chebtech.x", "funpy/fun.py:Fun.x", "funpy/fun.py:Fun.__init__"]}
{"id": "C173", "title": "The generated code works on the domain of the operator", "statement": "The variable x, the constant functions and the constant coefficients of the generated code live on exactly the domain given to the operator.", "quantifier": "all double domain ends", "why_tests_cant": "The domain passes through a decimal literal with 16 digits after the point; which ends survive depends on their size and last bits, tests use ends like 0, 1 or pi.", "anchors": ["funpy/colloc/source/compiler.py:Source.__emit_common", "funpy/colloc/source/DiffOperatorSource.py", "funpy/colloc/source/IntegralOperatorSource.py"]}
{"id": "C174", "title": "Parameters may have either sign", "statement": "The residual of an operator is the equation as written, evaluated with the current values of the parameters, whatever their sign: abs, sign and roots of squares of expressions with parameters included.", "quantifier": "all equations built from numbers, parameters, function values, sums, products, abs, sign and roots of squares, all parameter values, all sign inferences sympy may make", "why_tests_cant": "The equation is rewritten symbolically once, for parameters declared positive, and evaluated later with other numbers: a test with positive parameters never sees it.", "anchors": ["funpy/colloc/source/support.py: sympy_base_program, sympy_rhs_program"]}
{"id": "C175", "title": "Orientation of a direction", "statement": "orientation_y(u) is the sign of the integral of the first component of u; it vanishes only for u = 0 and changes sign with u.", "quantifier": "all functions on all intervals", "why_tests_cant": "The sign is a property of the whole function, tests look at a few functions.", "anchors": ["funpy/support/tools.py: orientation_y"]}
{"id": "C176", "title": "theta_interp interpolates", "statement": "theta_interp(s1, s2, kappa, kc) is, to three decimals, a proper mean of s1 and s2 that moves monotonically from s1 to s2 as kappa grows and is their middle at kappa = kc.", "quantifier": "all real arguments", "why_tests_cant": "Monotonicity and the limits concern all values of kappa.", "anchors": ["funpy/support/tools.py: theta_interp"]}
{"id": "C177", "title": "Accuracy of the derivative in floating point", "statement": "The coefficients np.diff(f) computes in double precision give a function that differs from the derivative of f, everywhere on its domain, by no more than rounding: 36 n^2 / (b - a) times 2^-53 times the sum of k |c_k| (plus underflow); the result has one coefficient less and the derivative of a straight line on [-1, 1] is exact.", "quantifier": "all functions with 2 to 2^24 coefficients, all domains no shorter than 2^-1000, all points", "why_tests_cant": "Rounding errors accumulate along a recurrence whose length is the number of coefficients; a test compares a few functions at a few points.", "anchors": ["funpy/cheb/diff.py: computeDerCoeffs", "funpy/fun.py: diff"]}
{"id": "C178", "title": "Accuracy of running integrals in floating point", "statement": "The function np.cumsum(f) computes in double precision differs from the integral of f from the left end, everywhere on the domain, by no more than rounding plus twice what simplify removed; its value at the left end is zero up to rounding, whatever simplify removed.", "quantifier": "all functions with 1 to 2^24 coefficients, all summation orders, all domains no shorter than 2^-1000, all points", "why_tests_cant": "Quantifies over all coefficient vectors, all orders of the library's sums and all points.", "anchors": ["funpy/cheb/chebtech.py: cumsum, lval", "funpy/fun.py: cumsum"]}
{"id": "C179", "title": "Sums in floating point", "statement": "f + g differs from the sum of the two functions by one rounding per coefficient and the tolerance below which a sum is taken for zero; f - f is exactly 0, adding 0, doubling and negating twice are exact, and f + g = g + f.", "quantifier": "all functions with double coefficients, all tolerances", "why_tests_cant": "The order of operands and the tolerance matter only for some pairs of functions.", "anchors": ["funpy/cheb/ufuncs.pyx: add, subtract, negative, multiply"]}
{"id": "C180", "title": "Adaptive Fourier construction", "statement": "Constructing a periodic function (type='trig') from callables samples them on nested equispaced grids of 8, 16, ... 4096 points, always terminates, and returns the trigonometric interpolant on the last grid with only coefficients below the tolerance dropped, so that trigonometric polynomials resolved by the grid are reproduced everywhere up to the tolerance, whatever the domain.", "quantifier": "all lists of callables, all tolerances between 0 and 1, all domains, all points", "why_tests_cant": "Whether a grid is accepted depends on all coefficients of the function on it; a test tries a few functions.", "anchors": ["funpy/trig/trigtech.py: __init__, populate, happy, simplify", "funpy/trig/refine.py: Refine"]}
{"id": "C181", "title": "Translation of periodic functions", "statement": "np.roll(f, s) is the periodic function x -> f(x - s), on any domain [a, b].", "quantifier": "all real periodic functions with an odd number of coefficients, all domains, all shifts, all points", "why_tests_cant": "The translation has to be right at every point for every domain and shift.", "anchors": ["funpy/fun.py: roll", "funpy/trig/operations.py: circshift"]}
{"id": "C182", "title": "Circular convolution on a domain", "statement": "np.convolve(f, g) of two periodic functions on [a, b] is the integral over one period of f(x - t) g(t), with f extended periodically; the operands stay the same functions; functions on different domains are refused.", "quantifier": "all pairs of real periodic functions with odd numbers of coefficients, all domains, all points", "why_tests_cant": "Quantifies over all pairs of lengths and all domains.", "anchors": ["funpy/fun.py: convolve", "funpy/trig/operations.py: circconv"]}
{"id": "C183", "title": "Adhesion operator", "statement": "adhesion(f, g), with g holding the Fourier coefficients of a kernel w, is the integral of f(x + r) w(r) dr, for every domain and every sensing interval, real for real f; f stays the same function.", "quantifier": "all real periodic f, all kernels and intervals of integration, odd numbers of coefficients, all domains, all points", "why_tests_cant": "The kernel, the interval and the domain are arbitrary.", "anchors": ["funpy/fun.py: adhesion", "funpy/trig/operations.py: trig_adhesion"]}
{"id": "C184", "title": "Calculus of periodic functions on a domain", "statement": "On any domain [a, b], np.sum of a periodic function is its integral over [a, b], np.inner the integral of f conj(g) (functions on different domains are refused), np.diff(f, n) the n-th derivative, again a real periodic function, and derivatives integrate to zero.", "quantifier": "all periodic functions (derivatives: real, odd number of coefficients), all domains, all orders, all points", "why_tests_cant": "Each identity is over all domains, lengths and orders.", "anchors": ["funpy/fun.py: sum, diff, inner", "funpy/trig/trigtech.py: sum, diff, inner"]}
{"id": "C185", "title": "eigs returns the eigenvalues of the discretised operator", "statement": "eigs(op) returns numbers lambda for which the discretised generalised eigenvalue problem A x = lambda B x (operator with its constraint rows against the projected identity) has a non-trivial solution; of a regular pencil every eigenvalue is returned unless its QZ denominator is at most op.eps; those with negative real part come first; a failed decomposition is reported by False; a real number returned has a real eigenfunction.", "quantifier": "every operator discretisation, every QZ decomposition of its pencil, every tolerance", "why_tests_cant": "All pencils of all sizes; infinite eigenvalues of the constraint rows must never be returned.", "anchors": ["funpy/colloc/eig.py: eigs, GeneralizedEigenvalueOp"]}
{"id": "C186", "title": "chebtech compose", "statement": "compose(f, op) and compose(f, op, g) of funpy.cheb.chebtech return x -> op(f(x)) (op(f(x), g(x))) up to the tolerance of adaptive construction and leave f and g unchanged.", "quantifier": "all functions, all operations", "why_tests_cant": "All lengths of the arguments; the result is right only for at most nine coefficients.", "anchors": ["funpy/cheb/chebtech.py: compose", "funpy/cheb/refine.py: RefineCompose1, RefineCompose2"]}
{"id": "C187", "title": "numpy functions of periodic functions", "statement": "np.u(f) and np.u(f, g), for a numpy function u without a rule of its own (exp, sin, conjugate, maximum, ...), is the periodic function x -> u(f(x)), x -> u(f(x), g(x)) up to the tolerance of adaptive construction; g may be a number; f and g stay the same functions.", "quantifier": "every pair of periodic functions, every numpy function", "why_tests_cant": "All lengths and functions; evaluation of the operands at the sample points must not change them.", "anchors": ["funpy/trig/trigtech.py: trigtech.__array_ufunc__", "funpy/trig/eval.py: horner_scl_real"]}
{"id": "C188", "title": "Periodic functions with several columns", "statement": "Evaluation, sum and product of periodic functions with several columns act column by column, an operand with one column counting for every column (product: up to the coefficients dropped by simplification); the operands stay the same.", "quantifier": "all array-valued periodic functions, all numbers of columns and lengths", "why_tests_cant": "Every combination of column counts and lengths takes another broadcasting path.", "anchors": ["funpy/trig/ufuncs.py: add, multiply", "funpy/trig/eval.py: horner", "funpy/trig/trig_simplify.py: simplify_coeffs"]}
{"id": "C189", "title": "Solving an equation", "statement": "op.solve(f, p, eps, state, adaptive) returns (u, success, res): success means that u solves Op[u] = f to the tolerance eps, res is the p-norm of the residual, failure is reported by success = False, and the operator is left as it was.", "quantifier": "every operator, every Newton solver (converging or not), every initial guess, tolerance, norm index and option", "why_tests_cant": "Quantifies over all behaviours of the Newton solver and all arguments.", "anchors": ["funpy/colloc/chebOp.py: ChebOp.solve, ChebOp.residual", "funpy/colloc/adapt.py: SolverAdaptive.__init__, solve", "funpy/newton/newton_base.py: NewtonBase.__init__"]}
{"id": "C190", "title": "Arithmetic between an ordinary and a periodic function", "statement": "Adding or multiplying a Chebyshev function f and a periodic function g, in either order, returns a function whose values are those of f + g (f * g) up to the construction tolerance.", "quantifier": "every pair of one-column functions, real or complex, every tolerance, either order", "why_tests_cant": "Quantifies over all functions and all points; tests sample a few smooth periodic pairs.", "anchors": ["funpy/cheb/ufuncs.pyx: add, multiply (trigtech branches)", "funpy/trig/ufuncs.py: add, multiply (chebtech branches)", "funpy/cheb/chebtech.py: chebtech.__array_ufunc__", "funpy/trig/trigtech.py: trigtech.__array_ufunc__"]}
{"id": "C191", "title": "What a state shows of itself", "statement": "plot_values(cidx, norm_type) returns the active parameter and the p-norm of column cidx of the function, with the sign of its derivative ('Sturm') or its value ('SturmNeumann') at the left end, measured from the mean for the '...0' types, or its Sobolev norm ('Wkp'); mass() returns the integral of every function; variation() returns maximum minus minimum, summed over the columns.", "quantifier": "every state, column index, norm type, exponent", "why_tests_cant": "All functions, domains and column indices; the defects show only on domains of length other than one or for extrema outside the domain.", "anchors": ["funpy/vectorspaces/cont_state.py: ContinuationState.plot_values", "funpy/vectorspaces/State.py: plot_values", "funpy/vectorspaces/base_state.py: mass, variation", "funpy/fun.py: sturm_norm, sturm_norm_alt, h1norm"]}
{"id": "C192", "title": "Norms of periodic functions", "statement": "norm(f, p) of a periodic function is the p-th root of the integral of |f(x)|^p over the domain, and norm2(f, p) that integral, for real and complex f.", "quantifier": "every periodic function of one column, every domain, every natural p >= 1", "why_tests_cant": "All functions, domains and exponents; the defects need complex values or a negative real part.", "anchors": ["funpy/fun.py: norm, norm2", "funpy/trig/trigtech.py: real, imag, __array_ufunc__", "funpy/trig/ufuncs.py: power"]}
{"id": "C193", "title": "In-place arithmetic of periodic functions", "statement": "f += g, f -= g, f *= g and f /= g, for a periodic function f on a domain and g a periodic function on the same domain or a number, leave in f the function f op g returns, and g is the same function as before; when the statement raises, f is unchanged.", "quantifier": "every periodic function f, every second operand (function, number, array with one entry), every domain", "why_tests_cant": "Values, coefficients and the flag that decides how f is evaluated are updated separately, and only for some operands; a test compares a few values of a few real functions.", "anchors": ["funpy/fun.py: Fun.__array_ufunc__", "funpy/trig/ufuncs.py: add, subtract, multiply, true_divide", "funpy/trig/trigtech.py: trigtech.prolong"]}
{"id": "C194", "title": "Searching for several solutions: what is deflated and what a solve leaves behind", "statement": "A NewtonSeeker deflates, in every solve, exactly the solutions reported to it with append and those its own earlier successful solves found (unless learn_solution=False), each with the value it had when it was reported or found; failed solves teach it nothing; solve with any documented method returns; miter bounds the iterations; and an initial guess can be used again.", "quantifier": "every history of append and solve calls, with any solver and any initial guesses, interleaved with the caller making functions and changing them in place", "why_tests_cant": "The list of known solutions holds references to objects the caller and the solver also hold; whether a solution is forgotten depends on the whole history and on the pass in which earlier runs ended.", "anchors": ["funpy/newton/newton_seeker.py: NewtonSeeker.append, NewtonSeeker.solve", "funpy/newton/giant.py: giant_gbit", "funpy/newton/deflation.py: deflation", "funpy/vectorspaces/base_state.py: BaseState.__array_ufunc__"]}
{"id": "C195", "title": "In-place arithmetic of ordinary functions", "statement": "f += g, f -= g, f *= g and f /= g, with g a function (f itself included), a number, or one number for each column of f, leave in f the sum, difference, product or quotient with the number of columns f had, change no other function of the program, and change nothing at all when they raise. Making a function from others changes none of them.", "quantifier": "every program: any sequence of constructions, expressions, +f, copies, columns, real parts and in-place statements (also after caught exceptions), any functions, columns, lengths and numbers", "why_tests_cant": "The effect of an in-place statement on other functions depends on which objects and arrays they share, hence on the whole history of the program.", "anchors": ["funpy/fun.py: Fun.__array_ufunc__, Fun.__copy__, Fun.__getitem__, real", "funpy/cheb/chebtech.py: chebtech.__getitem__, real, prolong", "funpy/cheb/ufuncs.pyx: add, subtract, multiply, true_divide, positive, power"]}
{"id": "C196", "title": "Accuracy of the evaluation of a periodic function in floating point", "statement": "Calling a periodic function f at x in double precision returns the exact value of its Fourier series up to 200 n (u (1 + |x|) + d) times the sum of the moduli of the n coefficients (plus an underflow term 200 n 2^-1075), where u = 2^-53 and d bounds the errors of the C library's cos, sin and exp; on a domain [a, b] the rounding of the map to [-1, 1] adds 64 n u (|a| + |b|)/(b - a) times that sum; and the values at the two ends agree up to twice the bound.", "quantifier": "every coefficient vector with 128 n (u (1 + |x|) + d) <= 1, every point, every accuracy d of the library functions, every choice of fused multiply-adds in complex products", "why_tests_cant": "Tests sample a few functions and points; the bound must hold for every rounding pattern and for every C library of the stated accuracy.", "anchors": ["funpy/trig/eval.py: horner_scl_real, horner_vec_real, horner_scl_cmplx, horner_vec_cmplx, horner", "funpy/trig/trigtech.py: feval", "funpy/fun.py: Fun.__call__"]}
{"id": "C197", "title": "Exact laws of the evaluation of a periodic function in floating point", "statement": "In double precision, whatever the accuracy of the C library: a constant periodic function has exactly its value everywhere; the values of -f are exactly minus the values of f; prolonging a real function with an odd number of coefficients to any larger number changes no bit of any value; and if the library's cos is even and its sin odd, then the value at -x is exactly the value at x of the function with conjugated coefficients, so a function with real coefficients has exactly even values.", "quantifier": "every coefficient vector of doubles, every point, every C library (respecting parity for the last two laws), every choice of fused multiply-adds in complex products, every larger number of coefficients", "why_tests_cant": "Tests sample a few functions and points; exact equality of floating-point results must hold for every rounding pattern.", "anchors": ["funpy/trig/eval.py: horner_scl_real, horner_vec_real, horner_scl_cmplx, horner_vec_cmplx, horner", "funpy/trig/trigtech.py: prolong"]}
{"id": "C198", "title": "Accuracy of products in floating point", "statement": "The product of two Chebyshev functions with coefficients f and g, computed in double precision with FFTs, has nf + ng - 1 coefficients, each within 20 (d + u) ||f|| ||g|| of the corresponding coefficient of the exact product (plus 4 e (1 + ||f|| + ||g||) + 16 2^-1075 for underflow), where ||.|| is the sum of the moduli of the coefficients, u = 2^-53 and d, e are the relative and absolute accuracy of the FFT library; hence the values of the product differ from the product of the values by at most nf + ng - 1 times that bound at every point of every domain. Without fused operations f*g and g*f are the same bits.", "quantifier": "every pair of coefficient vectors of doubles, every FFT library of accuracy d, e <= 1/16, every choice of fused multiply-adds, every point and domain", "why_tests_cant": "Tests sample a few functions; the bound must hold for every rounding pattern, every length and every FFT library of the stated accuracy.", "anchors": ["funpy/cheb/ufuncs.pyx: coeff_times, coeff_times_main, multiply"]}
{"id": "C199", "title": "Accuracy of the transforms between values and coefficients in floating point", "statement": "In double precision, the coefficients computed from values v at N >= 2 Chebyshev points each differ from those of the interpolating polynomial by at most 5 (d + u) sum|v| / (N - 1) + 2 e + 4 N 2^-1075, so that the computed polynomial takes the sampled values up to 10 (d + u) sum|v| + 2 N e + 4 N^2 2^-1075; the values computed from coefficients c differ from those of the polynomial at the Chebyshev points by at most 2 (d + u) sum|c| + e + 3 N 2^-1075; values -> coefficients -> values returns the values up to 22 (d + u) sum|v| + 4 N e + 8 N^2 2^-1075 and coefficients -> values -> coefficients the coefficients up to 22 (d + u) sum|c| + 8 e + 24 N 2^-1075. A single value is copied exactly. Here u = 2^-53 and d, e are the relative and absolute accuracy of the cosine transform library.", "quantifier": "every vector of values or coefficients, every cosine transform library of relative accuracy d <= 1/16, every point index", "why_tests_cant": "Tests sample a few functions; the bound must hold for every rounding pattern, every length and every transform library of the stated accuracy.", "anchors": ["funpy/cheb/detail.pyx: polyfit, polyval"]}
{"id": "C200", "title": "Accuracy of the transforms between values and Fourier coefficients in floating point", "statement": "In double precision, the coefficients computed from N >= 2 values v at equispaced points each differ from those of the interpolating trigonometric polynomial by at most 4 (d + u) sum|v| / N + 2 e + 3 (1 + sum|v|) 2^-1075, so that the computed series takes the given values up to N times that; the values computed from coefficients c differ from those of the series at the equispaced points by at most 8 (d + u) sum|c| + 2 e + 8 2^-1075; values -> coefficients -> values and coefficients -> values -> coefficients return what they started from up to 16 (d + u) times the sum of the moduli (plus underflow terms). Without any error: values with v(-x) = conj v(x) give real coefficients; real coefficients, not all 0, give values with v(-x) = conj v(x); a single value is copied. u = 2^-53; d, e are the relative and absolute accuracy of the FFT library.", "quantifier": "every vector of complex double values or coefficients, every FFT library of accuracy d, e <= 1/16, every index", "why_tests_cant": "Tests sample a few functions; the bounds must hold for every rounding pattern, every length and every FFT library of the stated accuracy.", "anchors": ["funpy/trig/transform.py: vals2coeffs, coeffs2vals, isHerm, isSkew"]}
{"id": "C201", "title": "Accuracy of sampling in floating point", "statement": "In double precision, the N >= 2 computed sample points are doubles of [-1, 1] within s + 16u of the Chebyshev points, and are symmetric about 0 when the library's sine is odd; the grid of 2N-1 points contains the grid of N points bit for bit, so refining by reusing the stored values gives exactly what sampling afresh gives. Constructing from a callable that computes a polynomial h of degree < N with accuracy r gives coefficients each within E = 6 (r + N^2 |h| (s + 16u)) + 10 (d + u) |h| + 2e + 4N 2^-1075 of those of h, hence a function within N E of h everywhere on [-1, 1]; sampling and then evaluating, both in floating point, stays within the corresponding explicit bound of what the callable itself returns. |h| is the sum of the moduli of the coefficients, u = 2^-53, s the accuracy of the library's sine, d and e the relative and absolute accuracy of the cosine transform.", "quantifier": "every number of points, every mathematical library of accuracy s, every cosine transform of accuracy d, e, every callable and every polynomial it computes with accuracy r, every point of [-1, 1]", "why_tests_cant": "Tests sample a few functions on a few grids with one library; the bounds must hold for every rounding pattern, every length and every library of the stated accuracy.", "anchors": ["funpy/cheb/pts.py: chebpts_type2_compute", "funpy/cheb/refine.py: Refine", "funpy/cheb/chebtech.py: populate", "funpy/cheb/detail.pyx: polyfit"]}
{"id": "C202", "title": "Building a function on a domain in floating point, integrating and differentiating it", "statement": "In double precision, the points of [a, b] at which the callable is evaluated are doubles within 6u(|a|+|b|) + 4 2^-1075 of the mapped Chebyshev points and lie in [a, b]. If the callable computes, on the doubles of [a, b], a polynomial of degree < N with accuracy r, the coefficients of the function built are each within an explicit E of those of the polynomial (the bound of C201 with r increased by N^2 |h| 12u (|a|+|b|)/(b-a)); the function is within N E of it everywhere on [a, b]; the computed np.sum is the integral of the polynomial and the computed np.diff its derivative, everywhere on [a, b], up to explicit bounds of the same kind.", "quantifier": "every domain of doubles, every callable and polynomial, every number of points up to 2^24, every sine of accuracy s and cosine transform of accuracy d, e, every order of summation, every point of the domain", "why_tests_cant": "Tests sample a few functions on a few domains; the bounds must hold for every rounding pattern, every domain and every library of the stated accuracy.", "anchors": ["funpy/fun.py: Fun.__init__, sum, diff", "funpy/mapping.py: Mapping", "funpy/cheb/refine.py: Refine", "funpy/cheb/chebtech.py: populate, sum, diff"]}
{"id": "C203", "title": "Building a periodic function in floating point, calling, integrating and differentiating it", "statement": "In double precision the equispaced points are doubles of [-1, 1] within 8u of the exact ones and start at -1; doubling the grid with the stored values gives bit for bit what sampling the finer grid gives. If the callable computes, on the doubles of [a, b], a trigonometric polynomial of length N with accuracy r, then every coefficient of the function built is within an explicit E of that polynomial's coefficient, the function is within N E of it everywhere, calling it at a double of the domain returns the polynomial's value, np.sum its integral over the domain and np.diff (on [-1, 1]) its derivative, each up to an explicit bound.", "quantifier": "every domain of doubles whose mapped points stay inside, every callable and trigonometric polynomial, every length up to 2^52, every FFT of accuracy d, e and C library of accuracy dl, every choice of fused operations, real and complex functions, every point", "why_tests_cant": "Tests sample a few functions on a few grids; the bounds must hold for every rounding pattern, every domain and every library of the stated accuracy.", "anchors": ["funpy/trig/trigpts.py: trigpts", "funpy/trig/refine.py: Refine", "funpy/trig/transform.py: vals2coeffs", "funpy/trig/trigtech.py: __call__, sum, diff", "funpy/fun.py: Fun.__init__, __call__, sum"]}
{"id": "C204", "title": "Comparing functions with == and !=", "statement": "f == g is true exactly when f and g are the same function: functions of the same kind that compare equal have the same domain and answer every call alike; functions of the same kind, number of columns and length that agree on their domain compare equal; == is an equivalence relation; a deep copy and -(-f) compare equal to f, and f + g to g + f; f != g is the negation of f == g.", "quantifier": "all functions of type 'cheb' with any number of columns and all periodic functions, all domains, all lengths", "why_tests_cant": "== compares stored arrays, not functions; tests compare a function with its own copy and cannot show that no two different functions are ever equal, nor that equal functions of different histories are.", "anchors": ["funpy/fun.py: Fun.__eq__, __array_ufunc__, __len__, __deepcopy__", "funpy/cheb/chebtech.py: __eq__, __array_ufunc__, values", "funpy/trig/trigtech.py: __eq__", "funpy/mapping.py: Mapping.__eq__"]}
{"id": "C205", "title": "The scalar product sprod of functions", "statement": "sprod(f, g) of two functions on the same domain with the same number of columns is the integral over the domain of the sum over the columns of f g; with scale=s it is s^2 times that. It is symmetric, sprod(f, f) is nonnegative and zero only for f = 0, and sprod(f, g)^2 <= sprod(f, f) sprod(g, g). Functions on different domains or with different numbers of columns are refused, and weighted=True gives the Chebyshev-weighted product.", "quantifier": "all functions of type 'cheb' with any number of columns and any length, all domains, all scales", "why_tests_cant": "Definiteness and the Cauchy-Schwarz inequality quantify over all functions; tests evaluate a few products.", "anchors": ["funpy/norms.py: sprod", "funpy/fun.py: inner, innerw, __getattr__", "funpy/vectorspaces/base_state.py: innerw"]}
{"id": "C206", "title": "Computing with named parameters", "statement": "A Parameter behaves like the number it holds: any expression built from Parameters and numbers by ufuncs, float(), np.dot and copy.deepcopy gives the number the same expression gives with plain numbers, named like its leftmost Parameter, and leaves every variable as it was; any program of assignments x = e and in-place updates x op= e ends with the numbers the same program computes with plain numbers, and raises nothing; parameters of different names cannot be mixed; comparisons decide like those of numbers.", "quantifier": "all programs, all expressions, all ufuncs, all initial heaps and names, any type of numbers", "why_tests_cant": "In-place updates mutate shared objects: only an argument over all programs and heaps shows that an update never reaches another variable.", "anchors": ["funpy/vectorspaces/parameter.py: Parameter, __array_ufunc__, __deepcopy__, __float__, __array__, dot, inner"]}
{"id": "C207", "title": "Functions from arrays of values, and reading back repr", "statement": "Fun(op=V, domain=[a, b]) for an array V with n rows is a function on [a, b] with one column per column of V and between 1 and n+1 coefficients that takes the given values at the n Chebyshev points of [a, b], exactly unless it kept fewer than n coefficients, and otherwise up to eps^(2/5) for each coefficient dropped; values of polynomials of degree below n give these polynomials; nothing is dropped when the interpolant of some column has a last Chebyshev coefficient above eps^(2/5). eval(repr(f)) succeeds exactly when f has at most 1000 coefficients, and then is a function on the same domain that differs from f by at most 2 n d plus eps^(2/5) per dropped coefficient when the printed values are within d of the values; it compares equal to f exactly when it has as many coefficients.", "quantifier": "all arrays, domains, functions of type 'cheb' and all ways of rounding the printed values", "why_tests_cant": "a test compares one array or one printed function; the claim is for all arrays, all functions and all roundings of the printed decimals", "anchors": ["funpy/fun.py: Fun.__init__, Fun.__repr__", "funpy/cheb/chebtech.py: chebtech.__init__, values", "funpy/cheb/detail.pyx: polyfit, polyval, simplify_coeffs"]}
{"id": "C208", "title": "Periodic functions from arrays of values, and reading back repr", "statement": "Fun(op=v, domain=[a, b], type='trig') for n numbers, all of them real or one of them clearly not, takes the value v[j] at a + (b-a) j/n and v[0] at b, and gives back a trigonometric polynomial with n coefficients from its values. eval(repr(f)) of a periodic function f with at most 1000 values is a function on the same domain with as many coefficients that differs from f by at most n d when the printed values are within d of the values, and compares equal to f when they are printed exactly.", "quantifier": "all arrays, domains, functions of type 'trig' with values and coefficients that belong together, all roundings of the printed values", "why_tests_cant": "a test compares one array or one printed function; the claim is for all of them and for every rounding of the printed decimals", "anchors": ["funpy/fun.py: Fun.__init__, Fun.__repr__", "funpy/trig/trigtech.py: trigtech.__init__, get_isreal", "funpy/trig/transform.py: vals2coeffs"]}
{"id": "C209", "title": "Random functions", "statement": "random(n, m, [a, b], scale) returns m columns with n coefficients each, on [a, b], with coefficients between -scale and scale, so that the function is at most n |scale|, and every such array of coefficients can be drawn; random_decay(n, m, [a, b], scale) has the same shape, and its coefficients decay like 1/(k+1)^2.", "quantifier": "all n, m, scale, domains and all numbers the generator may draw", "why_tests_cant": "a test sees one draw of the generator; the claim is for every draw", "anchors": ["funpy/fun.py: random, random_decay"]}
{"id": "C210", "title": "np.argmax of a function", "statement": "np.argmax(f) tells at which of the points f.x the function is largest.", "quantifier": "all functions of type 'cheb'", "why_tests_cant": "a test uses one function, and for many functions the answer happens to be right", "anchors": ["funpy/fun.py: argmax", "funpy/cheb/chebtech.py: argmax"]}
{"id": "C211", "title": "Fun.from_values", "statement": "Fun.from_values(V, m, domain=[a, b]) for an n by m array returns m columns with n coefficients that take exactly the given values at the n Chebyshev points of [a, b]; applied to the values of a function it gives an equal function; the values may also be given as one flat array, as for from_coeffs, and with type='trig' it builds a periodic function.", "quantifier": "all arrays, domains and numbers of functions", "why_tests_cant": "a test uses one array; the claim is for all arrays and all ways of calling", "anchors": ["funpy/fun.py: Fun.from_values", "funpy/cheb/chebtech.py: chebtech.from_values", "funpy/cheb/detail.pyx: polyfit"]}
{"id": "C212", "title": "Whole calculations in floating point", "statement": "In double precision: a function built from a callable and then called at doubles of its domain returns the callable's values up to r plus explicit bounds for building and for calling; the product of two functions, called at doubles, returns the product of their values up to an explicit bound in which the size of the product is at most the product of the sizes; the definite integral of a computed product is the integral of f g and its derivative f' g + f g', each up to an explicit bound; the product of two functions built from callables is the product of what the callables compute up to size(h1) E2 + size(h2) E1 + E1 E2 plus the rounding of the product; the running integral of a function built from a callable is the integral from the left end of what the callable computes up to (b - a) times the sum of the building error, what simplify removed and rounding.", "quantifier": "every domain of doubles whose mapped points stay inside, every callable and polynomial, every pair of coefficient vectors, lengths up to 2^24, every sine, cosine transform and FFT of the given accuracies, every choice of fused operations and order of summation, every point", "why_tests_cant": "The bound must hold for every function, every library and every point at once, and errors of one stage are amplified by the next; tests sample a few functions.", "anchors": ["funpy/fun.py:Fun.__init__", "funpy/fun.py:Fun.__call__", "funpy/fun.py:cumsum", "funpy/cheb/chebtech.py:populate", "funpy/cheb/chebtech.py:cumsum", "funpy/cheb/ufuncs.pyx:coeff_times_main", "funpy/cheb/detail.pyx:clenshaw_scalar", "funpy/mapping.py:Mapping"]}
