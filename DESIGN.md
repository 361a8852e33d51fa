# Formal model of funpy in Rocq (Coq 8.16.1)

## Approach

The numerical core of funpy (Chebyshev and Fourier technologies, `Fun`, the
ultraspherical operators, sparse edits, linear-algebra helpers, Newton drivers
and state vectors) is modelled function by function as ordinary Gallina
functions. Columns of coefficients are `list R`; an `n x m` array is a list of
columns (the Python arrays are column major and every loop treats columns
independently). Loops become structural recursion or folds over the same index
range; exceptions become `None`/an error constructor.

Simplifications applied everywhere (repeated in the comment of a definition
when it matters there):

* floating point numbers are exact reals, except in C168-C171 (FlModel), where every operation is rounded
  (Flocq's binary64 rounding to nearest even with gradual underflow, no overflow); `log`, `sqrt`, `**` are the real functions;
* FFT / DCT calls are replaced by the sums that define them (scipy's
  unnormalised DCT-I, numpy's `fft`/`ifft` conventions);
* LAPACK / SuperLU / UMFPACK calls are oracles: explicit hypotheses of the theorem;
* aliasing is not modelled, except where a property is about mutation.

Files in `rocq/theories`: `*Spec.v` small independent specifications
(Chebyshev polynomials by their recurrence, dense matrices, ...), `*Model.v`
models, `*Proofs.v` proofs, `Prop*.v` the property theorems.

## Plan per property

| id | model | proof |
|----|-------|-------|
| C01 | clenshaw loop on columns | induction on the loop invariant against T_k recurrence |
| C02,C03 | polyval/polyfit with DCT-I as a sum | trigonometric identities, discrete orthogonality of cosines |
| C04 | prolong | induction on lists |
| C05,C06 | computeDerCoeffs and chebtech.diff branches | T_k' = k U_{k-1}, Coquelicot derivatives; n=0 refuted |
| C07,C08 | sum, cumsum | fundamental theorem of calculus |
| C09,C10 | quadwts, inner | moments + discrete orthogonality |
| C11-C13 | ufuncs add/subtract/negative/multiply branches | evaluation homomorphisms; the constant multi-column branch refuted |
| C14,C15 | standardChop with option for unassigned/out-of-bounds | loop invariants; scale invariance refuted by witness |
| C16,C17 | simplify_coeffs | from C03 and C14; never-lengthen refuted |
| C18,C19 | Mapping, Fun | chain rule and substitution |
| C20 | domain check | refuted by witness; partial converse |
| C21 | reshape order F | list induction |
| C22 | flipud, lval, rval | parity of T_k |
| C23-C25 | ultraS matrices as index functions | recurrences of ultraspherical polynomials |
| C26 | bit-smearing loop over Z | log2 |
| C27,C28 | CSR/CSC triple arrays | representation function to dense rows; delete_row_csr refuted |
| C29-C35 | trig transform, eval, prolong, calculus, ufunc dispatch | roots of unity; refutations by witness |
| C36-C38 | helpers.py | algebra; cycles of a permutation |
| C39 | lucp loop | matrix invariants |
| C40,C41 | bem solvers over abstract linear solver | linear algebra identities |
| C42 | nleq_err control flow over a norm oracle | invariant of the loop |
| C43 | deflation | algebra over abstract inner product |
| C44 | functional rows | quadrature exactness, refuted in general |
| C45 | Refine | grid identity + induction on refinements |
| C46,C47 | namespace, states | list models |
| C48 | chebtech.restrict | evaluation at mapped points is exact when no simplification; simplification error refuted/partial |
| C49 | get_n, Refine, chebtech constructor | induction on the refinement loop; interpolation at the final grid |
| C50,C51,C52 | hstack, __getitem__, __deepcopy__, add with out= | list algebra; refuted cases by witness |
| C53,C54 | barymat, scaleNodes, cheb diffmat | barycentric formula from the node polynomial, exact on polynomials of degree < n |
| C55 | chebpts_type1 | refuted by witness |
| C56,C57,C58 | boundary-row helpers, numeric helpers, sparse clean-up | list induction |
| C59-C68 | trig evaluation, inner, ufuncs, simplify, circshift, circconv, refine, product, sum | exponentials and roots of unity; refutations by witness |
| C69,C70 | multmat for lambda >= 2, intmat | three-term recurrence, leading rows |
| C71 | update_row/update_col histories | induction on the history |
| C72-C74 | qr_solve, bem det | factorisation oracles Q,R,P as hypotheses; permanent-free determinant (`DetSpec`) with its expansion lemmas |
| C75-C77 | qr_chol | orthogonal projections; rank test refuted for scale |
| C78-C81 | nullspace, brd_solve, logdet | LU oracle; determinant algebra; refuted branches by witness |
| C82-C87 | states: in-place ufuncs, iteration, aliasing, from_state, normalize, HDF5 | store of objects where aliasing matters; round trips |
| C88-C93 | qnerr, newton_standard, nleq_err, newton.solve, newton_seeker | Broyden identity over abstract inner product; loop invariants; exceptions and return values |
| C94,C95 | gbit, giant | error-minimising iteration, invariant: stored directions reproduce the iterate; loop exit conditions |
| C96,C97 | deflation operator, Frechet deflated preconditioner | Sherman-Morrison over an abstract inner-product space |
| C98-C102 | Functional rows, convertFunctional, toFunction, quadwts | adjoint of the value/coefficient map, quadrature exactness, positivity by cosine sums |
| C103-C105 | ultraS.quasi2diffmat for one block (differential, integral terms, adjoint flag), matrices.py | exactness by spanning sets of C^(K), leading coefficients by degree tracking; adjoint refuted by (x u')' |
| C104 | OpDiscretization.matrix, reduce, project_vector, convertFunctional | block assembly lemma reduces to C103; equivalence with vanishing residual coefficients |
| C106 | QuasiOpBlock / QuasiOp arithmetic | linearity of sums over coefficient lists; refutations by computation |
| C107 | chebOpConstraint residual, linearize | affine functionals; refutation with value 1 |
| C108 | eig.py pencil | from C104 with F = lambda u |
| C109-C111 | adapt.py SolverAdaptive with arbitrary Newton solver, prolongation and distance | induction over the loop with the list of calls as ghost state; nested grids by 2-powers; counterexamples 20/33 and in-place solver |
| C112-C115 | trigspec matrices (diffmat, multmat with sptoeplitz, intmat, aggmat), quasi2diffmat, eliminate_zeros, system assembly; periodic functions as trigonometric polynomials on [a,b] | coefficient functions Z -> C with finite support; each matrix acts as convolution / symbol; Fourier coefficients as integrals; counterexamples for integrals, even n, adjoint, aggmat m=1 |
| C116-C121 | schur_solve.py, fold_solve.py, exact_linear_solver.py, newton_gauss.py over an abstract inner product space (Coquelicot ModuleSpace), vectors as lists where indices matter | linear algebra of the bordered system; counterexamples in R and R^4; exceptions as None |
| C122-C126 | detail.pyx 446-637 (colleague pencil, truncation, splitting by matrix and by Clenshaw), chebtech roots/minandmax, minmax.py; scipy.linalg.eigvals is a parameter assumed exact on colleague pencils (an exact one is constructed with epsilon, for the examples only) | colleague theorem over C (generalised eigenvalues = zeros of the series); sign changes by induction on the recursion with an error bound; extreme value theorem |
| C127-C130 | qr.py 6-72 over an arbitrary vector space with inner product and norm as parameters, cheb/qr.py, chebtech.qr, fun.qr; contiguity of the coefficient array is a flag of the model | Householder invariant (reflections of an orthonormal basis), Legendre polynomials (recurrence, differential equation, orthogonality, bound), exactness of Clenshaw-Curtis quadrature |
| C131-C137 | fun.py norm, norm2, wkpnorm, h1norm, h2norm, sturm_norm, sturm_norm_alt, normalize and cheb/ufuncs.pyx power, absolute on the model of construction from a callable; p natural, Chebyshev type; trig norms not modelled | degree argument: the first grid resolves f^p when p(n-1) <= 8, truncation bound of C18; refutations by aliasing on the first grid |
| C138-C143 | cheb/chebtech.py __array_ufunc__ (default branch), cheb/ufuncs.pyx true_divide, fun.py compose, zeros_like, ones_like, zeros, ones, asfun(number), mapping.py Mapping on the model of construction from a callable (C49); numpy functions are total real functions, nan is outside the model | interpolation at the grid points, bound of polynomials that are small at N Chebyshev points; refutations by concrete functions |
| C144-C146 | ultra.py (ultra2ultra, jac2jac and its up/down steps, scl) column by column with the final contents of the argument array; Fun.from_ultra; integer orders, Gamma quotients as products | Jacobi recurrences, induction over the order, uniqueness of ultraspherical coefficients |
| C147-C149 | trigcolloc/matrices.py diffmat, trigtech.diffmat (closed forms for orders 1, 2, 3 and the FFT branch), chebcolloc2 call/diff/getitem with IEEE division in barymat | finite Fourier sums, closed forms of the derivative kernels, Toeplitz periodicity; barymat and diffmat exactness from C48-C50 |
| C150-C155 | the symbolic compiler colloc/source/compiler.py (linearize, bilinear, bilinear_dp, compile_dp, get_diff_order) on an expression grammar with Derivative, and the dispatch of pDerivative/linearFunctional. sympy's replace, diff, subs, expand, coeff and ode_order are modelled by their documented meaning on this grammar (Derivative evaluated eagerly; collect, simplify and term_simplify keep the value). Integral terms, non-local operators and the emitted numpy text are not modelled | structural induction over expressions, chain rule with Coquelicot, linearity of the expanded Frechet derivative in the perturbation |
| C156 | integral terms of compiler.py linearize (534-550): equations loc + sum m * Integral(f); the cumsum variant with limits and the emitted numpy text are not modelled | differentiation under the integral sign (Coquelicot is_derive_RInt_param) with joint continuity of the compiled coefficients, C150 for the local part |
| C157 | compiler (C150) composed with LinBlock.quasi, Residual.update and the assembled ultraspherical system (C104) | C150_compile_partial gives the directional derivative as the action of the compiled coefficients, system_leading/system_exact relate it to the matrix; truncation of the residual by the conversion estimate agrees_us_convert |
| C158 | attributes of ChebOp and `deepcopy` (`ObjModel`) | attribute-wise equality and the exact condition for equality |
| C159 | state machine of compile / setDisc / call / discretize / edit (`ObjModel`) | invariant by induction over all histories |
| C160 | sizes of object and compiled system, truncation in Residual.update (`ObjModel`) | induction over histories, evaluation of the padded coefficients |
| C161 | `write_h5`, `read_h5` with fixed-length strings (`ObjModel`) | round trip by computation, cut lemma by induction |
| C162 | `linsys_quasi`, `linsys_rhs` on top of `OpArith`, `SrcNlModel`, `PropSys` (`PropCts`) | exactness of the assembled system plus Frechet derivative of the sum |
| C163 | `PrintModel`: expressions, printer, emitted code with dynamically typed values; `meaning` in `PropPrint` | induction over expressions, refutations for whole classes |
| C164 | `ParModel`: parameter namespace of the compiled system as a state machine; `in_force` in `PropPar` | induction over histories |
| C165 | `RealModel`: quasi2diffmat, instantiate, matrix, linop of realDiscretization | computation of the entries, `sys_op` of `OpSys` on constants |
| C166 | `ReflModel`: Reflection.__call__ with its mask loop for one column and point | induction over the loop, agreement at overlapping ends, substitution in the integral on each tile |
| C167 | NsModel: the namespace dictionary, decimal printing of indices, emission and execution of code block by block with the lookups in between, setParameters; the bodies of the functions are tags saying what they compute | injectivity of decimal printing, disjoint suffixes within a unit of code; folds over units |
| C168 | FlModel: clenshaw and Fun.__call__ with every operation rounded (Flocq, binary64 without overflow), each multiply-add fused or not | backward error: the computed recurrence is the exact one for perturbed coefficients; U_k bounded by k+1; Lipschitz bound of T_k for the point |
| C169 | FlModel: chebtech.sum and fun.sum with every operation rounded, the product summed in any order (tree of products) | error of a summation tree by induction; errors of the weights |
| C170 | FlModel: the map of mapping.py and the assertion of Fun.__call__ in floating point | monotonicity of rounding; a quotient of doubles above one is not rounded to one; exact rounding of a tie |
| C171 | FlModel: clenshaw in floating point | symmetry of rounding, induction on the recurrence |
| C172 | CacheModel: arrays at addresses, the least-recently-used cache of grids, what is shared and what is copied when points are returned or handed to a callable | invariant over histories: cached arrays are right and not the user's |
| C173 | PropLit (model and proofs): printing with 16 decimals is rounding in the decimal fixed-point format, reading a literal is rounding to a double (Flocq) | midpoints of neighbouring doubles; powers of two at least 1/2 are exact; half an ulp below 1/2 is less than half a digit |
| C174 | PosModel: equations with abs, sign, roots of squares; building simplifies by what is known of signs | PropPos: induction on the equation; any inference sound for positive parameters |
| C175 | PropOrient: orientation_y on coefficients (with lval1 of ChebModel) | the integral of a function of one sign; two straight lines refute |
| C176 | PropOrient: theta_interp with Coq's tanh and decimal rounding | tanh as 1 - 2/(exp(2x)+1); monotone rounding |
| C177 | FlModel2: fder, ffun_diff (computeDerCoeffs, fun.diff) rounded operation by operation | FlCalc, PropFl2: cumsum as a rounded dot product, then the exact derivative of ChebCalc |
| C178 | FlModel2: fcumsum_coeffs, flval, fshift, fcum_scale; simplify is any series within d | FlCum, PropFl2: coefficientwise errors, the shift bounded by the left value, exact integral of ChebCalc |
| C179 | FlModel2: fadd_cols, fadd_fun, fsub_fun, fneg_col, fscale_col | PropFl2: one rounding per coefficient; two constants with different eps refute commutativity |
| C180 | TrigCons: thappy, trefine, tpopulate, tsimplify_cols, tconstruct (trigtech.__init__, populate, happy, simplify, nested Refine) | ChopSupport, TrigConsProofs, TrigConsEx, PropTCons: loop invariant on grids 8*2^i, uniqueness of the interpolant, support of the chop; three callables refute the full claim |
| C181 | FunTrig: pfun, pcall, tshift, proll (Fun around a trigtech, circshift) | FunTrigProofs, PropPer: series composed with the affine map; cosine on [0,1] refutes |
| C182 | FunTrig: tmatch, tconv, pconvolve, operands after the call included | FunTrigProofs, PropPer: trig_conv_correct and a change of variables; cosine on [0,2] refutes |
| C183 | FunTrig: padhesion | FunTrigProofs, PropPer: linearity of the integral over the modes |
| C184 | FunTrig: psum, pdiff, pinner | FunTrigProofs, PropPer: change of variables, chain rule for n-th derivatives |
| C185 | EigModel: dense pencil, contract of ordqz, filtering of alpha/beta | Q, Z unitary, back substitution: lambda is an eigenvalue iff alpha_k = lambda beta_k for some k; real and imaginary part of an eigenvector |
| C186 | ComposeModel: resamplers with in-place prolongation | equals adaptive construction of op of the arguments truncated to nine coefficients; C49 |
| C187 | TrigUfunc: ufunc fallback through adaptive construction, evaluation with its effect on the operands | C180's construction with truncation error bounded by degree; operands stay fixed when odd or complex |
| C188 | TrigCols: lists of columns, broadcasting, in-place effects | columnwise lemmas of C61, C66 and the common cutoff of C180 |
| C189 | SolveModel.op_solve: chebOp.solve over an arbitrary Newton solver, with AdaptModel for the adaptive loop | trace of the adaptive solver (C109); concrete operator for the refutation |
| C190 | MixModel.mix_ct/mix_tc over ChebModel2.construct and TrigCons.tconstruct, for an arbitrary Chebyshev operation | stability of the adaptive Fourier construction (TrigStable.near_low); the result is Hermitian and periodic |
| C191 | PlotModel.plot_values/st_mass/st_variation over NormModel, FunModel and RootsModel | from sturm_spec, the column, subtraction and integration theorems; the constant function evaluated exactly through the adaptive construction |
| C192 | PNormModel.pnorm/pnorm2 over TrigCons.tconstruct, TrigUfunc.tufunc, treal_part/timag_part and FunTrig.psum; one column | powers of trigonometric polynomials (prodc), low_degree construction bound, integrals of the parts; exact antiderivative for the counterexample |
| C193 | InplModel.v: p_iadd, p_isub, p_imul, p_idiv return whether the statement raises and both operands afterwards; values, coefficients and flag are updated as the code updates them | PropInpl.v: tmatch_correct and tadd_core for +=, C66 for *=, low_degree for /=; concrete objects for the refutations |
| C194 | SeekerModel.v: heap of function objects, known_solutions as references, sk_step for the caller's events; the solver is a parameter, GIANT-GBIT of GbitModel in the refutations | PropSeeker.v: invariant over histories; induction over the main loop of GIANT-GBIT for C194_guess; runs computed for the refutations |
| C195 | HeapModel: memory of columns, chebtech objects and functions; in-place ufuncs, views, shared objects | invariant over all programs (separation by origin), value of each operation under arbitrary aliasing |
| C196 | FlTrigModel: the Horner loops of eval.py with IEEE double rounding (Flocq), library functions as parameters, fused or separate products | FlTrig, FlTrig2, FlTrig3: error recursion of Horner's rule on the unit circle (the exact loop does not increase the modulus), then TrigEval relates the exact loop to the Fourier series |
| C197 | FlTrigModel as in C196, TrigModel.prolong_col | PropFlT2: simulation of the two Horner loops (fold_sim), zero leading coefficients leave the loop state zero |
| C198 | FlMulModel: coeff_times with IEEE double rounding (Flocq), fft/ifft as parameters | FlMul: convolution theorem for the exact transforms, error propagation through both transforms and the complex products; ChebMul.product_correct relates the exact circular convolution to the product of the series |
| C199 | FlDctModel: polyfit and polyval with IEEE double rounding (Flocq), DCT-I as a parameter | FlDct: perturbation bounds for the exact DCT-I, error propagation; ChebDct relates the exact transforms to evaluation at Chebyshev points |
| C212 | FlDomModel, FlMulModel, FlModel, FlModel2 composed | the bounds of C168, C169, C177, C178, C198, C202 combined; circular convolution is submultiplicative in l1 |
| C211 | cheb_from_values, fun_from_values (FvalModel.v) | the discrete cosine transforms are inverse to each other (PropFval.v) |
| C209 | random_coeffs, fun_random, decay_col, fun_random_decay (RandModel.v) | bounds on Chebyshev sums; sum of inverse squares (PropRand.v) |
| C210 | np_argmax, rowsC, fun_argmax (RandModel.v) | induction on the scan; row-major indices (PropRand.v) |
| C208 | pfun_of_values, pfun_repr, pfun_eval (TReprModel.v) over trig_of_values (TrigModel2.v) | interpolation by the discrete Fourier transforms, hermitian coefficients of real values, bound of the coefficients by the values (PropTRepr.v) |
| C207 | cheb_of_values, fun_of_values, np_repr, fun_repr, fun_eval (ReprModel.v) | of_values_spec from the spec of happy/simplify and the discrete cosine transforms; polynomials small at the nodes are small (PropRepr.v) |
| C206 | NparModel: Parameter objects in a heap, ufuncs with and without out, deepcopy, dot, programs | PropNpar: induction over expressions and programs; invariant: no object is held by two variables |
| C205 | SprodModel: sprod for Funs (inner, trace, scale) | PropSprod: C19_inner, a continuous nonnegative function with integral 0 vanishes, discriminant argument |
| C204 | EqModel: Fun.__eq__, chebtech.__eq__, trigtech.__eq__, Mapping.__eq__, the inherited !=, truth of a Fun | PropEq: uniqueness of the coefficients from the values on the Chebyshev or equispaced grid, C49 for != |
| C203 | FlPerModel: trigpts, the sampling and nested sampling of refine.py, vals2coeffs, sum and diff with IEEE double rounding; FlTrigModel: calling | FlPer: errors of the points, exactness of doubling, error of the derivative; PropFlP combines C200, C196, C67 and C32 |
| C202 | FlDomModel: Fun(op, domain=[a, b]) on a grid of given length with IEEE double rounding; FlModel, FlModel2: sum and diff | FlDom: error and monotonicity of the map, a concrete domain that is left; PropFlG combines C201, C169 and C177 |
| C201 | FlSampleModel: chebpts_type2_compute, __resample, __nested and the coefficients of the samples with IEEE double rounding (Flocq), sine and cosine transform as parameters | FlSample: error of the arguments and of the points, exact equality of nested arguments (scaling by 2), stability of the interpolation (FlDct) |
| C200 | FlFftModel: vals2coeffs and coeffs2vals with IEEE double rounding (Flocq), fft/ifft as parameters | FlFft: error propagation through scaling, shift, symmetry corrections; TrigTrans relates the exact transforms to evaluation at equispaced points |

## Trusted base

* Coq 8.16.1's kernel, and the compiled standard library and Coquelicot 3.x it loads
  (Coquelicot itself adds no axiom; no file uses mathcomp's, std++'s or any other library's axioms).
* What `Print Assumptions` lists. `ASSUMPTIONS.md` (made by `tools/assumptions.py`) has the
  list for every property theorem. The union over all of them is four standard-library axioms:
  `ClassicalDedekindReals.sig_forall_dec`, `ClassicalDedekindReals.sig_not_dec`,
  `FunctionalExtensionality.functional_extensionality_dep` (the three that Coq's `Reals` are built on)
  and `Classical_Prop.classic` (through `Reals`/Coquelicot analysis).
  The examples of PropRoots.v (not its theorems) also use
  `ClassicalEpsilon.constructive_indefinite_description` through `RootsExist.exact_eigs`, a standard-library axiom,
  to exhibit an exact eigenvalue routine.
  No axiom, `Admitted`, section-less `Variable`, functor, module type or plugin is used.
* The reading of /repo into the model. Every definition of a `*Model.v` file cites file and lines.
  Nothing mechanical connects the Python text and the Gallina text.
* External numerical libraries, as stated in the model comments: scipy's DCT/FFT are their defining sums;
  LAPACK QR, SuperLU, UMFPACK, `scipy.linalg.solve`/`lstsq` are arbitrary functions constrained by explicit
  hypotheses of the theorem that uses them (for instance "P A Q = L U"); norms and inner products
  of the Newton layer are an arbitrary inner product space (`NewtonSpec.v`).
* Real arithmetic for floating point (except C168-C171, which use Flocq's definitions of rounding; Flocq adds no axioms). A theorem says nothing about rounding; where a
  tolerance `eps` occurs in the code it is a parameter of the model.

## Modelled and not modelled

| area of /repo/funpy | model files | not modelled |
|---|---|---|
| cheb/{detail.pyx,pts.py,diff.py,chebtech.py,ufuncs.pyx,refine.py} | ChebModel, ChebModel2, ChebModel3, DivModel, ComposeModel, MixModel, CacheModel; rounded arithmetic FlModel, FlModel2 | plotting, complex coefficients, string operators, `out=` arguments beyond those of in-place arithmetic (ChebModel, DivModel, VsModel model those) |
| cheb/minmax.py, roots in chebtech.py/detail.pyx | RootsModel | LAPACK's eigenvalues (a parameter of the theorems with an accuracy hypothesis) |
| cheb/qr.py, qr.py | FqrModel | LAPACK's QR (its defining equations are hypotheses) |
| cheb/resample.py, chebpoly.py | none | all (unused by the package) |
| mapping.py, fun.py | FunModel, HeapModel (sharing of data), NormModel, PlotModel, FunTrig, CacheModel, RealModel; rounded FlModel2 | plotting, hdf5 |
| functional.py | FnlModel | numpy dispatch decorators |
| trig/* | TrigModel, TrigModel2, TrigCons, MixModel, InplModel (`out=`) | plotting |
| ultra.py, colloc/ultraS/{matrices,transform}.py, colloc/tools.py, colloc/sparse/* | UltraModel, UconvModel, SparseModel, ToolsModel | storage format of scipy matrices beyond the (data, indices, indptr) triple |
| colloc/coeffsDiscretization.py, OpDiscretization.py, ultraS.py, trigspec/*, quasiOp*.py, chebOpConstraint.py, realDiscretization.py | FnlModel (constraints), OpModel (assembly), TSpecModel, RealModel | quasi2precond, quasi2cmat, toFunctionIn |
| colloc/chebcolloc/*, valsDiscretization.py | CollModel | trigcolloc.py and valsDiscretization beyond the matrices (they refer to undefined names and cannot run) |
| colloc/{LinSys,LinSysBase,linBlock,linOp,linearFunctional,pDerivative,rhs,chebOp,eig,adapt}.py | OpModel, NsModel, ParModel, ObjModel, AdaptModel, EigModel, SolveModel | BiLinSys.py, bilin*.py, function.py, kernels.py, cont.py, projection.py as a LinearOperator; `info` output |
| colloc/source/* (symbolic compiler, printers) | SrcModel, SrcNlModel, PosModel, PrintModel, NsModel | sympy itself (its documented meaning on the modelled grammar is assumed), gen.py layout, BoundaryConditionSource.emit, compile_fold / compile_moore / compile_bilin drivers, colloc/source.py (older copy, shadowed by the package) |
| linalg/* | LinModel, BordModel, QRModel, CholModel, BrdModel, SchurModel, GbitModel | the numerics of LAPACK/SuperLU/UMFPACK; iterative scipy solvers; lu_solve.py (one call of scipy) |
| newton/* | NewtonModel, GbitModel, DeflModel, SchurModel, SolveModel, SeekerModel | printing, debugging output, newton_new.py (older copy), random.py |
| vectorspaces/* | VsModel, PlotModel, NsModel | pickling, hdf5, `__str__` |
| support/{tools,reflection,Functional}.py | ToolsModel, ReflModel, DeflModel | continuation.py, cached_property.py, logging |
| norms.py, odecode.py, cbcode.py | PrintModel (cbcode) | norms.py, odecode.py |

`*Spec.v` files hold the notions in which properties are stated: `ChebSpec` (T_k, U_k by recurrence,
`evalT`), `UltraSpec` (C^(lambda)_k by recurrence), `TrigSpec` (exponential sums), `SparseSpec` (dense
matrix of a triple), `LASpec`/`DetSpec`/`QRSpec`/`BrdSpec`/`BordSpec` (linear algebra), `SwapSpec`
(permutations by transpositions), `NewtonSpec` (inner product space), `VsSpec`.

## Conventions

* A property that is false of the code gets a theorem ending in `_refuted`: a concrete input
  on which the modelled code violates the English statement. Next to it stands the
  strongest true fragment, ending in `_partial`. Such a property is `partial` in
  MANIFEST.json and its note starts with `REFUTED:`.
* Theorems are listed per property in MANIFEST.json; `tools/manifest.py` builds it from the
  names in `Prop*.v`, `tools/mutate.py` runs the seeded-bug experiments of
  `seeded/LOG.jsonl` in a scratch copy.
