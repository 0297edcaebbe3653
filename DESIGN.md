# Formal model of BSplineInterpolation (Rocq/Coq 8.16.1)

Subject: `/repo/src/include/*.hpp` (header-only C++ library), read as text; nothing
in `/repo` is built, run or changed.

## 1. How the code is modelled

* **Outcomes.** Every operation that can fail in C++ returns
  `res A = Ok a | Throw e | Fault f` (`Base.v`).  `Throw` is a C++ exception (assertion
  `runtime_error`, `domain_error`, `bad_alloc`).  `Fault` is everything outside
  defined, intended behaviour, with a reason: out-of-bounds access, integer division by
  zero, float-to-integer conversion out of range, `size_t` subtraction that would wrap,
  division by an exact zero in the numeric type.  Once a fault happens the model stops.
* **Numbers.** The model is polymorphic over a record of arithmetic operations
  `ops T` (`Num.v`), nothing being assumed about it.  Theorems labelled *any
  arithmetic* are proved for every `ops T` (so also for IEEE doubles with rounding).
  Theorems about values are proved for the instance `Rops` (the reals: exact
  arithmetic).  The instance `Qops` (rationals) makes the model executable; it is used
  for the concrete examples and to replay data of the repository's own tests.
  `Fops` (`FloatM.v`) is IEEE binary64.  Statements about values are statements about
  the algorithm in exact arithmetic, except C70 to C78, which bound the rounding errors
  of evaluation, of the periodic reduction, of the band solvers, of the knots and of the
  whole interpolation.
* **Types.** `T` (values) and `U` (coordinates) are one type in the model, except in
  `VecM.v`, where values are of any type with operations (vectors, complex numbers);
  C88 relates the two.  `size_t` is
  `nat` (no overflow of products/sums; a subtraction below zero is `Fault Wrapped`),
  except in `AllocM.v`, where allocation sizes, `util::pow` and the size and offset
  computations of `Mesh` are modelled modulo 2^64 (C48, C51, C59).  `std::array<_, D>` and
  `std::vector` are lists; every subscript is checked (`Fault OutOfBounds`).
  The dimension `D` and the order `O` are ordinary variables, so theorems are for all.
* **Loops** are folds over the exact index sequence of the C++ loop.
* **Build modes** are boolean parameters: `on` for `INTP_ENABLE_ASSERTION`, `nd`
  (`no_dummy`) for `INTP_PERIODIC_NO_DUMMY_POINT`; the cell layout
  (`INTP_CELL_LAYOUT`) is a second set of functions (`CellM.v`); `INTP_MULTITHREAD` is
  modelled by an interleaving semantics (`ThreadsM.v`).
  The C++17 branches (`std::variant`) are modelled in `InterpM.v`, the union used
  before C++17 in `Templ14M.v` (using a member that is not constructed is
  `Fault Inactive`); C66 shows the results equal.
* **In-place solving** is written once, as a program over memory reads and writes
  (`prog`), with a sequential interpretation (used for the numerical theorems) and
  an interleaving interpretation (used for the multithreading theorems).

### Files (`rocq/theories`)

Model (every definition cites the lines it stands for):

| file | contents |
|---|---|
| `Base.v`, `Num.v` | outcomes, monad, folds, arithmetic records, `Rops` (reals), `Qops` (rationals) |
| `FloatM.v` | `Fops`: IEEE binary64 (Coq's primitive floats, round to nearest even) |
| `MeshM.v` | `Mesh.hpp`: `MeshDimension`, `Mesh`, `skip_iterator` |
| `ProgM.v` | programs over memory cells, sequential meaning |
| `BandM.v`, `LUM.v` | `BandMatrix.hpp`, `BandLU.hpp` |
| `SplineM.v` | `BSpline.hpp`, plain control point layout |
| `CellM.v` | `BSpline.hpp`, cell layout and evaluation proxies; `eval_proxy` of the other headers |
| `InterpM.v` | `Interpolation.hpp`, `InterpolationTemplate.hpp`, 1-D classes |
| `VecM.v` | the same and `BSpline.hpp`, `BandLU.hpp` with values of another type than the coordinates |
| `Templ14M.v` | `InterpolationTemplate.hpp` before C++17 (`EitherSolver` union) |
| `ThreadsM.v` | interleaved execution, block division (`INTP_MULTITHREAD`) |
| `BlocksM.v` | number of tasks for a number of lines, in doubles |
| `Mode14M.v` | the branch before C++17 with threads or cells |
| `PoolM.v` | `DedicatedThreadPool.hpp` as a transition system |
| `PoolNewM.v` | constructor of the pool, failing thread creation |
| `PoolUseM.v` | threads and tasks that queue tasks and wait for them |
| `MatlabM.v` | `matlab/bspline.cpp`: the MEX function |
| `AllocM.v` | `aligned-allocator.hpp`, `util.hpp`, mesh sizes modulo 2^64 |

Specifications, written without reference to the model: `SpecMesh`, `SpecBand`,
`SpecSpline` (Cox-de Boor), `SpecSplineObj`, `SpecCalc`, `SpecInterp`, `SpecRound`
(arithmetics with rounded operations, values of doubles, error bounds), `SpecMatlab`,
`SpecPoly`, `SpecSym`, `SpecDims`, `SpecValue`, `SpecCurve`, `SpecSmooth`, `SpecMono`, `SpecStab`, `SpecApprox`, `SpecDApprox`, `SpecRate`, `SpecTame`, `SpecRoundInterp`, `SpecRoundFit`, `SpecRoundD`, `SpecPoolUse`, `SpecNear`, `SpecNearFun`, `SpecNearDFun`, `SpecSign`, `SpecPositive`, `SpecHint`.
Property theorems only: `Prop*.v` (with their examples; larger example data in
`Prop*Ex.v`).  All other files are proofs.

## 2. Properties: what is modelled, how proved

"Any arithmetic": for every `ops T`.  "R": exact real arithmetic.  Refutations and
partial results are spelled out in section 4.

| id | model | method / result |
|---|---|---|
| C01 | `MeshDimension::indexing`, `dimwise_indices` | mixed-radix induction on the dimension list; proved |
| C02 | `Mesh::operator()` read/write | injectivity of C01 + list update; proved |
| C03 | `indexing_safe`, checked `operator()` | induction; proved (offset and element access) |
| C04 | `Mesh::begin/end(dim,...)`, `skip_iterator` | offset arithmetic; proved, with `++ -- += -` and comparison |
| C05 | `BandMatrix` access | C01 for 2 dimensions; proved, with the exact set of refused positions |
| C06 | `BandMatrix::operator*` | **refuted** (product with the transposed matrix, proved for p = q) |
| C07 | `ExtendedBandMatrix` access | case analysis on the three storages; proved, with `main_bands_val`, `side_bands_val` and their checks |
| C08 | `ExtendedBandMatrix::operator*` | loop invariants over R; proved |
| C09 | `BandLU<BandMatrix>` | dense LU abstraction, A = LU, triangular solves over R; proved |
| C10 | `BandLU<ExtendedBandMatrix>` | same, the fill-in stays in the structure; proved |
| C11 | both `compute_impl` | Schur complement of a dominant matrix is dominant; proved |
| C12 | `BandLUBase::compute/solve` | invariant over call histories; any arithmetic; proved |
| C13, C14 | `base_spline_value` | loop invariant against Cox-de Boor over R; partition of unity by induction; proved |
| C15, C16 | `get_knot_iter` with the libstdc++ bisection | every total order on coordinates; proved |
| C17, C18 | `operator()` | loop to tensor sum; convex hull; proved over R |
| C19 | `operator()`, `derivative_at` of `BSpline` | post-condition calculus, any arithmetic (NaN, unsorted knots included); proved |
| C20 | periodic wrap | `fmod` over R; proved; order 0 with the public constructor's knot count **refuted** |
| C21, C22 | `derivative_at` | derivative recurrence, Coquelicot `is_derive`; extremes in any arithmetic; proved |
| C23 | whole construction, aperiodic | C09 + Schoenberg-Whitney theorem (`SWProofs.v`, zero counting); unconditional; proved over R |
| C24 | whole construction, periodic | whenever no pivot is zero; none is for orders up to 3 (any grid, dominance of the collocation matrix) and for every order on uniform grids (the circulant matrix is positive definite: `PerPD`); other grids of order above 3: if construction succeeds. An exact search over random grids of orders 4 to 9 found no failing one; no proof known; proved over R |
| C25, C26, C50 | solve + evaluation | linearity, uniqueness of the solution, partition of unity, Marsden-type identity; proved over R |
| C27 | `solve_for_control_points_` | any arithmetic; proved |
| C28 | `at`, `derivative_at`, `boundary_check_` | any arithmetic (and over R); proved |
| C29 | `load_knots` + `at` | odd order proved; every even order **refuted** |
| C30 | `InterpolationFunctionTemplate` histories | any arithmetic; proved |
| C31 | 1-D constructors | proved except the periodic template with NO_DUMMY, **refuted** |
| C32 | `solve_for_control_points_` | induction over the rotation rounds; proved over R |
| C33 | block tasks | disjoint footprints, every interleaving; any arithmetic; proved |
| C34 | block division | arithmetic; proved for any number of blocks |
| C35, C36 | cell layout, proxies | equality with plain evaluation proved where it holds; even-order periodic cases **refuted** |
| C37, C38, C40 | pool transition system | invariant over all traces; termination measure; proved; the printed note about the statistics **refuted** |
| C39 | pool destructor | proved if no worker is between its predicate evaluation and waiting; lost wake-up **refuted** otherwise |
| C41 | small periodic meshes | **refuted** |
| C42 | iterator knots of order 0 | **refuted** |
| C43 | knot construction | sums/induction over R; proved |
| C44 | assertion mode | both directions; "never throws on good grids" by C60's analysis of everything that can fail; proved |
| C45 | both knot overloads | proved over R |
| C46 | `operator()` | any arithmetic; proved |
| C47 | `operator()` | continuity of Cox-de Boor functions; proved |
| C48 | allocator modulo 2^64 | proved up to `max_size`, **refuted** beyond |
| C49 | `stack_allocator` | history invariant; proved |
| C51 | `util::pow`, `dispatch_indexed` | induction; modulo 2^64; proved |
| C52 | `Mesh::end(dim, ...)` | **refuted**: the end pointer lies beyond one past the storage |
| C53 | `BSpline` constructor, `load_knots`, `load_ctrlPts` | any arithmetic; proved |
| C54 | checked band access | **refuted** |
| C55 | `Mesh::resize` | proved |
| C56, C57 | pool destructor, flag | **refuted** |
| C58 | copies of `stack_allocator` | **refuted**; moreover in every state a copy hands out the same block |
| C59 | mesh sizes modulo 2^64 | proved below 2^64 elements, **refuted** beyond |
| C60 | band solvers in any arithmetic | outcome logic `safely`/`psafe` over the model programs: every access in bounds, for uninterpreted numbers; total for doubles (`F_total`); proved |
| C61 | whole constructor in any arithmetic | same logic through knots, basis functions, matrix, control points (`SafeBuild`); proved |
| C62 | constructor in IEEE doubles | **refuted** by a computed witness |
| C63 | evaluation and derivatives in any arithmetic | proved when the index conversion is defined; in doubles: position below 2^64; **refuted** beyond |
| C64 | extended solver with p+q > n | proved never to succeed; **refuted** by the 3x3 identity |
| C65 | both LU solvers | positive definiteness makes every leading block nonsingular (`LUMore`), then as C10; proved |
| C66 | pre-C++17 template against C++17 template | relation between plain and extended band storage carried through elimination and substitution, no law of arithmetic used (`Templ14Proofs`); with threads and with cells by equality of the programs run (`Mode14M`, `Mode14Proofs`); proved |
| C67 | copies of templates | C++17: proved; before: **refuted** for every template |
| C68 | data of another shape | **refuted** |
| C69 | both LU solvers | pivots exist iff leading blocks are nonsingular; proved |
| C70 | `spline_eval` in rounded arithmetic | each level of the recurrence multiplies the relative error of a nonnegative basis value (`RoundSpline`), then the sum of products (`RoundEval`); doubles by Flocq's correctness theorems for the primitive operations (`FloatProofs`, `RoundDouble`); proved |
| C71 | `Ffmod`, `Fnat`, `Fceil` | exactness by representability; proved |
| C72 | `wrap_coord` in doubles | proved error bound; range **refuted** below the left end |
| C73 | `band_lu`, `band_solve`, `eband_lu`, `eband_solve` over any number type | the programs equal an elimination on index functions with the order of operations of the code (`GenLU`); every entry is a chain of subtractions, ended by a division below the diagonal, so \|A - LU\|, \|Ly - b\|, \|Ux - y\| are bounded entrywise (`RoundLU`), and doubles satisfy the hypotheses because a finite result has finite operands (`RoundLUTop`); proved |
| C74 | constructor with coordinates by iterators, in doubles | loop invariants: the rolling sum after c roundings is within ((1+u)^c - 1) order X of the exact one; the periodic copies have errors of three levels (interior, first, second copy) (`RoundKnots`, for any rounded arithmetic); `GenKnots` connects the functions with the knots of a constructed object; proved.  Refuted without the condition on distances: 12 coordinates -2^61, -2^60, 0, 100, 101, ..., 108 (order 3) give unsorted knots, an assertion failure or NaN at every data point; coordinates -2^-60, -2^-61, 1/8, ..., 1 (periodic) NaN at every data point with no assertion |
| C75 | constructor with uniform ranges, in doubles | the multiple i - extra/2 of the step is exact, products and sums are monotone under rounding, and (n-1-1/2) steps do not pass b - a (`RoundUniform`); proved.  Refuted beyond the bounds: [-2^1023, 2^1023] (infinite step), [0, 5*2^-1074] (unsorted); [2^53, 2^53+4] with 9 points has sorted finite knots and NaN values |
| C76 | templates and constructors with coordinates by iterators and `interp_eval`, in doubles | `GenSolve` runs the rounds of `solve_ctrl` over any arithmetic with any relation between right-hand sides and solutions of a line; `RoundTensor` adds up the residuals of the rounds (C73) against the product of the computed matrices; `RoundColl` shows that the computed rows of these matrices are near the exact basis values at a segment of the computed knots (knots by C74, `RoundGrid`; the first and last rows and the periodic rows by `ExactKnots`); `RoundTempl` compares the two tensor products, `RoundInterp` puts in the numbers for doubles; the value that operator() returns by C70; proved.  `PropFitEx` decides the hypotheses by computation |
| C77 | templates and constructors with uniform ranges and coordinates by iterators in any mixture and `interp_eval`, in doubles | `RoundUGrid` bounds the computed uniform knots and coordinates (`uap_knots`, `upe_knots`) and finds their segments; `RoundUColl` the rows of the matrices (of which uniform dimensions evaluate only some, the others are copies); `PiecePerturb` bounds how much the basis functions of a segment change with the knots and the place; `RoundFit` is the argument of C76 from facts about each dimension (`dimfit`), with a computed wrap that moves the coordinate (`wrap_inside`); `RoundFitInst` proves these facts for both kinds of ranges, including the hint of uniform ranges (`hint_uniform`); statements in `RoundFitTop`; proved.  `PropFitUEx` decides the hypotheses by computation |
| C78 | `spline_derivative_at` in rounded arithmetic | `RoundDeriv` bounds one differentiation of a line of the buffer: k(a-b)/(t'-t) multiplies by at most 2 order / gap and adds a relative error of 5u, and the entries below the derivative order are bounded too; `RoundDerivLoops` runs over the lines and dimensions; `RoundDerivTop` shows that entries whose position is below the derivative order meet a coefficient that is exactly zero, and sums the rest as in C70; `RoundDerivDouble` for doubles; `RoundDerivMixed` puts C21 behind it; proved |
| C79 | `mex` (`matlab/bspline.cpp`), on top of `interp_make` and `interp_derivative` | `MatlabProofs`: column-major ranks, the loops that copy the array (each index is written once and the value depends only on the index), reduction of the call to one constructor and one derivative call per row; `MatlabTop`: reversing the dimensions of a tensor product, the knots of uniform ranges lie on half steps, then C24, C20 and C21 for the reversed arguments; proved |
| C80 | same | witnesses by computation; the process ends for every array of 4 or more dimensions; false of the code |
| C81 | whole construction, evaluation and derivatives | `PolyProofs`: the coefficients of x^m are the elementary symmetric functions of consecutive knots over binomials (induction over the order with the Cox-de Boor formula), products over the dimensions, uniqueness of the control points; proved over R |
| C82 | same | uniqueness of the control points; proved over R |
| C83 | whole construction and evaluation | `SymBasis`: Cox-de Boor pieces under affine maps and reflection of the knots, and the basis functions of a periodic dimension on any closed segment of any period; `SymProofs`: knots of moved coordinates, permutation of the control points, uniqueness of the control points; proved over R for order >= 1 (for order 0 the value at a knot belongs to one side, so mirroring changes it) |
| C84 | whole construction, evaluation and derivatives | `DimProofs`: tensor-product sums in another order (induction over the permutation), uniqueness of the control points; proved over R |
| C85 | same | same, with products of tensor-product sums; proved over R |
| C86 | same | same, with the partition of unity (C14); proved over R |
| C87 | construction and evaluation | `LinProofs`: hat functions, control points = data; proved over R |
| C88 | the template with two types: `VecM` (values of type `V`, operations `vops`: `+=`, `-=`, `/=` by coordinates and the two products of the code); `Vec<D, T>` of the tests and complex numbers as instances | `VecProofs`: simulation of the whole construction (including in-place solving), evaluation and derivatives along a map that preserves the operations; the model of numbers (`InterpM`) is the instance `scalar_vops` by computation; any arithmetic, complex parts over R |
| C89 | same | `VecTop`: components (C88) with interpolation (C23), linearity and constants (C25, C26) and the convex hull of the basis functions; proved over R |
| C90 | evaluation and derivatives | `SmoothProofs`: derivatives of the pieces of the basis functions by recursion, equality of neighbouring pieces at simple knots and across the ends of a period, gluing of derivatives; `SmoothTop`: tensor products; proved over R |
| C91 | evaluation; whole construction for order 1 | `MonoProofs`: the derivative of a sum of the last basis functions telescopes to one basis function of lower order, monotone on each segment by the mean value theorem and across knots, summation by parts, tensor products; `MonoTop`: for order 1 the control points are the data; proved over R |
| C92 | whole construction and evaluation, orders 1 to 6, all dimensions periodic and equally spaced | `StabProofs`: rows of the interpolation matrix are weights with the same diagonal, more than 1/2, so the inverse is bounded by 1/(2b-1), one dimension after another; `StabTop`: basis functions are weights; proved over R |
| C93 | whole construction and evaluation | `ApproxProofs`: means over the support of the weights stay near the function, the control points stay near the data by the bound of C92; `ApproxTop`: the supports of the basis functions on both kinds of grids; proved over R |
| C94 | whole construction and evaluation | `QuadProofs`: Taylor bound, means with the right mean argument, one variable after another; `QuadTop`: the basis functions as weights of places with mean x (Greville), control points by the bound of C92; proved over R |
| C95 | whole construction and evaluation | `TameAp`: rows of the collocation matrix of equally spaced points without period, dominated after scaling the unknowns by explicit weights; `TamePer`: diagonal of the periodic matrix bounded below from the step ratio; `TameTop`: basis functions as weights of means of knots near x, then as C92-C94; proved over R |
| C96 | threads and tasks as lists of actions (queue, wait, work) over the pool's transition system | `PoolUseProofs`: pool invariant lifted, own-futures invariant, measure; partial: nested use **refuted** (deadlock of eight interpolating tasks, by computation) |
| C97 | same, with exceptions stored in futures | invariants per thread; partial: **refuted** that no task is left behind |
| C98 | `derivative` of interpolations of sampled functions; derivatives of the function taken one after another | `DApproxProofs`, `DApproxTop`: on equal spacing derivatives are difference quotients of the control points (summation by parts per dimension), the matrices commute with index shifts, difference quotients of the data are values of the derivative (mean value theorem), then the bound of C92 |
| C99 | values and derivatives of interpolations of sampled functions; functions as `list R -> R`, smoothness by Coquelicot derivatives (SpecRate) | `RateProofs`, `RateTop`, `RateFinal`: a quasi-interpolant with explicit weights reproduces polynomials of degree p (moments of equally spaced B-splines), Taylor's formula bounds its error in one variable, tensor products by one variable at a time; its control points satisfy the interpolation equations up to that error, so the bound of the inverse matrices (C92) brings the interpolation's control points near them; derivatives of B-splines are at most (2/h)^a in total |
| C100 | `InterpM.v` model of construction, `operator()` and `derivative`; functions as `list R -> R`, smoothness by Coquelicot derivatives (SpecRate); grids as in C95 (SpecTame) | DualProofs, DualTop: de Boor and Fix's dual functionals give control points from the derivatives of the function at one point; for all points of a patch they differ from each other by at most the (p+1)-th derivatives times h^(p+1) (the functional's derivative telescopes), tensor products by composing them; these control points satisfy the interpolation equations up to that error, and the inverse bounds of C95 bring the interpolation's control points near them; the least gap needed for the functionals exists on every grid |
| C101 | PoolNewM: creation of the threads one by one, interleaved with the steps of PoolM, failure and handler | PoolNewProofs: simulation by the pool in which the threads not yet created stand at the start of their loops (or have left them after a failure), then C37-C39; the general claim is **refuted** (lost wake-up in the handler) |
| C102 | `PoolM` after SetTerm | PoolNewProofs: executed tasks plus workers that have passed the test never increases; the table being final is **refuted** by a run |
| C103 | `InterpM` with `FloatM` and with the reals | KnotExact: every operation on the knots is exact on such grids; NearRound: the computed control points satisfy the exact equations up to a residual (the one behind C76); NearProofs: the stability behind C92 and C95 turns the residual into a distance, and into a bound on the control points; the value by the rounding bound behind C76 |
| C104 | `InterpM` with `FloatM` and with the reals | NearFun: C103 for the distance of doubles and exact interpolation of the same data, C92/C95 for the errors of the data, C99/C100 for the exact interpolation of the function's values |
| C105 | `InterpM` with `FloatM` and with the reals | NearDeriv: C78's error bound for the derivative of the computed spline, then C103's bound for the distance of the control points, carried through the derivative weights (DualTop) |
| C106 | `InterpM` with `FloatM` and with the reals | NearDFun: C105 for the distance of doubles and exact interpolation, stability of the control points (C92/C95) with the derivative weights for the errors of the data, C99/C100 for the exact interpolation of the function's values |
| C107 | `InterpM`, `ProgM`, `LUM`, `SplineM` with `FloatM` | SignProofs: a relation that subtraction, addition, multiplication by and division by a common factor respect is respected by the solver program, the control points, evaluation and differentiation; negation up to the sign of zeros is such a relation by the specification of binary64 in `SpecFloat` |
| C108 | `BlocksM` (block number in doubles), `mt_blocks` of `ThreadsM` | BlocksProofs: Flocq's theorem on the rounded square root; an integer root is representable (lower bound), the distance of sqrt(h) from the next integer exceeds the rounding error below 2^51 (upper bound) |
| C109 | `spline_eval` of `SplineM`, `cell_eval` of `CellM`, in doubles (`FloatM`) | PositiveProofs, PositiveCell: each rounded difference, quotient, product and sum in the recursion has the sign of the exact one or is NaN; the segment search finds the segment of the point (`SpecRound`) |
| C110 | `spline_eval` of `SplineM`, `cell_eval` of `CellM`, `interp_eval` of `InterpM`, in doubles (`FloatM`) | NanProofs, NanFun: NaN passes through every operation; all weights of the last round of the recursion contain the coordinate; the sum contains every attached control point |
| C111 | `spline_eval`, `spline_derivative_at` of `SplineM`, `interp_eval` of `InterpM`, in doubles (`FloatM`) | HintDouble: comparisons of finite doubles are those of their values, so the hint test and the search find the same segment; NaN and infinities fail the hint test or end in the same boundary segment |

## 3. Trusted base

* The Coq 8.16.1 kernel including its virtual machine (`vm_compute`, used for concrete
  examples and witnesses); proofs are re-checked by `coqchk`.
* The model's faithfulness to the C++ text, by inspection: each definition cites file and
  lines; simplifications are stated there and above.  All of `src/include` and
  `matlab/bspline.cpp` is modelled except the parts listed below.
* Axioms: none of our own.  From the standard library:
  `ClassicalDedekindReals.sig_forall_dec`, `ClassicalDedekindReals.sig_not_dec`,
  `FunctionalExtensionality.functional_extensionality_dep` (real numbers) and
  `Classical_Prop.classic` (Coquelicot and proofs over the reals); the primitive floats
  of `FloatM.v` (`PrimFloat`, `PrimInt63`) are kernel primitives, reported by `Print
  Assumptions` like axioms, together with `FloatAxioms.leb_spec`, `ltb_spec` and
  `Prim2SF_valid` (comparison of doubles; C62-C64 and the examples of C60, C61), and for
  C70-C78 and C103-C111 also the other specifications of the primitive operations in `FloatAxioms`
  (`add_spec`, `sub_spec`, `mul_spec`, `div_spec`, `opp_spec`, `eqb_spec`, `abs_spec`, `sqrt_spec`, `Prim2SF_SF2Prim`,
  `SF2Prim_Prim2SF`).  Flocq is used for the proofs of C70-C78, C103-C106, C108, C109 and C111; it adds no axioms.  The module-type
  constants of `Rdefinitions` and `ssrunder` that `coqchk` lists come with these
  libraries.  Results for any arithmetic, meshes, thread pool and allocators need none;
  `Print Assumptions` follows every property theorem.
* Not modelled:
  - floating-point rounding in statements about values other than C70-C78 and C103-C111 (they are
    about exact arithmetic); rounding does occur in the "any arithmetic" results;
  - compile-time template machinery
    (`enable_if`, tuples, parameter packs are lists); copy elision; stream output;
    number and types of the arguments in `matlab/bspline.cpp`;
  - code that does not compile when instantiated: `skip_iterator` `<`, `>`, `<=`, `>=`
    and `operator->`, the const `end(dim, index)`, rebinding copies of
    `stack_allocator`, `util::pow` with an `unsigned short` exponent;
  - the macro mismatch `STACK_ALLOCATOR`/`INTP_STACK_ALLOCATOR`: the stack
    allocator is modelled on its own (C49, C58), not inside the spline;
  - forming a pointer is not a fault in the model (dereferencing is); C52 is about
    pointers formed;
  - weak memory inside the pool: critical sections are atomic and the unsynchronised
    flag `should_terminate` is accessed sequentially consistently, which is optimistic
    (C57 is the race itself).

## 4. Refuted and partial results

Each refutation is a theorem `..._refuted` with a concrete witness.

| id | what is false of the code, witness | what holds instead |
|---|---|---|
| C06 | `BandMatrix::operator*` reads the storage by rows although it is organised by columns; 2x2 matrix with one upper element | the result is the product with the transposed matrix for p = q |
| C20 | order 0 built with the public constructor: the periodic range is one knot short | orders >= 1 |
| C29 | even order: the upper range end is the knot before the last data point, `at` throws there; every even order | odd orders; the exact range for all orders |
| C31 | periodic 1-D template with `INTP_PERIODIC_NO_DUMMY_POINT` has spacing (n-1)/n | all other 1-D constructors |
| C35 | even order, periodic dimension, coordinate a whole number of periods below the range: the cell lookup reads outside the cells | odd orders, and even orders away from those coordinates |
| C36 | proxies of even order with a periodic dimension after the first: wrong value or read outside the cells | odd orders, even orders otherwise |
| C39 | the destructor sets the flag without the mutex: a worker between its predicate evaluation and waiting misses the notification, `join` never returns | termination if no worker is there |
| C40 | the identity printed in the note of the debug statistics | the identity of the property |
| C41 | order 3, two distinct periodic points, constant data 1: value 6/5 | at least order+1 points (C24, C26) |
| C42 | order 0 with a coordinate list reads past the end of the list, for every list | order >= 1 |
| C48 | beyond `max_size` the byte count wraps, fewer bytes than needed are obtained | up to `max_size` |
| C52 | `end(dim, index)` forms a pointer beyond one past the storage (2 x 2 mesh) | C04: iteration itself stays inside |
| C54 | with assertions, rows below the matrix are accepted next to the last columns | C05 lists exactly what is refused |
| C56 | tasks still queued when the pool is destroyed are dropped, their futures never become ready | C37, C38 while the pool lives |
| C57 | plain `bool` flag written by the destructor and read by workers without a common lock | |
| C58 | copies of a stack allocator have their own stack pointer into one buffer: two live blocks overlap | one allocator object (C49) |
| C59 | a 2^32 x 2^32 mesh has size 0 | below 2^64 elements |
| C62 | order 2, points -2^60, -2^59, 7, 8, 9, 10: the running sum for the knots gives 4, 5 instead of 7.5, 8.5; assertion failure, or an index wraps without assertions | exact arithmetic (C24, C44); periodic and uniform grids in doubles (C61) |
| C63 | uniform grid on [0,1], coordinate 2^90: conversion of a too large double to `size_t` | positions below 2^64, NaN, minus infinity |
| C64 | 3x3 identity with p = q = 2: the loop bound `j - q` wraps | p + q <= n (C10, C60) |
| C67 | before C++17 the copy and move operations of `EitherSolver` construct no member: every copy of every template has undefined behaviour on use | C++17 (`std::variant`) |
| C68 | template of 5 points given 3 values: function with zeros for the missing ones; given 6 values: write outside the control points | data of the template's shape (C24-C28) |
| C72 | range [-1, 3*2^-54], coordinate -(3+2^-51): the reduced coordinate is 2^-52, beyond the right end | coordinates not below the left end; the error bound always |
| C80 | 2x2x2x2 array: `throw;` without an exception ends the process; 2x1x2 array: accepted, but the values at the grid are those of the first slice (order 0, periodic) or a division by zero; `INTP_PERIODIC_NO_DUMMY_POINT`: the padding is used as data | arrays of 1 to 3 dimensions without inner dimensions of size 1 (C79) |
| C96 | eight tasks of the pool that each interpolate (queue a task and wait for it): the eight workers wait for ever | threads outside the pool |
| C97 | one of two tasks throws: `f.get()` leaves `solve_for_control_points_` (or `generate_cell_layout`) while the other task is still to run with references to its variables | who is thrown at; calls that end normally |
| C101 | the second thread cannot be created while the first worker is between its predicate and waiting: it misses the handler's notification, the constructor's `join` never returns and the exception is never seen | failures at all other moments; successful construction |
| C102 | the destructor prints its table while a worker is past the test of the flag: it shows 0 tasks, one is executed afterwards | at most one more task per worker |

Further observation on the code, not stated as a property: `compute` is ignored after
the first call (C12 states it as the behaviour).

## 5. Testing the theorems

`seeded/LOG.jsonl` records edits of the model like realistic bugs, made in a scratch
copy, and what failed to build.  `lemmas_failed` are the statements whose proofs Coq
rejected; `theorems_failed` are the property theorems that depend on one of them, so that
they no longer build.  A theorem listed there is not shown to be false of the edited
model: a broken lemma only takes its proof away.  Edits that no property theorem noticed led to added
theorems (named there).
