#!/usr/bin/env python3
"""Writes ../properties.jsonl (one property per line)."""
import json, os
P = []
def p(i, title, statement, quantifier, why, anchors):
    P.append(dict(id=i, title=title, statement=statement, quantifier=quantifier,
                  why_tests_cant=why, anchors=anchors))
M="src/include/Mesh.hpp"; BM="src/include/BandMatrix.hpp"; LU="src/include/BandLU.hpp"
BS="src/include/BSpline.hpp"; IN="src/include/Interpolation.hpp"; IT="src/include/InterpolationTemplate.hpp"
TP="src/include/DedicatedThreadPool.hpp"; AL="src/include/aligned-allocator.hpp"; UT="src/include/util.hpp"

p("C01","Mesh index conversion is a bijection",
  "For a mesh of any dimension and any sizes, converting a valid multi-index to its storage offset and back gives the same multi-index, converting a valid offset to a multi-index and back gives the same offset, and a valid multi-index always lands inside the storage (offset < size()).",
  "every number of dimensions, every size vector, every in-range multi-index, every offset < size",
  "the set of shapes and indices is unbounded; a test checks a handful of shapes",
  [f"{M}: MeshDimension::indexing, indexing_safe, dimwise_indices, size", f"{M}: Mesh::iter_indices"])
p("C02","Mesh elements are isolated from each other",
  "After assigning through mesh(i...), reading mesh(i...) returns the assigned value and reading any other valid multi-index returns what it returned before; the shape is unchanged.",
  "every shape, every pair of valid multi-indices, every stored content and value",
  "aliasing only shows for particular pairs of indices; all pairs of all shapes cannot be sampled",
  [f"{M}: Mesh::operator()", f"{M}: MeshDimension::indexing"])
p("C03","Checked mesh access rejects exactly the invalid indices",
  "With INTP_ENABLE_ASSERTION, the checked element access throws if and only if some component of the multi-index is out of its dimension's range, and otherwise yields the same element as the unchecked access; without the macro both accesses are the same.",
  "every shape and every multi-index (valid or not)",
  "requires all indices, in particular out-of-range ones whose flattened offset is still inside the storage",
  [f"{M}: MeshDimension::indexing_safe"])
p("C04","Dimension-wise iterators walk exactly one line",
  "begin(d, idx) .. end(d, idx) visits exactly the dim_size(d) elements whose multi-index is idx with component d replaced by 0,1,2,..., in that order, reaches end after exactly dim_size(d) increments and not before, never leaves the storage, and it[k], it+k, it-k, --it, it2-it1 agree with stepping.",
  "every shape, every direction d, every valid idx, every k",
  "stride errors show only for specific directions/shapes",
  [f"{M}: Mesh::begin(size_type, index_type), end", f"{M}: skip_iterator", f"{M}: MeshDimension::dim_acc_size"])
p("C05","Band matrix elements are stored faithfully",
  "A new band matrix reads as zero everywhere in its band; writing element (i,j) of the band changes that element only; every in-band element lives inside the storage; with assertions on, access throws exactly for positions outside the band or right of the last column.",
  "every n, lower width p, upper width q, every pair of in-band positions",
  "aliasing between two diagonals depends on n, p, q and both positions",
  [f"{BM}: BandMatrix::operator()"])
p("C06","Band matrix times vector is the matrix product",
  "For a band matrix A and vector x, (A*x)[i] equals the sum over the band of A(i,k)*x[k].",
  "every n, p, q, every matrix content and vector",
  "the shipped test only uses a symmetric matrix",
  [f"{BM}: BandMatrix::operator*"])
p("C07","Extended band matrix elements are stored faithfully",
  "In a matrix with side bands, writing any storable element (main band, right side band or bottom side band) changes that element only, and a new matrix reads zero; no access leaves the three storages. main_bands_val and side_bands_val reach the elements of their part; with assertions on, side_bands_val refuses every other position.",
  "every n, p, q with p,q < n; every pair of storable positions",
  "the three storages overlap logically near the corners; only all positions together settle it",
  [f"{BM}: ExtendedBandMatrix::operator(), main_bands_val, side_bands_val"])
p("C08","Extended band matrix times vector is the matrix product",
  "For a matrix with side bands A and a vector x of its size, (A*x)[i] equals the sum over all k of A(i,k)*x[k], entries that are not stored counting as zero.",
  "every n, p, q, content and vector",
  "corner overlaps depend on n, p, q",
  [f"{BM}: ExtendedBandMatrix::operator*"])
p("C09","Band LU solves the linear system",
  "If the factorisation of a band matrix A meets no zero pivot then solve(b) returns x with A x = b exactly (in exact arithmetic), never touches memory outside its storage, and solve leaves the factorisation unchanged so that any number of right-hand sides can be solved.",
  "every n, p, q, every A with non-zero pivots, every b",
  "the matrix and right-hand side spaces are infinite",
  [f"{LU}: BandLU<BandMatrix>::compute_impl, solve_in_place_impl", f"{LU}: BandLUBase::solve"])
p("C10","Extended band LU solves the linear system",
  "Same as C09 for matrices with side bands (cyclic systems): with n > p, n > q, n >= p+q and no zero pivot, solve(b) returns the exact solution and all accesses are in range.",
  "every n, p, q in that range, every A with non-zero pivots, every b",
  "fill-in of the side bands and the corner depends on n, p, q",
  [f"{LU}: BandLU<ExtendedBandMatrix>::compute_impl, solve_in_place_impl"])
p("C11","Diagonally dominant systems never fail",
  "For a strictly row-diagonally-dominant matrix, band or extended band, the factorisation never divides by zero, hence the solver returns the exact solution.",
  "every n, p, q, every strictly dominant matrix, every right-hand side",
  "unbounded space of matrices",
  [f"{LU}: compute_impl (both)"])
p("C12","A solver keeps the first matrix it was given",
  "After compute(A) has run, later compute(B) calls have no effect: every later solve answers for A.",
  "every sequence of compute/solve calls",
  "property over all histories",
  [f"{LU}: BandLUBase::compute, is_computed_"])
p("C13","Basis values are the B-spline basis functions",
  "For a non-decreasing knot vector and a segment with t_k <= x < t_{k+1}, the values returned for that segment are the order+1 B-spline basis functions N_{k-order..k} of the mathematical (Cox-de Boor) definition at x, every other basis function is zero at x, and asking for a lower order returns the lower order functions right-aligned with zeros in front.",
  "every order, knot vector, segment and x in it",
  "the space of knots and points is continuous",
  [f"{BS}: base_spline_value"])
p("C14","Basis values are a partition of unity and non-negative",
  "The order+1 values returned for a non-empty segment always sum to 1 (also when x is outside the segment, i.e. extrapolation), and are all >= 0 when x lies in the closed segment.",
  "every order, knot vector with t_k < t_{k+1}, every real x",
  "continuous input space",
  [f"{BS}: base_spline_value"])
p("C15","Knot lookup finds the segment",
  "For any coordinate the located segment index lies in [order, knots-order-2]; if the coordinate is inside the spline's range the segment contains it; below the range the first segment is used and at or above the right end the last one.",
  "every sorted knot vector, every coordinate, every hint in the allowed interval",
  "binary search and hint interplay over all positions",
  [f"{BS}: get_knot_iter"])
p("C16","The position hint never changes the answer",
  "The segment found and hence the value and derivatives of the spline do not depend on the position hint passed along with the coordinate.",
  "every sorted knot vector, coordinate, and pair of hints in [order, knots-order-2]",
  "quantifies over all hint/coordinate pairs",
  [f"{BS}: get_knot_iter, operator()", f"{IN}: add_hint_for_spline"])
p("C17","Evaluation is the tensor product spline",
  "Evaluating a D-dimensional spline returns the sum over all control points of control point times the product of the per-dimension basis functions at the coordinates (with control point indices taken modulo the size in periodic dimensions).",
  "every dimension, order, knots, control points, coordinate",
  "unbounded dimension/size, continuous inputs",
  [f"{BS}: operator()(DimArray<std::pair<knot_type, size_type>>)"])
p("C18","Convex hull",
  "Inside the range of the spline (any coordinate in periodic dimensions), the value lies between the minimum and the maximum of the control points.",
  "every dimension, order, knots, control points, in-range coordinate",
  "continuous input space",
  [f"{BS}: operator()"])
p("C19","Evaluation is memory safe for every coordinate",
  "For a well-formed spline, evaluating value or derivatives at any coordinate, in or out of range, never reads outside the knot vectors or the control point storage.",
  "every well-formed spline, every finite coordinate, every derivative order",
  "out-of-bounds reads appear at particular coordinates only",
  [f"{BS}: operator(), derivative_at, get_knot_iter, base_spline_value"])
p("C20","Periodic splines are periodic",
  "In a periodic dimension, evaluating at x and at x + k*T (T the period, k any integer) gives the same value.",
  "every order >= 1 (and order 0 with the knot count of the interpolation templates), periodic knot vector, control points, x, integer k; for order 0 with the knot count of the public constructor the statement is false at x = start - k*T (theorem C20_order_zero_refuted)",
  "infinitely many periods; the wrap has a corner case at exact multiples of the period",
  [f"{BS}: get_knot_iter (fmod wrap)", f"{BS}: operator()"])
p("C21","Derivatives are the derivatives",
  "derivative(x, m) is the m-th (mixed partial) derivative, in the sense of calculus, of the function computed by operator(), at every point inside a segment.",
  "every dimension, order, knots, control points, derivative orders, points not on a knot",
  "limit statement over a continuous space",
  [f"{BS}: derivative_at"])
p("C22","Derivative orders at the extremes",
  "Asking for derivative order 0 in every dimension gives exactly (bit for bit) the spline value; asking for an order larger than the spline order in any dimension gives zero.",
  "every spline, coordinate, order vector; for the first part any arithmetic including floating point",
  "all inputs",
  [f"{BS}: derivative_at, operator()"])
p("C23","Aperiodic interpolation passes through the data",
  "For aperiodic dimensions, any order (order >= 1 for coordinates given by iterators), at least order+1 points (and 2) per dimension, any strictly increasing coordinates or any range a<b, and any data, construction succeeds without zero pivots or out-of-range access and the interpolation function evaluates to f[i] at every grid point x[i].",
  "every dimension count, order, grid, data",
  "needs non-singularity of all collocation matrices (Schoenberg-Whitney), unbounded sizes",
  [f"{IN}: InterpolationFunction", f"{IT}: build_solver_, solve_for_control_points_"])
p("C24","Periodic interpolation passes through the data",
  "For periodic dimensions (with at least order+1 distinct points) the interpolation function evaluates to f[i] at every grid point, whenever the solver meets no zero pivot; for orders up to 3 on any grid, and for every order on uniform grids, the solver never meets one.",
  "every order, grid, data",
  "unbounded sizes and data",
  [f"{IT}: build_solver_, solve_for_control_points_"])
p("C25","Interpolation is linear in the data",
  "Interpolating a*f + b*g on a grid gives, at every coordinate, a times the interpolation of f plus b times that of g.",
  "every grid, order, periodicity, pair of data sets, scalars, coordinate",
  "continuous input space",
  [f"{IT}: interpolate, solve_for_control_points_"])
p("C26","Constant data gives the constant function",
  "If all data values equal c then the interpolation function equals c at every coordinate (inside, outside, periodic or not), and all its derivatives of positive order are zero.",
  "every grid, order, constant and coordinate",
  "continuous input space",
  [f"{IT}: solve_for_control_points_", f"{BS}: operator()"])
p("C27","The last point of a periodic dimension is ignored",
  "In the default mode (without INTP_PERIODIC_NO_DUMMY_POINT), changing data values whose index is the last one of some periodic dimension does not change the interpolation function at all.",
  "every shape, periodicity, order, pair of data sets that agree elsewhere; any arithmetic",
  "all data pairs",
  [f"{IT}: solve_for_control_points_ (check_idx)"])
p("C28","Bounds-checked evaluation throws exactly outside the range",
  "at()/derivative_at() throws a domain error if and only if in some non-periodic dimension the coordinate is smaller than range().first or larger than range().second, and otherwise returns exactly what operator()/derivative() returns.",
  "every interpolation function and coordinate; any arithmetic",
  "all coordinates",
  [f"{IN}: at, derivative_at, boundary_check_"])
p("C29","Bounds-checked evaluation accepts the whole data range",
  "For a non-periodic dimension built on the data range [a,b], range() is (a,b) and at() does not throw for any coordinate in [a,b], in particular not at the data points.",
  "every order, grid and coordinate in [a,b]",
  "depends on order parity, which the shipped tests do not vary",
  [f"{BS}: load_knots", f"{IN}: range, at, boundary_check_"])
p("C30","Templates can be reused and all interpolate overloads agree",
  "Interpolating through a template any number of times, in any order, with any data, yields for each data set exactly the function that direct construction yields; the lvalue, rvalue and in-place overloads agree.",
  "every history of interpolate calls on a template; any arithmetic",
  "all histories",
  [f"{IT}: interpolate (three overloads)", f"{IN}: constructors"])
p("C31","1-D convenience constructors use unit spacing",
  "InterpolationFunction1D(f_range) and InterpolationFunctionTemplate1D(f_length) without an explicit x range interpolate f[i] at x = i, and the two agree with each other for the same data, periodic or not, with or without INTP_PERIODIC_NO_DUMMY_POINT.",
  "every data set, order, periodicity and build mode",
  "modes are compile-time; shipped tests only exercise some combinations",
  [f"{IN}: InterpolationFunction1D", f"{IT}: InterpolationFunctionTemplate1D"])
p("C32","Dimensions are solved separably and returned in the right order",
  "The control points computed for D-dimensional data satisfy the tensor-product collocation system: for every grid index the sum over control points of control point times the product of per-dimension matrix entries equals the datum; the control mesh has the shape of the (reduced) data mesh.",
  "every D, shape, data (with non-zero pivots)",
  "axis rotation bugs show only for particular D parities/shapes",
  [f"{IT}: solve_for_control_points_ (array_right_shift, weights/weights_tmp)"])
p("C33","Multithreaded solving is deterministic and equals the serial result",
  "With INTP_MULTITHREAD, for every interleaving of the memory operations of the block tasks and the main thread, the resulting control points are identical (bit for bit) to those of the single-threaded build.",
  "every schedule, shape, data; any arithmetic",
  "schedules cannot be enumerated by tests",
  [f"{IT}: solve_for_control_points_ (solve_and_rearrange_block, queue_task)"])
p("C34","Task division covers every line exactly once",
  "The division of the hyperplane into sqrt-many blocks plus the remainder handled by the calling thread assigns every line index to exactly one block, and no index outside the hyperplane.",
  "every hyperplane size (including 0, 1 and non-squares)",
  "all sizes",
  [f"{IT}: block_num, task_per_block", f"{BS}: generate_cell_layout (same division)"])
p("C35","Cell layout evaluates to the same value",
  "With INTP_CELL_LAYOUT the value and derivatives at any coordinate equal those without it (in exact arithmetic), and evaluation stays inside the cell storage.",
  "every spline (dimension, order, periodicity), coordinate",
  "compile-time mode, all coordinates",
  [f"{BS}: generate_cell_layout, operator(), derivative_at (INTP_CELL_LAYOUT)"])
p("C36","Evaluation proxies agree with direct evaluation",
  "A proxy obtained from eval_proxy(x) and applied to a function made from the same template gives the value of that function at x.",
  "every dimension, order, periodicity, coordinate, data",
  "the offset is computed from knots, not from the mesh: agreement must hold for all shapes and parities",
  [f"{BS}: pre_calc_coef, calculate_cell_dim_from_knots", f"{IN}: eval_proxy", f"{IT}: eval_proxy"])
p("C37","Every queued task runs exactly once",
  "In every execution of the thread pool no task is lost, duplicated or run twice, whatever the interleaving of queue_task, popping, batching and stealing; a future becomes ready only after its task ran.",
  "every interleaving, number of workers and sequence of submissions",
  "schedules cannot be enumerated",
  [f"{TP}: queue_task, try_pop_from_main, try_steal_from_others, thread_loop, shared_working_queue"])
p("C38","Queued tasks are never stranded",
  "While the pool is not shutting down, whenever some task has been queued and not yet run, some worker thread can make progress towards it: no reachable state has pending tasks and every worker asleep without a wake-up pending.",
  "every reachable state of the pool",
  "deadlocks/lost wake-ups depend on rare interleavings",
  [f"{TP}: queue_task, thread_loop (cv.wait)"])
p("C39","Destroying the pool terminates",
  "When the pool is destroyed, every worker thread eventually leaves its loop, so that joining terminates.",
  "every interleaving of the destructor with the workers",
  "a lost wake-up needs one precise interleaving",
  [f"{TP}: ~DedicatedThreadPool, should_terminate, thread_loop, JoinThreads"])
p("C40","Pool statistics add up",
  "For every worker queue, submissions equal local executions plus tasks stolen from it plus tasks still queued; in the columns printed in debug mode this reads Submitted = Executed + Stolen - Stealing once the pool is idle.",
  "every execution",
  "all interleavings; the printed note claims a different identity",
  [f"{TP}: shared_working_queue counters, ~DedicatedThreadPool"])
p("C41","Periodic interpolation with very few points",
  "Periodic interpolation either passes through the data or reports failure also when there are fewer distinct points than order+1.",
  "every order and number of points below order+1",
  "silent wrong answers need specific small sizes",
  [f"{IT}: build_solver_ (coef_mat assignment)", f"{IN}: create_knot_vector_"])
p("C42","Piecewise constant interpolation on given coordinates",
  "Order 0 interpolation with coordinates given by iterators (aperiodic) is well defined: construction reads only the given coordinates and produces finite knots.",
  "every strictly increasing coordinate list",
  "undefined behaviour need not show in a run",
  [f"{IN}: create_knot_vector_ (iterator overload)"])
p("C43","Knot vectors have the documented shape",
  "Aperiodic knots: order+1 copies of each end point and, in between, knot i is the mean of the order consecutive coordinates x[i-order..i-1] (equal to the equally spaced formula on uniform grids); periodic knots: data points (odd order) or midpoints (even order) continued periodically. The knot vector is non-decreasing with strictly increasing interior knots, and every datum satisfies the Schoenberg-Whitney condition t[i] < x[i] < t[i+order+1] in the interior.",
  "every order >= 1, every strictly increasing coordinate list of sufficient length",
  "all sizes and coordinates",
  [f"{IN}: create_knot_vector_ (both overloads)"])
p("C44","Invalid grids are rejected when assertions are on",
  "With INTP_ENABLE_ASSERTION, construction from coordinate iterators throws if and only if the number of coordinates does not match the data or the coordinates are not strictly increasing.",
  "every coordinate list of admissible length",
  "all lists",
  [f"{IN}: create_knot_vector_ (iterator overload)"])
p("C45","Uniform range and equally spaced iterators give the same function",
  "Constructing with a range (a,b) and constructing with iterators over the equally spaced points a, a+h, ..., b yield the same knots and hence (exact arithmetic) the same interpolation function.",
  "every order >= 1, size, range, data, periodicity",
  "all sizes",
  [f"{IN}: create_knot_vector_ (both overloads)", f"{IT}: build_solver_"])
p("C46","Control points have local influence",
  "Changing a control point changes the spline's value at x only if its index is one of the order+1 indices attached to the segment of x in every dimension.",
  "every spline, coordinate, control point; any arithmetic",
  "all coordinates",
  [f"{BS}: operator()"])
p("C47","Splines are continuous across knots",
  "For order >= 1 and strictly increasing interior knots, the value of the spline function is continuous on the whole real line (including at knots, at the ends and, if periodic, across the period).",
  "every knot vector, control points, point",
  "limit statement",
  [f"{BS}: operator(), get_knot_iter"])
p("C48","Aligned allocation sizes never wrap for admissible requests",
  "For every request n <= max_size() the byte count passed to the system allocator is exactly n*sizeof(T) (no 64-bit wrap-around), and allocation either returns that many bytes aligned as asked or throws.",
  "every element size, alignment and request size",
  "needs astronomically large requests",
  [f"{AL}: AlignedAllocator::max_size, allocate"])
p("C49","Stack allocator hands out disjoint blocks",
  "Blocks that are live at the same time, obtained from one stack allocator and released in reverse order, never overlap, stay inside the buffer, and a request that does not fit throws without changing the allocator.",
  "every LIFO sequence of allocate/deallocate",
  "all histories",
  [f"{UT}: stack_allocator"])
p("C50","Linear data is reproduced (order >= 1, aperiodic)",
  "If the data are samples of an affine function on the grid then the aperiodic interpolation function equals that affine function everywhere, inside and outside the range.",
  "every order >= 1, grid, affine function, coordinate",
  "continuous input space",
  [f"{IT}: solve_for_control_points_", f"{IN}: create_knot_vector_"])
p("C51","Compile-time helpers",
  "util::pow(b,e) equals b multiplied e times; dispatch_indexed(f, x0, x1, ...) calls f(0,x0), f(1,x1), ... exactly once each in this order.",
  "every base, exponent, argument list",
  "all inputs",
  [f"{UT}: pow, dispatch_indexed"])
p("C52","Line iterators never point beyond one past the storage",
  "Every iterator returned by mesh begin(dim, index), end(dim, index), and every value it takes while walking the line, points into the storage or one past its end (the C++ condition for forming a pointer).",
  "every shape, dimension and valid multi-index",
  "the pointer is compared, never dereferenced, so no test or sanitizer run notices",
  [f"{M}: Mesh::begin, Mesh::end, skip_iterator"])
p("C53","Constructing a spline establishes what evaluation needs",
  "Building a BSpline from control points and sorted knots of matching lengths (constructor, or empty spline + load_knots + load_ctrlPts) succeeds without reading outside the inputs, keeps knots and control points unchanged, and gives a range inside the knots with positive length in periodic dimensions; with assertions enabled a wrong number of knots in any dimension is refused by an exception.",
  "every dimension, order, periodicity, control points, knots",
  "all inputs",
  [f"{BS}: BSpline constructors, load_knots, load_ctrlPts"])
p("C54","Checked band access rejects positions outside the matrix",
  "With INTP_ENABLE_ASSERTION, accessing element (i,j) of a band matrix with i or j outside the matrix throws.",
  "every n, p, q and every position",
  "the storage has unused cells, so a wrong row index reads or writes without any fault",
  [f"{BM}: BandMatrix::operator()"])
p("C55","Resizing a mesh keeps the stored elements",
  "resize gives the mesh the new shape with matching storage; when only the first dimension changes, elements with an index valid in both shapes keep their value and new ones have the padding value of the allocator.",
  "every shape, new shape, content",
  "all shapes",
  [f"{M}: Mesh::resize"])
p("C56","Queued tasks are run before the pool is gone",
  "Every task queued before the destruction of the thread pool begins has been executed when all worker threads have left their loops.",
  "every interleaving of submissions, workers and the destructor",
  "depends on the moment at which the destructor runs",
  [f"{TP}: ~DedicatedThreadPool, thread_loop, JoinThreads"])
p("C57","The termination flag is accessed without data races",
  "No reachable state of the pool has the destructor's write of should_terminate and a worker's read of it both possible next, in an order that matters.",
  "every reachable state of the pool",
  "data races do not show on the hardware tests run on",
  [f"{TP}: should_terminate, ~DedicatedThreadPool, thread_loop"])
p("C58","Copies of a stack allocator are interchangeable",
  "Stack allocators that compare equal (in particular copies) may be used in place of each other: live blocks obtained from either never overlap.",
  "every allocator and its copy",
  "only shows when two containers are built from one allocator",
  [f"{UT}: stack_allocator (copy constructor, operator==)"])
p("C59","A mesh has storage for all its indices",
  "Constructing a mesh either throws or yields storage in which every index within the dimensions has its own place.",
  "every list of dimensions, every index",
  "needs dimensions whose product exceeds 2^64",
  [f"{M}: MeshDimension::size, indexing, Mesh constructors"])
p("C60","Band solvers stay in memory whatever the numbers",
  "For any matrix written inside its band (extended band: widths with p+q <= n) and any right-hand side of sufficient length, factorisation and solving read and write only existing elements, pass every assertion and form no negative index, in every arithmetic - in particular in IEEE doubles with zero pivots, infinities and NaN; the only possible failure is a failing division.",
  "every n, p, q, matrix content, right-hand side and arithmetic (no law of arithmetic is assumed)",
  "all contents, including pivots that vanish or are NaN",
  [f"{LU}: compute_impl, solve_in_place"])
p("C61","Construction stays in memory whatever the numbers",
  "Constructing an interpolation function from data and grids of matching sizes - of any number type with a comparison for which a <= x excludes x < a, rounding arithmetic included - reads and writes only existing elements and passes every assertion; what can happen besides success is a failing division or, with assertions enabled and grids given by points, an exception. (Without assertions the claim excludes aperiodic point grids, see C62.)",
  "every dimension count, order, periodicity, data, uniform or point grids, in every arithmetic",
  "rounding, NaN and infinite inputs for every size",
  [f"{IN}: constructors, create_knot_vector_", f"{IT}: build_solver_, interpolate, solve_for_control_points_", f"{BS}: base_spline_value"])
p("C62","Strictly increasing doubles are accepted as a grid",
  "A finite, strictly increasing list of at least order+1 doubles is accepted as an aperiodic grid: construction neither throws nor leaves its data structures.",
  "every order and finite strictly increasing list of doubles",
  "depends on cancellation in the running sum that computes the knots",
  [f"{IN}: create_knot_vector_ (nonuniform)", f"{IT}: build_solver_"])
p("C63","Evaluation stays in memory whatever the coordinate",
  "Evaluating an interpolation function or a derivative of it at any coordinates (in or out of range, infinite or NaN) returns a value without reading outside its data and without undefined conversion.",
  "every constructible function, coordinate vector and derivative orders, in every arithmetic",
  "all doubles, including huge ones",
  [f"{IN}: add_hint_for_spline, operator(), derivative", f"{BS}: get_knot_iter, operator(), derivative_at"])
p("C64","Extended band systems with any band widths are solved",
  "An extended band matrix with p < n and q < n (the widths its constructor is usable with) can be factorised and solved.",
  "every n, p < n, q < n, matrix",
  "needs p+q > n, which no caller in the library produces for the sizes it checks",
  [f"{LU}: BandLU<ExtendedBandMatrix>::solve_in_place", f"{BM}: ExtendedBandMatrix"])
p("C65","Positive definite systems are always factorised and solved",
  "A band or extended band matrix A with x.Ax > 0 for every nonzero x (symmetric or not, diagonally dominant or not) is factorised without meeting a zero pivot, and solving a right-hand side in place gives the one and only solution.",
  "every n, band widths (extended: p+q <= n), contents and right-hand sides, in exact arithmetic",
  "pivots are Schur complements of all leading blocks; sampling matrices says nothing about the others",
  [f"{LU}: compute_impl, solve_in_place", f"{BM}: BandMatrix, ExtendedBandMatrix"])
p("C66","Interpolation is the same before and after C++17",
  "The code selected before C++17 (a hand-written union of solvers, every coefficient matrix an extended band matrix) and the code selected from C++17 on (std::variant, aperiodic matrices in a plain band matrix) give the same outcome for construction and the same interpolation function for every data set, also with the cell layout; with threads every schedule gives the single-threaded result without data races.",
  "every dimension count, order, periodicity, size, grid and data; in every arithmetic (also rounding) whose operations do not throw",
  "the two are never in one program; equality of results of different storage and elimination code, including roundings",
  [f"{IT}: EitherSolver, build_solver_ (#if __cplusplus)", f"{LU}: both BandLU specialisations"])
p("C67","A copy of an interpolation template behaves like the template",
  "Interpolating data with a copy of an InterpolationFunctionTemplate gives what the template gives.",
  "every template, data set and language standard",
  "using a union member that was never constructed may look right in a test",
  [f"{IT}: EitherSolver copy and move operations"])
p("C68","A template refuses data of another shape",
  "interpolate, given a mesh whose sizes differ from the ones the template was made for, reports an error.",
  "every template and data mesh",
  "smaller meshes give plausible functions, larger ones undefined behaviour",
  [f"{IT}: interpolate, solve_for_control_points_"])
p("C69","A band system is solved exactly if no leading block is singular",
  "Factorising and solving succeed if and only if every leading square block of the matrix is nonsingular.",
  "every n, band widths (extended: p+q <= n), contents and right-hand sides, in exact arithmetic",
  "an equivalence over all matrices",
  [f"{LU}: compute_impl, solve_in_place"])
p("C70","Rounding errors of evaluation are bounded",
  "Evaluating a spline in floating-point numbers returns a number whose distance to the exact value of the same spline at the same (reduced) coordinates is at most a bound computed from order, dimension, the largest control point and the unit roundoff; for doubles ((order+1)^D + 1 + D + 7*order*D) * 2^-52 * C + (order+1)^D * 2^-1074.",
  "every dimension, order, knots, control points, hint and coordinate in range, in every arithmetic with rounded operations; for doubles with segments of length at least 2^-800 and control points up to 2^1000",
  "an error bound over all doubles; tests compare with tolerances chosen by experience",
  [f"{BS}: base_spline_value, operator()"])
p("C71","Remainders and conversions in doubles are exact or undefined",
  "std::fmod returns the exact remainder with the sign of the dividend (NaN for a non-finite dividend or a zero divisor); converting sizes up to 2^53 to double is exact; the conversion of std::ceil of a double to size_t is the least integer not below it, and undefined exactly for values <= -1, above 2^64-1, infinite or NaN.",
  "every double and size",
  "all doubles",
  [f"{BS}: get_knot_iter", f"{IN}: add_hint_for_spline, create_knot_vector_"])
p("C72","Periodic reduction in doubles",
  "A periodic coordinate is moved by whole periods up to a rounding error of 5 * 2^-53 * (|x - first| + |first| + period), and lands in the range of the dimension.",
  "every finite range and coordinate of magnitude up to 2^1000",
  "rounding of the sum after the exact remainder depends on all bits",
  [f"{BS}: get_knot_iter"])
p("C73","Residual of the band solvers in rounded arithmetic",
  "In doubles, LU factorisation and solution of a band system, or of an extended band system, always run to the end. If the computed factors and the computed solution contain neither infinities nor NaNs, then the matrix and the right-hand side were finite, and the residual A x - b of the given system is, in every row, at most n 2^-51 times the corresponding row of |L| |U| |x| plus an underflow term of the order of 2^-1074, where L, U are the computed factors.",
  "every size up to 2^40, band width, matrix content, right-hand side and iterator; the general form for every rounded arithmetic",
  "all roundings of the elimination and of both substitutions depend on all bits of the input",
  [f"{LU}: BandLU::compute_impl, solve_in_place (both specialisations)"])
p("C74","Rounding errors of knots computed from coordinates",
  "In doubles, every knot of a dimension whose coordinates are given by iterators is a finite number close to the exact knot: the end knots of an aperiodic dimension are the end coordinates, its inner knots differ from the mean of `order` consecutive coordinates by at most n 2^-51 X + 2^-1074 (n coordinates of magnitude at most X); the knots of a periodic dimension differ from the coordinates or midpoints, continued periodically, by at most 2^-49 X + 2^-1073. So the knots are sorted if neighbouring coordinates are further apart than twice that error; being increasing is not enough.",
  "every constructed function, dimension, order, 2^40 coordinates of magnitude up to 2^900, with and without assertions",
  "the rolling sums accumulate roundings along the grid",
  [f"{IN}: create_knot_vector_ (iterators)"])
p("C75","Knots of uniform ranges in doubles",
  "In doubles, the knots of a uniform range [a, b] are finite, sorted, and within 2^-48 max(|a|,|b|) of the exact knots; in an aperiodic dimension they lie between a and b and the end knots are exactly a and b.",
  "every constructed function, dimension, order, up to 2^40 points, ranges with |a|, |b| <= 2^1000 and b - a >= 2^-900; outside of these bounds it is false",
  "monotonicity of rounding over all doubles; extreme ranges are not tested",
  [f"{IN}: create_knot_vector_ (uniform)"])
p("C76","Interpolation in doubles reproduces the data",
  "In doubles, the function that InterpolationFunction or InterpolationFunctionTemplate builds from data on grids of points takes the data values at the data points up to rounding: the spline with the computed knots and control points differs there from the data by at most D (order + M G) 2^-49 C + 2^-1031, and the value that operator() returns by at most that plus ((order+1)^D + 1 + D + 7 order D) 2^-52 C + 2^-1031, where C bounds the control points, M the unknowns of a dimension, and G the row sums of |L| (1 + |U|) of the factors held by the template. A data value that is not finite cannot give finite control points.",
  "every dimension D, order, periodicity, grids of points whose distances are at least n 2^-46 of the largest coordinate, data, with and without assertions, with the repeated last point of periodic dimensions in the data or left out; at odd orders the first point of a periodic grid must survive x_m - (x_m - x_0); for the returned value the coordinates of periodic dimensions must survive the reduction into the range",
  "rounding errors of knots, matrix, factorisation, all rounds of solves and the evaluation add up over all data",
  [f"{IT}: build_solver_, solve_for_control_points_, interpolate", f"{IN}: create_knot_vector_, operator()", f"{LU}: compute_impl, solve_in_place", f"{BS}: base_spline_value, operator()"])
p("C77","Interpolation in doubles with uniform ranges, near the data points",
  "In doubles, the function that InterpolationFunction or InterpolationFunctionTemplate builds from data with ranges given by their end points, by lists of points, or by any mixture, takes the data values at every place that is a data point up to 2^-49 of the size X of the coordinates (such as a coordinate computed as a + i (b-a)/(n-1)): the spline with the computed knots and control points differs there from the data value by at most D (order (1 + 128 kappa) + M G) 2^-49 C + 2^-1031, and the value that operator() returns by at most that plus ((order+1)^D + 1 + D + 7 order D) 2^-52 C + 2^-1031, where kappa bounds the quotient of the size X of the coordinates and the distance of the grid points, C the control points, M the unknowns of a dimension, and G the row sums of |L| (1 + |U|) of the factors. operator() raises no error there: the reduction of periodic coordinates and the hint of the segment stay within bounds.",
  "every dimension D, order of at least 1, periodicity, kinds of ranges, data, with and without assertions, with the repeated last point of periodic dimensions in the data or left out; D order (1 + 128 kappa) and D M G at most 2^40; lists of points as in C76",
  "the knots of uniform ranges, the rows of their matrices shared between equations, the reduction of periodic coordinates and the hints all round, and only some of them agree with the coordinates that a user computes",
  [f"{IN}: create_knot_vector_, operator(), hint", f"{IT}: build_solver_, solve_for_control_points_, interpolate", f"{LU}: compute_impl, solve_in_place", f"{BS}: get_knot_iter, base_spline_value, operator()"])
p("C78","Rounding errors of derivatives",
  "In doubles, derivative_at returns a number that differs from the derivative of the spline (the one with the same knots and control points, in exact arithmetic, at the coordinates after the periodic reduction) by at most (R + 3 m) 2^-52 C S, plus underflow of at most (order+1)^D 2^-1074 + m 2^-1074 (1/g + 1) L^m. Here m is the total order of the derivative, R = (order+1)^D + 1 + D + 7 order D, C the largest control point, S the product of (2 order / gap_d)^(n_d) over the dimensions, gap_d the shortest segment of dimension d, g the shortest of all, and L at least 1 and at least every 2 order / gap_d. In other rounded arithmetics the same holds with bounds in terms of their relative and absolute errors. Away from the knots the exact number is the mixed partial derivative of the function that evaluation computes in exact arithmetic.",
  "every spline whose knots and control points are numbers, every dimension, order, periodicity, hints, and derivative orders up to the order of the spline (above it the result is exactly 0, C22); coordinates in the range; segments of at least 2^-800, R at most 2^40, C L^m and L^m at most 2^900",
  "each differentiation divides differences of nearby control points by lengths of segments, entries that do not contribute are left over in the buffer with values of any size, and only products with an exact zero keep them out of the sum",
  [f"{BS}: derivative_at, base_spline_value, get_knot_iter"])
p("C79","The MATLAB function interpolates the array",
  "The MEX function bspline(order, is_periodic, range, array, points, derivative) evaluates one function F given by order, flags, ranges and array: F takes the value array(i1, ..., iD) at the point a_d + i_d h_d (indices from 0; h_d = (b_d - a_d)/(n_d - 1), or (b_d - a_d)/n_d in a periodic dimension, where the array does not repeat its first plane), continues with period b_d - a_d in periodic dimensions, and row i of the result is F at row i of the points if all derivative orders are 0, otherwise the mixed partial derivative of F of those orders, the order of dimension d belonging to coordinate d. In any arithmetic the call amounts to one construction and one derivative call per row, with all arguments in reverse order. A call whose ranges, points, flags or orders do not fit the array is rejected with an error.",
  "every array of 1 to 3 dimensions (each of size at least 2 and order + 1), order, flags, non-empty ranges, points, derivative orders; derivatives at points that are no whole number of half steps from the ends",
  "column-major data is copied to a row-major mesh with reversed dimensions; ranges, flags, coordinates and derivative orders must be reversed with it",
  ["matlab/bspline.cpp: interpolation_nd, operator(), checkArguments", f"{IN}: derivative"])
p("C80","The MATLAB function reports what it cannot interpolate",
  "A call of the MEX function that passes its checks either interpolates the array or reports an error to MATLAB; it does not end the process.",
  "every array, also of more than 3 dimensions or with dimensions of size 1",
  "arrays of unusual shape",
  ["matlab/bspline.cpp: operator(), checkArguments"])
p("C81","Polynomials up to the spline order are reproduced",
  "If the data are samples of a polynomial whose degree in each non-periodic coordinate is at most the order (and which does not depend on the periodic coordinates), then the interpolation function equals that polynomial everywhere, inside and outside the range, and every derivative that derivative() computes equals the derivative of the polynomial.",
  "every dimension, order, periodicity, grid (uniform or not), polynomial, coordinate and derivative orders",
  "continuous input space; an error in the knots or in the matrix keeps the data points right but not the values in between",
  [f"{IT}: build_solver_, solve_for_control_points_", f"{IN}: create_knot_vector_, derivative", f"{BS}: operator(), derivative_at"])
p("C82","Samples of a spline give the spline back",
  "If the data are the values, at the grid points, of a spline over the knots that the interpolation uses, then the interpolation function holds exactly that spline: the same control points.",
  "every dimension, order, periodicity, grid, control points",
  "continuous input space",
  [f"{IT}: build_solver_, solve_for_control_points_", f"{IN}: create_knot_vector_"])
p("C83","Moving the axes moves the function",
  "For order at least 1: scaling, translating or mirroring coordinate axes, and starting the list of points of a periodic axis at another point, applied to the grid and to the order of the data, gives the same function of the moved coordinates, everywhere (inside, outside, at knots).",
  "every dimension, order >= 1, periodicity, grid (uniform or not), factors, offsets, starting points, data and coordinates",
  "continuous input space; the code treats the two ends of a range differently (half-open segments, wrapping from the left and from the right)",
  [f"{IT}: build_solver_, solve_for_control_points_", f"{IN}: create_knot_vector_, operator()", f"{BS}: operator(), get_knot_iter"])
p("C84","The order of the dimensions does not matter",
  "Listing the dimensions (flags, sizes, ranges and data indices) in another order gives the function with its arguments in that order; so for derivatives.",
  "every dimension, permutation, order, periodicity, grid, data, coordinates and derivative orders",
  "unbounded dimension and continuous input space",
  [f"{IT}: build_solver_, solve_for_control_points_", f"{IN}: create_knot_vector_, operator()", f"{BS}: operator(), get_knot_iter"])
p("C85","Products of data of different variables give products of functions",
  "If every value is the product of a value depending on some of the coordinates and a value depending on the others, then the function, and each of its derivatives, is the product of the two interpolations.",
  "every split of the dimensions, order, periodicity, grid, data, coordinates and derivative orders",
  "unbounded dimension and continuous input space",
  [f"{IT}: build_solver_, solve_for_control_points_", f"{IN}: create_knot_vector_, operator()", f"{BS}: operator(), get_knot_iter"])
p("C86","Variables that the data do not depend on do not matter",
  "If the data do not depend on some coordinates, the function is the interpolation over the other coordinates, and its derivatives in the former are zero.",
  "every split of the dimensions, order, periodicity, grid, data, coordinates and derivative orders",
  "unbounded dimension and continuous input space",
  [f"{IT}: build_solver_, solve_for_control_points_", f"{IN}: create_knot_vector_, operator()", f"{BS}: operator(), get_knot_iter"])
p("C87","Order 1 is multilinear interpolation",
  "For order 1 the value is the multilinear interpolation of the data at the corners of the cell of the grid that contains the coordinates (up to periods); without periods the outermost cells extend to infinity.",
  "every dimension, periodicity, grid, data and coordinates",
  "continuous input space",
  [f"{IT}: build_solver_, solve_for_control_points_", f"{IN}: create_knot_vector_, operator()", f"{BS}: operator(), get_knot_iter"])
p("C88","Values of another type are treated componentwise",
  "With data of a type of values other than the type of coordinates (complex numbers, vectors), any map that preserves the operations used on values (in particular taking a component of a vector, or the real or imaginary part) can be applied to the data before or to the results afterwards: construction fails the same way, and values, checked values and derivatives correspond.",
  "every pair of value types, preserving map, arithmetic (components of vectors also for doubles with rounding; complex parts exactly), dimension, order, periodicity, grid, data, coordinates and derivative orders",
  "quantifies over value types; a test fixes one",
  [f"{IT}: solve_for_control_points_", f"{IN}: operator(), derivative", f"{BS}: operator(), derivative_at, control_point_type", f"{LU}: solve_in_place_impl"])
p("C89","Interpolated points of a vector space",
  "An interpolation of vectors can be constructed under the same conditions as one of numbers and passes through its data; applying an affine map to the data applies it to the function; within the range of the data the values lie in every half-space that contains all control points.",
  "every dimension of the value space, affine map, half-space, dimension of the domain, order, periodicity, grid, data and coordinates",
  "continuous input space and quantification over maps and half-spaces",
  [f"{IT}: solve_for_control_points_", f"{IN}: operator(), derivative", f"{BS}: operator(), derivative_at, control_point_type", f"{LU}: solve_in_place_impl"])
p("C90","Interpolations of order p are p - 1 times continuously differentiable",
  "For order p >= 1 the value and all mixed derivatives of orders up to p - 1 in each variable are continuous functions of all coordinates, everywhere: at knots, at the ends of periods and outside the grid; derivative() of such orders is the mixed derivative of operator() also there, and differentiating it once more in one variable gives derivative() of the next order. The same holds for BSpline objects whose knots are not repeated inside the range.",
  "every dimension, order >= 1, periodicity, grid, data, coordinates and derivative orders below the order",
  "continuous input space; the code evaluates a different polynomial on each side of a knot, and a test samples points",
  [f"{BS}: operator(), derivative_at, get_knot_iter", f"{IN}: operator(), derivative, create_knot_vector_"])
p("C91","Monotone control points give monotone functions; order 1 stays between the data",
  "If the control points of a spline do not decrease (do not increase) along a dimension without period, neither does the function in that variable, for coordinates in the range. Interpolation of order 1 therefore keeps data monotone along such a dimension monotone, also beyond both ends of the grid in that variable, and its values inside the grid lie between the least and the greatest data value.",
  "every dimension, order (splines), knots not repeated inside the range, grid, data and pair of coordinates differing in one variable",
  "an inequality between values at all pairs of points of a continuum, across knots",
  [f"{BS}: operator(), base_spline_value, get_knot_iter", f"{IN}: operator()", f"{IT}: interpolate"])
p("C92","Interpolation amplifies errors of the data by a bounded factor",
  "On equally spaced points with a period in every dimension and for orders up to 6, two sets of data that differ by at most eps give functions that differ by at most c(p)^dim * eps everywhere, with c = 1, 2, 3, 96/19, 10, 5760/127 for orders 1 to 6; in particular the function is at most c(p)^dim times the largest datum. The factor does not depend on the number of points, their spacing, the data or the place.",
  "every pair of data sets, number of points and dimensions, period, coordinate",
  "an upper bound for all data and all grid sizes at once; tests see the amplification of a few data sets only",
  [f"{IT}: interpolate, solve", f"{IN}: operator()", f"{LU}: BandLUBase::solve", f"{BS}: operator(), base_spline_value"])
p("C93","Interpolation converges to the function behind the data",
  "Let the data be the values of a function F at the grid points, with F periodic where the grid is. On equally spaced periodic points, orders 1 to 6, the error is everywhere at most (1 + c(p)^dim) w, where w bounds the variation of F over (p+1)/2 grid steps and c(p) is the factor of C92; for order 1 on any grid it is at most w within the grid. So for uniformly continuous F the interpolations on finer and finer grids converge to F uniformly.",
  "every function with a modulus of continuity, number of points and dimensions, grid and coordinate",
  "a bound over all functions and all grids; a test compares one function at finitely many points and has to guess the tolerance",
  [f"{IT}: interpolate, solve", f"{IN}: operator(), constructors", f"{BS}: operator(), base_spline_value"])
p("C94","The error of interpolation is of second order in the grid step",
  "Let the data be the values at the grid points of a function F, periodic where the grid is, whose second derivative in variable d is at most M_d in absolute value. On equally spaced periodic points with step h, orders 1 to 6, the error is everywhere at most (1 + c(p)^dim) (sum of M_d)/2 ((p+1) h / 2)^2, c(p) being the factor of C92; for order 1 on any grid with steps at most h it is at most (sum of M_d) h^2 / 8 within the grid, and this bound is attained.",
  "every function with bounded second derivatives, number of points and dimensions, grid and coordinate",
  "a rate of convergence over all functions and all grids; a test observes one function on a few grids",
  [f"{IT}: interpolate, solve", f"{IN}: operator(), constructors", f"{BS}: operator(), base_spline_value"])
p("C95","Interpolation of orders 2 and 3 is stable and convergent on nearly uniform periodic grids and on equally spaced grids without period",
  "Take order 2 or 3 and a grid whose periodic dimensions have no step more than twice another and whose other dimensions have at least 2p+1 equally spaced points. Data differing by at most eps give values differing by at most c^dim eps within the grid, c being 45/16 for order 2 and 6 for order 3, whatever the number of points. Interpolating the values of a function that varies by at most w over p steps errs by at most (1 + c^dim) w; with second derivatives bounded by M_d and steps at most h it errs by at most (1 + c^dim) (sum of M_d)/2 (p h)^2; and for uniformly continuous functions the interpolations converge uniformly as the steps shrink.",
  "every such grid of any number of points and dimensions, function, data and coordinate within the grid",
  "bounds uniform in the number of points and over all functions and nonuniform grids; a test observes a few grids",
  [f"{IT}: interpolate, solve", f"{IT}: DimAssign aperiodic and periodic branches", f"{IN}: operator(), constructors", f"{BS}: operator(), base_spline_value"])
p("C96","Waiting for queued tasks always ends",
  "Any number of threads use one pool: each queues tasks, does its own work and waits only for tasks it has queued, as concurrent calls of interpolate and constructors of InterpolationFunction do. However they and the workers are scheduled, and whichever of them throw, only boundedly many steps are possible (spurious wake-ups aside), and when nothing can happen any more every thread has finished and every task queued has been executed. This holds also for threads that are themselves tasks of the pool.",
  "every number of workers, threads and tasks, content of the tasks and schedule",
  "absence of deadlock over all schedules; a test sees a few",
  [f"{TP}: queue_task, thread_loop, get_instance", f"{IT}: solve_for_control_points_, the threaded part", f"{BS}: generate_cell_layout, the threaded part"])
p("C97","Exceptions of tasks reach exactly their caller, and no task outlives the call that queued it",
  "Of concurrent threads using one pool, a thread is left by an exception only if it threw itself or one of the tasks it waits for did; a thread that waits for all its tasks and ends normally has had all of them executed without exception. A call of interpolate or of a constructor that ends, normally or by an exception, leaves no task behind that still uses its variables.",
  "every number of workers, threads and tasks, content of the tasks and schedule",
  "needs tasks that throw (lack of memory) at every moment of every schedule",
  [f"{TP}: queue_task, thread_loop, get_instance", f"{IT}: solve_for_control_points_, the threaded part", f"{BS}: generate_cell_layout, the threaded part"])
p("C98","Derivatives of interpolations converge to the derivatives of the function",
  "Interpolate the values of a periodic function on equally spaced periodic points, order 1 to 6, and take any mixed derivative, of order at most the order of the splines in each variable, by derivative. Everywhere its distance from the same derivative of the function is at most a fixed multiple of what that derivative varies over order+1/2 grid steps; so for a uniformly continuous derivative the derivatives of interpolations on finer and finer grids converge uniformly to it.",
  "every dimension, order up to 6, grid size, function with the derivative, mixed derivative and point",
  "a statement about limits and all functions",
  [f"{IT}: operator(), derivative, constructors", f"{BS}: derivative_at"])
p("C99","Full order of approximation of values and derivatives","Interpolate, on equally spaced points of periodic dimensions and with splines of order p between 1 and 6, the values of a function with the periods of the grid. If the function is p+1 times differentiable in each variable, operator() differs from it everywhere by at most an explicit constant (depending only on p, the number of dimensions and bounds of the (p+1)-th derivatives) times h^(p+1), h being the distance of the grid points. If all mixed derivatives up to order p+1 in each variable are bounded, derivative(x, a) with each a_d at most p differs from the same derivative of the function by at most an explicit constant times h^(p+1) (1+2/h0)^|a|, h0 being the least distance of grid points: each differentiation costs one power of h, no more.","all orders 1 to 6, all numbers of dimensions and grid sizes, all steps, all functions of the stated smoothness, all points, both data layouts, all orders of differentiation up to p","The rate concerns all smooth functions and all grids at once; an experiment sees one function on a few grids, where constants, rounding and the function's own symmetry hide a lost order.",[f"{IT}: operator(), derivative, constructors", f"{BS}: operator(), derivative_at"])
p("C100","Full order of approximation with ends and nearly uniform grids","Interpolate with splines of order p = 2 or 3 on a grid whose non-periodic dimensions have at least 2p+1 equally spaced points and whose periodic dimensions have neighbouring distances differing by at most a factor 2. If the function has all mixed derivatives up to order p+1 in each variable, bounded by M on the grid's box, then operator() differs from it everywhere in the box, ends included, by at most C h^(p+1) whenever neighbouring points are at most h <= 1 apart, with C depending only on p, the number of dimensions and M. derivative(x, a) with each a_d at most p differs from the same derivative of the function by at most an explicit constant times h^(p+1) (1+2p/h0)^|a|, h0 being the least distance of neighbouring points.","orders 2 and 3, all numbers of dimensions and grid sizes, all such grids, all functions of the stated smoothness, all points, both data layouts, all orders of differentiation up to p","The rate concerns all smooth functions and all grids at once, up to the very ends of the range, where a lost order is easily taken for noise; an experiment sees one function on a few grids.",[f"{IT}: operator(), derivative, constructors", f"{BS}: operator(), derivative_at"])
p("C101","Construction of the pool, also when a thread cannot be created","Worker threads run while the constructor is still creating others. The pool the constructor returns is in a state it could also have reached with all threads there from the start, and nothing is queued or executed before. If creating a thread throws, all threads created so far end and are joined and the exception reaches the caller.","every number of threads, every interleaving of the constructor with the workers, every thread at which creation fails, spurious wake-ups","thread creation practically never fails in a test, and the hang needs one precise interleaving",[f"{TP}: constructor, catch block, thread_loop, JoinThreads"])
p("C102","Work done after the pool has been told to terminate","Once the destructor has set should_terminate every worker executes at most one more task, however many are queued. The table printed by the destructor (INTP_DEBUG) shows the numbers of tasks the workers took and executed.","every state of the pool and every schedule after the flag is set","depends on what each worker is doing at the moment the pool is destroyed",[f"{TP}: ~DedicatedThreadPool, thread_loop, submitted, executed, stolen, stealing"])
p("C103","Interpolation in doubles compared with exact interpolation","If the points are doubles whose spacing makes the knots exact (integers and regular binary fractions, for example), the value computed in doubles differs from the value the exact interpolant takes at the reduced coordinates by at most (number of roundings) * 2^-52 * C + K^n * (n (order + M G) 2^-49 C + 2^-1031) + 2^-1034, where C bounds the control points, M the number of unknowns and G the products of the stored factors in a dimension, n is the number of dimensions and K depends on the order only. The control points are at most 2 K^n times the largest datum. The knots are computed without rounding.","every number of dimensions: orders 2 and 3 on the grids of C95 (periodic ones with spacings differing at most by a factor 2, equally spaced plain ones); orders up to 6 on equally spaced periodic grids; all data with finite control points, all points not outside the data","the exact interpolant is not available to a test, and the bound is for all data and all points",[f"{IT}: interpolate, calc_control_points", f"{IN}: operator()", f"{BS}: knots, spline_value"])
p("C104","Values computed in doubles approximate the function behind the data","Let the data be the values of a smooth function at the grid points up to eps, the grid as in C103. The value computed in doubles at a point differs from the function there by at most C h^(p+1) + K^n eps + a rounding part, where h is the grid step, K depends on the order only, C on the order, the number of dimensions and the bounds of the derivatives, and the rounding part is a fixed multiple of 2^-49 times the largest datum.","every function with bounded derivatives up to order p+1 (in each variable); orders 2 and 3 on the grids of C95, orders up to 6 on equally spaced periodic grids; every number of dimensions, all data errors, all points not outside the data","a statement about all functions, grids and points at once; tests compare single values with a tolerance chosen by hand",[f"{IT}: interpolate, calc_control_points", f"{IN}: operator()", f"{BS}: knots, spline_value"])
p("C105","Derivatives computed in doubles and derivatives of exact interpolation","On grids that doubles represent exactly (C103), every partial or mixed derivative computed in doubles is a finite number. It differs from the derivative of the exact interpolant of the same data at the same point by at most L^m times a fixed multiple of 2^-49 times the largest control point (plus underflow), where m is the total order of differentiation and L = 1 + 2p/h0 with h0 the smallest grid step.","all data, orders of differentiation up to p in each variable; p = 2 and 3 on the grids of C95, p from 1 to 6 on equally spaced periodic grids; every number of dimensions, all points not outside the data","a statement about all data, grids and points at once; tests compare single derivatives with a tolerance chosen by hand",[f"{IT}: interpolate, calc_control_points", f"{IN}: derivative", f"{BS}: derivative_at"])
p("C106","Derivatives computed in doubles approximate the derivatives of the function behind the data","Let the data be the values of a smooth function at the grid points up to eps. Errors of the data reach a derivative of total order m of the interpolation multiplied by at most K^n L^m, K depending on the order only, n being the number of dimensions and L = 1 + 2p/h0 with h0 the smallest grid step. A derivative computed in doubles differs from the derivative of the function by an explicit bound of the order h^(p+1) L^m, plus K^n L^m eps, plus a rounding part that is L^m times a fixed multiple of 2^-49 times the largest datum.","every function with bounded derivatives up to order p+1 (in each variable), every partial or mixed derivative of order up to p in each variable; p = 2 and 3 on the grids of C95, p from 1 to 6 on equally spaced periodic grids; every number of dimensions, all data errors, all points not outside the data","a statement about all functions, grids and points at once; tests compare single derivatives with a tolerance chosen by hand",[f"{IT}: interpolate, calc_control_points", f"{IN}: derivative", f"{BS}: derivative_at"])
p("C107","Negated data give negated values, exactly, in doubles","Interpolating negated data in doubles ends in the same way as interpolating the data (a function, an exception, undefined behaviour), and every value and every derivative, with or without boundary check, is exactly the negated one (both NaN, or equal under ==, the zeros not being distinguished). Data that compare equal have interpolations that compare equal. Zero data give values that are zero or NaN.","every template and every direct construction, every order, dimension, periodicity and grid; all data including infinities and NaN; all points and orders of derivation; no hypothesis on overflow or conditioning","an identity of rounded results that has to hold for all of the 2^64 doubles in every datum and coordinate; comparisons with a tolerance do not see it",[f"{IT}: interpolate, solve_for_control_points_", "src/include/BandLU.hpp: solve_in_place_impl", f"{IN}: operator(), at, derivative, derivative_at", f"{BS}: operator(), derivative_at"])
p("C108","Work is divided evenly among about sqrt(h) tasks","With threads, the h lines of a round are divided into b tasks, b being the square root of h computed in doubles and truncated. Below 2^51 lines b is the integer square root, every task has between b and b + 2 lines and the calling thread has fewer than b. For every h the conversions between integers and doubles are defined, b differs from the square root by less than 2, and no task is empty.","every number of lines below 2^64","the truncated rounded root is right only if rounding never crosses an integer, which depends on every single h (from 2^52 on it does happen)",[f"{IT}: solve_for_control_points_ (block_num, task_per_block)", f"{BS}: generate_cell_layout (block_num, task_per_block)", f"{TP}: queue_task"])
p("C109","Rounding never gives a value of the wrong sign","In doubles, a spline whose control points are not negative has no negative value at any point of its domain; with control points that are not positive, no positive value. This holds whatever the magnitudes, underflow and overflow included (where overflow occurs the value may be infinite or NaN, but not of the wrong sign).","every dimension and order, all sorted finite knots, all control points of one sign (zeros of either sign, denormals and infinities included), all points of the domain in doubles, all hints","a single wrong sign at a knot or at the end of the range, where a weight is zero or tiny, would be enough",[f"{BS}: base_spline_value_", f"{BS}: operator()"])
p("C110","NaN is never lost","In doubles, a NaN among the (order+1)^D control points attached to the segments of a point makes the value there NaN, even where its weight is zero; the other control points have no influence (C46). A coordinate that is NaN, or infinite in a periodic dimension, makes the value NaN for orders from 1 on, and evaluation still ends normally, within the storage; so for interpolation functions (whose bounds check does not refuse NaN). Splines with and without the cell layout.","every dimension, order, knots (not necessarily sorted or finite), control points, coordinates and hints in doubles","NaN compares false with everything, so that it takes the other branch in the segment search and in the wrapping; whether it is lost depends on all combinations",[f"{BS}: operator()", f"{BS}: base_spline_value_", f"{BS}: get_knot_iter"])
p("C111","The position hint changes nothing in doubles","For finite, nondecreasing knots, values and derivatives computed in doubles are the same to the last bit for all valid hints and all coordinates, NaN and infinities included. In particular an interpolation function, which derives its hints from its uniform grids by a rounded division, returns what its spline returns without hints.","every dimension, order, periodicity, knots (finite and nondecreasing), control points, pair of valid hint lists and coordinates in doubles; interpolation functions: coordinates whose quotient by the grid step can be converted to an index","a hint that is off by one segment after rounding only matters for coordinates within an ulp of a knot; C16 states this for totally ordered arithmetic only",[f"{BS}: operator()", f"{BS}: derivative_at", f"{BS}: get_knot_iter"])
if __name__ == "__main__":
    out = os.path.join(os.path.dirname(os.path.abspath(__file__)), "..", "properties.jsonl")
    with open(out, "w") as f:
        for x in P: f.write(json.dumps(x) + "\n")
    print(len(P))
