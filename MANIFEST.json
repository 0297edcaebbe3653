{
 "claims": [
  {
   "property": "C01",
   "status": "proved",
   "theorems": [
    "C01_index_to_offset_and_back",
    "C01_offset_to_index_and_back"
   ],
   "note": ""
  },
  {
   "property": "C02",
   "status": "proved",
   "theorems": [
    "C02_write_then_read"
   ],
   "note": ""
  },
  {
   "property": "C03",
   "status": "proved",
   "theorems": [
    "C03_checked_access",
    "C03_checked_element"
   ],
   "note": ""
  },
  {
   "property": "C04",
   "status": "proved",
   "theorems": [
    "C04_line_iteration",
    "C04_iterator_arithmetic"
   ],
   "note": ""
  },
  {
   "property": "C05",
   "status": "proved",
   "theorems": [
    "C05_band_storage",
    "C05_band_checks"
   ],
   "note": ""
  },
  {
   "property": "C06",
   "status": "partial",
   "theorems": [
    "C06_band_product_refuted",
    "C06_band_product_is_transposed"
   ],
   "note": "False of the code: the product with the transposed matrix is computed (equal band widths)."
  },
  {
   "property": "C07",
   "status": "proved",
   "theorems": [
    "C07_extended_band_storage",
    "C07_parts_and_checks"
   ],
   "note": ""
  },
  {
   "property": "C08",
   "status": "proved",
   "theorems": [
    "C08_extended_band_product"
   ],
   "note": ""
  },
  {
   "property": "C09",
   "status": "proved",
   "theorems": [
    "C09_band_lu_solves"
   ],
   "note": ""
  },
  {
   "property": "C10",
   "status": "proved",
   "theorems": [
    "C10_extended_lu_solves"
   ],
   "note": "Needs p, q < n and p + q <= n, the sizes for which the indices of the code do not wrap."
  },
  {
   "property": "C11",
   "status": "proved",
   "theorems": [
    "C11_dominant_band",
    "C11_dominant_extended"
   ],
   "note": ""
  },
  {
   "property": "C12",
   "status": "proved",
   "theorems": [
    "C12_compute_once"
   ],
   "note": ""
  },
  {
   "property": "C13",
   "status": "proved",
   "theorems": [
    "C13_basis_values"
   ],
   "note": ""
  },
  {
   "property": "C14",
   "status": "proved",
   "theorems": [
    "C14_partition_of_unity"
   ],
   "note": ""
  },
  {
   "property": "C15",
   "status": "proved",
   "theorems": [
    "C15_knot_lookup",
    "C15_knot_lookup_real"
   ],
   "note": ""
  },
  {
   "property": "C16",
   "status": "proved",
   "theorems": [
    "C16_hint_lookup",
    "C16_hint_value",
    "C16_hint_derivative"
   ],
   "note": "In any totally ordered arithmetic."
  },
  {
   "property": "C17",
   "status": "proved",
   "theorems": [
    "C17_tensor_product",
    "C17_tensor_product_in_range"
   ],
   "note": ""
  },
  {
   "property": "C18",
   "status": "proved",
   "theorems": [
    "C18_convex_hull"
   ],
   "note": ""
  },
  {
   "property": "C19",
   "status": "proved",
   "theorems": [
    "C19_memory_safe",
    "C19_memory_safe_total",
    "C19_no_fault_real"
   ],
   "note": "For BSpline objects, in any arithmetic."
  },
  {
   "property": "C20",
   "status": "proved",
   "theorems": [
    "C20_periodic",
    "C20_order_zero_refuted"
   ],
   "note": "Order 0 with the knot count of the public constructor is refuted."
  },
  {
   "property": "C21",
   "status": "proved",
   "theorems": [
    "C21_derivative",
    "C21_derivative_everywhere"
   ],
   "note": ""
  },
  {
   "property": "C22",
   "status": "proved",
   "theorems": [
    "C22_order_zero",
    "C22_order_high"
   ],
   "note": ""
  },
  {
   "property": "C23",
   "status": "proved",
   "theorems": [
    "C23_aperiodic_passes_through_data"
   ],
   "note": ""
  },
  {
   "property": "C24",
   "status": "proved",
   "theorems": [
    "C24_periodic_passes_through_data",
    "C24_uniform_passes_through_data"
   ],
   "note": "Construction succeeds for orders up to 3 on any grid and for every order on uniform grids; for higher orders on given coordinates the statement is about the functions whose construction succeeds."
  },
  {
   "property": "C25",
   "status": "proved",
   "theorems": [
    "C25_linear_in_data"
   ],
   "note": "Values and derivatives."
  },
  {
   "property": "C26",
   "status": "proved",
   "theorems": [
    "C26_constant_data"
   ],
   "note": ""
  },
  {
   "property": "C27",
   "status": "proved",
   "theorems": [
    "C27_end_point_ignored"
   ],
   "note": ""
  },
  {
   "property": "C28",
   "status": "proved",
   "theorems": [
    "C28_at_checks_bounds",
    "C28_at_checks_bounds_real"
   ],
   "note": ""
  },
  {
   "property": "C29",
   "status": "partial",
   "theorems": [
    "C29_range_odd_order_partial",
    "C29_range",
    "C29_last_point_rejected",
    "C29_range_even_order_refuted"
   ],
   "note": "Proved for odd orders. False for every even order: the range ends before the last data point, where at() throws."
  },
  {
   "property": "C30",
   "status": "proved",
   "theorems": [
    "C30_overloads_agree",
    "C30_template_is_constructor",
    "C30_any_history"
   ],
   "note": ""
  },
  {
   "property": "C31",
   "status": "partial",
   "theorems": [
    "C31_unit_spacing",
    "C31_template_agrees_partial",
    "C31_template_spacing_no_dummy",
    "C31_template_no_dummy_refuted"
   ],
   "note": "Proved but for the periodic 1-D template with INTP_PERIODIC_NO_DUMMY_POINT, whose spacing is (n-1)/n: refuted."
  },
  {
   "property": "C32",
   "status": "proved",
   "theorems": [
    "C32_collocation"
   ],
   "note": ""
  },
  {
   "property": "C33",
   "status": "proved",
   "theorems": [
    "C33_deterministic",
    "C33_no_race",
    "C33_progress",
    "C33_cells",
    "C33_cells_no_race"
   ],
   "note": "Any schedule, any number of blocks, any arithmetic."
  },
  {
   "property": "C34",
   "status": "proved",
   "theorems": [
    "C34_division"
   ],
   "note": "Any number of blocks; sqrt in double arithmetic is not modelled."
  },
  {
   "property": "C35",
   "status": "partial",
   "theorems": [
    "C35_same_function_partial",
    "C35_any_arithmetic",
    "C35_even_order_refuted"
   ],
   "note": "Proved for odd orders, and for even orders except at coordinates of a periodic dimension a whole number of periods below the range; there it is false of the code (reads outside the cells)."
  },
  {
   "property": "C36",
   "status": "partial",
   "theorems": [
    "C36_proxy_partial",
    "C36_even_order_refuted"
   ],
   "note": "Proved for odd orders and for even orders without a periodic dimension after the first; otherwise false of the code (wrong value or read outside the cells)."
  },
  {
   "property": "C37",
   "status": "proved",
   "theorems": [
    "C37_exactly_once",
    "C37_future"
   ],
   "note": "Every interleaving, number of workers and sequence of submissions."
  },
  {
   "property": "C38",
   "status": "proved",
   "theorems": [
    "C38_progress",
    "C38_completes"
   ],
   "note": "Progress, and termination of every schedule with all tasks executed."
  },
  {
   "property": "C39",
   "status": "partial",
   "theorems": [
    "C39_shutdown_partial",
    "C39_lost_wakeup_refuted"
   ],
   "note": "Proved if no worker is between evaluating the wait predicate and waiting when the flag is set; otherwise false of the code: the flag is set without the mutex, the notification is lost and the worker sleeps for ever."
  },
  {
   "property": "C40",
   "status": "proved",
   "theorems": [
    "C40_counts",
    "C40_note_refuted"
   ],
   "note": "The identity stated is proved; the identity in the note the code prints is refuted."
  },
  {
   "property": "C41",
   "status": "partial",
   "theorems": [
    "C41_few_points_refuted"
   ],
   "note": "False of the code: order 3, two distinct points, constant data 1 gives 6/5."
  },
  {
   "property": "C42",
   "status": "partial",
   "theorems": [
    "C42_order_zero_reads_past_end",
    "C42_order_zero_points_refuted"
   ],
   "note": "False of the code for every list of coordinates."
  },
  {
   "property": "C43",
   "status": "proved",
   "theorems": [
    "C43_knot_shape"
   ],
   "note": ""
  },
  {
   "property": "C44",
   "status": "proved",
   "theorems": [
    "C44_bad_grids_rejected"
   ],
   "note": "Enough points for the order is a precondition. A periodic grid of order above 3 whose matrix has a zero pivot gives a division by zero, not an exception."
  },
  {
   "property": "C45",
   "status": "proved",
   "theorems": [
    "C45_same_coordinates"
   ],
   "note": ""
  },
  {
   "property": "C46",
   "status": "proved",
   "theorems": [
    "C46_local_influence"
   ],
   "note": ""
  },
  {
   "property": "C47",
   "status": "proved",
   "theorems": [
    "C47_continuous"
   ],
   "note": ""
  },
  {
   "property": "C48",
   "status": "proved",
   "theorems": [
    "C48_exact_bytes",
    "C48_beyond_max_refuted"
   ],
   "note": "For requests up to max_size(); beyond it the byte count wraps (refuted, the caller has to check)."
  },
  {
   "property": "C49",
   "status": "proved",
   "theorems": [
    "C49_disjoint"
   ],
   "note": ""
  },
  {
   "property": "C50",
   "status": "proved",
   "theorems": [
    "C50_affine_data"
   ],
   "note": ""
  },
  {
   "property": "C51",
   "status": "proved",
   "theorems": [
    "C51_pow",
    "C51_dispatch",
    "C51_dispatch_log"
   ],
   "note": ""
  },
  {
   "property": "C52",
   "status": "partial",
   "theorems": [
    "C52_iterator_end_pointer_refuted"
   ],
   "note": "False of the code: end(dim, index) forms pointers beyond one past the end."
  },
  {
   "property": "C53",
   "status": "proved",
   "theorems": [
    "C53_constructor",
    "C53_loaders",
    "C53_constructor_refuses"
   ],
   "note": ""
  },
  {
   "property": "C54",
   "status": "partial",
   "theorems": [
    "C54_outside_row_refuted"
   ],
   "note": "False of the code: rows below the matrix are accepted next to the last columns. C05_band_checks says exactly which positions are refused."
  },
  {
   "property": "C55",
   "status": "proved",
   "theorems": [
    "C55_resize"
   ],
   "note": ""
  },
  {
   "property": "C56",
   "status": "partial",
   "theorems": [
    "C56_dropped_refuted"
   ],
   "note": "False of the code: workers leave as soon as the flag is set, queued tasks are dropped."
  },
  {
   "property": "C57",
   "status": "partial",
   "theorems": [
    "C57_flag_race_refuted"
   ],
   "note": "False of the code: plain bool, no mutex."
  },
  {
   "property": "C58",
   "status": "partial",
   "theorems": [
    "C58_copies_refuted",
    "C58_same_block"
   ],
   "note": "False of the code: each copy has its own stack pointer."
  },
  {
   "property": "C59",
   "status": "partial",
   "theorems": [
    "C59_size_partial",
    "C59_wrap_refuted"
   ],
   "note": "Proved below 2^64 elements; otherwise false of the code (the product wraps)."
  },
  {
   "property": "C60",
   "status": "proved",
   "theorems": [
    "C60_band_solver_safe",
    "C60_extended_solver_safe",
    "C60_solvers_total"
   ],
   "note": "Any arithmetic whose division only fails with a division by zero; total in arithmetics whose division never fails (IEEE doubles: F_total)."
  },
  {
   "property": "C61",
   "status": "proved",
   "theorems": [
    "C61_construction_safe",
    "C61_construction_total"
   ],
   "note": "Any arithmetic; total in doubles for uniform and periodic grids."
  },
  {
   "property": "C62",
   "status": "partial",
   "theorems": [
    "C62_increasing_doubles_refuted"
   ],
   "note": "False of the code: running-sum cancellation puts a knot in the wrong place (assertion fails, or an index wraps without assertions)."
  },
  {
   "property": "C63",
   "status": "partial",
   "theorems": [
    "C63_evaluation_safe",
    "C63_evaluation_double",
    "C63_huge_coordinate_refuted"
   ],
   "note": "Proved when the position on each uniform grid, as computed in doubles, is below 2^64 (or NaN); otherwise false of the code (conversion of a too large double to size_t)."
  },
  {
   "property": "C64",
   "status": "partial",
   "theorems": [
    "C64_wide_bands_fail",
    "C64_wide_bands_refuted"
   ],
   "note": "False of the code: for p+q > n the solution loop bound j - q wraps; proved that solving then never succeeds. For p+q <= n see C10 and C60."
  },
  {
   "property": "C65",
   "status": "proved",
   "theorems": [
    "C65_definite_band",
    "C65_definite_extended"
   ],
   "note": "Exact arithmetic."
  },
  {
   "property": "C66",
   "status": "proved",
   "theorems": [
    "C66_templates_same",
    "C66_functions_same",
    "C66_functions_same_real",
    "C66_threads",
    "C66_threads_no_race",
    "C66_cells"
   ],
   "note": "Any arithmetic that never throws; aperiodic point grids whose last point exceeds the others (needed for the knots to end at the last point)."
  },
  {
   "property": "C67",
   "status": "partial",
   "theorems": [
    "C67_copy_partial",
    "C67_copy_unusable",
    "C67_copy_refuted"
   ],
   "note": "Holds from C++17 on; before, false of the code for every template: the copy's union holds no solver."
  },
  {
   "property": "C68",
   "status": "partial",
   "theorems": [
    "C68_other_shape_refuted",
    "C68_larger_shape_refuted"
   ],
   "note": "False of the code: nothing is checked. Fewer values leave zeros, more values are written out of bounds."
  },
  {
   "property": "C69",
   "status": "proved",
   "theorems": [
    "C69_band_exact",
    "C69_extended_exact"
   ],
   "note": "Exact arithmetic."
  },
  {
   "property": "C70",
   "status": "proved",
   "theorems": [
    "C70_evaluation_error",
    "C70_evaluation_error_double"
   ],
   "note": "Error against the exact value of the spline with the same knots, control points and reduced coordinates; reduced periodic coordinates must be below the right end."
  },
  {
   "property": "C71",
   "status": "proved",
   "theorems": [
    "C71_conversions"
   ],
   "note": ""
  },
  {
   "property": "C72",
   "status": "partial",
   "theorems": [
    "C72_periodic_reduction_partial",
    "C72_in_range_refuted"
   ],
   "note": "Error bound proved; in range for coordinates not below the left end, otherwise false of the code (the sum can round beyond the right end)."
  },
  {
   "property": "C73",
   "status": "proved",
   "theorems": [
    "C73_band_residual",
    "C73_extended_residual",
    "C73_band_residual_double",
    "C73_extended_residual_double"
   ],
   "note": "Backward error in terms of the computed factors; no bound of the growth of the factors."
  },
  {
   "property": "C74",
   "status": "proved",
   "theorems": [
    "C74_aperiodic_knots_double",
    "C74_periodic_knots_double",
    "C74_rolling_sum_refuted",
    "C74_rounded_period_refuted"
   ],
   "note": "Error bound and the distance of neighbouring knots; the refuted theorems show that increasing coordinates alone do not give sorted knots (see also C62)."
  },
  {
   "property": "C75",
   "status": "proved",
   "theorems": [
    "C75_uniform_aperiodic_double",
    "C75_uniform_periodic_double",
    "C75_overflow_refuted",
    "C75_underflow_refuted",
    "C75_resolution_refuted"
   ],
   "note": "Within the stated bounds; the refuted theorems show what happens beyond them, and that sorted finite knots do not imply finite values."
  },
  {
   "property": "C76",
   "status": "proved",
   "theorems": [
    "C76_spline_through_data",
    "C76_value_at_data"
   ],
   "note": "A posteriori: the bound is in terms of the computed factors and control points. Dimensions given by points; uniform ranges are in C77."
  },
  {
   "property": "C77",
   "status": "proved",
   "theorems": [
    "C77_spline_through_data",
    "C77_value_at_data"
   ],
   "note": "A posteriori: the bound is in terms of the computed factors and control points. Order 0 is not covered."
  },
  {
   "property": "C78",
   "status": "proved",
   "theorems": [
    "C78_derivative_error",
    "C78_derivative_error_double",
    "C78_derivative_error_mixed"
   ],
   "note": ""
  },
  {
   "property": "C79",
   "status": "proved",
   "theorems": [
    "C79_mex_function",
    "C79_mex_calls",
    "C79_shapes_checked"
   ],
   "note": ""
  },
  {
   "property": "C80",
   "status": "partial",
   "theorems": [
    "C80_many_dimensions_terminate",
    "C80_thin_array_refuted",
    "C80_thin_values_refuted",
    "C80_padding_refuted"
   ],
   "note": "False of the code: arrays of four and more dimensions end the process ('throw;' without an exception), arrays with an inner dimension of size 1 are accepted but only their first slice is used (wrong values or a division by zero), and with INTP_PERIODIC_NO_DUMMY_POINT defined the zero padding of periodic dimensions becomes data. What does hold is C79."
  },
  {
   "property": "C81",
   "status": "proved",
   "theorems": [
    "C81_polynomial_data"
   ],
   "note": ""
  },
  {
   "property": "C82",
   "status": "proved",
   "theorems": [
    "C82_spline_samples"
   ],
   "note": ""
  },
  {
   "property": "C83",
   "status": "proved",
   "theorems": [
    "C83_moved_grid"
   ],
   "note": ""
  },
  {
   "property": "C84",
   "status": "proved",
   "theorems": [
    "C84_permuted_dimensions"
   ],
   "note": ""
  },
  {
   "property": "C85",
   "status": "proved",
   "theorems": [
    "C85_product_data"
   ],
   "note": ""
  },
  {
   "property": "C86",
   "status": "proved",
   "theorems": [
    "C86_independent_data"
   ],
   "note": ""
  },
  {
   "property": "C87",
   "status": "proved",
   "theorems": [
    "C87_multilinear"
   ],
   "note": ""
  },
  {
   "property": "C88",
   "status": "proved",
   "theorems": [
    "C88_values_mapped",
    "C88_values_component",
    "C88_vectors",
    "C88_complex"
   ],
   "note": ""
  },
  {
   "property": "C89",
   "status": "proved",
   "theorems": [
    "C89_vectors_pass",
    "C89_affine_map",
    "C89_convex_hull"
   ],
   "note": ""
  },
  {
   "property": "C90",
   "status": "proved",
   "theorems": [
    "C90_interpolation_smooth",
    "C90_spline_smooth"
   ],
   "note": ""
  },
  {
   "property": "C91",
   "status": "proved",
   "theorems": [
    "C91_spline_monotone",
    "C91_linear_monotone",
    "C91_linear_between"
   ],
   "note": ""
  },
  {
   "property": "C92",
   "status": "proved",
   "theorems": [
    "C92_noise",
    "C92_bound"
   ],
   "note": "orders 1 to 6 on equally spaced periodic points; other grids are not covered"
  },
  {
   "property": "C93",
   "status": "proved",
   "theorems": [
    "C93_error",
    "C93_linear_error",
    "C93_converges"
   ],
   "note": "orders above 1 on equally spaced periodic points only"
  },
  {
   "property": "C94",
   "status": "proved",
   "theorems": [
    "C94_quadratic",
    "C94_linear"
   ],
   "note": "orders above 1 on equally spaced periodic points only; second order only, the rate p+1 of smoother functions is not proved"
  },
  {
   "property": "C95",
   "status": "proved",
   "theorems": [
    "C95_noise",
    "C95_error",
    "C95_quadratic",
    "C95_converges"
   ],
   "note": "orders 2 and 3; without period equally spaced points only; the factors are not the best possible"
  },
  {
   "property": "C96",
   "status": "partial",
   "theorems": [
    "C96_waiting_ends_partial",
    "C96_calls_end_partial",
    "C96_nested_refuted"
   ],
   "note": "proved for threads outside the pool; false for tasks that wait for tasks of the same pool: eight of them block the eight workers for ever"
  },
  {
   "property": "C97",
   "status": "partial",
   "theorems": [
    "C97_reported_partial",
    "C97_calls_partial",
    "C97_left_behind_refuted"
   ],
   "note": "the first half proved for tasks that do not use the pool; the last sentence is false of the code: after an exception the remaining tasks still refer to local variables"
  },
  {
   "property": "C98",
   "status": "proved",
   "theorems": [
    "C98_error",
    "C98_converges"
   ],
   "note": "equally spaced periodic points, orders 1 to 6, exact arithmetic"
  },
  {
   "property": "C99",
   "status": "proved",
   "theorems": [
    "C99_values",
    "C99_derivatives"
   ],
   "note": "In exact real arithmetic. Equally spaced points in periodic dimensions; orders 1 to 6; the inverse bounds of the interpolation matrices are those of C92."
  },
  {
   "property": "C100",
   "status": "proved",
   "theorems": [
    "C100_values",
    "C100_derivatives"
   ],
   "note": "In exact real arithmetic. The grids are those of C95, whose bounds of the inverse matrices are used; orders 2 and 3."
  },
  {
   "property": "C101",
   "status": "partial",
   "theorems": [
    "C101_returns",
    "C101_no_tasks",
    "C101_failure_partial",
    "C101_failure_refuted"
   ],
   "note": "successful construction proved; failing construction proved unless a worker is between evaluating the predicate and waiting, where it is false: the handler sets the flag and notifies without the mutex, so the constructor never ends"
  },
  {
   "property": "C102",
   "status": "partial",
   "theorems": [
    "C102_tasks",
    "C102_table_refuted"
   ],
   "note": "first sentence proved; the second is false: the table is printed before the threads are joined"
  },
  {
   "property": "C103",
   "status": "proved",
   "theorems": [
    "C103_values",
    "C103_values_uniform",
    "C103_control",
    "C103_control_uniform",
    "C103_knots"
   ],
   "note": "the bound on the control points assumes that they are finite and that K^n n (order + M G) 2^-49 <= 1/2; the exact interpolant is evaluated at the coordinates after their reduction to the range in doubles"
  },
  {
   "property": "C104",
   "status": "proved",
   "theorems": [
    "C104_values",
    "C104_values_uniform"
   ],
   "note": "assumes that the control points computed in doubles are finite and the smallness condition of C103; the function is compared at the coordinates after their reduction to the range in doubles"
  },
  {
   "property": "C105",
   "status": "proved",
   "theorems": [
    "C105_derivatives",
    "C105_derivatives_uniform"
   ],
   "note": "assumes that the control points computed in doubles are finite and that neither L^m nor L^m times the largest of them exceeds 2^900; compared at the coordinates after their reduction to the range in doubles"
  },
  {
   "property": "C106",
   "status": "proved",
   "theorems": [
    "C106_noise",
    "C106_noise_uniform",
    "C106_derivatives",
    "C106_derivatives_uniform"
   ],
   "note": "the last two assume what C104 assumes and that neither L^m nor L^m times the bound of the control points exceeds 2^900; the first two are in exact arithmetic"
  },
  {
   "property": "C107",
   "status": "proved",
   "theorems": [
    "C107_negated",
    "C107_negated_make",
    "C107_alike",
    "C107_alike_make",
    "C107_zero"
   ],
   "note": "the relation is opposite (b == -a or both NaN) or alike (b == a or both NaN) for each datum; -0 in the data gives +0 in the values (C107_zero_example), so the sign of zeros is not part of the claim"
  },
  {
   "property": "C108",
   "status": "proved",
   "theorems": [
    "C108_number",
    "C108_always_defined",
    "C108_shares"
   ],
   "note": "std::sqrt is the correctly rounded root of IEEE 754; C33 and C34 hold for any number of tasks, so also for this one"
  },
  {
   "property": "C109",
   "status": "proved",
   "theorems": [
    "C109_not_negative",
    "C109_not_positive",
    "C109_cells"
   ],
   "note": "outside the domain the sign can change (C109_outside_example); NaN counts as neither negative nor positive; cell layout: periodic dimensions with the knot number of an odd order (see C35)"
  },
  {
   "property": "C110",
   "status": "proved",
   "theorems": [
    "C110_control",
    "C110_coordinate",
    "C110_cells",
    "C110_function"
   ],
   "note": "order 0 does not notice a NaN coordinate (C110_order_zero_example); cell layout: periodic dimensions with the knot number of an odd order (see C35)"
  },
  {
   "property": "C111",
   "status": "proved",
   "theorems": [
    "C111_hint",
    "C111_function"
   ],
   "note": "knots out of order, which a running sum in doubles can produce (C62), are excluded by hypothesis; C111_function also excludes quotients that do not fit an index (C63)"
  }
 ]
}