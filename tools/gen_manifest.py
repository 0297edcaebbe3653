#!/usr/bin/env python3
"""Writes ../MANIFEST.json; every property of properties.jsonl gets a claim."""
import json, os, re, glob
here = os.path.dirname(os.path.abspath(__file__))
C = {}
def c(prop, status, theorems, note=""):
    C[prop] = dict(property=prop, status=status, theorems=theorems.split(), note=note)

c("C01","proved","C01_index_to_offset_and_back C01_offset_to_index_and_back")
c("C02","proved","C02_write_then_read")
c("C03","proved","C03_checked_access C03_checked_element")
c("C04","proved","C04_line_iteration C04_iterator_arithmetic")
c("C05","proved","C05_band_storage C05_band_checks")
c("C06","partial","C06_band_product_refuted C06_band_product_is_transposed",
  "False of the code: the product with the transposed matrix is computed (equal band widths).")
c("C07","proved","C07_extended_band_storage C07_parts_and_checks")
c("C08","proved","C08_extended_band_product")
c("C09","proved","C09_band_lu_solves")
c("C10","proved","C10_extended_lu_solves", "Needs p, q < n and p + q <= n, the sizes for which the indices of the code do not wrap.")
c("C11","proved","C11_dominant_band C11_dominant_extended")
c("C12","proved","C12_compute_once")
c("C52","partial","C52_iterator_end_pointer_refuted","False of the code: end(dim, index) forms pointers beyond one past the end.")
c("C13","proved","C13_basis_values")
c("C14","proved","C14_partition_of_unity")
c("C15","proved","C15_knot_lookup C15_knot_lookup_real")
c("C16","proved","C16_hint_lookup C16_hint_value C16_hint_derivative", "In any totally ordered arithmetic.")
c("C17","proved","C17_tensor_product C17_tensor_product_in_range")
c("C18","proved","C18_convex_hull")
c("C19","proved","C19_memory_safe C19_memory_safe_total C19_no_fault_real",
  "For BSpline objects, in any arithmetic.")
c("C20","proved","C20_periodic C20_order_zero_refuted", "Order 0 with the knot count of the public constructor is refuted.")
c("C21","proved","C21_derivative C21_derivative_everywhere")
c("C22","proved","C22_order_zero C22_order_high")
c("C46","proved","C46_local_influence")
c("C47","proved","C47_continuous")
c("C53","proved","C53_constructor C53_loaders C53_constructor_refuses")
c("C23","proved","C23_aperiodic_passes_through_data")
c("C24","proved","C24_periodic_passes_through_data C24_uniform_passes_through_data",
  "Construction succeeds for orders up to 3 on any grid and for every order on uniform grids; for higher orders on given coordinates the statement is about the functions whose construction succeeds.")
c("C25","proved","C25_linear_in_data", "Values and derivatives.")
c("C26","proved","C26_constant_data")
c("C27","proved","C27_end_point_ignored")
c("C28","proved","C28_at_checks_bounds C28_at_checks_bounds_real")
c("C29","partial","C29_range_odd_order_partial C29_range C29_last_point_rejected C29_range_even_order_refuted",
  "Proved for odd orders. False for every even order: the range ends before the last data point, where at() throws.")
c("C30","proved","C30_overloads_agree C30_template_is_constructor C30_any_history")
c("C31","partial","C31_unit_spacing C31_template_agrees_partial C31_template_spacing_no_dummy C31_template_no_dummy_refuted",
  "Proved but for the periodic 1-D template with INTP_PERIODIC_NO_DUMMY_POINT, whose spacing is (n-1)/n: refuted.")
c("C32","proved","C32_collocation")
c("C41","partial","C41_few_points_refuted","False of the code: order 3, two distinct points, constant data 1 gives 6/5.")
c("C42","partial","C42_order_zero_reads_past_end C42_order_zero_points_refuted","False of the code for every list of coordinates.")
c("C43","proved","C43_knot_shape")
c("C44","proved","C44_bad_grids_rejected","Enough points for the order is a precondition. A periodic grid of order above 3 whose matrix has a zero pivot gives a division by zero, not an exception.")
c("C45","proved","C45_same_coordinates")
c("C50","proved","C50_affine_data")
c("C35","partial","C35_same_function_partial C35_any_arithmetic C35_even_order_refuted","Proved for odd orders, and for even orders except at coordinates of a periodic dimension a whole number of periods below the range; there it is false of the code (reads outside the cells).")
c("C36","partial","C36_proxy_partial C36_even_order_refuted","Proved for odd orders and for even orders without a periodic dimension after the first; otherwise false of the code (wrong value or read outside the cells).")
c("C33","proved","C33_deterministic C33_no_race C33_progress C33_cells C33_cells_no_race","Any schedule, any number of blocks, any arithmetic.")
c("C34","proved","C34_division","Any number of blocks; sqrt in double arithmetic is not modelled.")
c("C54","partial","C54_outside_row_refuted","False of the code: rows below the matrix are accepted next to the last columns. C05_band_checks says exactly which positions are refused.")
c("C55","proved","C55_resize")
c("C37","proved","C37_exactly_once C37_future","Every interleaving, number of workers and sequence of submissions.")
c("C38","proved","C38_progress C38_completes","Progress, and termination of every schedule with all tasks executed.")
c("C39","partial","C39_shutdown_partial C39_lost_wakeup_refuted","Proved if no worker is between evaluating the wait predicate and waiting when the flag is set; otherwise false of the code: the flag is set without the mutex, the notification is lost and the worker sleeps for ever.")
c("C40","proved","C40_counts C40_note_refuted","The identity stated is proved; the identity in the note the code prints is refuted.")
c("C56","partial","C56_dropped_refuted","False of the code: workers leave as soon as the flag is set, queued tasks are dropped.")
c("C57","partial","C57_flag_race_refuted","False of the code: plain bool, no mutex.")
c("C48","proved","C48_exact_bytes C48_beyond_max_refuted","For requests up to max_size(); beyond it the byte count wraps (refuted, the caller has to check).")
c("C49","proved","C49_disjoint")
c("C51","proved","C51_pow C51_dispatch C51_dispatch_log")
c("C58","partial","C58_copies_refuted C58_same_block","False of the code: each copy has its own stack pointer.")
c("C59","partial","C59_size_partial C59_wrap_refuted","Proved below 2^64 elements; otherwise false of the code (the product wraps).")
c("C60","proved","C60_band_solver_safe C60_extended_solver_safe C60_solvers_total","Any arithmetic whose division only fails with a division by zero; total in arithmetics whose division never fails (IEEE doubles: F_total).")
c("C61","proved","C61_construction_safe C61_construction_total","Any arithmetic; total in doubles for uniform and periodic grids.")
c("C62","partial","C62_increasing_doubles_refuted","False of the code: running-sum cancellation puts a knot in the wrong place (assertion fails, or an index wraps without assertions).")
c("C63","partial","C63_evaluation_safe C63_evaluation_double C63_huge_coordinate_refuted","Proved when the position on each uniform grid, as computed in doubles, is below 2^64 (or NaN); otherwise false of the code (conversion of a too large double to size_t).")
c("C64","partial","C64_wide_bands_fail C64_wide_bands_refuted","False of the code: for p+q > n the solution loop bound j - q wraps; proved that solving then never succeeds. For p+q <= n see C10 and C60.")
c("C65","proved","C65_definite_band C65_definite_extended","Exact arithmetic.")
c("C66","proved","C66_templates_same C66_functions_same C66_functions_same_real C66_threads C66_threads_no_race C66_cells","Any arithmetic that never throws; aperiodic point grids whose last point exceeds the others (needed for the knots to end at the last point).")
c("C67","partial","C67_copy_partial C67_copy_unusable C67_copy_refuted","Holds from C++17 on; before, false of the code for every template: the copy's union holds no solver.")
c("C68","partial","C68_other_shape_refuted C68_larger_shape_refuted","False of the code: nothing is checked. Fewer values leave zeros, more values are written out of bounds.")
c("C69","proved","C69_band_exact C69_extended_exact","Exact arithmetic.")
c("C70","proved","C70_evaluation_error C70_evaluation_error_double","Error against the exact value of the spline with the same knots, control points and reduced coordinates; reduced periodic coordinates must be below the right end.")
c("C71","proved","C71_conversions")
c("C72","partial","C72_periodic_reduction_partial C72_in_range_refuted","Error bound proved; in range for coordinates not below the left end, otherwise false of the code (the sum can round beyond the right end).")
c("C73","proved","C73_band_residual C73_extended_residual C73_band_residual_double C73_extended_residual_double","Backward error in terms of the computed factors; no bound of the growth of the factors.")
c("C74","proved","C74_aperiodic_knots_double C74_periodic_knots_double C74_rolling_sum_refuted C74_rounded_period_refuted","Error bound and the distance of neighbouring knots; the refuted theorems show that increasing coordinates alone do not give sorted knots (see also C62).")
c("C75","proved","C75_uniform_aperiodic_double C75_uniform_periodic_double C75_overflow_refuted C75_underflow_refuted C75_resolution_refuted","Within the stated bounds; the refuted theorems show what happens beyond them, and that sorted finite knots do not imply finite values.")
c("C76","proved","C76_spline_through_data C76_value_at_data","A posteriori: the bound is in terms of the computed factors and control points. Dimensions given by points; uniform ranges are in C77.")
c("C77","proved","C77_spline_through_data C77_value_at_data","A posteriori: the bound is in terms of the computed factors and control points. Order 0 is not covered.")
c("C78","proved","C78_derivative_error C78_derivative_error_double C78_derivative_error_mixed","")
c("C79","proved","C79_mex_function C79_mex_calls C79_shapes_checked","")
c("C80","partial","C80_many_dimensions_terminate C80_thin_array_refuted C80_thin_values_refuted C80_padding_refuted","False of the code: arrays of four and more dimensions end the process ('throw;' without an exception), arrays with an inner dimension of size 1 are accepted but only their first slice is used (wrong values or a division by zero), and with INTP_PERIODIC_NO_DUMMY_POINT defined the zero padding of periodic dimensions becomes data. What does hold is C79.")
c("C81","proved","C81_polynomial_data")
c("C82","proved","C82_spline_samples")
c("C83","proved","C83_moved_grid")
c("C84","proved","C84_permuted_dimensions")
c("C85","proved","C85_product_data")
c("C86","proved","C86_independent_data")
c("C87","proved","C87_multilinear")
c("C88","proved","C88_values_mapped C88_values_component C88_vectors C88_complex")
c("C89","proved","C89_vectors_pass C89_affine_map C89_convex_hull")
c("C90","proved","C90_interpolation_smooth C90_spline_smooth")
c("C91","proved","C91_spline_monotone C91_linear_monotone C91_linear_between")
c("C92","proved","C92_noise C92_bound","orders 1 to 6 on equally spaced periodic points; other grids are not covered")
c("C93","proved","C93_error C93_linear_error C93_converges","orders above 1 on equally spaced periodic points only")
c("C94","proved","C94_quadratic C94_linear","orders above 1 on equally spaced periodic points only; second order only, the rate p+1 of smoother functions is not proved")
c("C95","proved","C95_noise C95_error C95_quadratic C95_converges","orders 2 and 3; without period equally spaced points only; the factors are not the best possible")
c("C96","partial","C96_waiting_ends_partial C96_calls_end_partial C96_nested_refuted","proved for threads outside the pool; false for tasks that wait for tasks of the same pool: eight of them block the eight workers for ever")
c("C97","partial","C97_reported_partial C97_calls_partial C97_left_behind_refuted","the first half proved for tasks that do not use the pool; the last sentence is false of the code: after an exception the remaining tasks still refer to local variables")
c("C98","proved","C98_error C98_converges","equally spaced periodic points, orders 1 to 6, exact arithmetic")
c("C99","proved","C99_values C99_derivatives","In exact real arithmetic. Equally spaced points in periodic dimensions; orders 1 to 6; the inverse bounds of the interpolation matrices are those of C92.")
c("C100","proved","C100_values C100_derivatives","In exact real arithmetic. The grids are those of C95, whose bounds of the inverse matrices are used; orders 2 and 3.")
c("C101","partial","C101_returns C101_no_tasks C101_failure_partial C101_failure_refuted","successful construction proved; failing construction proved unless a worker is between evaluating the predicate and waiting, where it is false: the handler sets the flag and notifies without the mutex, so the constructor never ends")
c("C102","partial","C102_tasks C102_table_refuted","first sentence proved; the second is false: the table is printed before the threads are joined")
c("C103","proved","C103_values C103_values_uniform C103_control C103_control_uniform C103_knots","the bound on the control points assumes that they are finite and that K^n n (order + M G) 2^-49 <= 1/2; the exact interpolant is evaluated at the coordinates after their reduction to the range in doubles")
c("C104","proved","C104_values C104_values_uniform","assumes that the control points computed in doubles are finite and the smallness condition of C103; the function is compared at the coordinates after their reduction to the range in doubles")
c("C105","proved","C105_derivatives C105_derivatives_uniform","assumes that the control points computed in doubles are finite and that neither L^m nor L^m times the largest of them exceeds 2^900; compared at the coordinates after their reduction to the range in doubles")
c("C106","proved","C106_noise C106_noise_uniform C106_derivatives C106_derivatives_uniform","the last two assume what C104 assumes and that neither L^m nor L^m times the bound of the control points exceeds 2^900; the first two are in exact arithmetic")
c("C107","proved","C107_negated C107_negated_make C107_alike C107_alike_make C107_zero","the relation is opposite (b == -a or both NaN) or alike (b == a or both NaN) for each datum; -0 in the data gives +0 in the values (C107_zero_example), so the sign of zeros is not part of the claim")
c("C108","proved","C108_number C108_always_defined C108_shares","std::sqrt is the correctly rounded root of IEEE 754; C33 and C34 hold for any number of tasks, so also for this one")
c("C109","proved","C109_not_negative C109_not_positive C109_cells","outside the domain the sign can change (C109_outside_example); NaN counts as neither negative nor positive; cell layout: periodic dimensions with the knot number of an odd order (see C35)")
c("C110","proved","C110_control C110_coordinate C110_cells C110_function","order 0 does not notice a NaN coordinate (C110_order_zero_example); cell layout: periodic dimensions with the knot number of an odd order (see C35)")
c("C111","proved","C111_hint C111_function","knots out of order, which a running sum in doubles can produce (C62), are excluded by hypothesis; C111_function also excludes quotients that do not fit an index (C63)")
#NEXT
props = [json.loads(l)["id"] for l in open(os.path.join(here, "..", "properties.jsonl"))]
src = "".join(open(f).read() for f in glob.glob(os.path.join(here, "..", "rocq", "theories", "*.v")))
for p_ in props:
    if p_ not in C: c(p_, "partial", "", "Not proved yet.")
    for t in C[p_]["theorems"]:
        assert re.search(r"^Theorem %s\b" % re.escape(t), src, re.M), t
unlisted = set(re.findall(r"^Theorem (C\d+_\w+)", src, re.M)) - {t for x in C.values() for t in x["theorems"]}
if unlisted: print("unlisted:", sorted(unlisted))
json.dump({"claims": [C[p_] for p_ in props]}, open(os.path.join(here, "..", "MANIFEST.json"), "w"), indent=1)
print(sum(x["status"] == "proved" for x in C.values()), "proved of", len(props))
