{
 "claims": [
  {
   "property": "C01",
   "status": "proved",
   "theorems": [
    "C01_add",
    "C01_sub",
    "C01_mul",
    "C01_add_scalar",
    "C01_sub_scalar",
    "C01_default",
    "C01_extensional",
    "C01_eq",
    "C01_squared_length",
    "C01_lawful",
    "C01_arithmetic_loops",
    "C01_eq_loop",
    "C01_squared_length_loop"
   ],
   "note": "generic: any scalar type and dimension"
  },
  {
   "property": "C02",
   "status": "proved",
   "theorems": [
    "C02_axis",
    "C02_axis_total",
    "C02_axis_panics"
   ],
   "note": "generic; axis(N) panics too (array bound), not only i > N"
  },
  {
   "property": "C03",
   "status": "proved",
   "theorems": [
    "C03_eval",
    "C03_start",
    "C03_end",
    "C03_between"
   ],
   "note": "exact arithmetic"
  },
  {
   "property": "C04",
   "status": "partial",
   "theorems": [
    "C04_float_partial",
    "C04_float_refuted",
    "C04_split_partial",
    "C04_split_correct_iff_partial",
    "C04_split_refuted"
   ],
   "note": "CODE VIOLATES IT (line.rs split uses start - end): C04_split_refuted. The partial theorems give the curve actually traced and characterise when split is right (t = 0 or start = end); C04_float_partial does so up to rounding in IEEE arithmetic."
  },
  {
   "property": "C05",
   "status": "partial",
   "theorems": [
    "C05_distance_partial",
    "C05_distance_beyond_partial",
    "C05_distance_short_partial",
    "C05_distance_refuted"
   ],
   "note": "CODE VIOLATES IT (line.rs: projection parameter >= 1 leaves t = 0): C05_distance_refuted. Proved for projections before the end; exact wrong value given past the end; within sqrt(EPSILON) for degenerate segments."
  },
  {
   "property": "C06",
   "status": "proved",
   "theorems": [
    "C06_never_underestimates"
   ],
   "note": "exact arithmetic"
  },
  {
   "property": "C07",
   "status": "proved",
   "theorems": [
    "C07_bounding_box"
   ],
   "note": "exact arithmetic"
  },
  {
   "property": "C08",
   "status": "proved",
   "theorems": [
    "C08_derivative",
    "C08_axis"
   ],
   "note": "exact arithmetic"
  },
  {
   "property": "C09",
   "status": "proved",
   "theorems": [
    "C09_eval",
    "C09_eval_explicit",
    "C09_casteljau",
    "C09_start",
    "C09_end"
   ],
   "note": ""
  },
  {
   "property": "C10",
   "status": "proved",
   "theorems": [
    "C10_split"
   ],
   "note": ""
  },
  {
   "property": "C11",
   "status": "proved",
   "theorems": [
    "C11_derivative"
   ],
   "note": ""
  },
  {
   "property": "C12",
   "status": "proved",
   "theorems": [
    "C12_dd",
    "C12_axis"
   ],
   "note": ""
  },
  {
   "property": "C13",
   "status": "proved",
   "theorems": [
    "C13_C14_bounding_box",
    "C13_exact_containment_refuted"
   ],
   "note": "slack EPSILON/8; no slack when the second difference reaches EPSILON; containment without slack is refuted (C13_exact_containment_refuted)"
  },
  {
   "property": "C14",
   "status": "proved",
   "theorems": [
    "C13_C14_bounding_box"
   ],
   "note": ""
  },
  {
   "property": "C15",
   "status": "proved",
   "theorems": [
    "C15_cubic_is_linear",
    "C15_quad_is_linear"
   ],
   "note": "quadratic and cubic"
  },
  {
   "property": "C16",
   "status": "partial",
   "theorems": [
    "C16_cubic_complete_partial",
    "C16_cubic_complete_refuted",
    "C16_quad_complete_partial",
    "C16_quad_complete_refuted"
   ],
   "note": "CODE VIOLATES IT (inherits the line distance bug): C16_quad_complete_refuted, C16_cubic_complete_refuted. Proved when control points project before the end point."
  },
  {
   "property": "C17",
   "status": "proved",
   "theorems": [
    "C17_cubic_iff",
    "C17_cubic_bound",
    "C17_quad_iff",
    "C17_quad_bound"
   ],
   "note": ""
  },
  {
   "property": "C18",
   "status": "proved",
   "theorems": [
    "C18_eval",
    "C18_eval_explicit",
    "C18_casteljau",
    "C18_start",
    "C18_end"
   ],
   "note": ""
  },
  {
   "property": "C19",
   "status": "proved",
   "theorems": [
    "C19_split"
   ],
   "note": ""
  },
  {
   "property": "C20",
   "status": "proved",
   "theorems": [
    "C20_derivative"
   ],
   "note": ""
  },
  {
   "property": "C21",
   "status": "partial",
   "theorems": [
    "C21_dd_partial",
    "C21_dd_correct_iff_partial",
    "C21_dd_panics",
    "C21_dd_refuted"
   ],
   "note": "CODE VIOLATES IT (cubic_bezier.rs dd: t * -3 instead of t2 * -3): C21_dd_refuted; exact value with error term start*(3t^2-3t)."
  },
  {
   "property": "C22",
   "status": "proved",
   "theorems": [
    "C22_C23_bounding_box",
    "C22_exact_containment_refuted"
   ],
   "note": "slack 3/8 EPSILON; none when the third difference reaches EPSILON; containment without slack refuted"
  },
  {
   "property": "C23",
   "status": "proved",
   "theorems": [
    "C22_C23_bounding_box"
   ],
   "note": ""
  },
  {
   "property": "C24",
   "status": "proved",
   "theorems": [
    "C24_axis"
   ],
   "note": ""
  },
  {
   "property": "C25",
   "status": "proved",
   "theorems": [
    "C25_quad_control_points",
    "C25_cubic_control_points",
    "C25_bezier_control_points",
    "C25_quad_baseline",
    "C25_cubic_baseline"
   ],
   "note": ""
  },
  {
   "property": "C26",
   "status": "proved",
   "theorems": [
    "C26_eval"
   ],
   "note": ""
  },
  {
   "property": "C27",
   "status": "proved",
   "theorems": [
    "C27_start",
    "C27_end"
   ],
   "note": ""
  },
  {
   "property": "C28",
   "status": "proved",
   "theorems": [
    "C28_split"
   ],
   "note": ""
  },
  {
   "property": "C29",
   "status": "proved",
   "theorems": [
    "C29_derivative"
   ],
   "note": ""
  },
  {
   "property": "C30",
   "status": "partial",
   "theorems": [
    "C30_no_panic_partial",
    "C30_one_point_partial",
    "C30_derivative_refuted",
    "C30_eval_refuted"
   ],
   "note": "CODE VIOLATES IT in degenerate cases: eval with no control points and derivative of a single point panic. Total from two control points on, over any scalar type."
  },
  {
   "property": "C31",
   "status": "proved",
   "theorems": [
    "C31_eval_line",
    "C31_eval_quad",
    "C31_eval_cubic",
    "C31_split_quad",
    "C31_split_cubic",
    "C31_derivative_line",
    "C31_derivative_quad",
    "C31_derivative_cubic"
   ],
   "note": ""
  },
  {
   "property": "C32",
   "status": "proved",
   "theorems": [
    "C32_hull",
    "C32_segment_hull",
    "C32_box"
   ],
   "note": ""
  },
  {
   "property": "C33",
   "status": "proved",
   "theorems": [
    "C33_affine",
    "C33_reverse"
   ],
   "note": ""
  },
  {
   "property": "C34",
   "status": "partial",
   "theorems": [
    "C34_quad_partial",
    "C34_cubic_partial",
    "C34_bezier_partial",
    "C34_zero_steps",
    "C34_one_step",
    "C34_arclen_refuted"
   ],
   "note": "CODE VIOLATES IT (loops run over 1..nsteps, so the first chord is missing): C34_arclen_refuted. Proved: the result is the polyline length minus exactly its first chord."
  },
  {
   "property": "C35",
   "status": "proved",
   "theorems": [
    "C35_quad",
    "C35_cubic",
    "C35_bezier",
    "C35_quad_regular",
    "C35_cubic_regular",
    "C35_bezier_regular",
    "C35_leg_bound_exists",
    "C35_quad_limit",
    "C35_cubic_limit",
    "C35_bezier_limit"
   ],
   "note": "exact arithmetic; explicit rate g^2 L/n and limit; where the speed is at least v the rest of the deficit besides the missing first chord is O(1/n^2)"
  },
  {
   "property": "C36",
   "status": "partial",
   "theorems": [
    "C36_quad_partial",
    "C36_cubic_partial",
    "C36_bezier_partial",
    "C36_quad_refuted",
    "C36_cubic_refuted",
    "C36_bezier_refuted"
   ],
   "note": "CODE VIOLATES IT (fine pass assigns tmin = t and evaluates at negative parameters): C36_*_refuted exhibit integer control points at distance >= 122 reported as 0. Proved: the result is the distance to a point of the curve extended to [-31*63/4096, 1]."
  },
  {
   "property": "C37",
   "status": "proved",
   "theorems": [
    "C37_quad_samples",
    "C37_cubic_samples",
    "C37_bezier_samples",
    "C37_quad_over",
    "C37_cubic_over",
    "C37_bezier_over"
   ],
   "note": "exact arithmetic"
  },
  {
   "property": "C38",
   "status": "proved",
   "theorems": [
    "C38_accepts",
    "C38_errors",
    "C38_stores"
   ],
   "note": "any scalar type; never panics (the outcome is given in every case)"
  },
  {
   "property": "C39",
   "status": "partial",
   "theorems": [
    "C39_sorted_partial",
    "C39_float_partial",
    "C39_nan_refuted"
   ],
   "note": "proved over the reals and over floats without NaN (infinities allowed); NaN knots are accepted and break it: C39_nan_refuted"
  },
  {
   "property": "C40",
   "status": "partial",
   "theorems": [
    "C40_domain_partial",
    "C40_domain_refuted"
   ],
   "note": "CODE VIOLATES IT for half clamped knot vectors (C40_domain_refuted: the reported domain is too large by at least EPSILON on the unclamped side). Right for Clamped and Unclamped."
  },
  {
   "property": "C41",
   "status": "proved",
   "theorems": [
    "C41_domain_error"
   ],
   "note": "exact arithmetic, every kind"
  },
  {
   "property": "C42",
   "status": "proved",
   "theorems": [
    "C42_clamped_eval_total"
   ],
   "note": "any scalar type, no law assumed"
  },
  {
   "property": "C43",
   "status": "partial",
   "theorems": [
    "C43_eval_ok_partial",
    "C43_C71_clamped_start_panics",
    "C43_C71_clamped_end_panics",
    "C43_C71_unclamped_panics",
    "C43_unclamped_refuted",
    "C43_clamped_start_refuted",
    "C43_clamped_end_refuted"
   ],
   "note": "CODE VIOLATES IT: panics for Unclamped, ClampedStart and ClampedEnd splines inside the reported domain (three C43_*_refuted witnesses). The C43_*_panics theorems say exactly for which parameters each kind panics; everywhere else in the domain a point is returned."
  },
  {
   "property": "C44",
   "status": "partial",
   "theorems": [
    "C44_value_partial",
    "C44_unclamped_middle_partial",
    "C44_unclamped_probes_partial",
    "C44_clamped_start_tail_partial",
    "C44_at_knots_partial",
    "C44_basis_nonneg",
    "C44_partition_of_unity",
    "C44_clamped_refuted",
    "C44_unclamped_refuted",
    "C44_everywhere_partial",
    "C44_unclamped_near_partial"
   ],
   "note": "CODE VIOLATES IT (bspline.rs loads control points for j in 0..D instead of 0..=D): C44_clamped_refuted, C44_unclamped_refuted. Proved: the exact value computed, i.e. the Cox-de Boor sum minus the term of control point k; the same in every span the unclamped search finds (C44_unclamped_probes_partial); right at the knots, and in the span past the true domain of splines clamped at the start only; and, for every parameter of the true domain of a spline that is not Unclamped, either that value or (less than EPSILON after a knot) the curve up to D eps / (span length) times the spread of the control points (C44_everywhere_partial)."
  },
  {
   "property": "C45",
   "status": "partial",
   "theorems": [
    "C45_last",
    "C45_first_partial",
    "C45_degree0_refuted"
   ],
   "note": "CODE VIOLATES IT for degree 0 (C45_degree0_refuted); last point always, first point for D >= 1 and a first knot of multiplicity D+1"
  },
  {
   "property": "C46",
   "status": "proved",
   "theorems": [
    "C46_nan"
   ],
   "note": "IEEE floats of any format; every degree, size and kind"
  },
  {
   "property": "C47",
   "status": "partial",
   "theorems": [
    "C47_control_points_partial",
    "C47_eval_value_partial",
    "C47_eval_last",
    "C47_last_span_refuted",
    "C47_clamped_start_last_span_partial",
    "C47_clamped_start_panics_refuted",
    "C47_degree1_refuted",
    "C47_constant_velocity_refuted",
    "C47_derivative_refuted",
    "C47_at_knots_partial"
   ],
   "note": "CODE VIOLATES IT (the knot vector is not trimmed): C47_derivative_refuted. Proved: over the trimmed knots the control points returned give the derivative of the spline; exactly what eval of the result returns instead (shifted weights and a dropped term left of knot C-1, the last control point at it, an error or panic right of it); a spline of constant velocity never has it reported."
  },
  {
   "property": "C48",
   "status": "partial",
   "theorems": [
    "C48_arclen_partial",
    "C48_domain_partial",
    "C48_arclen_refuted"
   ],
   "note": "CODE VIOLATES IT (samples i = 0..=nsteps, the last one leaves the domain and is replaced by the origin): C48_arclen_refuted. Proved: over [0,1] the result is the polyline length plus the distance of the last control point from the origin; over any clamped domain the exact sum (chords advance the parameter by 1/n whatever the width of the domain, points past its end count as the origin)."
  },
  {
   "property": "C49",
   "status": "partial",
   "theorems": [
    "C49_terminates_partial",
    "C49_span_partial",
    "C49_unclamped_partial",
    "C49_clamped_start",
    "C49_clamped_end",
    "C49_unclamped_probes",
    "C49_unclamped_refuted"
   ],
   "note": "terminates for every scalar type; the three searches for clamped knots are characterised on the whole line; CODE VIOLATES IT for Unclamped (C49_unclamped_refuted), whose search only goes right: C49_unclamped_probes says which span it returns"
  },
  {
   "property": "C50",
   "status": "proved",
   "theorems": [
    "C50_local"
   ],
   "note": "exact arithmetic; even control point k has no influence"
  },
  {
   "property": "C51",
   "status": "proved",
   "theorems": [
    "C51_eval",
    "C51_ends",
    "C51_is_linear",
    "C51_is_linear_complete"
   ],
   "note": ""
  },
  {
   "property": "C52",
   "status": "partial",
   "theorems": [
    "C52_split_keeps_kind",
    "C52_split_partial",
    "C52_split_linear_partial",
    "C52_split_refuted"
   ],
   "note": "kind preserved for all; curve reproduced for quadratic and cubic; CODE VIOLATES IT for linear segments (C52_split_refuted)."
  },
  {
   "property": "C53",
   "status": "proved",
   "theorems": [
    "C53_bezier_start",
    "C53_bezier_end",
    "C53_cubic_start",
    "C53_cubic_end",
    "C53_equal"
   ],
   "note": "IEEE floats of any binary format with at least 11 bits; componentwise point types of any dimension"
  },
  {
   "property": "C54",
   "status": "proved",
   "theorems": [
    "C54_bezier"
   ],
   "note": "6(N-1)uM + 5(N-1)eta for 6(N-1)u <= 1 and 4M <= fmax; u = 2^-prec, eta half the least positive float"
  },
  {
   "property": "C55",
   "status": "proved",
   "theorems": [
    "C55_line",
    "C55_quad",
    "C55_quad_casteljau",
    "C55_cubic",
    "C55_cubic_casteljau"
   ],
   "note": "constants 6, 17, 11, 39, 16 times uM plus underflow terms, 4M <= fmax"
  },
  {
   "property": "C56",
   "status": "proved",
   "theorems": [
    "C56_line",
    "C56_quad",
    "C56_cubic"
   ],
   "note": "finite coordinates of any magnitude; the line box never panics for any scalar type"
  },
  {
   "property": "C57",
   "status": "proved",
   "theorems": [
    "C57_quad",
    "C57_cubic"
   ],
   "note": "any coordinate; holds for every scalar type with a NaN test"
  },
  {
   "property": "C58",
   "status": "proved",
   "theorems": [
    "C58_same_solver",
    "C58_roots",
    "C58_order",
    "C58_linear",
    "C58_constant",
    "C58_window",
    "C58_unconditional_soundness_refuted"
   ],
   "note": "exactly the real roots outside the EPSILON thresholds; the spurious root inside the window is characterised"
  },
  {
   "property": "C59",
   "status": "partial",
   "theorems": [
    "C59_total",
    "C59_degenerate",
    "C59_one_partial",
    "C59_one_exact_partial",
    "C59_double_partial",
    "C59_triple",
    "C59_three_partial",
    "C59_three_refuted",
    "C59_one_refuted"
   ],
   "note": "CODE VIOLATES IT: the f32 PI makes two of three values inexact (C59_three_refuted) and an EPSILON test adds a spurious value (C59_one_refuted). Proved: no panic; a single real root is returned first, exactly; double and triple roots exact; with three real roots the first is exact and the others within 1e-7*sqrt(b^2-3ac)/|a|. A leading coefficient below EPSILON reduces to C58 (any scalar type)."
  },
  {
   "property": "C60",
   "status": "proved",
   "theorems": [
    "C60_hull"
   ],
   "note": "exact arithmetic"
  },
  {
   "property": "C61",
   "status": "proved",
   "theorems": [
    "C61_kind"
   ],
   "note": "exact arithmetic"
  },
  {
   "property": "C62",
   "status": "proved",
   "theorems": [
    "C62_line",
    "C62_quad",
    "C62_cubic"
   ],
   "note": "float comparisons; no finiteness hypothesis"
  },
  {
   "property": "C63",
   "status": "partial",
   "theorems": [
    "C63_quad_start_partial",
    "C63_quad_end_partial",
    "C63_line_start_partial",
    "C63_quad_refuted",
    "C63_line_start_refuted",
    "C63_line_end_refuted"
   ],
   "note": "CODE VIOLATES IT: LineSegment::eval(1) is not exact even for coordinates in [-1,1], and both evaluators give NaN at t = 0 when an intermediate product or difference overflows (three refutations). Partial: exact when magnitudes are at most fmax/2, except the line at t = 1."
  },
  {
   "property": "C64",
   "status": "partial",
   "theorems": [
    "C64_quad_partial",
    "C64_quad_flat_partial",
    "C64_cubic_partial",
    "C64_cubic_three_partial",
    "C64_cubic_double_partial",
    "C64_cubic_flat_partial",
    "C64_skipped",
    "C64_open_interval",
    "C64_ends_refuted",
    "C64_skipped_refuted"
   ],
   "note": "CODE VIOLATES IT at the ends (the interval is open: C64_ends_refuted). Proved: exactly the solutions in (0,1) for quadratics outside the EPSILON windows and for cubics with a double or triple solution; completeness for cubics with a single real solution; both directions up to 1e-7*sqrt(b^2-3ac)/|a| with three real solutions; residual below 2 EPSILON when the axis is quadratic up to EPSILON. Curves taken for a point are characterised exactly (C64_skipped; C64_skipped_refuted: also curves up to sqrt(EPSILON) long)."
  },
  {
   "property": "C65",
   "status": "proved",
   "theorems": [
    "C65_finite",
    "C65_last",
    "C65_first",
    "C65_wide_refuted"
   ],
   "note": "Both end points exact: C65_first (curves clamped at the start, degree at least 1, up to the sign of a zero) and C65_last (every kind). Also shown: the bound MAX/2 on the knots is needed (C65_wide_refuted: knots -2^1023, 2^1023 give EvaluationAlphaIsNaN)."
  },
  {
   "property": "C66",
   "status": "proved",
   "theorems": [
    "C66_error",
    "C66_close_refuted"
   ],
   "note": "Also shown: the condition on t is needed (C66_close_refuted: knots 2^-60 apart make every weight 0)."
  },
  {
   "property": "C67",
   "status": "proved",
   "theorems": [
    "C67_quad",
    "C67_cubic",
    "C67_bezier"
   ],
   "note": ""
  },
  {
   "property": "C68",
   "status": "proved",
   "theorems": [
    "C68_line",
    "C68_quad",
    "C68_cubic",
    "C68_bezier"
   ],
   "note": ""
  },
  {
   "property": "C69",
   "status": "proved",
   "theorems": [
    "C69_quad",
    "C69_cubic",
    "C69_bezier",
    "C69_quad_length",
    "C69_cubic_length",
    "C69_bezier_length",
    "C69_parameters"
   ],
   "note": "compared with the polyline from 1/n on (the missing first chord is C34) and with the true arc length of the exact curve"
  },
  {
   "property": "C70",
   "status": "proved",
   "theorems": [
    "C70_quad",
    "C70_cubic",
    "C70_bezier"
   ],
   "note": "upper side only; the result can be too small because the second pass leaves [0,1] (C36)"
  },
  {
   "property": "C71",
   "status": "proved",
   "theorems": [
    "C43_C71_clamped_start_panics",
    "C43_C71_clamped_end_panics",
    "C43_C71_unclamped_panics"
   ],
   "note": "probe is the sequence of indices visited by the unclamped search (Spec/Probes.v)"
  },
  {
   "property": "C72",
   "status": "proved",
   "theorems": [
    "C72_line",
    "C72_quad"
   ],
   "note": "no condition other than the size bound; slack EPSILON/8 comes from the linear guard (see C13)"
  },
  {
   "property": "C73",
   "status": "partial",
   "theorems": [
    "C73_cubic_partial",
    "C73_cubic_cases_partial",
    "C73_cubic_coarse",
    "C73_cubic_backward_partial",
    "C73_cubic_grid",
    "C73_cubic_refuted",
    "C73_cubic_test_partial"
   ],
   "note": "refuted in f64 by control coordinates 1, -1, -0.9, 1.3: the box starts at 1 but the curve goes below -0.4. Proved when on every axis M <= lam * |cubic coefficient| or the computed coefficient is below EPSILON, with slack 251uM + 4eta + 65536 lam^2 u^(3/2) M, and for every lam with slack 286uM + 4eta + 2^23 (lam u)^2 M (backward error), which is of the order of uM down to coefficients of sqrt(u) M; and for every cubic whose coordinates are multiples of 2^g with 2048uM <= 2^g. C124_cubic_box: with a root formula free of cancellation the slack is 350uM + 4eta for every cubic"
  },
  {
   "property": "C74",
   "status": "proved",
   "theorems": [
    "C74_circle",
    "C74_circle_tight",
    "C74_circle_float",
    "C74_circle_test"
   ],
   "note": "the literals enter only through their values, with tolerance"
  },
  {
   "property": "C75",
   "status": "proved",
   "theorems": [
    "C75_circumference",
    "C75_circumference_float"
   ],
   "note": "step counts 1000..10^9 in f64, all from 1000 in exact arithmetic"
  },
  {
   "property": "C76",
   "status": "proved",
   "theorems": [
    "C76_quad",
    "C76_cubic",
    "C76_bezier",
    "C76_quad_flat",
    "C76_cubic_flat",
    "C76_quad_chords",
    "C76_cubic_chords",
    "C76_bend_bound_exists"
   ],
   "note": "exact arithmetic; below sqrt(EPSILON) chords is_linear is always false, so a recursion that stops on is_linear alone may not stop"
  },
  {
   "property": "C77",
   "status": "proved",
   "theorems": [
    "C77_quad",
    "C77_cubic",
    "C77_bezier",
    "C77_chord",
    "C77_quad_split",
    "C77_cubic_split",
    "C77_bezier_split",
    "C77_reverse",
    "C77_arclen_reverse"
   ],
   "note": "exact arithmetic; the direction dependence of arclen comes from the missing first chord (C34)"
  },
  {
   "property": "C78",
   "status": "proved",
   "theorems": [
    "C78_eval",
    "C78_quad_split",
    "C78_cubic_split",
    "C78_bezier_split",
    "C78_arclen",
    "C78_distance",
    "C78_is_a_point",
    "C78_line_distance",
    "C78_quad_is_linear",
    "C78_cubic_is_linear",
    "C78_box",
    "C78_scale_refuted"
   ],
   "note": "exact arithmetic; C78_scale_refuted shows that the condition on EPSILON is needed"
  },
  {
   "property": "C79",
   "status": "partial",
   "theorems": [
    "C79_new",
    "C79_eval_linear_partial",
    "C79_derivative_linear_partial",
    "C79_arclen_linear_partial",
    "C79_move_partial",
    "C79_move_refuted"
   ],
   "note": "refuted for translations (the last control point of the span is replaced by the origin, C44). Proved for linear maps, panics and errors included; under a translation by v the result moves by v times the value of the same spline with all control points 1"
  },
  {
   "property": "C80",
   "status": "proved",
   "theorems": [
    "C80_on_segment",
    "C80_before_end",
    "C80_beyond_end"
   ],
   "note": "every binary format with at least 11 bits; rounding error (6D+35)uM sqrt D for a distance, (16D+30)uM sqrt D for the foot. The two cases leave a strip of that width at the end of the segment, where C80_on_segment still applies"
  },
  {
   "property": "C81",
   "status": "proved",
   "theorems": [
    "C81_quad_linear",
    "C81_cubic_linear",
    "C81_quad_linear_complete",
    "C81_cubic_linear_complete",
    "C81_quad_point",
    "C81_cubic_point",
    "C81_quad_point_complete",
    "C81_cubic_point_complete"
   ],
   "note": "every binary format with at least 11 bits; is_a_point needs tol*tol not to overflow. The completeness theorems keep the side conditions of C16 (the code rejects control points projecting beyond the end and short baselines)"
  },
  {
   "property": "C82",
   "status": "proved",
   "theorems": [
    "C82_quad_eval",
    "C82_cubic_eval",
    "C82_quad_generic",
    "C82_cubic_generic",
    "C82_quad_split",
    "C82_cubic_split",
    "C82_bezier_split",
    "C82_quad_split_half",
    "C82_cubic_split_half",
    "C82_quad_box"
   ],
   "note": "every binary format with at least 11 bits. The condition on M says that a rounding error of K u M is below sqrt EPSILON: for f64 in the plane M up to about 2e5 for K = 108. The crate's tests themselves are run in theories/Tests; cubic boxes: C73_cubic_test_partial, under the condition of C73"
  },
  {
   "property": "C83",
   "status": "proved",
   "theorems": [
    "C83_eval",
    "C83_split",
    "C83_derivative",
    "C83_arclen",
    "C83_distance",
    "C83_quad_eval",
    "C83_quad_box",
    "C83_cubic_eval",
    "C83_cubic_split",
    "C83_cubic_derivative",
    "C83_cubic_arclen",
    "C83_cubic_distance",
    "C83_cubic_box"
   ],
   "note": "Exact arithmetic. raised (Spec/Elevation.v) is the textbook formula; all methods of generic, quadratic and cubic curves agree, boxes for segment->quadratic and quadratic->cubic. LineSegment::split is left out because of its sign error (C04), LineSegment::distance_to_point because its algorithm differs (C05)."
  },
  {
   "property": "C84",
   "status": "proved",
   "theorems": [
    "C84_bezier",
    "C84_line",
    "C84_quad",
    "C84_cubic",
    "C84_raised",
    "C84_quad_cubic"
   ],
   "note": "Exact arithmetic; any n distinct parameters. C84_sharp shows that one fewer is not enough."
  },
  {
   "property": "C85",
   "status": "proved",
   "theorems": [
    "C85_bezier",
    "C85_quad",
    "C85_cubic",
    "C85_bezier_degree",
    "C85_quad_degree",
    "C85_cubic_degree",
    "C85_axis"
   ],
   "note": "Exact arithmetic; level/polygon_crosses in Spec/Crossings.v. Crossings counted without multiplicity."
  },
  {
   "property": "C86",
   "status": "proved",
   "theorems": [
    "C86_bezier",
    "C86_quad",
    "C86_cubic",
    "C86_quad_box",
    "C86_cubic_box",
    "C86_quad_ends",
    "C86_cubic_ends"
   ],
   "note": "Exact arithmetic; order along any linear functional; exact boxes per axis."
  },
  {
   "property": "C87",
   "status": "proved",
   "theorems": [
    "C87_line_reverse",
    "C87_quad_reverse",
    "C87_cubic_reverse",
    "C87_cubic_reverse_near",
    "C87_quad_split",
    "C87_cubic_split",
    "C87_cubic_reverse_exact_refuted"
   ],
   "note": "Exact arithmetic. C87_cubic_reverse_exact_refuted exhibits a cubic in the exceptional case whose box depends on its direction."
  },
  {
   "property": "C88",
   "status": "proved",
   "theorems": [
    "C88_bezier",
    "C88_quad",
    "C88_cubic",
    "C88_bezier_arclen",
    "C88_quad_arclen",
    "C88_cubic_arclen",
    "C88_length",
    "C88_quad_box",
    "C88_cubic_box",
    "C88_bezier_speed",
    "C88_quad_speed",
    "C88_cubic_speed"
   ],
   "note": "Exact arithmetic. distance_to_point is left out: its refinement leaves [0,1] and jumps between minima (C36), so it is not continuous in the control points."
  },
  {
   "property": "C89",
   "status": "proved",
   "theorems": [
    "C89_spec",
    "C89_eval",
    "C89_right_iff",
    "C89_start"
   ],
   "note": "Exact arithmetic. The property describes what the code computes; that it is not the spline of its control points is C44."
  },
  {
   "property": "C90",
   "status": "proved",
   "theorems": [
    "C90_hull",
    "C90_norm",
    "C90_stable",
    "C90_last_knot_refuted"
   ],
   "note": "Exact arithmetic. C90_last_knot_refuted: control points 1 and 1, value -2 at the end of the reported domain."
  },
  {
   "property": "C91",
   "status": "proved",
   "theorems": [
    "C91_decay",
    "C91_limit",
    "C91_continuous_iff"
   ],
   "note": "Exact arithmetic. The property describes what the code computes; the textbook spline is continuous there (C44 is the defect)."
  },
  {
   "property": "C92",
   "status": "proved",
   "theorems": [
    "C92_unique",
    "C92_split",
    "C92_split_cubic",
    "C92_split_quad",
    "C92_velocity",
    "C92_reverse",
    "C92_zero_iff",
    "C92_kth",
    "C92_too_often",
    "C92_taylor",
    "C92_affine"
   ],
   "note": "Exact arithmetic. For a quadratic curve the derivative is a line segment, whose own split is wrong (C04); the law is stated there by evaluation."
  },
  {
   "property": "C93",
   "status": "proved",
   "theorems": [
    "C93_arc_length",
    "C93_quad",
    "C93_cubic"
   ],
   "note": "Exact arithmetic."
  },
  {
   "property": "C94",
   "status": "proved",
   "theorems": [
    "C94_new",
    "C94_domain",
    "C94_eval",
    "C94_derivative",
    "C94_eval_shift",
    "C94_arclen_shift",
    "C94_arclen_stretch_refuted",
    "C94_reverse_refuted",
    "C94_kind_refuted"
   ],
   "note": "Exact arithmetic. The three exceptions in the statement are the theorems ending in _refuted."
  },
  {
   "property": "C95",
   "status": "proved",
   "theorems": [
    "C95_bezier",
    "C95_line",
    "C95_quad",
    "C95_quad_casteljau",
    "C95_cubic",
    "C95_cubic_casteljau",
    "C95_store",
    "C95_stored"
   ],
   "note": "No overflow: 4 times the coordinate bound fits both formats."
  },
  {
   "property": "C96",
   "status": "proved",
   "theorems": [
    "C96_bezier",
    "C96_line",
    "C96_quad",
    "C96_cubic",
    "C96_exact_refuted"
   ],
   "note": "The exact range is refuted by C96_exact_refuted; the margin is the rounding error."
  },
  {
   "property": "C97",
   "status": "proved",
   "theorems": [
    "C97_curve_continuous",
    "C97_in_span",
    "C97_velocity",
    "C97_left_limit",
    "C97_weight",
    "C97_continuous_iff",
    "C97_jump_refuted",
    "C97_curve_smooth"
   ],
   "note": "Exact arithmetic; kinds other than Unclamped. The jump is a consequence of the dropped control point (C44)."
  },
  {
   "property": "C98",
   "status": "proved",
   "theorems": [
    "C98_line",
    "C98_quad_points",
    "C98_quad_lengths",
    "C98_cubic_points",
    "C98_cubic_lengths",
    "C98_bezier",
    "C98_bspline",
    "C98_quad_box",
    "C98_cubic_box",
    "C98_line_box",
    "C98_line_box_nan_refuted"
   ],
   "note": "No side condition on the numbers except for the box of a line (no NaN)."
  },
  {
   "property": "C99",
   "status": "proved",
   "theorems": [
    "C99_line",
    "C99_quad",
    "C99_cubic",
    "C99_bezier",
    "C99_bspline",
    "C99_line_box",
    "C99_quad_box",
    "C99_cubic_box"
   ],
   "note": "Closed under the global context: holds for exact, rational and IEEE arithmetic at once."
  },
  {
   "property": "C100",
   "status": "proved",
   "theorems": [
    "C100_search",
    "C100_search_unclamped",
    "C100_exact"
   ],
   "note": "Closed under the global context. Counts iterations of the modelled loops (fuel), not machine time."
  },
  {
   "property": "C101",
   "status": "proved",
   "theorems": [
    "C101_distinct",
    "C101_new",
    "C101_eval",
    "C101_eval_exact"
   ],
   "note": "The formatter itself (write!) is modelled as the text it appends."
  },
  {
   "property": "C102",
   "status": "proved",
   "theorems": [
    "C102_line_eval",
    "C102_quad_eval",
    "C102_cubic_eval",
    "C102_bezier_eval",
    "C102_bspline_eval",
    "C102_line_derivative",
    "C102_quad_derivative",
    "C102_cubic_derivative",
    "C102_bezier_derivative",
    "C102_quad_arclen",
    "C102_cubic_arclen",
    "C102_bezier_arclen",
    "C102_quad_distance",
    "C102_cubic_distance",
    "C102_bezier_distance",
    "C102_quad_distance_blind",
    "C102_distance_refuted"
   ],
   "note": "The exception (distance_to_point) is the theorem C102_distance_refuted."
  },
  {
   "property": "C103",
   "status": "proved",
   "theorems": [
    "C103_residual",
    "C103_two",
    "C103_none",
    "C103_linear",
    "C103_solve",
    "C103_solve_linear",
    "C103_solve_complete",
    "C103_solve_complete_linear",
    "C103_misses_refuted",
    "C103_wrong_refuted"
   ],
   "note": "The two computed f64 cases are C103_misses_refuted and C103_wrong_refuted."
  },
  {
   "property": "C104",
   "status": "proved",
   "theorems": [
    "C104_line",
    "C104_quad",
    "C104_cubic",
    "C104_segment",
    "C104_segment_refuted",
    "C104_float_iff",
    "C104_float_reflexive",
    "C104_float_symmetric",
    "C104_float_transitive",
    "C104_float_segment",
    "C104_float_line",
    "C104_float_quad",
    "C104_float_cubic",
    "C104_errors",
    "C104_kinds"
   ],
   "note": "C104_segment_refuted: the same function in two variants compares unequal."
  },
  {
   "property": "C105",
   "status": "proved",
   "theorems": [
    "C105_order",
    "C105_line_up",
    "C105_line_down",
    "C105_line_end",
    "C105_quad",
    "C105_cubic",
    "C105_bezier",
    "C105_bezier_split",
    "C105_bspline",
    "C105_line_start_refuted",
    "C105_casteljau_refuted",
    "C105_quad_parameter_refuted",
    "C105_bezier_parameter_refuted"
   ],
   "note": "Four f64 counterexamples delimit it: C105_line_start_refuted, C105_casteljau_refuted, C105_quad_parameter_refuted, C105_bezier_parameter_refuted."
  },
  {
   "property": "C106",
   "status": "proved",
   "theorems": [
    "C106_control_points",
    "C106_repeated"
   ],
   "note": ""
  },
  {
   "property": "C107",
   "status": "proved",
   "theorems": [
    "C107_line",
    "C107_line_split",
    "C107_quad",
    "C107_quad_casteljau",
    "C107_quad_split",
    "C107_cubic",
    "C107_cubic_casteljau",
    "C107_cubic_split",
    "C107_bezier",
    "C107_bezier_split",
    "C107_line_derivative",
    "C107_quad_derivative",
    "C107_cubic_derivative",
    "C107_bspline",
    "C107_underflow_refuted"
   ],
   "note": "C107_underflow_refuted (f64): from 0 to 2^-1074 at t = 1/2 the result is 0, after doubling it is 2^-1074."
  },
  {
   "property": "C108",
   "status": "proved",
   "theorems": [
    "C108_epsilon",
    "C108_f64",
    "C108_f32"
   ],
   "note": ""
  },
  {
   "property": "C109",
   "status": "proved",
   "theorems": [
    "C109_line",
    "C109_quad",
    "C109_quad_split",
    "C109_cubic",
    "C109_cubic_split",
    "C109_bezier",
    "C109_bezier_split",
    "C109_line_derivative",
    "C109_quad_derivative",
    "C109_cubic_derivative",
    "C109_bezier_derivative"
   ],
   "note": ""
  },
  {
   "property": "C110",
   "status": "proved",
   "theorems": [
    "C110_quad_left",
    "C110_cubic_left",
    "C110_bezier_left",
    "C110_quad_right",
    "C110_cubic_right",
    "C110_bezier_right",
    "C110_quad_reverse",
    "C110_cubic_reverse",
    "C110_bezier_reverse"
   ],
   "note": ""
  },
  {
   "property": "C111",
   "status": "proved",
   "theorems": [
    "C111_eval_terminates",
    "C111_arclen_terminates",
    "C111_arclen_panics",
    "C111_clamped_total",
    "C111_clamped_end",
    "C111_clamped_start"
   ],
   "note": ""
  },
  {
   "property": "C112",
   "status": "proved",
   "theorems": [
    "C112_kind_start",
    "C112_kind_end",
    "C112_clamped_start_panics",
    "C112_clamped_end_panics",
    "C112_unclamped_panics",
    "C112_arclen_panics"
   ],
   "note": ""
  },
  {
   "property": "C113",
   "status": "proved",
   "theorems": [
    "C113_eval",
    "C113_start",
    "C113_unit",
    "C113_exact"
   ],
   "note": ""
  },
  {
   "property": "C114",
   "status": "proved",
   "theorems": [
    "C114_main"
   ],
   "note": ""
  },
  {
   "property": "C115",
   "status": "proved",
   "theorems": [
    "C115_quad",
    "C115_cubic",
    "C115_bezier_left",
    "C115_bezier_right",
    "C115_quad_derivative",
    "C115_cubic_derivative",
    "C115_bezier_derivative",
    "C115_piece"
   ],
   "note": ""
  },
  {
   "property": "C116",
   "status": "proved",
   "theorems": [
    "C116_line",
    "C116_quad",
    "C116_quad_split",
    "C116_cubic",
    "C116_cubic_split",
    "C116_bezier",
    "C116_bezier_split"
   ],
   "note": ""
  },
  {
   "property": "C117",
   "status": "proved",
   "theorems": [
    "C117_quad",
    "C117_cubic",
    "C117_bezier",
    "C117_length",
    "C117_quad_arclen",
    "C117_cubic_arclen",
    "C117_bezier_arclen",
    "C117_quad_32",
    "C117_cubic_32",
    "C117_spline",
    "C117_spline_knots",
    "C117_spline_value",
    "C117_documented_refuted"
   ],
   "note": ""
  },
  {
   "property": "C118",
   "status": "proved",
   "theorems": [
    "C118_bezier_eval",
    "C118_bezier_split",
    "C118_bezier_derivative",
    "C118_bezier_arclen",
    "C118_new",
    "C118_domain",
    "C118_eval",
    "C118_arclen",
    "C118_derivative"
   ],
   "note": ""
  },
  {
   "property": "C119",
   "status": "proved",
   "theorems": [
    "C119_no_steps",
    "C119_sum",
    "C119_unit",
    "C119_unit_far"
   ],
   "note": ""
  },
  {
   "property": "C120",
   "status": "proved",
   "theorems": [
    "C120_lipschitz",
    "C120_smooth",
    "C120_converges",
    "C120_convex"
   ],
   "note": ""
  },
  {
   "property": "C121",
   "status": "proved",
   "theorems": [
    "C121_bezier",
    "C121_quad",
    "C121_cubic",
    "C121_bezier_polygon",
    "C121_quad_polygon",
    "C121_cubic_polygon"
   ],
   "note": ""
  },
  {
   "property": "C122",
   "status": "proved",
   "theorems": [
    "C122_bezier",
    "C122_quad",
    "C122_cubic"
   ],
   "note": ""
  },
  {
   "property": "C123",
   "status": "proved",
   "theorems": [
    "C123_items",
    "C123_sum_squares",
    "C123_mut_mul",
    "C123_mut_add",
    "C123_iter_mut",
    "C123_bezier_mut",
    "C123_dim",
    "C123_line_short",
    "C123_quad_short",
    "C123_cubic_short",
    "C123_line_long",
    "C123_quad_long",
    "C123_cubic_long",
    "C123_distance_short",
    "C123_distance_long",
    "C123_bezier_affine"
   ],
   "note": ""
  },
  {
   "property": "C124",
   "status": "proved",
   "theorems": [
    "C124_reproduces",
    "C124_line",
    "C124_line_split_float",
    "C124_insertion",
    "C124_crossings",
    "C124_load_round",
    "C124_total",
    "C124_polygon",
    "C124_float_error",
    "C124_float_first",
    "C124_float_last",
    "C124_float_domain",
    "C124_load_total",
    "C124_load_value",
    "C124_load_hull",
    "C124_load_first",
    "C124_load_last",
    "C124_load_moves",
    "C124_load_errors",
    "C124_load_outside",
    "C124_load_near_refuted",
    "C124_line_split",
    "C124_segment_split",
    "C124_line_distance",
    "C124_distance_agrees",
    "C124_quad_is_linear",
    "C124_cubic_is_linear",
    "C124_dd",
    "C124_arclen",
    "C124_quad_distance",
    "C124_cubic_distance",
    "C124_bezier_distance",
    "C124_never_underestimates",
    "C124_domain",
    "C124_span",
    "C124_no_panic",
    "C124_value",
    "C124_value_right_end",
    "C124_first",
    "C124_last",
    "C124_derivative",
    "C124_spline_arclen",
    "C124_moves",
    "C124_square_roots",
    "C124_cubic_roots",
    "C124_quad_solve",
    "C124_cubic_solve",
    "C124_line_ends",
    "C124_quad_ends",
    "C124_sorted",
    "C124_new_same",
    "C124_cubic_box",
    "C124_stable_same",
    "C124_box_same",
    "C124_bends",
    "C124_span_bezier",
    "C124_mean",
    "C124_order",
    "C124_spline_length",
    "C124_smooth",
    "C124_derivative_at_knots",
    "C124_unique"
   ],
   "note": "About Model/Repairs.v and Model/RepairsRoots.v, which are not the code of /repo: each definition is the model of one function with the named line changed. That the unchanged functions violate the properties is proved by the _refuted theorems of C04 to C79. For the B-splines the set of changes is shown to suffice, not to be minimal."
  },
  {
   "property": "C125",
   "status": "proved",
   "theorems": [
    "C125_line",
    "C125_quad",
    "C125_cubic",
    "C125_bezier",
    "C125_segment",
    "C125_new",
    "C125_bspline",
    "C125_converted",
    "C125_equality",
    "C125_unfaithful_refuted"
   ],
   "note": ""
  },
  {
   "property": "C126",
   "status": "proved",
   "theorems": [
    "C126_wider_bezier_derivative",
    "C126_line",
    "C126_quad",
    "C126_cubic",
    "C126_segment",
    "C126_bezier",
    "C126_bspline",
    "C126_cubic_roots",
    "C126_cubic_solve",
    "C126_wider_line",
    "C126_wider_quad",
    "C126_wider_cubic",
    "C126_wider_cubic_is_linear",
    "C126_wider_bezier",
    "C126_exact"
   ],
   "note": ""
  },
  {
   "property": "C127",
   "status": "partial",
   "theorems": [
    "C127_solve_partial",
    "C127_derivative_partial",
    "C127_arclen_partial",
    "C127_spline_arclen_partial",
    "C127_derivative_refuted",
    "C127_roots_low_partial",
    "C127_roots_refuted",
    "C127_roots_three_partial",
    "C127_roots_one_partial",
    "C127_cubic_solve_partial",
    "C127_cubic_solve_one_partial",
    "C127_split_partial",
    "C127_dd_partial",
    "C127_bspline_partial",
    "C127_split_refuted",
    "C127_bspline_refuted"
   ],
   "note": "Violated by the code (C127_split_refuted, C127_bspline_refuted, C127_derivative_refuted, C127_roots_refuted): t.into() and 1.0 - alpha.into() go through NativeFloat. The partial theorems bound the loss: the split is exact at the nearest float, dd of quadratics within (12u+8eta)M, B-spline eval within ((1+2u+eta)^D-1)M. The factor of a B-spline derivative is within 8u (C127_derivative_partial), arc lengths are exact chords between rounded parameters (C127_arclen_partial, C127_spline_arclen_partial), and solve_t_for_axis solves for the rounded value (C127_solve_partial). The private cubic root finder takes its third from NativeFloat (C127_roots_refuted): it agrees up to degree two (C127_roots_low_partial) and otherwise stays within a multiple of u of the roots (C127_roots_three_partial, C127_roots_one_partial, C127_cubic_solve_partial, C127_cubic_solve_one_partial; the tolerance of C59 for the f32 constant remains)."
  },
  {
   "property": "C128",
   "status": "partial",
   "theorems": [
    "C128_curve_order",
    "C128_curve_length",
    "C128_order_at_knots_partial",
    "C128_length_at_knots_partial",
    "C128_order_refuted"
   ],
   "note": "Violated by the code between the knots (C128_order_refuted: values 1, 1/2, 1 for the control points 1, 1). Proved for the curve itself (C128_curve_order, C128_curve_length), for the code at the knots of the domain when distinct knots are at least eps apart, and for the repaired evaluation at all parameters (C124_order, C124_spline_length)."
  },
  {
   "property": "C129",
   "status": "partial",
   "theorems": [
    "C129_curve",
    "C129_accepted",
    "C129_at_knots_partial",
    "C129_new_knot",
    "C129_insertion_refuted"
   ],
   "note": "Violated by the code between the knots (C129_insertion_refuted: inserting 1/2 changes the value there from 1/2 to 1), a consequence of C44. Proved for the curve, at the old and the new knots when distinct knots are at least eps apart, and for the repaired evaluation (C124_insertion)."
  },
  {
   "property": "C130",
   "status": "partial",
   "theorems": [
    "C130_curve",
    "C130_at_knots_partial",
    "C130_crossings_refuted"
   ],
   "note": "Violated by the code between the knots (C130_crossings_refuted), a consequence of C44. Proved for the curve, for the code at the knots when distinct knots are at least eps apart, and for the repaired evaluation (C124_crossings)."
  },
  {
   "property": "C131",
   "status": "partial",
   "theorems": [
    "C131_piece",
    "C131_curve",
    "C131_curve_unused",
    "C131_eval_partial",
    "C131_span_partial",
    "C131_simple_partial",
    "C131_lost",
    "C131_degree0_refuted"
   ],
   "note": "Proved for the curve, with the exact condition (C131_curve, C131_curve_unused), and for the repaired evaluation (C124_unique). For the code on splines clamped at an end with spans longer than eps the condition is stronger, and sharp (C131_eval_partial, C131_lost): points whose support meets the domain only in their own span are lost, C131_degree0_refuted. Increasing knots and degree >= 1: all control points (C131_simple_partial)."
  },
  {
   "property": "C132",
   "status": "partial",
   "theorems": [
    "C132_curve",
    "C132_dual",
    "C132_polynomial",
    "C132_marsden",
    "C132_greville",
    "C132_at_knots_partial",
    "C132_defect",
    "C132_line_refuted"
   ],
   "note": "Proved for the curve (C132_curve, C132_dual, C132_polynomial, C132_marsden, C132_greville) and for the repaired evaluation (C124_reproduces, C124_line). For the code proved at the knots (C132_at_knots_partial); between them exactly the term of the last control point of the span is missing (C132_defect), so the property is violated, C132_line_refuted."
  },
  {
   "property": "C133",
   "status": "partial",
   "theorems": [
    "C133_slopes",
    "C133_curve",
    "C133_polygon",
    "C133_at_knots_partial",
    "C133_between_refuted"
   ],
   "note": "Proved for the curve (C133_curve, C133_polygon, C133_slopes) and for the repaired evaluation (C124_bends). For the code proved at the knots (C133_at_knots_partial); between them the property is violated, C133_between_refuted, because eval leaves out the last control point of the span (C44)."
  },
  {
   "property": "C134",
   "status": "partial",
   "theorems": [
    "C134_basis",
    "C134_curve",
    "C134_weights",
    "C134_span_partial",
    "C134_refuted"
   ],
   "note": "Proved for the curve (C134_basis, C134_curve, C134_weights) and for the repaired evaluation (C124_mean). The code violates it (C134_refuted, the line from 0 to 1): C134_span_partial gives the integral of what eval leaves out on each span, from EPSILON after its first knot on."
  },
  {
   "property": "C135",
   "status": "proved",
   "theorems": [
    "C135_curve",
    "C135_span"
   ],
   "note": "C135_curve for the curve, C135_span for the code (spline clamped at a side or both), C124_span_bezier for the repaired evaluation including the last knot."
  },
  {
   "property": "C136",
   "status": "proved",
   "theorems": [
    "C136_leg",
    "C136_bezier",
    "C136_quad",
    "C136_cubic",
    "C136_halved",
    "C136_attained",
    "C136_spline_leg",
    "C136_spline",
    "C136_at_knots"
   ],
   "note": "Bezier, quadratic and cubic curves in full; B-splines: the curve (C136_spline_leg, C136_spline), eval at the knots (C136_at_knots), the repaired evaluation everywhere (C124_polygon)."
  },
  {
   "property": "C137",
   "status": "proved",
   "theorems": [
    "C137_arc",
    "C137_arc_middle",
    "C137_rate",
    "C137_sixteen",
    "C137_eight",
    "C137_eight_fail",
    "C137_piece_fail",
    "C137_todo_refuted",
    "C137_todo_length_refuted",
    "C137_length",
    "C137_circumference",
    "C137_steps",
    "C137_more_steps"
   ],
   "note": "exact arithmetic; C137_todo_refuted and C137_todo_length_refuted concern the data of the commented-out tests, not a function of the crate"
  },
  {
   "property": "C138",
   "status": "proved",
   "theorems": [
    "C138_quad",
    "C138_cubic",
    "C138_cubic_point",
    "C138_quad_linear_only_refuted",
    "C138_cubic_linear_only_refuted",
    "C138_quad_tiny_refuted",
    "C138_cubic_tiny_refuted",
    "C138_segment",
    "C138_segment_refuted",
    "C138_f32_refuted",
    "C138_f64_refuted",
    "C138_quad_round",
    "C138_cubic_round"
   ],
   "note": "exact arithmetic and, in the _round theorems, every IEEE format; the recursion itself is client code. The _refuted theorems are the second half of the statement"
  },
  {
   "property": "C139",
   "status": "proved",
   "theorems": [
    "C139_quad_eval",
    "C139_cubic_eval",
    "C139_bezier_eval",
    "C139_quad_arclen",
    "C139_cubic_arclen",
    "C139_bezier_arclen",
    "C139_quad_distance",
    "C139_cubic_distance",
    "C139_bezier_distance",
    "C139_quad_flat",
    "C139_cubic_flat",
    "C139_quad_flatten",
    "C139_cubic_flatten",
    "C139_quad_box",
    "C139_cubic_box",
    "C139_quad_solve",
    "C139_cubic_solve",
    "C139_spline_eval"
   ],
   "note": "every binary format; flattening recursion as in C138"
  },
  {
   "property": "C140",
   "status": "proved",
   "theorems": [
    "C140_quad",
    "C140_cubic",
    "C140_two_quads",
    "C140_two_cubics",
    "C140_quad_cubic",
    "C140_quad_round",
    "C140_two_quads_round"
   ],
   "note": "the driver (split both, compare boxes) is specified in Spec/Boxes.v: the crate has the parts but no intersection function; the rounded form is for quadratics"
  },
  {
   "property": "C141",
   "status": "proved",
   "theorems": [
    "C141_quad_piece",
    "C141_cubic_piece",
    "C141_quad",
    "C141_cubic"
   ],
   "note": "exact arithmetic; flattening recursion of Spec/Adaptive.v as in C138"
  },
  {
   "property": "C142",
   "status": "proved",
   "theorems": [
    "C142_quad",
    "C142_cubic",
    "C142_quad_cut",
    "C142_cubic_cut"
   ],
   "note": "exact arithmetic"
  },
  {
   "property": "C143",
   "status": "partial",
   "theorems": [
    "C143_quad",
    "C143_cubic_partial",
    "C143_cubic_fixed",
    "C143_cubic_refuted"
   ],
   "note": "CODE VIOLATES IT for cubics (C21): C143_cubic_refuted. Quadratics proved; for cubics the value the code computes and the repaired formula."
  },
  {
   "property": "C144",
   "status": "partial",
   "theorems": [
    "C144_line",
    "C144_quad",
    "C144_cubic_panics_partial",
    "C144_cubic_partial",
    "C144_cubic_close_partial",
    "C144_cubic_refuted"
   ],
   "note": "CODE VIOLATES IT for cubics in f64: C144_cubic_refuted (t = 0.3). Lines and quadratics proved over every scalar; cubics within 128 (u M + eta) of the exact curve."
  }
 ]
}