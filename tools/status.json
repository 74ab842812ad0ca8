{
"C01": {
"note": "generic: any scalar type and dimension"
},
"C02": {
"note": "generic; axis(N) panics too (array bound), not only i > N"
},
"C03": {
"note": "exact arithmetic"
},
"C04": {
"note": "CODE VIOLATES IT (line.rs split uses start - end): C04_split_refuted. The partial theorems give the curve actually traced and characterise when split is right (t = 0 or start = end); C04_float_partial does so up to rounding in IEEE arithmetic."
},
"C05": {
"note": "CODE VIOLATES IT (line.rs: projection parameter >= 1 leaves t = 0): C05_distance_refuted. Proved for projections before the end; exact wrong value given past the end; within sqrt(EPSILON) for degenerate segments."
},
"C06": {
"note": "exact arithmetic"
},
"C07": {
"note": "exact arithmetic"
},
"C08": {
"note": "exact arithmetic"
},
"C13": {
"note": "slack EPSILON/8; no slack when the second difference reaches EPSILON; containment without slack is refuted (C13_exact_containment_refuted)"
},
"C15": {
"note": "quadratic and cubic"
},
"C16": {
"note": "CODE VIOLATES IT (inherits the line distance bug): C16_quad_complete_refuted, C16_cubic_complete_refuted. Proved when control points project before the end point."
},
"C21": {
"note": "CODE VIOLATES IT (cubic_bezier.rs dd: t * -3 instead of t2 * -3): C21_dd_refuted; exact value with error term start*(3t^2-3t)."
},
"C22": {
"note": "slack 3/8 EPSILON; none when the third difference reaches EPSILON; containment without slack refuted"
},
"C30": {
"note": "CODE VIOLATES IT in degenerate cases: eval with no control points and derivative of a single point panic. Total from two control points on, over any scalar type."
},
"C52": {
"note": "kind preserved for all; curve reproduced for quadratic and cubic; CODE VIOLATES IT for linear segments (C52_split_refuted)."
},
"C58": {
"note": "exactly the real roots outside the EPSILON thresholds; the spurious root inside the window is characterised"
},
"C34": {
"note": "CODE VIOLATES IT (loops run over 1..nsteps, so the first chord is missing): C34_arclen_refuted. Proved: the result is the polyline length minus exactly its first chord."
},
"C35": {
"note": "exact arithmetic; explicit rate g^2 L/n and limit; where the speed is at least v the rest of the deficit besides the missing first chord is O(1/n^2)"
},
"C36": {
"note": "CODE VIOLATES IT (fine pass assigns tmin = t and evaluates at negative parameters): C36_*_refuted exhibit integer control points at distance >= 122 reported as 0. Proved: the result is the distance to a point of the curve extended to [-31*63/4096, 1]."
},
"C37": {
"note": "exact arithmetic"
},
"C38": {
"note": "any scalar type; never panics (the outcome is given in every case)"
},
"C39": {
"note": "proved over the reals and over floats without NaN (infinities allowed); NaN knots are accepted and break it: C39_nan_refuted"
},
"C40": {
"note": "CODE VIOLATES IT for half clamped knot vectors (C40_domain_refuted: the reported domain is too large by at least EPSILON on the unclamped side). Right for Clamped and Unclamped."
},
"C41": {
"note": "exact arithmetic, every kind"
},
"C42": {
"note": "any scalar type, no law assumed"
},
"C43": {
"note": "CODE VIOLATES IT: panics for Unclamped, ClampedStart and ClampedEnd splines inside the reported domain (three C43_*_refuted witnesses). The C43_*_panics theorems say exactly for which parameters each kind panics; everywhere else in the domain a point is returned."
},
"C44": {
"note": "CODE VIOLATES IT (bspline.rs loads control points for j in 0..D instead of 0..=D): C44_clamped_refuted, C44_unclamped_refuted. Proved: the exact value computed, i.e. the Cox-de Boor sum minus the term of control point k; the same in every span the unclamped search finds (C44_unclamped_probes_partial); right at the knots, and in the span past the true domain of splines clamped at the start only; and, for every parameter of the true domain of a spline that is not Unclamped, either that value or (less than EPSILON after a knot) the curve up to D eps / (span length) times the spread of the control points (C44_everywhere_partial)."
},
"C45": {
"note": "CODE VIOLATES IT for degree 0 (C45_degree0_refuted); last point always, first point for D >= 1 and a first knot of multiplicity D+1"
},
"C47": {
"note": "CODE VIOLATES IT (the knot vector is not trimmed): C47_derivative_refuted. Proved: over the trimmed knots the control points returned give the derivative of the spline; exactly what eval of the result returns instead (shifted weights and a dropped term left of knot C-1, the last control point at it, an error or panic right of it); a spline of constant velocity never has it reported."
},
"C48": {
"note": "CODE VIOLATES IT (samples i = 0..=nsteps, the last one leaves the domain and is replaced by the origin): C48_arclen_refuted. Proved: over [0,1] the result is the polyline length plus the distance of the last control point from the origin; over any clamped domain the exact sum (chords advance the parameter by 1/n whatever the width of the domain, points past its end count as the origin)."
},
"C49": {
"note": "terminates for every scalar type; the three searches for clamped knots are characterised on the whole line; CODE VIOLATES IT for Unclamped (C49_unclamped_refuted), whose search only goes right: C49_unclamped_probes says which span it returns"
},
"C50": {
"note": "exact arithmetic; even control point k has no influence"
},
"C60": {
"note": "exact arithmetic"
},
"C61": {
"note": "exact arithmetic"
},
"C46": {
"note": "IEEE floats of any format; every degree, size and kind"
},
"C53": {
"note": "IEEE floats of any binary format with at least 11 bits; componentwise point types of any dimension"
},
"C54": {
"note": "6(N-1)uM + 5(N-1)eta for 6(N-1)u <= 1 and 4M <= fmax; u = 2^-prec, eta half the least positive float"
},
"C55": {
"note": "constants 6, 17, 11, 39, 16 times uM plus underflow terms, 4M <= fmax"
},
"C56": {
"note": "finite coordinates of any magnitude; the line box never panics for any scalar type"
},
"C57": {
"note": "any coordinate; holds for every scalar type with a NaN test"
},
"C62": {
"note": "float comparisons; no finiteness hypothesis"
},
"C63": {
"note": "CODE VIOLATES IT: LineSegment::eval(1) is not exact even for coordinates in [-1,1], and both evaluators give NaN at t = 0 when an intermediate product or difference overflows (three refutations). Partial: exact when magnitudes are at most fmax/2, except the line at t = 1."
},
"C59": {
"note": "CODE VIOLATES IT: the f32 PI makes two of three values inexact (C59_three_refuted) and an EPSILON test adds a spurious value (C59_one_refuted). Proved: no panic; a single real root is returned first, exactly; double and triple roots exact; with three real roots the first is exact and the others within 1e-7*sqrt(b^2-3ac)/|a|. A leading coefficient below EPSILON reduces to C58 (any scalar type)."
},
"C64": {
"note": "CODE VIOLATES IT at the ends (the interval is open: C64_ends_refuted). Proved: exactly the solutions in (0,1) for quadratics outside the EPSILON windows and for cubics with a double or triple solution; completeness for cubics with a single real solution; both directions up to 1e-7*sqrt(b^2-3ac)/|a| with three real solutions; residual below 2 EPSILON when the axis is quadratic up to EPSILON. Curves taken for a point are characterised exactly (C64_skipped; C64_skipped_refuted: also curves up to sqrt(EPSILON) long)."
},
"C65": {
"note": "Both end points exact: C65_first (curves clamped at the start, degree at least 1, up to the sign of a zero) and C65_last (every kind). Also shown: the bound MAX/2 on the knots is needed (C65_wide_refuted: knots -2^1023, 2^1023 give EvaluationAlphaIsNaN)."
},
"C66": {
"note": "Also shown: the condition on t is needed (C66_close_refuted: knots 2^-60 apart make every weight 0)."
},
"C69": {
"note": "compared with the polyline from 1/n on (the missing first chord is C34) and with the true arc length of the exact curve"
},
"C70": {
"note": "upper side only; the result can be too small because the second pass leaves [0,1] (C36)"
},
"C71": {
"note": "probe is the sequence of indices visited by the unclamped search (Spec/Probes.v)"
},
"C72": {
"note": "no condition other than the size bound; slack EPSILON/8 comes from the linear guard (see C13)"
},
"C73": {
"note": "refuted in f64 by control coordinates 1, -1, -0.9, 1.3: the box starts at 1 but the curve goes below -0.4. Proved when on every axis M <= lam * |cubic coefficient| or the computed coefficient is below EPSILON, with slack 251uM + 4eta + 65536 lam^2 u^(3/2) M, and for every lam with slack 286uM + 4eta + 2^23 (lam u)^2 M (backward error), which is of the order of uM down to coefficients of sqrt(u) M; and for every cubic whose coordinates are multiples of 2^g with 2048uM <= 2^g. C124_cubic_box: with a root formula free of cancellation the slack is 350uM + 4eta for every cubic"
},
"C74": {
"note": "the literals enter only through their values, with tolerance"
},
"C75": {
"note": "step counts 1000..10^9 in f64, all from 1000 in exact arithmetic"
},
"C76": {
"note": "exact arithmetic; below sqrt(EPSILON) chords is_linear is always false, so a recursion that stops on is_linear alone may not stop"
},
"C77": {
"note": "exact arithmetic; the direction dependence of arclen comes from the missing first chord (C34)"
},
"C78": {
"note": "exact arithmetic; C78_scale_refuted shows that the condition on EPSILON is needed"
},
"C79": {
"note": "refuted for translations (the last control point of the span is replaced by the origin, C44). Proved for linear maps, panics and errors included; under a translation by v the result moves by v times the value of the same spline with all control points 1"
},
"C80": {
"note": "every binary format with at least 11 bits; rounding error (6D+35)uM sqrt D for a distance, (16D+30)uM sqrt D for the foot. The two cases leave a strip of that width at the end of the segment, where C80_on_segment still applies"
},
"C81": {
"note": "every binary format with at least 11 bits; is_a_point needs tol*tol not to overflow. The completeness theorems keep the side conditions of C16 (the code rejects control points projecting beyond the end and short baselines)"
},
"C82": {
"note": "every binary format with at least 11 bits. The condition on M says that a rounding error of K u M is below sqrt EPSILON: for f64 in the plane M up to about 2e5 for K = 108. The crate's tests themselves are run in theories/Tests; cubic boxes: C73_cubic_test_partial, under the condition of C73"
},
"C83": {
"note": "Exact arithmetic. raised (Spec/Elevation.v) is the textbook formula; all methods of generic, quadratic and cubic curves agree, boxes for segment->quadratic and quadratic->cubic. LineSegment::split is left out because of its sign error (C04), LineSegment::distance_to_point because its algorithm differs (C05)."
},
"C84": {
"note": "Exact arithmetic; any n distinct parameters. C84_sharp shows that one fewer is not enough."
},
"C85": {
"note": "Exact arithmetic; level/polygon_crosses in Spec/Crossings.v. Crossings counted without multiplicity."
},
"C86": {
"note": "Exact arithmetic; order along any linear functional; exact boxes per axis."
},
"C87": {
"note": "Exact arithmetic. C87_cubic_reverse_exact_refuted exhibits a cubic in the exceptional case whose box depends on its direction."
},
"C88": {
"note": "Exact arithmetic. distance_to_point is left out: its refinement leaves [0,1] and jumps between minima (C36), so it is not continuous in the control points."
},
"C89": {
"note": "Exact arithmetic. The property describes what the code computes; that it is not the spline of its control points is C44."
},
"C90": {
"note": "Exact arithmetic. C90_last_knot_refuted: control points 1 and 1, value -2 at the end of the reported domain."
},
"C91": {
"note": "Exact arithmetic. The property describes what the code computes; the textbook spline is continuous there (C44 is the defect)."
},
"C92": {
"note": "Exact arithmetic. For a quadratic curve the derivative is a line segment, whose own split is wrong (C04); the law is stated there by evaluation."
},
"C93": {
"note": "Exact arithmetic."
},
"C94": {
"note": "Exact arithmetic. The three exceptions in the statement are the theorems ending in _refuted."
},
"C95": {
"note": "No overflow: 4 times the coordinate bound fits both formats."
},
"C96": {
"note": "The exact range is refuted by C96_exact_refuted; the margin is the rounding error."
},
"C97": {
"note": "Exact arithmetic; kinds other than Unclamped. The jump is a consequence of the dropped control point (C44)."
},
"C98": {
"note": "No side condition on the numbers except for the box of a line (no NaN)."
},
"C99": {
"note": "Closed under the global context: holds for exact, rational and IEEE arithmetic at once."
},
"C100": {
"note": "Closed under the global context. Counts iterations of the modelled loops (fuel), not machine time."
},
"C101": {
"note": "The formatter itself (write!) is modelled as the text it appends."
},
"C102": {
"note": "The exception (distance_to_point) is the theorem C102_distance_refuted."
},
"C103": {
"note": "The two computed f64 cases are C103_misses_refuted and C103_wrong_refuted."
},
"C104": {
"note": "C104_segment_refuted: the same function in two variants compares unequal."
},
"C105": {
"note": "Four f64 counterexamples delimit it: C105_line_start_refuted, C105_casteljau_refuted, C105_quad_parameter_refuted, C105_bezier_parameter_refuted."
},
"C107": {
"note": "C107_underflow_refuted (f64): from 0 to 2^-1074 at t = 1/2 the result is 0, after doubling it is 2^-1074."
},
"C124": {
"note": "About Model/Repairs.v and Model/RepairsRoots.v, which are not the code of /repo: each definition is the model of one function with the named line changed. That the unchanged functions violate the properties is proved by the _refuted theorems of C04 to C79. For the B-splines the set of changes is shown to suffice, not to be minimal."
},
"C127": {
"note": "Violated by the code (C127_split_refuted, C127_bspline_refuted, C127_derivative_refuted, C127_roots_refuted): t.into() and 1.0 - alpha.into() go through NativeFloat. The partial theorems bound the loss: the split is exact at the nearest float, dd of quadratics within (12u+8eta)M, B-spline eval within ((1+2u+eta)^D-1)M. The factor of a B-spline derivative is within 8u (C127_derivative_partial), arc lengths are exact chords between rounded parameters (C127_arclen_partial, C127_spline_arclen_partial), and solve_t_for_axis solves for the rounded value (C127_solve_partial). The private cubic root finder takes its third from NativeFloat (C127_roots_refuted): it agrees up to degree two (C127_roots_low_partial) and otherwise stays within a multiple of u of the roots (C127_roots_three_partial, C127_roots_one_partial, C127_cubic_solve_partial, C127_cubic_solve_one_partial; the tolerance of C59 for the f32 constant remains)."
},
"C128": {
"note": "Violated by the code between the knots (C128_order_refuted: values 1, 1/2, 1 for the control points 1, 1). Proved for the curve itself (C128_curve_order, C128_curve_length), for the code at the knots of the domain when distinct knots are at least eps apart, and for the repaired evaluation at all parameters (C124_order, C124_spline_length)."
},
"C129": {
"note": "Violated by the code between the knots (C129_insertion_refuted: inserting 1/2 changes the value there from 1/2 to 1), a consequence of C44. Proved for the curve, at the old and the new knots when distinct knots are at least eps apart, and for the repaired evaluation (C124_insertion)."
},
"C130": {
"note": "Violated by the code between the knots (C130_crossings_refuted), a consequence of C44. Proved for the curve, for the code at the knots when distinct knots are at least eps apart, and for the repaired evaluation (C124_crossings)."
},
"C131": {
"note": "Proved for the curve, with the exact condition (C131_curve, C131_curve_unused), and for the repaired evaluation (C124_unique). For the code on splines clamped at an end with spans longer than eps the condition is stronger, and sharp (C131_eval_partial, C131_lost): points whose support meets the domain only in their own span are lost, C131_degree0_refuted. Increasing knots and degree >= 1: all control points (C131_simple_partial)."
},
"C132": {
"note": "Proved for the curve (C132_curve, C132_dual, C132_polynomial, C132_marsden, C132_greville) and for the repaired evaluation (C124_reproduces, C124_line). For the code proved at the knots (C132_at_knots_partial); between them exactly the term of the last control point of the span is missing (C132_defect), so the property is violated, C132_line_refuted."
},
"C133": {
"note": "Proved for the curve (C133_curve, C133_polygon, C133_slopes) and for the repaired evaluation (C124_bends). For the code proved at the knots (C133_at_knots_partial); between them the property is violated, C133_between_refuted, because eval leaves out the last control point of the span (C44)."
},
"C134": {
"note": "Proved for the curve (C134_basis, C134_curve, C134_weights) and for the repaired evaluation (C124_mean). The code violates it (C134_refuted, the line from 0 to 1): C134_span_partial gives the integral of what eval leaves out on each span, from EPSILON after its first knot on."
},
"C135": {
"note": "C135_curve for the curve, C135_span for the code (spline clamped at a side or both), C124_span_bezier for the repaired evaluation including the last knot."
},
"C136": {
"note": "Bezier, quadratic and cubic curves in full; B-splines: the curve (C136_spline_leg, C136_spline), eval at the knots (C136_at_knots), the repaired evaluation everywhere (C124_polygon)."
},
"C137": {
"note": "exact arithmetic; C137_todo_refuted and C137_todo_length_refuted concern the data of the commented-out tests, not a function of the crate"
},
"C138": {
"note": "exact arithmetic and, in the _round theorems, every IEEE format; the recursion itself is client code. The _refuted theorems are the second half of the statement"
},
"C139": {
"note": "every binary format; flattening recursion as in C138"
},
"C140": {
"note": "the driver (split both, compare boxes) is specified in Spec/Boxes.v: the crate has the parts but no intersection function; the rounded form is for quadratics"
},
"C141": {
"note": "exact arithmetic; flattening recursion of Spec/Adaptive.v as in C138"
},
"C142": {
"note": "exact arithmetic"
},
"C143": {
"note": "CODE VIOLATES IT for cubics (C21): C143_cubic_refuted. Quadratics proved; for cubics the value the code computes and the repaired formula."
},
"C144": {
"note": "CODE VIOLATES IT for cubics in f64: C144_cubic_refuted (t = 0.3). Lines and quadratics proved over every scalar; cubics within 128 (u M + eta) of the exact curve."
}
}