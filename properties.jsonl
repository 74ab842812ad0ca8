{"id": "C01", "title": "PointN is a coordinate-wise vector space", "statement": "Addition, subtraction and scaling of points act on each coordinate separately; the default point is the origin; == holds exactly when all coordinates are equal; squared_length is the sum of the squared coordinates. No coordinate is dropped or mixed with another.", "quantifier": "every dimension N, every pair of points, every scale factor, every coordinate index", "why_tests_cant": "There are infinitely many dimensions and coordinate values; a test fixes one N and a few literals.", "anchors": ["src/point_generic.rs: impl Add/Sub/Mul/PartialEq/Default for PointN", "src/point_generic.rs: Point::squared_length", "src/point.rs: trait Point"]}
{"id": "C02", "title": "axis(i) returns coordinate i or panics, exactly at the dimension", "statement": "p.axis(i) returns the i-th coordinate when i < N and panics for every i >= N (the documentation only promises a panic for i greater than the dimension; i == N also panics).", "quantifier": "every dimension, point and index", "why_tests_cant": "Needs all index/dimension pairs, including the boundary index for every N.", "anchors": ["src/point_generic.rs: Point::axis", "src/point.rs: Point::axis"]}
{"id": "C03", "title": "LineSegment::eval interpolates its end points", "statement": "eval(t) has coordinates (1-t)*start + t*end; eval(0) is start and eval(1) is end; for t in [0,1] the point lies between the end points in every coordinate.", "quantifier": "every segment in every dimension and every parameter", "why_tests_cant": "A universally quantified identity over the reals.", "anchors": ["src/line.rs: LineSegment::eval"]}
{"id": "C04", "title": "LineSegment::split cuts the segment at eval(t)", "statement": "If (l,r) = s.split(t) then l.eval(u) == s.eval(t*u) and r.eval(u) == s.eval(t + u*(1-t)) for every u: both halves trace the original segment and meet at s.eval(t).", "quantifier": "every segment, split parameter and sampling parameter", "why_tests_cant": "The repository has no test of LineSegment::split at all; the identity ranges over all parameters.", "anchors": ["src/line.rs: LineSegment::split"]}
{"id": "C05", "title": "LineSegment::distance_to_point is the distance to the nearest point of the segment", "statement": "The returned number equals the minimum over u in [0,1] of the Euclidean distance from p to eval(u).", "quantifier": "every segment and query point in every dimension", "why_tests_cant": "A minimum over a continuum, for a continuum of inputs.", "anchors": ["src/line.rs: LineSegment::distance_to_point"]}
{"id": "C06", "title": "LineSegment::distance_to_point never underestimates", "statement": "The returned number is always the distance from p to some point of the segment, so it is never smaller than the true distance.", "quantifier": "every segment and query point in every dimension", "why_tests_cant": "Universally quantified inequality over the reals.", "anchors": ["src/line.rs: LineSegment::distance_to_point"]}
{"id": "C07", "title": "LineSegment::bounding_box is the exact box of the segment", "statement": "On each axis the returned pair (lo, hi) satisfies lo <= eval(t).axis(i) <= hi for every t in [0,1] and both bounds are attained.", "quantifier": "every segment, dimension, axis and parameter in [0,1]", "why_tests_cant": "Containment of a continuum of points.", "anchors": ["src/line.rs: LineSegment::bounding_box"]}
{"id": "C08", "title": "LineSegment::derivative and axis agree with eval", "statement": "derivative() is the derivative of t -> eval(t) at every t, and axis(t,i) == eval(t).axis(i).", "quantifier": "every segment, parameter and axis", "why_tests_cant": "A limit statement at every parameter.", "anchors": ["src/line.rs: LineSegment::derivative, LineSegment::axis"]}
{"id": "C09", "title": "QuadraticBezier eval and eval_casteljau both compute the Bernstein polynomial", "statement": "eval(t) == eval_casteljau(t) == (1-t)^2 start + 2t(1-t) ctrl + t^2 end in exact arithmetic; eval(0)=start, eval(1)=end.", "quantifier": "every quadratic curve, dimension and real parameter", "why_tests_cant": "Polynomial identity over all reals.", "anchors": ["src/quadratic_bezier.rs: eval, eval_casteljau"]}
{"id": "C10", "title": "QuadraticBezier::split reproduces the curve", "statement": "If (l,r)=c.split(t) then l.eval(u)=c.eval(t*u) and r.eval(u)=c.eval(t+u*(1-t)) for all u.", "quantifier": "every curve, split parameter and sampling parameter", "why_tests_cant": "The test fixes one curve and t=0.5.", "anchors": ["src/quadratic_bezier.rs: split"]}
{"id": "C11", "title": "QuadraticBezier::derivative is the derivative", "statement": "derivative().eval(t) is the derivative of eval at t, on every axis.", "quantifier": "every curve, parameter and axis", "why_tests_cant": "A limit at every parameter.", "anchors": ["src/quadratic_bezier.rs: derivative"]}
{"id": "C12", "title": "QuadraticBezier::dd and axis are the advertised shortcuts", "statement": "dd(t,i) == derivative().eval(t).axis(i) and axis(t,i) == eval(t).axis(i).", "quantifier": "every curve, parameter and axis", "why_tests_cant": "Identity over all reals; no test covers dd.", "anchors": ["src/quadratic_bezier.rs: dd, axis"]}
{"id": "C13", "title": "QuadraticBezier::bounding_box contains the curve", "statement": "For every t in [0,1] and axis i, bounds[i].0 <= eval(t).axis(i) <= bounds[i].1, up to a slack of EPSILON caused by treating |a| < EPSILON as no extremum.", "quantifier": "every curve, axis and parameter in [0,1]", "why_tests_cant": "Containment of a continuum; the test samples 100 parameters of one curve with 1e-2 slack.", "anchors": ["src/quadratic_bezier.rs: bounding_box", "src/line.rs: LineSegment::root"]}
{"id": "C14", "title": "QuadraticBezier::bounding_box is tight", "statement": "Each returned bound is a coordinate actually taken by the curve at some t in [0,1].", "quantifier": "every curve and axis", "why_tests_cant": "Existential over a continuum for all curves.", "anchors": ["src/quadratic_bezier.rs: bounding_box"]}
{"id": "C15", "title": "is_linear(tol) is sound for quadratic and cubic curves", "statement": "If is_linear(tol) returns true then every point of the curve (t in [0,1]) is within tol of the baseline segment.", "quantifier": "every curve, tolerance and parameter in [0,1]", "why_tests_cant": "Quantifies over all curve points and all tolerances.", "anchors": ["src/quadratic_bezier.rs: is_linear", "src/cubic_bezier.rs: is_linear"]}
{"id": "C16", "title": "is_linear accepts every curve whose control points lie within tol of the baseline segment", "statement": "If start and end are distinct (squared distance at least EPSILON) and all inner control points are within tol of the baseline segment, is_linear(tol) returns true.", "quantifier": "every curve and tolerance", "why_tests_cant": "Completeness over all control polygons.", "anchors": ["src/quadratic_bezier.rs: is_linear", "src/cubic_bezier.rs: is_linear", "src/line.rs: distance_to_point"]}
{"id": "C17", "title": "is_a_point(tol) bounds the whole curve", "statement": "is_a_point(tol) is true exactly when the listed control point distances are at most |tol|, and then every curve point is within |tol| (quadratic) or 2|tol| (cubic) of start.", "quantifier": "every curve, tolerance and parameter in [0,1]", "why_tests_cant": "Quantifies over all curve points.", "anchors": ["src/quadratic_bezier.rs: is_a_point", "src/cubic_bezier.rs: is_a_point"]}
{"id": "C18", "title": "CubicBezier eval and eval_casteljau both compute the Bernstein polynomial", "statement": "eval(t) == eval_casteljau(t) == (1-t)^3 start + 3t(1-t)^2 ctrl1 + 3t^2(1-t) ctrl2 + t^3 end in exact arithmetic; the end points are interpolated.", "quantifier": "every cubic curve, dimension and real parameter", "why_tests_cant": "Polynomial identity over all reals.", "anchors": ["src/cubic_bezier.rs: eval, eval_casteljau"]}
{"id": "C19", "title": "CubicBezier::split reproduces the curve", "statement": "If (l,r)=c.split(t) then l.eval(u)=c.eval(t*u) and r.eval(u)=c.eval(t+u*(1-t)) for all u.", "quantifier": "every curve, split parameter and sampling parameter", "why_tests_cant": "The test fixes one curve and t=0.5.", "anchors": ["src/cubic_bezier.rs: split"]}
{"id": "C20", "title": "CubicBezier::derivative is the derivative", "statement": "derivative().eval(t) is the derivative of eval at t, on every axis.", "quantifier": "every curve, parameter and axis", "why_tests_cant": "A limit at every parameter.", "anchors": ["src/cubic_bezier.rs: derivative"]}
{"id": "C21", "title": "CubicBezier::dd is the advertised shortcut for derivative().eval(t).axis(i)", "statement": "dd(t,i) == derivative().eval(t).axis(i) for all t and i.", "quantifier": "every curve, parameter and axis", "why_tests_cant": "Identity over all reals; no test covers dd.", "anchors": ["src/cubic_bezier.rs: dd"]}
{"id": "C22", "title": "CubicBezier::bounding_box contains the curve", "statement": "For every t in [0,1] and axis i, eval(t).axis(i) lies in bounds[i] up to a slack of a small multiple of EPSILON caused by the EPSILON thresholds of the root finder.", "quantifier": "every curve, axis and parameter in [0,1]", "why_tests_cant": "Containment of a continuum; the test samples one curve with 1e-2 slack.", "anchors": ["src/cubic_bezier.rs: bounding_box", "src/quadratic_bezier.rs: real_roots"]}
{"id": "C23", "title": "CubicBezier::bounding_box is tight", "statement": "Each returned bound is a coordinate actually taken by the curve at some t in [0,1].", "quantifier": "every curve and axis", "why_tests_cant": "Existential over a continuum for all curves.", "anchors": ["src/cubic_bezier.rs: bounding_box"]}
{"id": "C24", "title": "CubicBezier::axis equals eval(t).axis(i)", "statement": "axis(t,i) == eval(t).axis(i) for every t and i, in exact arithmetic; it panics exactly when i is not a coordinate index.", "quantifier": "every curve, parameter and axis", "why_tests_cant": "Identity over all reals.", "anchors": ["src/cubic_bezier.rs: axis"]}
{"id": "C25", "title": "baseline and control_points return the curve's own points", "statement": "baseline() joins eval(0) to eval(1); control_points() lists the constructor's arguments in order, so rebuilding a curve from it gives the same curve.", "quantifier": "every quadratic, cubic and generic curve", "why_tests_cant": "Universal round trip.", "anchors": ["src/quadratic_bezier.rs: baseline, control_points", "src/cubic_bezier.rs: baseline, control_points", "src/bezier.rs: control_points"]}
{"id": "C26", "title": "Generic Bezier::eval is the Bernstein form for every degree", "statement": "For a curve with N >= 1 control points eval(t) = sum_i binom(N-1,i) t^i (1-t)^(N-1-i) P_i; no index is out of range.", "quantifier": "every N >= 1, control polygon, dimension and real parameter", "why_tests_cant": "All degrees at once.", "anchors": ["src/bezier.rs: eval"]}
{"id": "C27", "title": "Generic Bezier interpolates its end points", "statement": "eval(0) is the first control point and eval(1) the last.", "quantifier": "every N >= 1 and control polygon", "why_tests_cant": "All degrees at once.", "anchors": ["src/bezier.rs: eval"]}
{"id": "C28", "title": "Generic Bezier::split reproduces the curve for every degree", "statement": "If (l,r)=c.split(t) then l.eval(u)=c.eval(t*u) and r.eval(u)=c.eval(t+u*(1-t)) for all u, and both halves have N control points.", "quantifier": "every N >= 1, curve, split parameter and sampling parameter", "why_tests_cant": "All degrees at once; the test fixes N=4 and t=0.5.", "anchors": ["src/bezier.rs: split"]}
{"id": "C29", "title": "Generic Bezier::derivative is the derivative for every degree", "statement": "For N >= 2, derivative() has N-1 control points and derivative().eval(t) is the derivative of eval at t on every axis.", "quantifier": "every N >= 2, curve, parameter and axis", "why_tests_cant": "All degrees at once; no test covers derivative.", "anchors": ["src/bezier.rs: derivative"]}
{"id": "C30", "title": "Generic Bezier operations do not panic", "statement": "eval, split and derivative return for every curve that can be constructed.", "quantifier": "every N and curve", "why_tests_cant": "Quantifies over all N including the degenerate ones.", "anchors": ["src/bezier.rs: eval, split, derivative"]}
{"id": "C31", "title": "Generic and specialised types agree", "statement": "Bezier with 2, 3, 4 control points evaluates, splits and differentiates exactly like LineSegment (evaluation and derivative), QuadraticBezier and CubicBezier.", "quantifier": "every control polygon and parameter", "why_tests_cant": "The tests compare one curve each at 1001 parameters, eval only.", "anchors": ["src/bezier.rs: eval, split, derivative", "src/quadratic_bezier.rs", "src/cubic_bezier.rs", "src/line.rs"]}
{"id": "C32", "title": "Curves stay in the convex hull of their control points", "statement": "For t in [0,1], eval(t) is a convex combination of the control points, hence within their coordinate-wise range.", "quantifier": "every curve of every degree and parameter in [0,1]", "why_tests_cant": "Continuum of parameters, all degrees.", "anchors": ["src/bezier.rs: eval", "src/quadratic_bezier.rs: eval", "src/cubic_bezier.rs: eval", "src/line.rs: eval"]}
{"id": "C33", "title": "Curves are affinely invariant and reversible", "statement": "Applying an affine map (scaling plus translation) to the control points applies it to every curve point; reversing the control points gives t -> eval(1-t).", "quantifier": "every curve of every degree, map and parameter", "why_tests_cant": "Universal identity.", "anchors": ["src/bezier.rs: eval"]}
{"id": "C34", "title": "arclen(n) is the length of the n-chord polyline", "statement": "arclen(n) equals the sum over i in 0..n of |eval((i+1)/n) - eval(i/n)|, the linear approximation with n straight segments.", "quantifier": "every curve type, curve and step count n >= 1", "why_tests_cant": "Quantifies over all step counts and curves; the only test allows 1e-2 at n=1000.", "anchors": ["src/quadratic_bezier.rs: arclen", "src/cubic_bezier.rs: arclen", "src/bezier.rs: arclen"]}
{"id": "C35", "title": "arclen never exceeds the true arc length and converges to it", "statement": "arclen(n) is at most the integral of |B'| over [0,1], and tends to it as n grows: the deficit is at most g^2 L/n for degree g and control legs of length at most L. Where the speed stays at least v > 0, all but the missing first chord of that deficit is O(1/n^2).", "quantifier": "every curve, every n", "why_tests_cant": "A limit statement.", "anchors": ["src/quadratic_bezier.rs: arclen", "src/cubic_bezier.rs: arclen", "src/bezier.rs: arclen"]}
{"id": "C36", "title": "distance_to_point of a curve never underestimates", "statement": "The result is at least the minimum over t in [0,1] of the distance from the query point to eval(t).", "quantifier": "every curve and query point", "why_tests_cant": "Minimum over a continuum.", "anchors": ["src/bezier.rs: distance_to_point", "src/quadratic_bezier.rs: distance_to_point", "src/cubic_bezier.rs: distance_to_point"]}
{"id": "C37", "title": "distance_to_point of a curve overestimates by at most the coarse step", "statement": "The result is at most the distance to eval(t) plus L/64 for every t in [0,1], where L is degree times the longest control polygon leg; in particular it is at most the distance to each of the 64 coarse samples and to the start point.", "quantifier": "every curve, query point and t in [0,1]", "why_tests_cant": "Continuum of t, all curves.", "anchors": ["src/bezier.rs: distance_to_point", "src/quadratic_bezier.rs: distance_to_point", "src/cubic_bezier.rs: distance_to_point"]}
{"id": "C38", "title": "BSpline::new accepts exactly the valid inputs", "statement": "new returns Ok exactly when C > D, K = C + D + 1 and no knot is greater than its successor; otherwise it returns TooFewControlPoints, TooFewKnots, TooManyKnots or DecreasingKnots, in that order of precedence. It never panics and stores knots and control points unchanged.", "quantifier": "every K, C, D, knot vector and control polygon", "why_tests_cant": "All sizes and orders.", "anchors": ["src/bspline.rs: BSpline::new"]}
{"id": "C39", "title": "A constructed BSpline has a non-decreasing knot vector", "statement": "Every spline returned by new has knots[i] <= knots[j] for all i <= j.", "quantifier": "every accepted knot vector, including NaN and infinite knots", "why_tests_cant": "NaN comparisons and all lengths.", "anchors": ["src/bspline.rs: BSpline::new"]}
{"id": "C40", "title": "knot_domain is [knots[D], knots[C]]", "statement": "The domain on which a degree D spline over C control points is defined runs from knots[D] to knots[C]; knot_domain returns it.", "quantifier": "every accepted spline of every clamping kind", "why_tests_cant": "All sizes and kinds.", "anchors": ["src/bspline.rs: knot_domain and its four helpers"]}
{"id": "C41", "title": "eval rejects exactly the parameters outside knot_domain", "statement": "eval(t) is Err(KnotDomainViolation) when t is outside the inclusive range returned by knot_domain, and is never that error when t is inside.", "quantifier": "every accepted spline and parameter", "why_tests_cant": "All knot vectors and parameters.", "anchors": ["src/bspline.rs: eval"]}
{"id": "C42", "title": "eval of a clamped BSpline never panics and always terminates", "statement": "For a spline classified as clamped at both ends, eval returns (a point or an error) for every parameter whatever its bits, including NaN and infinities, for every knot vector accepted by new, including NaN knots.", "quantifier": "every C, D, knot vector and parameter, under any comparison semantics", "why_tests_cant": "Index arithmetic over all sizes and all float bit patterns.", "anchors": ["src/bspline.rs: eval, de_boor_iterative, knot_span_start_for_t_clamped"]}
{"id": "C43", "title": "eval never panics for a parameter inside knot_domain", "statement": "For every spline accepted by new and every t inside knot_domain, eval returns a point without panicking.", "quantifier": "every accepted spline and parameter in its domain", "why_tests_cant": "All sizes, kinds and parameters.", "anchors": ["src/bspline.rs: eval, de_boor_iterative, knot_span_start_for_t*"]}
{"id": "C44", "title": "eval computes the B-spline curve", "statement": "For t in the domain eval(t) = sum_i N_{i,D}(t) P_i with the Cox-de Boor basis functions of the knot vector.", "quantifier": "every accepted spline and parameter in its domain", "why_tests_cant": "Universal functional correctness; the tests only look at end points and at is_ok.", "anchors": ["src/bspline.rs: de_boor_iterative"]}
{"id": "C45", "title": "A clamped BSpline starts and ends at its first and last control point", "statement": "For a clamped spline eval(kmin) is the first control point and eval(kmax) the last.", "quantifier": "every clamped spline", "why_tests_cant": "All sizes and knot vectors.", "anchors": ["src/bspline.rs: eval, de_boor_iterative"]}
{"id": "C46", "title": "eval of a NaN parameter is an error", "statement": "eval(NaN) returns Err(KnotDomainViolation), never a point, for every spline with finite knots.", "quantifier": "every accepted spline", "why_tests_cant": "All sizes and kinds.", "anchors": ["src/bspline.rs: eval"]}
{"id": "C47", "title": "BSpline::derivative is the derivative spline", "statement": "derivative() has degree D-1, C-1 control points, a knot vector of matching length (K = C + D + 1 holds for it too) and evaluates to the derivative of the spline.", "quantifier": "every accepted spline with D >= 1 and parameter", "why_tests_cant": "All sizes; the source says TODO test & verify.", "anchors": ["src/bspline.rs: derivative"]}
{"id": "C48", "title": "BSpline::arclen approximates the length of the curve", "statement": "arclen(n) is the length of a polyline through points of the curve; it does not depend on where the origin is.", "quantifier": "every spline and step count", "why_tests_cant": "Universal; no test covers it.", "anchors": ["src/bspline.rs: arclen"]}
{"id": "C49", "title": "Knot span searches terminate and return the span containing t", "statement": "The binary search terminates for every knot vector and parameter, and for t in the domain returns an index k with D <= k < C and knots[k] <= t < knots[k+1].", "quantifier": "every accepted spline, kind and parameter", "why_tests_cant": "Termination and all sizes.", "anchors": ["src/bspline.rs: knot_span_start_for_t_unclamped, _clamped, _clamped_start, _clamped_end"]}
{"id": "C50", "title": "Local control", "statement": "For t in the span [knots[k], knots[k+1]) of a clamped spline, eval(t) depends only on control points k-D..k.", "quantifier": "every clamped spline, parameter and change of other control points", "why_tests_cant": "Relates all pairs of control polygons.", "anchors": ["src/bspline.rs: de_boor_iterative"]}
{"id": "C51", "title": "BezierSegment behaves like the curve it wraps", "statement": "eval, start, end, baseline, is_linear and split of a BezierSegment equal those of the wrapped curve; start() is eval(0), end() is eval(1).", "quantifier": "every segment of every kind and parameter", "why_tests_cant": "All variants and parameters.", "anchors": ["src/bezier_segment.rs: BezierSegment"]}
{"id": "C52", "title": "BezierSegment::split keeps the kind and reproduces the curve", "statement": "Both halves have the kind of the original; left.eval(u)=eval(t*u), right.eval(u)=eval(t+u(1-t)).", "quantifier": "every segment of every kind, t and u", "why_tests_cant": "All variants and parameters.", "anchors": ["src/bezier_segment.rs: split"]}
{"id": "C53", "title": "End point evaluation is exact in floating point", "statement": "In IEEE 754 arithmetic with rounding to nearest, Bezier::eval and CubicBezier::eval return exactly the first control point at t = 0 and exactly the last at t = 1, for every finite control polygon.", "quantifier": "every degree, every finite float control polygon", "why_tests_cant": "All 2^64 bit patterns per coordinate.", "anchors": ["src/bezier.rs: eval", "src/cubic_bezier.rs: eval"]}
{"id": "C54", "title": "Generic evaluation is numerically stable", "statement": "For t in [0,1] and finite control points of magnitude at most M (far from overflow), every coordinate of Bezier::eval(t) in IEEE arithmetic differs from the exact Bezier point by at most a small multiple of N*u*M (u the unit roundoff) plus underflow terms.", "quantifier": "every degree, float control polygon and float t in [0,1]", "why_tests_cant": "A worst-case bound over all floats.", "anchors": ["src/bezier.rs: eval"]}
{"id": "C55", "title": "Specialised evaluation is accurate in floating point", "statement": "For t in [0,1] and control points of magnitude at most M, LineSegment, QuadraticBezier and CubicBezier eval and eval_casteljau are within a fixed multiple of u*M of the exact point.", "quantifier": "every float curve and float t in [0,1]", "why_tests_cant": "A worst-case bound over all floats.", "anchors": ["src/line.rs: eval", "src/quadratic_bezier.rs: eval, eval_casteljau", "src/cubic_bezier.rs: eval, eval_casteljau"]}
{"id": "C56", "title": "bounding_box does not panic on finite curves", "statement": "LineSegment::bounding_box never panics; QuadraticBezier and CubicBezier bounding_box do not panic (the sort's unwrap never sees NaN) when all control point coordinates are finite floats, even if intermediate results overflow.", "quantifier": "every curve with finite float coordinates", "why_tests_cant": "All float bit patterns, overflow cases included.", "anchors": ["src/quadratic_bezier.rs: bounding_box", "src/cubic_bezier.rs: bounding_box", "src/line.rs: bounding_box"]}
{"id": "C57", "title": "bounding_box panics when an end point coordinate is NaN", "statement": "For quadratic and cubic curves with a NaN coordinate in start or end, bounding_box panics rather than returning a wrong box.", "quantifier": "every such curve", "why_tests_cant": "All float bit patterns.", "anchors": ["src/quadratic_bezier.rs: bounding_box", "src/cubic_bezier.rs: bounding_box"]}
{"id": "C58", "title": "Quadratic root finding is sound and complete", "statement": "The roots returned for a*t^2+b*t+c are exactly its real roots whenever the EPSILON thresholds do not apply, at most two, in the order (-b-sqrt)/(2a), (-b+sqrt)/(2a).", "quantifier": "all real coefficients", "why_tests_cant": "Universal over coefficients.", "anchors": ["src/quadratic_bezier.rs: real_roots", "src/roots.rs: roots_square"]}
{"id": "C59", "title": "Cubic root finding returns roots", "statement": "Every value returned by the Cardano solver is a root of a*t^3+b*t^2+c*t+d, and every real root is returned.", "quantifier": "all real coefficients with |a| >= EPSILON", "why_tests_cant": "Universal over coefficients.", "anchors": ["src/roots.rs: roots_cubic", "src/cubic_bezier.rs: real_roots"]}
{"id": "C60", "title": "Clamping of alpha keeps B-spline evaluation a convex combination", "statement": "For a clamped spline every interpolation weight used by eval lies in [0,1], so each coordinate of the result stays in the range spanned by the contributing control points and the origin.", "quantifier": "every clamped spline and parameter in the domain", "why_tests_cant": "Universal over knots and parameters.", "anchors": ["src/bspline.rs: de_boor_iterative"]}
{"id": "C61", "title": "BSpline::new classifies the knot vector correctly", "statement": "The stored kind is clamped at the start exactly when knots[D] - knots[0] < EPSILON and clamped at the end exactly when knots[K-1] - knots[C] < EPSILON; Clamped means both, Unclamped neither.", "quantifier": "every accepted spline", "why_tests_cant": "All knot vectors of all sizes; the kind is private and selects three different code paths.", "anchors": ["src/bspline.rs: new"]}
{"id": "C62", "title": "A returned bounding box contains both end points, in floating point", "statement": "Whenever bounding_box of a quadratic or cubic curve returns (and always for a line without NaN coordinates), on every axis lo <= start, start <= hi, lo <= end and end <= hi as float comparisons.", "quantifier": "every float curve, including infinite coordinates and overflowing extrema", "why_tests_cant": "All bit patterns; overflow inside the root finder.", "anchors": ["src/line.rs: bounding_box", "src/quadratic_bezier.rs: bounding_box", "src/cubic_bezier.rs: bounding_box"]}
{"id": "C63", "title": "Line and quadratic evaluation reproduce the end points in floating point", "statement": "QuadraticBezier::eval and LineSegment::eval return exactly the start point at t = 0 and exactly the end point at t = 1.", "quantifier": "every finite float curve", "why_tests_cant": "All bit patterns per coordinate.", "anchors": ["src/line.rs: eval", "src/quadratic_bezier.rs: eval"]}
{"id": "C64", "title": "Solving for a coordinate value finds the parameters", "statement": "solve_t_for_axis(value, axis) returns exactly the parameters in [0,1] at which the curve's coordinate on that axis equals value.", "quantifier": "every quadratic and cubic whose end points differ, axis and value", "why_tests_cant": "Universal over curves and values.", "anchors": ["src/quadratic_bezier.rs: solve_t_for_axis", "src/cubic_bezier.rs: solve_t_for_axis"]}
{"id": "C65", "title": "B-spline evaluation returns finite points in floating point", "statement": "If the knot vector is clamped at one end or both and all knots are finite of magnitude at most MAX/2, then for every parameter in [knots[D], knots[C]] eval returns Ok with finite coordinates, of magnitude at most M(1 + 6*D*u) + 5*D*eta for control points of magnitude at most M, never EvaluationAlphaIsNaN; at knots[C] the result is the last control point, bit for bit.", "quantifier": "every binary format with at least 11 bits, degree D with 6*D*u <= 1, spline with 4M <= MAX, and parameter", "why_tests_cant": "All bit patterns; overflow and 0/0 inside the weights.", "anchors": ["src/bspline.rs: eval", "src/bspline.rs: de_boor_iterative"]}
{"id": "C66", "title": "Rounding error of B-spline evaluation", "statement": "Under the conditions of C65, at a parameter that is at, or at least EPSILON past, each knot below it, eval differs from the exact value of the curve it computes (the Cox-de Boor sum without the term of the last contributing control point, see C44) by at most 15*D*u*M + 5*D*eta per coordinate.", "quantifier": "every binary format with at least 11 bits, degree D with 6*D*u <= 1, spline with 4M <= MAX, and parameter", "why_tests_cant": "Universal error bound over all bit patterns.", "anchors": ["src/bspline.rs: eval", "src/bspline.rs: de_boor_iterative"]}
{"id": "C67", "title": "Splitting a Bezier curve in floating point", "statement": "split at a finite t in [0,1] of a quadratic, cubic or N-point Bezier whose coordinates are finite and at most M (4M <= largest float) gives two curves with finite control points. They share the split point and keep the outer end points bit for bit. For every s in [0,1] the exact curve through the left half's control points at s is within 11uM+3eta (cubic: 16uM+4eta, degree n: 6n*uM+5n*eta) of the original exact curve at t*s, and the right half likewise at t+s(1-t).", "quantifier": "every binary format with at least 11 bits, every dimension, curve (of degree n with 6*n*u <= 1), t and s", "why_tests_cant": "Universal bound over all bit patterns and all parameters of both halves; tests only compare sampled points of one curve.", "anchors": ["src/quadratic_bezier.rs: split", "src/cubic_bezier.rs: split", "src/bezier.rs: split"]}
{"id": "C68", "title": "Derivative curves in floating point", "statement": "derivative of a line, quadratic, cubic or N-point Bezier with finite coordinates of size at most M has finite control points, and the exact curve through them is within 2uM (line), 10uM+eta, 15uM+eta, 5n*uM+eta of the derivative (the calculus limit) of the exact original curve at every s in [0,1].", "quantifier": "every binary format with at least 11 bits, every dimension, curve and s", "why_tests_cant": "Universal bound over bit patterns; the reference is an analytic derivative.", "anchors": ["src/line.rs: derivative", "src/quadratic_bezier.rs: derivative", "src/cubic_bezier.rs: derivative", "src/bezier.rs: derivative"]}
{"id": "C69", "title": "arclen in floating point", "statement": "arclen(n) of a quadratic, cubic or N-point Bezier with bounded finite coordinates and 1 <= n <= 1/(4u) never overflows or returns NaN, is not negative, evaluates the curve only at parameters in [0,1] (the computed i/n and i/n + 1/n), and differs from the exact length of the polyline through the exact curve points at 1/n, 2/n, ..., 1 by at most 2n*sqrt(D)*((6D+44g+14)uM + 6 sqrt(eta)) where g is the degree and D the dimension. Against the true arc length of the exact curve the error is that plus at most g^2 L/n.", "quantifier": "every binary format with at least 11 bits, every dimension D and curve of degree g with 64(D+1)u <= 1, 6gu <= 1 and (12(D+g)(M+1))^2 <= MAX, and number of steps", "why_tests_cant": "Universal error bound including the accumulation over n steps and rounding of the parameters i/n + 1/n.", "anchors": ["src/quadratic_bezier.rs: arclen", "src/cubic_bezier.rs: arclen", "src/bezier.rs: arclen"]}
{"id": "C70", "title": "distance_to_point in floating point", "statement": "distance_to_point of a quadratic, cubic or N-point Bezier, for finite bounded control points and query point, is finite and not negative, and for every x in [0,1] exceeds the distance from the query point to the exact curve point at x by at most sqrt(D)*(gM/32 + (6D+44g+14)uM + 6 sqrt(eta)), although the second search pass may evaluate outside [0,1].", "quantifier": "every binary format with at least 11 bits, every dimension D and curve of degree g with 64(D+1)u <= 1, 6gu <= 1 and (12(D+g)(M+1))^2 <= MAX, query point and curve parameter", "why_tests_cant": "Universal bound over bit patterns and over the whole curve, not only the sampled parameters.", "anchors": ["src/quadratic_bezier.rs: distance_to_point", "src/cubic_bezier.rs: distance_to_point", "src/bezier.rs: distance_to_point"]}
{"id": "C71", "title": "The parameters for which BSpline::eval panics", "statement": "For a spline accepted by new: ClampedStart panics exactly for t in [knots[C+1], knots[C+D]) other than knots[C]; ClampedEnd exactly for t in [knots[0], knots[D]); Unclamped exactly when every index of at most C probed by the right-only search has its span end at or before t; everywhere else in the reported domain a point is returned.", "quantifier": "every accepted spline of a kind other than Clamped (which never panics inside its domain, see C43) and every real parameter", "why_tests_cant": "An equivalence over all parameters and sizes; the panic range of the unclamped search depends on the number of knots.", "anchors": ["src/bspline.rs: eval, de_boor_iterative, knot_span_start_for_t_unclamped, _clamped_start, _clamped_end"]}
{"id": "C72", "title": "Boxes of segments and quadratics in floating point", "statement": "In floating point the bounding box of a segment with finite end points holds the exact segment and both bounds are end points. The box of a quadratic with coordinates of size at most M is returned without a panic, holds the exact curve of the given control points up to EPSILON/8 + 54uM + 9eta on every axis, and each bound is within 11uM + 3eta of a value of the curve.", "quantifier": "every binary format with at least 11 bits, every dimension, every segment and quadratic whose vertex parameter cannot overflow", "why_tests_cant": "A claim about every point of the curve and every bit pattern; sampled points inside the box do not show it.", "anchors": ["src/line.rs: bounding_box, root", "src/quadratic_bezier.rs: bounding_box"]}
{"id": "C73", "title": "Boxes of cubics in floating point", "statement": "In floating point the bounding box of a cubic with coordinates of size at most M holds the exact curve up to a small multiple of uM.", "quantifier": "every binary format with at least 11 bits, every dimension and cubic", "why_tests_cant": "The failing curves are degree-elevated parabolas with decimal coordinates: the cubic coefficient is pure rounding noise just above EPSILON and the quadratic formula cancels; random tests do not hit them.", "anchors": ["src/cubic_bezier.rs: bounding_box", "src/quadratic_bezier.rs: real_roots"]}
{"id": "C74", "title": "Four cubics draw the unit circle within 0.019608 percent", "statement": "With the constant of the crate's test, every point eval(t), t in [0,1], of each of the four quadrant cubics is within 0.00019608 of the unit circle, and the middle point is off by at least 0.00019607. In floating point the same holds up to 128u, and in f64 the assertion of circle_approximation_error holds for every f64 parameter in [0,1].", "quantifier": "every real parameter in [0,1]; every finite float parameter in [0,1]; every constant within the test literal's rounding", "why_tests_cant": "The test samples 1001 parameters; the extremum of a degree 6 polynomial is needed, and the margin is about 1e-9.", "anchors": ["src/cubic_bezier.rs: circle_approximation_error, eval"]}
{"id": "C75", "title": "The circumference of the four quadrant cubics is 2 pi to two places", "statement": "For every number of steps from 1000 on the four arclen results sum to within 0.01 of 2 pi; in f64 for every number of steps from 1000 to 10^9, sums included.", "quantifier": "every number of steps", "why_tests_cant": "The test uses 1000 steps only; a bound for all step counts needs the error of the chords and the accumulated rounding.", "anchors": ["src/cubic_bezier.rs: circle_circumference_approximation, arclen"]}
{"id": "C76", "title": "Repeated halving", "statement": "k rounds of split(1/2) turn a quadratic, cubic or N-point Bezier into 2^k pieces of the same degree; piece i is the curve over [i/2^k,(i+1)/2^k], its control polygon has legs 2^k times and second differences 4^k times smaller, is_a_point(tol) holds from 2^k >= (legs)/tol on, is_linear(tol) as long as the chord is not below sqrt(EPSILON) and never below it, and the curve stays within (second difference)/2/4^k (quadratic; 3/2 for a cubic) of the chords returned by baseline.", "quantifier": "every curve, every number of rounds, every tolerance, every parameter", "why_tests_cant": "Statement over all depths of a recursion and all curve points; the case in which flattening on is_linear alone never stops needs pieces shorter than 1.5e-8.", "anchors": ["src/quadratic_bezier.rs: split, is_linear, is_a_point, baseline", "src/cubic_bezier.rs: split, is_linear, is_a_point, baseline", "src/bezier.rs: split"]}
{"id": "C77", "title": "Arc length under refinement, split and reversal", "statement": "arclen(n) <= arclen(n*m) <= true length <= length of the control polygon; the true length is at least the distance of the end points, is the sum of the lengths of the two halves of split, and does not change when the control points are reversed, whereas arclen changes by the difference of the last and first chord.", "quantifier": "every quadratic, cubic and N-point Bezier, every n, m >= 1, every split parameter in [0,1]", "why_tests_cant": "Relates results for infinitely many step counts to an integral; tests compare single values with a tolerance.", "anchors": ["src/quadratic_bezier.rs: arclen, split", "src/cubic_bezier.rs: arclen, split", "src/bezier.rs: arclen, split"]}
{"id": "C78", "title": "Moving, turning, mirroring, scaling and embedding curves", "statement": "eval and split commute with every affine map between point types (also of different dimension); arclen, distance_to_point and the tolerance of is_a_point scale with every similarity; the distance to a segment and is_linear do as long as the scaled chord stays on its side of EPSILON, so always for isometries; bounding boxes move with a translated curve.", "quantifier": "every curve, parameter, step count, tolerance and query point, every affine map, similarity or translation", "why_tests_cant": "Quantifies over all maps and curves; the chords for which scaling fails are shorter than 1.5e-8.", "anchors": ["src/line.rs: eval, distance_to_point, bounding_box", "src/quadratic_bezier.rs: eval, split, arclen, distance_to_point, is_linear, is_a_point, bounding_box", "src/cubic_bezier.rs: eval, split, arclen, distance_to_point, is_linear, is_a_point, bounding_box", "src/bezier.rs: eval, split, arclen, distance_to_point"]}
{"id": "C79", "title": "B-splines move with their control points", "statement": "Applying an affine map to the control points of a B-spline applies it to every evaluated point.", "quantifier": "every spline, parameter and affine map", "why_tests_cant": "Quantifies over all maps; each test fixes one set of control points.", "anchors": ["src/bspline.rs: new, eval, de_boor_iterative, derivative, arclen"]}
{"id": "C80", "title": "Distance to a line segment in floating point", "statement": "For finite coordinates the computed distance_to_point of a segment is finite and is, up to an explicit rounding error, the distance to some point of the segment, so it never underestimates the true distance by more; it is the true distance whenever the perpendicular meets the line before the end, and the distance to the start when it meets it beyond the end.", "quantifier": "every binary format with at least 11 bits, dimension D with 64(D+1)u <= 1, segment and point with coordinates up to M, 64(D+1)(M+1)^2 <= MAX", "why_tests_cant": "The projection parameter is a rounded quotient that may be NaN or infinite; tests compare a handful of values with a tolerance.", "anchors": ["src/line.rs: distance_to_point"]}
{"id": "C81", "title": "Flatness tests in floating point", "statement": "A quadratic or cubic accepted by is_linear in floating point lies, as an exact curve, within the tolerance plus a rounding error of its baseline; one accepted by is_a_point lies within the tolerance (twice for cubics) of its start. Both accept curves that satisfy the condition with a margin of the same size.", "quantifier": "every binary format with at least 11 bits, dimension D with 64(D+1)u <= 1, curve with coordinates up to M, 64(D+1)(M+1)^2 <= MAX, tolerance, and every parameter of the exact curve", "why_tests_cant": "Tests evaluate the predicate on a few curves and never relate it to all points of the curve.", "anchors": ["src/quadratic_bezier.rs: is_linear, are_points_colinear, is_a_point", "src/cubic_bezier.rs: is_linear, are_points_colinear, is_a_point"]}
{"id": "C82", "title": "The assertions of the crate's tests, for every curve and parameter", "statement": "In floating point, eval and eval_casteljau of a quadratic or cubic, the specialised and the generic evaluation, and the halves of split against the whole curve (at any split parameter, in particular the expressions t / 2 and t * 0.5 + 0.5 used at 0.5) pass the comparison (p - q).squared_length() < EPSILON; points evaluated on a quadratic pass the containment test axis >= lo - e && axis <= hi + e for every tolerance e of at least 70 roundoffs.", "quantifier": "every binary format, dimension, curve with coordinates up to M (M^2 small against 1/EPSILON), every parameter and split parameter in [0,1]", "why_tests_cant": "The tests of the crate assert this for a handful of curves at 101 or 1001 parameters and one split parameter.", "anchors": ["src/quadratic_bezier.rs: eval, eval_casteljau, split, bounding_box", "src/cubic_bezier.rs: eval, eval_casteljau, split", "src/bezier.rs: eval, split"]}
{"id": "C83", "title": "The same curve with one more control point", "statement": "Degree elevation, q_j = j/n p_(j-1) + (1 - j/n) p_j for n control points, does not change what any method reports: eval, arclen and distance_to_point agree, split and derivative of the raised curve are the raised halves and the raised derivative, and a segment raised to a quadratic, or a quadratic raised to a cubic, keeps its bounding box exactly.", "quantifier": "every segment, quadratic and N-point Bezier, every parameter, step count and query point", "why_tests_cant": "Relates the implementations for two different degrees at all parameters; no test compares curves of different degree.", "anchors": ["src/bezier.rs: eval, split, derivative, arclen, distance_to_point", "src/quadratic_bezier.rs: eval, split, derivative, arclen, distance_to_point, bounding_box", "src/cubic_bezier.rs: eval, split, derivative, arclen, distance_to_point, bounding_box", "src/line.rs: eval, bounding_box"]}
{"id": "C84", "title": "A curve is determined by as many of its points as it has control points", "statement": "Two curves with n control points whose eval agrees at n distinct parameters have the same control points (2 for a segment, 3 for a quadratic, 4 for a cubic); a curve with n+1 control points agreeing with one with n at n+1 parameters is its degree elevation. So sampling a curve loses nothing, and fewer samples do not suffice.", "quantifier": "every pair of curves, every set of distinct parameters (inside or outside [0,1])", "why_tests_cant": "Uniqueness over all curves; a test can only exhibit samples.", "anchors": ["src/line.rs: eval", "src/quadratic_bezier.rs: eval", "src/cubic_bezier.rs: eval", "src/bezier.rs: eval"]}
{"id": "C85", "title": "Variation diminishing", "statement": "A line (plane, hyperplane) crosses the curve inside (0,1) no more often than it crosses the control polygon, unless it contains all control points; and it meets the curve, at any parameters, no more often than the degree.", "quantifier": "every quadratic, cubic and N-point Bezier in every dimension, every hyperplane, every set of parameters", "why_tests_cant": "Counts the zeros of all polynomials of a degree (Descartes' rule of signs); a test samples parameters and cannot count crossings.", "anchors": ["src/bezier.rs: eval", "src/quadratic_bezier.rs: eval", "src/cubic_bezier.rs: eval"]}
{"id": "C86", "title": "Control points in order give a curve in order", "statement": "If the control points come in order along some direction, so do the evaluated points for rising parameters in [0,1]; on an axis on which they are in order the bounding box of a quadratic or cubic is exactly the interval of its end points, and the box contains both end points without slack in any case.", "quantifier": "every quadratic, cubic and N-point Bezier, every direction, every pair of parameters in [0,1]", "why_tests_cant": "Order at all pairs of parameters; exactness of the box although the extremum search drops or invents roots near EPSILON.", "anchors": ["src/bezier.rs: eval", "src/quadratic_bezier.rs: eval, bounding_box", "src/cubic_bezier.rs: eval, bounding_box"]}
{"id": "C87", "title": "Bounding boxes of reversed and of split curves", "statement": "A segment or quadratic run backwards has exactly the same bounding box; so has a cubic unless a third difference is nonzero but below EPSILON, and then the two boxes differ by 3/8 EPSILON at most. The boxes of the two pieces of a split lie in the box of the whole curve and together reach its bounds, up to EPSILON/8 (quadratic) or 3/8 EPSILON (cubic); exactly inside where the leading difference is not below EPSILON.", "quantifier": "every segment, quadratic and cubic, every split parameter in [0,1], every axis", "why_tests_cant": "Compares boxes of different curves for all inputs; the exception needs control points a fraction of EPSILON apart.", "anchors": ["src/line.rs: bounding_box", "src/quadratic_bezier.rs: bounding_box, split", "src/cubic_bezier.rs: bounding_box, split"]}
{"id": "C88", "title": "Moving control points or the parameter a little moves results a little", "statement": "If every control point moves by d at most, eval at any t in [0,1] moves by d at most, arclen at any step count and the true length of a curve of degree n by 2 n d at most, and each bound of the box by d (up to the slack of the box). If the parameter moves by h, eval moves by n times the longest leg of the control polygon times h at most.", "quantifier": "every pair of quadratics, cubics and N-point Beziers of equal degree, every parameter in [0,1], every step count", "why_tests_cant": "Bounds over all perturbations and parameters.", "anchors": ["src/quadratic_bezier.rs: eval, arclen, bounding_box", "src/cubic_bezier.rs: eval, arclen, bounding_box", "src/bezier.rs: eval, arclen"]}
{"id": "C89", "title": "B-splines over the knots of a Bezier curve", "statement": "Over the knots a (D+1 times), b (D+1 times) the textbook B-spline is the Bezier curve of the same control points at u = (t-a)/(b-a). BSpline::eval on [a,b) returns that curve with its last control point replaced by the origin, i.e. less u^D times the last control point; it agrees with Bezier::eval if and only if the last control point is the origin; closer than EPSILON to a it returns the first control point.", "quantifier": "every degree, every a < b, all control points, every t in [a,b)", "why_tests_cant": "Relates two evaluators of the crate over all degrees and parameters; the term that differs is invisible at the ends, where the tests look.", "anchors": ["src/bspline.rs: eval, de_boor_iterative", "src/bezier.rs: eval"]}
{"id": "C90", "title": "Range and stability of B-spline evaluation", "statement": "For every kind of knot vector and every t, a point returned by BSpline::eval is a convex combination of the control points and the origin, hence no farther from the origin than the farthest control point; moving every control point by d at most moves it by d at most and leaves errors and panics as they were. The one exception is the last knot of a spline clamped at its start only, where eval extrapolates.", "quantifier": "every degree, knot vector, control points and parameter", "why_tests_cant": "Quantifies over all knot vectors and perturbations; the exception sits at one parameter of one kind of spline.", "anchors": ["src/bspline.rs: eval, de_boor_iterative, knot_span_start_for_t_clamped_start"]}
{"id": "C91", "title": "Limit of B-spline evaluation at the right end", "statement": "If the right end of a span is a D-fold knot (the end of a clamped spline, every knot of degree 1), eval goes to the origin there, within D M (U(k+1)-t)/(U(k+1)-U(k)) of it for control points no farther than M from the origin. At the end of the domain the last control point is returned, so the curve is continuous there if and only if that point is the origin.", "quantifier": "every spline that is not unclamped, every such span, every t in it at least EPSILON past its left end", "why_tests_cant": "A limit: no finite set of parameters decides it.", "anchors": ["src/bspline.rs: eval, de_boor_iterative"]}
{"id": "C92", "title": "Laws of the derivative", "statement": "derivative() is the only curve with one control point fewer that runs along the derivative of the curve. Hence it commutes with split (a piece's derivative is the piece of the derivative times the length of the parameter interval, so the pieces leave the cut in the direction of the curve), with reversal (up to sign) and with affine maps (through their linear part); it vanishes exactly for a curve of one point; called k times it is the k-th derivative, and the values at one parameter of all derivatives give the whole curve by Taylor's formula.", "quantifier": "every curve with at least two control points, every parameter, every affine map, every order below the number of control points", "why_tests_cant": "Quantifies over all curves, parameters, maps and orders, and relates different calls to each other.", "anchors": ["src/bezier.rs: derivative, split", "src/cubic_bezier.rs: derivative, split", "src/quadratic_bezier.rs: derivative, split"]}
{"id": "C93", "title": "Arc length through the derivative", "statement": "The arc length that arclen approximates (C35) is the integral over [0,1] of the norm of derivative() evaluated.", "quantifier": "every Bezier curve with at least two control points, every quadratic and cubic curve", "why_tests_cant": "An integral over all parameters.", "anchors": ["src/bezier.rs: derivative, arclen", "src/quadratic_bezier.rs: derivative, arclen", "src/cubic_bezier.rs: derivative, arclen"]}
{"id": "C94", "title": "Shifting and stretching the parameter of a B-spline", "statement": "Replacing every knot x by s x + c (s > 0) and the parameter t by s t + c changes neither the verdict of BSpline::new nor the points, errors and panics of eval, moves knot_domain along and divides the derivative's control points by s, as long as no difference of knots and parameter crosses EPSILON; a pure shift needs no such condition and leaves arclen alone. Not so for arclen under a stretch (it always steps by 1/n), for the kind of knot vectors as short as EPSILON, and for reversing the control points.", "quantifier": "every degree, knot vector, control points, parameter, s > 0 and c", "why_tests_cant": "Relates runs on infinitely many knot vectors.", "anchors": ["src/bspline.rs: new, eval, knot_domain, derivative, arclen"]}
{"id": "C95", "title": "f32 and f64 give the same curve", "statement": "Evaluating two curves of the same degree in two floating-point formats, with coordinates that differ by at most d and parameters in [0,1] that differ by at most tau, gives points that differ by at most d + 2 n M tau (n the degree, M a bound on the coordinates) plus the two formats' rounding errors; in particular for a curve and a parameter stored in the other format by rounding to nearest. Holds for Bezier, LineSegment, QuadraticBezier and CubicBezier, both evaluation methods.", "quantifier": "every pair of binary formats with at least 11 bits, curve, parameter and bounds", "why_tests_cant": "Relates two instantiations of the generic code over all inputs.", "anchors": ["src/bezier.rs: eval", "src/line.rs: eval", "src/quadratic_bezier.rs: eval, eval_casteljau", "src/cubic_bezier.rs: eval, eval_casteljau"]}
{"id": "C96", "title": "Range of a curve in floating point", "statement": "If the control points lie between lo and hi on an axis, so does every evaluated point, up to the rounding error of C54 and C55. Without the margin this fails: a curve with two equal control points takes a larger value at t = 53/128 in f64.", "quantifier": "every binary format with at least 11 bits, curve of degree n with 6nu <= 1 and 4M <= MAX, axis and parameter in [0,1]", "why_tests_cant": "A bound over all control points and parameters; the failing value was found by search.", "anchors": ["src/bezier.rs: eval", "src/line.rs: eval", "src/quadratic_bezier.rs: eval", "src/cubic_bezier.rs: eval"]}
{"id": "C97", "title": "Continuity of B-splines and jumps of the evaluation", "statement": "The B-spline curve is continuous wherever at most D knots coincide. BSpline::eval returns, inside the span k, the curve less (t - U_k)^D / prod_(r=1..D) (U_(k+r) - U_k) times control point k, moves there with the velocity of that difference, and at an inner knot U_(k+1) jumps by that weight - positive, at most 1 - times control point k: it is continuous there if and only if control point k is the origin.", "quantifier": "every degree, knot vector, control points, span and parameter more than EPSILON right of the knot", "why_tests_cant": "A statement about limits.", "anchors": ["src/bspline.rs: de_boor_iterative, eval, derivative"]}
{"id": "C98", "title": "Mirror symmetry in floating point", "statement": "Negating any set of coordinates of all control points negates these coordinates of every computed point - eval, casteljau, split, derivative, axis, dd, B-spline evaluation - and changes no length, distance, flatness test or panic; boxes are mirrored. Exactly, up to the sign of zero. The box of a line with a NaN coordinate is not mirrored.", "quantifier": "every IEEE format of at least 11 bits, point type, set of axes, control points, knots and parameter, including infinities, NaN and overflow", "why_tests_cant": "Exact symmetry under rounding for all bit patterns, including overflow and the order of the computed roots.", "anchors": ["src/line.rs, src/quadratic_bezier.rs, src/cubic_bezier.rs, src/bezier.rs, src/bspline.rs"]}
{"id": "C99", "title": "The axes do not interact", "statement": "Coordinate i of every computed point - eval, casteljau, split, derivative, axis, dd, bounding_box, B-spline eval and derivative - is a function of coordinate i of the control points (and of the knots and t) alone: two curves, even of different dimensions, whose control points agree in coordinate i of the one and j of the other agree in these coordinates of every result, bit by bit.", "quantifier": "every scalar type (no law of arithmetic assumed), two point types, axes, control points, parameter", "why_tests_cant": "Non-interference quantifies over pairs of runs.", "anchors": ["src/line.rs, src/quadratic_bezier.rs, src/cubic_bezier.rs, src/bezier.rs, src/bspline.rs"]}
{"id": "C100", "title": "Searching the knots takes logarithmically many iterations", "statement": "Each of the four knot searches finishes within log2 K + 1 iterations for K knots, whatever the knots and the parameter (no order, no finiteness needed), and for a parameter right of all knots the search of n positions takes exactly log2 n + 1.", "quantifier": "every scalar type, every knot array, index range and parameter", "why_tests_cant": "A bound on the iterations over all arrays; a test times some arrays and cannot see the bound is attained but never exceeded.", "anchors": ["src/bspline.rs:316-342", "src/bspline.rs:344-371", "src/bspline.rs:373-404", "src/bspline.rs:406-436"]}
{"id": "C101", "title": "Error messages are distinct and true", "statement": "The Display texts of the six errors differ. When new fails, its text is one of the four construction texts and names the first rule broken: too few control points iff C <= D, insufficient / excess knots iff K < / > C+D+1, non-decreasing iff some knot exceeds its successor. When eval fails, the text is one of the two evaluation texts; in exact arithmetic it is 'Parameter outside of knot span' and the parameter lies outside knot_domain.", "quantifier": "every scalar type, degree, knot array, control points, parameter", "why_tests_cant": "Ties the text shown to the user to the cause over all inputs, including that no other error can appear.", "anchors": ["src/bspline.rs:24-37", "src/bspline.rs:75-110", "src/bspline.rs:115-129"]}
{"id": "C102", "title": "NaN and infinity are not swallowed", "statement": "If a coordinate of an evaluated point (eval, eval_casteljau, B-spline eval) is finite, then that coordinate of every control point that takes part, and (B-splines aside) the parameter, were finite - even where the weight is 0; the same for derivative curves, and a finite arclen means finite control points. distance_to_point breaks the rule: with a NaN in an inner control point it returns the distance to the start point.", "quantifier": "every float format, dimension, curve, parameter (any bit pattern)", "why_tests_cant": "All bit patterns of all coordinates; a test pins a few NaN positions.", "anchors": ["src/line.rs:22-24", "src/quadratic_bezier.rs", "src/cubic_bezier.rs", "src/bezier.rs", "src/bspline.rs:241-305"]}
{"id": "C103", "title": "Quadratic roots and solve_t_for_axis in floating point", "statement": "With coefficients of magnitude at most M every value real_roots returns is a root up to (4u(b^2+4|ac|) + u/2)/|a| plus underflow; a discriminant above 2.2u(b^2+4|ac|) gives two values, each within 4.5u(b^2+4|ac|)/(|a| sqrt disc) of its root; one below the negative of that gives none; |a| below EPSILON solves the linear equation. A parameter from solve_t_for_axis has the coordinate asked for up to 18uM + 410uM^2/|second difference|, or 18uM when the second difference is 0. Conversely, where the exact coordinate is the one asked for and its slope w satisfies w^2 >= 400uM^2, a parameter within 800uM^2/(|second difference| w) is returned (31uM/w when linear), unless that close to an end or the curve is skipped as degenerate. In between, when the second difference is a few ulps, f64 misses a crossing in the middle of the curve, and returns a parameter whose coordinate is off by more than 1/3.", "quantifier": "every float format, all coefficients with 8M^2 and 2M/u below the largest float; every point type", "why_tests_cant": "An error bound for all coefficients; rounding noise near double roots is not hit by examples.", "anchors": ["src/quadratic_bezier.rs:164-192", "src/quadratic_bezier.rs:271-292", "src/roots.rs"]}
{"id": "C104", "title": "The equality tests (==) of curves and errors", "statement": "In exact arithmetic two line segments, two quadratic or two cubic curves compare equal exactly when they are the same function on [0,1]; equal BezierSegments are the same function, but a line and the quadratic tracing it compare unequal. In floating point segments compare equal exactly when they are the same variant with coordinates that are equal numbers and not NaN: reflexive exactly without NaN, symmetric, transitive. Equal float curves give equal results (evaluation, derivatives, splits, tests, lengths, distances, boxes), up to the sign of zero. Errors and knot vector kinds compare equal exactly when they are the same.", "quantifier": "every lawful point type (exact), every float format and componentwise point type; all curves and parameters", "why_tests_cant": "Equality as a congruence for every operation quantifies over all pairs of curves.", "anchors": ["src/line.rs:8-12", "src/quadratic_bezier.rs:5-10", "src/cubic_bezier.rs:10-16", "src/bezier_segment.rs:7-12", "src/bspline.rs:6-22"]}
{"id": "C105", "title": "Order is kept in floating point", "statement": "Rounded evaluation is monotone. LineSegment::eval moves on each axis from start towards end as t grows, never back, and is monotone in the end point. For t in [0,1], raising coordinates of control points never lowers a coordinate of quad eval, cubic eval, generic eval or of the control points of a generic split; the same for a B-spline that is clamped at one end at least. Overflow to infinity is included; where a NaN appears nothing is said. Not so for the start of a LineSegment, for the specialised eval_casteljau, or, with control points in order, for the parameter of quadratic and generic curves.", "quantifier": "every float format and componentwise point type; all control points including infinities, all t", "why_tests_cant": "Exact order between two runs for all inputs, roundings and overflows.", "anchors": ["src/line.rs:22-24", "src/quadratic_bezier.rs:22-28", "src/cubic_bezier.rs:33-38", "src/bezier.rs:72-83", "src/bezier.rs:120-148", "src/bspline.rs:241-305"]}
{"id": "C106", "title": "The derivative of a B-spline in floating point", "statement": "BSpline::derivative, in floating point, returns C-1 control points; where the knots k(j+1) and k(j+D+1) differ, point j is D (P(j+1) - P(j)) / (k(j+D+1) - k(j+1)) with relative error at most 5u plus an underflow term, and is finite unless the quotient leaves the range. Where these knots coincide, each coordinate is NaN if the two control points agree on that axis and an infinity otherwise.", "quantifier": "every float format, degree, knot vector with values up to half of the largest number, finite control points and componentwise point type", "why_tests_cant": "A rounding bound over all knot vectors and control points, including those that underflow.", "anchors": ["src/bspline.rs:471-485"]}
{"id": "C107", "title": "Scaling by a power of two is exact in floating point", "statement": "Multiplying all control points by 2^k multiplies every finite coordinate of the result by exactly 2^k, in floating point: eval, De Casteljau evaluation, split and derivative of lines, quadratic and cubic curves, eval and split of generic Bezier curves, and eval of B-splines clamped at one end at least. Control points are multiples of 2^g and t of 2^b, fine enough that no product underflows; for a B-spline only the knots are bounded and t is arbitrary. Without a bound on underflow it fails.", "quantifier": "every float format, componentwise point type, k of either sign, grids g and b, degree, control points and parameter", "why_tests_cant": "Exact agreement between two roundings of every intermediate value, for all inputs.", "anchors": ["src/line.rs:22-40", "src/quadratic_bezier.rs:22-64", "src/cubic_bezier.rs:33-119", "src/bezier.rs:72-148", "src/bspline.rs:241-305"]}
{"id": "C108", "title": "The number formats and EPSILON", "statement": "EPSILON is positive, 1 + EPSILON is a float and no float lies strictly between 1 and it. f64: EPSILON is 2^-52, the largest finite value (2 - 2^-52) 2^1023, the least positive 2^-1074. f32: 2^-23, (2 - 2^-23) 2^127, 2^-149.", "quantifier": "every float format; all finite f64 and f32 values", "why_tests_cant": "A statement about every float, which pins down the arithmetic all floating-point claims are about.", "anchors": ["src/lib.rs:62-73"]}
{"id": "C109", "title": "Coarse data are computed exactly in floating point", "statement": "If the control points are multiples of 2^g of magnitude at most M, the parameter is a multiple of 2^b in [0,1], and all multiples of 2^(g+nb) up to a small multiple of M are floats (n the degree; the multiple is 1, 2 or 3 for evaluation and split, twice the degree for the derivative of a curve of degree n, where 2^g replaces 2^(g+nb)), then evaluation (Bernstein and De Casteljau form, and axis) gives exactly the curve point; the two halves of split follow the curve exactly and are again coarse; the derivative is exactly the derivative. For example cubics with integer control points up to a million at t = k/256 in f64.", "quantifier": "every float format, componentwise point type, grid, degree, coarse control points and parameter", "why_tests_cant": "No rounding at all in a whole class of inputs; tests compare single results within tolerances.", "anchors": ["src/line.rs:22-40", "src/quadratic_bezier.rs:22-98", "src/cubic_bezier.rs:33-127", "src/bezier.rs:72-148"]}
{"id": "C110", "title": "Cutting a curve twice", "statement": "Splitting at t and splitting the left piece again at s gives, control point by control point, the pieces obtained by splitting at t*s first and the right piece at (t - ts)/(1 - ts) second; likewise for the right piece, with t + s(1 - t). Splitting the reversed curve at 1 - t gives the two pieces reversed and exchanged.", "quantifier": "every lawful point type, quadratic, cubic or generic curve and all real t, s (with the denominators nonzero)", "why_tests_cant": "Equalities of control points over all curves and all pairs of parameters; the tests split once and compare sample points.", "anchors": ["src/quadratic_bezier.rs:59-98", "src/cubic_bezier.rs:79-127", "src/bezier.rs:94-127"]}
{"id": "C111", "title": "BSpline::eval and arclen terminate; when arclen panics", "statement": "For every spline accepted by new, eval and arclen terminate. arclen(n) panics exactly when eval panics at one of the sampled parameters, so never for a spline clamped at both ends. In exact arithmetic it panics for every n > 0 when the knots are clamped only at the end, and for every n with (kmax - kmin)/n < knots[C+D] - knots[C+1] when they are clamped only at the start.", "quantifier": "every scalar and point type, degree, knot vector and number of steps (the last two over the reals)", "why_tests_cant": "Termination and an exact characterisation of panics for all splines; the tests measure one clamped spline.", "anchors": ["src/bspline.rs:115-129", "src/bspline.rs:241-305", "src/bspline.rs:436-460"]}
{"id": "C112", "title": "Kinds and panics of B-splines in floating point", "statement": "For a spline with finite floating-point knots accepted by new: it is classified as clamped at an end if the outer D+1 knots there span at most (1 - 2u) EPSILON, and only if they span less than EPSILON. eval at a finite t panics exactly when knots[C+1] <= t < knots[C+D] and t != knots[C] (clamped at the start only), when knots[0] <= t < knots[D] (clamped at the end only), or when knots[D] <= t < knots[C] and t is at or past the knot after every probe of the search at or below C (unclamped). arclen of a spline clamped at the end only panics for every 0 < n <= 2^p.", "quantifier": "every binary format of at least 11 bits, point type, degree, finite knot vector, finite parameter", "why_tests_cant": "The exact panic set of floating-point evaluation for all knot vectors; no test evaluates a half clamped or unclamped spline at these parameters.", "anchors": ["src/bspline.rs:80-112", "src/bspline.rs:115-129", "src/bspline.rs:241-305", "src/bspline.rs:307-430", "src/bspline.rs:436-460"]}
{"id": "C113", "title": "B-splines over Bezier knots in floating point are Bezier::eval without the last control point", "statement": "For a float B-spline with D+1 control points over the knots a (D+1 times) and b (D+1 times), and a finite parameter a <= t < b: if the rounded t - a is at least EPSILON, eval returns, bit for bit, what Bezier::eval returns at the rounded (t-a)/(b-a) for the same control points with the last one replaced by the origin; if it is less than EPSILON, eval returns the first control point. Over the knots 0 and 1 and for t >= EPSILON the Bezier parameter is t itself, and for coarse data the result is exactly the Bezier polynomial minus t^D times the last control point.", "quantifier": "every binary format of at least 11 bits, point type, degree, pair of knots of magnitude at most half the largest float, finite parameter", "why_tests_cant": "Relates two evaluation routines bit for bit over all degrees and inputs; tests compare single values within a tolerance and never with a nonzero last control point.", "anchors": ["src/bspline.rs:75-112", "src/bspline.rs:115-129", "src/bspline.rs:241-305", "src/bezier.rs:72-83"]}
{"id": "C114", "title": "The example program draws the curve inside its box, hull and chart", "statement": "In exact arithmetic examples/plotters_cubic_bezier.rs does not panic. It draws the 1000 points B(i/1000) of the Bernstein polynomial of its control points; the drawn box is [0, xmax] x [-4, ymax] with xmax and ymax the largest coordinates of the curve, so the whole curve lies in it; the drawn hull is a closed path through exactly the control points with the whole curve on the left of every edge; the chart is [-2, 6] x [-5, ymax + 3] and contains everything drawn.", "quantifier": "the whole curve (every t in [0,1]), any EPSILON up to 1", "why_tests_cant": "The example has no test; its picture is only ever looked at.", "anchors": ["src/cubic_bezier.rs:41-52", "src/cubic_bezier.rs:366-409", "examples/plotters_cubic_bezier.rs:9-118"]}
{"id": "C115", "title": "split and derivative can be undone", "statement": "In exact arithmetic: splitting the left part of a curve cut at t <> 0 once more at 1/t, or the right part of one cut at t <> 1 at t/(t-1), gives back the whole curve, for quadratics, cubics and Bezier curves of every degree. Two curves with the same derivative and the same start are equal, and so are two Bezier curves of the same degree whose eval agrees on an interval, however short.", "quantifier": "all lawful point types, control points, real parameters (also outside [0,1])", "why_tests_cant": "Round trips through parameters outside [0,1] over every curve and degree; a test runs a few and within a tolerance.", "anchors": ["src/quadratic_bezier.rs:44-66", "src/quadratic_bezier.rs:84-89", "src/cubic_bezier.rs:89-118", "src/cubic_bezier.rs:121-127", "src/bezier.rs:120-153", "src/bezier.rs:156-166"]}
{"id": "C116", "title": "f32 and f64 give the same results on coarse data", "statement": "For two binary formats and control points with the same finite coordinates in both, all of them multiples of 2^g of magnitude at most M, and the same parameter in [0,1], a multiple of 2^b: if both formats hold all multiples of 2^(g+nb) up to a small multiple of M (n the degree), then eval, eval_casteljau and split return the same coordinates in both formats. Data that both formats hold is not enough: a segment from 0 to 2^24-1 at 1-2^-24 differs.", "quantifier": "every pair of binary formats of at least 11 bits, point types of equal dimension, control points, parameters", "why_tests_cant": "Compares two instantiations of the generic code over all coarse inputs; the crate's tests use f64 only.", "anchors": ["src/line.rs:22-24", "src/quadratic_bezier.rs:22-66", "src/cubic_bezier.rs:33-118", "src/bezier.rs:72-83", "src/bezier.rs:120-153"]}
{"id": "C117", "title": "Linear precision, and the accuracy promised for arclen at 32 steps", "statement": "In exact arithmetic: control points at equal steps on the way from a to b make eval return a + t (b - a) for every t, make the arc length |b - a|, and make arclen(m) return (1 - 1/m) |b - a|, for every degree. Hence no error bound holds at 32 steps for all curves (the comment says 0.5); it does for quadratics whose legs are shorter than 4 and cubics whose legs are shorter than 16/9. A B-spline whose control points stand at the means of their D knots is straight too; the code, if the spline is clamped at one end at least, returns it at the knots, and elsewhere without the last control point of the span.", "quantifier": "all lawful point types, degrees, evenly spaced control points, parameters, step counts, knot vectors with t at least EPSILON after the knots before it", "why_tests_cant": "The formula is for every step count and every curve of the family, and the refutation names a curve for every bound.", "anchors": ["src/quadratic_bezier.rs:144-163", "src/cubic_bezier.rs:73-95", "src/bezier.rs:238-257", "src/bezier.rs:72-83", "src/quadratic_bezier.rs:22-30", "src/cubic_bezier.rs:33-40", "src/bspline.rs:115-200"]}
{"id": "C118", "title": "Debug and release builds do the same", "statement": "With usize arithmetic as a debug build does it (overflow and underflow panic) and as a release build does it (wrapping modulo 2^w), Bezier::eval, split, derivative and arclen and BSpline::new, knot_domain, eval, arclen and derivative return, panic and loop exactly as the model with unbounded addition says, for all arrays of at most 2^w / 4 elements: additions never overflow, and a subtraction that wraps makes an index that is out of bounds, or, in the span searches, a bound whose next probe is.", "quantifier": "all scalar types and parameters (NaN included), point types, degrees, splines from new and from repeated derivative, pointer widths", "why_tests_cant": "Compares two build profiles for all inputs; cargo test runs one of them on some.", "anchors": ["src/bezier.rs:72-83", "src/bezier.rs:120-166", "src/bezier.rs:241-252", "src/bspline.rs:75-129", "src/bspline.rs:146-180", "src/bspline.rs:241-432", "src/bspline.rs:436-485"]}
{"id": "C119", "title": "BSpline::arclen in floating point", "statement": "arclen(n) of a clamped spline with moderate knots and control points is finite and not negative, and equals the sum of the n+1 distances between the points that eval returns at the two computed parameters of each chord (the origin where eval rejects the parameter), within 2(n+1)(e + u(n+1) 2 sqrt(dim) W) with e the rounding error of one distance. Over [0,1] no rounding of the parameters leaves the domain: the result is the n chords of the curve plus the distance of the last control point from the origin. With n = 0 it is 0.", "quantifier": "all formats (f32, f64), point types, degrees, knots up to half of the largest number, control points up to M, n with 4(n+1)u <= 1, 6*D*u <= 1 and far from overflow (the exact conditions are the section hypotheses)", "why_tests_cant": "Whether lo + i/n*(hi-lo) + 1/n rounds past the end of the domain decides between a point of the curve and the origin; excluded for all n, not for a sample.", "anchors": ["src/bspline.rs:436-460", "src/bspline.rs:115-129"]}
{"id": "C120", "title": "Sampling a curve into control points", "statement": "With the n+1 samples g(k/n) as control points, eval at t stays within L/(2 sqrt n) of g(t) if g is L-Lipschitz, within M t(1-t)/(2n) in each coordinate that g's tangent follows with error M/2 (x-t)^2, lies above g in each convex coordinate, and converges to g uniformly on [0,1] for every continuous g.", "quantifier": "every curve g in every number of dimensions, every number of samples from 2 on, every t in [0,1]", "why_tests_cant": "A statement about all continuous functions and a limit in the number of control points.", "anchors": ["src/bezier.rs: eval"]}
{"id": "C121", "title": "Control values that bend one way", "statement": "If in one coordinate no control point lies above the middle of its neighbours, the coordinate of eval is a convex function of t on [0,1], and at no t below the value of the line through any two neighbouring control values, placed at k/n and (k+1)/n.", "quantifier": "every Bezier, quadratic and cubic curve, every coordinate, every t in [0,1]", "why_tests_cant": "An inequality between curve points at all triples of parameters, for all control points.", "anchors": ["src/bezier.rs: eval", "src/quadratic_bezier.rs: eval", "src/cubic_bezier.rs: eval"]}
{"id": "C122", "title": "The mean of a curve is the mean of its control points", "statement": "The integral over [0,1] of each coordinate of eval is the mean of that coordinate over the control points.", "quantifier": "every Bezier, quadratic and cubic curve", "why_tests_cant": "An integral over all parameters.", "anchors": ["src/bezier.rs: eval", "src/quadratic_bezier.rs: eval", "src/cubic_bezier.rs: eval"]}
{"id": "C123", "title": "Iterators of points and curves", "statement": "into_iter of a PointN yields its N coordinates in order, of a Bezier its control points; a loop over &mut reaches every entry exactly once and in place, agrees with the operators, and an affine map applied to all control points in place moves the curve by it. For a user point type whose iterator yields another number of items than DIM: with fewer, the bounding boxes are right on the axes seen and (0,0) on the others, and the segment distance is still the distance to a point of the segment; with more, boxes and (non-degenerate) segment distances never return.", "quantifier": "every dimension, point, curve and number of items", "why_tests_cant": "All user types are quantified over, including inconsistent ones that no test of the crate defines.", "anchors": ["src/point_generic.rs:128-144", "src/bezier.rs:36-52", "src/line.rs: distance_to_point, bounding_box", "src/quadratic_bezier.rs: bounding_box", "src/cubic_bezier.rs: bounding_box"]}
{"id": "C124", "title": "Causes of the violated properties", "statement": "Changing only the named lines makes the violated properties true in full. line.rs:28 (operands swapped): C04, C52. line.rs:54 and 68 (threshold; initial t): C05, C16 as an equivalence. cubic_bezier.rs:140 (t for t2): C21. quadratic_bezier.rs:151, cubic_bezier.rs:79, bezier.rs:244 (one step too many): C34. quadratic_bezier.rs:201, 219-221 and its copies (second pass is not centred at the best sample and leaves the curve): C36, with the two passes as documented. bspline.rs:146-153, 246-248, 262, 285-295, 307-314 (domain, early return, points loaded, EPSILON tests, unclamped span search): C40, C43, C44, C45, C49, C79 for every kind and every t. bspline.rs:440, 445: C48. bspline.rs:481: C47. bspline.rs:87 (a NaN knot passes the test w[0] > w[1]): C39. cubic_bezier.rs:270, 273-275, 289, 316 and quadratic_bezier.rs:173-188 (f32 digits of pi; EPSILON tests): C59, exactly the roots. The early return and the open interval of solve_t_for_axis: C64 for every coordinate that is not constant. line.rs:23, quadratic_bezier.rs:27 (order of the operations): C63 for all finite points. quadratic_bezier.rs:186-187 (-b and the square root of opposite sign are added; instead the larger root and the product of the roots): C73 for every cubic, with slack 350 u M; over the reals this change has no effect. bspline.rs:262 alone: C66 against the true curve, for splines clamped at an end. With all B-spline lines changed, eval and arclen return for every scalar type, parameter and number of steps.", "quantifier": "every lawful point type, curve, degree, knot vector, control polygon and parameter", "why_tests_cant": "It shows that the refuted statements are satisfiable by nearly the same program, so that the refutations diagnose these lines and not an over-strong statement.", "anchors": ["src/line.rs:28-28", "src/line.rs:54-68", "src/cubic_bezier.rs:140-140", "src/quadratic_bezier.rs:151-151", "src/quadratic_bezier.rs:219-221", "src/bspline.rs:146-153", "src/bspline.rs:246-314", "src/bspline.rs:440-481", "src/bspline.rs:87-87", "src/cubic_bezier.rs:262-347", "src/quadratic_bezier.rs:173-188", "src/line.rs:23-23", "src/quadratic_bezier.rs:27-27"]}
{"id": "C125", "title": "Point and coordinate types of the user", "statement": "The crate sees points only through the trait Point: if two point types (say a vec2 struct and PointN<f64,2>) cannot be told apart through its operations, then eval, split, derivative, axis, dd, bounding_box, arclen, distance_to_point, is_linear, is_a_point, solve_t_for_axis, new and knot_domain of every curve type return the same values, related points, the same errors and the same panics. PointN over a coordinate type whose conversion into NativeFloat respects + - * and 0 is such a type, next to PointN of the converted coordinates.", "quantifier": "every pair of point types, every scalar arithmetic (exact or rounded, NaN included), every curve", "why_tests_cant": "Quantifies over all user-defined point and coordinate types; the crate's tests use PointN<f64,_> only.", "anchors": ["src/point.rs:12-42", "src/point_generic.rs:12-16", "src/point_generic.rs:146-176"]}
{"id": "C126", "title": "Scalars that wrap or widen NativeFloat", "statement": "A user point type may have a Point::Scalar other than NativeFloat. If that scalar is a newtype around NativeFloat (conversions there and back are the identity and commute with the arithmetic), every function of the crate returns exactly what it returns for NativeFloat. If it is merely wider (native operands convert exactly), then eval, axis, derivative, split of Bezier curves, cubic dd, distance_to_point, is_linear and bounding_box still compute in the full precision of the scalar, with NativeFloat's epsilon in the degenerate cases (CubicBezier::is_linear asks for both).", "quantifier": "every such scalar type and arithmetic, every curve, every parameter", "why_tests_cant": "Quantifies over all user-defined scalar types; no test uses a Point::Scalar other than NativeFloat.", "anchors": ["src/point.rs:12-42", "src/line.rs:51-79", "src/cubic_bezier.rs:60-120", "src/bezier.rs:60-140"]}
{"id": "C127", "title": "A wider scalar keeps its precision", "statement": "With a Point::Scalar wider than NativeFloat, no function loses the additional precision. The code violates this: CubicBezier::split, QuadraticBezier::dd and BSpline::eval pass t or a weight through NativeFloat, so their results carry one rounding of NativeFloat per step; so do the factors of BSpline::derivative, the parameters of arclen and the value of solve_t_for_axis.", "quantifier": "every float format, every parameter, every control polygon, every clamped B-spline", "why_tests_cant": "The loss is below f64 resolution and appears only with a user-defined wide scalar.", "anchors": ["src/point.rs:23-32", "src/cubic_bezier.rs:89-112", "src/quadratic_bezier.rs:100-112", "src/bspline.rs:280-303"]}
{"id": "C128", "title": "Order and length of B-splines", "statement": "A B-spline keeps the order of its control points along every direction, and the polyline through values at nondecreasing parameters is no longer than the control polygon. The curve does. The code violates this between the knots: with both control points equal to 1 and knots 0,0,1,1 it runs 1, 1/2, 1. At the knots of a clamped spline it holds.", "quantifier": "every degree, nondecreasing knot vector, control polygon, direction, and nondecreasing list of parameters", "why_tests_cant": "Quantifies over all directions and all parameter lists; the tests compare single values.", "anchors": ["src/bspline.rs:75-110", "src/bspline.rs:241-305"]}
{"id": "C129", "title": "Knot insertion", "statement": "Adding a knot to a B-spline, with the control points of Boehm's rule, is accepted by BSpline::new and does not change the curve that eval returns. The code violates this between the knots; at the old knots both splines agree, and at the new knot the refined spline is on the curve.", "quantifier": "every degree, knot vector, control polygon, span and inserted knot", "why_tests_cant": "Quantifies over all splines and all insertions; the tests never compare two splines.", "anchors": ["src/bspline.rs:75-110", "src/bspline.rs:241-305"]}
{"id": "C130", "title": "Variation diminishing for B-splines", "statement": "A hyperplane crosses the polyline through the values of a B-spline at nondecreasing parameters no more often than the control polygon. The code violates this between the knots; it holds for the values at the knots.", "quantifier": "every degree, knot vector, control polygon, hyperplane, and nondecreasing list of parameters", "why_tests_cant": "Quantifies over all hyperplanes and all parameter lists.", "anchors": ["src/bspline.rs:75-110", "src/bspline.rs:241-305"]}
{"id": "C131", "title": "A B-spline is determined by its values", "statement": "Two B-splines with the same degree and knots whose evaluation agrees on the whole domain have the same control points, as far as the support of a control point meets the domain in an interval; a piece of one span determines the degree + 1 control points of the span. Other control points have no influence. The code loses the control points whose support meets the domain only in the span of the same number, among them all but the last when the degree is 0.", "quantifier": "every degree, knot vector and pair of control polygons", "why_tests_cant": "Uniqueness over all control polygons; a test compares two of them at finitely many parameters.", "anchors": ["src/bspline.rs:75-110", "src/bspline.rs:241-305"]}
{"id": "C132", "title": "B-splines reproduce polynomials", "statement": "If the coordinates of the control points are the values of a polynomial's blossom (symmetric, affine in each argument) at D consecutive knots, eval(t) has the polynomial's values as coordinates on the whole domain; in particular control points along a line at the Greville abscissae (averages of D consecutive knots) give the line, t-linearly. Only those control points do.", "quantifier": "all degrees, knot vectors accepted by new, blossoms (hence all polynomials of degree at most D), parameters of the domain", "why_tests_cant": "Holds at every parameter of every spline; the code drops one term between the knots, so a test at the knots passes.", "anchors": ["src/bspline.rs:75-110", "src/bspline.rs:241-305"]}
{"id": "C133", "title": "B-splines that bend one way", "statement": "If the control points, seen in any direction and placed at the Greville abscissae (averages of D consecutive knots), bend up, then so does eval: for a <= b <= e in the domain the value at b is on or below the chord from the value at a to the value at e; and the curve stays above the line through every leg of the control polygon. It is enough to compare the slopes of neighbouring legs.", "quantifier": "all degrees >= 1, knot vectors accepted by new, directions, three parameters of the domain (including the right end of a curve clamped there)", "why_tests_cant": "Three real parameters on every spline; the code drops one term between the knots, so a test at the knots passes.", "anchors": ["src/bspline.rs:75-110", "src/bspline.rs:241-305"]}
{"id": "C134", "title": "The mean of a B-spline", "statement": "The mean of eval over the knot domain of a spline clamped at both ends is the mean of its control points, control point j weighted with knot[j+D+1] - knot[j]; the weights add up to D+1 times the length of the domain.", "quantifier": "all degrees, knot vectors clamped at both ends (any inner multiplicities), control points, coordinates", "why_tests_cant": "An integral over a real interval for every spline; a sampled mean of the code's values is off by a different amount on every span.", "anchors": ["src/bspline.rs:75-110", "src/bspline.rs:241-305"]}
{"id": "C135", "title": "Every span of a B-spline is a Bezier curve", "statement": "On every non-empty span of its domain a clamped B-spline's eval, from EPSILON after the first knot of the span on, returns the points that Bezier::eval returns for D+1 fixed points at the parameter's relative position in the span; these points lie in the convex hull of the control points the evaluation uses there and the origin. For the B-spline curve itself, and for the repaired evaluation, the same holds on the whole span with the hull of the D+1 control points that act on it.", "quantifier": "all degrees, knot vectors accepted by new with at least one clamped side, all non-empty spans, control points, parameters", "why_tests_cant": "An equality of two evaluation schemes for all parameters of all spans; the Bezier points are not computed anywhere in the code.", "anchors": ["src/bspline.rs:241-305", "src/bspline.rs:115-145", "src/bezier.rs:72-95"]}
{"id": "C136", "title": "How far a curve is from its control polygon", "statement": "If every inner control point of a Bezier curve of degree n is within S of the middle of its neighbours, eval(t) is within S (n t (1-t) - u (1-u)) of the point LineSegment::eval(u) of the leg from control point k to k+1, u = n t - k, hence within S floor(n/2) ceil(n/2) / n of its control polygon (S/2 for quadratics, 2S/3 for cubics); the bound is attained for every n, k and t. After r rounds of split(1/2) the polygons of the pieces are 4^r times closer. A B-spline whose neighbouring legs over the means of D knots differ in slope by at most S times the distance of the outer two is on every span within S (knot[m+D] - knot[m+1-D])^2 of its polygon: the curve, the repaired evaluation, and eval at the knots.", "quantifier": "every Bezier, quadratic and cubic curve, every degree, leg, t in [0,1], number of rounds; every B-spline without D-fold inner knots, every span", "why_tests_cant": "A distance bound for all parameters of all curves with its best constant; sampling curves shows single distances.", "anchors": ["src/bezier.rs:72-86", "src/bezier.rs:120-148", "src/quadratic_bezier.rs:22-50", "src/cubic_bezier.rs:33-60", "src/line.rs:22-30", "src/bspline.rs:115-145"]}
{"id": "C137", "title": "Circles drawn by quadratics", "statement": "A QuadraticBezier with ends on the unit circle at half angle a and its control point where the end tangents meet stays outside the circle by at most (1 - cos a)^2 / (2 cos a), which eval(1/2) attains; n of them round the circle are within (pi/n)^4/4. The two tests commented out as needing eight quadratic segments: sixteen such curves pass the test of the radius, but no eight curves once round the origin do, whatever their ends and control points; the four written there are 8 percent off and too short by more than 0.1 for every number of steps. The eight tangent arcs are longer than the circle by more than the allowed 0.01; arclen(1000) accepts them nevertheless, because it leaves out the first chords, and from 50000 steps on it does not.", "quantifier": "every half angle, direction, parameter in [0,1]; every eight quadratics once round the origin; every number of steps", "why_tests_cant": "That no choice of eight curves passes the test is a statement about all control points; the tests try one choice and are commented out.", "anchors": ["src/quadratic_bezier.rs:22-30", "src/quadratic_bezier.rs:335-422", "src/quadratic_bezier.rs:148-159"]}
{"id": "C138", "title": "Adaptive flattening", "statement": "Halving a quadratic (cubic) with split(1/2) until is_a_point(tol) or is_linear(tol) accepts the piece ends after d rounds as soon as 2^d tol >= 2L (3L), L the longest leg of the control polygon; the accepted pieces are the curve, one after the other, and every curve point is within tol of the baseline of its piece. In every IEEE format it ends as well, with chords within tol of the exact curve up to explicit rounding terms, once tol exceeds a bound of the form size/2^d + c u M. Halving until is_linear(tol) alone does not end at any depth when tol is below sqrt(EPSILON) and the last control point is the end point, nor for any tol on curves shorter than that. A BezierSegment only has is_linear: what the recursion returns is the curve and within tol, but on those segments it returns nothing, in exact arithmetic and, for the curve 0, 1, 1, in f32 with tol = 2^-12 and in f64 with tol = 2^-27.", "quantifier": "every curve, tolerance, depth and parameter; in IEEE arithmetic every format and every curve without overflow; the refutations in f32 and f64 for every depth of one curve", "why_tests_cant": "Termination at a depth that depends on the curve, and non-termination at every depth, are statements about all runs; no test calls is_linear on a piece of a split.", "anchors": ["src/quadratic_bezier.rs:44-66", "src/quadratic_bezier.rs:230-270", "src/cubic_bezier.rs:89-115", "src/cubic_bezier.rs:224-262", "src/bezier_segment.rs:44-83"]}
{"id": "C139", "title": "A NaN among the control points", "statement": "If a coordinate of some control point is NaN, every evaluated point of the curve is NaN on that axis and arclen is NaN from two steps on. The queries do not show it: distance_to_point returns the distance to the first control point, the bounding box of a quadratic or cubic with the NaN in an inner control point is the box of the end points on that axis (with the NaN in an end point it panics, C57), is_linear and is_a_point return false for every tolerance, so that adaptive flattening by split with both tests does not end at any depth, and solve_t_for_axis returns no solution (also when the wanted value is NaN). A point a clamped BSpline evaluates to on a knot span is NaN on each axis on which one of the D control points before the end of the span is; the control point at the end of the span is not loaded (C44), so a NaN there is not noticed.", "quantifier": "every float format, dimension, quadratic, cubic, N-point Bezier and clamped B-spline, parameter, tolerance, query point and depth", "why_tests_cant": "Concerns all values of the other coordinates, including infinities, and every depth of a recursion; no test uses NaN.", "anchors": ["src/quadratic_bezier.rs:22-66", "src/quadratic_bezier.rs:148-159", "src/quadratic_bezier.rs:199-262", "src/quadratic_bezier.rs:295-328", "src/cubic_bezier.rs:193-262", "src/cubic_bezier.rs:366-409", "src/bezier.rs:72-118", "src/line.rs:45-80", "src/bspline.rs:241-305"]}
{"id": "C140", "title": "Bounding boxes of halved pieces, and whether two curves meet", "statement": "After k rounds of split(1/2) the bounding boxes of the 2^k pieces contain the whole curve up to EPSILON/8 for a quadratic and 3 EPSILON/8 for a cubic, every box touches the curve, and none is wider than 2L/2^k (3L/2^k) where L bounds the legs of the control polygon. Hence an intersection search by boxes is sound and complete in the limit: points of two curves at distance d lie in boxes no further than d plus these slacks apart on any axis, at every depth, and if the curves stay further apart than sqrt(DIM) times the box widths plus m, every pair of boxes has a gap of more than m. In IEEE arithmetic the same holds for quadratics, with slack u/4 + 54uM + 9 eta + k(11uM + 3 eta).", "quantifier": "every quadratic and cubic (also one of each), dimension, pair of depths and pair of parameters; every float format for the rounded form", "why_tests_cant": "Concerns every point of two curves and every pair among 4^k boxes at every depth; the tests sample one box.", "anchors": ["src/quadratic_bezier.rs:44-66", "src/quadratic_bezier.rs:295-328", "src/cubic_bezier.rs:89-119", "src/cubic_bezier.rs:366-409"]}
{"id": "C141", "title": "Length of an adaptively flattened curve", "statement": "A quadratic (cubic) accepted by is_a_point(tol) or is_linear(tol) is at least as long as the distance of its end points and at most 2 tol (4 tol) longer, also when the inner control points of the cubic lie along the chord in the wrong order. Hence the chords of the n pieces that halving with split(1/2) accepts add up to the arc length of the curve, up to 2 tol n (4 tol n) too little and never too much.", "quantifier": "every quadratic and cubic, dimension, tolerance >= 0 and depth", "why_tests_cant": "Compares an integral with sums over a recursion of unbounded depth for all curves.", "anchors": ["src/quadratic_bezier.rs:44-66", "src/quadratic_bezier.rs:230-262", "src/cubic_bezier.rs:89-119", "src/cubic_bezier.rs:224-255", "src/line.rs:45-80"]}
{"id": "C142", "title": "Cutting a curve at its stationary parameters", "statement": "If on some axis the derivative of a quadratic or cubic has no zero strictly between x and y, the piece over [x, y] is monotone on that axis and its bounding_box is there exactly the interval of its end points, with no slack. split at the zero of the derivative of a quadratic, and split at the two zeros of the derivative of a cubic (the second one rescaled to the rest), gives such pieces, also when the derivative vanishes everywhere on that axis.", "quantifier": "every quadratic and cubic, dimension, axis, interval and piece of it however obtained", "why_tests_cant": "Concerns all parameters of all pieces, and exact equality of bounds that carry an EPSILON slack in general.", "anchors": ["src/quadratic_bezier.rs:44-66", "src/quadratic_bezier.rs:295-328", "src/quadratic_bezier.rs:84-89", "src/cubic_bezier.rs:89-132", "src/cubic_bezier.rs:366-409"]}
{"id": "C143", "title": "dd in floating point", "statement": "In IEEE arithmetic dd(t, axis) of a quadratic or cubic with control coordinates at most M and 16 M below overflow is finite and within a constant times (u M + eta) of the derivative of the exact curve at t: 44 for quadratics, 205 for cubics.", "quantifier": "every binary format of at least 11 bits, dimension, axis, t in [0,1], curve", "why_tests_cant": "Concerns all floating-point inputs of all formats at once, against an exact derivative.", "anchors": ["src/quadratic_bezier.rs:100-107", "src/cubic_bezier.rs:138-149"]}
{"id": "C144", "title": "axis(t, i) is the coordinate of eval(t) in every arithmetic", "statement": "axis(t, i) of a line, quadratic or cubic returns exactly coordinate i of eval(t), whatever the scalar type and its rounding, and panics for the same axes.", "quantifier": "every scalar type, point type with componentwise operations, curve, t and axis", "why_tests_cant": "Equality of results in all scalar types and roundings at once.", "anchors": ["src/line.rs:82-84", "src/quadratic_bezier.rs:70-78", "src/cubic_bezier.rs:60-71"]}
