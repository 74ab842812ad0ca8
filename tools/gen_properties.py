import json
P=[]
def p(id,title,statement,quant,why,*anchors):
    P.append(dict(id=id,title=title,statement=statement,quantifier=quant,why_tests_cant=why,anchors=list(anchors)))

p("C01","PointN is a coordinate-wise vector space",
 "Addition, subtraction and scaling of points act on each coordinate separately; the default point is the origin; == holds exactly when all coordinates are equal; squared_length is the sum of the squared coordinates. No coordinate is dropped or mixed with another.",
 "every dimension N, every pair of points, every scale factor, every coordinate index",
 "There are infinitely many dimensions and coordinate values; a test fixes one N and a few literals.",
 "src/point_generic.rs: impl Add/Sub/Mul/PartialEq/Default for PointN","src/point_generic.rs: Point::squared_length","src/point.rs: trait Point")
p("C02","axis(i) returns coordinate i or panics, exactly at the dimension",
 "p.axis(i) returns the i-th coordinate when i < N and panics for every i >= N (the documentation only promises a panic for i greater than the dimension; i == N also panics).",
 "every dimension, point and index",
 "Needs all index/dimension pairs, including the boundary index for every N.",
 "src/point_generic.rs: Point::axis","src/point.rs: Point::axis")
p("C03","LineSegment::eval interpolates its end points",
 "eval(t) has coordinates (1-t)*start + t*end; eval(0) is start and eval(1) is end; for t in [0,1] the point lies between the end points in every coordinate.",
 "every segment in every dimension and every parameter",
 "A universally quantified identity over the reals.",
 "src/line.rs: LineSegment::eval")
p("C04","LineSegment::split cuts the segment at eval(t)",
 "If (l,r) = s.split(t) then l.eval(u) == s.eval(t*u) and r.eval(u) == s.eval(t + u*(1-t)) for every u: both halves trace the original segment and meet at s.eval(t).",
 "every segment, split parameter and sampling parameter",
 "The repository has no test of LineSegment::split at all; the identity ranges over all parameters.",
 "src/line.rs: LineSegment::split")
p("C05","LineSegment::distance_to_point is the distance to the nearest point of the segment",
 "The returned number equals the minimum over u in [0,1] of the Euclidean distance from p to eval(u).",
 "every segment and query point in every dimension",
 "A minimum over a continuum, for a continuum of inputs.",
 "src/line.rs: LineSegment::distance_to_point")
p("C06","LineSegment::distance_to_point never underestimates",
 "The returned number is always the distance from p to some point of the segment, so it is never smaller than the true distance.",
 "every segment and query point in every dimension",
 "Universally quantified inequality over the reals.",
 "src/line.rs: LineSegment::distance_to_point")
p("C07","LineSegment::bounding_box is the exact box of the segment",
 "On each axis the returned pair (lo, hi) satisfies lo <= eval(t).axis(i) <= hi for every t in [0,1] and both bounds are attained.",
 "every segment, dimension, axis and parameter in [0,1]",
 "Containment of a continuum of points.",
 "src/line.rs: LineSegment::bounding_box")
p("C08","LineSegment::derivative and axis agree with eval",
 "derivative() is the derivative of t -> eval(t) at every t, and axis(t,i) == eval(t).axis(i).",
 "every segment, parameter and axis",
 "A limit statement at every parameter.",
 "src/line.rs: LineSegment::derivative, LineSegment::axis")
p("C09","QuadraticBezier eval and eval_casteljau both compute the Bernstein polynomial",
 "eval(t) == eval_casteljau(t) == (1-t)^2 start + 2t(1-t) ctrl + t^2 end in exact arithmetic; eval(0)=start, eval(1)=end.",
 "every quadratic curve, dimension and real parameter",
 "Polynomial identity over all reals.",
 "src/quadratic_bezier.rs: eval, eval_casteljau")
p("C10","QuadraticBezier::split reproduces the curve",
 "If (l,r)=c.split(t) then l.eval(u)=c.eval(t*u) and r.eval(u)=c.eval(t+u*(1-t)) for all u.",
 "every curve, split parameter and sampling parameter",
 "The test fixes one curve and t=0.5.",
 "src/quadratic_bezier.rs: split")
p("C11","QuadraticBezier::derivative is the derivative",
 "derivative().eval(t) is the derivative of eval at t, on every axis.",
 "every curve, parameter and axis","A limit at every parameter.",
 "src/quadratic_bezier.rs: derivative")
p("C12","QuadraticBezier::dd and axis are the advertised shortcuts",
 "dd(t,i) == derivative().eval(t).axis(i) and axis(t,i) == eval(t).axis(i).",
 "every curve, parameter and axis","Identity over all reals; no test covers dd.",
 "src/quadratic_bezier.rs: dd, axis")
p("C13","QuadraticBezier::bounding_box contains the curve",
 "For every t in [0,1] and axis i, bounds[i].0 <= eval(t).axis(i) <= bounds[i].1, up to a slack of EPSILON caused by treating |a| < EPSILON as no extremum.",
 "every curve, axis and parameter in [0,1]","Containment of a continuum; the test samples 100 parameters of one curve with 1e-2 slack.",
 "src/quadratic_bezier.rs: bounding_box","src/line.rs: LineSegment::root")
p("C14","QuadraticBezier::bounding_box is tight",
 "Each returned bound is a coordinate actually taken by the curve at some t in [0,1].",
 "every curve and axis","Existential over a continuum for all curves.",
 "src/quadratic_bezier.rs: bounding_box")
p("C15","is_linear(tol) is sound for quadratic and cubic curves",
 "If is_linear(tol) returns true then every point of the curve (t in [0,1]) is within tol of the baseline segment.",
 "every curve, tolerance and parameter in [0,1]","Quantifies over all curve points and all tolerances.",
 "src/quadratic_bezier.rs: is_linear","src/cubic_bezier.rs: is_linear")
p("C16","is_linear accepts every curve whose control points lie within tol of the baseline segment",
 "If start and end are distinct (squared distance at least EPSILON) and all inner control points are within tol of the baseline segment, is_linear(tol) returns true.",
 "every curve and tolerance","Completeness over all control polygons.",
 "src/quadratic_bezier.rs: is_linear","src/cubic_bezier.rs: is_linear","src/line.rs: distance_to_point")
p("C17","is_a_point(tol) bounds the whole curve",
 "is_a_point(tol) is true exactly when the listed control point distances are at most |tol|, and then every curve point is within |tol| (quadratic) or 2|tol| (cubic) of start.",
 "every curve, tolerance and parameter in [0,1]","Quantifies over all curve points.",
 "src/quadratic_bezier.rs: is_a_point","src/cubic_bezier.rs: is_a_point")
p("C18","CubicBezier eval and eval_casteljau both compute the Bernstein polynomial",
 "eval(t) == eval_casteljau(t) == (1-t)^3 start + 3t(1-t)^2 ctrl1 + 3t^2(1-t) ctrl2 + t^3 end in exact arithmetic; the end points are interpolated.",
 "every cubic curve, dimension and real parameter","Polynomial identity over all reals.",
 "src/cubic_bezier.rs: eval, eval_casteljau")
p("C19","CubicBezier::split reproduces the curve",
 "If (l,r)=c.split(t) then l.eval(u)=c.eval(t*u) and r.eval(u)=c.eval(t+u*(1-t)) for all u.",
 "every curve, split parameter and sampling parameter","The test fixes one curve and t=0.5.",
 "src/cubic_bezier.rs: split")
p("C20","CubicBezier::derivative is the derivative",
 "derivative().eval(t) is the derivative of eval at t, on every axis.",
 "every curve, parameter and axis","A limit at every parameter.",
 "src/cubic_bezier.rs: derivative")
p("C21","CubicBezier::dd is the advertised shortcut for derivative().eval(t).axis(i)",
 "dd(t,i) == derivative().eval(t).axis(i) for all t and i.",
 "every curve, parameter and axis","Identity over all reals; no test covers dd.",
 "src/cubic_bezier.rs: dd")
p("C22","CubicBezier::bounding_box contains the curve",
 "For every t in [0,1] and axis i, eval(t).axis(i) lies in bounds[i] up to a slack of a small multiple of EPSILON caused by the EPSILON thresholds of the root finder.",
 "every curve, axis and parameter in [0,1]","Containment of a continuum; the test samples one curve with 1e-2 slack.",
 "src/cubic_bezier.rs: bounding_box","src/quadratic_bezier.rs: real_roots")
p("C23","CubicBezier::bounding_box is tight",
 "Each returned bound is a coordinate actually taken by the curve at some t in [0,1].",
 "every curve and axis","Existential over a continuum for all curves.",
 "src/cubic_bezier.rs: bounding_box")
p("C24","CubicBezier::axis equals eval(t).axis(i)",
 "axis(t,i) == eval(t).axis(i) for every t and i, in exact arithmetic; it panics exactly when i is not a coordinate index.",
 "every curve, parameter and axis","Identity over all reals.",
 "src/cubic_bezier.rs: axis")
p("C25","baseline and control_points return the curve's own points",
 "baseline() joins eval(0) to eval(1); control_points() lists the constructor's arguments in order, so rebuilding a curve from it gives the same curve.",
 "every quadratic, cubic and generic curve","Universal round trip.",
 "src/quadratic_bezier.rs: baseline, control_points","src/cubic_bezier.rs: baseline, control_points","src/bezier.rs: control_points")
p("C26","Generic Bezier::eval is the Bernstein form for every degree",
 "For a curve with N >= 1 control points eval(t) = sum_i binom(N-1,i) t^i (1-t)^(N-1-i) P_i; no index is out of range.",
 "every N >= 1, control polygon, dimension and real parameter","All degrees at once.",
 "src/bezier.rs: eval")
p("C27","Generic Bezier interpolates its end points",
 "eval(0) is the first control point and eval(1) the last.",
 "every N >= 1 and control polygon","All degrees at once.",
 "src/bezier.rs: eval")
p("C28","Generic Bezier::split reproduces the curve for every degree",
 "If (l,r)=c.split(t) then l.eval(u)=c.eval(t*u) and r.eval(u)=c.eval(t+u*(1-t)) for all u, and both halves have N control points.",
 "every N >= 1, curve, split parameter and sampling parameter","All degrees at once; the test fixes N=4 and t=0.5.",
 "src/bezier.rs: split")
p("C29","Generic Bezier::derivative is the derivative for every degree",
 "For N >= 2, derivative() has N-1 control points and derivative().eval(t) is the derivative of eval at t on every axis.",
 "every N >= 2, curve, parameter and axis","All degrees at once; no test covers derivative.",
 "src/bezier.rs: derivative")
p("C30","Generic Bezier operations do not panic",
 "eval, split and derivative return for every curve that can be constructed.",
 "every N and curve","Quantifies over all N including the degenerate ones.",
 "src/bezier.rs: eval, split, derivative")
p("C31","Generic and specialised types agree",
 "Bezier with 2, 3, 4 control points evaluates, splits and differentiates exactly like LineSegment (evaluation and derivative), QuadraticBezier and CubicBezier.",
 "every control polygon and parameter","The tests compare one curve each at 1001 parameters, eval only.",
 "src/bezier.rs: eval, split, derivative","src/quadratic_bezier.rs","src/cubic_bezier.rs","src/line.rs")
p("C32","Curves stay in the convex hull of their control points",
 "For t in [0,1], eval(t) is a convex combination of the control points, hence within their coordinate-wise range.",
 "every curve of every degree and parameter in [0,1]","Continuum of parameters, all degrees.",
 "src/bezier.rs: eval","src/quadratic_bezier.rs: eval","src/cubic_bezier.rs: eval","src/line.rs: eval")
p("C33","Curves are affinely invariant and reversible",
 "Applying an affine map (scaling plus translation) to the control points applies it to every curve point; reversing the control points gives t -> eval(1-t).",
 "every curve of every degree, map and parameter","Universal identity.",
 "src/bezier.rs: eval")
p("C34","arclen(n) is the length of the n-chord polyline",
 "arclen(n) equals the sum over i in 0..n of |eval((i+1)/n) - eval(i/n)|, the linear approximation with n straight segments.",
 "every curve type, curve and step count n >= 1","Quantifies over all step counts and curves; the only test allows 1e-2 at n=1000.",
 "src/quadratic_bezier.rs: arclen","src/cubic_bezier.rs: arclen","src/bezier.rs: arclen")
p("C35","arclen never exceeds the true arc length and converges to it",
 "arclen(n) is at most the integral of |B'| over [0,1], and tends to it as n grows: the deficit is at most g^2 L/n for degree g and control legs of length at most L. Where the speed stays at least v > 0, all but the missing first chord of that deficit is O(1/n^2).",
 "every curve, every n","A limit statement.",
 "src/quadratic_bezier.rs: arclen","src/cubic_bezier.rs: arclen","src/bezier.rs: arclen")
p("C36","distance_to_point of a curve never underestimates",
 "The result is at least the minimum over t in [0,1] of the distance from the query point to eval(t).",
 "every curve and query point","Minimum over a continuum.",
 "src/bezier.rs: distance_to_point","src/quadratic_bezier.rs: distance_to_point","src/cubic_bezier.rs: distance_to_point")
p("C37","distance_to_point of a curve overestimates by at most the coarse step",
 "The result is at most the distance to eval(t) plus L/64 for every t in [0,1], where L is degree times the longest control polygon leg; in particular it is at most the distance to each of the 64 coarse samples and to the start point.",
 "every curve, query point and t in [0,1]","Continuum of t, all curves.",
 "src/bezier.rs: distance_to_point","src/quadratic_bezier.rs: distance_to_point","src/cubic_bezier.rs: distance_to_point")
p("C38","BSpline::new accepts exactly the valid inputs",
 "new returns Ok exactly when C > D, K = C + D + 1 and no knot is greater than its successor; otherwise it returns TooFewControlPoints, TooFewKnots, TooManyKnots or DecreasingKnots, in that order of precedence. It never panics and stores knots and control points unchanged.",
 "every K, C, D, knot vector and control polygon","All sizes and orders.",
 "src/bspline.rs: BSpline::new")
p("C39","A constructed BSpline has a non-decreasing knot vector",
 "Every spline returned by new has knots[i] <= knots[j] for all i <= j.",
 "every accepted knot vector, including NaN and infinite knots","NaN comparisons and all lengths.",
 "src/bspline.rs: BSpline::new")
p("C40","knot_domain is [knots[D], knots[C]]",
 "The domain on which a degree D spline over C control points is defined runs from knots[D] to knots[C]; knot_domain returns it.",
 "every accepted spline of every clamping kind","All sizes and kinds.",
 "src/bspline.rs: knot_domain and its four helpers")
p("C41","eval rejects exactly the parameters outside knot_domain",
 "eval(t) is Err(KnotDomainViolation) when t is outside the inclusive range returned by knot_domain, and is never that error when t is inside.",
 "every accepted spline and parameter","All knot vectors and parameters.",
 "src/bspline.rs: eval")
p("C42","eval of a clamped BSpline never panics and always terminates",
 "For a spline classified as clamped at both ends, eval returns (a point or an error) for every parameter whatever its bits, including NaN and infinities, for every knot vector accepted by new, including NaN knots.",
 "every C, D, knot vector and parameter, under any comparison semantics","Index arithmetic over all sizes and all float bit patterns.",
 "src/bspline.rs: eval, de_boor_iterative, knot_span_start_for_t_clamped")
p("C43","eval never panics for a parameter inside knot_domain",
 "For every spline accepted by new and every t inside knot_domain, eval returns a point without panicking.",
 "every accepted spline and parameter in its domain","All sizes, kinds and parameters.",
 "src/bspline.rs: eval, de_boor_iterative, knot_span_start_for_t*")
p("C44","eval computes the B-spline curve",
 "For t in the domain eval(t) = sum_i N_{i,D}(t) P_i with the Cox-de Boor basis functions of the knot vector.",
 "every accepted spline and parameter in its domain","Universal functional correctness; the tests only look at end points and at is_ok.",
 "src/bspline.rs: de_boor_iterative")
p("C45","A clamped BSpline starts and ends at its first and last control point",
 "For a clamped spline eval(kmin) is the first control point and eval(kmax) the last.",
 "every clamped spline","All sizes and knot vectors.",
 "src/bspline.rs: eval, de_boor_iterative")
p("C46","eval of a NaN parameter is an error",
 "eval(NaN) returns Err(KnotDomainViolation), never a point, for every spline with finite knots.",
 "every accepted spline","All sizes and kinds.",
 "src/bspline.rs: eval")
p("C47","BSpline::derivative is the derivative spline",
 "derivative() has degree D-1, C-1 control points, a knot vector of matching length (K = C + D + 1 holds for it too) and evaluates to the derivative of the spline.",
 "every accepted spline with D >= 1 and parameter","All sizes; the source says TODO test & verify.",
 "src/bspline.rs: derivative")
p("C48","BSpline::arclen approximates the length of the curve",
 "arclen(n) is the length of a polyline through points of the curve; it does not depend on where the origin is.",
 "every spline and step count","Universal; no test covers it.",
 "src/bspline.rs: arclen")
p("C49","Knot span searches terminate and return the span containing t",
 "The binary search terminates for every knot vector and parameter, and for t in the domain returns an index k with D <= k < C and knots[k] <= t < knots[k+1].",
 "every accepted spline, kind and parameter","Termination and all sizes.",
 "src/bspline.rs: knot_span_start_for_t_unclamped, _clamped, _clamped_start, _clamped_end")
p("C50","Local control",
 "For t in the span [knots[k], knots[k+1]) of a clamped spline, eval(t) depends only on control points k-D..k.",
 "every clamped spline, parameter and change of other control points","Relates all pairs of control polygons.",
 "src/bspline.rs: de_boor_iterative")
p("C51","BezierSegment behaves like the curve it wraps",
 "eval, start, end, baseline, is_linear and split of a BezierSegment equal those of the wrapped curve; start() is eval(0), end() is eval(1).",
 "every segment of every kind and parameter","All variants and parameters.",
 "src/bezier_segment.rs: BezierSegment")
p("C52","BezierSegment::split keeps the kind and reproduces the curve",
 "Both halves have the kind of the original; left.eval(u)=eval(t*u), right.eval(u)=eval(t+u(1-t)).",
 "every segment of every kind, t and u","All variants and parameters.",
 "src/bezier_segment.rs: split")
p("C53","End point evaluation is exact in floating point",
 "In IEEE 754 arithmetic with rounding to nearest, Bezier::eval and CubicBezier::eval return exactly the first control point at t = 0 and exactly the last at t = 1, for every finite control polygon.",
 "every degree, every finite float control polygon","All 2^64 bit patterns per coordinate.",
 "src/bezier.rs: eval","src/cubic_bezier.rs: eval")
p("C54","Generic evaluation is numerically stable",
 "For t in [0,1] and finite control points of magnitude at most M (far from overflow), every coordinate of Bezier::eval(t) in IEEE arithmetic differs from the exact Bezier point by at most a small multiple of N*u*M (u the unit roundoff) plus underflow terms.",
 "every degree, float control polygon and float t in [0,1]","A worst-case bound over all floats.",
 "src/bezier.rs: eval")
p("C55","Specialised evaluation is accurate in floating point",
 "For t in [0,1] and control points of magnitude at most M, LineSegment, QuadraticBezier and CubicBezier eval and eval_casteljau are within a fixed multiple of u*M of the exact point.",
 "every float curve and float t in [0,1]","A worst-case bound over all floats.",
 "src/line.rs: eval","src/quadratic_bezier.rs: eval, eval_casteljau","src/cubic_bezier.rs: eval, eval_casteljau")
p("C56","bounding_box does not panic on finite curves",
 "LineSegment::bounding_box never panics; QuadraticBezier and CubicBezier bounding_box do not panic (the sort's unwrap never sees NaN) when all control point coordinates are finite floats, even if intermediate results overflow.",
 "every curve with finite float coordinates","All float bit patterns, overflow cases included.",
 "src/quadratic_bezier.rs: bounding_box","src/cubic_bezier.rs: bounding_box","src/line.rs: bounding_box")
p("C57","bounding_box panics when an end point coordinate is NaN",
 "For quadratic and cubic curves with a NaN coordinate in start or end, bounding_box panics rather than returning a wrong box.",
 "every such curve","All float bit patterns.",
 "src/quadratic_bezier.rs: bounding_box","src/cubic_bezier.rs: bounding_box")
p("C58","Quadratic root finding is sound and complete",
 "The roots returned for a*t^2+b*t+c are exactly its real roots whenever the EPSILON thresholds do not apply, at most two, in the order (-b-sqrt)/(2a), (-b+sqrt)/(2a).",
 "all real coefficients","Universal over coefficients.",
 "src/quadratic_bezier.rs: real_roots","src/roots.rs: roots_square")
p("C59","Cubic root finding returns roots",
 "Every value returned by the Cardano solver is a root of a*t^3+b*t^2+c*t+d, and every real root is returned.",
 "all real coefficients with |a| >= EPSILON","Universal over coefficients.",
 "src/roots.rs: roots_cubic","src/cubic_bezier.rs: real_roots")
p("C60","Clamping of alpha keeps B-spline evaluation a convex combination",
 "For a clamped spline every interpolation weight used by eval lies in [0,1], so each coordinate of the result stays in the range spanned by the contributing control points and the origin.",
 "every clamped spline and parameter in the domain","Universal over knots and parameters.",
 "src/bspline.rs: de_boor_iterative")
p("C61","BSpline::new classifies the knot vector correctly",
 "The stored kind is clamped at the start exactly when knots[D] - knots[0] < EPSILON and clamped at the end exactly when knots[K-1] - knots[C] < EPSILON; Clamped means both, Unclamped neither.",
 "every accepted spline","All knot vectors of all sizes; the kind is private and selects three different code paths.",
 "src/bspline.rs: new")
p("C62","A returned bounding box contains both end points, in floating point",
 "Whenever bounding_box of a quadratic or cubic curve returns (and always for a line without NaN coordinates), on every axis lo <= start, start <= hi, lo <= end and end <= hi as float comparisons.",
 "every float curve, including infinite coordinates and overflowing extrema","All bit patterns; overflow inside the root finder.",
 "src/line.rs: bounding_box","src/quadratic_bezier.rs: bounding_box","src/cubic_bezier.rs: bounding_box")
p("C63","Line and quadratic evaluation reproduce the end points in floating point",
 "QuadraticBezier::eval and LineSegment::eval return exactly the start point at t = 0 and exactly the end point at t = 1.",
 "every finite float curve","All bit patterns per coordinate.",
 "src/line.rs: eval","src/quadratic_bezier.rs: eval")
p("C64","Solving for a coordinate value finds the parameters",
 "solve_t_for_axis(value, axis) returns exactly the parameters in [0,1] at which the curve's coordinate on that axis equals value.",
 "every quadratic and cubic whose end points differ, axis and value","Universal over curves and values.",
 "src/quadratic_bezier.rs: solve_t_for_axis","src/cubic_bezier.rs: solve_t_for_axis")
p("C65","B-spline evaluation returns finite points in floating point",
 "If the knot vector is clamped at one end or both and all knots are finite of magnitude at most MAX/2, then for every parameter in [knots[D], knots[C]] eval returns Ok with finite coordinates, of magnitude at most M(1 + 6*D*u) + 5*D*eta for control points of magnitude at most M, never EvaluationAlphaIsNaN; at knots[C] the result is the last control point, bit for bit.",
 "every binary format with at least 11 bits, degree D with 6*D*u <= 1, spline with 4M <= MAX, and parameter","All bit patterns; overflow and 0/0 inside the weights.",
 "src/bspline.rs: eval","src/bspline.rs: de_boor_iterative")
p("C66","Rounding error of B-spline evaluation",
 "Under the conditions of C65, at a parameter that is at, or at least EPSILON past, each knot below it, eval differs from the exact value of the curve it computes (the Cox-de Boor sum without the term of the last contributing control point, see C44) by at most 15*D*u*M + 5*D*eta per coordinate.",
 "every binary format with at least 11 bits, degree D with 6*D*u <= 1, spline with 4M <= MAX, and parameter","Universal error bound over all bit patterns.",
 "src/bspline.rs: eval","src/bspline.rs: de_boor_iterative")
p("C67","Splitting a Bezier curve in floating point",
 "split at a finite t in [0,1] of a quadratic, cubic or N-point Bezier whose coordinates are finite and at most M (4M <= largest float) gives two curves with finite control points. They share the split point and keep the outer end points bit for bit. For every s in [0,1] the exact curve through the left half's control points at s is within 11uM+3eta (cubic: 16uM+4eta, degree n: 6n*uM+5n*eta) of the original exact curve at t*s, and the right half likewise at t+s(1-t).",
 "every binary format with at least 11 bits, every dimension, curve (of degree n with 6*n*u <= 1), t and s","Universal bound over all bit patterns and all parameters of both halves; tests only compare sampled points of one curve.",
 "src/quadratic_bezier.rs: split","src/cubic_bezier.rs: split","src/bezier.rs: split")
p("C68","Derivative curves in floating point",
 "derivative of a line, quadratic, cubic or N-point Bezier with finite coordinates of size at most M has finite control points, and the exact curve through them is within 2uM (line), 10uM+eta, 15uM+eta, 5n*uM+eta of the derivative (the calculus limit) of the exact original curve at every s in [0,1].",
 "every binary format with at least 11 bits, every dimension, curve and s","Universal bound over bit patterns; the reference is an analytic derivative.",
 "src/line.rs: derivative","src/quadratic_bezier.rs: derivative","src/cubic_bezier.rs: derivative","src/bezier.rs: derivative")
p("C69","arclen in floating point",
 "arclen(n) of a quadratic, cubic or N-point Bezier with bounded finite coordinates and 1 <= n <= 1/(4u) never overflows or returns NaN, is not negative, evaluates the curve only at parameters in [0,1] (the computed i/n and i/n + 1/n), and differs from the exact length of the polyline through the exact curve points at 1/n, 2/n, ..., 1 by at most 2n*sqrt(D)*((6D+44g+14)uM + 6 sqrt(eta)) where g is the degree and D the dimension. Against the true arc length of the exact curve the error is that plus at most g^2 L/n.",
 "every binary format with at least 11 bits, every dimension D and curve of degree g with 64(D+1)u <= 1, 6gu <= 1 and (12(D+g)(M+1))^2 <= MAX, and number of steps","Universal error bound including the accumulation over n steps and rounding of the parameters i/n + 1/n.",
 "src/quadratic_bezier.rs: arclen","src/cubic_bezier.rs: arclen","src/bezier.rs: arclen")
p("C70","distance_to_point in floating point",
 "distance_to_point of a quadratic, cubic or N-point Bezier, for finite bounded control points and query point, is finite and not negative, and for every x in [0,1] exceeds the distance from the query point to the exact curve point at x by at most sqrt(D)*(gM/32 + (6D+44g+14)uM + 6 sqrt(eta)), although the second search pass may evaluate outside [0,1].",
 "every binary format with at least 11 bits, every dimension D and curve of degree g with 64(D+1)u <= 1, 6gu <= 1 and (12(D+g)(M+1))^2 <= MAX, query point and curve parameter","Universal bound over bit patterns and over the whole curve, not only the sampled parameters.",
 "src/quadratic_bezier.rs: distance_to_point","src/cubic_bezier.rs: distance_to_point","src/bezier.rs: distance_to_point")
p("C71","The parameters for which BSpline::eval panics",
"For a spline accepted by new: ClampedStart panics exactly for t in [knots[C+1], knots[C+D]) other than knots[C]; ClampedEnd exactly for t in [knots[0], knots[D]); Unclamped exactly when every index of at most C probed by the right-only search has its span end at or before t; everywhere else in the reported domain a point is returned.",
"every accepted spline of a kind other than Clamped (which never panics inside its domain, see C43) and every real parameter",
"An equivalence over all parameters and sizes; the panic range of the unclamped search depends on the number of knots.",
"src/bspline.rs: eval, de_boor_iterative, knot_span_start_for_t_unclamped, _clamped_start, _clamped_end")
p("C72","Boxes of segments and quadratics in floating point",
"In floating point the bounding box of a segment with finite end points holds the exact segment and both bounds are end points. The box of a quadratic with coordinates of size at most M is returned without a panic, holds the exact curve of the given control points up to EPSILON/8 + 54uM + 9eta on every axis, and each bound is within 11uM + 3eta of a value of the curve.",
"every binary format with at least 11 bits, every dimension, every segment and quadratic whose vertex parameter cannot overflow",
"A claim about every point of the curve and every bit pattern; sampled points inside the box do not show it.",
"src/line.rs: bounding_box, root","src/quadratic_bezier.rs: bounding_box")
p("C73","Boxes of cubics in floating point",
"In floating point the bounding box of a cubic with coordinates of size at most M holds the exact curve up to a small multiple of uM.",
"every binary format with at least 11 bits, every dimension and cubic",
"The failing curves are degree-elevated parabolas with decimal coordinates: the cubic coefficient is pure rounding noise just above EPSILON and the quadratic formula cancels; random tests do not hit them.",
"src/cubic_bezier.rs: bounding_box","src/quadratic_bezier.rs: real_roots")
p("C74","Four cubics draw the unit circle within 0.019608 percent",
"With the constant of the crate's test, every point eval(t), t in [0,1], of each of the four quadrant cubics is within 0.00019608 of the unit circle, and the middle point is off by at least 0.00019607. In floating point the same holds up to 128u, and in f64 the assertion of circle_approximation_error holds for every f64 parameter in [0,1].",
"every real parameter in [0,1]; every finite float parameter in [0,1]; every constant within the test literal's rounding",
"The test samples 1001 parameters; the extremum of a degree 6 polynomial is needed, and the margin is about 1e-9.",
"src/cubic_bezier.rs: circle_approximation_error, eval")
p("C75","The circumference of the four quadrant cubics is 2 pi to two places",
"For every number of steps from 1000 on the four arclen results sum to within 0.01 of 2 pi; in f64 for every number of steps from 1000 to 10^9, sums included.",
"every number of steps","The test uses 1000 steps only; a bound for all step counts needs the error of the chords and the accumulated rounding.",
"src/cubic_bezier.rs: circle_circumference_approximation, arclen")
p("C76","Repeated halving",
"k rounds of split(1/2) turn a quadratic, cubic or N-point Bezier into 2^k pieces of the same degree; piece i is the curve over [i/2^k,(i+1)/2^k], its control polygon has legs 2^k times and second differences 4^k times smaller, is_a_point(tol) holds from 2^k >= (legs)/tol on, is_linear(tol) as long as the chord is not below sqrt(EPSILON) and never below it, and the curve stays within (second difference)/2/4^k (quadratic; 3/2 for a cubic) of the chords returned by baseline.",
"every curve, every number of rounds, every tolerance, every parameter",
"Statement over all depths of a recursion and all curve points; the case in which flattening on is_linear alone never stops needs pieces shorter than 1.5e-8.",
"src/quadratic_bezier.rs: split, is_linear, is_a_point, baseline","src/cubic_bezier.rs: split, is_linear, is_a_point, baseline","src/bezier.rs: split")
p("C77","Arc length under refinement, split and reversal",
"arclen(n) <= arclen(n*m) <= true length <= length of the control polygon; the true length is at least the distance of the end points, is the sum of the lengths of the two halves of split, and does not change when the control points are reversed, whereas arclen changes by the difference of the last and first chord.",
"every quadratic, cubic and N-point Bezier, every n, m >= 1, every split parameter in [0,1]",
"Relates results for infinitely many step counts to an integral; tests compare single values with a tolerance.",
"src/quadratic_bezier.rs: arclen, split","src/cubic_bezier.rs: arclen, split","src/bezier.rs: arclen, split")
p("C78","Moving, turning, mirroring, scaling and embedding curves",
"eval and split commute with every affine map between point types (also of different dimension); arclen, distance_to_point and the tolerance of is_a_point scale with every similarity; the distance to a segment and is_linear do as long as the scaled chord stays on its side of EPSILON, so always for isometries; bounding boxes move with a translated curve.",
"every curve, parameter, step count, tolerance and query point, every affine map, similarity or translation",
"Quantifies over all maps and curves; the chords for which scaling fails are shorter than 1.5e-8.",
"src/line.rs: eval, distance_to_point, bounding_box","src/quadratic_bezier.rs: eval, split, arclen, distance_to_point, is_linear, is_a_point, bounding_box","src/cubic_bezier.rs: eval, split, arclen, distance_to_point, is_linear, is_a_point, bounding_box","src/bezier.rs: eval, split, arclen, distance_to_point")
p("C79","B-splines move with their control points",
"Applying an affine map to the control points of a B-spline applies it to every evaluated point.",
"every spline, parameter and affine map",
"Quantifies over all maps; each test fixes one set of control points.",
"src/bspline.rs: new, eval, de_boor_iterative, derivative, arclen")
p("C80","Distance to a line segment in floating point",
"For finite coordinates the computed distance_to_point of a segment is finite and is, up to an explicit rounding error, the distance to some point of the segment, so it never underestimates the true distance by more; it is the true distance whenever the perpendicular meets the line before the end, and the distance to the start when it meets it beyond the end.",
"every binary format with at least 11 bits, dimension D with 64(D+1)u <= 1, segment and point with coordinates up to M, 64(D+1)(M+1)^2 <= MAX",
"The projection parameter is a rounded quotient that may be NaN or infinite; tests compare a handful of values with a tolerance.",
"src/line.rs: distance_to_point")
p("C81","Flatness tests in floating point",
"A quadratic or cubic accepted by is_linear in floating point lies, as an exact curve, within the tolerance plus a rounding error of its baseline; one accepted by is_a_point lies within the tolerance (twice for cubics) of its start. Both accept curves that satisfy the condition with a margin of the same size.",
"every binary format with at least 11 bits, dimension D with 64(D+1)u <= 1, curve with coordinates up to M, 64(D+1)(M+1)^2 <= MAX, tolerance, and every parameter of the exact curve",
"Tests evaluate the predicate on a few curves and never relate it to all points of the curve.",
"src/quadratic_bezier.rs: is_linear, are_points_colinear, is_a_point","src/cubic_bezier.rs: is_linear, are_points_colinear, is_a_point")
p("C82","The assertions of the crate's tests, for every curve and parameter",
"In floating point, eval and eval_casteljau of a quadratic or cubic, the specialised and the generic evaluation, and the halves of split against the whole curve (at any split parameter, in particular the expressions t / 2 and t * 0.5 + 0.5 used at 0.5) pass the comparison (p - q).squared_length() < EPSILON; points evaluated on a quadratic pass the containment test axis >= lo - e && axis <= hi + e for every tolerance e of at least 70 roundoffs.",
"every binary format, dimension, curve with coordinates up to M (M^2 small against 1/EPSILON), every parameter and split parameter in [0,1]",
"The tests of the crate assert this for a handful of curves at 101 or 1001 parameters and one split parameter.",
"src/quadratic_bezier.rs: eval, eval_casteljau, split, bounding_box","src/cubic_bezier.rs: eval, eval_casteljau, split","src/bezier.rs: eval, split")
p("C83","The same curve with one more control point",
"Degree elevation, q_j = j/n p_(j-1) + (1 - j/n) p_j for n control points, does not change what any method reports: eval, arclen and distance_to_point agree, split and derivative of the raised curve are the raised halves and the raised derivative, and a segment raised to a quadratic, or a quadratic raised to a cubic, keeps its bounding box exactly.",
"every segment, quadratic and N-point Bezier, every parameter, step count and query point",
"Relates the implementations for two different degrees at all parameters; no test compares curves of different degree.",
"src/bezier.rs: eval, split, derivative, arclen, distance_to_point","src/quadratic_bezier.rs: eval, split, derivative, arclen, distance_to_point, bounding_box","src/cubic_bezier.rs: eval, split, derivative, arclen, distance_to_point, bounding_box","src/line.rs: eval, bounding_box")
p("C84","A curve is determined by as many of its points as it has control points",
"Two curves with n control points whose eval agrees at n distinct parameters have the same control points (2 for a segment, 3 for a quadratic, 4 for a cubic); a curve with n+1 control points agreeing with one with n at n+1 parameters is its degree elevation. So sampling a curve loses nothing, and fewer samples do not suffice.",
"every pair of curves, every set of distinct parameters (inside or outside [0,1])",
"Uniqueness over all curves; a test can only exhibit samples.",
"src/line.rs: eval","src/quadratic_bezier.rs: eval","src/cubic_bezier.rs: eval","src/bezier.rs: eval")
p("C85","Variation diminishing",
"A line (plane, hyperplane) crosses the curve inside (0,1) no more often than it crosses the control polygon, unless it contains all control points; and it meets the curve, at any parameters, no more often than the degree.",
"every quadratic, cubic and N-point Bezier in every dimension, every hyperplane, every set of parameters",
"Counts the zeros of all polynomials of a degree (Descartes' rule of signs); a test samples parameters and cannot count crossings.",
"src/bezier.rs: eval","src/quadratic_bezier.rs: eval","src/cubic_bezier.rs: eval")
p("C86","Control points in order give a curve in order",
"If the control points come in order along some direction, so do the evaluated points for rising parameters in [0,1]; on an axis on which they are in order the bounding box of a quadratic or cubic is exactly the interval of its end points, and the box contains both end points without slack in any case.",
"every quadratic, cubic and N-point Bezier, every direction, every pair of parameters in [0,1]",
"Order at all pairs of parameters; exactness of the box although the extremum search drops or invents roots near EPSILON.",
"src/bezier.rs: eval","src/quadratic_bezier.rs: eval, bounding_box","src/cubic_bezier.rs: eval, bounding_box")
p("C87","Bounding boxes of reversed and of split curves",
"A segment or quadratic run backwards has exactly the same bounding box; so has a cubic unless a third difference is nonzero but below EPSILON, and then the two boxes differ by 3/8 EPSILON at most. The boxes of the two pieces of a split lie in the box of the whole curve and together reach its bounds, up to EPSILON/8 (quadratic) or 3/8 EPSILON (cubic); exactly inside where the leading difference is not below EPSILON.",
"every segment, quadratic and cubic, every split parameter in [0,1], every axis",
"Compares boxes of different curves for all inputs; the exception needs control points a fraction of EPSILON apart.",
"src/line.rs: bounding_box","src/quadratic_bezier.rs: bounding_box, split","src/cubic_bezier.rs: bounding_box, split")
p("C88","Moving control points or the parameter a little moves results a little",
"If every control point moves by d at most, eval at any t in [0,1] moves by d at most, arclen at any step count and the true length of a curve of degree n by 2 n d at most, and each bound of the box by d (up to the slack of the box). If the parameter moves by h, eval moves by n times the longest leg of the control polygon times h at most.",
"every pair of quadratics, cubics and N-point Beziers of equal degree, every parameter in [0,1], every step count",
"Bounds over all perturbations and parameters.",
"src/quadratic_bezier.rs: eval, arclen, bounding_box","src/cubic_bezier.rs: eval, arclen, bounding_box","src/bezier.rs: eval, arclen")
p("C89","B-splines over the knots of a Bezier curve",
"Over the knots a (D+1 times), b (D+1 times) the textbook B-spline is the Bezier curve of the same control points at u = (t-a)/(b-a). BSpline::eval on [a,b) returns that curve with its last control point replaced by the origin, i.e. less u^D times the last control point; it agrees with Bezier::eval if and only if the last control point is the origin; closer than EPSILON to a it returns the first control point.",
"every degree, every a < b, all control points, every t in [a,b)",
"Relates two evaluators of the crate over all degrees and parameters; the term that differs is invisible at the ends, where the tests look.",
"src/bspline.rs: eval, de_boor_iterative","src/bezier.rs: eval")
p("C90","Range and stability of B-spline evaluation",
"For every kind of knot vector and every t, a point returned by BSpline::eval is a convex combination of the control points and the origin, hence no farther from the origin than the farthest control point; moving every control point by d at most moves it by d at most and leaves errors and panics as they were. The one exception is the last knot of a spline clamped at its start only, where eval extrapolates.",
"every degree, knot vector, control points and parameter",
"Quantifies over all knot vectors and perturbations; the exception sits at one parameter of one kind of spline.",
"src/bspline.rs: eval, de_boor_iterative, knot_span_start_for_t_clamped_start")
p("C91","Limit of B-spline evaluation at the right end",
"If the right end of a span is a D-fold knot (the end of a clamped spline, every knot of degree 1), eval goes to the origin there, within D M (U(k+1)-t)/(U(k+1)-U(k)) of it for control points no farther than M from the origin. At the end of the domain the last control point is returned, so the curve is continuous there if and only if that point is the origin.",
"every spline that is not unclamped, every such span, every t in it at least EPSILON past its left end",
"A limit: no finite set of parameters decides it.",
"src/bspline.rs: eval, de_boor_iterative")
p("C92","Laws of the derivative",
"derivative() is the only curve with one control point fewer that runs along the derivative of the curve. Hence it commutes with split (a piece's derivative is the piece of the derivative times the length of the parameter interval, so the pieces leave the cut in the direction of the curve), with reversal (up to sign) and with affine maps (through their linear part); it vanishes exactly for a curve of one point; called k times it is the k-th derivative, and the values at one parameter of all derivatives give the whole curve by Taylor's formula.",
"every curve with at least two control points, every parameter, every affine map, every order below the number of control points",
"Quantifies over all curves, parameters, maps and orders, and relates different calls to each other.",
"src/bezier.rs: derivative, split", "src/cubic_bezier.rs: derivative, split", "src/quadratic_bezier.rs: derivative, split")
p("C93","Arc length through the derivative",
"The arc length that arclen approximates (C35) is the integral over [0,1] of the norm of derivative() evaluated.",
"every Bezier curve with at least two control points, every quadratic and cubic curve",
"An integral over all parameters.",
"src/bezier.rs: derivative, arclen", "src/quadratic_bezier.rs: derivative, arclen", "src/cubic_bezier.rs: derivative, arclen")
p("C94","Shifting and stretching the parameter of a B-spline",
"Replacing every knot x by s x + c (s > 0) and the parameter t by s t + c changes neither the verdict of BSpline::new nor the points, errors and panics of eval, moves knot_domain along and divides the derivative's control points by s, as long as no difference of knots and parameter crosses EPSILON; a pure shift needs no such condition and leaves arclen alone. Not so for arclen under a stretch (it always steps by 1/n), for the kind of knot vectors as short as EPSILON, and for reversing the control points.",
"every degree, knot vector, control points, parameter, s > 0 and c",
"Relates runs on infinitely many knot vectors.",
"src/bspline.rs: new, eval, knot_domain, derivative, arclen")
p("C95","f32 and f64 give the same curve",
"Evaluating two curves of the same degree in two floating-point formats, with coordinates that differ by at most d and parameters in [0,1] that differ by at most tau, gives points that differ by at most d + 2 n M tau (n the degree, M a bound on the coordinates) plus the two formats' rounding errors; in particular for a curve and a parameter stored in the other format by rounding to nearest. Holds for Bezier, LineSegment, QuadraticBezier and CubicBezier, both evaluation methods.",
"every pair of binary formats with at least 11 bits, curve, parameter and bounds",
"Relates two instantiations of the generic code over all inputs.",
"src/bezier.rs: eval","src/line.rs: eval","src/quadratic_bezier.rs: eval, eval_casteljau","src/cubic_bezier.rs: eval, eval_casteljau")
p("C96","Range of a curve in floating point",
"If the control points lie between lo and hi on an axis, so does every evaluated point, up to the rounding error of C54 and C55. Without the margin this fails: a curve with two equal control points takes a larger value at t = 53/128 in f64.",
"every binary format with at least 11 bits, curve of degree n with 6nu <= 1 and 4M <= MAX, axis and parameter in [0,1]",
"A bound over all control points and parameters; the failing value was found by search.",
"src/bezier.rs: eval","src/line.rs: eval","src/quadratic_bezier.rs: eval","src/cubic_bezier.rs: eval")
p("C97","Continuity of B-splines and jumps of the evaluation",
"The B-spline curve is continuous wherever at most D knots coincide. BSpline::eval returns, inside the span k, the curve less (t - U_k)^D / prod_(r=1..D) (U_(k+r) - U_k) times control point k, moves there with the velocity of that difference, and at an inner knot U_(k+1) jumps by that weight - positive, at most 1 - times control point k: it is continuous there if and only if control point k is the origin.",
"every degree, knot vector, control points, span and parameter more than EPSILON right of the knot",
"A statement about limits.",
"src/bspline.rs: de_boor_iterative, eval, derivative")
p("C98","Mirror symmetry in floating point",
"Negating any set of coordinates of all control points negates these coordinates of every computed point - eval, casteljau, split, derivative, axis, dd, B-spline evaluation - and changes no length, distance, flatness test or panic; boxes are mirrored. Exactly, up to the sign of zero. The box of a line with a NaN coordinate is not mirrored.",
"every IEEE format of at least 11 bits, point type, set of axes, control points, knots and parameter, including infinities, NaN and overflow",
"Exact symmetry under rounding for all bit patterns, including overflow and the order of the computed roots.",
"src/line.rs, src/quadratic_bezier.rs, src/cubic_bezier.rs, src/bezier.rs, src/bspline.rs")
p("C99","The axes do not interact",
"Coordinate i of every computed point - eval, casteljau, split, derivative, axis, dd, bounding_box, B-spline eval and derivative - is a function of coordinate i of the control points (and of the knots and t) alone: two curves, even of different dimensions, whose control points agree in coordinate i of the one and j of the other agree in these coordinates of every result, bit by bit.",
"every scalar type (no law of arithmetic assumed), two point types, axes, control points, parameter",
"Non-interference quantifies over pairs of runs.",
"src/line.rs, src/quadratic_bezier.rs, src/cubic_bezier.rs, src/bezier.rs, src/bspline.rs")
p("C100","Searching the knots takes logarithmically many iterations",
"Each of the four knot searches finishes within log2 K + 1 iterations for K knots, whatever the knots and the parameter (no order, no finiteness needed), and for a parameter right of all knots the search of n positions takes exactly log2 n + 1.",
"every scalar type, every knot array, index range and parameter",
"A bound on the iterations over all arrays; a test times some arrays and cannot see the bound is attained but never exceeded.",
"src/bspline.rs:316-342", "src/bspline.rs:344-371", "src/bspline.rs:373-404", "src/bspline.rs:406-436")
p("C101","Error messages are distinct and true",
"The Display texts of the six errors differ. When new fails, its text is one of the four construction texts and names the first rule broken: too few control points iff C <= D, insufficient / excess knots iff K < / > C+D+1, non-decreasing iff some knot exceeds its successor. When eval fails, the text is one of the two evaluation texts; in exact arithmetic it is 'Parameter outside of knot span' and the parameter lies outside knot_domain.",
"every scalar type, degree, knot array, control points, parameter",
"Ties the text shown to the user to the cause over all inputs, including that no other error can appear.",
"src/bspline.rs:24-37", "src/bspline.rs:75-110", "src/bspline.rs:115-129")
p("C102","NaN and infinity are not swallowed",
"If a coordinate of an evaluated point (eval, eval_casteljau, B-spline eval) is finite, then that coordinate of every control point that takes part, and (B-splines aside) the parameter, were finite - even where the weight is 0; the same for derivative curves, and a finite arclen means finite control points. distance_to_point breaks the rule: with a NaN in an inner control point it returns the distance to the start point.",
"every float format, dimension, curve, parameter (any bit pattern)",
"All bit patterns of all coordinates; a test pins a few NaN positions.",
"src/line.rs:22-24", "src/quadratic_bezier.rs", "src/cubic_bezier.rs", "src/bezier.rs", "src/bspline.rs:241-305")
p("C103","Quadratic roots and solve_t_for_axis in floating point",
"With coefficients of magnitude at most M every value real_roots returns is a root up to (4u(b^2+4|ac|) + u/2)/|a| plus underflow; a discriminant above 2.2u(b^2+4|ac|) gives two values, each within 4.5u(b^2+4|ac|)/(|a| sqrt disc) of its root; one below the negative of that gives none; |a| below EPSILON solves the linear equation. A parameter from solve_t_for_axis has the coordinate asked for up to 18uM + 410uM^2/|second difference|, or 18uM when the second difference is 0. Conversely, where the exact coordinate is the one asked for and its slope w satisfies w^2 >= 400uM^2, a parameter within 800uM^2/(|second difference| w) is returned (31uM/w when linear), unless that close to an end or the curve is skipped as degenerate. In between, when the second difference is a few ulps, f64 misses a crossing in the middle of the curve, and returns a parameter whose coordinate is off by more than 1/3.",
"every float format, all coefficients with 8M^2 and 2M/u below the largest float; every point type",
"An error bound for all coefficients; rounding noise near double roots is not hit by examples.",
"src/quadratic_bezier.rs:164-192", "src/quadratic_bezier.rs:271-292", "src/roots.rs")
p("C104","The equality tests (==) of curves and errors",
"In exact arithmetic two line segments, two quadratic or two cubic curves compare equal exactly when they are the same function on [0,1]; equal BezierSegments are the same function, but a line and the quadratic tracing it compare unequal. In floating point segments compare equal exactly when they are the same variant with coordinates that are equal numbers and not NaN: reflexive exactly without NaN, symmetric, transitive. Equal float curves give equal results (evaluation, derivatives, splits, tests, lengths, distances, boxes), up to the sign of zero. Errors and knot vector kinds compare equal exactly when they are the same.",
"every lawful point type (exact), every float format and componentwise point type; all curves and parameters",
"Equality as a congruence for every operation quantifies over all pairs of curves.",
"src/line.rs:8-12", "src/quadratic_bezier.rs:5-10", "src/cubic_bezier.rs:10-16", "src/bezier_segment.rs:7-12", "src/bspline.rs:6-22")
p("C105","Order is kept in floating point",
"Rounded evaluation is monotone. LineSegment::eval moves on each axis from start towards end as t grows, never back, and is monotone in the end point. For t in [0,1], raising coordinates of control points never lowers a coordinate of quad eval, cubic eval, generic eval or of the control points of a generic split; the same for a B-spline that is clamped at one end at least. Overflow to infinity is included; where a NaN appears nothing is said. Not so for the start of a LineSegment, for the specialised eval_casteljau, or, with control points in order, for the parameter of quadratic and generic curves.",
"every float format and componentwise point type; all control points including infinities, all t",
"Exact order between two runs for all inputs, roundings and overflows.",
"src/line.rs:22-24", "src/quadratic_bezier.rs:22-28", "src/cubic_bezier.rs:33-38", "src/bezier.rs:72-83", "src/bezier.rs:120-148", "src/bspline.rs:241-305")
p("C106","The derivative of a B-spline in floating point",
"BSpline::derivative, in floating point, returns C-1 control points; where the knots k(j+1) and k(j+D+1) differ, point j is D (P(j+1) - P(j)) / (k(j+D+1) - k(j+1)) with relative error at most 5u plus an underflow term, and is finite unless the quotient leaves the range. Where these knots coincide, each coordinate is NaN if the two control points agree on that axis and an infinity otherwise.",
"every float format, degree, knot vector with values up to half of the largest number, finite control points and componentwise point type",
"A rounding bound over all knot vectors and control points, including those that underflow.",
"src/bspline.rs:471-485")
p("C107","Scaling by a power of two is exact in floating point",
"Multiplying all control points by 2^k multiplies every finite coordinate of the result by exactly 2^k, in floating point: eval, De Casteljau evaluation, split and derivative of lines, quadratic and cubic curves, eval and split of generic Bezier curves, and eval of B-splines clamped at one end at least. Control points are multiples of 2^g and t of 2^b, fine enough that no product underflows; for a B-spline only the knots are bounded and t is arbitrary. Without a bound on underflow it fails.",
"every float format, componentwise point type, k of either sign, grids g and b, degree, control points and parameter",
"Exact agreement between two roundings of every intermediate value, for all inputs.",
"src/line.rs:22-40", "src/quadratic_bezier.rs:22-64", "src/cubic_bezier.rs:33-119", "src/bezier.rs:72-148", "src/bspline.rs:241-305")
p("C108","The number formats and EPSILON",
"EPSILON is positive, 1 + EPSILON is a float and no float lies strictly between 1 and it. f64: EPSILON is 2^-52, the largest finite value (2 - 2^-52) 2^1023, the least positive 2^-1074. f32: 2^-23, (2 - 2^-23) 2^127, 2^-149.",
"every float format; all finite f64 and f32 values",
"A statement about every float, which pins down the arithmetic all floating-point claims are about.",
"src/lib.rs:62-73")
p("C109","Coarse data are computed exactly in floating point",
"If the control points are multiples of 2^g of magnitude at most M, the parameter is a multiple of 2^b in [0,1], and all multiples of 2^(g+nb) up to a small multiple of M are floats (n the degree; the multiple is 1, 2 or 3 for evaluation and split, twice the degree for the derivative of a curve of degree n, where 2^g replaces 2^(g+nb)), then evaluation (Bernstein and De Casteljau form, and axis) gives exactly the curve point; the two halves of split follow the curve exactly and are again coarse; the derivative is exactly the derivative. For example cubics with integer control points up to a million at t = k/256 in f64.",
"every float format, componentwise point type, grid, degree, coarse control points and parameter",
"No rounding at all in a whole class of inputs; tests compare single results within tolerances.",
"src/line.rs:22-40", "src/quadratic_bezier.rs:22-98", "src/cubic_bezier.rs:33-127", "src/bezier.rs:72-148")
p("C110","Cutting a curve twice",
"Splitting at t and splitting the left piece again at s gives, control point by control point, the pieces obtained by splitting at t*s first and the right piece at (t - ts)/(1 - ts) second; likewise for the right piece, with t + s(1 - t). Splitting the reversed curve at 1 - t gives the two pieces reversed and exchanged.",
"every lawful point type, quadratic, cubic or generic curve and all real t, s (with the denominators nonzero)",
"Equalities of control points over all curves and all pairs of parameters; the tests split once and compare sample points.",
"src/quadratic_bezier.rs:59-98", "src/cubic_bezier.rs:79-127", "src/bezier.rs:94-127")
p("C111","BSpline::eval and arclen terminate; when arclen panics",
"For every spline accepted by new, eval and arclen terminate. arclen(n) panics exactly when eval panics at one of the sampled parameters, so never for a spline clamped at both ends. In exact arithmetic it panics for every n > 0 when the knots are clamped only at the end, and for every n with (kmax - kmin)/n < knots[C+D] - knots[C+1] when they are clamped only at the start.",
"every scalar and point type, degree, knot vector and number of steps (the last two over the reals)",
"Termination and an exact characterisation of panics for all splines; the tests measure one clamped spline.",
"src/bspline.rs:115-129", "src/bspline.rs:241-305", "src/bspline.rs:436-460")
p("C112","Kinds and panics of B-splines in floating point",
"For a spline with finite floating-point knots accepted by new: it is classified as clamped at an end if the outer D+1 knots there span at most (1 - 2u) EPSILON, and only if they span less than EPSILON. eval at a finite t panics exactly when knots[C+1] <= t < knots[C+D] and t != knots[C] (clamped at the start only), when knots[0] <= t < knots[D] (clamped at the end only), or when knots[D] <= t < knots[C] and t is at or past the knot after every probe of the search at or below C (unclamped). arclen of a spline clamped at the end only panics for every 0 < n <= 2^p.",
"every binary format of at least 11 bits, point type, degree, finite knot vector, finite parameter",
"The exact panic set of floating-point evaluation for all knot vectors; no test evaluates a half clamped or unclamped spline at these parameters.",
"src/bspline.rs:80-112", "src/bspline.rs:115-129", "src/bspline.rs:241-305", "src/bspline.rs:307-430", "src/bspline.rs:436-460")
p("C113","B-splines over Bezier knots in floating point are Bezier::eval without the last control point",
"For a float B-spline with D+1 control points over the knots a (D+1 times) and b (D+1 times), and a finite parameter a <= t < b: if the rounded t - a is at least EPSILON, eval returns, bit for bit, what Bezier::eval returns at the rounded (t-a)/(b-a) for the same control points with the last one replaced by the origin; if it is less than EPSILON, eval returns the first control point. Over the knots 0 and 1 and for t >= EPSILON the Bezier parameter is t itself, and for coarse data the result is exactly the Bezier polynomial minus t^D times the last control point.",
"every binary format of at least 11 bits, point type, degree, pair of knots of magnitude at most half the largest float, finite parameter",
"Relates two evaluation routines bit for bit over all degrees and inputs; tests compare single values within a tolerance and never with a nonzero last control point.",
"src/bspline.rs:75-112", "src/bspline.rs:115-129", "src/bspline.rs:241-305", "src/bezier.rs:72-83")
p("C114","The example program draws the curve inside its box, hull and chart",
"In exact arithmetic examples/plotters_cubic_bezier.rs does not panic. It draws the 1000 points B(i/1000) of the Bernstein polynomial of its control points; the drawn box is [0, xmax] x [-4, ymax] with xmax and ymax the largest coordinates of the curve, so the whole curve lies in it; the drawn hull is a closed path through exactly the control points with the whole curve on the left of every edge; the chart is [-2, 6] x [-5, ymax + 3] and contains everything drawn.",
"the whole curve (every t in [0,1]), any EPSILON up to 1",
"The example has no test; its picture is only ever looked at.",
"src/cubic_bezier.rs:41-52", "src/cubic_bezier.rs:366-409", "examples/plotters_cubic_bezier.rs:9-118")
p("C115","split and derivative can be undone",
"In exact arithmetic: splitting the left part of a curve cut at t <> 0 once more at 1/t, or the right part of one cut at t <> 1 at t/(t-1), gives back the whole curve, for quadratics, cubics and Bezier curves of every degree. Two curves with the same derivative and the same start are equal, and so are two Bezier curves of the same degree whose eval agrees on an interval, however short.",
"all lawful point types, control points, real parameters (also outside [0,1])",
"Round trips through parameters outside [0,1] over every curve and degree; a test runs a few and within a tolerance.",
"src/quadratic_bezier.rs:44-66", "src/quadratic_bezier.rs:84-89", "src/cubic_bezier.rs:89-118", "src/cubic_bezier.rs:121-127", "src/bezier.rs:120-153", "src/bezier.rs:156-166")
p("C116","f32 and f64 give the same results on coarse data",
"For two binary formats and control points with the same finite coordinates in both, all of them multiples of 2^g of magnitude at most M, and the same parameter in [0,1], a multiple of 2^b: if both formats hold all multiples of 2^(g+nb) up to a small multiple of M (n the degree), then eval, eval_casteljau and split return the same coordinates in both formats. Data that both formats hold is not enough: a segment from 0 to 2^24-1 at 1-2^-24 differs.",
"every pair of binary formats of at least 11 bits, point types of equal dimension, control points, parameters",
"Compares two instantiations of the generic code over all coarse inputs; the crate's tests use f64 only.",
"src/line.rs:22-24", "src/quadratic_bezier.rs:22-66", "src/cubic_bezier.rs:33-118", "src/bezier.rs:72-83", "src/bezier.rs:120-153")
p("C117","Linear precision, and the accuracy promised for arclen at 32 steps",
"In exact arithmetic: control points at equal steps on the way from a to b make eval return a + t (b - a) for every t, make the arc length |b - a|, and make arclen(m) return (1 - 1/m) |b - a|, for every degree. Hence no error bound holds at 32 steps for all curves (the comment says 0.5); it does for quadratics whose legs are shorter than 4 and cubics whose legs are shorter than 16/9. A B-spline whose control points stand at the means of their D knots is straight too; the code, if the spline is clamped at one end at least, returns it at the knots, and elsewhere without the last control point of the span.",
"all lawful point types, degrees, evenly spaced control points, parameters, step counts, knot vectors with t at least EPSILON after the knots before it",
"The formula is for every step count and every curve of the family, and the refutation names a curve for every bound.",
"src/quadratic_bezier.rs:144-163", "src/cubic_bezier.rs:73-95", "src/bezier.rs:238-257", "src/bezier.rs:72-83", "src/quadratic_bezier.rs:22-30", "src/cubic_bezier.rs:33-40", "src/bspline.rs:115-200")
p("C118","Debug and release builds do the same",
"With usize arithmetic as a debug build does it (overflow and underflow panic) and as a release build does it (wrapping modulo 2^w), Bezier::eval, split, derivative and arclen and BSpline::new, knot_domain, eval, arclen and derivative return, panic and loop exactly as the model with unbounded addition says, for all arrays of at most 2^w / 4 elements: additions never overflow, and a subtraction that wraps makes an index that is out of bounds, or, in the span searches, a bound whose next probe is.",
"all scalar types and parameters (NaN included), point types, degrees, splines from new and from repeated derivative, pointer widths",
"Compares two build profiles for all inputs; cargo test runs one of them on some.",
"src/bezier.rs:72-83", "src/bezier.rs:120-166", "src/bezier.rs:241-252", "src/bspline.rs:75-129", "src/bspline.rs:146-180", "src/bspline.rs:241-432", "src/bspline.rs:436-485")
p("C119","BSpline::arclen in floating point",
"arclen(n) of a clamped spline with moderate knots and control points is finite and not negative, and equals the sum of the n+1 distances between the points that eval returns at the two computed parameters of each chord (the origin where eval rejects the parameter), within 2(n+1)(e + u(n+1) 2 sqrt(dim) W) with e the rounding error of one distance. Over [0,1] no rounding of the parameters leaves the domain: the result is the n chords of the curve plus the distance of the last control point from the origin. With n = 0 it is 0.",
"all formats (f32, f64), point types, degrees, knots up to half of the largest number, control points up to M, n with 4(n+1)u <= 1, 6*D*u <= 1 and far from overflow (the exact conditions are the section hypotheses)",
"Whether lo + i/n*(hi-lo) + 1/n rounds past the end of the domain decides between a point of the curve and the origin; excluded for all n, not for a sample.",
"src/bspline.rs:436-460", "src/bspline.rs:115-129")
p("C120","Sampling a curve into control points",
"With the n+1 samples g(k/n) as control points, eval at t stays within L/(2 sqrt n) of g(t) if g is L-Lipschitz, within M t(1-t)/(2n) in each coordinate that g's tangent follows with error M/2 (x-t)^2, lies above g in each convex coordinate, and converges to g uniformly on [0,1] for every continuous g.",
"every curve g in every number of dimensions, every number of samples from 2 on, every t in [0,1]",
"A statement about all continuous functions and a limit in the number of control points.",
"src/bezier.rs: eval")
p("C121","Control values that bend one way",
"If in one coordinate no control point lies above the middle of its neighbours, the coordinate of eval is a convex function of t on [0,1], and at no t below the value of the line through any two neighbouring control values, placed at k/n and (k+1)/n.",
"every Bezier, quadratic and cubic curve, every coordinate, every t in [0,1]",
"An inequality between curve points at all triples of parameters, for all control points.",
"src/bezier.rs: eval", "src/quadratic_bezier.rs: eval", "src/cubic_bezier.rs: eval")
p("C122","The mean of a curve is the mean of its control points",
"The integral over [0,1] of each coordinate of eval is the mean of that coordinate over the control points.",
"every Bezier, quadratic and cubic curve",
"An integral over all parameters.",
"src/bezier.rs: eval", "src/quadratic_bezier.rs: eval", "src/cubic_bezier.rs: eval")
p("C123","Iterators of points and curves",
"into_iter of a PointN yields its N coordinates in order, of a Bezier its control points; a loop over &mut reaches every entry exactly once and in place, agrees with the operators, and an affine map applied to all control points in place moves the curve by it. For a user point type whose iterator yields another number of items than DIM: with fewer, the bounding boxes are right on the axes seen and (0,0) on the others, and the segment distance is still the distance to a point of the segment; with more, boxes and (non-degenerate) segment distances never return.",
"every dimension, point, curve and number of items",
"All user types are quantified over, including inconsistent ones that no test of the crate defines.",
"src/point_generic.rs:128-144", "src/bezier.rs:36-52", "src/line.rs: distance_to_point, bounding_box", "src/quadratic_bezier.rs: bounding_box", "src/cubic_bezier.rs: bounding_box")
p("C124","Causes of the violated properties",
"Changing only the named lines makes the violated properties true in full. line.rs:28 (operands swapped): C04, C52. line.rs:54 and 68 (threshold; initial t): C05, C16 as an equivalence. cubic_bezier.rs:140 (t for t2): C21. quadratic_bezier.rs:151, cubic_bezier.rs:79, bezier.rs:244 (one step too many): C34. quadratic_bezier.rs:201, 219-221 and its copies (second pass is not centred at the best sample and leaves the curve): C36, with the two passes as documented. bspline.rs:146-153, 246-248, 262, 285-295, 307-314 (domain, early return, points loaded, EPSILON tests, unclamped span search): C40, C43, C44, C45, C49, C79 for every kind and every t. bspline.rs:440, 445: C48. bspline.rs:481: C47. bspline.rs:87 (a NaN knot passes the test w[0] > w[1]): C39. cubic_bezier.rs:270, 273-275, 289, 316 and quadratic_bezier.rs:173-188 (f32 digits of pi; EPSILON tests): C59, exactly the roots. The early return and the open interval of solve_t_for_axis: C64 for every coordinate that is not constant. line.rs:23, quadratic_bezier.rs:27 (order of the operations): C63 for all finite points. quadratic_bezier.rs:186-187 (-b and the square root of opposite sign are added; instead the larger root and the product of the roots): C73 for every cubic, with slack 350 u M; over the reals this change has no effect. bspline.rs:262 alone: C66 against the true curve, for splines clamped at an end. With all B-spline lines changed, eval and arclen return for every scalar type, parameter and number of steps.",
"every lawful point type, curve, degree, knot vector, control polygon and parameter",
"It shows that the refuted statements are satisfiable by nearly the same program, so that the refutations diagnose these lines and not an over-strong statement.",
"src/line.rs:28-28", "src/line.rs:54-68", "src/cubic_bezier.rs:140-140", "src/quadratic_bezier.rs:151-151", "src/quadratic_bezier.rs:219-221", "src/bspline.rs:146-153", "src/bspline.rs:246-314", "src/bspline.rs:440-481", "src/bspline.rs:87-87", "src/cubic_bezier.rs:262-347", "src/quadratic_bezier.rs:173-188", "src/line.rs:23-23", "src/quadratic_bezier.rs:27-27")
p("C125","Point and coordinate types of the user",
"The crate sees points only through the trait Point: if two point types (say a vec2 struct and PointN<f64,2>) cannot be told apart through its operations, then eval, split, derivative, axis, dd, bounding_box, arclen, distance_to_point, is_linear, is_a_point, solve_t_for_axis, new and knot_domain of every curve type return the same values, related points, the same errors and the same panics. PointN over a coordinate type whose conversion into NativeFloat respects + - * and 0 is such a type, next to PointN of the converted coordinates.",
"every pair of point types, every scalar arithmetic (exact or rounded, NaN included), every curve",
"Quantifies over all user-defined point and coordinate types; the crate's tests use PointN<f64,_> only.",
"src/point.rs:12-42", "src/point_generic.rs:12-16", "src/point_generic.rs:146-176")
p("C126","Scalars that wrap or widen NativeFloat",
"A user point type may have a Point::Scalar other than NativeFloat. If that scalar is a newtype around NativeFloat (conversions there and back are the identity and commute with the arithmetic), every function of the crate returns exactly what it returns for NativeFloat. If it is merely wider (native operands convert exactly), then eval, axis, derivative, split of Bezier curves, cubic dd, distance_to_point, is_linear and bounding_box still compute in the full precision of the scalar, with NativeFloat's epsilon in the degenerate cases (CubicBezier::is_linear asks for both).",
"every such scalar type and arithmetic, every curve, every parameter",
"Quantifies over all user-defined scalar types; no test uses a Point::Scalar other than NativeFloat.",
"src/point.rs:12-42", "src/line.rs:51-79", "src/cubic_bezier.rs:60-120", "src/bezier.rs:60-140")
p("C127","A wider scalar keeps its precision",
"With a Point::Scalar wider than NativeFloat, no function loses the additional precision. The code violates this: CubicBezier::split, QuadraticBezier::dd and BSpline::eval pass t or a weight through NativeFloat, so their results carry one rounding of NativeFloat per step; so do the factors of BSpline::derivative, the parameters of arclen and the value of solve_t_for_axis.",
"every float format, every parameter, every control polygon, every clamped B-spline",
"The loss is below f64 resolution and appears only with a user-defined wide scalar.",
"src/point.rs:23-32", "src/cubic_bezier.rs:89-112", "src/quadratic_bezier.rs:100-112", "src/bspline.rs:280-303")
p("C128","Order and length of B-splines",
"A B-spline keeps the order of its control points along every direction, and the polyline through values at nondecreasing parameters is no longer than the control polygon. The curve does. The code violates this between the knots: with both control points equal to 1 and knots 0,0,1,1 it runs 1, 1/2, 1. At the knots of a clamped spline it holds.",
"every degree, nondecreasing knot vector, control polygon, direction, and nondecreasing list of parameters",
"Quantifies over all directions and all parameter lists; the tests compare single values.",
"src/bspline.rs:75-110", "src/bspline.rs:241-305")
p("C129","Knot insertion",
"Adding a knot to a B-spline, with the control points of Boehm's rule, is accepted by BSpline::new and does not change the curve that eval returns. The code violates this between the knots; at the old knots both splines agree, and at the new knot the refined spline is on the curve.",
"every degree, knot vector, control polygon, span and inserted knot",
"Quantifies over all splines and all insertions; the tests never compare two splines.",
"src/bspline.rs:75-110", "src/bspline.rs:241-305")
p("C130","Variation diminishing for B-splines",
"A hyperplane crosses the polyline through the values of a B-spline at nondecreasing parameters no more often than the control polygon. The code violates this between the knots; it holds for the values at the knots.",
"every degree, knot vector, control polygon, hyperplane, and nondecreasing list of parameters",
"Quantifies over all hyperplanes and all parameter lists.",
"src/bspline.rs:75-110", "src/bspline.rs:241-305")
p("C131","A B-spline is determined by its values",
"Two B-splines with the same degree and knots whose evaluation agrees on the whole domain have the same control points, as far as the support of a control point meets the domain in an interval; a piece of one span determines the degree + 1 control points of the span. Other control points have no influence. The code loses the control points whose support meets the domain only in the span of the same number, among them all but the last when the degree is 0.",
"every degree, knot vector and pair of control polygons",
"Uniqueness over all control polygons; a test compares two of them at finitely many parameters.",
"src/bspline.rs:75-110", "src/bspline.rs:241-305")
p("C132","B-splines reproduce polynomials",
 "If the coordinates of the control points are the values of a polynomial's blossom (symmetric, affine in each argument) at D consecutive knots, eval(t) has the polynomial's values as coordinates on the whole domain; in particular control points along a line at the Greville abscissae (averages of D consecutive knots) give the line, t-linearly. Only those control points do.",
 "all degrees, knot vectors accepted by new, blossoms (hence all polynomials of degree at most D), parameters of the domain",
 "Holds at every parameter of every spline; the code drops one term between the knots, so a test at the knots passes.",
 "src/bspline.rs:75-110", "src/bspline.rs:241-305")
p("C133","B-splines that bend one way",
 "If the control points, seen in any direction and placed at the Greville abscissae (averages of D consecutive knots), bend up, then so does eval: for a <= b <= e in the domain the value at b is on or below the chord from the value at a to the value at e; and the curve stays above the line through every leg of the control polygon. It is enough to compare the slopes of neighbouring legs.",
 "all degrees >= 1, knot vectors accepted by new, directions, three parameters of the domain (including the right end of a curve clamped there)",
 "Three real parameters on every spline; the code drops one term between the knots, so a test at the knots passes.",
 "src/bspline.rs:75-110", "src/bspline.rs:241-305")
p("C134","The mean of a B-spline",
 "The mean of eval over the knot domain of a spline clamped at both ends is the mean of its control points, control point j weighted with knot[j+D+1] - knot[j]; the weights add up to D+1 times the length of the domain.",
 "all degrees, knot vectors clamped at both ends (any inner multiplicities), control points, coordinates",
 "An integral over a real interval for every spline; a sampled mean of the code's values is off by a different amount on every span.",
 "src/bspline.rs:75-110", "src/bspline.rs:241-305")
p("C135","Every span of a B-spline is a Bezier curve",
 "On every non-empty span of its domain a clamped B-spline's eval, from EPSILON after the first knot of the span on, returns the points that Bezier::eval returns for D+1 fixed points at the parameter's relative position in the span; these points lie in the convex hull of the control points the evaluation uses there and the origin. For the B-spline curve itself, and for the repaired evaluation, the same holds on the whole span with the hull of the D+1 control points that act on it.",
 "all degrees, knot vectors accepted by new with at least one clamped side, all non-empty spans, control points, parameters",
 "An equality of two evaluation schemes for all parameters of all spans; the Bezier points are not computed anywhere in the code.",
 "src/bspline.rs:241-305", "src/bspline.rs:115-145", "src/bezier.rs:72-95")
p("C136","How far a curve is from its control polygon",
 "If every inner control point of a Bezier curve of degree n is within S of the middle of its neighbours, eval(t) is within S (n t (1-t) - u (1-u)) of the point LineSegment::eval(u) of the leg from control point k to k+1, u = n t - k, hence within S floor(n/2) ceil(n/2) / n of its control polygon (S/2 for quadratics, 2S/3 for cubics); the bound is attained for every n, k and t. After r rounds of split(1/2) the polygons of the pieces are 4^r times closer. A B-spline whose neighbouring legs over the means of D knots differ in slope by at most S times the distance of the outer two is on every span within S (knot[m+D] - knot[m+1-D])^2 of its polygon: the curve, the repaired evaluation, and eval at the knots.",
 "every Bezier, quadratic and cubic curve, every degree, leg, t in [0,1], number of rounds; every B-spline without D-fold inner knots, every span",
 "A distance bound for all parameters of all curves with its best constant; sampling curves shows single distances.",
 "src/bezier.rs:72-86", "src/bezier.rs:120-148", "src/quadratic_bezier.rs:22-50", "src/cubic_bezier.rs:33-60", "src/line.rs:22-30", "src/bspline.rs:115-145")
p("C137","Circles drawn by quadratics",
 "A QuadraticBezier with ends on the unit circle at half angle a and its control point where the end tangents meet stays outside the circle by at most (1 - cos a)^2 / (2 cos a), which eval(1/2) attains; n of them round the circle are within (pi/n)^4/4. The two tests commented out as needing eight quadratic segments: sixteen such curves pass the test of the radius, but no eight curves once round the origin do, whatever their ends and control points; the four written there are 8 percent off and too short by more than 0.1 for every number of steps. The eight tangent arcs are longer than the circle by more than the allowed 0.01; arclen(1000) accepts them nevertheless, because it leaves out the first chords, and from 50000 steps on it does not.",
 "every half angle, direction, parameter in [0,1]; every eight quadratics once round the origin; every number of steps",
 "That no choice of eight curves passes the test is a statement about all control points; the tests try one choice and are commented out.",
 "src/quadratic_bezier.rs:22-30", "src/quadratic_bezier.rs:335-422", "src/quadratic_bezier.rs:148-159")
p("C138","Adaptive flattening",
 "Halving a quadratic (cubic) with split(1/2) until is_a_point(tol) or is_linear(tol) accepts the piece ends after d rounds as soon as 2^d tol >= 2L (3L), L the longest leg of the control polygon; the accepted pieces are the curve, one after the other, and every curve point is within tol of the baseline of its piece. In every IEEE format it ends as well, with chords within tol of the exact curve up to explicit rounding terms, once tol exceeds a bound of the form size/2^d + c u M. Halving until is_linear(tol) alone does not end at any depth when tol is below sqrt(EPSILON) and the last control point is the end point, nor for any tol on curves shorter than that. A BezierSegment only has is_linear: what the recursion returns is the curve and within tol, but on those segments it returns nothing, in exact arithmetic and, for the curve 0, 1, 1, in f32 with tol = 2^-12 and in f64 with tol = 2^-27.",
 "every curve, tolerance, depth and parameter; in IEEE arithmetic every format and every curve without overflow; the refutations in f32 and f64 for every depth of one curve",
 "Termination at a depth that depends on the curve, and non-termination at every depth, are statements about all runs; no test calls is_linear on a piece of a split.",
 "src/quadratic_bezier.rs:44-66", "src/quadratic_bezier.rs:230-270", "src/cubic_bezier.rs:89-115", "src/cubic_bezier.rs:224-262", "src/bezier_segment.rs:44-83")
p("C139","A NaN among the control points",
 "If a coordinate of some control point is NaN, every evaluated point of the curve is NaN on that axis and arclen is NaN from two steps on. The queries do not show it: distance_to_point returns the distance to the first control point, the bounding box of a quadratic or cubic with the NaN in an inner control point is the box of the end points on that axis (with the NaN in an end point it panics, C57), is_linear and is_a_point return false for every tolerance, so that adaptive flattening by split with both tests does not end at any depth, and solve_t_for_axis returns no solution (also when the wanted value is NaN). A point a clamped BSpline evaluates to on a knot span is NaN on each axis on which one of the D control points before the end of the span is; the control point at the end of the span is not loaded (C44), so a NaN there is not noticed.",
 "every float format, dimension, quadratic, cubic, N-point Bezier and clamped B-spline, parameter, tolerance, query point and depth",
 "Concerns all values of the other coordinates, including infinities, and every depth of a recursion; no test uses NaN.",
 "src/quadratic_bezier.rs:22-66", "src/quadratic_bezier.rs:148-159", "src/quadratic_bezier.rs:199-262", "src/quadratic_bezier.rs:295-328", "src/cubic_bezier.rs:193-262", "src/cubic_bezier.rs:366-409", "src/bezier.rs:72-118", "src/line.rs:45-80", "src/bspline.rs:241-305")
p("C140","Bounding boxes of halved pieces, and whether two curves meet",
 "After k rounds of split(1/2) the bounding boxes of the 2^k pieces contain the whole curve up to EPSILON/8 for a quadratic and 3 EPSILON/8 for a cubic, every box touches the curve, and none is wider than 2L/2^k (3L/2^k) where L bounds the legs of the control polygon. Hence an intersection search by boxes is sound and complete in the limit: points of two curves at distance d lie in boxes no further than d plus these slacks apart on any axis, at every depth, and if the curves stay further apart than sqrt(DIM) times the box widths plus m, every pair of boxes has a gap of more than m. In IEEE arithmetic the same holds for quadratics, with slack u/4 + 54uM + 9 eta + k(11uM + 3 eta).",
 "every quadratic and cubic (also one of each), dimension, pair of depths and pair of parameters; every float format for the rounded form",
 "Concerns every point of two curves and every pair among 4^k boxes at every depth; the tests sample one box.",
 "src/quadratic_bezier.rs:44-66", "src/quadratic_bezier.rs:295-328", "src/cubic_bezier.rs:89-119", "src/cubic_bezier.rs:366-409")
p("C141","Length of an adaptively flattened curve",
 "A quadratic (cubic) accepted by is_a_point(tol) or is_linear(tol) is at least as long as the distance of its end points and at most 2 tol (4 tol) longer, also when the inner control points of the cubic lie along the chord in the wrong order. Hence the chords of the n pieces that halving with split(1/2) accepts add up to the arc length of the curve, up to 2 tol n (4 tol n) too little and never too much.",
 "every quadratic and cubic, dimension, tolerance >= 0 and depth",
 "Compares an integral with sums over a recursion of unbounded depth for all curves.",
 "src/quadratic_bezier.rs:44-66", "src/quadratic_bezier.rs:230-262", "src/cubic_bezier.rs:89-119", "src/cubic_bezier.rs:224-255", "src/line.rs:45-80")
p("C142","Cutting a curve at its stationary parameters",
 "If on some axis the derivative of a quadratic or cubic has no zero strictly between x and y, the piece over [x, y] is monotone on that axis and its bounding_box is there exactly the interval of its end points, with no slack. split at the zero of the derivative of a quadratic, and split at the two zeros of the derivative of a cubic (the second one rescaled to the rest), gives such pieces, also when the derivative vanishes everywhere on that axis.",
 "every quadratic and cubic, dimension, axis, interval and piece of it however obtained",
 "Concerns all parameters of all pieces, and exact equality of bounds that carry an EPSILON slack in general.",
 "src/quadratic_bezier.rs:44-66", "src/quadratic_bezier.rs:295-328", "src/quadratic_bezier.rs:84-89", "src/cubic_bezier.rs:89-132", "src/cubic_bezier.rs:366-409")
p("C143","dd in floating point",
 "In IEEE arithmetic dd(t, axis) of a quadratic or cubic with control coordinates at most M and 16 M below overflow is finite and within a constant times (u M + eta) of the derivative of the exact curve at t: 44 for quadratics, 205 for cubics.",
 "every binary format of at least 11 bits, dimension, axis, t in [0,1], curve",
 "Concerns all floating-point inputs of all formats at once, against an exact derivative.",
 "src/quadratic_bezier.rs:100-107", "src/cubic_bezier.rs:138-149")
p("C144","axis(t, i) is the coordinate of eval(t) in every arithmetic",
 "axis(t, i) of a line, quadratic or cubic returns exactly coordinate i of eval(t), whatever the scalar type and its rounding, and panics for the same axes.",
 "every scalar type, point type with componentwise operations, curve, t and axis",
 "Equality of results in all scalar types and roundings at once.",
 "src/line.rs:82-84", "src/quadratic_bezier.rs:70-78", "src/cubic_bezier.rs:60-71")
with open('/verif/properties.jsonl','w') as f:
    for x in P: f.write(json.dumps(x,ensure_ascii=False)+"\n")
print(len(P))
