# Formal model of `dorianprill/stroke` in Rocq/Coq 8.16.1

## 1. Shape of the model

The crate is a pure numeric library: no I/O, no threads, no allocation. Its semantics are
(a) index arithmetic and control flow over fixed-size arrays, (b) arithmetic on a float type `NativeFloat`
(f64 on 64-bit targets, f32 elsewhere), (c) panics (array index out of range, `usize` underflow, `assert!`,
`unwrap` of `None`).

* **One model, several arithmetics.** Every function is written once, over an abstract class `Scalar T` that only
  names the operations the code uses (`+ - * /`, unary minus, `abs`, `sqrt`, `<`, `<=`, `==`, `is_nan`, integer
  literals, `usize as float`, `EPSILON`). The class has **no laws**. Instances:
  * `R` with the exact operations (`Inst/RealInst.v`), with `EPSILON` an arbitrary positive real parameter, which
    covers f32 and f64;
  * IEEE-754 binary floats of any precision `prec`/`emax` with `11 <= prec < emax` (Flocq `BinarySingleNaN`, round to
    nearest even), used at binary64 and binary32 (`Inst/FloatInst.v`);
  * `Q` (`Inst/RatInst.v`), used only to compute counterexamples: `Proofs/Transfer.v` proves that a run over `Q` and the
    run over `R` on the same inputs agree step by step, so a refutation is `vm_compute` on `Q` plus that lemma.
  Theorems come in three strengths: *generic* (any `Scalar`, hence also NaN, infinities, rounding), *exact* (over `R`)
  and *IEEE* (about rounded arithmetic).
* **Points.** The class `Point T P` mirrors the trait `Point` (add, sub, scale, default, `axis`, `squared_length`,
  `DIM`). `PointN T N` is the crate's own implementation, for every `N`. Exact theorems are stated for every *lawful*
  point type (`LawfulPoint`: coordinates behave like a real vector), which covers user-defined points; `PointN R N` is
  proved lawful for every `N`.
* **Panics and non-termination are data.** Functions that can panic return `outcome A := Ret a | Panic | Stuck`.
  Array reads/writes are bounds-checked, `usize` subtraction is checked (`usub`). In a release build the subtraction
  wraps instead of panicking; the wrapped value is then used as an array index and panics there, so `Panic` is the
  observable result in both profiles. `Model/Profiles.v` has these functions over the `usize` arithmetic of either
  profile and C118 proves that nothing changes. `Stuck` is fuel exhaustion of a `while`
  loop; theorems exclude it.
* **Loops** are folds over explicit index lists (`range lo hi`, reversed where the code says `.rev()`), with array
  state threaded through; not rewritten into closed forms. Closed forms only appear in the specifications. The operator
  loops of `PointN` are the one exception: `Model/Point.v` uses `map2`/`fold`, and `Model/PointLoops.v` has the literal
  index loops of the source, proved equal (C01_arithmetic_loops, C01_eq_loop, C01_squared_length_loop).

Directory layout of `rocq/theories`:

| dir | contents |
|---|---|
| `Base/` | outcome monad, arrays, loops, `Scalar` class |
| `Model/` | the model, one file per Rust file; each definition cites file:lines; `Repairs.v`, `RepairsRoots.v` and `RepairsLoad.v` are **not** the code but variants of it with single lines changed, used only by C124 |
| `Inst/` | real, rational and IEEE instances |
| `Spec/` | independent specifications, listed below |
| `Proofs/` | lemmas |
| `Props/` | one file per property group: only statements closed by `exact`, non-vacuity examples, `Print Assumptions` |
| `Tests/` | the crate's 25 unit tests written over the binary64 model and run during the build; they validate the model and support no claim |

`Tests/` is a check that the model is the program: `UnitTests.v` transcribes every `#[test]` of the crate, each citing its
lines, with the decimal literals rounded to binary64; `Run*.v` checks by computation that each returns `Ret true` (no panic,
every assertion true), as the tests of the crate do. The runs are `Check` commands on a term cast by the virtual machine: a
failing test fails the build, and no constant is left behind. C82 then proves the equivalence and containment assertions for all
curves and parameters. `RunExample.v` runs `examples/plotters_cubic_bezier.rs` the same way (C114 is its exact counterpart).

Specification files, all short and free of model functions except where noted:

| file | vocabulary |
|---|---|
| `Sums`, `Bernstein` | finite sums, Bernstein polynomial `bezier_poly` of a list of real coefficients |
| `Lawful`, `Componentwise` | what a point type must satisfy over `R` (`coord`), over any scalar (`cw`) |
| `Metric`, `Hull`, `Box`, `Length`, `Points` | Euclidean distance, convex hull, box containment, polyline length, example points |
| `Chart` | rectangles, closed paths, left of an edge |
| `Segments` | evaluation and kind of a `BezierSegment` |
| `Basis`, `Probes` | Cox-de Boor basis functions; the index sequence visited by the unclamped span search |
| `CubicRoots` | roots, discriminant, when `solve_t_for_axis` skips a curve |
| `Rounding`, `FloatPoints`, `FloatSplines`, `FloatCurves`, `FloatBoxes` | value of a float, unit roundoff `uro`, underflow unit `eta`, bounded points, exact curve of float control points, box with slack |
| `Subdivision`, `Maps` | k-fold halving, second differences; affine maps, similarities, moved boxes, `omap`/`rmap` |
| `Scaling`, `Exact` | multiples of a power of two, curves that differ by one; data coarse enough for exact arithmetic |
| `Order` | order of floats coordinate by coordinate, NaN left out |
| `Equality` | two points, boxes or segments with the same coordinates up to the sign of zero |
| `Precision` | points at equal steps on a line, control points at the means of their knots |
| `Circle` | the four quadrant cubics and the radial error of the crate's circle tests |
| `QuadCircle` | quadratics along the unit circle, among them those of the commented-out tests |
| `Derivatives`, `Smooth`, `Limits` | repeated derivatives, continuous differentiability, one-sided limits |
| `Blossom`, `Insertion`, `SplinePoints` | polar forms, knot insertion, points of a B-spline curve including its right end |
| `Elevation`, `Polygon`, `Sampling`, `Stability` | degree elevation, slopes of a control polygon, control points read off a curve, nearby control points |
| `Crossings`, `Bending` | sides of a hyperplane and sign changes; values that bend one way |
| `Search` | minimum over 64 samples and 64 more around the best |
| `Adaptive`, `Boxes`, `BoxOps` | the halving recursion of C138 and C141, boxes of halved pieces, boxes inside boxes, reversed curves |
| `Monotone` | functions that run one way, boxes spanned by two values |
| `Related`, `Axes`, `Mirror`, `TwoFormats` | two runs with related results; one coordinate of two points; mirrored points; the same point in two formats |
| `Interface`, `Widening` | interchangeable point types, coordinate types of the user; scalars that agree with `NativeFloat` |

## 2. Not modelled

* `PointN<T,N>` with `T != NativeFloat` is in `Model/Coordinates.v` (C125); everywhere else the coordinates are `NativeFloat`
  (std provides the conversions for no other float), and `into()`/`from()` between scalars are the identity. A user type
  with `Point::Scalar != NativeFloat` is in `Model/TwoScalars.v` (C126, C127).
* NaN payloads and signs (one NaN), stack size, timing, `no_std`/`forbid(unsafe)` facts, formatting (`Debug`; of `Display` only the texts are modelled),
  compile-time rejection by const generics (an underflowing const expression such as `{N-1}` at N=0 does not compile;
  the model returns `Panic` there).
* Arrays longer than a quarter of the `usize` range, where a sum such as `len + 1 + D` could overflow (C118).
* The IEEE instance has no `acos`, `cos`, `powf` (used only in the dead-code cubic root finders), which are modelled over `R` only.
* `Clone`, `Copy` (values are immutable here); the derived `PartialEq` is in `Model/Equality.v`.
* Commented-out code (C137 uses the data of two commented-out tests).

## 3. Trusted base

* The Coq 8.16.1 kernel (including its `vm_compute`, used on closed boolean goals only).
* The axioms printed by `Print Assumptions` under every theorem in `Props/`. Over the whole development they are exactly
  these four of the standard library:
  `ClassicalDedekindReals.sig_forall_dec`, `ClassicalDedekindReals.sig_not_dec`,
  `FunctionalExtensionality.functional_extensionality_dep`, `Classical_Prop.classic`.
  Generic theorems (C01_*_loop, C02, C30 panics, C38, C41, C42, C46, C50, C57, C61 and similar) are closed under the
  global context; theorems over `R` use the first three; those using Flocq, Coquelicot or case analysis on real
  predicates add `classic`. No axiom, functor, module type, `Admitted` or unsafe flag is part of the development.
* The reading of the Rust source recorded in the comments of `Model/`, audited file by file against `/repo`.

Modelled: every function of `point_generic.rs`, `line.rs`, `quadratic_bezier.rs`, `cubic_bezier.rs`, `bezier.rs`,
`bezier_segment.rs`, `bspline.rs` and `roots.rs` (the last is dead code in the crate) apart from `Debug`.

## 4. Plan per property

| id | modelled | how proved |
|---|---|---|
| C01 | `PointN` ops on length-indexed arrays | coordinate lemmas by induction on lists |
| C02 | `axis` with both checks | case analysis |
| C03 | `line_eval` | ring on coordinates |
| C04 | `line_split` | **code violates it** (`start - end` instead of `end - start`): refutation + exact behaviour, over the reals and up to rounding in IEEE arithmetic |
| C05 | `line_distance_to_point` | **violated** (projection parameter >= 1 is clamped to 0): refutation + partial for the other cases |
| C06 | same | result is distance to an explicit segment point |
| C07 | `line_bounding_box` | loop invariant + convexity |
| C08 | `line_derivative`, `line_axis` | `derivable_pt_lim`; ring |
| C09-C12 | quadratic functions | ring / `derivable_pt_lim` |
| C13,C14 | `quad_bounding_box` incl. ArrayVec capacity and sort | monotonicity between extrema; exact containment refuted at EPSILON scale |
| C15-C17 | `is_linear`, `is_a_point` | convexity of distance (Minkowski inequality) |
| C18-C20,C24 | cubic functions | ring / `derivable_pt_lim` |
| C21 | `cubic_dd` | **violated** (`t * -3` for `t2 * -3`): refutation + exact error term |
| C22,C23 | `cubic_bounding_box` | sign of quadratic derivative between roots |
| C25 | accessors | by computation on arbitrary curves |
| C26-C29 | generic `Bezier` loops, any N | loop invariant to the operator `L_t p i = (1-t) p i + t p (i+1)`, binomial induction |
| C30 | panics at N=0 (eval) and N=1 (derivative) | **violated** in the degenerate cases: refutation; partial for N>=2 |
| C31 | generic vs specialised | equality of point expressions |
| C32,C33 | convex hull, affine invariance, reversal | Bernstein weights |
| C34 | `arclen` | **violated** (first chord missing): exact sum proved + refutation |
| C35 | `arclen` vs integral of speed | projection on the middle derivative; deficit g²L/n, O(1/n²) beyond the first chord for regular curves |
| C36 | `distance_to_point` | **violated** (fine pass leaves [0,1]): refutation |
| C37 | same | fold invariant + Lipschitz bound |
| C38-C41 | `bspline_new`, `knot_domain`, `eval` | case analysis, list induction; C39 **violated** for NaN knots, C40 **violated** (domain of the clamped kinds) |
| C42 | `eval`, clamped | generic index-range invariants, fuel bound |
| C43, C71 | `eval`, other kinds | **violated** (C43): the exact set of panicking parameters is proved for each kind (C71) |
| C44 | `de_boor_iterative` | **violated** (only D of D+1 control points are loaded): exact value proved, refutation |
| C45,C46 | end points, NaN | loop invariant; C45 **violated** for degree 0 |
| C47 | `bspline_derivative` | **violated** (knot vector not trimmed): control points proved, at the knots as well where fewer than D coincide; exact value of `eval` of the result on every span; refutations, one of them for every spline of constant velocity |
| C48 | `bspline_arclen` | **violated** (distance from the last point to the origin is added, chords ignore the width of the domain): exact value for every clamped domain, refutation |
| C49 | searches | invariants; unclamped search **violated** |
| C50,C60 | local control, convexity | generic relational argument; invariant |
| C51,C52 | `BezierSegment` | case analysis; C52 linear split **violated** |
| C53,C63 | IEEE end points | Flocq correctness of multiplication by 0/1; C63 **violated** where the code interpolates differently |
| C54,C55 | IEEE error bound of evaluation | Flocq rounding error lemmas, induction on level |
| C56,C57 | IEEE finiteness, NaN boxes | Flocq, overflow case analysis |
| C58,C59 | root finders over R | algebra, trigonometric identities; C59 **violated** (f32 pi, EPSILON window) |
| C61 | kind classification | case analysis |
| C62 | finite boxes | IEEE case analysis |
| C64 | `solve_t_for_axis` | exact solution sets; **violated** (open interval, short curves skipped) |
| C65,C66 | B-spline evaluation in IEEE arithmetic | finiteness, exact last point, error bound; refuted without spacing conditions |
| C67-C70 | split, derivative, arclen, distance in IEEE arithmetic | perturbation bounds through the exact polynomial |
| C72 | boxes of segments and quadratics in IEEE arithmetic | error analysis of the vertex parameter; slack = EPSILON/8 + 54uM |
| C73 | boxes of cubics in IEEE arithmetic | **violated** (rounding noise just above EPSILON in the cubic coefficient); bound when that coefficient is at least M/lam, when the computed one is below EPSILON (parabola with the same ends and start tangent), and for coarse data; the bound quadratic in lam u by backward error (the computed roots are nearly those of a polynomial with nearly the right coefficients) |
| C74, C75 | the two circle tests of `cubic_bezier.rs` for every parameter / step count, exact and IEEE | factored degree 6 drift polynomial; speed nearly parallel to the tangent; C69 |
| C76 | repeated `split(1/2)`, `is_linear`/`is_a_point` of the pieces, distance to the chords | legs and second differences of the de Casteljau triangle |
| C77 | `arclen` under refinement, control polygon bound, true length under split and reversal | triangle inequality; integral of the speed |
| C78 | affine maps, similarities, translations of curves and boxes | simulation of the loops; EPSILON thresholds as side condition, shown necessary |
| C79 | affine maps of B-splines | **violated** for translations (C44); linear maps exact, translation described by the value of the constant spline |
| C80 | distance to a segment in IEEE arithmetic | the clamped parameter is in [0,1] whatever the quotient is; error of two inner products and a quotient for the foot |
| C81 | `is_linear`, `is_a_point` in IEEE arithmetic | C80, hull of the exact control points |
| C82 | assertions of the crate's tests in IEEE arithmetic | two evaluations of one curve point each have a proved error; the squared distance of points that close is below `EPSILON`; box slack of C72 against the tolerance |
| C83 | degree elevation | Bernstein absorption identities for `eval`; split and derivative by uniqueness (C84); boxes because the leading coefficient is exactly 0 |
| C84 | determined by n values | Rolle's theorem, induction on the degree, sorted parameters |
| C85 | variation diminishing | Descartes' rule of signs for sum a_i y^(2i) (divide by y^(2p+1) between a sign change, Rolle), y = sqrt(t/(1-t)) |
| C86 | monotone control points | derivative in Bernstein form is nonnegative; box bounds are curve values and enclose the end points |
| C87 | boxes of reversed and split curves | the derivative's roots r go to 1 - r, sorting depends on the set of candidates only; split: bounds are attained and contained (C13, C22) |
| C88 | stability | Bernstein weights are a partition of unity; difference curve and Lipschitz bound for lengths |
| C89 | Bezier knots | closed form of the basis functions: Bernstein polynomials by induction on the degree; exact value of C44 |
| C90 | range and stability of B-splines | weights lie in [0,1] as soon as t is left of the right end of the span found; induction over the triangle |
| C91 | limit at the right end | the missing control point is the origin (C44); the last column of the triangle decays linearly |
| C92 | laws of the derivative | uniqueness from C84, then the chain rule; Taylor by induction on the number of control points |
| C93 | arc length through the derivative | C29 under the integral |
| C94 | shifting and stretching the parameter | every comparison in the code is between knots and parameters, or of a difference with EPSILON; induction over the loops |
| C95 | f32 and f64 give the same curve | C54/C55 in each format, Lipschitz bound of the exact curve in between |
| C96 | range of a curve in floating point | C54/C55 and the convex hull on one axis; counterexample by computation |
| C97 | continuity and jumps at the knots; the curve has D - m continuous derivatives where m knots coincide (`Spec/Smooth.v`) | left-continuous twin of the Cox-de Boor recursion; induction on the degree with the multiplicity of the knot |
| C98 | mirror symmetry in IEEE arithmetic | relational library (two runs on related inputs, Proofs/Relational.v) instantiated with negation up to the sign of zero; boxes by extremal elements |
| C99 | axes do not interact | the relational library of C98 with equality of one coordinate |
| C100 | the knot searches take log2 K + 1 iterations | fuel monotone, halving of the range; exact for t right of all knots |
| C101 | `Display` of the errors | case analysis on the results of `new` and `eval` |
| C102 | finite results come from finite data | inversion of the IEEE operations on finiteness; closed forms of C26, C44; search loop invariant |
| C103 | quadratic solver in floats | discriminant error, sqrt error, exact products by 2 and 4; residual through (2at+b)^2 - disc; completeness from the residual of the exact crossing in the computed coefficients; computed f64 counterexamples |
| C104 | derived equality tests | a curve of known degree is determined by its values; float congruence of every operation for equality up to the sign of zero |
| C105 | order in floats | rounded addition, and multiplication by a nonnegative float, are monotone on the extended line (clamped rounding); weights are nonnegative; the two-run relation through the loops |
| C106 | B-spline derivative in floats | closed form of the loop; four roundings, gap between knots from below; signed zeros for repeated knots |
| C107 | power-of-two scaling in floats | rounding maps multiples of 2^g to such multiples and commutes with 2^k there; grid of the B-spline weights from the EPSILON guard; the relation through each function |
| C108 | number formats | successor of 1 in the format; extremal values of the format, attained |
| C109 | exact evaluation of coarse data | every intermediate value is a multiple of the grid and within the precision, so each operation is exact; partial sums of a convex combination stay bounded |
| C110 | cutting a curve twice | both sides follow the same curve at every parameter; a curve of given degree is determined by its values (C84) |
| C111 | termination, panics of `bspline_arclen` | only the knot searches loop (C49); the loop panics iff a sample does; C71 locates the samples of half clamped splines |
| C112 | kind and panics of float B-splines | the float searches decide like the real ones (comparisons are exact), the kind is that of the reals for another tolerance, then C71 |
| C113 | float B-splines over Bezier knots | the de Boor weights of one level are the same float; 1 - w is computed alike; the de Boor triangle is then the de Casteljau triangle term by term |
| C114 | the example program | loop invariant for the drawn points, C22/C23 for the box, positivity of the cubic weights for the hull |
| C115 | undoing split and derivative | C110 with t*s = 1 or t + s(1-t) = 0; the parts at 1 and 0 are the curve by C84; differences of control points |
| C116 | two formats agree exactly | C109 in both formats; the control points of the parts from the equality of the curves, as in C84 |
| C117 | linear precision; arclen of straight lines | de Casteljau on x + k y by induction; the missing first chord is |b-a|/m; for splines the sum of knot sums times basis functions is D t by induction on the degree |
| C118 | usize arithmetic of both build profiles (Model/Profiles.v) | same outcome function by function; loops by extensionality under length invariants; a wrapped index is at least M - D and out of bounds |
| C119 | `BSpline::arclen` in floats against the distances of the computed points | bound of one computed distance (C69), error of a sum of numbers that are not negative, eval total and bounded for every float parameter; parameters of [0,1] as in C69 |
| C120 | Bezier curve of the samples of a given curve (Bernstein) | variance of the Bernstein weights by de Casteljau's recursion, triangle inequality over the weights, uniform continuity (Heine) |
| C121 | convex control values | second differences of the control values are the control values of the second derivative; support line through two neighbours |
| C122 | mean of a curve | the antiderivative is a Bezier curve with the partial sums as control points |
| C123 | `IntoIterator` of points and curves; loops over the items of a user point | the loops fill an array in order: prefix of the longer run, index check at DIM |
| C124 | The functions with the named lines changed (Model/Repairs.v, which is **not** the code) satisfy C04, C05, C16, C21, C34, C36, C40, C43, C44, C45, C47, C48, C49, C52, C79 in full; Model/RepairsRoots.v (also not the code) does so for C39, C59, C63 (lines and quadratics), C64 (non-constant coordinates), C73 (cancellation-free root formula; same result over the reals); Model/RepairsLoad.v (also not the code) changes bspline.rs:262 alone: for splines clamped at an end that gives C45, C79, the hull, and C44 except within EPSILON after a knot, and in IEEE arithmetic an error of 15 D u M against the true curve; the repaired B-spline eval and arclen return over every scalar; the repaired evaluation in IEEE arithmetic is within 15 D u M of the true curve on every kind of spline, exact at clamped ends, and smooth at the knots | de Boor triangle without the exact-zero tests; the clamped span search on all kinds; otherwise the proofs for the code with fewer hypotheses |
| C125 | any two `Point` types with the same observable behaviour; `PointN<U,N>` for user coordinates (`Model/Coordinates.v`) | relational runs of the whole model (`Proofs/Relational.v`) with equality on scalars |
| C126 | functions with `Point::Scalar` != `NativeFloat` (`Model/TwoScalars.v`): newtypes change nothing, wider scalars keep their precision in the listed functions | laws of the conversions (`Spec/Widening.v`), rewriting |
| C127 | split of cubics, dd of quadratics and B-spline evaluation lose it: rounding bounds, refutations at t = 1/3 | exact coordinates over any float format (`Inst/ExactOver.v`), de Boor table with rounded left weights; derivatives, arc lengths and solutions in Proofs/NarrowMore.v, cubic roots in Proofs/NarrowRoots.v and Proofs/NarrowSolve.v |
| C128 | the curve keeps order and length (tails of the basis are monotone, any multiplicities); the code at the knots only, refuted between them; the repaired evaluation everywhere (C124) | `Spec/SplinePoints.v`, `level`, `polygon_length` |
| C129 | curve unchanged by Boehm's rule; code at old and new knots, refuted between; repaired evaluation everywhere (C124) | `Spec/Insertion.v`, induction on the degree |
| C130 | curve, code at the knots, refuted between; repaired evaluation everywhere (C124) | `polygon_crosses`; D insertions make a value a control point |
| C131 | curve: exact condition for a control point to be determined; code: exact condition, degree 0 refuted; repaired evaluation everywhere (C124) | local linear independence of the basis by induction on the degree through the derivative |
| C132 | curve: every blossom, all polynomials of degree at most D, Marsden's identity, Greville abscissae, and uniqueness of the control values; code at the knots, exact defect between them, refuted for a line; repaired evaluation on the closed domain (C124) | `Spec/Blossom.v`; entry (r, j) of de Boor's triangle is the blossom at r times t and D - r knots |
| C133 | curve: three points, and the lines through the legs; code at the knots, refuted between; repaired evaluation everywhere (C124) | `Spec/Bending.v`; the chord inequality is affine in each of the three points, so it survives knot insertion (Greville abscissae move like control values); after D insertions a value is a control value |
| C134 | curve, all multiplicities; code: the exact integral missed on each span after its first EPSILON, refuted for a line; repaired evaluation (C124) | tail sums of the basis of degree D+1 as antiderivative; fundamental theorem for functions with one-sided limits |
| C135 | curve, code of clamped splines on all non-empty spans, repaired evaluation (C124) | de Boor's triangle entry by entry in Bernstein form, over R |
| C136 | Bezier curves of all kinds, any leg; pieces of repeated halving; B-spline curve, repaired evaluation (C124), code at the knots | control points against the line through two neighbours, weighted mean, second moment of the weights; attained by squares |
| C137 | `quad_eval`, `quad_arclen` on rings of quadratics; the data of the two commented-out tests | squared radius as a square plus 1; fourth difference of the squared radius against the second difference of the control points; speed squared integrated between polynomials |
| C138 | `quad_split`, `cubic_split`, `segment_split` with `is_a_point`, `is_linear` under a recursion written in Spec/Adaptive.v | legs halve (C76); a cubic that is a point stays within 3/4 tol of its chord; the last piece keeps its doubled end point; in f32/f64 the last piece reaches a fixed point of split; in every format legs shrink to W/2 + 2 (3) midpoint errors per round and `is_a_point` accepts (C81) |
| C139 | `eval`, `arclen`, `distance_to_point`, `is_linear`, `is_a_point`, `bounding_box`, `split` of curves with a NaN coordinate, `bspline_eval`, `solve_t_for_axis` | NaN propagates through sums and products, loses every comparison; `in_unit` drops NaN roots; de Boor combines every loaded control point |
| C140 | `split`, `bounding_box` of quadratics and cubics, repeated | Spec/Boxes.v; boxes contain the pieces (C07, C72), pieces tile the curve, legs halve; rounded: every computed piece stays near the exact one |
| C141 | `is_linear`, `is_a_point`, `split` of quadratics and cubics, as in C138; `arc_length` of Spec/Length.v | the feet of the control points draw the chord monotonically; the rest has total variation at most 4 tol |
| C142 | `split`, `derivative`, `bounding_box` of quadratics and cubics | Spec/Monotone.v; Simpson's rule is exact, the derivative keeps its sign (intermediate values), bounds are attained (C14, C23) |
| C143 | `dd` of quadratics in full; cubics: the code is off by 3t(1-t) times the start point (C21), refuted as the derivative in f64, and within rounding of that value; the repaired `dd` (C124) in full | running error bounds for the coefficients (`co`) and the terms (`tm`) |
| C144 | `axis` of lines and quadratics in full over every scalar; cubics: equal over the reals (C24), refuted in f64 (other order of the products), within 128 (u M + eta) of the curve | componentwise points; `co` and `tm` of C143 |

EPSILON enters the exact box theorems (C13, C22) as a slack: a quadratic is inside its box up to EPSILON/8, a cubic up
to 3*EPSILON/8 in the worst branch, and exact containment is refuted.

## 5. Wrong programs

`seeded/LOG.jsonl` has one line per edit of the model that was tried in a scratch copy: hand-written edits and
token-level edits generated over all of `Model/` (operators, literals, indices, branches, arguments). "broken_proofs" is
the first lemma whose proof fails after the edit, "theorems_failed" are the property theorems depending on it. Edits
that survive are either equivalent (larger `ArrayVec` capacities) or led to the theorem named in "theorems_tightened".
