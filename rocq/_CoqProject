-Q theories Verif
theories/Base/Outcome.v
theories/Base/Scalar.v
theories/Model/Point.v
theories/Model/PointLoops.v
theories/Model/Line.v
theories/Model/Quadratic.v
theories/Model/Cubic.v
theories/Model/Bezier.v
theories/Model/BSpline.v
theories/Model/Segment.v
theories/Model/Roots.v
theories/Inst/RealInst.v
theories/Spec/Sums.v
theories/Spec/Lawful.v
theories/Spec/Bernstein.v
theories/Proofs/OutcomeFacts.v
theories/Proofs/PointFacts.v
theories/Proofs/RealTac.v
theories/Proofs/ExactEval.v
theories/Spec/Metric.v
theories/Proofs/Metric.v
theories/Proofs/LineFacts.v
theories/Proofs/BBoxFacts.v
theories/Proofs/BezierGeneric.v
theories/Spec/Hull.v
theories/Proofs/BezierReal.v
theories/Proofs/Linearity.v
theories/Proofs/PointGeneric.v
theories/Proofs/PointLoops.v
theories/Spec/Points.v
theories/Spec/Box.v
theories/Proofs/BoxSpec.v
theories/Spec/Segments.v
theories/Proofs/CurveMisc.v
theories/Props/PointProps.v
theories/Props/LineProps.v
theories/Props/QuadProps.v
theories/Props/CubicProps.v
theories/Props/BezierProps.v
theories/Props/SegmentProps.v
theories/Spec/Length.v
theories/Proofs/Calculus.v
theories/Proofs/CurveCalc.v
theories/Proofs/Search.v
theories/Inst/RatInst.v
theories/Proofs/Transfer.v
theories/Proofs/SearchCE.v
theories/Proofs/ArclenFacts.v
theories/Props/ArclenProps.v
theories/Props/DistanceProps.v
theories/Spec/Basis.v
theories/Spec/Probes.v
theories/Proofs/BSplineGeneric.v
theories/Proofs/BSplineReal.v
theories/Proofs/BSplineEval.v
theories/Proofs/BasisCalc.v
theories/Proofs/BSplineArclen.v
theories/Proofs/BSplinePanic.v
theories/Proofs/BSplineDeriv.v
theories/Proofs/BSplineCE.v
theories/Props/BSplineProps.v
theories/Inst/FloatInst.v
theories/Spec/Rounding.v
theories/Spec/Componentwise.v
theories/Spec/FloatPoints.v
theories/Spec/FloatSplines.v
theories/Proofs/FloatFacts.v
theories/Proofs/FloatPoint.v
theories/Proofs/FloatEval.v
theories/Proofs/FloatBound.v
theories/Proofs/FloatNear.v
theories/Proofs/FloatEnds.v
theories/Proofs/FloatSpline.v
theories/Proofs/FloatSplineEval.v
theories/Spec/FloatCurves.v
theories/Proofs/FloatSplit.v
theories/Proofs/FloatNorm.v
theories/Proofs/FloatLength.v
theories/Proofs/FloatCurve.v
theories/Proofs/FloatTrueLength.v
theories/Proofs/FloatFlat.v
theories/Proofs/FloatFoot.v
theories/Spec/Circle.v
theories/Proofs/Circle.v
theories/Proofs/CircleLength.v
theories/Proofs/FloatCircle.v
theories/Props/FloatCurveProps.v
theories/Props/FloatFlatProps.v
theories/Proofs/BoxGeneric.v
theories/Proofs/FloatBox.v
theories/Spec/FloatBoxes.v
theories/Proofs/FloatBoxQuad.v
theories/Proofs/FloatBoxCubic.v
theories/Proofs/FloatBoxFlat.v
theories/Proofs/FloatBoxBackward.v
theories/Props/FloatBoxProps.v
theories/Proofs/FloatAgree.v
theories/Proofs/FloatHalf.v
theories/Proofs/FloatBoxTest.v
theories/Props/FloatTestProps.v
theories/Props/CircleProps.v
theories/Props/FloatProps.v
theories/Proofs/FloatSplineFirst.v
theories/Props/FloatSplineProps.v
theories/Spec/CubicRoots.v
theories/Proofs/Cardano.v
theories/Proofs/SolveAxis.v
theories/Props/RootProps.v
theories/Spec/Subdivision.v
theories/Proofs/Subdivision.v
theories/Props/SubdivisionProps.v
theories/Proofs/LengthMore.v
theories/Props/LengthProps.v
theories/Spec/Maps.v
theories/Proofs/Equivariance.v
theories/Proofs/EquivarianceCE.v
theories/Props/EquivarianceProps.v
theories/Tests/UnitTests.v
theories/Tests/RunSmall.v
theories/Tests/RunCubic.v
theories/Tests/RunBezier.v
theories/Tests/RunCircle.v
theories/Spec/Elevation.v
theories/Proofs/Elevation.v
theories/Props/ElevationProps.v
theories/Spec/Crossings.v
theories/Proofs/Crossings.v
theories/Proofs/MonotoneBox.v
theories/Props/CrossingProps.v
theories/Spec/BoxOps.v
theories/Proofs/BoxOps.v
theories/Spec/Stability.v
theories/Proofs/Stability.v
theories/Props/StabilityProps.v
theories/Proofs/BezierSpline.v
theories/Props/BezierSplineProps.v
theories/Proofs/BSplineRange.v
theories/Proofs/BSplineRangeCE.v
theories/Props/BSplineRangeProps.v
theories/Spec/Derivatives.v
theories/Proofs/DerivLaws.v
theories/Props/DerivProps.v
theories/Proofs/Reparam.v
theories/Proofs/ReparamCE.v
theories/Props/ReparamProps.v
theories/Spec/TwoFormats.v
theories/Proofs/TwoFormats.v
theories/Props/TwoFormatProps.v
theories/Spec/Limits.v
theories/Proofs/BSplineJump.v
theories/Props/BSplineJumpProps.v
theories/Spec/Mirror.v
theories/Spec/Related.v
theories/Proofs/FloatNeg.v
theories/Proofs/Relational.v
theories/Proofs/Mirror.v
theories/Proofs/MirrorCE.v
theories/Props/MirrorProps.v
theories/Spec/Axes.v
theories/Proofs/Axes.v
theories/Props/AxesProps.v
theories/Proofs/SearchCost.v
theories/Props/SearchCostProps.v
theories/Model/Display.v
theories/Proofs/Display.v
theories/Props/DisplayProps.v
theories/Proofs/Poison.v
theories/Props/PoisonProps.v
theories/Proofs/FloatRoots.v
theories/Proofs/FloatSolve.v
theories/Props/FloatRootProps.v
theories/Model/Equality.v
theories/Spec/Equality.v
theories/Proofs/Equality.v
theories/Props/EqualityProps.v
theories/Spec/Order.v
theories/Proofs/FloatOrder.v
theories/Props/FloatOrderProps.v
theories/Proofs/FloatSplineDeriv.v
theories/Spec/Scaling.v
theories/Proofs/FloatScale.v
theories/Props/FloatScaleProps.v
theories/Proofs/FloatRange.v
theories/Props/FormatProps.v
theories/Spec/Exact.v
theories/Proofs/FloatExact.v
theories/Props/FloatExactProps.v
theories/Proofs/SplitAgain.v
theories/Props/SplitAgainProps.v
theories/Proofs/SplineSamples.v
theories/Props/SplineSamplesProps.v
theories/Proofs/FloatPanic.v
theories/Props/FloatPanicProps.v
theories/Proofs/SplineTail.v
theories/Proofs/FloatBezierSpline.v
theories/Props/FloatBezierSplineProps.v
theories/Model/Example.v
theories/Spec/Chart.v
theories/Proofs/ExampleFacts.v
theories/Props/ExampleProps.v
theories/Tests/RunExample.v
theories/Proofs/Unique.v
theories/Props/UniqueProps.v
theories/Proofs/TwoExact.v
theories/Props/TwoExactProps.v
theories/Spec/Precision.v
theories/Proofs/LinearPrecision.v
theories/Props/PrecisionProps.v
theories/Model/Profiles.v
theories/Proofs/ProfileFacts.v
theories/Props/ProfileProps.v
theories/Proofs/FloatSplineLength.v
theories/Props/FloatSplineLengthProps.v
theories/Spec/Sampling.v
theories/Proofs/Sampling.v
theories/Props/SamplingProps.v
theories/Model/Iterators.v
theories/Proofs/Iterators.v
theories/Props/IteratorProps.v
theories/Spec/Search.v
theories/Model/Repairs.v
theories/Proofs/Repairs.v
theories/Proofs/RepairSpline.v
theories/Props/RepairProps.v
theories/Model/Coordinates.v
theories/Spec/Interface.v
theories/Proofs/Interface.v
theories/Props/InterfaceProps.v
theories/Model/TwoScalars.v
theories/Spec/Widening.v
theories/Inst/ExactOver.v
theories/Proofs/TwoScalars.v
theories/Proofs/Narrowing.v
theories/Props/TwoScalarsProps.v
theories/Model/RepairsRoots.v
theories/Proofs/RepairRoots.v
theories/Proofs/RepairBox.v
theories/Props/RepairRootProps.v
theories/Spec/SplinePoints.v
theories/Proofs/SplineOrder.v
theories/Proofs/RepairOrder.v
theories/Props/SplineOrderProps.v
theories/Spec/Insertion.v
theories/Proofs/KnotInsertion.v
theories/Proofs/SplineCrossings.v
theories/Proofs/InsertionEval.v
theories/Props/InsertionProps.v
theories/Model/RepairsLoad.v
theories/Proofs/RepairLoad.v
theories/Props/RepairLoadProps.v
theories/Proofs/RepairFloat.v
theories/Props/RepairFloatProps.v
theories/Proofs/BasisIndependent.v
theories/Proofs/SplineUnique.v
theories/Props/SplineUniqueProps.v
theories/Spec/Blossom.v
theories/Proofs/BlossomFacts.v
theories/Proofs/BlossomEval.v
theories/Props/BlossomProps.v
theories/Spec/Bending.v
theories/Spec/Smooth.v
theories/Proofs/SplineBend.v
theories/Proofs/SplineSmooth.v
theories/Props/SplineBendProps.v
theories/Props/SplineSmoothProps.v
theories/Proofs/SplineMean.v
theories/Proofs/SplineMeanCE.v
theories/Props/SplineMeanProps.v
theories/Proofs/SplineBezier.v
theories/Props/SplineBezierProps.v
theories/Spec/Polygon.v
theories/Proofs/Polygon.v
theories/Props/PolygonProps.v
theories/Spec/QuadCircle.v
theories/Proofs/QuadCircle.v
theories/Proofs/QuadCircleLength.v
theories/Props/QuadCircleProps.v
theories/Proofs/SplineNear.v
theories/Props/SplineNearProps.v
theories/Props/FloatParamProps.v
theories/Proofs/NarrowMore.v
theories/Props/NarrowProps.v
theories/Spec/Adaptive.v
theories/Proofs/Adaptive.v
theories/Proofs/AdaptiveFloat.v
theories/Props/AdaptiveProps.v
theories/Proofs/NanCurves.v
theories/Props/NanProps.v
theories/Proofs/AdaptiveRound.v
theories/Props/AdaptiveRoundProps.v
theories/Proofs/NanSpline.v
theories/Props/NanSplineProps.v
theories/Proofs/LoadFloat.v
theories/Proofs/RepairTotal.v
theories/Props/LoadFloatProps.v
theories/Spec/Boxes.v
theories/Proofs/BoxCover.v
theories/Props/BoxCoverProps.v
theories/Proofs/BoxCoverRound.v
theories/Props/BoxCoverRoundProps.v
theories/Proofs/NanSolve.v
theories/Props/NanSolveProps.v
theories/Proofs/FlatLength.v
theories/Props/FlatLengthProps.v
theories/Spec/Monotone.v
theories/Proofs/MonotonePieces.v
theories/Props/MonotonePiecesProps.v
theories/Proofs/NarrowRoots.v
theories/Proofs/NarrowSolve.v
theories/Props/NarrowRootsProps.v
theories/Proofs/FloatDd.v
theories/Props/FloatDdProps.v
theories/Proofs/FloatAxis.v
theories/Props/FloatAxisProps.v
theories/Proofs/FloatLineSplit.v
theories/Props/FloatLineSplitProps.v
