(** Model of [impl Display for BSplineError] (bspline.rs:24-37).  [write!(f, "...")] with a literal is the text it
    appends; a failing formatter is not modelled. *)
From Coq Require Import String.
From Verif Require Import Model.BSpline.
Local Open Scope string_scope.

Definition error_fmt (e : BSplineError) : string :=
  match e with
  | TooFewControlPoints => "Too few control points"
  | TooFewKnots => "Insufficient number of knots"
  | TooManyKnots => "Excess number of knots"
  | DecreasingKnots => "Knots must be non-decreasing in value"
  | KnotDomainViolation => "Parameter outside of knot span"
  | EvaluationAlphaIsNaN => "Cox-deBoor evaluation yields alpha NaN value"
  end.
