(** Model of the derived equality tests: [#[derive(PartialEq)]] compares field by
    field in order of declaration, an enum first by variant.  [Bezier] (bezier.rs:18)
    and [BSpline] (bspline.rs:50) derive no equality. *)
From Coq Require Import ZArith List Arith Bool.
From Verif Require Import Base.Outcome Base.Scalar Model.Point Model.Line Model.Quadratic Model.Cubic
  Model.Segment Model.BSpline.

Section Equality.
  Context {T P : Type} {ST : Scalar T} {PT : Point T P}.

  (** line.rs:8-12 *)
  Definition line_eqb (self other : line P) : bool :=
    p_eqb (l_start self) (l_start other) && p_eqb (l_end self) (l_end other).

  (** quadratic_bezier.rs:5-10 *)
  Definition quad_eqb (self other : quad P) : bool :=
    p_eqb (q_start self) (q_start other) && p_eqb (q_ctrl self) (q_ctrl other)
    && p_eqb (q_end self) (q_end other).

  (** cubic_bezier.rs:10-16 *)
  Definition cubic_eqb (self other : cubic P) : bool :=
    p_eqb (c_start self) (c_start other) && p_eqb (c_ctrl1 self) (c_ctrl1 other)
    && p_eqb (c_ctrl2 self) (c_ctrl2 other) && p_eqb (c_end self) (c_end other).

  (** bezier_segment.rs:7-12 *)
  Definition segment_eqb (self other : segment P) : bool :=
    match self, other with
    | Linear l, Linear m => line_eqb l m
    | Quadratic l, Quadratic m => quad_eqb l m
    | CubicSeg l, CubicSeg m => cubic_eqb l m
    | _, _ => false
    end.
End Equality.

(** bspline.rs:6-14 *)
Definition error_eqb (self other : BSplineError) : bool :=
  match self, other with
  | TooFewControlPoints, TooFewControlPoints => true
  | TooFewKnots, TooFewKnots => true
  | TooManyKnots, TooManyKnots => true
  | DecreasingKnots, DecreasingKnots => true
  | KnotDomainViolation, KnotDomainViolation => true
  | EvaluationAlphaIsNaN, EvaluationAlphaIsNaN => true
  | _, _ => false
  end.

(** bspline.rs:16-22 (private) *)
Definition kind_eqb (self other : KnotVectorKind) : bool :=
  match self, other with
  | Unclamped, Unclamped => true
  | Clamped, Clamped => true
  | ClampedStart, ClampedStart => true
  | ClampedEnd, ClampedEnd => true
  | _, _ => false
  end.
