(** Vocabulary for [BezierSegment]. *)
From Coq Require Import List.
From Verif Require Import Base.Scalar Model.Point Model.Line Model.Quadratic Model.Cubic Model.Segment.
Import ListNotations.

Section Segments.
  Context {P : Type}.
  (** both lines, both quadratic or both cubic *)
  Definition same_kind (a b : segment P) : Prop :=
    match a, b with
    | Linear _, Linear _ | Quadratic _, Quadratic _ | CubicSeg _, CubicSeg _ => True
    | _, _ => False
    end.
  (** the control points in order *)
  Definition segment_points (s : segment P) : list P :=
    match s with
    | Linear s => [l_start s; l_end s]
    | Quadratic s => [q_start s; q_ctrl s; q_end s]
    | CubicSeg s => [c_start s; c_ctrl1 s; c_ctrl2 s; c_end s]
    end.
End Segments.
