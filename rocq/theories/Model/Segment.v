(** Model of src/bezier_segment.rs. *)
From Coq Require Import ZArith List Arith Bool.
From Verif Require Import Base.Outcome Base.Scalar Model.Point Model.Line Model.Quadratic Model.Cubic.
Import ListNotations.

(** [enum BezierSegment<P>] (bezier_segment.rs:8-12); the constructors are also
    the three [From] impls (86-111). *)
Inductive segment (P : Type) :=
| Linear (l : line P)
| Quadratic (q : quad P)
| CubicSeg (c : cubic P).
Arguments Linear {P} l.
Arguments Quadratic {P} q.
Arguments CubicSeg {P} c.

Section Segment.
  Context {T P : Type} {ST : Scalar T} {PT : Point T P}.

  (** bezier_segment.rs:18-24 *)
  Definition segment_eval (self : segment P) (t : T) : P :=
    match self with
    | Linear s => line_eval s t
    | Quadratic s => quad_eval s t
    | CubicSeg s => cubic_eval s t
    end.

  (** bezier_segment.rs:26-32 *)
  Definition segment_start (self : segment P) : P :=
    match self with
    | Linear s => l_start s
    | Quadratic s => q_start s
    | CubicSeg s => c_start s
    end.

  (** bezier_segment.rs:35-41 *)
  Definition segment_end (self : segment P) : P :=
    match self with
    | Linear s => l_end s
    | Quadratic s => q_end s
    | CubicSeg s => c_end s
    end.

  (** bezier_segment.rs:44-53 *)
  Definition segment_is_linear (self : segment P) (tolerance : T) : outcome bool :=
    match self with
    | Linear _ => Ret true
    | Quadratic s => quad_is_linear s tolerance
    | CubicSeg s => cubic_is_linear s tolerance
    end.

  (** bezier_segment.rs:56-62 *)
  Definition segment_baseline (self : segment P) : line P :=
    match self with
    | Linear s => s
    | Quadratic s => quad_baseline s
    | CubicSeg s => cubic_baseline s
    end.

  (** bezier_segment.rs:65-83 *)
  Definition segment_split (self : segment P) (t : T) : segment P * segment P :=
    match self with
    | Linear s => let '(a, b) := line_split s t in (Linear a, Linear b)
    | Quadratic s => let '(a, b) := quad_split s t in (Quadratic a, Quadratic b)
    | CubicSeg s => let '(a, b) := cubic_split s t in (CubicSeg a, CubicSeg b)
    end.
End Segment.
