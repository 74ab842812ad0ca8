(** C99: the axes do not interact.  [same_coord i j p q] : coordinate i of p is coordinate j of q, where
    p and q may be of different types and dimensions.  If it holds of all control points, it holds of
    every computed point; the parameter is the same.  For every scalar type - no law of arithmetic is
    used, so this is bitwise for f32 and f64.  Consequences: the other coordinates of the control points
    have no influence on coordinate i (P = Q, i = j); permuting the axes permutes the results; dropping
    an axis, or keeping only one, gives the same numbers on the axes kept. *)
From Coq Require Import List Arith Lia.
From Verif Require Import Base.Outcome Base.Scalar Model.Point Model.Line Model.Quadratic Model.Cubic Model.Bezier
  Model.BSpline Spec.Componentwise Spec.Points Spec.Related Spec.Axes Proofs.FloatPoint Proofs.Axes.
Import ListNotations.

Section Axes.
  Context {T P Q : Type} {ST : Scalar T} {PT : Point T P} {QT : Point T Q} {CP : CwPoint T P} {CQ : CwPoint T Q}.
  Variables (i j : nat).
  Hypotheses (Hi : i < p_dim (P := P)) (Hj : j < p_dim (P := Q)).
  Notation same := (same_coord (P := P) (Q := Q) i j).

  Theorem C99_line (l : line P) (m : line Q) (t : T) : related_lines same l m ->
    same (line_eval l t) (line_eval m t) /\
    related_pairs (related_lines same) (related_lines same) (line_split l t) (line_split m t) /\
    same (line_derivative l) (line_derivative m) /\
    line_axis l t i = line_axis m t j.
  Proof. exact (line_axes i j Hi Hj l m t). Qed.
  Theorem C99_quad (l : quad P) (m : quad Q) (t : T) : related_quads same l m ->
    same (quad_eval l t) (quad_eval m t) /\ same (quad_eval_casteljau l t) (quad_eval_casteljau m t) /\
    related_pairs (related_quads same) (related_quads same) (quad_split l t) (quad_split m t) /\
    related_lines same (quad_derivative l) (quad_derivative m) /\
    quad_axis l t i = quad_axis m t j /\ quad_dd l t i = quad_dd m t j.
  Proof. exact (quad_axes i j Hi Hj l m t). Qed.
  Theorem C99_cubic (l : cubic P) (m : cubic Q) (t : T) : related_cubics same l m ->
    same (cubic_eval l t) (cubic_eval m t) /\ same (cubic_eval_casteljau l t) (cubic_eval_casteljau m t) /\
    related_pairs (related_cubics same) (related_cubics same) (cubic_split l t) (cubic_split m t) /\
    related_quads same (cubic_derivative l) (cubic_derivative m) /\
    cubic_axis l t i = cubic_axis m t j /\ cubic_dd l t i = cubic_dd m t j.
  Proof. exact (cubic_axes i j Hi Hj l m t). Qed.
  Theorem C99_bezier (l : bezier P) (m : bezier Q) (t : T) : related_beziers same l m ->
    related same (bezier_eval l t) (bezier_eval m t) /\
    related (related_pairs (related_beziers same) (related_beziers same)) (bezier_split l t) (bezier_split m t) /\
    related (related_beziers same) (bezier_derivative l) (bezier_derivative m).
  Proof. exact (bezier_axes i j Hi Hj l m t). Qed.
  Theorem C99_bspline (l : bspline T P) (m : bspline T Q) (t : T) : related_splines same l m ->
    related (related_results same) (bspline_eval l t) (bspline_eval m t) /\
    related (related_splines same) (bspline_derivative l) (bspline_derivative m).
  Proof. exact (bspline_axes i j Hi Hj l m t). Qed.

  (** a call may panic because of a NaN on another axis; when both return, the bounds are the same *)
  Theorem C99_line_box (l : line P) (m : line Q) bs bs' : related_lines same l m ->
    line_bounding_box l = Ret bs -> line_bounding_box m = Ret bs' -> nth_error bs i = nth_error bs' j.
  Proof. exact (line_box_axes i j l m bs bs' Hi Hj). Qed.
  Theorem C99_quad_box (l : quad P) (m : quad Q) bs bs' : related_quads same l m ->
    quad_bounding_box l = Ret bs -> quad_bounding_box m = Ret bs' -> nth_error bs i = nth_error bs' j.
  Proof. exact (quad_box_axes i j Hi Hj l m bs bs'). Qed.
  Theorem C99_cubic_box (l : cubic P) (m : cubic Q) bs bs' : related_cubics same l m ->
    cubic_bounding_box l = Ret bs -> cubic_bounding_box m = Ret bs' -> nth_error bs i = nth_error bs' j.
  Proof. exact (cubic_box_axes i j Hi Hj l m bs bs'). Qed.
End Axes.

(** the y coordinate of a curve in the plane, as a curve on the line *)
Example C99_case {T : Type} {ST : Scalar T} (a b c d e f : T) :
  related_quads (same_coord (P := PointN T 2) (Q := PointN T 1) 1 0)
    (Quad (pt [a; b]) (pt [c; d]) (pt [e; f])) (Quad (pt [b]) (pt [d]) (pt [f])).
Proof. repeat split. Qed.

Print Assumptions C99_line.
Print Assumptions C99_quad.
Print Assumptions C99_cubic.
Print Assumptions C99_bezier.
Print Assumptions C99_bspline.
Print Assumptions C99_line_box.
Print Assumptions C99_quad_box.
Print Assumptions C99_cubic_box.
