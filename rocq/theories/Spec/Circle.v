(** The four cubics of the unit tests circle_approximation_error and
    circle_circumference_approximation (src/cubic_bezier.rs:418-522): control points
    chosen so that each follows a quarter of the unit circle. *)
From Coq Require Import Reals ZArith List.
From Verif Require Import Base.Outcome Base.Scalar Model.Point Model.Cubic Spec.Points.
Import ListNotations.

Section Circle.
  Context {T : Type} {ST : Scalar T}.
  Local Notation "0" := (s_lit 0).
  Local Notation "1" := (s_lit 1).
  Local Notation "- x" := (s_neg x).
  Definition corner (x y : T) : PointN T 2 := pt [x; y].

  Definition quadrant_1 (c : T) : cubic (PointN T 2) := Cubic (corner 0 1) (corner c 1) (corner 1 c) (corner 1 0).
  Definition quadrant_2 (c : T) : cubic (PointN T 2) := Cubic (corner 1 0) (corner 1 (- c)) (corner c (- (1))) (corner 0 (- (1))).
  Definition quadrant_3 (c : T) : cubic (PointN T 2) := Cubic (corner 0 (- (1))) (corner (- c) (- (1))) (corner (- (1)) (- c)) (corner (- (1)) 0).
  Definition quadrant_4 (c : T) : cubic (PointN T 2) := Cubic (corner (- (1)) 0) (corner (- (1)) c) (corner (- c) 1) (corner 0 1).
  Definition quadrants (c : T) : list (cubic (PointN T 2)) := [quadrant_1 c; quadrant_2 c; quadrant_3 c; quadrant_4 c].

  (** the closure [circle]: distance from the origin minus 1 *)
  Definition radial (p : PointN T 2) : T := s_sub (s_sqrt (p_sqlen p)) 1.
End Circle.

Local Open Scope R_scope.
(** the literal 0.551915024494 of the tests, up to its rounding *)
Definition circle_constant (c : R) : Prop := Rabs (c - 551915024494 / 1000000000000) <= / 1000000000000.
(** the literal 0.019608 * 0.01 *)
Definition max_drift : R := 19608 / 100000000.
