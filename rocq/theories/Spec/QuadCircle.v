(** Quadratics along the unit circle, for the two tests of src/quadratic_bezier.rs:335-422 that are commented
    out as "needs to be adapted for 8 segments of quadratic order". *)
From Coq Require Import Reals ZArith List Arith.
From Verif Require Import Base.Outcome Base.Scalar Model.Point Model.Line Model.Quadratic Inst.RealInst Spec.Points Spec.Circle.
Import ListNotations.
Local Open Scope R_scope.

(** the four quadratics of the commented-out tests (lines 353-365 and 400-412) *)
Definition todo_quadrants (c : R) : list (quad P2) :=
  [Quad (corner 0 1) (corner 1 c) (corner 1 0); Quad (corner 1 0) (corner c (-1)) (corner 0 (-1));
   Quad (corner 0 (-1)) (corner (-1) (- c)) (corner (-1) 0); Quad (corner (-1) 0) (corner (- c) 1) (corner 0 1)].

(** the point at distance [r] from the origin in direction [th] *)
Definition rim (r th : R) : P2 := corner (r * cos th) (r * sin th).
(** ends on the circle in the directions [psi - a] and [psi + a], control point where the tangents meet *)
Definition tangent_arc (psi a : R) : quad P2 := Quad (rim 1 (psi - a)) (rim (/ cos a) psi) (rim 1 (psi + a)).
(** [n] of them all the way round *)
Definition tangent_ring (n : nat) : list (quad P2) :=
  map (fun k => tangent_arc (2 * PI * INR k / INR n) (PI / INR n)) (seq 0 n).

(** [cs] runs once round the origin, every piece from direction [th k] to direction [th (k + 1)], no piece
    by more than seven eighths of the way *)
Definition goes_round (cs : list (quad P2)) (th rad : nat -> R) : Prop :=
  th (length cs) = th 0%nat + 2 * PI /\ rad (length cs) = rad 0%nat /\
  forall k c, nth_error cs k = Some c ->
    0 < rad k /\ q_start c = rim (rad k) (th k) /\ q_end c = rim (rad (k + 1)%nat) (th (k + 1)%nat) /\
    th (k + 1)%nat - th k <= 7 * PI / 4.
