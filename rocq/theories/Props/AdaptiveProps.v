(** C138: adaptive flattening of quadratic and cubic curves, exact arithmetic; one curve in
    binary32 and binary64. *)
From Coq Require Import Reals List Arith Lia Lra.
From Verif Require Import Base.Outcome Base.Scalar Model.Point Model.Line Model.Quadratic Model.Cubic
  Model.Segment
  Inst.RealInst Inst.FloatInst Spec.Rounding Spec.FloatPoints Spec.Sums Spec.Lawful Spec.Length Spec.Adaptive Spec.Points
  Proofs.PointFacts Proofs.RealTac Proofs.BoxSpec Proofs.Adaptive Proofs.AdaptiveFloat.
Import ListNotations.
Local Open Scope R_scope.

Section Adaptive.
  Context {E : Eps} {P : Type} {PT : Point R P} {LP : LawfulPoint P}.

  (** C138: halving until [is_a_point(tol) || is_linear(tol)] ends after at most
      log2(2 L / tol) rounds; the pieces are the curve, one after the other; every
      curve point is within [tol] of the chord of its piece *)
  Theorem C138_quad (c : quad P) tol L d : leg_bound (quad_control_points c) L -> 0 <= tol -> 2 * L <= 2 ^ d * tol ->
    exists l, flattened (fun q => if quad_is_a_point q tol then Ret true else quad_is_linear q tol)
        (fun q => quad_split q (/ 2)) d c = Ret (Some l) /\ (length l <= 2 ^ d)%nat /\ tiles quad_eval c 0 1 l /\
      (forall q u, In q l -> 0 <= u <= 1 -> exists v, 0 <= v <= 1 /\
         dist (quad_eval q u) (line_eval (quad_baseline q) v) <= tol) /\
      (forall t, 0 <= t <= 1 -> exists q v, In q l /\ 0 <= v <= 1 /\
         dist (quad_eval c t) (line_eval (quad_baseline q) v) <= tol).
  Proof. exact (quad_adaptive c tol L d). Qed.
  Theorem C138_cubic (c : cubic P) tol L d : leg_bound (cubic_control_points c) L -> 0 <= tol -> 3 * L <= 2 ^ d * tol ->
    exists l, flattened (fun q => if cubic_is_a_point q tol then Ret true else cubic_is_linear q tol)
        (fun q => cubic_split q (/ 2)) d c = Ret (Some l) /\ (length l <= 2 ^ d)%nat /\ tiles cubic_eval c 0 1 l /\
      (forall q u, In q l -> 0 <= u <= 1 -> exists v, 0 <= v <= 1 /\
         dist (cubic_eval q u) (line_eval (cubic_baseline q) v) <= tol) /\
      (forall t, 0 <= t <= 1 -> exists q v, In q l /\ 0 <= v <= 1 /\
         dist (cubic_eval c t) (line_eval (cubic_baseline q) v) <= tol).
  Proof. exact (cubic_adaptive c tol L d). Qed.

  (** C138: a cubic that [is_a_point] lies within the tolerance of its chord *)
  Theorem C138_cubic_point (q : cubic P) tol u : 0 <= tol -> cubic_is_a_point q tol = true -> 0 <= u <= 1 ->
    exists v, 0 <= v <= 1 /\ dist (cubic_eval q u) (line_eval (cubic_baseline q) v) <= tol.
  Proof. exact (cubic_point_near q tol u). Qed.

  (** C138: halving until [is_linear(tol)] alone does not end, at any depth: for
      tolerances below sqrt(EPSILON) on every curve whose last control point is
      its end point, and for every tolerance on curves shorter than that *)
  Theorem C138_quad_linear_only_refuted (a m : P) tol d : tol ^ 2 < eps ->
    flattened (fun q => quad_is_linear q tol) (fun q => quad_split q (/ 2)) d (Quad a m m) = Ret None.
  Proof. exact (quad_never a m tol d). Qed.
  Theorem C138_cubic_linear_only_refuted (a b m : P) tol d : tol ^ 2 < eps ->
    flattened (fun q => cubic_is_linear q tol) (fun q => cubic_split q (/ 2)) d (Cubic a b m m) = Ret None.
  Proof. exact (cubic_never a b m tol d). Qed.
  Theorem C138_quad_tiny_refuted (c : quad P) L tol d : leg_bound (quad_control_points c) L -> (2 * L) ^ 2 < eps ->
    flattened (fun q => quad_is_linear q tol) (fun q => quad_split q (/ 2)) d c = Ret None.
  Proof. exact (quad_tiny_never c L tol d). Qed.
  Theorem C138_cubic_tiny_refuted (c : cubic P) L tol d : leg_bound (cubic_control_points c) L -> (3 * L) ^ 2 < eps ->
    flattened (fun q => cubic_is_linear q tol) (fun q => cubic_split q (/ 2)) d c = Ret None.
  Proof. exact (cubic_tiny_never c L tol d). Qed.

  (** C138: for [BezierSegment], which has no [is_a_point]: whatever halving until
      [is_linear(tol)] returns is the curve and within [tol], also for lines, whose
      [split] is wrong (C52); but on these segments it returns nothing at any depth *)
  Theorem C138_segment (s : segment P) tol d l : 0 <= tol ->
    flattened (fun q => segment_is_linear q tol) (fun q => segment_split q (/ 2)) d s = Ret (Some l) ->
    tiles segment_eval s 0 1 l /\
    forall t, 0 <= t <= 1 -> exists q v, In q l /\ 0 <= v <= 1 /\
      dist (segment_eval s t) (line_eval (segment_baseline q) v) <= tol.
  Proof. exact (segment_adaptive s tol d l). Qed.
  Theorem C138_segment_refuted (a b m : P) tol d : tol ^ 2 < eps ->
    flattened (fun q => segment_is_linear q tol) (fun q => segment_split q (/ 2)) d (Quadratic (Quad a m m)) = Ret None /\
    flattened (fun q => segment_is_linear q tol) (fun q => segment_split q (/ 2)) d (CubicSeg (Cubic a b m m)) = Ret None.
  Proof. exact (segment_never a b m tol d). Qed.
End Adaptive.

(** C138: the same in binary32 with tolerance 2^-12 and in binary64 with tolerance 2^-27 *)
Theorem C138_f32_refuted : let F := Binary32 in forall d l,
  flattened (fun q => quad_is_linear q (flt 1 (-12))) (fun q => quad_split q (flt 1 (-1))) d
    (Quad (fpt1 (flt 0 0)) (fpt1 (flt 1 0)) (fpt1 (flt 1 0))) <> Ret (Some l).
Proof. exact f32_never. Qed.
Theorem C138_f64_refuted : let F := Binary64 in forall d l,
  flattened (fun q => quad_is_linear q (flt 1 (-27))) (fun q => quad_split q (flt 1 (-1))) d
    (Quad (fpt1 (flt 0 0)) (fpt1 (flt 1 0)) (fpt1 (flt 1 0))) <> Ret (Some l).
Proof. exact f64_never. Qed.

(** a curve with legs up to 2 and a tolerance of 1/100: nine rounds are enough *)
Example C138_ex {E : Eps} : leg_bound (quad_control_points (Quad (pt1 0) (pt1 1) (pt1 3))) 2 /\ 2 * 2 <= 2 ^ 9 * / 100.
Proof.
  split; [|simpl; lra].
  split; [lra|]. intros [|[|[|k]]] p q; cbn; intros Hp Hq; try discriminate;
    injection Hp as <-; injection Hq as <-; rewrite dist_pt1, Rabs_left; lra.
Qed.
(** tolerances that never end on a segment drawn with a doubled end point *)
Example C138_ex_f64 : (/ 100000000) ^ 2 < @eps Eps64.
Proof. cbn [eps Eps64]. lra. Qed.
Example C138_ex_f32 : (/ 4000) ^ 2 < @eps Eps32.
Proof. cbn [eps Eps32]. lra. Qed.

(** a line is returned as it is *)
Example C138_ex_segment {E : Eps} (a b : P2) tol : flattened (fun q => segment_is_linear q tol) (fun q => segment_split q (/ 2)) 0
  (Linear (Line a b)) = Ret (Some [Linear (Line a b)]).
Proof. reflexivity. Qed.

Print Assumptions C138_quad.
Print Assumptions C138_cubic.
Print Assumptions C138_cubic_point.
Print Assumptions C138_quad_linear_only_refuted.
Print Assumptions C138_cubic_linear_only_refuted.
Print Assumptions C138_quad_tiny_refuted.
Print Assumptions C138_cubic_tiny_refuted.
Print Assumptions C138_segment.
Print Assumptions C138_segment_refuted.
Print Assumptions C138_f32_refuted.
Print Assumptions C138_f64_refuted.
