(** C98: mirroring in floating point.  [mirrored axes p q] : q is p with the coordinates selected by
    [axes] negated; equality of floats is up to the sign of zero ([feq]), a NaN is equal to a NaN.
    No hypothesis on the numbers: they may be huge, subnormal, infinite or NaN, and so may t.
    With [axes] constantly false: the sign of a zero coordinate never matters. *)
From Coq Require Import ZArith List Arith Lia.
From Flocq Require Import IEEE754.BinarySingleNaN.
From Verif Require Import Base.Outcome Base.Scalar Model.Point Model.Line Model.Quadratic Model.Cubic
  Model.Bezier Model.BSpline Inst.FloatInst Spec.Rounding Spec.Componentwise Spec.FloatPoints Spec.Mirror Spec.Related
  Proofs.FloatPoint Proofs.Relational Proofs.Mirror Proofs.MirrorCE.
Import ListNotations.

Section Mirror.
  Context {F : Format} {P : Type} {PT : Point float P} {CP : CwPoint float P}.
  Variable axes : nat -> bool.
  Notation mirror := (mirrored (P := P) axes).
  (** coordinate i negated or not *)
  Notation coord i := (fun x y : float => feq y (flip (axes i) x)).

  Theorem C98_line (l m : line P) (p q : P) (t : float) (i : nat) : related_lines mirror l m -> mirror p q ->
    mirror (line_eval l t) (line_eval m t) /\
    related_pairs (related_lines mirror) (related_lines mirror) (line_split l t) (line_split m t) /\
    mirror (line_derivative l) (line_derivative m) /\
    related (coord i) (line_axis l t i) (line_axis m t i) /\
    related feq (line_distance_to_point l p) (line_distance_to_point m q).
  Proof. exact (line_mirror axes l m p q t i). Qed.

  Theorem C98_quad_points (l m : quad P) (t : float) (i : nat) : related_quads mirror l m ->
    mirror (quad_eval l t) (quad_eval m t) /\
    mirror (quad_eval_casteljau l t) (quad_eval_casteljau m t) /\
    related_pairs (related_quads mirror) (related_quads mirror) (quad_split l t) (quad_split m t) /\
    related_lines mirror (quad_derivative l) (quad_derivative m) /\
    related (coord i) (quad_axis l t i) (quad_axis m t i) /\
    related (coord i) (quad_dd l t i) (quad_dd m t i).
  Proof. exact (quad_points_mirror axes l m t i). Qed.
  Theorem C98_quad_lengths (l m : quad P) (p q : P) (n : nat) (tol : float) : related_quads mirror l m -> mirror p q ->
    related feq (quad_arclen l n) (quad_arclen m n) /\
    related feq (quad_distance_to_point l p) (quad_distance_to_point m q) /\
    quad_is_linear l tol = quad_is_linear m tol /\
    quad_is_a_point l tol = quad_is_a_point m tol.
  Proof. exact (quad_lengths_mirror axes l m p q n tol). Qed.

  Theorem C98_cubic_points (l m : cubic P) (t : float) (i : nat) : related_cubics mirror l m ->
    mirror (cubic_eval l t) (cubic_eval m t) /\
    mirror (cubic_eval_casteljau l t) (cubic_eval_casteljau m t) /\
    related_pairs (related_cubics mirror) (related_cubics mirror) (cubic_split l t) (cubic_split m t) /\
    related_quads mirror (cubic_derivative l) (cubic_derivative m) /\
    related (coord i) (cubic_axis l t i) (cubic_axis m t i) /\
    related (coord i) (cubic_dd l t i) (cubic_dd m t i).
  Proof. exact (cubic_points_mirror axes l m t i). Qed.
  Theorem C98_cubic_lengths (l m : cubic P) (p q : P) (n : nat) (tol : float) : related_cubics mirror l m -> mirror p q ->
    related feq (cubic_arclen l n) (cubic_arclen m n) /\
    related feq (cubic_distance_to_point l p) (cubic_distance_to_point m q) /\
    cubic_is_linear l tol = cubic_is_linear m tol /\
    cubic_is_a_point l tol = cubic_is_a_point m tol.
  Proof. exact (cubic_lengths_mirror axes l m p q n tol). Qed.

  Theorem C98_bezier (l m : bezier P) (p q : P) (t : float) (n : nat) : related_beziers mirror l m -> mirror p q ->
    related mirror (bezier_eval l t) (bezier_eval m t) /\
    related (related_pairs (related_beziers mirror) (related_beziers mirror)) (bezier_split l t) (bezier_split m t) /\
    related (related_beziers mirror) (bezier_derivative l) (bezier_derivative m) /\
    related feq (bezier_arclen l n) (bezier_arclen m n) /\
    related feq (bezier_distance_to_point l p) (bezier_distance_to_point m q).
  Proof. exact (bezier_mirror axes l m p q t n). Qed.

  Theorem C98_bspline (l m : bspline float P) (t : float) (n : nat) : related_splines mirror l m ->
    related (related_results mirror) (bspline_eval l t) (bspline_eval m t) /\
    related (related_splines mirror) (bspline_derivative l) (bspline_derivative m) /\
    related feq (bspline_arclen l n) (bspline_arclen m n).
  Proof. exact (bspline_mirror axes l m t n). Qed.

  (** boxes: both are mirror images, or both calls panic *)
  Theorem C98_quad_box (l m : quad P) : related_quads mirror l m ->
    related (box_mirrored axes) (quad_bounding_box l) (quad_bounding_box m).
  Proof. exact (quad_box_mirror axes l m). Qed.
  Theorem C98_cubic_box (l m : cubic P) : related_cubics mirror l m ->
    related (box_mirrored axes) (cubic_bounding_box l) (cubic_bounding_box m).
  Proof. exact (cubic_box_mirror axes l m). Qed.
  Theorem C98_line_box (l m : line P) : related_lines mirror l m -> no_nan (l_start l) -> no_nan (l_end l) ->
    related (box_mirrored axes) (line_bounding_box l) (line_bounding_box m).
  Proof. exact (line_box_mirror axes l m). Qed.
End Mirror.

(** with a NaN the box of a line is not mirrored: [1, NaN] has the box (NaN, 1), its image [-1, NaN]
    the box (NaN, -1) *)
Theorem C98_line_box_nan_refuted {F : Format} : exists l m : line (PointN float 1),
  related_lines (mirrored (fun _ => true)) l m /\
  ~ related (box_mirrored (fun _ => true)) (line_bounding_box l) (line_bounding_box m).
Proof. exact line_box_nan. Qed.

(** x negated, y kept; 0 against -0 *)
Example C98_case {F : Format} : related_quads (mirrored (fun i => Nat.eqb i 0))
  (Quad (fpt2 (s_lit 0) (s_lit 1)) (fpt2 (s_lit 3) (B754_infinity false)) (fpt2 B754_nan (s_lit (-2))))
  (Quad (fpt2 (s_lit 0) (s_lit 1)) (fpt2 (s_lit (-3)) (B754_infinity false)) (fpt2 B754_nan (s_lit (-2)))).
Proof. exact mirror_case. Qed.

Print Assumptions C98_line.
Print Assumptions C98_quad_points.
Print Assumptions C98_quad_lengths.
Print Assumptions C98_cubic_points.
Print Assumptions C98_cubic_lengths.
Print Assumptions C98_bezier.
Print Assumptions C98_bspline.
Print Assumptions C98_quad_box.
Print Assumptions C98_cubic_box.
Print Assumptions C98_line_box.
Print Assumptions C98_line_box_nan_refuted.
