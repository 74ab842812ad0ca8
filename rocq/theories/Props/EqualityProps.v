(** C104: the derived equality tests (==). *)
From Coq Require Import Reals ZArith List Arith Bool Lia Lra.
From Flocq Require Import IEEE754.BinarySingleNaN.
From Verif Require Import Base.Outcome Base.Scalar Model.Point Model.Line Model.Quadratic Model.Cubic
  Model.Segment Model.BSpline Model.Equality Inst.RealInst Inst.FloatInst Spec.Lawful Spec.Points Spec.Componentwise
  Spec.Rounding Spec.FloatPoints Spec.Mirror Spec.Related Spec.Equality
  Proofs.PointFacts Proofs.FloatFacts Proofs.FloatPoint Proofs.FloatNeg Proofs.Equality.
Import ListNotations.

(** exact arithmetic: equal means the same function on [0,1] *)
Section Exact.
  Context {E : Eps} {P : Type} {PT : Point R P} {LP : LawfulPoint P}.
  Local Open Scope R_scope.
  Theorem C104_line (l m : line P) :
    line_eqb l m = true <-> (forall t, 0 <= t <= 1 -> line_eval l t = line_eval m t).
  Proof. exact (line_eq_function l m). Qed.
  Theorem C104_quad (l m : quad P) :
    quad_eqb l m = true <-> (forall t, 0 <= t <= 1 -> quad_eval l t = quad_eval m t).
  Proof. exact (quad_eq_function l m). Qed.
  Theorem C104_cubic (l m : cubic P) :
    cubic_eqb l m = true <-> (forall t, 0 <= t <= 1 -> cubic_eval l t = cubic_eval m t).
  Proof. exact (cubic_eq_function l m). Qed.
  Theorem C104_segment (s s' : segment P) :
    segment_eqb s s' = true -> forall t, segment_eval s t = segment_eval s' t.
  Proof. exact (segment_eq_function s s'). Qed.
End Exact.
(** not the other way round for segments: 0 .. 1 as a line and as a quadratic *)
Theorem C104_segment_refuted {E : Eps} : exists s s' : segment P1,
  (forall t, segment_eval s t = segment_eval s' t) /\ segment_eqb s s' = false.
Proof.
  exists (Linear (Line (pt1 0) (pt1 1))), (Quadratic (Quad (pt1 0) (pt1 (1 / 2)) (pt1 1)))%R.
  split; [|reflexivity]. intros t. apply lp_ext; intros i Hi. cbn in Hi. destruct i; [|lia]. cbn. field.
Qed.

(** floats: equal means the same variant and, coordinate by coordinate, equal numbers that are not NaN *)
Section Floats.
  Context {F : Format} {P : Type} {PT : Point float P} {CP : CwPoint float P}.
  Theorem C104_float_iff (s s' : segment P) : segment_eqb s s' = true <->
    related_segments same_coords s s' /\ forall p, In p (segment_points s) -> no_nan p.
  Proof. exact (segment_iff s s'). Qed.
  Theorem C104_float_reflexive (s : segment P) :
    segment_eqb s s = true <-> forall p, In p (segment_points s) -> no_nan p.
  Proof. exact (segment_refl s). Qed.
  Theorem C104_float_symmetric (s s' : segment P) : segment_eqb s s' = segment_eqb s' s.
  Proof. exact (segment_sym s s'). Qed.
  Theorem C104_float_transitive (s s' s'' : segment P) :
    segment_eqb s s' = true -> segment_eqb s' s'' = true -> segment_eqb s s'' = true.
  Proof. exact (segment_trans s s' s''). Qed.

  (** equal curves give the same results, up to the sign of zero *)
  Theorem C104_float_segment (s s' : segment P) (t t' : float) : segment_eqb s s' = true -> feq t t' ->
    same_coords (segment_eval s t) (segment_eval s' t') /\
    same_coords (segment_start s) (segment_start s') /\ same_coords (segment_end s) (segment_end s') /\
    related_lines same_coords (segment_baseline s) (segment_baseline s') /\
    related_pairs (related_segments same_coords) (related_segments same_coords) (segment_split s t) (segment_split s' t') /\
    forall tol, segment_is_linear s tol = segment_is_linear s' tol.
  Proof. exact (segment_alike s s' t t'). Qed.
  Theorem C104_float_line (l m : line P) (p q : P) t i : line_eqb l m = true -> p_eqb p q = true ->
    same_coords (line_derivative l) (line_derivative m) /\
    related feq (line_axis l t i) (line_axis m t i) /\
    related feq (line_distance_to_point l p) (line_distance_to_point m q) /\
    related same_bounds (line_bounding_box l) (line_bounding_box m).
  Proof. exact (line_alike l m p q t i). Qed.
  Theorem C104_float_quad (l m : quad P) (p q : P) t i n tol : quad_eqb l m = true -> p_eqb p q = true ->
    same_coords (quad_eval_casteljau l t) (quad_eval_casteljau m t) /\
    related_lines same_coords (quad_derivative l) (quad_derivative m) /\
    related feq (quad_axis l t i) (quad_axis m t i) /\
    related feq (quad_dd l t i) (quad_dd m t i) /\
    related feq (quad_arclen l n) (quad_arclen m n) /\
    related feq (quad_distance_to_point l p) (quad_distance_to_point m q) /\
    quad_is_a_point l tol = quad_is_a_point m tol /\
    related same_bounds (quad_bounding_box l) (quad_bounding_box m).
  Proof. exact (quad_alike l m p q t i n tol). Qed.
  Theorem C104_float_cubic (l m : cubic P) (p q : P) t i n tol : cubic_eqb l m = true -> p_eqb p q = true ->
    same_coords (cubic_eval_casteljau l t) (cubic_eval_casteljau m t) /\
    related_quads same_coords (cubic_derivative l) (cubic_derivative m) /\
    related feq (cubic_axis l t i) (cubic_axis m t i) /\
    related feq (cubic_dd l t i) (cubic_dd m t i) /\
    related feq (cubic_arclen l n) (cubic_arclen m n) /\
    related feq (cubic_distance_to_point l p) (cubic_distance_to_point m q) /\
    cubic_is_a_point l tol = cubic_is_a_point m tol /\
    related same_bounds (cubic_bounding_box l) (cubic_bounding_box m).
  Proof. exact (cubic_alike l m p q t i n tol). Qed.
End Floats.

Theorem C104_errors (e f : BSplineError) : error_eqb e f = true <-> e = f.
Proof. exact (error_iff e f). Qed.
Theorem C104_kinds (e f : KnotVectorKind) : kind_eqb e f = true <-> e = f.
Proof. exact (kind_iff e f). Qed.

(** 0 equals -0, a NaN does not equal itself *)
Example C104_case {F : Format} :
  segment_eqb (Linear (Line (fpt2 (B754_zero false) (s_lit 1)) (fpt2 (s_lit 2) (B754_infinity true))))
              (Linear (Line (fpt2 (B754_zero true) (s_lit 1)) (fpt2 (s_lit 2) (B754_infinity true)))) = true /\
  segment_eqb (Linear (Line (fpt2 (s_lit 0) B754_nan) (fpt2 (s_lit 2) (s_lit 1))))
              (Linear (Line (fpt2 (s_lit 0) B754_nan) (fpt2 (s_lit 2) (s_lit 1)))) = false.
Proof.
  split.
  - apply C104_float_iff. split.
    + split; intros i Hi; cbn in Hi; destruct i as [|[|]]; try lia; try (left; reflexivity); right; eexists _, _; split; reflexivity.
    + intros p [<-|[<-|[]]] i Hi; cbn in Hi; destruct i as [|[|]]; try lia; try reflexivity; apply fin_not_nan, lit_small; lia.
  - apply not_true_iff_false. rewrite C104_float_reflexive. intros H.
    specialize (H _ (or_introl eq_refl) 1%nat). cbn in H. discriminate H. lia.
Qed.

Print Assumptions C104_line.
Print Assumptions C104_quad.
Print Assumptions C104_cubic.
Print Assumptions C104_segment.
Print Assumptions C104_segment_refuted.
Print Assumptions C104_float_iff.
Print Assumptions C104_float_reflexive.
Print Assumptions C104_float_symmetric.
Print Assumptions C104_float_transitive.
Print Assumptions C104_float_segment.
Print Assumptions C104_float_line.
Print Assumptions C104_float_quad.
Print Assumptions C104_float_cubic.
Print Assumptions C104_errors.
Print Assumptions C104_kinds.
