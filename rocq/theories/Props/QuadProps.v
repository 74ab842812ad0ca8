(** C09-C17 (quadratic part): quadratic curves, exact arithmetic, every lawful point type. *)
From Coq Require Import Reals List Arith Lia Lra.
From Verif Require Import Base.Outcome Base.Scalar Model.Point Model.Line Model.Quadratic
  Inst.RealInst Spec.Sums Spec.Lawful Spec.Bernstein Spec.Metric Spec.Box Spec.Points
  Proofs.PointFacts Proofs.RealTac Proofs.ExactEval Proofs.LineFacts Proofs.BoxSpec Proofs.Linearity.
Import ListNotations.
Local Open Scope R_scope.

Section Quad.
  Context {E : Eps} {P : Type} {PT : Point R P} {LP : LawfulPoint P}.

  (** C09 *)
  Theorem C09_eval (c : quad P) t i : (i < p_dim (P := P))%nat ->
    coord (quad_eval c t) i = curve_coord [q_start c; q_ctrl c; q_end c] t i.
  Proof. exact (quad_eval_spec c t i). Qed.
  Theorem C09_eval_explicit (c : quad P) t i : (i < p_dim (P := P))%nat ->
    coord (quad_eval c t) i
    = (1-t)*(1-t) * coord (q_start c) i + 2*t*(1-t) * coord (q_ctrl c) i + t*t * coord (q_end c) i.
  Proof. exact (quad_eval_coord c t i). Qed.
  Theorem C09_casteljau (c : quad P) t : quad_eval_casteljau c t = quad_eval c t.
  Proof. exact (quad_casteljau_eval c t). Qed.
  Theorem C09_start (c : quad P) : quad_eval c 0 = q_start c.
  Proof. exact (quad_eval_0 c). Qed.
  Theorem C09_end (c : quad P) : quad_eval c 1 = q_end c.
  Proof. exact (quad_eval_1 c). Qed.

  (** C10 *)
  Theorem C10_split (c : quad P) t u :
    quad_eval (fst (quad_split c t)) u = quad_eval c (t * u) /\
    quad_eval (snd (quad_split c t)) u = quad_eval c (t + u * (1 - t)).
  Proof. exact (quad_split_spec c t u). Qed.

  (** C11 *)
  Theorem C11_derivative (c : quad P) t i : (i < p_dim (P := P))%nat ->
    derivable_pt_lim (fun t => coord (quad_eval c t) i) t
                     (coord (line_eval (quad_derivative c) t) i).
  Proof. exact (quad_derivative_lim c t i). Qed.

  (** C12 *)
  Theorem C12_dd (c : quad P) t i : quad_dd c t i = p_axis (line_eval (quad_derivative c) t) i.
  Proof. exact (quad_dd_eval c t i). Qed.
  Theorem C12_axis (c : quad P) t i : quad_axis c t i = p_axis (quad_eval c t) i.
  Proof. exact (quad_axis_eval c t i). Qed.

  (** C13 (containment, with slack EPSILON/8, and without slack on every axis
      where the second difference reaches EPSILON) and C14 (tightness).  The box
      always exists: no capacity of the fixed-size vectors is exceeded and the
      sort never panics. *)
  Theorem C13_C14_bounding_box (c : quad P) : exists bounds, quad_bounding_box c = Ret bounds /\
    box_shape (P := P) bounds /\
    forall i, (i < p_dim (P := P))%nat ->
      box_attained (quad_eval c) bounds i /\
      box_contains (quad_eval c) bounds i (eps / 8) /\
      (eps <= Rabs (2 * (coord (q_start c) i - 2 * coord (q_ctrl c) i + coord (q_end c) i)) ->
       box_contains (quad_eval c) bounds i 0).
  Proof. exact (quad_box c). Qed.

  (** C15, quadratic *)
  Theorem C15_quad_is_linear (c : quad P) tol : quad_is_linear c tol = Ret true ->
    forall t, 0 <= t <= 1 -> exists u, 0 <= u <= 1 /\
      dist (quad_eval c t) (line_eval (Line (q_start c) (q_end c)) u) <= tol.
  Proof. exact (quad_is_linear_sound c tol). Qed.

  (** C16, quadratic.  Full statement: without the hypothesis on the inner
      product (the control point projects before the end point).  False as is:
      [C16_quad_complete_refuted]. *)
  Theorem C16_quad_complete_partial (c : quad P) tol :
    let s := Line (q_start c) (q_end c) in
    eps <= dist (l_end s) (l_start s) * dist (l_end s) (l_start s) ->
    inner (l_start s) (q_ctrl c) (l_end s) / (dist (l_end s) (l_start s) * dist (l_end s) (l_start s)) < 1 ->
    (exists u, 0 <= u <= 1 /\ dist (q_ctrl c) (line_eval s u) <= tol) ->
    quad_is_linear c tol = Ret true.
  Proof. exact (quad_is_linear_complete c tol). Qed.

  (** C17, quadratic *)
  Theorem C17_quad_iff (c : quad P) tol :
    quad_is_a_point c tol = true <->
    dist (q_start c) (q_end c) <= Rabs tol /\ dist (q_start c) (q_ctrl c) <= Rabs tol.
  Proof. exact (quad_is_a_point_iff c tol). Qed.
  Theorem C17_quad_bound (c : quad P) tol t : quad_is_a_point c tol = true ->
    0 <= t <= 1 -> dist (quad_eval c t) (q_start c) <= Rabs tol.
  Proof. exact (quad_is_a_point_bound c tol t). Qed.
End Quad.

(** containment without slack is false: EPSILON hides the extremum of a flat curve *)
Theorem C13_exact_containment_refuted {E : Eps} : exists (c : quad P1) lo hi,
  quad_bounding_box c = Ret [(lo, hi)] /\ hi < coord (quad_eval c (1/2)) 0.
Proof. exact quad_bbox_ce. Qed.

Theorem C16_quad_complete_refuted {E : Eps} : exists (c : quad P1) tol,
  eps <= dist (q_start c) (q_end c) * dist (q_start c) (q_end c) /\
  (exists u, 0 <= u <= 1 /\ dist (q_ctrl c) (line_eval (quad_baseline c) u) <= tol) /\
  quad_is_linear c tol = Ret false.
Proof. exact quad_linear_ce. Qed.

(** concrete curves *)
Example C09_ex {E : Eps} : coord (quad_eval (Quad (pt2 0 0) (pt2 1 2) (pt2 2 0)) (1/2)) 1 = 1.
Proof. cbn. lra. Qed.
Section Ex_C13_ex.
Local Existing Instance Eps64.
Example C13_ex : @eps Eps64 <= Rabs (2 * (coord (pt2 0 0) 1 - 2 * coord (pt2 1 2) 1 + coord (pt2 2 0) 1)).
Proof.
  pose proof eps64_le_1. replace (2 * _) with (- 8) by (cbn; lra). rewrite Rabs_left by lra.
  lra.
Qed.
End Ex_C13_ex.
(** a curve accepted by [is_linear] and by [is_a_point]: hypotheses of C15, C16, C17 *)
Section Ex_C15_ex.
Local Existing Instance Eps64.
Example C15_ex : let c := Quad (pt1 0) (pt1 1) (pt1 3) in
  @eps Eps64 <= dist (q_end c) (q_start c) * dist (q_end c) (q_start c) /\
  inner (q_start c) (q_ctrl c) (q_end c) / (dist (q_end c) (q_start c) * dist (q_end c) (q_start c)) < 1 /\
  quad_is_linear (ST := @RScalar Eps64) c 0 = Ret true.
Proof.
  cbn [q_start q_ctrl q_end].
  assert (H : @eps Eps64 <= dist (pt1 3) (pt1 0) * dist (pt1 3) (pt1 0)).
  { rewrite dist_pt1, Rabs_pos_eq by lra. pose proof eps64_le_1. lra. }
  assert (H2 : inner (pt1 0) (pt1 1) (pt1 3) / (dist (pt1 3) (pt1 0) * dist (pt1 3) (pt1 0)) < 1).
  { rewrite inner_pt1, dist_pt1, Rabs_pos_eq by lra. lra. }
  split; [exact H|]. split; [exact H2|].
  apply C16_quad_complete_partial; [exact H|exact H2|].
  exists (1/3). split; [lra|]. apply Req_le.
  replace (line_eval _ (1/3)) with (q_ctrl (Quad (pt1 0) (pt1 1) (pt1 3))).
  - apply Metric.dist_refl.
  - apply lp_ext. intros i Hi. rewrite line_eval_coord by assumption.
    change (p_dim (P := P1)) with 1%nat in Hi. replace i with 0%nat by lia. cbn. lra.
Qed.
End Ex_C15_ex.
Example C17_ex {E : Eps} : quad_is_a_point (Quad (pt1 0) (pt1 1) (pt1 (-1))) (-2) = true.
Proof.
  apply C17_quad_iff. cbn [q_start q_ctrl q_end]. rewrite !dist_pt1.
  rewrite (Rabs_left (-2)), (Rabs_pos_eq (0 - -1)), Rabs_left by lra. lra.
Qed.

Print Assumptions C09_eval.
Print Assumptions C09_eval_explicit.
Print Assumptions C09_casteljau.
Print Assumptions C09_start.
Print Assumptions C09_end.
Print Assumptions C10_split.
Print Assumptions C11_derivative.
Print Assumptions C12_dd.
Print Assumptions C12_axis.
Print Assumptions C13_C14_bounding_box.
Print Assumptions C13_exact_containment_refuted.
Print Assumptions C15_quad_is_linear.
Print Assumptions C16_quad_complete_partial.
Print Assumptions C16_quad_complete_refuted.
Print Assumptions C17_quad_iff.
Print Assumptions C17_quad_bound.
