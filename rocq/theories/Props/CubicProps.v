(** C15-C24 (cubic part): cubic curves, exact arithmetic, every lawful point type. *)
From Coq Require Import Reals List Arith Lia Lra.
From Verif Require Import Base.Outcome Base.Scalar Model.Point Model.Line Model.Quadratic Model.Cubic
  Inst.RealInst Spec.Sums Spec.Lawful Spec.Bernstein Spec.Metric Spec.Box Spec.Points
  Proofs.PointFacts Proofs.RealTac Proofs.ExactEval Proofs.LineFacts Proofs.BoxSpec Proofs.Linearity.
Import ListNotations.
Local Open Scope R_scope.

Section Cubic.
  Context {E : Eps} {P : Type} {PT : Point R P} {LP : LawfulPoint P}.

  (** C18 *)
  Theorem C18_eval (c : cubic P) t i : (i < p_dim (P := P))%nat ->
    coord (cubic_eval c t) i = curve_coord [c_start c; c_ctrl1 c; c_ctrl2 c; c_end c] t i.
  Proof. exact (cubic_eval_spec c t i). Qed.
  Theorem C18_eval_explicit (c : cubic P) t i : (i < p_dim (P := P))%nat ->
    coord (cubic_eval c t) i
    = (1-t)*(1-t)*(1-t) * coord (c_start c) i + 3*t*(1-t)*(1-t) * coord (c_ctrl1 c) i
      + 3*t*t*(1-t) * coord (c_ctrl2 c) i + t*t*t * coord (c_end c) i.
  Proof. exact (cubic_eval_coord c t i). Qed.
  Theorem C18_casteljau (c : cubic P) t : cubic_eval_casteljau c t = cubic_eval c t.
  Proof. exact (cubic_casteljau_eval c t). Qed.
  Theorem C18_start (c : cubic P) : cubic_eval c 0 = c_start c.
  Proof. exact (cubic_eval_0 c). Qed.
  Theorem C18_end (c : cubic P) : cubic_eval c 1 = c_end c.
  Proof. exact (cubic_eval_1 c). Qed.

  (** C19 *)
  Theorem C19_split (c : cubic P) t u :
    cubic_eval (fst (cubic_split c t)) u = cubic_eval c (t * u) /\
    cubic_eval (snd (cubic_split c t)) u = cubic_eval c (t + u * (1 - t)).
  Proof. exact (cubic_split_spec c t u). Qed.

  (** C20 *)
  Theorem C20_derivative (c : cubic P) t i : (i < p_dim (P := P))%nat ->
    derivable_pt_lim (fun t => coord (cubic_eval c t) i) t
                     (coord (quad_eval (cubic_derivative c) t) i).
  Proof. exact (cubic_derivative_lim c t i). Qed.

  (** C21.  Full statement: [cubic_dd c t i = p_axis (quad_eval (cubic_derivative c) t) i]
      for all [c t i].  False ([C21_dd_refuted]): the code multiplies [start] by
      [-3t + 6t - 3] instead of [-3t^2 + 6t - 3].  The exact value: *)
  Theorem C21_dd_partial (c : cubic P) t i : (i < p_dim (P := P))%nat ->
    cubic_dd c t i
    = Ret (coord (quad_eval (cubic_derivative c) t) i + coord (c_start c) i * (3 * t * t - 3 * t)).
  Proof. exact (cubic_dd_value c t i). Qed.
  Theorem C21_dd_correct_iff_partial (c : cubic P) t i : (i < p_dim (P := P))%nat ->
    cubic_dd c t i = p_axis (quad_eval (cubic_derivative c) t) i
    <-> t = 0 \/ t = 1 \/ coord (c_start c) i = 0.
  Proof. exact (cubic_dd_correct_iff c t i). Qed.
  Theorem C21_dd_panics (c : cubic P) t i : (p_dim (P := P) <= i)%nat -> cubic_dd c t i = Panic.
  Proof. exact (cubic_dd_panic c t i). Qed.

  (** C22 (containment, slack 3/8 EPSILON, none where the third difference
      reaches EPSILON) and C23 (tightness) *)
  Theorem C22_C23_bounding_box (c : cubic P) : exists bounds, cubic_bounding_box c = Ret bounds /\
    box_shape (P := P) bounds /\
    forall i, (i < p_dim (P := P))%nat ->
      box_attained (cubic_eval c) bounds i /\
      box_contains (cubic_eval c) bounds i (3 * eps / 8) /\
      (eps <= Rabs (3 * (coord (c_end c) i - 3 * coord (c_ctrl2 c) i + 3 * coord (c_ctrl1 c) i
                         - coord (c_start c) i)) ->
       box_contains (cubic_eval c) bounds i 0).
  Proof. exact (cubic_box c). Qed.

  (** C24 *)
  Theorem C24_axis (c : cubic P) t i : cubic_axis c t i = p_axis (cubic_eval c t) i.
  Proof. exact (cubic_axis_eval c t i). Qed.

  (** C15, cubic *)
  Theorem C15_cubic_is_linear (c : cubic P) tol : cubic_is_linear c tol = Ret true ->
    forall t, 0 <= t <= 1 -> exists u, 0 <= u <= 1 /\
      dist (cubic_eval c t) (line_eval (Line (c_start c) (c_end c)) u) <= tol.
  Proof. exact (cubic_is_linear_sound c tol). Qed.

  (** C16, cubic; full statement without the two inner product hypotheses, see
      [C16_cubic_complete_refuted] *)
  Theorem C16_cubic_complete_partial (c : cubic P) tol :
    let s := Line (c_start c) (c_end c) in
    eps <= dist (l_end s) (l_start s) * dist (l_end s) (l_start s) ->
    inner (l_start s) (c_ctrl1 c) (l_end s) / (dist (l_end s) (l_start s) * dist (l_end s) (l_start s)) < 1 ->
    (exists u, 0 <= u <= 1 /\ dist (c_ctrl1 c) (line_eval s u) <= tol) ->
    inner (l_start s) (c_ctrl2 c) (l_end s) / (dist (l_end s) (l_start s) * dist (l_end s) (l_start s)) < 1 ->
    (exists u, 0 <= u <= 1 /\ dist (c_ctrl2 c) (line_eval s u) <= tol) ->
    cubic_is_linear c tol = Ret true.
  Proof. exact (cubic_is_linear_complete c tol). Qed.

  (** C17, cubic *)
  Theorem C17_cubic_iff (c : cubic P) tol :
    cubic_is_a_point c tol = true <->
    dist (c_start c) (c_end c) <= Rabs tol /\ dist (c_start c) (c_ctrl1 c) <= Rabs tol /\
    dist (c_end c) (c_ctrl2 c) <= Rabs tol.
  Proof. exact (cubic_is_a_point_iff c tol). Qed.
  Theorem C17_cubic_bound (c : cubic P) tol t : cubic_is_a_point c tol = true ->
    0 <= t <= 1 -> dist (cubic_eval c t) (c_start c) <= 2 * Rabs tol.
  Proof. exact (cubic_is_a_point_bound c tol t). Qed.
End Cubic.

Theorem C21_dd_refuted {E : Eps} : exists (c : cubic P1) t, 0 < t < 1 /\
  cubic_dd c t 0 <> p_axis (quad_eval (cubic_derivative c) t) 0.
Proof. exact cubic_dd_ce. Qed.

Theorem C22_exact_containment_refuted {E : Eps} : exists (c : cubic P1) lo hi,
  cubic_bounding_box c = Ret [(lo, hi)] /\ hi < coord (cubic_eval c (1/2)) 0.
Proof. exact cubic_bbox_ce. Qed.

Theorem C16_cubic_complete_refuted {E : Eps} : exists (c : cubic P1) tol,
  eps <= dist (c_start c) (c_end c) * dist (c_start c) (c_end c) /\
  (exists u, 0 <= u <= 1 /\ dist (c_ctrl1 c) (line_eval (cubic_baseline c) u) <= tol) /\
  (exists u, 0 <= u <= 1 /\ dist (c_ctrl2 c) (line_eval (cubic_baseline c) u) <= tol) /\
  cubic_is_linear c tol = Ret false.
Proof. exact cubic_linear_ce. Qed.

Example C18_ex {E : Eps} :
  coord (cubic_eval (Cubic (pt2 0 0) (pt2 1 2) (pt2 2 2) (pt2 3 0)) (1/2)) 1 = 3/2.
Proof. cbn. lra. Qed.
Section Ex_C22_ex.
Local Existing Instance Eps64.
Example C22_ex : @eps Eps64 <= Rabs (3 * (coord (pt1 1) 0 - 3 * coord (pt1 5) 0 + 3 * coord (pt1 2) 0
                         - coord (pt1 0) 0)).
Proof.
  pose proof eps64_le_1. replace (3 * _) with (- 24) by (cbn; lra). rewrite Rabs_left by lra.
  lra.
Qed.
End Ex_C22_ex.
Example C17_cubic_ex {E : Eps} :
  cubic_is_a_point (Cubic (pt1 0) (pt1 1) (pt1 (-2)) (pt1 (-1))) 1 = true.
Proof.
  apply C17_cubic_iff. cbn [c_start c_ctrl1 c_ctrl2 c_end]. rewrite !dist_pt1.
  rewrite (Rabs_pos_eq 1), (Rabs_pos_eq (0 - -1)), Rabs_left, Rabs_pos_eq by lra. lra.
Qed.
(** hypotheses of C16 and the conclusion used as hypothesis by C15 *)
Section Ex_C15_cubic_ex.
Local Existing Instance Eps64.
Example C15_cubic_ex : let c := Cubic (pt1 0) (pt1 1) (pt1 0) (pt1 3) in
  @eps Eps64 <= dist (c_end c) (c_start c) * dist (c_end c) (c_start c) /\
  inner (c_start c) (c_ctrl1 c) (c_end c) / (dist (c_end c) (c_start c) * dist (c_end c) (c_start c)) < 1 /\
  cubic_is_linear (ST := @RScalar Eps64) c 0 = Ret true.
Proof.
  cbn [c_start c_ctrl1 c_ctrl2 c_end].
  assert (H : @eps Eps64 <= dist (pt1 3) (pt1 0) * dist (pt1 3) (pt1 0)).
  { rewrite dist_pt1, Rabs_pos_eq by lra. pose proof eps64_le_1. lra. }
  assert (H2 : forall x, x < 3 -> inner (pt1 0) (pt1 x) (pt1 3) / (dist (pt1 3) (pt1 0) * dist (pt1 3) (pt1 0)) < 1).
  { intros x Hx. rewrite inner_pt1, dist_pt1, Rabs_pos_eq by lra. lra. }
  split; [exact H|]. split; [apply H2; lra|].
  assert (H3 : forall u, dist (pt1 (3 * u)) (line_eval (Line (pt1 0) (pt1 3)) u) = 0).
  { intros u. replace (line_eval (Line (pt1 0) (pt1 3)) u) with (pt1 (3 * u)).
    - apply Metric.dist_refl.
    - apply lp_ext. intros i Hi. rewrite line_eval_coord by assumption.
      change (p_dim (P := P1)) with 1%nat in Hi. replace i with 0%nat by lia. cbn. lra. }
  apply C16_cubic_complete_partial; cbn [c_start c_ctrl1 c_ctrl2 c_end l_start l_end];
    [exact H|apply H2; lra| |apply H2; lra|].
  - exists (1/3). split; [lra|]. specialize (H3 (1/3)). replace (3 * (1/3)) with 1 in H3 by field. lra.
  - exists 0. split; [lra|]. specialize (H3 0). rewrite Rmult_0_r in H3. lra.
Qed.
End Ex_C15_cubic_ex.

Print Assumptions C15_cubic_is_linear.
Print Assumptions C16_cubic_complete_partial.
Print Assumptions C16_cubic_complete_refuted.
Print Assumptions C17_cubic_iff.
Print Assumptions C17_cubic_bound.
Print Assumptions C18_eval.
Print Assumptions C18_eval_explicit.
Print Assumptions C18_casteljau.
Print Assumptions C18_start.
Print Assumptions C18_end.
Print Assumptions C19_split.
Print Assumptions C20_derivative.
Print Assumptions C21_dd_partial.
Print Assumptions C21_dd_correct_iff_partial.
Print Assumptions C21_dd_panics.
Print Assumptions C21_dd_refuted.
Print Assumptions C22_C23_bounding_box.
Print Assumptions C22_exact_containment_refuted.
Print Assumptions C24_axis.
