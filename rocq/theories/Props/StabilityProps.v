(** C87-C88: boxes of reversed and split curves; curves with moved control points. *)
From Coq Require Import Reals List Arith Lia Lra.
From Verif Require Import Base.Outcome Base.Scalar Model.Point Model.Line Model.Quadratic Model.Cubic
  Model.Bezier Inst.RealInst Spec.Sums Spec.Lawful Spec.Points Spec.Box Spec.BoxOps Spec.Length Spec.Stability
  Proofs.PointFacts Proofs.RealTac Proofs.ExactEval Proofs.BBoxFacts Proofs.BoxSpec Proofs.BoxOps Proofs.Stability.
Import ListNotations.
Local Open Scope R_scope.

Section Boxes.
  Context {E : Eps} {P : Type} {PT : Point R P} {LP : LawfulPoint P}.

  (** C87: the box does not depend on the direction of the curve *)
  Theorem C87_line_reverse (l : line P) : line_bounding_box (line_reverse l) = line_bounding_box l.
  Proof. exact (line_reverse_box l). Qed.
  Theorem C87_quad_reverse (c : quad P) : quad_bounding_box (quad_reverse c) = quad_bounding_box c.
  Proof. exact (quad_reverse_box c). Qed.
  (** for cubics: unless a third difference is tiny without being zero *)
  Theorem C87_cubic_reverse (c : cubic P) :
    (forall i, (i < p_dim (P := P))%nat ->
       3 * (coord (c_end c) i - 3 * coord (c_ctrl2 c) i + 3 * coord (c_ctrl1 c) i - coord (c_start c) i) = 0 \/
       eps <= Rabs (3 * (coord (c_end c) i - 3 * coord (c_ctrl2 c) i + 3 * coord (c_ctrl1 c) i
                         - coord (c_start c) i))) ->
    cubic_bounding_box (cubic_reverse c) = cubic_bounding_box c.
  Proof. exact (cubic_reverse_box c). Qed.
  Theorem C87_cubic_reverse_near (c : cubic P) : exists b b', cubic_bounding_box c = Ret b /\
    cubic_bounding_box (cubic_reverse c) = Ret b' /\
    forall i, (i < p_dim (P := P))%nat -> box_inside b b' i (3 * eps / 8) /\ box_inside b' b i (3 * eps / 8).
  Proof. exact (cubic_reverse_box_near c). Qed.
  (** the boxes of the two pieces of a split lie in the box of the curve and cover it *)
  Theorem C87_quad_split (c : quad P) t : 0 <= t <= 1 ->
    exists b b1 b2, quad_bounding_box c = Ret b /\ quad_bounding_box (fst (quad_split c t)) = Ret b1 /\
      quad_bounding_box (snd (quad_split c t)) = Ret b2 /\
      forall i, (i < p_dim (P := P))%nat ->
        box_inside b1 b i (eps / 8) /\ box_inside b2 b i (eps / 8) /\ box_covered b b1 b2 i (eps / 8) /\
        (eps <= Rabs (2 * (coord (q_start c) i - 2 * coord (q_ctrl c) i + coord (q_end c) i)) ->
         box_inside b1 b i 0 /\ box_inside b2 b i 0).
  Proof. exact (quad_split_boxes c t). Qed.
  Theorem C87_cubic_split (c : cubic P) t : 0 <= t <= 1 ->
    exists b b1 b2, cubic_bounding_box c = Ret b /\ cubic_bounding_box (fst (cubic_split c t)) = Ret b1 /\
      cubic_bounding_box (snd (cubic_split c t)) = Ret b2 /\
      forall i, (i < p_dim (P := P))%nat ->
        box_inside b1 b i (3 * eps / 8) /\ box_inside b2 b i (3 * eps / 8) /\ box_covered b b1 b2 i (3 * eps / 8) /\
        (eps <= Rabs (3 * (coord (c_end c) i - 3 * coord (c_ctrl2 c) i + 3 * coord (c_ctrl1 c) i
                           - coord (c_start c) i)) ->
         box_inside b1 b i 0 /\ box_inside b2 b i 0).
  Proof. exact (cubic_split_boxes c t). Qed.

  (** C88: control points moved by [d] at most *)
  Theorem C88_bezier (ps qs : list P) d t : ps <> [] -> near_points ps qs d -> 0 <= t <= 1 ->
    exists x y, bezier_eval (Bezier ps) t = Ret x /\ bezier_eval (Bezier qs) t = Ret y /\ dist x y <= d.
  Proof. exact (bezier_near ps qs d t). Qed.
  Theorem C88_quad (c k : quad P) d t : near_points (quad_control_points c) (quad_control_points k) d ->
    0 <= t <= 1 -> dist (quad_eval c t) (quad_eval k t) <= d.
  Proof. exact (quad_near c k d t). Qed.
  Theorem C88_cubic (c k : cubic P) d t : near_points (cubic_control_points c) (cubic_control_points k) d ->
    0 <= t <= 1 -> dist (cubic_eval c t) (cubic_eval k t) <= d.
  Proof. exact (cubic_near c k d t). Qed.
  Theorem C88_bezier_arclen (ps qs : list P) d m : ps <> [] -> 0 <= d -> near_points ps qs d -> (0 < m)%nat ->
    exists a b, bezier_arclen (Bezier ps) m = Ret a /\ bezier_arclen (Bezier qs) m = Ret b /\
      Rabs (a - b) <= 2 * INR (length ps - 1) * d.
  Proof. exact (bezier_arclen_near ps qs d m). Qed.
  Theorem C88_quad_arclen (c k : quad P) d m : 0 <= d ->
    near_points (quad_control_points c) (quad_control_points k) d -> (0 < m)%nat ->
    exists a b, quad_arclen c m = Ret a /\ quad_arclen k m = Ret b /\ Rabs (a - b) <= 4 * d.
  Proof. exact (quad_arclen_near c k d m). Qed.
  Theorem C88_cubic_arclen (c k : cubic P) d m : 0 <= d ->
    near_points (cubic_control_points c) (cubic_control_points k) d -> (0 < m)%nat ->
    exists a b, cubic_arclen c m = Ret a /\ cubic_arclen k m = Ret b /\ Rabs (a - b) <= 6 * d.
  Proof. exact (cubic_arclen_near c k d m). Qed.
  Theorem C88_length (ps qs : list P) d : ps <> [] -> 0 <= d -> near_points ps qs d ->
    Rabs (arc_length ps - arc_length qs) <= 2 * INR (length ps - 1) * d.
  Proof. exact (arc_length_near ps qs d). Qed.
  Theorem C88_quad_box (c k : quad P) d : near_points (quad_control_points c) (quad_control_points k) d ->
    exists b b', quad_bounding_box c = Ret b /\ quad_bounding_box k = Ret b' /\
      forall i, (i < p_dim (P := P))%nat -> box_inside b b' i (d + eps / 8) /\ box_inside b' b i (d + eps / 8).
  Proof. exact (quad_box_near c k d). Qed.
  Theorem C88_cubic_box (c k : cubic P) d : near_points (cubic_control_points c) (cubic_control_points k) d ->
    exists b b', cubic_bounding_box c = Ret b /\ cubic_bounding_box k = Ret b' /\
      forall i, (i < p_dim (P := P))%nat -> box_inside b b' i (d + 3 * eps / 8) /\ box_inside b' b i (d + 3 * eps / 8).
  Proof. exact (cubic_box_near c k d). Qed.
  (** the parameter moved *)
  Theorem C88_bezier_speed (ps : list P) L s t : ps <> [] -> leg_bound ps L -> 0 <= s <= 1 -> 0 <= t <= 1 ->
    exists x y, bezier_eval (Bezier ps) s = Ret x /\ bezier_eval (Bezier ps) t = Ret y /\
      dist x y <= INR (length ps - 1) * L * Rabs (t - s).
  Proof. exact (bezier_lip ps L s t). Qed.
  Theorem C88_quad_speed (c : quad P) L s t : leg_bound (quad_control_points c) L -> 0 <= s <= 1 -> 0 <= t <= 1 ->
    dist (quad_eval c s) (quad_eval c t) <= 2 * L * Rabs (t - s).
  Proof. exact (quad_lip c L s t). Qed.
  Theorem C88_cubic_speed (c : cubic P) L s t : leg_bound (cubic_control_points c) L -> 0 <= s <= 1 -> 0 <= t <= 1 ->
    dist (cubic_eval c s) (cubic_eval c t) <= 3 * L * Rabs (t - s).
  Proof. exact (cubic_lip c L s t). Qed.
End Boxes.

(** the exception of C87_cubic_reverse is real: EPSILON hides the extremum in one
    direction only *)
Theorem C87_cubic_reverse_exact_refuted {E : Eps} : exists (c : cubic P1) lo hi lo' hi',
  cubic_bounding_box c = Ret [(lo, hi)] /\ cubic_bounding_box (cubic_reverse c) = Ret [(lo', hi')] /\ lo' < lo.
Proof. exact cubic_reverse_ce. Qed.

Section Ex.
Local Existing Instance Eps64.
Example C87_ex : let c := Cubic (pt1 0) (pt1 2) (pt1 5) (pt1 1) in
  forall i, (i < p_dim (P := P1))%nat ->
    3 * (coord (c_end c) i - 3 * coord (c_ctrl2 c) i + 3 * coord (c_ctrl1 c) i - coord (c_start c) i) = 0 \/
    @eps Eps64 <= Rabs (3 * (coord (c_end c) i - 3 * coord (c_ctrl2 c) i + 3 * coord (c_ctrl1 c) i
                         - coord (c_start c) i)).
Proof.
  intros c i Hi. change (p_dim (P := P1)) with 1%nat in Hi. assert (i = 0%nat) by lia. subst i. right.
  cbn [c c_start c_ctrl1 c_ctrl2 c_end]. rewrite !coord_pt1. pose proof eps64_le_1.
  rewrite Rabs_left by lra. lra.
Qed.
(** the constant of C88_quad cannot be lowered *)
Example C88_ex : near_points (quad_control_points (Quad (pt1 0) (pt1 3) (pt1 4)))
                             (quad_control_points (Quad (pt1 2) (pt1 5) (pt1 6))) 2 /\
  dist (quad_eval (Quad (pt1 0) (pt1 3) (pt1 4)) (1/2)) (quad_eval (Quad (pt1 2) (pt1 5) (pt1 6)) (1/2)) = 2.
Proof.
  split.
  - split; [reflexivity|]. intros [|[|[|[|k]]]] p q Hp Hq; try discriminate;
      injection Hp as <-; injection Hq as <-; rewrite dist_pt1; rewrite Rabs_left by lra; lra.
  - assert (Hi : (0 < p_dim (P := P1))%nat) by (change (p_dim (P := P1)) with 1%nat; lia).
    unfold dist. change (p_dim (P := P1)) with 1%nat. cbn [Rsum].
    rewrite !quad_eval_coord by exact Hi. cbn [q_start q_ctrl q_end]. rewrite !coord_pt1.
    match goal with |- sqrt ?x = 2 => replace x with (2 * 2) by field end.
    apply sqrt_square. lra.
Qed.
End Ex.

Print Assumptions C87_line_reverse.
Print Assumptions C87_quad_reverse.
Print Assumptions C87_cubic_reverse.
Print Assumptions C87_cubic_reverse_near.
Print Assumptions C87_cubic_reverse_exact_refuted.
Print Assumptions C87_quad_split.
Print Assumptions C87_cubic_split.
Print Assumptions C88_bezier.
Print Assumptions C88_quad.
Print Assumptions C88_cubic.
Print Assumptions C88_bezier_arclen.
Print Assumptions C88_quad_arclen.
Print Assumptions C88_cubic_arclen.
Print Assumptions C88_length.
Print Assumptions C88_quad_box.
Print Assumptions C88_cubic_box.
Print Assumptions C88_bezier_speed.
Print Assumptions C88_quad_speed.
Print Assumptions C88_cubic_speed.
