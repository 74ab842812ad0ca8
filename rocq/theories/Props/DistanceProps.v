(** C36, C37: [distance_to_point] of the curves, exact arithmetic. *)
From Coq Require Import Reals List Arith Lia Lra.
From Verif Require Import Base.Outcome Base.Scalar Model.Point Model.Line Model.Quadratic Model.Cubic
  Model.Bezier Inst.RealInst Spec.Sums Spec.Lawful Spec.Bernstein Spec.Length Spec.Points
  Proofs.PointFacts Proofs.BoxSpec Proofs.Search Proofs.ArclenFacts Proofs.SearchCE.
Import ListNotations.
Local Open Scope R_scope.

Section Distance.
  Context {E : Eps} {P : Type} {PT : Point R P} {LP : LawfulPoint P}.

  (** C36.  Full statement: the result is the distance to a point of the curve,
      d = dist p (eval u) with 0 <= u <= 1.  False ([C36_quad_refuted] and the
      other two): the fine pass evaluates at parameters down to -31*63/4096.
      Weaker, proved: the result is the distance to a point of the curve extended
      to that range. *)
  Theorem C36_quad_partial (c : quad P) p : exists d, quad_distance_to_point c p = Ret d /\
    exists u, - (31 * 63 / 4096) <= u <= 1 /\ d = dist p (quad_eval c u).
  Proof. exact (quad_distance_extended c p). Qed.
  Theorem C36_cubic_partial (c : cubic P) p : exists d, cubic_distance_to_point c p = Ret d /\
    exists u, - (31 * 63 / 4096) <= u <= 1 /\ d = dist p (cubic_eval c u).
  Proof. exact (cubic_distance_extended c p). Qed.
  Theorem C36_bezier_partial (ps : list P) p : ps <> [] ->
    exists f d, (forall t, bezier_eval (Bezier ps) t = Ret (f t)) /\
    bezier_distance_to_point (Bezier ps) p = Ret d /\
    exists u, - (31 * 63 / 4096) <= u <= 1 /\ d = dist p (f u).
  Proof. exact (bezier_distance_extended ps p). Qed.

  (** C37: against the start and the coarse samples *)
  Theorem C37_quad_samples (c : quad P) p : exists d, quad_distance_to_point c p = Ret d /\
    d <= dist p (q_start c) /\ forall i, (i < 64)%nat -> d <= dist p (quad_eval c (INR i / 64)).
  Proof. exact (quad_distance_samples c p). Qed.
  Theorem C37_cubic_samples (c : cubic P) p : exists d, cubic_distance_to_point c p = Ret d /\
    d <= dist p (c_start c) /\ forall i, (i < 64)%nat -> d <= dist p (cubic_eval c (INR i / 64)).
  Proof. exact (cubic_distance_samples c p). Qed.
  Theorem C37_bezier_samples (ps : list P) p : ps <> [] ->
    exists f d, (forall t, bezier_eval (Bezier ps) t = Ret (f t)) /\
    bezier_distance_to_point (Bezier ps) p = Ret d /\
    d <= dist p (f 0) /\ forall i, (i < 64)%nat -> d <= dist p (f (INR i / 64)).
  Proof. exact (bezier_distance_samples ps p). Qed.
  (** C37: against every point of the curve *)
  Theorem C37_quad_over (c : quad P) p L : leg_bound (quad_control_points c) L ->
    exists d, quad_distance_to_point c p = Ret d /\
      forall t, 0 <= t <= 1 -> d <= dist p (quad_eval c t) + 2 * L / 64.
  Proof. exact (quad_distance_over c p L). Qed.
  Theorem C37_cubic_over (c : cubic P) p L : leg_bound (cubic_control_points c) L ->
    exists d, cubic_distance_to_point c p = Ret d /\
      forall t, 0 <= t <= 1 -> d <= dist p (cubic_eval c t) + 3 * L / 64.
  Proof. exact (cubic_distance_over c p L). Qed.
  Theorem C37_bezier_over (ps : list P) p L : ps <> [] -> leg_bound ps L ->
    exists f d, (forall t, bezier_eval (Bezier ps) t = Ret (f t)) /\
      bezier_distance_to_point (Bezier ps) p = Ret d /\
      forall t, 0 <= t <= 1 -> d <= dist p (f t) + INR (length ps - 1) * L / 64.
  Proof. exact (bezier_distance_over' ps p L). Qed.
End Distance.

(** distance 0 reported for curves that stay at least 122 (366) away *)
Theorem C36_quad_refuted {E : Eps} : exists (c : quad P2) p, quad_distance_to_point c p = Ret 0 /\
  forall t, 0 <= t <= 1 -> 122 <= dist p (quad_eval c t).
Proof. exact (ex_intro _ ce_quad (ex_intro _ (pt2 0 0) quad_distance_ce)). Qed.
Theorem C36_cubic_refuted {E : Eps} : exists (c : cubic P2) p, cubic_distance_to_point c p = Ret 0 /\
  forall t, 0 <= t <= 1 -> 366 <= dist p (cubic_eval c t).
Proof. exact (ex_intro _ ce_cubic (ex_intro _ (pt2 0 0) cubic_distance_ce)). Qed.
Theorem C36_bezier_refuted {E : Eps} : exists (ps : list P2) p, bezier_distance_to_point (Bezier ps) p = Ret 0 /\
  forall t, 0 <= t <= 1 -> exists q, bezier_eval (Bezier ps) t = Ret q /\ 122 <= dist p q.
Proof. exact (ex_intro _ ce_points (ex_intro _ (pt2 0 0) bezier_distance_ce)). Qed.

Example C37_ex {E : Eps} : [pt1 0; pt1 1; pt1 3] <> [] /\
  leg_bound (quad_control_points (Quad (pt1 0) (pt1 1) (pt1 3))) 2.
Proof.
  split; [discriminate|].
  split; [lra|]. intros [|[|[|k]]] p q; cbn; intros Hp Hq; try discriminate;
    injection Hp as <-; injection Hq as <-; rewrite dist_pt1, Rabs_left; lra.
Qed.

Print Assumptions C36_quad_partial.
Print Assumptions C37_quad_samples.
Print Assumptions C36_cubic_partial.
Print Assumptions C37_cubic_samples.
Print Assumptions C36_bezier_partial.
Print Assumptions C37_bezier_samples.
Print Assumptions C37_quad_over.
Print Assumptions C37_cubic_over.
Print Assumptions C37_bezier_over.
Print Assumptions C36_quad_refuted.
Print Assumptions C36_cubic_refuted.
Print Assumptions C36_bezier_refuted.
