(** C117: control points at equal steps on a straight line, exact arithmetic; the accuracy
    that the comments promise for arclen. *)
From Coq Require Import Reals List Arith Lia Lra.
From Verif Require Import Base.Outcome Base.Scalar Model.Point Model.Quadratic Model.Cubic Model.Bezier Model.BSpline
  Inst.RealInst Spec.Sums Spec.Lawful Spec.Bernstein Spec.Length Spec.Points Spec.Basis Spec.Precision
  Proofs.BoxSpec Proofs.LinearPrecision.
Import ListNotations.
Local Open Scope R_scope.

Section C117.
  Context {E : Eps} {P : Type} {PT : Point R P} {LP : LawfulPoint P}.

  (** equal steps: the curve runs from a to b at constant speed, for every real t *)
  Theorem C117_quad (a b : P) (c : quad P) t : evenly a b (quad_control_points c) -> on_line a b t (quad_eval c t).
  Proof. exact (quad_evenly a b c t). Qed.
  Theorem C117_cubic (a b : P) (c : cubic P) t : evenly a b (cubic_control_points c) -> on_line a b t (cubic_eval c t).
  Proof. exact (cubic_evenly a b c t). Qed.
  Theorem C117_bezier (a b : P) ps t : (2 <= length ps)%nat -> evenly a b ps ->
    exists x, bezier_eval (Bezier ps) t = Ret x /\ on_line a b t x.
  Proof. exact (bezier_evenly a b ps t). Qed.

  (** its length is that of the segment; arclen misses one part in m of it *)
  Theorem C117_length (a b : P) ps : (2 <= length ps)%nat -> evenly a b ps -> arc_length ps = dist a b.
  Proof. exact (evenly_arc_length a b ps). Qed.
  Theorem C117_quad_arclen (a b : P) (c : quad P) m : evenly a b (quad_control_points c) -> (0 < m)%nat ->
    quad_arclen c m = Ret ((1 - / INR m) * dist a b).
  Proof. exact (quad_evenly_arclen a b c m). Qed.
  Theorem C117_cubic_arclen (a b : P) (c : cubic P) m : evenly a b (cubic_control_points c) -> (0 < m)%nat ->
    cubic_arclen c m = Ret ((1 - / INR m) * dist a b).
  Proof. exact (cubic_evenly_arclen a b c m). Qed.
  Theorem C117_bezier_arclen (a b : P) ps m : (2 <= length ps)%nat -> evenly a b ps -> (0 < m)%nat ->
    bezier_arclen (Bezier ps) m = Ret ((1 - / INR m) * dist a b).
  Proof. exact (bezier_evenly_arclen a b ps m). Qed.

  (** "at ~32 segments it should already provide an error < 0.5": for short curves *)
  Theorem C117_quad_32 (c : quad P) L : leg_bound (quad_control_points c) L -> L < 4 ->
    exists a, quad_arclen c 32 = Ret a /\ Rabs (arc_length (quad_control_points c) - a) < 1/2.
  Proof. exact (quad_steps32 c L). Qed.
  Theorem C117_cubic_32 (c : cubic P) L : leg_bound (cubic_control_points c) L -> L < 16/9 ->
    exists a, cubic_arclen c 32 = Ret a /\ Rabs (arc_length (cubic_control_points c) - a) < 1/2.
  Proof. exact (cubic_steps32 c L). Qed.

  (** B-splines: with the control points at the means of their knots the curve is straight; the
      code returns it at the knots, and between them without the last control point of the span *)
  Theorem C117_spline D ks (ps : list P) (a b : P) t i : (1 <= D)%nat -> sorted ks -> (length ps + D + 1 <= length ks)%nat ->
    nth D ks 0 <= t < nth (length ps) ks 0 -> at_knot_means a b D ks ps -> (i < p_dim (P := P))%nat ->
    spline_coord D ks ps t i = coord a i + t * (coord b i - coord a i).
  Proof. exact (spline_linear D ks ps a b t i). Qed.
  Theorem C117_spline_knots D ks (ps : list P) s (a b : P) k : bspline_new D ks ps = Ret (Ok s) -> (1 <= D)%nat ->
    at_knot_means a b D ks ps -> bs_kind s <> Unclamped -> (k < length ps)%nat ->
    nth D ks 0 <= nth k ks 0 < nth (length ps) ks 0 -> nth k ks 0 < nth (k + 1) ks 0 ->
    (forall i, (i < length ps + D)%nat -> nth i ks 0 < nth k ks 0 -> eps <= nth k ks 0 - nth i ks 0) ->
    exists p, bspline_eval s (nth k ks 0) = Ret (Ok p) /\ on_line a b (nth k ks 0) p.
  Proof. exact (spline_knot_linear D ks ps s a b k). Qed.
  Theorem C117_spline_value D ks (ps : list P) s (a b : P) t : bspline_new D ks ps = Ret (Ok s) -> (1 <= D)%nat ->
    at_knot_means a b D ks ps -> bs_kind s <> Unclamped -> nth D ks 0 <= t < nth (length ps) ks 0 ->
    (forall i, (i < length ps + D)%nat -> nth i ks 0 < t -> eps <= t - nth i ks 0) ->
    exists k p, (D <= k < length ps)%nat /\ nth k ks 0 <= t < nth (k + 1) ks 0 /\ bspline_eval s t = Ret (Ok p) /\
      forall i, (i < p_dim (P := P))%nat -> coord p i =
        coord a i + t * (coord b i - coord a i) - basis (fun m => nth m ks 0) D k t * coord (nth k ps p_default) i.
  Proof. exact (spline_value_linear D ks ps s a b t). Qed.
End C117.

(** no error bound holds for all curves at 32 steps *)
Theorem C117_documented_refuted {E : Eps} (e : R) : exists (c : quad P1) (k : cubic P1) a a',
  quad_arclen c 32 = Ret a /\ e < arc_length (quad_control_points c) - a /\
  cubic_arclen k 32 = Ret a' /\ e < arc_length (cubic_control_points k) - a' /\
  bezier_arclen (Bezier (quad_control_points c)) 32 = Ret a /\
  bezier_arclen (Bezier (cubic_control_points k)) 32 = Ret a'.
Proof. exact (steps32_error e). Qed.

(** control points at equal steps, and at the knot means of the knots of C47_ex *)
Example C117_ex {E : Eps} : evenly (pt2 1 2) (pt2 5 0) [pt2 1 2; pt2 3 1; pt2 5 0].
Proof.
  intros k p Hk i Hi. destruct k as [|[|[|[|k]]]]; try discriminate; injection Hk as <-;
    (destruct i as [|[|i]]; [| |cbn in Hi; lia]); cbn; lra.
Qed.
Example C117_means {E : Eps} : at_knot_means (pt1 0) (pt1 2) 2 [0;0;0;1;2;2;2] [pt1 0; pt1 1; pt1 3; pt1 4].
Proof.
  intros k p Hk i Hi. destruct k as [|[|[|[|[|k]]]]]; try discriminate; injection Hk as <-;
    (destruct i as [|i]; [|cbn in Hi; lia]); unfold knot_mean; cbn; lra.
Qed.
Example C117_legs {E : Eps} : leg_bound (quad_control_points (Quad (pt1 0) (pt1 3) (pt1 1))) 3.
Proof.
  split; [lra|]. intros [|[|[|k]]] p q Hp Hq; try discriminate; injection Hp as <-; injection Hq as <-;
    rewrite dist_pt1; unfold Rabs; destruct (Rcase_abs _); lra.
Qed.

Print Assumptions C117_quad.
Print Assumptions C117_cubic.
Print Assumptions C117_bezier.
Print Assumptions C117_length.
Print Assumptions C117_quad_arclen.
Print Assumptions C117_cubic_arclen.
Print Assumptions C117_bezier_arclen.
Print Assumptions C117_quad_32.
Print Assumptions C117_cubic_32.
Print Assumptions C117_spline.
Print Assumptions C117_spline_knots.
Print Assumptions C117_spline_value.
Print Assumptions C117_documented_refuted.
