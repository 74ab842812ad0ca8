(** C77: arc length of the curves: refinement, control polygon, split, direction. *)
From Coq Require Import Reals List Arith Lia Lra.
From Coquelicot Require Import Coquelicot.
From Verif Require Import Base.Outcome Base.Scalar Model.Point Model.Line Model.Quadratic Model.Cubic
  Model.Bezier Inst.RealInst Spec.Sums Spec.Lawful Spec.Bernstein Spec.Length Spec.Points Proofs.ExactEval
  Proofs.PointFacts Proofs.RealTac Proofs.BezierReal Proofs.BoxSpec Proofs.LengthMore.
Import ListNotations.
Local Open Scope R_scope.

Section Length.
  Context {E : Eps} {P : Type} {PT : Point R P} {LP : LawfulPoint P}.

  (** C77: multiplying the number of steps never shortens the result, and no result
      exceeds the true length, nor that the length of the control polygon *)
  Theorem C77_quad (c : quad P) n m : (0 < n)%nat -> (0 < m)%nat ->
    exists a b, quad_arclen c n = Ret a /\ quad_arclen c (n * m) = Ret b /\
      0 <= a <= b /\ b <= arc_length (quad_control_points c) <= polygon_length (quad_control_points c).
  Proof. exact (quad_arclen_refines c n m). Qed.
  Theorem C77_cubic (c : cubic P) n m : (0 < n)%nat -> (0 < m)%nat ->
    exists a b, cubic_arclen c n = Ret a /\ cubic_arclen c (n * m) = Ret b /\
      0 <= a <= b /\ b <= arc_length (cubic_control_points c) <= polygon_length (cubic_control_points c).
  Proof. exact (cubic_arclen_refines c n m). Qed.
  Theorem C77_bezier (ps : list P) n m : ps <> [] -> (0 < n)%nat -> (0 < m)%nat ->
    exists a b, bezier_arclen (Bezier ps) n = Ret a /\ bezier_arclen (Bezier ps) (n * m) = Ret b /\
      0 <= a <= b /\ b <= arc_length ps <= polygon_length ps.
  Proof. exact (bezier_arclen_refines ps n m). Qed.
  (** C77: the length is at least the distance of the end points *)
  Theorem C77_chord (ps : list P) : ps <> [] ->
    dist (nth 0 ps p_default) (nth (length ps - 1) ps p_default) <= arc_length ps.
  Proof. exact (arc_length_chord ps). Qed.

  (** C77: the halves of [split] add up to the length of the whole *)
  Theorem C77_quad_split (c : quad P) t : 0 <= t <= 1 ->
    arc_length (quad_control_points (fst (quad_split c t))) + arc_length (quad_control_points (snd (quad_split c t)))
    = arc_length (quad_control_points c).
  Proof. exact (quad_split_length c t). Qed.
  Theorem C77_cubic_split (c : cubic P) t : 0 <= t <= 1 ->
    arc_length (cubic_control_points (fst (cubic_split c t))) + arc_length (cubic_control_points (snd (cubic_split c t)))
    = arc_length (cubic_control_points c).
  Proof. exact (cubic_split_length c t). Qed.
  Theorem C77_bezier_split (ps l r : list P) t : 0 <= t <= 1 -> ps <> [] ->
    bezier_split (Bezier ps) t = Ret (Bezier l, Bezier r) -> arc_length l + arc_length r = arc_length ps.
  Proof. exact (bezier_split_length ps l r t). Qed.

  (** C77: reversing the control points keeps the length; [arclen] changes by the
      difference of the first and the last chord, as it leaves out the first (C34) *)
  Theorem C77_reverse (ps : list P) : ps <> [] -> arc_length (rev ps) = arc_length ps.
  Proof. exact (arc_length_rev ps). Qed.
  Theorem C77_arclen_reverse (ps : list P) n : ps <> [] -> (0 < n)%nat ->
    exists f a b, (forall t, bezier_eval (Bezier ps) t = Ret (f t)) /\
      bezier_arclen (Bezier ps) n = Ret a /\ bezier_arclen (Bezier (rev ps)) n = Ret b /\
      a + dist (f 0) (f (/ INR n)) = b + dist (f (1 - / INR n)) (f 1).
  Proof. exact (bezier_arclen_rev ps n). Qed.
End Length.

(** the curve 2t + 2t^2: 5/2 one way, 3/2 the other *)
Example C77_ex_direction {E : Eps} : exists a b,
  bezier_arclen (Bezier [pt1 0; pt1 1; pt1 4]) 2 = Ret a /\ bezier_arclen (Bezier [pt1 4; pt1 1; pt1 0]) 2 = Ret b /\ a - b = 1.
Proof.
  destruct (C77_arclen_reverse [pt1 0; pt1 1; pt1 4] 2) as (f & a & b & Hf & Ha & Hb & H); [discriminate|lia|].
  exists a, b. split; [exact Ha|]. split; [exact Hb|].
  assert (Hv : forall t, f t = pt1 (2 * t + 2 * t * t)).
  { intros t. specialize (Hf t). rewrite (bezier_eval_quad (pt1 0) (pt1 1) (pt1 4)) in Hf.
    assert (Hq : quad_eval (Quad (pt1 0) (pt1 1) (pt1 4)) t = f t) by congruence. rewrite <- Hq. apply lp_ext. intros i Hi. rewrite P1_dim in Hi. destruct i as [|i]; [|lia].
    rewrite quad_eval_coord by apply in1. cbn [q_start q_ctrl q_end]. rewrite !coord_pt1. ring. }
  rewrite !Hv, !dist_pt1 in H. simpl INR in H.
  rewrite (Rabs_left (_ - _)), (Rabs_left (2 * (1 - _) + _ - _)) in H by lra. lra.
Qed.
Example C77_ex_polygon {E : Eps} : polygon_length [pt1 0; pt1 1; pt1 4] = 4.
Proof. cbn. rewrite !dist_pt1, !Rabs_left by lra. lra. Qed.

Print Assumptions C77_quad.
Print Assumptions C77_cubic.
Print Assumptions C77_bezier.
Print Assumptions C77_chord.
Print Assumptions C77_quad_split.
Print Assumptions C77_cubic_split.
Print Assumptions C77_bezier_split.
Print Assumptions C77_reverse.
Print Assumptions C77_arclen_reverse.
