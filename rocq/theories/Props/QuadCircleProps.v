(** C137: circles drawn by quadratics, as the two commented-out tests of quadratic_bezier.rs intend. *)
From Coq Require Import Reals ZArith List Arith Lia Lra.
From Coquelicot Require Import Coquelicot.
From Verif Require Import Base.Outcome Base.Scalar Model.Point Model.Line Model.Quadratic Inst.RealInst
  Spec.Lawful Spec.Length Spec.Points Spec.Circle Spec.QuadCircle
  Proofs.PointFacts Proofs.QuadCircle Proofs.QuadCircleLength.
Import ListNotations.
Local Open Scope R_scope.

Section Radius.
  Context {E : Eps}.

  (** C137: an arc of half angle [a] with its control point where the end tangents meet stays outside the circle,
      by at most (1 - cos a)^2 / (2 cos a) *)
  Theorem C137_arc psi a t : 0 < cos a -> 0 <= t <= 1 ->
    0 <= radial (quad_eval (tangent_arc psi a) t) <= (1 - cos a) ^ 2 / (2 * cos a).
  Proof. exact (fun Ha => arc_range psi a Ha t). Qed.
  Theorem C137_arc_middle psi a : 0 < cos a ->
    radial (quad_eval (tangent_arc psi a) (/ 2)) = (1 - cos a) ^ 2 / (2 * cos a).
  Proof. exact (arc_middle psi a). Qed.
  (** C137: the error of a ring of [n] falls with the fourth power of [n] *)
  Theorem C137_rate n q t : (3 <= n)%nat -> In q (tangent_ring n) -> 0 <= t <= 1 ->
    0 <= radial (quad_eval q t) <= (PI / INR n) ^ 4 / 4.
  Proof. exact (ring_rate n q t). Qed.
  (** C137: sixteen meet the bound of the test, eight have sixteen times that error *)
  Theorem C137_sixteen q t : In q (tangent_ring 16) -> 0 <= t <= 1 -> Rabs (radial (quad_eval q t)) <= max_drift.
  Proof. exact (ring_16 q t). Qed.
  Theorem C137_eight q : In q (tangent_ring 8) ->
    (forall t, 0 <= t <= 1 -> 0 <= radial (quad_eval q t) <= 3137 / 1000000) /\
    3135 / 1000000 <= radial (quad_eval q (/ 2)).
  Proof. exact (ring_8 q). Qed.
  (** C137: no eight quadratics once round the origin pass the test, wherever their ends and control points are:
      one of the 8000 sampled points is off by more than 0.00025, the test allows 0.00019608 *)
  Theorem C137_eight_fail (cs : list (quad P2)) th rad : length cs = 8%nat -> goes_round cs th rad ->
    exists c i, In c cs /\ (i < 1000)%nat /\ / 4000 < Rabs (radial (quad_eval c (INR i / INR 1000))).
  Proof. exact (eight_fail cs th rad). Qed.
  (** C137: a single piece that covers an eighth of the circle or more *)
  Theorem C137_piece_fail (c : quad P2) r0 r1 th0 th1 : 0 < r0 -> 0 < r1 ->
    q_start c = rim r0 th0 -> q_end c = rim r1 th1 -> PI / 4 <= th1 - th0 <= 7 * PI / 4 ->
    exists t, In t [0; / 4; / 2; 3 / 4; 1] /\ / 4000 < Rabs (radial (quad_eval c t)).
  Proof. exact (eighth_piece c r0 r1 th0 th1). Qed.
  (** C137: the four quadratics written in the commented-out test are 8 percent off *)
  Theorem C137_todo_refuted (c : R) q : circle_constant c -> In q (todo_quadrants c) -> radial (quad_eval q (/ 2)) <= - (8 / 100).
  Proof. exact (todo_middle c q). Qed.

  (** C137: their circumference is off by more than 0.1 for every number of steps, the test allows 0.01 *)
  Theorem C137_todo_length_refuted (c : R) m : circle_constant c ->
    exists xs, Forall2 (fun q a => quad_arclen q m = Ret a) (todo_quadrants c) xs /\ fold_right Rplus 0 xs < 2 * PI - / 10.
  Proof. exact (todo_circumference c m). Qed.
  (** C137: length of an arc *)
  Theorem C137_length psi a : 0 < cos a -> 0 < sin a <= cos a ->
    2 * sin a * (1 + (sin a / cos a) ^ 2 / 6 - ((sin a / cos a) ^ 2) ^ 2 / 40) <= arc_length (quad_control_points (tangent_arc psi a))
      <= 2 * sin a * (1 + (sin a / cos a) ^ 2 / 6).
  Proof.
    intros Ha [Sa Sc]. split; [|now apply arc_long]. apply arc_short; [exact Ha|exact Sa|].
    assert (sin a / cos a <= 1) by (apply (quotient_range 0); lra).
    assert (0 < sin a / cos a) by (apply Rdiv_lt_0_compat; lra). rewrite <- (pow1 2). apply pow_incr. lra.
  Qed.
  (** C137: the eight arcs are longer than the circle by more than the test allows *)
  Theorem C137_circumference :
    2 * PI + / 100 < fold_right Rplus 0 (map (fun q => arc_length (quad_control_points q)) (tangent_ring 8)) < 2 * PI + / 60.
  Proof. exact ring_circumference. Qed.
  (** C137: the test would accept them at 1000 steps all the same, as [arclen] leaves out the first chord of each (C34),
      and reject them from 50000 steps on *)
  Theorem C137_steps : exists xs, Forall2 (fun q a => quad_arclen q 1000 = Ret a) (tangent_ring 8) xs /\
    Rabs (fold_right Rplus 0 xs - 2 * PI) < / 100.
  Proof. exact ring_test. Qed.
  Theorem C137_more_steps m : (50 * 1000 <= m)%nat -> exists xs, Forall2 (fun q a => quad_arclen q m = Ret a) (tangent_ring 8) xs /\
    2 * PI + / 100 < fold_right Rplus 0 xs.
  Proof. exact (ring_test_fails m). Qed.

  (** the rings go round, so the hypotheses are met *)
  Example C137_ring n : (3 <= n)%nat -> goes_round (tangent_ring n) (fun k => (2 * INR k - 1) * PI / INR n) (fun _ => 1).
  Proof. exact (ring_round n). Qed.
  Example C137_ex : exists c i, In c (tangent_ring 8) /\ (i < 1000)%nat /\ max_drift < Rabs (radial (quad_eval c (INR i / INR 1000))).
  Proof.
    destruct (C137_eight_fail (tangent_ring 8) _ _ (ring_length 8) (C137_ring 8 ltac:(lia))) as (c & i & H1 & H2 & H3).
    exists c, i. split; [exact H1|]. split; [exact H2|]. unfold max_drift. lra.
  Qed.
  Example C137_arc_ex : radial (quad_eval (tangent_arc (PI / 4) (PI / 4)) (/ 2)) = 3 * sqrt 2 / 4 - 1.
  Proof.
    pose proof PI_RGT_0. rewrite C137_arc_middle by (apply cos_gt_0; lra). rewrite cos_PI4.
    replace (1 / sqrt 2) with (/ sqrt 2) by (unfold Rdiv; ring). rewrite inv_root2.
    assert (Q : sqrt 2 * sqrt 2 = 2) by (apply sqrt_sqrt; lra). pose proof root2.
    apply (Rmult_eq_reg_r (2 * (sqrt 2 / 2))); [|lra]. unfold Rdiv at 1. rewrite Rmult_assoc, Rinv_l by lra. nra.
  Qed.
  Example C137_todo_ex : circle_constant (551915024494 / 1000000000000).
  Proof. unfold circle_constant. rewrite Rminus_diag_eq by reflexivity. rewrite Rabs_R0. lra. Qed.
End Radius.

Print Assumptions C137_arc.
Print Assumptions C137_arc_middle.
Print Assumptions C137_rate.
Print Assumptions C137_sixteen.
Print Assumptions C137_eight.
Print Assumptions C137_eight_fail.
Print Assumptions C137_piece_fail.
Print Assumptions C137_todo_refuted.
Print Assumptions C137_todo_length_refuted.
Print Assumptions C137_length.
Print Assumptions C137_circumference.
Print Assumptions C137_steps.
Print Assumptions C137_more_steps.
