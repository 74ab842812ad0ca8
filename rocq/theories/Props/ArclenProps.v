(** C34, C35: [arclen] of the curves, exact arithmetic, every lawful point type. *)
From Coq Require Import Reals List Arith Lia Lra.
From Coquelicot Require Import Coquelicot.
From Verif Require Import Base.Outcome Base.Scalar Model.Point Model.Line Model.Quadratic Model.Cubic
  Model.Bezier Inst.RealInst Spec.Sums Spec.Lawful Spec.Bernstein Spec.Length Spec.Points
  Proofs.PointFacts Proofs.Metric Proofs.BezierReal Proofs.Calculus Proofs.BoxSpec Proofs.CurveCalc Proofs.ArclenFacts.
Import ListNotations.
Local Open Scope R_scope.

Section Arclen.
  Context {E : Eps} {P : Type} {PT : Point R P} {LP : LawfulPoint P}.

  (** C34.  Full statement: arclen m = polyline m.  False: the loop starts at 1,
      so the first chord is missing ([C34_arclen_refuted]); what is returned is
      exactly the polyline without its first chord. *)
  Theorem C34_quad_partial (c : quad P) m : (0 < m)%nat -> exists a, quad_arclen c m = Ret a /\
    a + dist (quad_eval c 0) (quad_eval c (/ INR m)) = polyline (quad_eval c) m.
  Proof. exact (quad_arclen_value c m). Qed.
  Theorem C34_cubic_partial (c : cubic P) m : (0 < m)%nat -> exists a, cubic_arclen c m = Ret a /\
    a + dist (cubic_eval c 0) (cubic_eval c (/ INR m)) = polyline (cubic_eval c) m.
  Proof. exact (cubic_arclen_value c m). Qed.
  Theorem C34_bezier_partial (ps : list P) m : (0 < m)%nat -> ps <> [] ->
    exists f a, (forall t, bezier_eval (Bezier ps) t = Ret (f t)) /\
      bezier_arclen (Bezier ps) m = Ret a /\ a + dist (f 0) (f (/ INR m)) = polyline f m.
  Proof. exact (bezier_arclen_value' ps m). Qed.
  (** no step and one step: nothing is summed *)
  Theorem C34_zero_steps (c : quad P) (k : cubic P) (b : bezier P) :
    quad_arclen c 0 = Ret 0 /\ cubic_arclen k 0 = Ret 0 /\ bezier_arclen b 0 = Ret 0.
  Proof. exact (conj (quad_arclen_zero c) (conj (cubic_arclen_zero k) (bezier_arclen_zero b))). Qed.
  Theorem C34_one_step (c : quad P) (k : cubic P) (b : bezier P) :
    quad_arclen c 1 = Ret 0 /\ cubic_arclen k 1 = Ret 0 /\ bezier_arclen b 1 = Ret 0.
  Proof. exact (conj (quad_arclen_one c) (conj (cubic_arclen_one k) (bezier_arclen_one b))). Qed.

  (** C35: never above the true length (the integral of the speed), below it by
      O(1/m), hence convergent. *)
  Theorem C35_quad (c : quad P) m L : (0 < m)%nat -> leg_bound (quad_control_points c) L ->
    exists a, quad_arclen c m = Ret a /\ a <= arc_length (quad_control_points c) /\
      arc_length (quad_control_points c) - a <= 4 * L / INR m.
  Proof. exact (quad_arclen_bounds c m L). Qed.
  Theorem C35_cubic (c : cubic P) m L : (0 < m)%nat -> leg_bound (cubic_control_points c) L ->
    exists a, cubic_arclen c m = Ret a /\ a <= arc_length (cubic_control_points c) /\
      arc_length (cubic_control_points c) - a <= 9 * L / INR m.
  Proof. exact (cubic_arclen_bounds c m L). Qed.
  Theorem C35_bezier (ps : list P) m L : (0 < m)%nat -> ps <> [] -> leg_bound ps L ->
    exists a, bezier_arclen (Bezier ps) m = Ret a /\ a <= arc_length ps /\
      arc_length ps - a <= INR (length ps - 1) ^ 2 * L / INR m.
  Proof. exact (bezier_arclen_bounds ps m L). Qed.
  (** C35: where the speed is at least v > 0, only the missing first chord (C34) is of
      order 1/m; the rest of the error is of order 1/m^2 *)
  Theorem C35_quad_regular (c : quad P) m L v : (0 < m)%nat -> leg_bound (quad_control_points c) L ->
    0 < v -> (forall t, 0 <= t <= 1 -> v <= speed (quad_control_points c) t) ->
    exists a, quad_arclen c m = Ret a /\
      Rabs (arc_length (quad_control_points c) - (a + dist (quad_eval c 0) (quad_eval c (/ INR m))))
      <= 2 * L ^ 2 / (3 * v * INR m ^ 2).
  Proof. exact (quad_arclen_regular c m L v). Qed.
  Theorem C35_cubic_regular (c : cubic P) m L v : (0 < m)%nat -> leg_bound (cubic_control_points c) L ->
    0 < v -> (forall t, 0 <= t <= 1 -> v <= speed (cubic_control_points c) t) ->
    exists a, cubic_arclen c m = Ret a /\
      Rabs (arc_length (cubic_control_points c) - (a + dist (cubic_eval c 0) (cubic_eval c (/ INR m))))
      <= 6 * L ^ 2 / (v * INR m ^ 2).
  Proof. exact (cubic_arclen_regular c m L v). Qed.
  Theorem C35_bezier_regular (ps : list P) m L v : (0 < m)%nat -> ps <> [] -> leg_bound ps L ->
    0 < v -> (forall t, 0 <= t <= 1 -> v <= speed ps t) ->
    exists f a, (forall t, bezier_eval (Bezier ps) t = Ret (f t)) /\ bezier_arclen (Bezier ps) m = Ret a /\
      Rabs (arc_length ps - (a + dist (f 0) (f (/ INR m))))
      <= (INR (length ps - 1) * INR (length ps - 2) * L) ^ 2 / (6 * v * INR m ^ 2).
  Proof. exact (bezier_arclen_regular ps m L v). Qed.
  Theorem C35_leg_bound_exists (ps : list P) : exists L, leg_bound ps L.
  Proof. exact (leg_bound_ex ps). Qed.
  Theorem C35_quad_limit (c : quad P) (a : nat -> R) : (forall m, quad_arclen c m = Ret (a m)) ->
    is_lim_seq a (arc_length (quad_control_points c)).
  Proof. exact (quad_arclen_lim c a). Qed.
  Theorem C35_cubic_limit (c : cubic P) (a : nat -> R) : (forall m, cubic_arclen c m = Ret (a m)) ->
    is_lim_seq a (arc_length (cubic_control_points c)).
  Proof. exact (cubic_arclen_lim c a). Qed.
  Theorem C35_bezier_limit (ps : list P) (a : nat -> R) : ps <> [] ->
    (forall m, bezier_arclen (Bezier ps) m = Ret (a m)) -> is_lim_seq a (arc_length ps).
  Proof. exact (bezier_arclen_lim ps a). Qed.
End Arclen.

Theorem C34_arclen_refuted {E : Eps} : exists (c : quad P1) (k : cubic P1) (ps : list P1) f,
  quad_arclen c 1 = Ret 0 /\ polyline (quad_eval c) 1 = 1 /\
  cubic_arclen k 1 = Ret 0 /\ polyline (cubic_eval k) 1 = 1 /\
  bezier_arclen (Bezier ps) 1 = Ret 0 /\
  (forall t, bezier_eval (Bezier ps) t = Ret (f t)) /\ polyline f 1 = 1.
Proof. exact arclen_ce. Qed.

(** a curve with a leg bound that is attained *)
Example C35_ex {E : Eps} : leg_bound (quad_control_points (Quad (pt1 0) (pt1 1) (pt1 3))) 2.
Proof.
  split; [lra|]. intros [|[|[|k]]] p q; cbn; intros Hp Hq; try discriminate;
    injection Hp as <-; injection Hq as <-; rewrite dist_pt1, Rabs_left; lra.
Qed.
(** its speed is 2 + 2t, so C35_quad_regular applies with v = 2 *)
Example C35_regular_ex {E : Eps} t : 0 <= t <= 1 -> 2 <= speed (quad_control_points (Quad (pt1 0) (pt1 1) (pt1 3))) t.
Proof.
  intros Ht. rewrite speed_vel by discriminate. unfold vel, nrm, sq. change (p_dim (P := P1)) with 1%nat. cbn [Rsum].
  replace (dcoord (quad_control_points (Quad (pt1 0) (pt1 1) (pt1 3))) 0 t) with (2 + 2 * t).
  - rewrite Rplus_0_l, sqrt_square; lra.
  - unfold dcoord, cs. cbn. ring.
Qed.
(** the summed sequence exists for every curve *)
Example C35_ex_sequence {E : Eps} (c : quad P1) : exists a : nat -> R, forall m, quad_arclen c m = Ret (a m).
Proof.
  exists (fun m => match quad_arclen c m with Ret x => x | _ => 0 end). intros [|m].
  - reflexivity.
  - destruct (quad_arclen_value c (S m) ltac:(lia)) as (a & Ea & _). rewrite Ea. reflexivity.
Qed.

Print Assumptions C34_quad_partial.
Print Assumptions C34_cubic_partial.
Print Assumptions C34_bezier_partial.
Print Assumptions C34_zero_steps.
Print Assumptions C34_one_step.
Print Assumptions C34_arclen_refuted.
Print Assumptions C35_quad.
Print Assumptions C35_cubic.
Print Assumptions C35_bezier.
Print Assumptions C35_quad_regular.
Print Assumptions C35_cubic_regular.
Print Assumptions C35_bezier_regular.
Print Assumptions C35_leg_bound_exists.
Print Assumptions C35_quad_limit.
Print Assumptions C35_cubic_limit.
Print Assumptions C35_bezier_limit.
