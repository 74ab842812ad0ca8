(** C120-C122: control points read off a given curve; control values that bend one way; mean
    values.  Exact arithmetic. *)
From Coq Require Import Reals List Arith Lia Lra.
From Coquelicot Require Import Coquelicot.
From Verif Require Import Base.Outcome Base.Scalar Model.Point Model.Quadratic Model.Cubic Model.Bezier
  Inst.RealInst Spec.Sums Spec.Lawful Spec.Bernstein Spec.Points Spec.Sampling
  Proofs.Sampling.
Import ListNotations.
Local Open Scope R_scope.

Section C120.
  Context {E : Eps} {P : Type} {PT : Point R P} {LP : LawfulPoint P}.

  (** C120: Bernstein's approximation, computed by eval *)
  Theorem C120_lipschitz (g : R -> P) ps L t : samples g ps -> (2 <= length ps)%nat -> 0 <= t <= 1 ->
    (forall x y, 0 <= x <= 1 -> 0 <= y <= 1 -> dist (g x) (g y) <= L * Rabs (x - y)) ->
    exists x, bezier_eval (Bezier ps) t = Ret x /\ dist x (g t) <= L / (2 * sqrt (INR (length ps - 1))).
  Proof. exact (bezier_sampled_lipschitz g ps L t). Qed.
  (** with a tangent s at t that g follows to second order *)
  Theorem C120_smooth (g : R -> P) ps i M s t : samples g ps -> (2 <= length ps)%nat -> 0 <= t <= 1 -> (i < p_dim (P := P))%nat ->
    (forall x, 0 <= x <= 1 -> Rabs (coord (g x) i - coord (g t) i - s * (x - t)) <= M / 2 * ((x - t) * (x - t))) ->
    exists x, bezier_eval (Bezier ps) t = Ret x /\
      Rabs (coord x i - coord (g t) i) <= M * (t * (1 - t)) / (2 * INR (length ps - 1)).
  Proof. exact (bezier_sampled_smooth g ps i M s t). Qed.
  (** every continuous curve is the uniform limit of the Bezier curves of its samples *)
  Theorem C120_converges (g : R -> P) :
    (forall i, (i < p_dim (P := P))%nat -> forall x, 0 <= x <= 1 -> continuity_pt (fun x => coord (g x) i) x) ->
    forall e, 0 < e -> exists N, forall ps t, (N <= length ps)%nat -> samples g ps -> 0 <= t <= 1 ->
      exists x, bezier_eval (Bezier ps) t = Ret x /\ dist x (g t) <= e.
  Proof. exact (bezier_sampled_converges g). Qed.
  (** convex coordinates are approximated from above *)
  Theorem C120_convex (g : R -> P) ps i t : samples g ps -> (2 <= length ps)%nat -> (i < p_dim (P := P))%nat ->
    (forall a b s, 0 <= a <= 1 -> 0 <= b <= 1 -> 0 <= s <= 1 ->
       coord (g ((1 - s) * a + s * b)) i <= (1 - s) * coord (g a) i + s * coord (g b) i) ->
    0 <= t <= 1 -> exists x, bezier_eval (Bezier ps) t = Ret x /\ coord (g t) i <= coord x i.
  Proof. exact (bezier_sampled_convex g ps i t). Qed.

  (** C121: control values that bend up give a coordinate that bends up ... *)
  Theorem C121_bezier ps i a b s : ps <> [] -> (i < p_dim (P := P))%nat -> bends_up ps i ->
    0 <= a <= 1 -> 0 <= b <= 1 -> 0 <= s <= 1 ->
    exists x y z, bezier_eval (Bezier ps) a = Ret x /\ bezier_eval (Bezier ps) b = Ret y /\
      bezier_eval (Bezier ps) ((1 - s) * a + s * b) = Ret z /\ coord z i <= (1 - s) * coord x i + s * coord y i.
  Proof. exact (bezier_convex ps i a b s). Qed.
  Theorem C121_quad (c : quad P) i a b s : (i < p_dim (P := P))%nat -> bends_up (quad_control_points c) i ->
    0 <= a <= 1 -> 0 <= b <= 1 -> 0 <= s <= 1 ->
    coord (quad_eval c ((1 - s) * a + s * b)) i <= (1 - s) * coord (quad_eval c a) i + s * coord (quad_eval c b) i.
  Proof. exact (quad_convex c i a b s). Qed.
  Theorem C121_cubic (c : cubic P) i a b s : (i < p_dim (P := P))%nat -> bends_up (cubic_control_points c) i ->
    0 <= a <= 1 -> 0 <= b <= 1 -> 0 <= s <= 1 ->
    coord (cubic_eval c ((1 - s) * a + s * b)) i <= (1 - s) * coord (cubic_eval c a) i + s * coord (cubic_eval c b) i.
  Proof. exact (cubic_convex c i a b s). Qed.
  (** ... and never goes below the line through two neighbouring control values *)
  Theorem C121_bezier_polygon ps i k p q t : (i < p_dim (P := P))%nat -> bends_up ps i ->
    nth_error ps k = Some p -> nth_error ps (S k) = Some q -> 0 <= t <= 1 ->
    exists x, bezier_eval (Bezier ps) t = Ret x /\
      coord p i + (INR (length ps - 1) * t - INR k) * (coord q i - coord p i) <= coord x i.
  Proof. exact (bezier_polygon ps i k p q t). Qed.
  Theorem C121_quad_polygon (c : quad P) i k p q t : (i < p_dim (P := P))%nat -> bends_up (quad_control_points c) i ->
    nth_error (quad_control_points c) k = Some p -> nth_error (quad_control_points c) (S k) = Some q -> 0 <= t <= 1 ->
    coord p i + (2 * t - INR k) * (coord q i - coord p i) <= coord (quad_eval c t) i.
  Proof. exact (quad_polygon c i k p q t). Qed.
  Theorem C121_cubic_polygon (c : cubic P) i k p q t : (i < p_dim (P := P))%nat -> bends_up (cubic_control_points c) i ->
    nth_error (cubic_control_points c) k = Some p -> nth_error (cubic_control_points c) (S k) = Some q -> 0 <= t <= 1 ->
    coord p i + (3 * t - INR k) * (coord q i - coord p i) <= coord (cubic_eval c t) i.
  Proof. exact (cubic_polygon c i k p q t). Qed.

  (** C122: the mean of eval over [0,1] is the mean of the control points *)
  Theorem C122_bezier ps m : ps <> [] -> mean_point ps m ->
    exists f, (forall t, bezier_eval (Bezier ps) t = Ret (f t)) /\
      forall i, (i < p_dim (P := P))%nat -> is_RInt (fun t => coord (f t) i) 0 1 (coord m i).
  Proof. exact (bezier_mean ps m). Qed.
  Theorem C122_quad (c : quad P) m i : mean_point (quad_control_points c) m -> (i < p_dim (P := P))%nat ->
    is_RInt (fun t => coord (quad_eval c t) i) 0 1 (coord m i).
  Proof. exact (quad_mean c m i). Qed.
  Theorem C122_cubic (c : cubic P) m i : mean_point (cubic_control_points c) m -> (i < p_dim (P := P))%nat ->
    is_RInt (fun t => coord (cubic_eval c t) i) 0 1 (coord m i).
  Proof. exact (cubic_mean c m i). Qed.
End C120.

(** the parabola t^2, sampled at 0, 1/2, 1: the curve is t^2 + t(1-t)/2, the bound of C120_smooth
    (M = 2, n = 2) is attained *)
Example C120_ex {E : Eps} : samples (fun t => pt1 (t * t)) [pt1 0; pt1 (1/4); pt1 1].
Proof.
  intros k p Hk. destruct k as [|[|[|[|k]]]]; try discriminate; injection Hk as <-; simpl; f_equal; field.
Qed.
Example C120_ex_smooth {E : Eps} t x : Rabs (coord (pt1 (x * x)) 0 - coord (pt1 (t * t)) 0 - 2 * t * (x - t)) <= 2 / 2 * ((x - t) * (x - t)).
Proof. cbn. replace (x * x - t * t - 2 * t * (x - t)) with ((x - t) * (x - t)) by ring. rewrite Rabs_pos_eq by apply Rle_0_sqr. lra. Qed.
Example C120_attained {E : Eps} t : coord (quad_eval (Quad (pt1 0) (pt1 (1/4)) (pt1 1)) t) 0 = t * t + 2 * (t * (1 - t)) / (2 * 2).
Proof. cbn. field. Qed.
Example C121_ex {E : Eps} : bends_up (cubic_control_points (Cubic (pt1 3) (pt1 1) (pt1 0) (pt1 0))) 0.
Proof.
  intros [|[|[|[|k]]]] p q r Hp Hq Hr; try discriminate; injection Hp as <-; injection Hq as <-; injection Hr as <-; cbn; lra.
Qed.
Example C122_ex {E : Eps} : mean_point (quad_control_points (Quad (pt2 0 0) (pt2 1 3) (pt2 5 0))) (pt2 2 1).
Proof. intros i Hi. destruct i as [|[|i]]; [| |cbn in Hi; lia]; cbn; ring. Qed.

Print Assumptions C120_lipschitz.
Print Assumptions C120_smooth.
Print Assumptions C120_converges.
Print Assumptions C120_convex.
Print Assumptions C121_bezier.
Print Assumptions C121_quad.
Print Assumptions C121_cubic.
Print Assumptions C121_bezier_polygon.
Print Assumptions C121_quad_polygon.
Print Assumptions C121_cubic_polygon.
Print Assumptions C122_bezier.
Print Assumptions C122_quad.
Print Assumptions C122_cubic.
