(** C59: cubic root finding; C64: solving for a coordinate value. *)
From Coq Require Import Reals List Arith Lia Lra.
From Verif Require Import Base.Outcome Base.Scalar Model.Point Model.Line Model.Quadratic Model.Cubic
  Model.Roots Inst.RealInst Spec.Sums Spec.Lawful Spec.Points Spec.CubicRoots
  Proofs.PointFacts Proofs.BoxSpec Proofs.Cardano Proofs.SolveAxis.
Import ListNotations.
Local Open Scope R_scope.

Section Generic.
  Context {T P : Type} {ST : Scalar T} {TT : ScalarTrans T} {PT : Point T P}.

  (** C59: never a panic, over any scalar type *)
  Theorem C59_total (a b c d : T) : exists l, roots_cubic a b c d = Ret l /\ (length l <= 3)%nat.
  Proof. exact (roots_cubic_total a b c d). Qed.
  (** C59: a leading coefficient smaller than EPSILON is dropped (then see C58) *)
  Theorem C59_degenerate (a b c d : T) : s_ltb (s_abs a) s_eps = true ->
    roots_cubic a b c d = quad_real_roots b c d.
  Proof. exact (fun H => eq_trans (roots_cubic_degenerate a b c d H) (roots_square_same b c d)). Qed.
  (** C58: the solver of roots.rs is the one of quadratic_bezier.rs *)
  Theorem C58_same_solver (a b c : T) : roots_square a b c = quad_real_roots a b c.
  Proof. exact (roots_square_same a b c). Qed.
End Generic.

(** C59.  Full statement: for [eps <= Rabs a], the list returned contains exactly
    the real roots.  False for two reasons: the constant PI is the f32 one
    ([C59_three_refuted]), and two cube roots closer than EPSILON are taken for
    equal ([C59_one_refuted]). *)
Section Cubic.
  Context {E : Eps}.

  (** one simple real root: it is returned, and first *)
  Theorem C59_one_partial a b c d : eps <= Rabs a -> discriminant a b c d < 0 ->
    exists r l, roots_cubic a b c d = Ret (r :: l) /\ forall t, cubic_value a b c d t = 0 <-> t = r.
  Proof. exact (solve_one a b c d). Qed.
  (** and nothing else when the conjugate roots m +- i n are not close to the real axis *)
  Theorem C59_one_exact_partial a r m n : eps <= Rabs a -> sqrt 3 * eps <= 2 * Rabs n ->
    roots_cubic a (- a * (r + 2 * m)) (a * (m ^ 2 + n ^ 2 + 2 * m * r)) (- a * r * (m ^ 2 + n ^ 2)) = Ret [r].
  Proof. exact (solve_one_exact a r m n). Qed.
  (** a (t - r) (t - m)^2 *)
  Theorem C59_double_partial a r m : eps <= Rabs a -> 3 / 2 * eps <= Rabs (r - m) ->
    roots_cubic a (- a * (r + 2 * m)) (a * (m ^ 2 + 2 * m * r)) (- a * r * m ^ 2) = Ret [r; m].
  Proof. exact (solve_double a r m). Qed.
  (** a (t - r)^3 *)
  Theorem C59_triple a r : eps <= Rabs a ->
    roots_cubic a (- 3 * a * r) (3 * a * r ^ 2) (- a * r ^ 3) = Ret [r].
  Proof. exact (solve_triple a r). Qed.
  (** three real roots: the first value is one of them, the other two values are
      close to the other two roots *)
  Theorem C59_three_partial a b c d : eps <= Rabs a -> 0 < discriminant a b c d ->
    exists r1 r2 r3 x2 x3, roots_cubic a b c d = Ret [r1; x2; x3] /\
      (forall t, cubic_value a b c d t = 0 <-> t = r1 \/ t = r2 \/ t = r3) /\
      Rabs (x2 - r2) <= sqrt (b ^ 2 - 3 * a * c) / Rabs a * / 10000000 /\
      Rabs (x3 - r3) <= sqrt (b ^ 2 - 3 * a * c) / Rabs a * / 10000000.
  Proof. exact (solve_three a b c d). Qed.

  Theorem C59_three_refuted : exists a b c d l, eps <= Rabs a /\ 0 < discriminant a b c d /\
    roots_cubic a b c d = Ret l /\ exists t, In t l /\ cubic_value a b c d t <> 0.
  Proof. exact trig_refuted'. Qed.
  Theorem C59_one_refuted : exists a b c d l, eps <= Rabs a /\ discriminant a b c d < 0 /\
    roots_cubic a b c d = Ret l /\ exists t, In t l /\ cubic_value a b c d t <> 0.
  Proof. exact window_refuted'. Qed.
End Cubic.

(** t^3 + t - 2 = (t - 1) (t^2 + t + 2);  (t - 1)(t - 2)(t - 3);  (t - 5)(t - 1)^2 *)
Lemma eps64_small : @eps Eps64 <= 1 / 1000.
Proof. cbn [eps Eps64]. apply Rle_trans with (/ 2 ^ 10); [|lra]. apply Rinv_le_contravar; [lra|]. apply Rle_pow; [lra|lia]. Qed.

Example C59_one_ex : @eps Eps64 <= Rabs 1 /\ discriminant 1 0 1 (-2) < 0 /\ cubic_value 1 0 1 (-2) 1 = 0.
Proof.
  pose proof eps64_small. rewrite Rabs_pos_eq by lra. unfold discriminant, cubic_value. repeat split; lra.
Qed.
Example C59_one_exact_ex : @eps Eps64 <= Rabs 1 /\ sqrt 3 * @eps Eps64 <= 2 * Rabs (-1).
Proof.
  pose proof eps64_small. pose proof (@eps_pos Eps64). rewrite Rabs_pos_eq, Rabs_left by lra. split; [lra|].
  assert (sqrt 3 <= 2) by (rewrite <- (sqrt_square 2) by lra; apply sqrt_le_1_alt; lra).
  assert (sqrt 3 * @eps Eps64 <= 2 * @eps Eps64) by (apply Rmult_le_compat_r; lra). lra.
Qed.
Example C59_double_ex : @eps Eps64 <= Rabs 1 /\ 3 / 2 * @eps Eps64 <= Rabs (5 - 1).
Proof. pose proof eps64_small. rewrite !Rabs_pos_eq by lra. lra. Qed.
Example C59_three_ex : @eps Eps64 <= Rabs 1 /\ 0 < discriminant 1 (-6) 11 (-6) /\
  forall t, cubic_value 1 (-6) 11 (-6) t = (t - 1) * (t - 2) * (t - 3).
Proof.
  pose proof eps64_small. rewrite Rabs_pos_eq by lra. unfold discriminant, cubic_value.
  repeat split; [lra|lra|]. intros t. ring.
Qed.

(** C64.  Full statement: for every curve that is not a point, exactly the
    parameters in [0,1] at which the coordinate has the given value.  False at
    the ends of the interval ([C64_ends_refuted]) and for short curves ([C64_skipped_refuted]); for cubics the limits of C59 apply. *)
Section Solve.
  Context {E : Eps} {P : Type} {PT : Point R P} {LP : LawfulPoint P}.

  Theorem C64_quad_partial (c : quad P) v i
    (s := coord (q_start c) i) (k := coord (q_ctrl c) i) (e := coord (q_end c) i) :
    (i < p_dim (P := P))%nat -> ~ quad_skipped (q_start c) (q_ctrl c) (q_end c) -> eps <= Rabs (s - 2 * k + e) ->
    (0 <= (k - s) * (k - s) - (s - 2 * k + e) * (s - v) \/
     4 * ((k - s) * (k - s) - (s - 2 * k + e) * (s - v)) <= - eps) ->
    exists l, quad_solve_t_for_axis c v i = Ret l /\
      forall t, In t l <-> 0 < t < 1 /\ coord (quad_eval c t) i = v.
  Proof. exact (quad_solve c v i). Qed.
  Theorem C64_quad_flat_partial (c : quad P) v i
    (s := coord (q_start c) i) (k := coord (q_ctrl c) i) (e := coord (q_end c) i) :
    (i < p_dim (P := P))%nat -> ~ quad_skipped (q_start c) (q_ctrl c) (q_end c) -> Rabs (s - 2 * k + e) < eps ->
    exists l, quad_solve_t_for_axis c v i = Ret l /\ (length l <= 1)%nat /\
      forall t, In t l -> 0 < t < 1 /\ Rabs (coord (quad_eval c t) i - v) < eps.
  Proof. exact (quad_solve_flat c v i). Qed.
  Theorem C64_cubic_partial (c : cubic P) v i
    (s := coord (c_start c) i) (k1 := coord (c_ctrl1 c) i) (k2 := coord (c_ctrl2 c) i) (e := coord (c_end c) i) :
    (i < p_dim (P := P))%nat -> ~ cubic_skipped (c_start c) (c_ctrl1 c) (c_ctrl2 c) (c_end c) -> eps <= Rabs (e - 3 * k2 + 3 * k1 - s) ->
    discriminant (e - 3 * k2 + 3 * k1 - s) (3 * (s - 2 * k1 + k2)) (3 * (k1 - s)) (s - v) < 0 ->
    exists l, cubic_solve_t_for_axis c v i = Ret l /\ (length l <= 2)%nat /\
      (forall t, In t l -> 0 < t < 1) /\
      forall t, 0 < t < 1 -> coord (cubic_eval c t) i = v -> In t l.
  Proof. exact (cubic_solve_one c v i). Qed.
  (** three solutions: each value returned is near one, each one not near the ends is found *)
  Theorem C64_cubic_three_partial (c : cubic P) v i
    (s := coord (c_start c) i) (k1 := coord (c_ctrl1 c) i) (k2 := coord (c_ctrl2 c) i) (e := coord (c_end c) i)
    (A := e - 3 * k2 + 3 * k1 - s) (B := 3 * (s - 2 * k1 + k2)) (K := 3 * (k1 - s))
    (err := sqrt (B ^ 2 - 3 * A * K) / Rabs A * / 10000000) :
    (i < p_dim (P := P))%nat -> ~ cubic_skipped (c_start c) (c_ctrl1 c) (c_ctrl2 c) (c_end c) -> eps <= Rabs A ->
    0 < discriminant A B K (s - v) ->
    exists l, cubic_solve_t_for_axis c v i = Ret l /\ (length l <= 3)%nat /\
      (forall t, In t l -> 0 < t < 1 /\ exists r, Rabs (t - r) <= err /\ coord (cubic_eval c r) i = v) /\
      (forall r, err < r < 1 - err -> coord (cubic_eval c r) i = v -> exists t, In t l /\ Rabs (t - r) <= err).
  Proof. exact (cubic_solve_three c v i). Qed.
  (** a double or triple solution *)
  Theorem C64_cubic_double_partial (c : cubic P) v i a r m :
    (i < p_dim (P := P))%nat -> ~ cubic_skipped (c_start c) (c_ctrl1 c) (c_ctrl2 c) (c_end c) -> eps <= Rabs a ->
    r = m \/ 3 / 2 * eps <= Rabs (r - m) ->
    (forall t, coord (cubic_eval c t) i - v = a * (t - r) * (t - m) ^ 2) ->
    exists l, cubic_solve_t_for_axis c v i = Ret l /\
      forall t, In t l <-> 0 < t < 1 /\ coord (cubic_eval c t) i = v.
  Proof. exact (cubic_solve_double c v i a r m). Qed.
  (** an axis that is quadratic up to EPSILON *)
  Theorem C64_cubic_flat_partial (c : cubic P) v i
    (s := coord (c_start c) i) (k1 := coord (c_ctrl1 c) i) (k2 := coord (c_ctrl2 c) i) (e := coord (c_end c) i)
    (A := e - 3 * k2 + 3 * k1 - s) (B := 3 * (s - 2 * k1 + k2)) (K := 3 * (k1 - s)) :
    (i < p_dim (P := P))%nat -> ~ cubic_skipped (c_start c) (c_ctrl1 c) (c_ctrl2 c) (c_end c) -> Rabs A < eps ->
    (eps <= Rabs B -> 0 <= K * K - 4 * B * (s - v) \/ K * K - 4 * B * (s - v) <= - eps) ->
    exists l, cubic_solve_t_for_axis c v i = Ret l /\ (length l <= 2)%nat /\
      (forall t, In t l -> 0 < t < 1 /\ Rabs (coord (cubic_eval c t) i - v) < 2 * eps) /\
      (A = 0 -> eps <= Rabs B -> forall t, 0 < t < 1 -> coord (cubic_eval c t) i = v -> In t l).
  Proof. exact (cubic_solve_flat c v i). Qed.
  (** curves taken for a point have no solutions, all others are solved as above *)
  Theorem C64_skipped (q : quad P) (c : cubic P) v i :
    (quad_skipped (q_start q) (q_ctrl q) (q_end q) -> quad_solve_t_for_axis q v i = Ret []) /\
    (cubic_skipped (c_start c) (c_ctrl1 c) (c_ctrl2 c) (c_end c) -> cubic_solve_t_for_axis c v i = Ret []).
  Proof. exact (conj (quad_solve_skipped q v i) (cubic_solve_skipped c v i)). Qed.
  Theorem C64_open_interval (c : cubic P) (q : quad P) v i l :
    cubic_solve_t_for_axis c v i = Ret l \/ quad_solve_t_for_axis q v i = Ret l ->
    forall t, In t l -> 0 < t < 1.
  Proof. exact (fun H => match H with or_introl A => cubic_solve_ends c v i l A | or_intror B => quad_solve_ends q v i l B end). Qed.
End Solve.

Theorem C64_ends_refuted {E : Eps} : exists (c : quad P1) v l, far_apart (q_start c) (q_end c) /\
  quad_solve_t_for_axis c v 0 = Ret l /\
  exists t, 0 <= t <= 1 /\ coord (quad_eval c t) 0 = v /\ ~ In t l.
Proof. exact quad_solve_ce. Qed.

(** a curve whose ends are further apart than EPSILON is taken for a point *)
Theorem C64_skipped_refuted {E : Eps} : eps < 1 / 4 -> exists (c : quad P1) v t,
  eps < dist (q_start c) (q_end c) /\ 0 < t < 1 /\ coord (quad_eval c t) 0 = v /\
  quad_solve_t_for_axis c v 0 = Ret [].
Proof. exact quad_skipped_ce. Qed.

(** x(t) = 4 t^2 - 2 t on the first axis: the value 0 is taken at t = 1/2 *)
Example C64_quad_ex {E : Eps} : eps <= 1 / 1000 -> ~ quad_skipped (pt1 0) (pt1 (-1)) (pt1 2) /\ eps <= Rabs (0 - 2 * (-1) + 2) /\
  0 <= (-1 - 0) * (-1 - 0) - (0 - 2 * (-1) + 2) * (0 - 0) /\
  coord (quad_eval (Quad (pt1 0) (pt1 (-1)) (pt1 2)) (1 / 2)) 0 = 0.
Proof.
  intros H. split; [apply far_not_quad, far_pt1; lra|]. rewrite Rabs_pos_eq by lra. repeat split; try lra.
  rewrite ExactEval.quad_eval_coord by apply in1. cbn [q_start q_ctrl q_end]. rewrite !coord_pt1. lra.
Qed.
(** x(t) = t^3 + t: strictly increasing, value 5/8 at t = 1/2 *)
Example C64_cubic_ex {E : Eps} : eps <= 1 / 1000 -> ~ cubic_skipped (pt1 0) (pt1 (1 / 3)) (pt1 (2 / 3)) (pt1 2) /\ eps <= Rabs (2 - 3 * (2 / 3) + 3 * (1 / 3) - 0) /\
  discriminant (2 - 3 * (2 / 3) + 3 * (1 / 3) - 0) (3 * (0 - 2 * (1 / 3) + 2 / 3)) (3 * (1 / 3 - 0)) (0 - 5 / 8) < 0 /\
  coord (cubic_eval (Cubic (pt1 0) (pt1 (1 / 3)) (pt1 (2 / 3)) (pt1 2)) (1 / 2)) 0 = 5 / 8.
Proof.
  intros H. split; [apply far_not_cubic, far_pt1; lra|]. rewrite Rabs_pos_eq by lra. unfold discriminant. repeat split; try lra.
  rewrite ExactEval.cubic_eval_coord by apply in1. cbn [c_start c_ctrl1 c_ctrl2 c_end]. rewrite !coord_pt1. lra.
Qed.

(** 32 (t - 1/4) (t - 1/2) (t - 3/4);  32 (t - 3/4) (t - 1/4)^2;  4 t^2 - 2 t *)
Example C64_cubic_three_ex {E : Eps} : eps <= 1 / 1000 -> ~ cubic_skipped (pt1 (-3)) (pt1 (13 / 3)) (pt1 (-13 / 3)) (pt1 3) /\
  eps <= Rabs (3 - 3 * (-13 / 3) + 3 * (13 / 3) - -3) /\
  0 < discriminant (3 - 3 * (-13 / 3) + 3 * (13 / 3) - -3) (3 * (-3 - 2 * (13 / 3) + -13 / 3)) (3 * (13 / 3 - -3)) (-3 - 0) /\
  coord (cubic_eval (Cubic (pt1 (-3)) (pt1 (13 / 3)) (pt1 (-13 / 3)) (pt1 3)) (1 / 4)) 0 = 0.
Proof.
  intros H. split; [apply far_not_cubic, far_pt1; lra|]. rewrite Rabs_pos_eq by lra. unfold discriminant. repeat split; try lra.
  rewrite ExactEval.cubic_eval_coord by apply in1. cbn [c_start c_ctrl1 c_ctrl2 c_end]. rewrite !coord_pt1. lra.
Qed.
Example C64_cubic_double_ex {E : Eps} : eps <= 1 / 1000 -> ~ cubic_skipped (pt1 (-3 / 2)) (pt1 (19 / 6)) (pt1 (-11 / 2)) (pt1 (9 / 2)) /\
  eps <= Rabs 32 /\ 3 / 2 * eps <= Rabs (3 / 4 - 1 / 4) /\
  forall t, coord (cubic_eval (Cubic (pt1 (-3 / 2)) (pt1 (19 / 6)) (pt1 (-11 / 2)) (pt1 (9 / 2))) t) 0 - 0
    = 32 * (t - 3 / 4) * (t - 1 / 4) ^ 2.
Proof.
  intros H. split; [apply far_not_cubic, far_pt1; lra|]. rewrite !Rabs_pos_eq by lra. repeat split; try lra. intros t.
  rewrite ExactEval.cubic_eval_coord by apply in1. cbn [c_start c_ctrl1 c_ctrl2 c_end]. rewrite !coord_pt1. field.
Qed.
Example C64_cubic_flat_ex {E : Eps} : eps <= 1 / 1000 -> ~ cubic_skipped (pt1 0) (pt1 (-2 / 3)) (pt1 0) (pt1 2) /\
  2 - 3 * 0 + 3 * (-2 / 3) - 0 = 0 /\ eps <= Rabs (3 * (0 - 2 * (-2 / 3) + 0)) /\
  0 <= 3 * (-2 / 3 - 0) * (3 * (-2 / 3 - 0)) - 4 * (3 * (0 - 2 * (-2 / 3) + 0)) * (0 - 0) /\
  coord (cubic_eval (Cubic (pt1 0) (pt1 (-2 / 3)) (pt1 0) (pt1 2)) (1 / 2)) 0 = 0.
Proof.
  intros H. split; [apply far_not_cubic, far_pt1; lra|]. rewrite Rabs_pos_eq by lra. repeat split; try lra.
  rewrite ExactEval.cubic_eval_coord by apply in1. cbn [c_start c_ctrl1 c_ctrl2 c_end]. rewrite !coord_pt1. lra.
Qed.

Print Assumptions C59_total.
Print Assumptions C58_same_solver.
Print Assumptions C59_one_partial.
Print Assumptions C59_one_exact_partial.
Print Assumptions C59_double_partial.
Print Assumptions C59_triple.
Print Assumptions C59_three_partial.
Print Assumptions C59_three_refuted.
Print Assumptions C59_one_refuted.
Print Assumptions C64_quad_partial.
Print Assumptions C64_quad_flat_partial.
Print Assumptions C64_cubic_partial.
Print Assumptions C64_skipped.
Print Assumptions C64_skipped_refuted.
Print Assumptions C64_cubic_three_partial.
Print Assumptions C64_cubic_double_partial.
Print Assumptions C64_cubic_flat_partial.
Print Assumptions C59_degenerate.
Print Assumptions C64_open_interval.
Print Assumptions C64_ends_refuted.
