(** C102: NaN and infinity are not swallowed: a finite coordinate of a result comes from finite coordinates.
    No hypothesis on sizes; t may be anything. *)
From Coq Require Import ZArith List Arith Lia.
From Flocq Require Import IEEE754.BinarySingleNaN.
From Verif Require Import Base.Outcome Base.Scalar Model.Point Model.Line Model.Quadratic Model.Cubic Model.Bezier
  Model.BSpline Inst.FloatInst Spec.Rounding Spec.Componentwise Spec.FloatPoints Proofs.FloatPoint Proofs.Poison.
Import ListNotations.

Section Poison.
  Context {F : Format} {P : Type} {PT : Point float P} {CP : CwPoint float P}.

  (** evaluation, axis by axis; also the parameter must have been finite *)
  Theorem C102_line_eval (l : line P) t i : i < p_dim (P := P) -> fin (cw (line_eval l t) i) ->
    fin t /\ fin (cw (l_start l) i) /\ fin (cw (l_end l) i).
  Proof. exact (line_eval_fin l t i). Qed.
  Theorem C102_quad_eval (q : quad P) t i : i < p_dim (P := P) ->
    fin (cw (quad_eval q t) i) \/ fin (cw (quad_eval_casteljau q t) i) ->
    fin t /\ fin (cw (q_start q) i) /\ fin (cw (q_ctrl q) i) /\ fin (cw (q_end q) i).
  Proof. exact (quad_eval_fin q t i). Qed.
  Theorem C102_cubic_eval (c : cubic P) t i : i < p_dim (P := P) ->
    fin (cw (cubic_eval c t) i) \/ fin (cw (cubic_eval_casteljau c t) i) ->
    fin t /\ fin (cw (c_start c) i) /\ fin (cw (c_ctrl1 c) i) /\ fin (cw (c_ctrl2 c) i) /\ fin (cw (c_end c) i).
  Proof. exact (cubic_eval_fin c t i). Qed.
  Theorem C102_bezier_eval (ps : list P) t p i : i < p_dim (P := P) ->
    bezier_eval (Bezier ps) t = Ret p -> fin (cw p i) ->
    (2 <= length ps -> fin t) /\ forall q, In q ps -> fin (cw q i).
  Proof. exact (bezier_eval_fin ps t p i). Qed.
  (** a B-spline: the control points in use, see C44 *)
  Theorem C102_bspline_eval D ks (ps : list P) s t k p i d : i < p_dim (P := P) ->
    bspline_new D ks ps = Ret (Ok s) -> knot_span_start_for_t s t = Ret (Some k) -> D <= k <= length ps ->
    s_eqb t (nth (length ps) ks (s_lit 0)) = false ->
    bspline_eval s t = Ret (Ok p) -> fin (cw p i) ->
    forall j, k - D <= j < k -> fin (cw (nth j ps d) i).
  Proof. exact (bspline_eval_fin D ks ps s t k p i d). Qed.

  (** derivatives *)
  Theorem C102_line_derivative (l : line P) i : i < p_dim (P := P) -> fin (cw (line_derivative l) i) ->
    fin (cw (l_start l) i) /\ fin (cw (l_end l) i).
  Proof. exact (line_derivative_fin l i). Qed.
  Theorem C102_quad_derivative (q : quad P) i : i < p_dim (P := P) ->
    fin (cw (l_start (quad_derivative q)) i) -> fin (cw (l_end (quad_derivative q)) i) ->
    fin (cw (q_start q) i) /\ fin (cw (q_ctrl q) i) /\ fin (cw (q_end q) i).
  Proof. exact (quad_derivative_fin q i). Qed.
  Theorem C102_cubic_derivative (c : cubic P) i : i < p_dim (P := P) -> let d := cubic_derivative c in
    fin (cw (q_start d) i) -> fin (cw (q_ctrl d) i) -> fin (cw (q_end d) i) ->
    fin (cw (c_start c) i) /\ fin (cw (c_ctrl1 c) i) /\ fin (cw (c_ctrl2 c) i) /\ fin (cw (c_end c) i).
  Proof. exact (cubic_derivative_fin c i). Qed.
  Theorem C102_bezier_derivative (ps qs : list P) i : i < p_dim (P := P) -> 2 <= length ps ->
    bezier_derivative (Bezier ps) = Ret (Bezier qs) -> (forall q, In q qs -> fin (cw q i)) ->
    forall q, In q ps -> fin (cw q i).
  Proof. exact (bezier_derivative_fin ps qs i). Qed.

  (** lengths: on all axes *)
  Theorem C102_quad_arclen (q : quad P) n r : 2 <= n -> quad_arclen q n = Ret r -> fin r ->
    fin_point (q_start q) /\ fin_point (q_ctrl q) /\ fin_point (q_end q).
  Proof. exact (quad_arclen_fin q n r). Qed.
  Theorem C102_cubic_arclen (c : cubic P) n r : 2 <= n -> cubic_arclen c n = Ret r -> fin r ->
    fin_point (c_start c) /\ fin_point (c_ctrl1 c) /\ fin_point (c_ctrl2 c) /\ fin_point (c_end c).
  Proof. exact (cubic_arclen_fin c n r). Qed.
  Theorem C102_bezier_arclen (ps : list P) n r : 2 <= n -> bezier_arclen (Bezier ps) n = Ret r -> fin r ->
    forall q, In q ps -> fin_point q.
  Proof. exact (bezier_arclen_fin ps n r). Qed.

  (** a finite distance_to_point: only the query point and the first control point are known to be finite *)
  Theorem C102_quad_distance (q : quad P) p r : quad_distance_to_point q p = Ret r -> fin r ->
    fin_point p /\ fin_point (q_start q).
  Proof. exact (quad_distance_fin q p r). Qed.
  Theorem C102_cubic_distance (c : cubic P) p r : cubic_distance_to_point c p = Ret r -> fin r ->
    fin_point p /\ fin_point (c_start c).
  Proof. exact (cubic_distance_fin c p r). Qed.
  Theorem C102_bezier_distance (ps : list P) p d r : bezier_distance_to_point (Bezier ps) p = Ret r -> fin r ->
    fin_point p /\ fin_point (nth 0 ps d).
  Proof. exact (bezier_distance_fin ps p d r). Qed.
  (** with a NaN in the control point the search returns the distance to the start point *)
  Theorem C102_quad_distance_blind (q : quad P) p i : i < p_dim (P := P) -> nan (cw (q_ctrl q) i) ->
    quad_distance_to_point q p = Ret (s_sqrt (p_sqlen (p_sub p (q_start q)))).
  Proof. exact (quad_distance_blind q p i). Qed.
End Poison.

(** the search for the nearest point swallows NaN *)
Theorem C102_distance_refuted {F : Format} : ~ (forall (q : quad (PointN float 1)) p r,
  quad_distance_to_point q p = Ret r -> fin r -> fin_point (q_ctrl q)).
Proof. exact distance_poison_refuted. Qed.

(** at t = 0 the weight of the end point is 0, yet its infinite coordinate shows (as NaN); the other axis is fine *)
Example C102_case {F : Format} :
  let l := Line (fpt2 (B754_zero false) (B754_zero false)) (fpt2 (B754_infinity false) (B754_zero false)) in
  ~ fin (cw (line_eval l (B754_zero false)) 0) /\ fin (cw (line_eval l (B754_zero false)) 1).
Proof.
  cbv zeta. split; [|reflexivity]. intros H. apply C102_line_eval in H; [|cbn; lia].
  destruct H as (_ & _ & H). discriminate H.
Qed.

Print Assumptions C102_line_eval.
Print Assumptions C102_quad_eval.
Print Assumptions C102_cubic_eval.
Print Assumptions C102_bezier_eval.
Print Assumptions C102_bspline_eval.
Print Assumptions C102_line_derivative.
Print Assumptions C102_quad_derivative.
Print Assumptions C102_cubic_derivative.
Print Assumptions C102_bezier_derivative.
Print Assumptions C102_quad_arclen.
Print Assumptions C102_cubic_arclen.
Print Assumptions C102_bezier_arclen.
Print Assumptions C102_quad_distance.
Print Assumptions C102_cubic_distance.
Print Assumptions C102_bezier_distance.
Print Assumptions C102_quad_distance_blind.
Print Assumptions C102_distance_refuted.
