(** C78, C79: moving, turning, mirroring, scaling and embedding curves, exact arithmetic. *)
From Coq Require Import Reals List Arith Lia Lra.
From Verif Require Import Base.Outcome Base.Scalar Model.Point Model.Line Model.Quadratic Model.Cubic
  Model.Bezier Model.BSpline Inst.RealInst Spec.Sums Spec.Lawful Spec.Points Spec.Maps
  Proofs.PointFacts Proofs.RealTac Proofs.Metric Proofs.BoxSpec Proofs.Equivariance Proofs.EquivarianceCE.
Import ListNotations.
Local Open Scope R_scope.

Section Maps.
  Context {E : Eps} {P Q : Type} {PT : Point R P} {QT : Point R Q} {LP : LawfulPoint P} {LQ : LawfulPoint Q}.

  (** C78: evaluation and split commute with every affine map *)
  Theorem C78_eval (F : P -> Q) (a b c d : P) ps t : affine_map F ->
    line_eval (Line (F a) (F b)) t = F (line_eval (Line a b) t) /\
    quad_eval (Quad (F a) (F b) (F c)) t = F (quad_eval (Quad a b c) t) /\
    cubic_eval (Cubic (F a) (F b) (F c) (F d)) t = F (cubic_eval (Cubic a b c d) t) /\
    bezier_eval (Bezier (map F ps)) t = omap F (bezier_eval (Bezier ps) t).
  Proof.
    intros H. exact (conj (line_eval_aff F H a b t) (conj (quad_eval_aff F H a b c t)
      (conj (cubic_eval_aff F H a b c d t) (bezier_eval_aff F H ps t)))).
  Qed.
  Theorem C78_quad_split (F : P -> Q) a b c t : affine_map F ->
    quad_split (Quad (F a) (F b) (F c)) t
    = (let q := fst (quad_split (Quad a b c) t) in Quad (F (q_start q)) (F (q_ctrl q)) (F (q_end q)),
       let q := snd (quad_split (Quad a b c) t) in Quad (F (q_start q)) (F (q_ctrl q)) (F (q_end q))).
  Proof. intros H. exact (quad_split_aff F H a b c t). Qed.
  Theorem C78_cubic_split (F : P -> Q) a b c d t : affine_map F ->
    cubic_split (Cubic (F a) (F b) (F c) (F d)) t
    = (let q := fst (cubic_split (Cubic a b c d) t) in Cubic (F (c_start q)) (F (c_ctrl1 q)) (F (c_ctrl2 q)) (F (c_end q)),
       let q := snd (cubic_split (Cubic a b c d) t) in Cubic (F (c_start q)) (F (c_ctrl1 q)) (F (c_ctrl2 q)) (F (c_end q))).
  Proof. intros H. exact (cubic_split_aff F H a b c d t). Qed.
  Theorem C78_bezier_split (F : P -> Q) ps t : affine_map F ->
    bezier_split (Bezier (map F ps)) t
    = omap (fun lr => (Bezier (map F (bz_points (fst lr))), Bezier (map F (bz_points (snd lr))))) (bezier_split (Bezier ps) t).
  Proof. intros H. exact (bezier_split_aff F H ps t). Qed.

  (** C78: lengths, distances and tolerances scale with a similarity *)
  Theorem C78_arclen s (F : P -> Q) (a b c d : P) ps n : similarity s F ->
    quad_arclen (Quad (F a) (F b) (F c)) n = omap (Rmult s) (quad_arclen (Quad a b c) n) /\
    cubic_arclen (Cubic (F a) (F b) (F c) (F d)) n = omap (Rmult s) (cubic_arclen (Cubic a b c d) n) /\
    bezier_arclen (Bezier (map F ps)) n = omap (Rmult s) (bezier_arclen (Bezier ps) n).
  Proof.
    intros H. exact (conj (quad_arclen_sim s F H a b c n)
      (conj (cubic_arclen_sim s F H a b c d n) (bezier_arclen_sim s F H ps n))).
  Qed.
  Theorem C78_distance s (F : P -> Q) (a b c d : P) ps p : similarity s F ->
    quad_distance_to_point (Quad (F a) (F b) (F c)) (F p) = omap (Rmult s) (quad_distance_to_point (Quad a b c) p) /\
    cubic_distance_to_point (Cubic (F a) (F b) (F c) (F d)) (F p)
      = omap (Rmult s) (cubic_distance_to_point (Cubic a b c d) p) /\
    bezier_distance_to_point (Bezier (map F ps)) (F p) = omap (Rmult s) (bezier_distance_to_point (Bezier ps) p).
  Proof.
    intros H. exact (conj (quad_distance_sim s F H a b c p)
      (conj (cubic_distance_sim s F H a b c d p) (bezier_distance_sim s F H ps p))).
  Qed.
  Theorem C78_is_a_point s (F : P -> Q) a b c d tol : similarity s F ->
    quad_is_a_point (Quad (F a) (F b) (F c)) (s * tol) = quad_is_a_point (Quad a b c) tol /\
    cubic_is_a_point (Cubic (F a) (F b) (F c) (F d)) (s * tol) = cubic_is_a_point (Cubic a b c d) tol.
  Proof. intros H. exact (conj (quad_is_a_point_sim s F H a b c tol) (cubic_is_a_point_sim s F H a b c d tol)). Qed.

  (** C78: the line distance and [is_linear] do as long as the scaled chord stays on
      its side of EPSILON - always so for s = 1 *)
  Theorem C78_line_distance s (F : P -> Q) a b p : similarity s F ->
    (s * s * (dist a b * dist a b) < eps <-> dist a b * dist a b < eps) ->
    line_distance_to_point (Line (F a) (F b)) (F p) = omap (Rmult s) (line_distance_to_point (Line a b) p).
  Proof. intros H. exact (line_distance_sim s F H a b p). Qed.
  Theorem C78_quad_is_linear s (F : P -> Q) a b c tol : similarity s F ->
    (s * s * (dist a c * dist a c) < eps <-> dist a c * dist a c < eps) ->
    quad_is_linear (Quad (F a) (F b) (F c)) (s * tol) = quad_is_linear (Quad a b c) tol.
  Proof. intros H. exact (quad_is_linear_sim s F H a b c tol). Qed.
  Theorem C78_cubic_is_linear s (F : P -> Q) a b c d tol : similarity s F ->
    (s * s * (dist a d * dist a d) < eps <-> dist a d * dist a d < eps) ->
    cubic_is_linear (Cubic (F a) (F b) (F c) (F d)) (s * tol) = cubic_is_linear (Cubic a b c d) tol.
  Proof. intros H. exact (cubic_is_linear_sim s F H a b c d tol). Qed.

  (** C79.  Full statement: B-splines commute with affine maps, as the curves do.
      False for translations ([C79_move_refuted]).  They commute with linear maps, errors and panics included;
      the constructor does not look at the points *)
  Theorem C79_new (F : P -> Q) D ks ps :
    bspline_new D ks (map F ps)
    = omap (rmap (fun s => BSpline (bs_degree s) (bs_knots s) (bs_kind s) (map F (bs_points s)))) (bspline_new D ks ps).
  Proof. exact (bspline_new_lin F D ks ps). Qed.
  Theorem C79_eval_linear_partial (F : P -> Q) D ks k ps t : linear_map F ->
    bspline_eval (BSpline D ks k (map F ps)) t = omap (rmap F) (bspline_eval (BSpline D ks k ps) t).
  Proof. intros H. exact (bspline_eval_lin F H D ks k ps t). Qed.
  Theorem C79_derivative_linear_partial (F : P -> Q) D ks k ps : linear_map F ->
    bspline_derivative (BSpline D ks k (map F ps))
    = omap (fun s => BSpline (bs_degree s) (bs_knots s) (bs_kind s) (map F (bs_points s)))
        (bspline_derivative (BSpline D ks k ps)).
  Proof. intros H. exact (bspline_derivative_lin F H D ks k ps). Qed.
  Theorem C79_arclen_linear_partial s (F : P -> Q) D ks k ps n : linear_map F -> similarity s F ->
    bspline_arclen (BSpline D ks k (map F ps)) n = omap (Rmult s) (bspline_arclen (BSpline D ks k ps) n).
  Proof. intros H Hs. exact (bspline_arclen_lin F H s D ks k ps n (proj1 Hs) (proj2 (proj2 Hs))). Qed.

  (** moving the control points by [v] moves the result by [v] times what the same
      spline returns when all its control points are 1, which should be 1 *)
  Theorem C79_move_partial (D : nat) (ks : list R) (k : KnotVectorKind) (ps : list P) (t : R) (v x : P) (w : P1) :
    bspline_eval (BSpline D ks k ps) t = Ret (Ok x) ->
    bspline_eval (BSpline D ks k (repeat (pt1 1) (length ps))) t = Ret (Ok w) ->
    bspline_eval (BSpline D ks k (map (fun p => p_add p v) ps)) t = Ret (Ok (p_add x (p_mul v (coord w 0)))).
  Proof. exact (bspline_eval_move D ks k ps t v x w). Qed.

  (** C78: boxes move with the curve *)
  Theorem C78_box v (F : P -> P) (a b c d : P) : translation v F ->
    (exists l l', line_bounding_box (Line a b) = Ret l /\ line_bounding_box (Line (F a) (F b)) = Ret l' /\
       moved_box v l l') /\
    (exists l l', quad_bounding_box (Quad a b c) = Ret l /\ quad_bounding_box (Quad (F a) (F b) (F c)) = Ret l' /\
       moved_box v l l') /\
    (exists l l', cubic_bounding_box (Cubic a b c d) = Ret l /\
       cubic_bounding_box (Cubic (F a) (F b) (F c) (F d)) = Ret l' /\ moved_box v l l').
  Proof.
    intros H. exact (conj (line_box_trans v F H a b) (conj (quad_box_trans v F H a b c) (cubic_box_trans v F H a b c d))).
  Qed.
End Maps.

(** C78, refuted: doubling a short chord does not double the distance, and makes a
    curve linear that was not *)
Theorem C78_scale_refuted {E : Eps} : similarity 2 twice /\ exists (a b p : P1) d d',
  line_distance_to_point (Line a b) p = Ret d /\ line_distance_to_point (Line (twice a) (twice b)) (twice p) = Ret d' /\
  d' < 2 * d /\ (forall tol, 0 <= tol -> quad_is_linear (Quad a p b) tol = Ret false /\
    quad_is_linear (Quad (twice a) (twice p) (twice b)) (2 * tol) = Ret true).
Proof. exact (conj twice_similar scale_ce). Qed.
Section Move.
Local Existing Instance Eps64.
(** C79, refuted: a B-spline does not move with its control points (the one missing
    in the evaluation, C44, stays at the origin) *)
Theorem C79_move_refuted : translation (fun _ => 1) up /\ exists s s' : bspline R P1,
  bspline_new 1 [0;0;1;1] [pt1 0; pt1 0] = Ret (Ok s) /\
  bspline_new 1 [0;0;1;1] [up (pt1 0); up (pt1 0)] = Ret (Ok s') /\
  bspline_eval s (1/2) = Ret (Ok (pt1 0)) /\
  bspline_eval s' (1/2) = Ret (Ok (pt1 (1/2))) /\ up (pt1 0) <> pt1 (1/2).
Proof. exact (conj up_moves move_ce). Qed.
(** here the weight is 1/2 *)
Example C79_ex : exists s : bspline R P1, bspline_new 1 [0;0;1;1] (repeat (pt1 1) 2) = Ret (Ok s) /\
  bspline_eval s (1/2) = Ret (Ok (pt1 (1/2))).
Proof.
  destruct move_ce as (_ & s & _ & H & _ & H' & _). exists s. split; [|exact H'].
  replace (up (pt1 0)) with (pt1 1) in H; [exact H|]. unfold up. rewrite coord_pt1. f_equal. ring.
Qed.
(** a chord of length 1, doubled *)
Example C78_ex_scale : 2 * 2 * (dist (pt1 0) (pt1 1) * dist (pt1 0) (pt1 1)) < eps <->
  dist (pt1 0) (pt1 1) * dist (pt1 0) (pt1 1) < eps.
Proof. rewrite dist_pt1, Rabs_left by lra. cbn [eps Eps64]. lra. Qed.
End Move.

(** a line laid into the plane *)
Example C78_C79_ex {E : Eps} : similarity 1 (fun p : P1 => pt2 (3 / 5 * coord p 0) (4 / 5 * coord p 0)) /\
  linear_map (fun p : P1 => pt2 (3 / 5 * coord p 0) (4 / 5 * coord p 0)).
Proof.
  set (F := fun p : P1 => pt2 (3 / 5 * coord p 0) (4 / 5 * coord p 0)).
  assert (HL : forall p j, (j < 2)%nat ->
    coord (F p) j = Rsum (fun k => (match j with O => 3 / 5 | _ => 4 / 5 end) * coord p k) 1).
  { intros p [|[|j]] Hj; [| |lia]; cbn [Rsum].
    - change (3 / 5 * coord p 0 = 0 + 3 / 5 * coord p 0). ring.
    - change (4 / 5 * coord p 0 = 0 + 4 / 5 * coord p 0). ring. }
  split; [split; [lra|split]|].
  - exists (fun j _ => match j with O => 3 / 5 | _ => 4 / 5 end), (fun _ => 0). intros p j Hj.
    rewrite (HL p j Hj). change (p_dim (P := P1)) with 1%nat. ring.
  - intros p q. unfold dist. change (p_dim (P := P2)) with 2%nat. change (p_dim (P := P1)) with 1%nat. cbn [Rsum].
    rewrite Rmult_1_l. f_equal. rewrite !(HL _ 0%nat), !(HL _ 1%nat) by lia. cbn [Rsum]. field.
  - exists (fun j _ => match j with O => 3 / 5 | _ => 4 / 5 end). exact HL.
Qed.
Print Assumptions C78_eval.
Print Assumptions C78_quad_split.
Print Assumptions C78_cubic_split.
Print Assumptions C78_bezier_split.
Print Assumptions C78_arclen.
Print Assumptions C78_distance.
Print Assumptions C78_is_a_point.
Print Assumptions C78_line_distance.
Print Assumptions C78_quad_is_linear.
Print Assumptions C78_cubic_is_linear.
Print Assumptions C79_new.
Print Assumptions C79_eval_linear_partial.
Print Assumptions C79_derivative_linear_partial.
Print Assumptions C79_arclen_linear_partial.
Print Assumptions C78_box.
Print Assumptions C78_scale_refuted.
Print Assumptions C79_move_partial.
Print Assumptions C79_move_refuted.
