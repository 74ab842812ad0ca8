(** Curves on which [distance_to_point] underestimates: the fine pass of the
    search evaluates the curve at negative parameters. *)
From Coq Require Import Reals QArith Qreals List Arith Lia Lra Psatz.
From Verif Require Import Base.Outcome Base.Scalar Model.Point Model.Line Model.Quadratic Model.Cubic
  Model.Bezier Inst.RealInst Inst.RatInst
  Spec.Sums Spec.Lawful Spec.Bernstein Spec.Metric Spec.Points
  Proofs.OutcomeFacts Proofs.PointFacts Proofs.RealTac Proofs.Metric Proofs.ExactEval
  Proofs.BezierGeneric Proofs.BezierReal Spec.Maps Proofs.Transfer.
Import ListNotations.
Local Open Scope R_scope.

Definition zpt2 (x y : Z) : PointN Q 2 := pt [inject_Z x; inject_Z y].

Lemma pq2r_zpt2 x y : pq2r (zpt2 x y) = pt2 (IZR x) (IZR y).
Proof. apply pn_eq. cbn [pq2r pn_arr zpt2 map pt2 pt]. now rewrite !Q2R_Z. Qed.

Section CE.
  Context {E : Eps}.
  Existing Instance QEps64.

  Lemma dist2_ge (p q : P2) d : 0 <= d -> d <= coord q 1 - coord p 1 -> d <= dist p q.
  Proof.
    intros Hd H. unfold dist. cbn [p_dim PointN_Point Rsum].
    rewrite <- (sqrt_square d) by lra. apply sqrt_le_1_alt.
    pose proof (Rle_0_sqr (coord p 0 - coord q 0)) as Hs. unfold Rsqr in Hs.
    assert (d * d <= (coord p 1 - coord q 1) * (coord p 1 - coord q 1)) by nra.
    lra.
  Qed.

  (** x(t) = 2^20 (t - 127/256)(t + 61/4096), y(t) = 2^13 (t + 61/4096) *)
  Definition ce_quad : quad P2 := Quad (pt2 (-7747) 122) (pt2 (-260035) 4218) (pt2 536253 8314).
  Definition ce_quadQ : quad (PointN Q 2) := Quad (zpt2 (-7747) 122) (zpt2 (-260035) 4218) (zpt2 536253 8314).
  Lemma ce_quad_map : qmap pq2r ce_quadQ = ce_quad.
  Proof. unfold qmap, ce_quadQ, ce_quad. cbn [q_start q_ctrl q_end]. now rewrite !pq2r_zpt2. Qed.

  Lemma quad_distance_ce : quad_distance_to_point ce_quad (pt2 0 0) = Ret 0 /\
    forall t, 0 <= t <= 1 -> 122 <= dist (pt2 0 0) (quad_eval ce_quad t).
  Proof.
    split.
    - unfold quad_distance_to_point. rewrite <- ce_quad_map.
      change (q_start (qmap pq2r ce_quadQ)) with (pq2r (q_start ce_quadQ)).
      rewrite <- (pq2r_zpt2 0 0).
      rewrite (search_hom Q2R pq2r (fun t => Ret (quad_eval ce_quadQ t))).
      + replace (search_sq _ _ _) with (Ret (0 # 1)) by (vm_compute; reflexivity).
        cbn [omap]. f_equal. rs. unfold Q2R. cbn [Qnum Qden]. rewrite Rmult_0_l. apply sqrt_0.
      + intros t. cbn [omap]. f_equal. apply quad_eval_hom; typeclasses eauto.
    - intros t Ht. apply dist2_ge; [lra|]. rewrite quad_eval_coord by (cbn; lia).
      unfold ce_quad. cbn. nra.
  Qed.

  (** the same curve, as a generic Bezier *)
  Definition ce_points : list P2 := [pt2 (-7747) 122; pt2 (-260035) 4218; pt2 536253 8314].
  Lemma bezier_distance_ce : bezier_distance_to_point (Bezier ce_points) (pt2 0 0) = Ret 0 /\ forall t, 0 <= t <= 1 -> exists q, bezier_eval (Bezier ce_points) t = Ret q /\ 122 <= dist (pt2 0 0) q.
  Proof.
    set (cQ := Bezier [zpt2 (-7747) 122; zpt2 (-260035) 4218; zpt2 536253 8314]).
    assert (Em : zmap pq2r cQ = Bezier ce_points).
    { unfold zmap, cQ, ce_points. cbn [bz_points map]. now rewrite !pq2r_zpt2. }
    split.
    - unfold bezier_distance_to_point. rewrite <- Em.
      rewrite <- (pq2r_zpt2 0 0).
      change (idx (bz_points (zmap pq2r cQ)) 0) with (Ret (pq2r (zpt2 (-7747) 122))). cbn [bind].
      rewrite (search_hom Q2R pq2r (bezier_eval cQ)).
      + replace (search_sq _ _ _) with (Ret (0 # 1)) by (vm_compute; reflexivity).
        cbn [omap]. f_equal. rs. unfold Q2R. cbn [Qnum Qden]. rewrite Rmult_0_l. apply sqrt_0.
      + intros t. apply bezier_eval_hom; typeclasses eauto.
    - intros t Ht. destruct (bezier_eval_spec ce_points t) as (q & Eq & Hq); [discriminate|].
      exists q. split; [exact Eq|].  apply dist2_ge; [lra|]. rewrite Hq by (cbn; lia).
      assert (H1 : (1 < p_dim (P := P2))%nat) by (cbn; lia).
      pose proof (quad_eval_spec ce_quad t 1 H1) as Hs.
      change (curve_coord ce_points t 1) with (curve_coord [q_start ce_quad; q_ctrl ce_quad; q_end ce_quad] t 1).
      rewrite <- Hs, quad_eval_coord by exact H1. unfold ce_quad. cbn.
      match goal with |- 122 <= ?x - 0 => replace x with (122 + 8192 * t) by ring end. lra.
  Qed.

  (** three times the same curve, as a cubic *)
  Definition ce_cubic : cubic P2 :=
    Cubic (pt2 (-23241) 366) (pt2 (-527817) 8558) (pt2 16183 16750) (pt2 1608759 24942).
  Lemma cubic_distance_ce : cubic_distance_to_point ce_cubic (pt2 0 0) = Ret 0 /\ forall t, 0 <= t <= 1 -> 366 <= dist (pt2 0 0) (cubic_eval ce_cubic t).
  Proof.
    set (cQ := Cubic (zpt2 (-23241) 366) (zpt2 (-527817) 8558) (zpt2 16183 16750) (zpt2 1608759 24942)).
    assert (Em : cmap pq2r cQ = ce_cubic).
    { unfold cmap, cQ, ce_cubic. cbn [c_start c_ctrl1 c_ctrl2 c_end]. now rewrite !pq2r_zpt2. }
    split.
    - unfold cubic_distance_to_point. rewrite <- Em.
      change (c_start (cmap pq2r cQ)) with (pq2r (c_start cQ)).
      rewrite <- (pq2r_zpt2 0 0).
      rewrite (search_hom Q2R pq2r (fun t => Ret (cubic_eval cQ t))).
      + replace (search_sq _ _ _) with (Ret (0 # 1)) by (vm_compute; reflexivity).
        cbn [omap]. f_equal. rs. unfold Q2R. cbn [Qnum Qden]. rewrite Rmult_0_l. apply sqrt_0.
      + intros t. cbn [omap]. f_equal. apply cubic_eval_hom; typeclasses eauto.
    - intros t Ht. apply dist2_ge; [lra|]. rewrite cubic_eval_coord by (cbn; lia).
      unfold ce_cubic. cbn.
      match goal with |- 366 <= ?x - 0 => replace x with (366 + 24576 * t) by ring end. lra.
  Qed.
End CE.
